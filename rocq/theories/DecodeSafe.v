(** For every input: the decoder terminates, never crashes, writes only to the target
    variable and fresh memory, and restores copyDepth unless it panics. *)
From Verif Require Import Base BaseFacts Varint VarintFacts Tags GoMem Decode.
From Coq Require Import ZifyBool ZifyNat ZifyN.
Ltac Zify.zify_post_hook ::= Z.div_mod_to_equations.

(** Weakest precondition of a decoder step: Q after success, E after an error,
    X after a recovered panic; Crash and NoFuel never satisfy it. *)
Definition wp {A} (m : M A) (Q : A -> dstate -> Prop) (E X : dstate -> Prop) (s : dstate) : Prop :=
  match m s with
  | (Ok a, s') => Q a s'
  | (Err _, s') => E s'
  | (Panic _, s') => X s'
  | (Crash, _) | (NoFuel, _) => False
  end.

Lemma wp_bind A B (m : M A) (k : A -> M B) Q E X s :
  wp m (fun a => wp (k a) Q E X) E X s -> wp (mbind m k) Q E X s.
Proof.
  unfold wp, mbind. destruct (m s) as [[a|e|e| |] s']; auto.
Qed.

Lemma wp_mono A (m : M A) (Q Q' : A -> dstate -> Prop) (E E' X X' : dstate -> Prop) s :
  wp m Q E X s ->
  (forall a s', Q a s' -> Q' a s') -> (forall s', E s' -> E' s') -> (forall s', X s' -> X' s') ->
  wp m Q' E' X' s.
Proof.
  unfold wp. destruct (m s) as [[a|e|e| |] s']; auto.
Qed.

Lemma wp_ret A (a : A) (Q : A -> dstate -> Prop) E X s : Q a s -> wp (ret a) Q E X s.
Proof. auto. Qed.
Lemma wp_fail A e (Q : A -> dstate -> Prop) (E X : dstate -> Prop) s : E s -> wp (fail e) Q E X s.
Proof. auto. Qed.
Lemma wp_panic A e (Q : A -> dstate -> Prop) (E X : dstate -> Prop) s : X s -> wp (panic e) Q E X s.
Proof. auto. Qed.

Lemma skip_pads_bounds l : forall idx b i,
  skip_pads l idx = Some (b, i) ->
  idx <= i /\ i < idx + length l /\ nth_error l (i - idx) = Some b /\ is_pad b = false.
Proof.
  induction l as [|x l IH]; intros idx b i H; cbn in H; [discriminate|].
  destruct (is_pad x) eqn:P.
  - apply IH in H. destruct H as (H1 & H2 & H3 & H4). cbn [length].
    repeat split; try lia; auto.
    replace (i - idx) with (S (i - S idx)) by lia. exact H3.
  - injection H as <- <-. cbn [length]. repeat split; try lia; auto.
    now rewrite Nat.sub_diag.
Qed.

Definition frame (ptr : loc) (h h' : heap) : Prop :=
  length h <= length h' /\
  forall l, l < length h -> l <> ptr -> nth_error h' l = nth_error h l.

Lemma frame_refl p h : frame p h h.
Proof. split; auto. Qed.

Lemma frame_trans p h1 h2 h3 : frame p h1 h2 -> frame p h2 h3 -> frame p h1 h3.
Proof.
  intros [L1 F1] [L2 F2]. split; [lia|]. intros l H N.
  rewrite F2 by lia. now apply F1.
Qed.

(** a step that touches only a cell that did not exist before *)
Lemma frame_fresh p q h h2 h3 :
  frame p h h2 -> frame q h2 h3 -> length h <= q -> frame p h h3.
Proof.
  intros [L1 F1] [L2 F2] Hq. split; [lia|]. intros l H N.
  rewrite F2 by lia. now apply F1.
Qed.

Lemma frame_app p h x : frame p h (h ++ x).
Proof.
  split; [rewrite app_length; lia|]. intros l H _. now apply nth_error_app1.
Qed.

Lemma frame_upd p h v : frame p h (upd h p v).
Proof.
  split; [rewrite upd_length; lia|]. intros l H N. apply nth_error_upd_other; congruence.
Qed.

Definition made_ok (m : list (nat * nat)) : Prop := Forall (fun '(n, lft) => n <= lft) m.

(** s -> s' by decoding into ptr *)
Definition good (ptr : loc) (s s' : dstate) : Prop :=
  frame ptr (d_heap s) (d_heap s') /\ d_copy s' = d_copy s /\
  (made_ok (d_made s) -> made_ok (d_made s')).

(** after a recovered panic copyDepth may be off *)
Definition goodX (ptr : loc) (s s' : dstate) : Prop :=
  frame ptr (d_heap s) (d_heap s') /\ (made_ok (d_made s) -> made_ok (d_made s')).

Lemma good_refl p s : good p s s.
Proof. repeat split; auto. Qed.
Lemma good_trans p a b c : good p a b -> good p b c -> good p a c.
Proof.
  intros (F1 & C1 & M1) (F2 & C2 & M2). repeat split.
  - apply (frame_trans _ _ _ _ F1 F2).
  - apply (frame_trans _ _ _ _ F1 F2).
  - congruence.
  - auto.
Qed.
Lemma good_fresh p q a b c :
  good p a b -> good q b c -> length (d_heap a) <= q -> good p a c.
Proof.
  intros (F1 & C1 & M1) (F2 & C2 & M2) Hq. split; [|split].
  - eapply frame_fresh; eauto.
  - congruence.
  - auto.
Qed.
Lemma good_goodX p a b : good p a b -> goodX p a b.
Proof. intros (F & _ & Mm). split; auto. Qed.
Lemma goodX_trans p a b c : good p a b -> goodX p b c -> goodX p a c.
Proof.
  intros (F1 & C1 & M1) (F2 & M2). split; auto. eapply frame_trans; eauto.
Qed.
Lemma goodX_fresh p q a b c :
  good p a b -> goodX q b c -> length (d_heap a) <= q -> goodX p a c.
Proof.
  intros (F1 & C1 & M1) (F2 & M2) Hq. split; auto. eapply frame_fresh; eauto.
Qed.

Lemma good_len p a b : good p a b -> length (d_heap a) <= length (d_heap b).
Proof. intros ((L & _) & _). exact L. Qed.

Lemma hget_frame p h h' l : frame p h h' -> l < length h -> l <> p -> hget h' l = hget h l.
Proof. intros [_ F] H N. unfold hget. now rewrite F. Qed.

Lemma hget_app_l h x l : l < length h -> hget (h ++ x) l = hget h l.
Proof. intros. unfold hget. now rewrite nth_error_app1. Qed.

Lemma hget_alloc h v : hget (h ++ [CV v]) (length h) = v.
Proof. unfold hget. rewrite nth_error_app2, Nat.sub_diag by lia. reflexivity. Qed.

Section Safe.
Variable c : dconfig.
Variable by_ : bytes.
Variable ibuf : loc.
Variable ishift : nat.

Notation len := (length by_).

Lemma wp_varint_at idx (Q : Z * nat -> dstate -> Prop) (E X : dstate -> Prop) s :
  idx <= len ->
  (forall n sz, (- two63 <= n < two63)%Z -> 1 <= sz <= 10 -> idx + sz <= len -> Q (n, sz) s) ->
  E s ->
  wp (varint_at by_ idx) Q E X s.
Proof.
  intros Hi HQ HE. unfold varint_at.
  destruct (slice_from by_ idx) as [l|] eqn:S.
  - apply slice_from_Some in S as [_ ->].
    destruct (varintdecode (skipn idx by_)) as [n sz|] eqn:V.
    + apply wp_ret. apply varintdecode_range in V as (R & B & L).
      rewrite skipn_length in L. apply HQ; auto. lia.
    + now apply wp_fail.
  - unfold slice_from in S. destruct (Nat.leb_spec idx len); [discriminate|lia].
Qed.

Lemma wp_alloc cl (Q : loc -> dstate -> Prop) (E X : dstate -> Prop) s :
  Q (length (d_heap s)) (with_heap s (d_heap s ++ [cl])) -> wp (alloc cl) Q E X s.
Proof. auto. Qed.

(** decodeStringish: reads only, restores copyDepth *)
Lemma wp_stringish fuel : forall z (Q : window * nat -> dstate -> Prop) (E X : dstate -> Prop) s,
  (if d_copy s then 2 <= fuel else 1 <= fuel) ->
  (forall w i, (0 <= z)%Z -> Z.to_nat z < i -> i <= len -> w_off w + w_len w <= len -> Q (w, i) s) ->
  E s ->
  wp (stringish_fuel by_ fuel z) Q E X s.
Proof.
  induction fuel as [|fuel IH]; intros z Q E X s Hf HQ HE; [destruct (d_copy s); lia|].
  cbn [stringish_fuel]. unfold stringish_body, blen.
  destruct ((z <? 0) || (Z.of_nat len <=? z))%Z eqn:B; [now apply wp_fail|].
  destruct (skip_pads (skipn (Z.to_nat z) by_) (Z.to_nat z)) as [[tb i]|] eqn:SP;
    [|now apply wp_fail].
  apply skip_pads_bounds in SP. rewrite skipn_length in SP.
  destruct SP as (S1 & S2 & _ & _).
  assert (Hi : S i <= len) by lia.
  destruct (tag_kind (untrack tb)) eqn:K; try (now apply wp_fail).
  (* BINARY, STR_UTF8 *)
  1,2: apply wp_bind; apply wp_varint_at; [lia| |exact HE];
       intros n sz R Bs L; destruct ((n <? 0) || (maxInt32 <? n))%Z eqn:B2;
         [now apply wp_fail|];
       destruct (Z.of_nat len <? Z.of_nat (S i + sz) + n)%Z eqn:B3; [now apply wp_fail|];
       destruct (slice_range by_ (S i + sz) (S i + sz + Z.to_nat n)) as [l|] eqn:SR;
       [apply wp_ret; apply HQ; cbn [w_off w_len]; lia
       |exfalso; unfold slice_range in SR;
        destruct (Nat.leb_spec (S i + sz) (S i + sz + Z.to_nat n)); [|lia];
        destruct (Nat.leb_spec (S i + sz + Z.to_nat n) len); [discriminate|lia]].
  - (* SHORT_BINARY *)
    destruct (Nat.ltb_spec len (S i + n)); [now apply wp_fail|].
    destruct (slice_range by_ (S i) (S i + n)) as [l|] eqn:SR.
    + apply wp_ret. apply HQ; cbn [w_off w_len]; lia.
    + exfalso. unfold slice_range in SR.
      destruct (Nat.leb_spec (S i) (S i + n)); [|lia].
      destruct (Nat.leb_spec (S i + n) len); [discriminate|lia].
  - (* COPY *)
    apply wp_bind. unfold wp at 1. cbn [get_copy].
    destruct (d_copy s) as [|dc] eqn:DC; cbn [Nat.ltb Nat.leb]; [|now apply wp_fail].
    apply wp_bind. apply wp_varint_at; [lia| |exact HE].
    intros n sz R Bs L.
    destruct ((n <? 0) || (Z.of_nat (S i) <=? n))%Z eqn:B2; [now apply wp_fail|].
    apply wp_bind. unfold wp at 1. cbn [set_copy].
    set (s1 := mkDState (d_heap s) (d_tracked s) 1 (d_made s)).
    apply wp_bind.
    assert (Es : mkDState (d_heap s1) (d_tracked s1) (pred (d_copy s1)) (d_made s1) = s)
      by (unfold s1; cbn; destruct s; cbn in *; congruence).
    assert (W : wp (stringish_fuel by_ fuel n)
                   (fun r s' => w_off (fst r) + w_len (fst r) <= len /\ s' = s1)
                   (fun s' => s' = s1) (fun _ => False) s1).
    { apply IH; [cbn; lia| |reflexivity]. intros w i' _ _ _ H; split; auto. }
    unfold wp in W |- *.
    destruct (stringish_fuel by_ fuel n s1) as [[a|e|e| |] s']; try contradiction.
    + destruct W as [W ->]. rewrite Es. cbn. apply HQ; [lia|lia|lia|exact W].
    + subst s'. rewrite Es. exact HE.
Qed.

Lemma wp_decodeStringish z (Q : window * nat -> dstate -> Prop) (E X : dstate -> Prop) s :
  (forall w i, (0 <= z)%Z -> Z.to_nat z < i -> i <= len -> w_off w + w_len w <= len -> Q (w, i) s) ->
  E s ->
  wp (decodeStringish by_ z) Q E X s.
Proof. intros. apply wp_stringish; auto. destruct (d_copy s); lia. Qed.

(** How much nesting a call at [idx] can need. *)
Definition need (idx copy : nat) : nat :=
  match copy with
  | O => (len - idx) + len + 2
  | S _ => (len - idx) + 1
  end.

(** The specification of the recursive call. *)
Definition rec_ok (rec : nat -> loc -> M nat) (lo copy : nat) : Prop :=
  forall idx ptr s, lo <= idx -> d_copy s = copy ->
    ptr < length (d_heap s) -> hget (d_heap s) ptr = GNil ->
    wp (rec idx ptr) (fun i s' => idx < i /\ i <= len /\ good ptr s s')
       (good ptr s) (goodX ptr s) s.

Lemma rec_ok_weaken rec lo lo' copy : rec_ok rec lo copy -> lo <= lo' -> rec_ok rec lo' copy.
Proof. intros H L idx ptr s Hi. apply H. lia. Qed.

Lemma made_cons n lft m : n <= lft -> made_ok m -> made_ok ((n, lft) :: m).
Proof. constructor; auto. Qed.

Lemma wp_hash_loop rec copy lo n : rec_ok rec lo copy ->
  forall m idx s,
  lo <= idx -> idx <= len -> d_copy s = copy -> m < length (d_heap s) ->
  wp (hash_loop by_ rec n m idx)
     (fun i s' => idx <= i /\ i <= len /\ good m s s') (good m s) (goodX m s) s.
Proof.
  intros R. induction n as [|n IH]; intros m idx s Hlo Hi Hc Hm; cbn [hash_loop].
  - apply wp_ret. (split; [lia|split; [lia|]]). apply good_refl.
  - apply wp_bind. apply wp_decodeStringish; [|apply good_refl].
    intros w i _ Hi1 Hi2 _. rewrite Nat2Z.id in Hi1.
    apply wp_bind, wp_alloc.
    set (s1 := with_heap s (d_heap s ++ [CV GNil])).
    assert (G1 : good m s s1)
      by (split; [apply frame_app|split; [reflexivity|auto]]).
    assert (L1 : length (d_heap s1) = S (length (d_heap s)))
      by (unfold s1, with_heap; cbn; rewrite app_length; cbn; lia).
    apply wp_bind.
    eapply wp_mono.
    { apply (R i (length (d_heap s)) s1); [lia|exact Hc|lia|apply hget_alloc]. }
    + intros i' s' (Hi3 & Hi4 & G2).
      assert (G3 : good m s s') by (eapply good_fresh; [exact G1|exact G2|lia]).
      apply wp_bind. unfold wp at 1. cbn [get_var].
      apply wp_bind. unfold wp at 1. cbn [map_set].
      set (s2 := with_heap s' _).
      assert (G4 : good m s s2).
      { eapply good_trans; [exact G3|].
        split; [apply frame_upd|split; [reflexivity|auto]]. }
      eapply wp_mono.
      { apply IH; try lia.
        - destruct G4 as (_ & E & _). congruence.
        - pose proof (good_len _ _ _ G4). lia. }
      * intros a s3 (A1 & A2 & A3). (split; [lia|split; [lia|]]); eapply good_trans; eauto.
      * intros s3 A. eapply good_trans; eauto.
      * intros s3 A. eapply goodX_trans; eauto.
    + intros s' G2. eapply good_fresh; eauto.
    + intros s' G2. eapply goodX_fresh; eauto.
Qed.

(** container set-up shared by hashes and arrays: allocation, then *ptr = v *)
Lemma wp_decodeHash rec copy idx ln ptr isRef s :
  rec_ok rec idx copy -> idx <= len -> d_copy s = copy -> ptr < length (d_heap s) ->
  wp (decodeHash by_ rec idx ln ptr isRef)
     (fun i s' => idx <= i /\ i <= len /\ good ptr s s') (good ptr s) (goodX ptr s) s.
Proof.
  intros R Hi Hc Hp. unfold decodeHash, blen.
  destruct ((ln <? 0) || (maxInt32 <? ln))%Z eqn:B1; [apply wp_fail, good_refl|].
  destruct (Z.of_nat len <? Z.of_nat idx + 2 * ln)%Z eqn:B2; [apply wp_fail, good_refl|].
  apply wp_bind. unfold wp at 1. cbn [log_make].
  set (s0 := mkDState _ _ _ _).
  assert (G0 : good ptr s s0).
  { split; [apply frame_refl|split; [reflexivity|]]. intros H. apply made_cons; [lia|exact H]. }
  apply wp_bind, wp_alloc.
  set (s1 := with_heap s0 _).
  assert (L1 : length (d_heap s1) = S (length (d_heap s)))
    by (unfold s1, with_heap; cbn; rewrite app_length; cbn; lia).
  assert (G1 : good ptr s s1).
  { eapply good_trans; [exact G0|]. split; [apply frame_app|split; [reflexivity|auto]]. }
  assert (Lm : length (d_heap s0) = length (d_heap s)) by reflexivity. rewrite Lm.
  (* whatever isRef, afterwards we are in a state s2 reached by good ptr steps *)
  assert (Next : forall s2, good ptr s s2 -> length (d_heap s1) <= length (d_heap s2) ->
    wp (hash_loop by_ rec (Z.to_nat ln) (length (d_heap s)) idx)
     (fun i s' => idx <= i /\ i <= len /\ good ptr s s') (good ptr s) (goodX ptr s) s2).
  { intros s2 G2 L2. eapply wp_mono.
    { apply (wp_hash_loop rec copy idx); auto; try lia.
      destruct G2 as (_ & E & _). congruence. }
    - intros a s3 (A1 & A2 & A3). (split; [lia|split; [lia|]]); eapply good_fresh; eauto.
    - intros s3 A. eapply good_fresh; eauto.
    - intros s3 A. eapply goodX_fresh; eauto. }
  apply wp_bind. destruct isRef.
  - apply wp_bind, wp_alloc. unfold wp at 1. cbn [set_var].
    apply Next.
    + eapply good_trans; [exact G1|]. split; [|split; [reflexivity|auto]].
      cbn. eapply frame_trans; [apply frame_app|apply frame_upd].
    + unfold with_heap at 1. cbn [d_heap]. rewrite upd_length. unfold with_heap at 1. cbn [d_heap]. rewrite app_length. lia.
  - unfold wp at 1. cbn [set_var]. apply Next.
    + eapply good_trans; [exact G1|]. split; [|split; [reflexivity|auto]].
      cbn. apply frame_upd.
    + unfold with_heap at 1. cbn [d_heap]. rewrite upd_length. lia.
Qed.

(** all cells from a on are nil variables up to b *)
Definition nils (h : heap) (a n : nat) : Prop :=
  a + n <= length h /\ forall l, a <= l < a + n -> hget h l = GNil.

Lemma wp_array_loop rec copy lo n : rec_ok rec lo copy ->
  forall base idx s ptr s0,
  lo <= idx -> idx <= len -> d_copy s = copy -> nils (d_heap s) base n ->
  good ptr s0 s -> length (d_heap s0) <= base ->
  wp (array_loop rec n base idx)
     (fun i s' => idx <= i /\ i <= len /\ good ptr s0 s') (good ptr s0) (goodX ptr s0) s.
Proof.
  intros R. induction n as [|n IH]; intros base idx s ptr s0 Hlo Hi Hc [Hn1 Hn2] G0 Hb; cbn [array_loop].
  - apply wp_ret. (split; [lia|split; [lia|]]); exact G0.
  - apply wp_bind. eapply wp_mono.
    { apply (R idx base s); auto; [lia|]. apply Hn2. lia. }
    + intros i s' (H1 & H2 & G).
      eapply wp_mono.
      { apply (IH (S base) i s' ptr s0); try lia.
        - destruct G as (_ & E & _). congruence.
        - split; [pose proof (good_len _ _ _ G); lia|].
          intros l Hl. destruct G as (F & _ & _).
          rewrite (hget_frame _ _ _ _ F) by lia. apply Hn2. lia.
        - eapply good_fresh; eauto. }
      * intros a s3 (A1 & A2 & A3). (split; [lia|split; [lia|]]); exact A3.
      * auto.
      * auto.
    + intros s' G. eapply good_fresh; eauto.
    + intros s' G. eapply goodX_fresh; eauto.
Qed.

Lemma nils_repeat h n k : k <= n -> nils (h ++ repeat (CV GNil) n) (length h) k.
Proof.
  intros H. split.
  - rewrite app_length, repeat_length. lia.
  - intros l Hl. unfold hget. rewrite nth_error_app2 by lia.
    destruct (nth_error (repeat (CV GNil) n) (l - length h)) eqn:E; auto.
    apply nth_error_In, repeat_spec in E. now subst.
Qed.

Lemma nils_frame p h h' a n : frame p h h' -> nils h a n -> p < a -> nils h' a n.
Proof.
  intros [L F] [H1 H2] Hp. split; [lia|]. intros l Hl.
  unfold hget. rewrite F by lia. now apply H2.
Qed.

Lemma wp_decodeArray rec copy idx ln ptr isRef s :
  rec_ok rec idx copy -> idx <= len -> d_copy s = copy -> ptr < length (d_heap s) ->
  wp (decodeArray by_ rec idx ln ptr isRef)
     (fun i s' => idx <= i /\ i <= len /\ good ptr s s') (good ptr s) (goodX ptr s) s.
Proof.
  intros R Hi Hc Hp. unfold decodeArray, blen.
  destruct ((ln <? 0) || (maxInt32 <? ln))%Z eqn:B1; [apply wp_fail, good_refl|].
  destruct (Z.of_nat len <? Z.of_nat idx + ln)%Z eqn:B2; [apply wp_fail, good_refl|].
  apply wp_bind. unfold wp at 1. cbn [log_make].
  set (s0 := mkDState _ _ _ _).
  assert (G0 : good ptr s s0).
  { split; [apply frame_refl|split; [reflexivity|]]. intros H. apply made_cons; [lia|exact H]. }
  apply wp_bind. unfold wp at 1. unfold alloc_n at 1.
  set (s1 := with_heap s0 _).
  assert (G1 : good ptr s s1).
  { eapply good_trans; [exact G0|]. split; [apply frame_app|split; [reflexivity|auto]]. }
  assert (Lm : length (d_heap s0) = length (d_heap s)) by reflexivity. rewrite Lm.
  assert (N1 : nils (d_heap s1) (length (d_heap s)) (Z.to_nat ln)).
  { unfold s1, with_heap. cbn [d_heap]. apply nils_repeat. lia. }
  assert (Next : forall s2, good ptr s s2 -> nils (d_heap s2) (length (d_heap s)) (Z.to_nat ln) ->
    wp (array_loop rec (Z.to_nat ln) (length (d_heap s)) idx)
     (fun i s' => idx <= i /\ i <= len /\ good ptr s s') (good ptr s) (goodX ptr s) s2).
  { intros s2 G2 N2. apply (wp_array_loop rec copy idx); auto.
    destruct G2 as (_ & E & _). congruence. }
  apply wp_bind. destruct isRef.
  - apply wp_bind, wp_alloc. unfold wp at 1. cbn [set_var].
    assert (F : frame ptr (d_heap s1) (upd (d_heap s1 ++ [CV (GSlice (length (d_heap s)) (Z.to_nat ln))])
                 ptr (CV (GPtr false (length (d_heap s1)))))).
    { eapply frame_trans; [apply frame_app|apply frame_upd]. }
    apply Next.
    + eapply good_trans; [exact G1|]. split; [exact F|split; [reflexivity|auto]].
    + eapply nils_frame; eauto.
  - unfold wp at 1. cbn [set_var]. apply Next.
    + eapply good_trans; [exact G1|]. split; [apply frame_upd|split; [reflexivity|auto]].
    + eapply nils_frame; [apply frame_upd|exact N1|exact Hp].
Qed.

Lemma wp_class_name idx v (E X : dstate -> Prop) s (Q : bytes * nat -> dstate -> Prop) :
  idx <= len -> E s -> (forall cls i, idx < i -> i <= len -> Q (cls, i) s) ->
  wp (class_name by_ idx v) Q E X s.
Proof.
  intros Hi HE HQ. unfold class_name. destruct v.
  - apply wp_bind, wp_varint_at; [lia| |exact HE]. intros n sz R B L.
    apply wp_bind, wp_decodeStringish; [|exact HE]. intros w i _ _ _ _.
    apply wp_ret, HQ; lia.
  - apply wp_bind, wp_decodeStringish; [|exact HE]. intros w i _ H1 H2 _.
    rewrite Nat2Z.id in H1. apply wp_ret, HQ; lia.
Qed.

Lemma good_set p s v : good p s (with_heap s (upd (d_heap s) p (CV v))).
Proof. split; [apply frame_upd|split; [reflexivity|auto]]. Qed.
Lemma good_alloc p s x : good p s (with_heap s (d_heap s ++ x)).
Proof. split; [apply frame_app|split; [reflexivity|auto]]. Qed.

Lemma hget_good p s s' l : good p s s' -> l < length (d_heap s) -> l <> p ->
  hget (d_heap s') l = hget (d_heap s) l.
Proof. intros (F & _ & _). now apply hget_frame. Qed.

(** a recursive call into a fresh variable *)
Lemma wp_rec_fresh rec copy idx ptr s0 s (Q : nat -> dstate -> Prop) :
  rec_ok rec idx copy -> d_copy s = copy -> good ptr s0 s ->
  (forall i s', idx < i -> i <= len -> good ptr s0 s' ->
     good (length (d_heap s)) (with_heap s (d_heap s ++ [CV GNil])) s' -> Q i s') ->
  wp (let! l := alloc (CV GNil) in rec idx l) Q (good ptr s0) (goodX ptr s0) s.
Proof.
  intros R Hc G HQ. apply wp_bind, wp_alloc. eapply wp_mono.
  { apply R; auto.
    - cbn. rewrite app_length. cbn. lia.
    - apply hget_alloc. }
  - intros i s' (H1 & H2 & G2). apply HQ; auto.
    eapply good_fresh; [eapply good_trans; [exact G|apply good_alloc]|exact G2|].
    apply (good_len _ _ _ G).
  - intros s' G2. eapply good_fresh; [eapply good_trans; [exact G|apply good_alloc]|exact G2|].
    apply (good_len _ _ _ G).
  - intros s' G2. eapply goodX_fresh; [eapply good_trans; [exact G|apply good_alloc]|exact G2|].
    apply (good_len _ _ _ G).
Qed.

Lemma wp_binary_at idx ln (Q : bytes * nat -> dstate -> Prop) (E X : dstate -> Prop) s :
  idx <= len -> E s ->
  (forall b i, idx <= i -> i <= len -> length b = i - idx -> Q (b, i) s) ->
  wp (binary_at by_ idx ln) Q E X s.
Proof.
  intros Hi HE HQ. unfold binary_at, blen.
  destruct ((ln <? 0) || (maxInt32 <? ln))%Z eqn:B1; [now apply wp_fail|].
  destruct (Z.of_nat len <? Z.of_nat idx + ln)%Z eqn:B2; [now apply wp_fail|].
  destruct (slice_range by_ idx (idx + Z.to_nat ln)) as [b|] eqn:SR.
  - apply wp_ret, HQ; try lia. apply slice_range_Some in SR as (_ & _ & ->).
    rewrite firstn_length, skipn_length. lia.
  - exfalso. unfold slice_range in SR.
    destruct (Nat.leb_spec idx (idx + Z.to_nat ln)); [|lia].
    destruct (Nat.leb_spec (idx + Z.to_nat ln) len); [discriminate|lia].
Qed.

Lemma wp_fixed_at idx k (Q : N -> dstate -> Prop) (E X : dstate -> Prop) s :
  0 < k -> E s -> (idx + k <= len -> forall n, Q n s) -> wp (fixed_at by_ idx k) Q E X s.
Proof.
  intros Hk HE HQ. unfold fixed_at.
  destruct (Nat.leb_spec len (idx + k - 1)); [now apply wp_fail|].
  destruct (slice_range by_ idx (idx + k)) as [b|] eqn:SR.
  - apply wp_ret, HQ. lia.
  - exfalso. unfold slice_range in SR.
    destruct (Nat.leb_spec idx (idx + k)); [|lia].
    destruct (Nat.leb_spec (idx + k) len); [discriminate|lia].
Qed.

Definition post (ptr : loc) (idx : nat) (s0 : dstate) (i : nat) (s' : dstate) : Prop :=
  idx <= i /\ i <= len /\ good ptr s0 s'.

Lemma wp_done ptr idx i s0 s v : idx <= i -> i <= len -> good ptr s0 s ->
  wp (set_var ptr v ;; ret i) (post ptr idx s0) (good ptr s0) (goodX ptr s0) s.
Proof.
  intros H1 H2 G. apply wp_bind. unfold wp at 1. cbn [set_var]. apply wp_ret.
  repeat split; auto; eapply good_trans; eauto using good_set.
Qed.

(** a fresh cell, then *ptr points to it *)
Lemma wp_new_done ptr idx i s0 s cl (f : loc -> gval) : idx <= i -> i <= len -> good ptr s0 s ->
  wp (let! l := alloc cl in (set_var ptr (f l) ;; ret i)) (post ptr idx s0) (good ptr s0) (goodX ptr s0) s.
Proof.
  intros H1 H2 G. apply wp_bind, wp_alloc. apply wp_done; auto.
  eapply good_trans; [exact G|apply good_alloc].
Qed.

(** the recursive call on a variable allocated earlier, while *ptr is set to something *)
Lemma wp_rec_under rec copy idx ptr s0 s l (Q : nat -> dstate -> Prop) :
  rec_ok rec idx copy -> d_copy s = copy -> good ptr s0 s ->
  length (d_heap s0) <= l -> l < length (d_heap s) -> hget (d_heap s) l = GNil ->
  (forall i s', idx < i -> i <= len -> good ptr s0 s' -> Q i s') ->
  wp (rec idx l) Q (good ptr s0) (goodX ptr s0) s.
Proof.
  intros R Hc G H1 H2 H3 HQ. eapply wp_mono.
  { apply R; auto. }
  - intros i s' (A & B & G2). apply HQ; auto. eapply good_fresh; eauto.
  - intros s' G2. eapply good_fresh; eauto.
  - intros s' G2. eapply goodX_fresh; eauto.
Qed.

Lemma hget_upd_other h p l v : l <> p -> hget (upd h p v) l = hget h l.
Proof. intros N. unfold hget. rewrite nth_error_upd_other; auto. Qed.

Lemma wp_tracked_branch ptr idx s0 s trk i :
  good ptr s0 s -> idx <= i -> i <= len ->
  forall l,
  wp (if trk : bool then ret i
      else let! v := get_var l in
           match v with
           | GNil => panic EReflect
           | _ => let! l2 := alloc (CV v) in set_var ptr (GPtr false l2) ;; ret i
           end) (post ptr idx s0) (good ptr s0) (goodX ptr s0) s.
Proof.
  intros G H1 H2 l. destruct trk; [apply wp_ret; repeat split; auto; apply G|].
  apply wp_bind. unfold wp at 1. cbn [get_var].
  destruct (hget (d_heap s) l); try (now apply wp_new_done).
  apply wp_panic. now apply good_goodX.
Qed.

Lemma wp_via_iface rec copy idx ptr s0 s i0 :
  rec_ok rec idx copy -> d_copy s = copy -> good ptr s0 s -> i0 <= idx ->
  hget (d_heap s) ptr = GNil ->
  wp (decode_via_iface by_ rec idx ptr) (post ptr i0 s0) (good ptr s0) (goodX ptr s0) s.
Proof.
  intros R Hc G Hi0 Hn. unfold decode_via_iface.
  destruct (Nat.leb_spec len idx); [now apply wp_fail|].
  apply wp_bind. unfold wp at 1. cbn [get_var]. rewrite Hn.
  apply wp_bind, wp_alloc. apply wp_bind.
  eapply wp_rec_under; eauto.
  - eapply good_trans; [exact G|apply good_alloc].
  - apply (good_len _ _ _ G).
  - cbn. rewrite app_length. cbn. lia.
  - apply hget_alloc.
  - intros i s' H1 H2 G'.
    apply wp_bind. unfold wp at 1. cbn [get_var].
    destruct (hget (d_heap s') _); try (apply wp_done; auto; lia).
    apply wp_ret. repeat split; try lia; apply G'.
Qed.

Lemma wp_decodeObject rec copy idx ptr v s :
  rec_ok rec idx copy -> d_copy s = copy -> idx <= len -> ptr < length (d_heap s) ->
  hget (d_heap s) ptr = GNil ->
  wp (decodeObject c by_ rec idx ptr v) (post ptr idx s) (good ptr s) (goodX ptr s) s.
Proof.
  intros R Hc Hi Hp Hn. unfold decodeObject. apply wp_bind.
  apply wp_class_name; [exact Hi|apply good_refl|]. intros cls i H1 H2.
  destruct (d_perl c).
  - apply wp_bind, wp_alloc. apply wp_bind. unfold wp at 1. cbn [set_var].
    eapply wp_rec_under with (copy := copy); eauto.
    + eapply rec_ok_weaken; eauto. lia.
    + eapply good_trans; [apply good_alloc|apply good_set].
    + cbn. rewrite upd_length, app_length. cbn. lia.
    + cbn. rewrite hget_upd_other by lia. apply hget_alloc.
    + intros j s' A B G. repeat split; try lia; apply G.
  - apply wp_via_iface with (copy := copy); auto; try lia.
    + eapply rec_ok_weaken; eauto. lia.
    + apply good_refl.
Qed.

Lemma wp_decodeFreeze rec copy idx ptr v s :
  rec_ok rec idx copy -> d_copy s = copy -> idx <= len -> ptr < length (d_heap s) ->
  hget (d_heap s) ptr = GNil ->
  wp (decodeFreeze c by_ rec idx ptr v) (post ptr idx s) (good ptr s) (goodX ptr s) s.
Proof.
  intros R Hc Hi Hp Hn. unfold decodeFreeze. apply wp_bind.
  apply wp_class_name; [exact Hi|apply good_refl|]. intros cls i H1 H2.
  destruct (Nat.leb_spec len (i + 1)); [apply wp_fail, good_refl|].
  destruct (nth_error by_ i) eqn:E1; [|apply nth_error_None in E1; lia].
  destruct (nth_error by_ (i + 1)) eqn:E2; [|apply nth_error_None in E2; lia].
  destruct (negb _); [apply wp_fail, good_refl|].
  apply wp_bind, wp_alloc. apply wp_bind.
  eapply wp_mono.
  { apply (R i (length (d_heap s)) (with_heap s (d_heap s ++ [CV GNil]))); auto; try lia.
    - cbn. rewrite app_length. cbn. lia.
    - apply hget_alloc. }
  - intros j s' (A & B & G).
    assert (G' : good ptr s s') by (eapply good_fresh; [apply good_alloc|exact G|auto]).
    assert (Hn' : hget (d_heap s') ptr = GNil).
    { rewrite (hget_good _ _ _ ptr G); cbn.
      - now rewrite hget_app_l.
      - rewrite app_length. lia.
      - lia. }
    apply wp_bind. unfold wp at 1. cbn [get_var].
    destruct (hget (d_heap s') (length (d_heap s))); try (now apply wp_fail).
    destruct (negb _); [now apply wp_fail|].
    apply wp_bind. unfold wp at 1. cbn [get_var].
    destruct (hget (d_heap s') base); try (now apply wp_fail).
    destruct (d_perl c); [apply wp_new_done; auto; lia|].
    apply wp_bind. unfold wp at 1. cbn [get_var]. rewrite Hn'.
    destruct (d_um c cls) as [[t|t]|].
    + unfold wp. destruct (d_unmarshal c t _); [|exact G'].
      apply wp_done; auto; lia.
    + apply wp_panic. now apply good_goodX.
    + apply wp_new_done; auto; lia.
  - intros s' G. eapply good_fresh; [apply good_alloc|exact G|auto].
  - intros s' G. eapply goodX_fresh; [apply good_alloc|exact G|auto].
Qed.

Lemma wp_decodeREFP_ALIAS idx ptr r s : idx <= len ->
  wp (decodeREFP_ALIAS c by_ idx ptr r) (post ptr idx s) (good ptr s) (goodX ptr s) s.
Proof.
  intros Hi. unfold decodeREFP_ALIAS. apply wp_bind.
  apply wp_varint_at; [exact Hi| |apply good_refl]. intros n sz _ B L.
  destruct ((n <? 0) || (Z.of_nat (idx + sz) <=? n))%Z; [apply wp_fail, good_refl|].
  apply wp_bind. unfold wp at 1. cbn [get_tracked].
  destruct (assoc_nat _ _) as [rl|]; [|apply wp_fail, good_refl].
  apply wp_bind. unfold wp at 1. cbn [get_var].
  assert (G : good ptr s s) by apply good_refl.
  destruct r; [|apply wp_done; auto; lia].
  destruct (hget (d_heap s) rl); try (apply wp_panic, good_goodX, G);
    destruct (d_noref c); try (apply wp_done; auto; lia); apply wp_new_done; auto; lia.
Qed.

Lemma wp_decodeRegexp idx ptr s : idx <= len ->
  wp (decodeRegexp by_ ibuf ishift idx ptr) (post ptr idx s) (good ptr s) (goodX ptr s) s.
Proof.
  intros Hi. unfold decodeRegexp. apply wp_bind.
  apply wp_decodeStringish; [|apply good_refl]. intros w1 i1 _ A1 A2 _. rewrite Nat2Z.id in A1.
  apply wp_bind. apply wp_decodeStringish; [|apply good_refl].
  intros w2 i2 _ B1 B2 _. rewrite Nat2Z.id in B1.
  apply wp_new_done; try lia. apply good_refl.
Qed.

Lemma wp_post_weaken ptr idx0 idx s0 (m : M nat) s : idx0 <= idx ->
  wp m (post ptr idx s0) (good ptr s0) (goodX ptr s0) s ->
  wp m (post ptr idx0 s0) (good ptr s0) (goodX ptr s0) s.
Proof.
  intros L W. eapply wp_mono; [exact W| | |]; auto.
  intros i s' (A & B & G). repeat split; try lia; apply G.
Qed.

Lemma wp_decode_tag rec copy k trk idx ptr s :
  rec_ok rec idx copy -> (copy = 0 -> rec_ok rec 0 1) ->
  idx <= len -> d_copy s = copy -> ptr < length (d_heap s) -> hget (d_heap s) ptr = GNil ->
  wp (decode_tag c by_ ibuf ishift rec k trk idx ptr) (post ptr idx s) (good ptr s) (goodX ptr s) s.
Proof.
  intros R R0 Hi Hc Hp Hn.
  assert (G : good ptr s s) by apply good_refl.
  destruct k; cbn [decode_tag].
  - apply wp_done; auto.
  - apply wp_bind, wp_varint_at; auto. intros n sz _ B L.
    apply wp_bind. destruct (n <? 0)%Z; unfold wp at 1; cbn [set_var]; apply wp_ret;
      repeat split; try lia; apply good_set.
  - apply wp_bind, wp_varint_at; auto. intros n sz _ B L. apply wp_done; auto; lia.
  - apply wp_bind, wp_fixed_at; [lia|exact G|]. intros L n. apply wp_done; auto; lia.
  - apply wp_bind, wp_fixed_at; [lia|exact G|]. intros L n. apply wp_done; auto; lia.
  - apply wp_done; auto.
  - apply wp_done; auto.
  - apply wp_bind, wp_varint_at; auto. intros n sz _ B L.
    apply wp_post_weaken with (idx := idx + sz); [lia|].
    apply (wp_decodeHash rec copy); auto. eapply rec_ok_weaken; eauto. lia.
  - apply (wp_decodeHash rec copy); auto.
  - apply wp_bind, wp_varint_at; auto. intros n sz _ B L.
    apply wp_post_weaken with (idx := idx + sz); [lia|].
    apply (wp_decodeArray rec copy); auto. eapply rec_ok_weaken; eauto. lia.
  - apply (wp_decodeArray rec copy); auto.
  - apply wp_bind, wp_varint_at; auto. intros n sz _ B L.
    apply wp_bind, wp_binary_at; auto. intros b i A1 A2 _. apply wp_done; auto; lia.
  - apply wp_bind, wp_varint_at; auto. intros n sz _ B L.
    apply wp_bind. unfold binary_copy. apply wp_bind, wp_binary_at; auto. intros b i A1 A2 A3.
    apply wp_bind. unfold wp at 1. cbn [log_make]. apply wp_bind, wp_alloc. apply wp_ret.
    apply wp_done; [lia|lia|]. split; [apply frame_app|split; [reflexivity|]].
    cbn [d_made with_heap]. intros Hm. apply made_cons; auto. lia.
  - apply wp_bind. unfold binary_copy. apply wp_bind, wp_binary_at; auto. intros b i A1 A2 A3.
    apply wp_bind. unfold wp at 1. cbn [log_make]. apply wp_bind, wp_alloc. apply wp_ret.
    apply wp_done; [lia|lia|]. split; [apply frame_app|split; [reflexivity|]].
    cbn [d_made with_heap]. intros Hm. apply made_cons; auto. lia.
  - apply wp_bind. destruct (d_perl c).
    + apply wp_bind, wp_alloc. unfold wp at 1. cbn [set_var]. apply wp_ret.
      repeat split; auto; try lia; eapply good_trans; try apply good_alloc; apply good_set.
    + unfold wp at 1. cbn [set_var]. apply wp_ret. repeat split; auto; apply good_set.
  - apply wp_bind. destruct (d_perl c); unfold wp at 1; cbn [set_var]; apply wp_ret;
      repeat split; auto; apply good_set.
  - (* COPY *)
    apply wp_bind. unfold wp at 1. cbn [get_copy].
    destruct (d_copy s) as [|dc] eqn:DC; cbn [Nat.ltb Nat.leb]; [|now apply wp_fail].
    apply wp_bind, wp_varint_at; auto. intros n sz _ B L.
    destruct ((n <? 0) || (Z.of_nat idx <=? n))%Z eqn:B2; [now apply wp_fail|].
    apply wp_bind. unfold wp at 1. cbn [set_copy].
    set (s1 := mkDState (d_heap s) (d_tracked s) 1 (d_made s)).
    apply wp_bind.
    assert (W := R0 (eq_sym Hc) (Z.to_nat n) ptr s1 (Nat.le_0_l _) eq_refl Hp Hn).
    unfold wp in W |- *.
    destruct (rec (Z.to_nat n) ptr s1) as [[a|e|e| |] s']; try contradiction.
    + destruct W as (_ & _ & (F & E & Mm)). split; [lia|split; [lia|]].
      split; [exact F|split; [cbn; rewrite E; cbn; congruence|exact Mm]].
    + destruct W as (F & E & Mm).
      split; [exact F|split; [cbn; rewrite E; cbn; congruence|exact Mm]].
    + destruct W as (F & Mm). split; auto.
  - (* REFN *)
    destruct (d_perl c).
    + apply wp_bind, wp_alloc. apply wp_bind. unfold wp at 1. cbn [set_var].
      apply wp_bind.
      eapply wp_rec_under with (copy := copy); eauto.
      * eapply good_trans; [apply good_alloc|apply good_set].
      * cbn. rewrite upd_length, app_length. cbn. lia.
      * cbn. rewrite hget_upd_other by lia. apply hget_alloc.
      * intros j s' A B G'. apply wp_tracked_branch; auto; lia.
    + eapply wp_mono; [apply (R idx ptr s); auto| | |]; auto.
      intros i s' (A & B & G'). repeat split; try lia; apply G'.
  - now apply wp_decodeREFP_ALIAS.
  - now apply wp_decodeREFP_ALIAS.
  - (* WEAKEN *)
    destruct (d_perl c).
    + apply wp_bind, wp_alloc. apply wp_bind. unfold wp at 1. cbn [set_var].
      eapply wp_rec_under with (copy := copy); eauto.
      * eapply good_trans; [apply good_alloc|apply good_set].
      * cbn. rewrite upd_length, app_length. cbn. lia.
      * cbn. rewrite hget_upd_other by lia. apply hget_alloc.
      * intros i s' A B G'. repeat split; try lia; apply G'.
    + eapply wp_mono; [apply (R idx ptr s); auto| | |]; auto.
      intros i s' (A & B & G'). repeat split; try lia; apply G'.
  - now apply wp_decodeRegexp.
  - eapply wp_decodeObject; eauto.
  - eapply wp_decodeObject; eauto.
  - eapply wp_decodeFreeze; eauto.
  - eapply wp_decodeFreeze; eauto.
  - now apply wp_fail.
Qed.

(** The decoder on arbitrary bytes. *)
Theorem decode_safe fuel : forall idx ptr s,
  need idx (d_copy s) <= fuel ->
  ptr < length (d_heap s) -> hget (d_heap s) ptr = GNil ->
  wp (decode c by_ ibuf ishift fuel idx ptr)
     (fun i s' => idx < i /\ i <= len /\ good ptr s s') (good ptr s) (goodX ptr s) s.
Proof.
  induction fuel as [|fuel IH]; intros idx ptr s Hf Hp Hn;
    [unfold need in Hf; destruct (d_copy s); lia|].
  cbn [decode]. unfold decode_body.
  destruct (Nat.leb_spec len idx); [apply wp_fail, good_refl|].
  destruct (skip_pads (skipn idx by_) idx) as [[tb i]|] eqn:SP; [|apply wp_fail, good_refl].
  apply skip_pads_bounds in SP. rewrite skipn_length in SP. destruct SP as (S1 & S2 & _ & _).
  assert (R : rec_ok (decode c by_ ibuf ishift fuel) (S i) (d_copy s)).
  { intros idx' ptr' s' L C P H'. apply IH; auto. rewrite C.
    unfold need in *. destruct (d_copy s); lia. }
  assert (R0 : d_copy s = 0 -> rec_ok (decode c by_ ibuf ishift fuel) 0 1).
  { intros C0 idx' ptr' s' L C P H'. apply IH; auto. rewrite C.
    rewrite C0 in Hf. unfold need in *. lia. }
  apply wp_bind.
  assert (T : wp (if tracked_bit tb then track i ptr else ret tt)
                 (fun _ s' => d_heap s' = d_heap s /\ d_copy s' = d_copy s /\ d_made s' = d_made s)
                 (fun _ => False) (fun _ => False) s).
  { destruct (tracked_bit tb); cbn; auto. }
  unfold wp in T |- * at 1.
  destruct ((if tracked_bit tb then track i ptr else ret tt) s) as [[a|e|e| |] s']; try contradiction.
  destruct T as (E1 & E2 & E3).
  assert (W := wp_decode_tag (decode c by_ ibuf ishift fuel) (d_copy s) (tag_kind (untrack tb))
                 (tracked_bit tb) (S i) ptr s' R R0).
  rewrite E1, E2 in W. specialize (W ltac:(lia) eq_refl Hp Hn).
  unfold post, good, goodX in W. rewrite E1, E2, E3 in W.
  eapply wp_mono; [exact W| | |]; auto.
  intros j s'' (A & B & D). split; [lia|auto].
Qed.
End Safe.
