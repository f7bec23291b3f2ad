(** Unmarshal into typed variables on arbitrary bytes: no crash, termination, allocation. *)
From Verif Require Import Base BaseFacts SpecVarint Varint VarintFacts Tags GoMem GoTypes TagsCache Codecs Encode Compress Header Decode
  Document Typed SpecHeader SpecShape HeaderFacts ApiFacts ShapeFacts DecodeSafe ApiSafe.
From Coq Require Import ZifyBool ZifyNat ZifyN.

(** Like [wp], with [O] where the model ends: Q after success, E after an error, X after a recovered
    panic; Crash never satisfies it. *)
Definition wpo (O : Prop) {A} (m : M A) (Q : A -> dstate -> Prop) (E X : dstate -> Prop) (s : dstate) : Prop :=
  match m s with
  | (Ok a, s') => Q a s'
  | (Err _, s') => E s'
  | (Panic _, s') => X s'
  | (NoFuel, s') => O /\ X s'
  | (Crash, _) => False
  end.

Section Wpo.
Variable O : Prop.
Notation w := (wpo O).
Lemma wpo_bind A B (m : M A) (f : A -> M B) Q E X s : w m (fun a => w (f a) Q E X) E X s -> w (mbind m f) Q E X s.
Proof. unfold wpo, mbind. destruct (m s) as [[a|e|e| |] s']; auto. Qed.
Lemma wpo_mono A (m : M A) (Q Q' : A -> dstate -> Prop) (E E' X X' : dstate -> Prop) s : w m Q E X s ->
  (forall a s', Q a s' -> Q' a s') -> (forall s', E s' -> E' s') -> (forall s', X s' -> X' s') -> w m Q' E' X' s.
Proof. unfold wpo. destruct (m s) as [[a|e|e| |] s']; auto. intros [] *; auto. Qed.
Lemma wp_wpo A (m : M A) (Q : A -> dstate -> Prop) E X s : wp m Q E X s -> w m Q E X s.
Proof. unfold wp, wpo. destruct (m s) as [[a|e|e| |] s']; auto; contradiction. Qed.
Lemma wpo_ret A (a : A) (Q : A -> dstate -> Prop) E X s : Q a s -> w (ret a) Q E X s.
Proof. auto. Qed.
Lemma wpo_fail A e (Q : A -> dstate -> Prop) (E X : dstate -> Prop) s : E s -> w (fail e) Q E X s.
Proof. auto. Qed.
Lemma wpo_panic A e (Q : A -> dstate -> Prop) (E X : dstate -> Prop) s : X s -> w (panic e) Q E X s.
Proof. auto. Qed.

(** nothing that existed before changes *)
Notation fix_ := (keeps (fun _ => False)).
Notation fixX := (touches (fun _ => False)).

Lemma fix_trans a b d : fix_ a b -> fix_ b d -> fix_ a d.
Proof. apply keeps_trans; auto. Qed.
Lemma fix_transX a b d : fix_ a b -> fixX b d -> fixX a d.
Proof. intros [A _]. apply touches_trans with (P := fun _ => False) (Q := fun _ => False); auto. Qed.
Lemma fix_alloc s x : fix_ s (with_heap s (d_heap s ++ x)).
Proof.
  split; [|reflexivity]. split; [cbn; rewrite app_length; lia|]. split; [|auto].
  intros l L _. cbn. now apply nth_error_app1.
Qed.
Lemma good_fix l s s1 s' : fix_ s s1 -> length (d_heap s) <= l -> good l s1 s' -> fix_ s s'.
Proof.
  intros [(A1 & A2 & A3) A4] L ((F1 & F2) & C & Mm). split; [|congruence]. split; [lia|]. split; [|auto].
  intros l' L' _. rewrite F2 by lia. apply A2; auto.
Qed.
Lemma goodX_fix l s s1 s' : fix_ s s1 -> length (d_heap s) <= l -> goodX l s1 s' -> fixX s s'.
Proof.
  intros [(A1 & A2 & A3) A4] L ((F1 & F2) & Mm). split; [lia|]. split; [|auto].
  intros l' L' _. rewrite F2 by lia. apply A2; auto.
Qed.

Section TSafe.
Variable c : dconfig.
Variable v : goenv.
Variable by_ : bytes.
Variable ibuf : loc.
Variable ishift : nat.
Notation len := (length by_).

Definition tpost (idx : nat) (s : dstate) (r : tval * nat) (s' : dstate) : Prop := idx <= snd r <= len /\ fix_ s s'.
Notation wt m idx s0 s := (w m (tpost idx s0) (fix_ s0) (fixX s0) s).
Definition trec_ok (rec : gtype -> tval -> amode -> nat -> M (tval * nat)) (lo copy : nat) : Prop :=
  forall ty cur md idx s, lo <= idx -> d_copy s = copy -> wt (rec ty cur md idx) (S idx) s s.

(** a step that only reads or fails *)
Definition still {A} (m : M A) : Prop := forall s, match m s with
  | (Ok _, s') => s' = s | (Err _, s') => s' = s | (Panic _, s') => s' = s | _ => False end.
Lemma still_w A (m : M A) (Q : A -> dstate -> Prop) s0 s : still m -> fix_ s0 s -> (forall a, Q a s) -> w m Q (fix_ s0) (fixX s0) s.
Proof.
  intros S F HQ. pose proof (proj1 F) as F1. unfold wpo. specialize (S s). destruct (m s) as [[a|e|e| |] s']; subst; auto; contradiction.
Qed.
Lemma still_set md x : still (Typed.set md x).
Proof. destruct md; intros s; cbn; auto. Qed.
Lemma still_panic A e : still (panic (A := A) e).
Proof. intros s; cbn; auto. Qed.
Lemma still_setInt ty md i : still (setInt ty md i).
Proof. unfold setInt. destruct ty; auto using still_set, still_panic. Qed.
Lemma still_setFloat ty md i : still (setFloat v ty md i).
Proof. unfold setFloat. destruct ty; auto using still_set, still_panic. Qed.
Lemma still_setBool ty md i : still (setBool ty md i).
Proof. unfold setBool. destruct ty; auto using still_set, still_panic. Qed.
Lemma still_setString ty md i : still (setString ty md i).
Proof. unfold setString. destruct ty; auto using still_set, still_panic. Qed.
Lemma still_iface ty md i : still (set_iface ty md i).
Proof. unfold set_iface. destruct ty; auto using still_set, still_panic. Qed.
Lemma still_get l : still (get_var l).
Proof. intros s; cbn; auto. Qed.

(** ... then returning [i] *)
Lemma still_done (m : M tval) idx i s0 s : still m -> fix_ s0 s -> idx <= i <= len ->
  wt (let! x := m in ret (x, i)) idx s0 s.
Proof. intros S F L. apply wpo_bind. apply still_w; auto. intros x. apply wpo_ret. split; auto. Qed.

Lemma setBinary_done ty md cur val idx i s0 s : fix_ s0 s -> idx <= i <= len ->
  wt (let! x := setBinary ty md cur val in ret (x, i)) idx s0 s.
Proof.
  intros F L. assert (St : forall m, still m -> wt (let! x := m in ret (x, i)) idx s0 s) by (intros; now apply still_done).
  unfold setBinary. destruct ty; auto using still_set, still_panic; destruct ty; auto using still_panic; destruct k; auto using still_panic;
    destruct cur; auto using still_panic, still_set.
  match goal with o : option (list tval) |- _ => destruct o as [l|] end; auto using still_set.
  apply wpo_bind, wpo_bind. unfold wpo at 1. cbn [log_make].
  assert (F2 : fix_ s0 (mkDState (d_heap s) (d_tracked s) (d_copy s) ((length val, length val) :: d_made s))).
  { destruct F as [(A1 & A2 & A3) A4]. split; [|exact A4]. split; [exact A1|]. split; [exact A2|].
    cbn. intros Hm. apply made_cons; auto. }
  apply still_w; auto using still_set. intros x. apply wpo_ret. split; auto.
Qed.

Section Rec.
Variable rec : gtype -> tval -> amode -> nat -> M (tval * nat).
Variable urec : nat -> loc -> M nat.
Variable copy lo : nat.
Hypothesis R : trec_ok rec lo copy.
Hypothesis U : rec_ok by_ urec lo copy.

Lemma fix_copy a b : fix_ a b -> d_copy a = copy -> d_copy b = copy.
Proof. intros [_ E] <-. exact E. Qed.

Lemma w_urec idx l s0 s (Q : nat -> dstate -> Prop) : fix_ s0 s -> d_copy s = copy -> lo <= idx ->
  length (d_heap s0) <= l < length (d_heap s) -> hget (d_heap s) l = GNil ->
  (forall i s', idx < i <= len -> fix_ s0 s' -> Q i s') -> w (urec idx l) Q (fix_ s0) (fixX s0) s.
Proof.
  intros F Hc Hl Ll Hn HQ. eapply wp_wpo, wp_mono; [apply U; auto; lia|..].
  - intros i s' (A & B & G). apply HQ; [lia|]. apply (good_fix l s0 s s'); auto. lia.
  - intros s' G. apply (good_fix l s0 s s'); auto. lia.
  - intros s' G. apply (goodX_fix l s0 s s'); auto. lia.
Qed.
Lemma w_discard idx s0 s (Q : nat -> dstate -> Prop) : fix_ s0 s -> d_copy s = copy -> lo <= idx ->
  (forall i s', idx < i <= len -> fix_ s0 s' -> Q i s') -> w (discard urec idx) Q (fix_ s0) (fixX s0) s.
Proof.
  intros F Hc Hl HQ. unfold discard. apply wpo_bind. unfold wpo at 1. cbn [alloc].
  apply w_urec; auto.
  - eapply fix_trans; [exact F|apply fix_alloc].
  - cbn. rewrite app_length. cbn. destruct F as [(L & _) _]. lia.
  - apply hget_alloc.
Qed.
Lemma w_rec ty cur md idx s0 s (Q : tval * nat -> dstate -> Prop) : fix_ s0 s -> d_copy s = copy -> lo <= idx ->
  (forall x i s', idx < i <= len -> fix_ s0 s' -> Q (x, i) s') -> w (rec ty cur md idx) Q (fix_ s0) (fixX s0) s.
Proof.
  intros F Hc Hl HQ. eapply wpo_mono; [apply R; auto|..].
  - intros [x i] s' [A B]. apply HQ; [cbn in A; lia|]. eapply fix_trans; eauto.
  - intros s' B. eapply fix_trans; eauto.
  - intros s' B. eapply fix_transX; eauto.
Qed.

Lemma w_array n t : forall md curs idx s0 s, fix_ s0 s -> d_copy s0 = copy -> lo <= idx <= len ->
  w (tarray_loop rec urec n t md curs idx) (fun r s' => idx <= snd r <= len /\ fix_ s0 s') (fix_ s0) (fixX s0) s.
Proof.
  induction n as [|n IH]; intros md curs idx s0 s F Hc Hl; cbn [tarray_loop].
  - apply wpo_ret. split; [cbn; lia|auto].
  - destruct curs as [|cur rest].
    + apply wpo_bind. apply w_discard; auto; [eapply fix_copy; eauto|lia|]. intros i s' Li F'.
      eapply wpo_mono; [apply IH; eauto; lia|..]; auto. intros [xs j] s2 [A B]. cbn [fst snd] in A |- *. split; [lia|auto].
    + apply wpo_bind. apply w_rec; auto; [eapply fix_copy; eauto|lia|]. intros x i s' Li F'.
      apply wpo_bind. eapply wpo_mono; [apply IH; eauto; lia|..]; auto. intros [xs j] s2 [A B]. cbn [fst snd] in A |- *.
      apply wpo_ret. split; [cbn; lia|auto].
Qed.

Lemma w_tdecodeArray idx ln ty cur md s0 s : fix_ s0 s -> d_copy s0 = copy -> lo <= idx <= len ->
  wt (tdecodeArray by_ rec urec idx ln ty cur md) idx s0 s.
Proof.
  intros F Hc Hl. unfold tdecodeArray, blen.
  destruct ((ln <? 0) || (maxInt32 <? ln))%Z eqn:B1; [now apply wpo_fail|].
  destruct (Z.of_nat len <? Z.of_nat idx + ln)%Z eqn:B2; [now apply wpo_fail|]. cbv zeta.
  assert (A : forall t md0 l f s1, fix_ s0 s1 ->
    wt (let! (xs, i) := tarray_loop rec urec (Z.to_nat ln) t md0 l idx in ret (f xs, i)) idx s0 s1).
  { intros t md0 l f s1 F1. apply wpo_bind. eapply wpo_mono; [apply w_array; eauto|..]; auto.
    intros [xs i] s2 [A B]. apply wpo_ret. split; auto. }
  assert (B : forall t f, wt (Typed.set md cur ;; log_make (Z.to_nat ln) (len - idx) ;;
        let! (xs, i) := tarray_loop rec urec (Z.to_nat ln) t Settable (repeat (GoTypes.zero t) (Z.to_nat ln)) idx in
        ret (f xs, i)) idx s0 s).
  { intros t f. apply wpo_bind. apply still_w; auto using still_set. intros _. apply wpo_bind. unfold wpo at 1. cbn [log_make].
    apply A. destruct F as [(A1 & A2 & A3) A4]. split; [|exact A4]. split; [exact A1|]. split; [exact A2|].
    cbn. intros Hm. apply made_cons; auto. lia. }
  destruct ty; try (now apply wpo_fail); destruct cur; try (now apply wpo_fail).
  - match goal with o : option (list tval) |- _ => destruct o as [[|y l]|] end; first [apply A; assumption|apply B].
  - apply A; assumption.
Qed.

Lemma w_map n t : forall md m idx s0 s, fix_ s0 s -> d_copy s0 = copy -> lo <= idx <= len ->
  w (tmap_loop by_ rec n t md m idx) (fun r s' => idx <= snd r <= len /\ fix_ s0 s') (fix_ s0) (fixX s0) s.
Proof.
  induction n as [|n IH]; intros md m idx s0 s F Hc Hl; cbn [tmap_loop].
  - apply wpo_ret. split; [cbn; lia|auto].
  - apply wpo_bind. apply wp_wpo. apply wp_decodeStringish; auto. intros kw i _ L1 L2 _. rewrite Nat2Z.id in L1. cbv zeta.
    assert (N : forall md' m' j s2, idx <= j <= len -> fix_ s0 s2 ->
      w (tmap_loop by_ rec n t md' m' j) (fun r s' => idx <= snd r <= len /\ fix_ s0 s') (fix_ s0) (fixX s0) s2).
    { intros md' m' j s2 Lj F2. eapply wpo_mono; [apply IH; eauto; lia|..]; auto. intros [xs y] s3 [A B]. cbn [fst snd] in A |- *. split; [lia|auto]. }
    pose proof (fix_copy _ _ F Hc).
    destruct (mget m (win_bytes by_ kw)) as [x|].
    + apply wpo_bind. apply w_rec; auto; [lia|]. intros x' j s' Lj F'. apply N; auto. lia.
    + apply wpo_bind. apply w_rec; auto; [lia|]. intros x' j s' Lj F'. destruct md; try (apply N; auto; lia).
      apply wpo_panic. exact (proj1 F').
Qed.

Lemma w_struct id n : forall md fs idx s0 s, fix_ s0 s -> d_copy s0 = copy -> lo <= idx <= len ->
  w (tstruct_loop v by_ rec urec n id md fs idx) (fun r s' => idx <= snd r <= len /\ fix_ s0 s') (fix_ s0) (fixX s0) s.
Proof.
  induction n as [|n IH]; intros md fs idx s0 s F Hc Hl; cbn [tstruct_loop].
  - apply wpo_ret. split; [cbn; lia|auto].
  - apply wpo_bind. apply wp_wpo. apply wp_decodeStringish; auto. intros kw i _ L1 L2 _. rewrite Nat2Z.id in L1.
    assert (N : forall md' fs' j s2, idx <= j <= len -> fix_ s0 s2 ->
      w (tstruct_loop v by_ rec urec n id md' fs' j) (fun r s' => idx <= snd r <= len /\ fix_ s0 s') (fix_ s0) (fixX s0) s2).
    { intros md' fs' j s2 Lj F2. eapply wpo_mono; [apply IH; eauto; lia|..]; auto. intros [xs y] s3 [A B]. cbn [fst snd] in A |- *. split; [lia|auto]. }
    pose proof (fix_copy _ _ F Hc).
    destruct (find_field v id (win_bytes by_ kw)) as [[fi [f t]]|].
    + apply wpo_bind. apply w_rec; auto; [lia|]. intros x' j s' Lj F'. apply N; auto. lia.
    + apply wpo_bind. apply w_discard; auto; [lia|]. intros j s' Lj F'. apply N; auto. lia.
Qed.

Lemma w_tdecodeHash ty : forall idx ln cur md s0 s, fix_ s0 s -> d_copy s0 = copy -> lo <= idx <= len ->
  wt (tdecodeHash v by_ rec urec ty idx ln cur md) idx s0 s.
Proof.
  induction ty; intros idx ln cur md s0 s F Hc Hl; cbn [tdecodeHash]; unfold blen;
    (destruct ((ln <? 0) || (maxInt32 <? ln))%Z eqn:B1; [now apply wpo_fail|]);
    (destruct (Z.of_nat len <? Z.of_nat idx + 2 * ln)%Z eqn:B2; [now apply wpo_fail|]); cbv zeta;
    destruct cur; try (now apply wpo_fail); apply wpo_bind;
    match goal with
    | o : option tval |- _ =>
        assert (St : still (match o with None => Typed.set md (VPtr o) | Some _ => ret (VPtr o) end))
          by (destruct o; [intros ?; reflexivity|apply still_set]);
        apply still_w; [exact St|exact F|]; intros _; apply wpo_bind; eapply wpo_mono; [apply IHty; eauto|..]; auto
    | o : option (list (bytes * tval)) |- _ =>
        assert (St : still (match o with None => Typed.set md (VMap o) | Some _ => ret (VMap o) end))
          by (destruct o; [intros ?; reflexivity|apply still_set]);
        apply still_w; [exact St|exact F|]; intros _; apply wpo_bind; eapply wpo_mono; [apply w_map; eauto|..]; auto
    | _ => eapply wpo_mono; [apply w_struct; eauto|..]; auto
    end; intros [x i] s2 [A B]; apply wpo_ret; split; auto.
Qed.

(** a fresh variable *)
Lemma w_alloc cl s0 s (Q : loc -> dstate -> Prop) : fix_ s0 s ->
  (forall l s', l = length (d_heap s) -> length (d_heap s0) <= l < length (d_heap s') -> nth_error (d_heap s') l = Some cl ->
     fix_ s0 s' -> d_copy s' = d_copy s -> Q l s') ->
  w (alloc cl) Q (fix_ s0) (fixX s0) s.
Proof.
  intros F HQ. unfold wpo, alloc. pose proof F as [(L & _) _]. apply HQ; auto.
  - cbn. rewrite app_length. cbn. lia.
  - cbn. rewrite nth_error_app2, Nat.sub_diag by lia. reflexivity.
  - eapply fix_trans; [exact F|apply fix_alloc].
Qed.
Lemma hget_is h l x : nth_error h l = Some (CV x) -> hget h l = x.
Proof. unfold hget. now intros ->. Qed.

Hypothesis C0 : copy = 0 -> trec_ok rec 0 1.

Lemma w_refp idx b s0 s : O -> fix_ s0 s -> d_copy s0 = copy -> idx <= len ->
  wt (decodeRefpTyped by_ idx b) idx s0 s.
Proof.
  intros HO F Hc L. unfold decodeRefpTyped. apply wpo_bind, wp_wpo. apply wp_varint_at; auto. intros n sz _ B Ls.
  destruct ((n <? 0) || (Z.of_nat (idx + sz) <=? n))%Z; [now apply wpo_fail|].
  apply wpo_bind. unfold wpo at 1. unfold get_tracked.
  destruct (assoc_nat _ _); [|now apply wpo_fail].
  split; [exact HO|exact (proj1 F)].
Qed.

Lemma w_freeze ty cur md idx b s0 s : O -> fix_ s0 s -> d_copy s0 = copy -> lo <= idx <= len ->
  wt (tdecodeFreeze c by_ urec ty cur md idx b) idx s0 s.
Proof.
  intros HO F Hc L. pose proof (fix_copy _ _ F Hc) as Hc'. unfold tdecodeFreeze. apply wpo_bind, wp_wpo.
  apply (wp_class_name by_ 0); [lia|auto|]. intros cls i L1 L2.
  destruct (Nat.leb_spec len (i + 1)); [now apply wpo_fail|].
  destruct (nth_error by_ i) eqn:N0; [|apply nth_error_None in N0; lia].
  destruct (nth_error by_ (i + 1)) eqn:N1; [|apply nth_error_None in N1; lia].
  destruct (negb _); [now apply wpo_fail|].
  apply wpo_bind, w_alloc; auto. intros l s1 _ Ll Hg F1 Hc1. apply hget_is in Hg.
  apply wpo_bind, w_urec; auto; [congruence|lia|]. intros j s2 Lj F2.
  apply wpo_bind, still_w; auto using still_get. intros x. destruct x; try (now apply wpo_fail).
  destruct (negb _); [now apply wpo_fail|].
  apply wpo_bind, still_w; auto using still_get. intros e. destruct e; try (now apply wpo_fail).
  destruct (d_perl c).
  - apply wpo_bind, w_alloc; auto. intros l2 s3 _ _ _ F3 _. apply still_done; auto using still_iface. lia.
  - assert (D : wt (Typed.set md cur ;; fail ECannotUnpack) idx s0 s2)
      by (apply wpo_bind, still_w; auto using still_set; intros; now apply wpo_fail).
    destruct ty; try exact D; try exact (conj HO (proj1 F2)).
    destruct ty; try exact D. destruct k; try exact D. destruct cur; try exact D.
    match goal with o : option (list tval) |- _ => destruct o; try exact D end.
    apply wpo_bind, still_w; auto using still_set. intros _. split; [cbn; lia|auto].
Qed.

Lemma w_tag k ty cur md idx s0 s : (k = TRefp \/ k = TAlias \/ k = TFreeze \/ k = TFreezeV -> O) ->
  fix_ s0 s -> d_copy s0 = copy -> lo <= idx <= len ->
  wt (tdecode_tag c v by_ ibuf ishift rec urec k ty cur md idx) idx s0 s.
Proof.
  intros HO F Hc L. pose proof (fix_copy _ _ F Hc) as Hc'.
  assert (Rc : wt (rec ty cur md idx) idx s0 s)
    by (apply w_rec; auto; [lia|]; intros x i s' Li F'; split; [cbn; lia|auto]).
  destruct k; cbn [tdecode_tag]; try (exact Rc).
  all: try (apply still_done; auto using still_setInt, still_setBool; lia).
  all: try (apply wpo_bind, wp_wpo; apply wp_varint_at; [lia| |assumption]; intros m sz _ Bs Ls;
    first [apply still_done; auto using still_setInt; lia
          |eapply wpo_mono; [first [apply w_tdecodeHash|apply w_tdecodeArray]; eauto; lia|..]; auto; intros [x i] s' [A B]; split; [cbn [snd] in *; lia|auto]
          |apply wpo_bind, wp_wpo; apply wp_binary_at; [lia|assumption|]; intros bs i L1 L2 _;
           first [apply setBinary_done; auto; lia|apply still_done; auto using still_setString; lia]]).
  all: try (apply wpo_bind, wp_wpo; apply wp_fixed_at; [lia|assumption|]; intros L2 x; apply still_done; auto using still_setFloat; lia).
  all: try (apply wpo_bind, wp_wpo; apply wp_binary_at; [lia|assumption|]; intros bs i L1 L2 _; apply setBinary_done; auto; lia).
  all: try (apply w_tdecodeHash; auto).
  all: try (apply w_tdecodeArray; auto).
  all: try (apply w_refp; auto; lia).
  all: try (apply w_freeze; auto).
  all: try (now apply wpo_fail).
  - destruct (d_perl c).
    + apply wpo_bind, wpo_bind, w_alloc; auto. intros l s1 _ _ _ F1 _. apply wpo_ret. apply still_done; auto using still_iface. lia.
    + assert (D : forall x, wt (ret (x, idx)) idx s0 s) by (intros; apply wpo_ret; split; [cbn; lia|auto]).
      assert (D2 : wt (let! x := Typed.set md (GoTypes.zero ty) in ret (x, idx)) idx s0 s) by (apply still_done; auto using still_set; lia).
      destruct ty; first [exact D2|apply D].
  - destruct (d_perl c).
    + apply wpo_bind. apply wpo_ret. apply still_done; auto using still_iface. lia.
    + assert (D : forall x, wt (ret (x, idx)) idx s0 s) by (intros; apply wpo_ret; split; [cbn; lia|auto]).
      assert (D2 : wt (let! x := Typed.set md (GoTypes.zero ty) in ret (x, idx)) idx s0 s) by (apply still_done; auto using still_set; lia).
      destruct ty; first [exact D2|apply D].
  - apply wpo_bind. unfold wpo at 1, get_copy. destruct (Nat.ltb_spec 0 (d_copy s)); [now apply wpo_fail|].
    apply wpo_bind, wp_wpo. apply wp_varint_at; [lia| |assumption]. intros m sz _ Bs Ls.
    destruct ((m <? 0) || (Z.of_nat idx <=? m))%Z; [now apply wpo_fail|]. cbv zeta.
    apply wpo_bind. unfold wpo at 1, set_copy. set (s1 := mkDState _ _ _ _). apply wpo_bind.
    assert (W : wt (rec ty cur md (Z.to_nat m)) (S (Z.to_nat m)) s1 s1) by (apply C0; [lia|lia|cbn; lia]).
    assert (K : forall s', fix_ s1 s' -> fix_ s0 (mkDState (d_heap s') (d_tracked s') (pred (d_copy s')) (d_made s'))).
    { intros s' [(A1 & A2 & A3) A4]. cbn in A1, A2, A3, A4. eapply fix_trans; [exact F|]. split; [|cbn; lia]. repeat split; auto. }
    assert (KX : forall s', fixX s1 s' -> fixX s0 s').
    { intros s' (A1 & A2 & A3). eapply fix_transX; [exact F|]. repeat split; auto. }
    unfold wpo in W |- *. destruct (rec ty cur md (Z.to_nat m) s1) as [[[x i]|e|e| |] s']; auto.
    + destruct W as [_ W]. cbn. split; [cbn; lia|auto].
    + destruct W; auto.
  - destruct (d_perl c); [|exact Rc].
    apply wpo_bind, w_alloc; auto. intros l s1 _ Ll Hg F1 Hc1. apply hget_is in Hg.
    apply wpo_bind, still_w; auto using still_iface. intros x.
    apply wpo_bind, w_urec; auto; [congruence|lia|]. intros i s2 Li F2. apply wpo_ret. split; [cbn; lia|auto].
  - apply wpo_bind, w_alloc; auto. intros l s1 _ Ll Hg F1 Hc1.
    apply wpo_bind. eapply wp_wpo, wp_mono; [apply wp_decodeRegexp; lia|..].
    + intros i s2 (A & B & G). apply (good_fix l s0 s1 s2) in G; auto; [|lia].
      apply wpo_bind, still_w; auto using still_get. intros x. apply still_done; auto using still_iface.
    + intros s2 G. apply (good_fix l s0 s1 s2); auto. lia.
    + intros s2 G. apply (goodX_fix l s0 s1 s2); auto. lia.
  - apply wpo_bind, wp_wpo. apply (wp_class_name by_ 0); [lia|auto|]. intros cls i L1 L2. destruct (d_perl c).
    + apply wpo_bind, w_alloc; auto. intros l s1 _ Ll Hg F1 Hc1. apply hget_is in Hg.
      apply wpo_bind, still_w; auto using still_iface. intros x.
      apply wpo_bind, w_urec; auto; [congruence|lia|]. intros j s2 Li F2. apply wpo_ret. split; [cbn; lia|auto].
    + apply w_rec; auto; [lia|]; intros x j s' Li F'; split; [cbn; lia|auto].
  - apply wpo_bind, wp_wpo. apply (wp_class_name by_ 0); [lia|auto|]. intros cls i L1 L2. destruct (d_perl c).
    + apply wpo_bind, w_alloc; auto. intros l s1 _ Ll Hg F1 Hc1. apply hget_is in Hg.
      apply wpo_bind, still_w; auto using still_iface. intros x.
      apply wpo_bind, w_urec; auto; [congruence|lia|]. intros j s2 Li F2. apply wpo_ret. split; [cbn; lia|auto].
    + apply w_rec; auto; [lia|]; intros x j s' Li F'; split; [cbn; lia|auto].
Qed.
End Rec.

Lemma untrack_cases b : (b2n b = untrack b \/ b2n b = untrack b + 128)%N.
Proof. destruct b; vm_compute; auto. Qed.
Hypothesis HO : (exists i b, nth_error by_ i = Some b /\ back_or_frozen b) -> O.

Definition tneed (idx copy : nat) : nat := S (need by_ idx copy).

Lemma tdecode_safe : forall fuel ty cur md idx s, tneed idx (d_copy s) <= fuel ->
  wt (tdecode c v by_ ibuf ishift fuel ty cur md idx) (S idx) s s.
Proof.
  induction fuel as [|fuel IH]; intros ty cur md idx s Hf; [unfold tneed in Hf; lia|].
  cbn [tdecode]. unfold tdecode_body.
  destruct (Nat.leb_spec len idx); [apply wpo_fail, keeps_refl|].
  assert (R : trec_ok (tdecode c v by_ ibuf ishift fuel) (S idx) (d_copy s)).
  { intros ty' cur' md' idx' s' L C. apply IH. rewrite C. unfold tneed, need in *. destruct (d_copy s); lia. }
  assert (U : rec_ok by_ (decode c by_ ibuf ishift fuel) idx (d_copy s)).
  { intros idx' l' s' L C Ll Hg. apply decode_safe; auto. rewrite C. unfold tneed, need in *. destruct (d_copy s); lia. }
  assert (C0 : d_copy s = 0 -> trec_ok (tdecode c v by_ ibuf ishift fuel) 0 1).
  { intros E0 ty' cur' md' idx' s' L C. apply IH. rewrite C. rewrite E0 in Hf. unfold tneed, need in *. lia. }
  assert (T : wt (match skip_pads (skipn idx by_) idx with
      | None => fail ETruncated
      | Some (tagb, idx) =>
          (if tracked_bit tagb then poison idx else ret tt) ;;
          tdecode_tag c v by_ ibuf ishift (tdecode c v by_ ibuf ishift fuel) (decode c by_ ibuf ishift fuel) (tag_kind (untrack tagb)) ty cur md (S idx)
      end) (S idx) s s).
  { destruct (skip_pads (skipn idx by_) idx) as [[tb i]|] eqn:SP; [|apply wpo_fail, keeps_refl].
    apply skip_pads_bounds in SP. rewrite skipn_length in SP. destruct SP as (S1 & S2 & S3 & _).
    rewrite nth_error_skipn in S3.
    assert (Ht : forall s1, fix_ s s1 -> wt (tdecode_tag c v by_ ibuf ishift (tdecode c v by_ ibuf ishift fuel) (decode c by_ ibuf ishift fuel) (tag_kind (untrack tb)) ty cur md (S i)) (S idx) s s1).
    { intros s1 F1. eapply wpo_mono.
      - apply (w_tag _ _ (d_copy s) (S i)); auto; try lia.
        + intros ty' cur' md' idx' s' L C. apply R; auto. lia.
        + eapply rec_ok_weaken; [exact U|lia].
        + intros Hk. apply HO. exists i, tb. split; [rewrite <- S3; f_equal; lia|].
          pose proof (tag_kind_fits tb) as K. exists (untrack tb). split; [|apply untrack_cases].
          destruct Hk as [Hk|[Hk|[Hk|Hk]]]; rewrite Hk in K; cbn in K; rewrite K; cbn; auto.
        + exact F1.
      - intros [x j] s' [A B]. split; [cbn [snd] in *; lia|auto].
      - auto.
      - auto. }
    apply wpo_bind. destruct (tracked_bit tb); [|apply wpo_ret, Ht, keeps_refl].
    unfold poison. apply wpo_bind, (w_alloc 0); [apply keeps_refl|]. intros l s1 _ _ _ F1 _.
    unfold wpo at 1, track. apply Ht. exact F1. }
  destruct ty; try exact T. destruct cur; try exact T. match goal with x : gval |- _ => destruct x; try exact T end. clear T.
  apply wpo_bind, (w_alloc 0); [apply keeps_refl|]. intros l s1 _ Ll Hg F1 Hc1. apply hget_is in Hg.
  apply wpo_bind. apply (w_urec _ (d_copy s) idx); auto. intros j s2 Lj F2.
  apply wpo_bind, still_w; auto using still_get. intros x.
  destruct x; try (apply still_done; auto using still_set; lia). apply wpo_ret. split; [cbn; lia|auto].
Qed.
End TSafe.
End Wpo.

(** * The whole call *)
Section Call.
Variable k : codecs.
Variable c : dconfig.
Variable v : goenv.

Lemma typed_cases b ib ty cur s :
  (exists e, unmarshal_typed_raw k c v b ib ty cur s = (Err e, s)) \/
  exists ver typ l n rest dec, starts b ver typ l n rest /\ documentDecompressor ver typ = Ok dec /\
    (0 <= bodyStart_of l n <= Z.of_nat (length b))%Z /\
    unmarshal_typed_raw k c v b ib ty cur s =
    unmarshal_tbody k c v b ib (header_of ver typ l n) dec (Z.to_nat (bodyStart_of l n)) ty cur s.
Proof.
  unfold unmarshal_typed_raw. unfold mbind at 1 3. unfold lift at 1 3.
  destruct (checkHeader_total b) as [[h Ch]|[e Ch]]; rewrite Ch; [|eauto].
  destruct (checkHeader_inv _ _ Ch) as (ver & typ & l & n & rest & S & ->).
  cbn [header_of h_version h_doctype h_suffixSize]. unfold mbind at 1 2. unfold lift at 1 2.
  destruct (decompressor_total ver typ) as [[dec D]|[e D]]; rewrite D; [|eauto]. fold (bodyStart_of l n). cbv zeta.
  destruct ((Z.of_nat (length b) <? bodyStart_of l n) || (bodyStart_of l n <? 0))%Z eqn:B; [left; eexists; reflexivity|].
  right. exists ver, typ, l, n, rest, dec. split; [exact S|]. split; [exact D|]. split; [lia|]. reflexivity.
Qed.

Lemma typed_safe b ib ty cur h : harmless TgtNone (TgtIface 0) b ->
  wpo (exists by_ i x, opened k b by_ /\ nth_error by_ i = Some x /\ back_or_frozen x)
    (unmarshal_typed_raw k c v b ib ty cur) (fun _ => keeps (fun _ => False) (mkDState h [] 0 []))
    (keeps (fun _ => False) (mkDState h [] 0 [])) (touches (fun _ => False) (mkDState h [] 0 [])) (mkDState h [] 0 []).
Proof.
  intros Hm. set (s := mkDState h [] 0 []). set (O := exists _, _).
  destruct (typed_cases b ib ty cur s) as [(e & E)|(ver & typ & l & n & rest & dec & S & D & B & E)].
  { unfold wpo. rewrite E. apply keeps_refl. }
  unfold wpo at 1. rewrite E. clear E.
  destruct (Hm _ _ _ _ _ S) as [_ Mb]. destruct (Mb ltac:(discriminate)) as [M1 M2]. clear Mb.
  destruct (starts_length _ _ _ _ _ _ S) as [Len L10].
  set (bs := Z.to_nat (bodyStart_of l n)).
  assert (Lb : bs <= length b) by (unfold bs; lia).
  assert (Eb : bs = N.to_nat (body_start l n)) by (apply start_zero; lia).
  change (wpo O (unmarshal_tbody k c v b ib (header_of ver typ l n) dec bs ty cur) (fun _ => keeps (fun _ => False) s)
    (keeps (fun _ => False) s) (touches (fun _ => False) s) s).
  unfold unmarshal_tbody. cbn [header_of h_version]. fold (unpacked k b ib dec bs). apply wpo_bind.
  assert (Un : wpo O (unpacked k b ib dec bs) (fun r s' => keeps (fun _ => False) s s' /\ bs <= length (fst r) /\ opened k b (fst r))
    (keeps (fun _ => False) s) (touches (fun _ => False) s) s).
  { unfold wpo. destruct dec as [dk|].
    - unfold unpacked. rewrite (slice_from_le b bs Lb). unfold mbind, lift.
      destruct (decompress_cases k dk (skipn bs b)) as [[d Ed]|[[e Ed]|(Ed & -> & Z)]]; rewrite Ed; [|apply keeps_refl|].
      + cbn. split; [apply fix_alloc|]. split; [rewrite app_length, firstn_length; lia|].
        exists ver, typ, l, n, rest, d. split; [exact S|]. rewrite <- Eb. split; [|reflexivity].
        eapply unpacks_of; eauto.
      + apply Z. rewrite Eb. apply M2. revert D. unfold documentDecompressor.
        unfold serealRaw, serealSnappy, serealSnappyIncremental, serealZlib, serealZstd.
        repeat match goal with |- context [if ?x then _ else _] => destruct x eqn:? end; try discriminate; lia.
    - cbn. split; [apply keeps_refl|]. split; [exact Lb|]. exists ver, typ, l, n, rest, (skipn bs b). split; [exact S|].
      rewrite <- Eb. split; [|symmetry; apply firstn_skipn].
      assert (typ = 0%N) as ->; [|constructor]. now apply (decompressor_raw ver typ). }
  eapply wpo_mono; [exact Un|..]; auto. clear Un. intros [b' ib'] s1 (K & L' & Op). cbn [fst] in L', Op.
  apply wpo_bind. unfold wpo at 1, fresh_tracked. set (s2 := mkDState _ _ _ _).
  assert (K2 : keeps (fun _ => False) s s2) by exact K.
  assert (T : forall by_ sh idx, (forall i x, nth_error by_ i = Some x -> exists j, nth_error b' j = Some x) ->
    wpo O (let! r := tdecode c v by_ ib' sh (decode_fuel by_) ty cur Settable idx in ret (fst r)) (fun _ => keeps (fun _ => False) s)
      (keeps (fun _ => False) s) (touches (fun _ => False) s) s2).
  { intros by_ sh idx In. apply wpo_bind. eapply wpo_mono; [apply (tdecode_safe O c v by_ ib' sh)|..].
    - intros (i & x & Nx & Ux). destruct (In _ _ Nx) as [j Nj]. exists b', j, x. auto.
    - rewrite (proj2 K2). unfold tneed, need, decode_fuel. cbn [d_copy s]. lia.
    - intros [x i] s3 [_ A]. apply wpo_ret. eapply fix_trans; eauto.
    - intros s3 A. eapply fix_trans; eauto.
    - intros s3 A. eapply fix_transX; eauto. }
  destruct (N.eqb_spec ver 1); [apply T; eauto|].
  destruct (Nat.eqb_spec bs 0) as [Z|Z]; [exfalso; specialize (M1 ltac:(assumption)); lia|].
  rewrite slice_from_le by lia. apply T. intros i x Nx. rewrite nth_error_skipn in Nx. eauto.
Qed.
End Call.
