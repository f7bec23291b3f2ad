(** What Unmarshal into typed variables accepts has the shape of a document. *)
From Verif Require Import Base BaseFacts SpecVarint Varint VarintFacts Tags GoMem GoTypes TagsCache Codecs Encode Compress Header Decode
  Document Typed Spec SpecDoc SpecHeader SpecShare SpecShape DecodeSafe FrameFacts DecodeSpec ShareDecode HeaderFacts ApiFacts ApiSafe MergeFacts ShapeFacts.
From Coq Require Import ZifyBool ZifyNat ZifyN.

Section TAccepted.
Variable c : dconfig.
Variable v : goenv.
Variable by_ : bytes.
Variable ibuf : loc.
Variable ishift : nat.

Notation tracked_ok := (tracked_ok by_).

(** operations that touch neither the table nor the depth *)
Lemma q_fail A e : quiet (fail (A := A) e). Proof. intros s a s' [=]. Qed.
Lemma q_panic A e : quiet (panic (A := A) e). Proof. intros s a s' [=]. Qed.
Lemma q_tset md x : quiet (set md x).
Proof. destruct md; [apply q_ret|apply q_panic|apply q_panic]. Qed.
Lemma q_setInt ty md i : quiet (setInt ty md i).
Proof. destruct ty; cbn [setInt]; auto using q_panic, q_tset. Qed.
Lemma q_setFloat ty md i : quiet (setFloat v ty md i).
Proof. destruct ty; cbn [setFloat]; auto using q_panic, q_tset. Qed.
Lemma q_setBool ty md i : quiet (setBool ty md i).
Proof. destruct ty; cbn [setBool]; auto using q_panic, q_tset. Qed.
Lemma q_setString ty md i : quiet (setString ty md i).
Proof. destruct ty; cbn [setString]; auto using q_panic, q_tset. Qed.
Lemma q_setIface ty md i : quiet (set_iface ty md i).
Proof. destruct ty; cbn [set_iface]; auto using q_panic, q_tset. Qed.
Lemma q_setBinary ty md cur x : quiet (setBinary ty md cur x).
Proof.
  unfold setBinary. repeat match goal with |- quiet (match ?y with _ => _ end) => destruct y end;
    auto using q_panic, q_tset. apply q_bind; [apply q_log|intros; apply q_tset].
Qed.

Definition fine (E : list nat) (s : dstate) (q : nat) (t : N) (p' : nat) (s' : dstate) : Prop :=
  exists X, tag_shape by_ (d_copy s =? 0) E q t p' X /\ tracked_ok (X ++ E) s' /\ d_copy s' = d_copy s.
Definition tshapely (m : gtype -> tval -> amode -> nat -> M (tval * nat)) : Prop :=
  forall ty cur md p s x p' s' E, m ty cur md p s = (Ok (x, p'), s') -> tracked_ok E s ->
  exists X, shape by_ (d_copy s =? 0) E p p' X /\ tracked_ok (X ++ E) s' /\ d_copy s' = d_copy s.

Section Rec.
Variable rec : gtype -> tval -> amode -> nat -> M (tval * nat).
Variable urec : nat -> loc -> M nat.
Hypothesis R : tshapely rec.
Hypothesis U : shapely by_ urec.
Hypothesis CA : counts_array by_ urec.

Lemma discard_shape p s p' s' E : discard urec p s = (Ok p', s') -> tracked_ok E s ->
  exists X, shape by_ (d_copy s =? 0) E p p' X /\ tracked_ok (X ++ E) s' /\ d_copy s' = d_copy s.
Proof.
  unfold discard. intros H T. apply mbind_Ok in H as (l & s1 & H1 & H). apply q_alloc in H1.
  destruct (U _ _ _ _ _ _ H (tracked_kept _ _ _ _ H1 T)) as (X & Sh & T1 & C1).
  destruct H1 as [_ H1]. rewrite H1 in *. eauto.
Qed.
Lemma tarray_shape n t : forall md curs p s xs p' s' E, tarray_loop rec urec n t md curs p s = (Ok (xs, p'), s') ->
  tracked_ok E s ->
  exists X, shapes by_ (d_copy s =? 0) E n p p' X /\ tracked_ok (X ++ E) s' /\ d_copy s' = d_copy s.
Proof.
  induction n as [|n IH]; intros md curs p s xs p' s' E H T; cbn [tarray_loop] in H.
  - injection H as <- <- <-. exists []. (split; [|split]); auto. constructor.
  - assert (Q : forall r X s1, shape by_ (d_copy s =? 0) E p r X -> tracked_ok (X ++ E) s1 -> d_copy s1 = d_copy s ->
      forall md curs xs, tarray_loop rec urec n t md curs r s1 = (Ok (xs, p'), s') ->
      exists X, shapes by_ (d_copy s =? 0) E (S n) p p' X /\ tracked_ok (X ++ E) s' /\ d_copy s' = d_copy s).
    { intros r X s1 Sh T1 C1 md' curs' xs' H'. destruct (IH _ _ _ _ _ _ _ _ H' T1) as (Y & Sh2 & T2 & C2).
      rewrite C1 in *. exists (Y ++ X). rewrite <- app_assoc. (split; [|split]); auto. econstructor; eauto. }
    destruct curs as [|cur rest].
    + apply mbind_Ok in H as (r & s1 & H1 & H). destruct (discard_shape _ _ _ _ _ H1 T) as (X & Sh & T1 & C1). eauto.
    + apply mbind_Ok in H as ((x & r) & s1 & H1 & H). destruct (R _ _ _ _ _ _ _ _ _ H1 T) as (X & Sh & T1 & C1).
      apply mbind_Ok in H as ((ys & r2) & s2 & H2 & H). injection H as <- <- <-. eauto.
Qed.
Lemma tarrays_shape p ln ty cur md s x p' s' E : tdecodeArray by_ rec urec p ln ty cur md s = (Ok (x, p'), s') ->
  tracked_ok E s -> (0 <= ln <= maxInt32)%Z /\
  exists X, shapes by_ (d_copy s =? 0) E (Z.to_nat ln) p p' X /\ tracked_ok (X ++ E) s' /\ d_copy s' = d_copy s.
Proof.
  unfold tdecodeArray. intros H T. destruct ((ln <? 0) || (maxInt32 <? ln))%Z eqn:C1; [discriminate|].
  destruct (blen by_ <? Z.of_nat p + ln)%Z eqn:C2; [discriminate|]. split; [lia|]. cbv zeta in H.
  assert (A : forall t md0 l f s0, kept s s0 -> (let! (xs, idx) := tarray_loop rec urec (Z.to_nat ln) t md0 l p in ret (f xs, idx)) s0 = (Ok (x, p'), s') ->
    exists X, shapes by_ (d_copy s =? 0) E (Z.to_nat ln) p p' X /\ tracked_ok (X ++ E) s' /\ d_copy s' = d_copy s).
  { intros t md0 l f s0 K H0. apply mbind_Ok in H0 as ((xs & r) & s1 & H1 & H0). injection H0 as _ <- <-.
    destruct (tarray_shape _ _ _ _ _ _ _ _ _ _ H1 (tracked_kept _ _ _ _ K T)) as (X & Sh & T1 & Cc).
    destruct K as [_ K]. rewrite K in *. eauto. }
  assert (B : forall t f, (set md cur ;; log_make (Z.to_nat ln) (length by_ - p) ;;
        let! (xs, idx) := tarray_loop rec urec (Z.to_nat ln) t Settable (repeat (GoTypes.zero t) (Z.to_nat ln)) p in
        ret (f xs, idx)) s = (Ok (x, p'), s') ->
    exists X, shapes by_ (d_copy s =? 0) E (Z.to_nat ln) p p' X /\ tracked_ok (X ++ E) s' /\ d_copy s' = d_copy s).
  { intros t f H0. apply mbind_Ok in H0 as (y & s1 & H1 & H0). apply q_tset in H1.
    apply mbind_Ok in H0 as ([] & s2 & H2 & H0). apply q_log in H2. eapply A; [|exact H0]. eapply kept_trans; eauto. }
  destruct ty; try discriminate H; destruct cur; try discriminate H.
  - match goal with o : option (list tval) |- _ => destruct o as [[|y l]|] end;
      first [eapply A; [apply kept_refl|exact H] | eapply B; exact H].
  - eapply A; [apply kept_refl|exact H].
Qed.
Lemma tmap_shape n t : forall md m p s m' p' s' E, tmap_loop by_ rec n t md m p s = (Ok (m', p'), s') ->
  tracked_ok E s ->
  exists X, pair_shapes by_ (d_copy s =? 0) E n p p' X /\ tracked_ok (X ++ E) s' /\ d_copy s' = d_copy s.
Proof.
  induction n as [|n IH]; intros md m p s m' p' s' E H T; cbn [tmap_loop] in H.
  - injection H as <- <- <-. exists []. (split; [|split]); auto. constructor.
  - apply mbind_Ok in H as ((w & r) & s1 & H1 & H). apply stringish_inv in H1 as (-> & Nm). rewrite Nat2Z.id in Nm.
    cbv zeta in H.
    assert (Q : forall x md0 x' r' s1, rec t x md0 r s = (Ok (x', r'), s1) -> forall md m, tmap_loop by_ rec n t md m r' s1 = (Ok (m', p'), s') ->
      exists X, pair_shapes by_ (d_copy s =? 0) E (S n) p p' X /\ tracked_ok (X ++ E) s' /\ d_copy s' = d_copy s).
    { clear H. intros x md0 x' r' s1 H1 md1 m1 H. destruct (R _ _ _ _ _ _ _ _ _ H1 T) as (X & Sh & T1 & C1).
      destruct (IH _ _ _ _ _ _ _ _ H T1) as (Y & Sh2 & T2 & C2).
      rewrite C1 in *. exists (Y ++ X). rewrite <- app_assoc. (split; [|split]); auto. econstructor; eauto. }
    destruct (mget m (win_bytes by_ w)) as [x|].
    + apply mbind_Ok in H as ((x' & r') & s1 & H1 & H). eauto.
    + apply mbind_Ok in H as ((x' & r') & s1 & H1 & H). destruct md; try discriminate; eauto.
Qed.
Lemma tstruct_shape n id : forall md m p s m' p' s' E, tstruct_loop v by_ rec urec n id md m p s = (Ok (m', p'), s') ->
  tracked_ok E s ->
  exists X, pair_shapes by_ (d_copy s =? 0) E n p p' X /\ tracked_ok (X ++ E) s' /\ d_copy s' = d_copy s.
Proof.
  induction n as [|n IH]; intros md m p s m' p' s' E H T; cbn [tstruct_loop] in H.
  - injection H as <- <- <-. exists []. (split; [|split]); auto. constructor.
  - apply mbind_Ok in H as ((w & r) & s1 & H1 & H). apply stringish_inv in H1 as (-> & Nm). rewrite Nat2Z.id in Nm.
    assert (Q : forall X r' s1, shape by_ (d_copy s =? 0) E r r' X -> tracked_ok (X ++ E) s1 -> d_copy s1 = d_copy s ->
      forall md m, tstruct_loop v by_ rec urec n id md m r' s1 = (Ok (m', p'), s') ->
      exists X, pair_shapes by_ (d_copy s =? 0) E (S n) p p' X /\ tracked_ok (X ++ E) s' /\ d_copy s' = d_copy s).
    { clear H. intros X r' s1 Sh T1 C1 md1 m1 H. destruct (IH _ _ _ _ _ _ _ _ H T1) as (Y & Sh2 & T2 & C2).
      rewrite C1 in *. exists (Y ++ X). rewrite <- app_assoc. (split; [|split]); auto. econstructor; eauto. }
    destruct (find_field v id (win_bytes by_ w)) as [[i [fd t]]|].
    + apply mbind_Ok in H as ((x' & r') & s1 & H1 & H). destruct (R _ _ _ _ _ _ _ _ _ H1 T) as (X & Sh & T1 & C1). eauto.
    + apply mbind_Ok in H as (r' & s1 & H1 & H). destruct (discard_shape _ _ _ _ _ H1 T) as (X & Sh & T1 & C1). eauto.
Qed.
Lemma thashes_shape ty : forall p ln cur md s x p' s' E, tdecodeHash v by_ rec urec ty p ln cur md s = (Ok (x, p'), s') ->
  tracked_ok E s -> (0 <= ln <= maxInt32)%Z /\
  exists X, pair_shapes by_ (d_copy s =? 0) E (Z.to_nat ln) p p' X /\ tracked_ok (X ++ E) s' /\ d_copy s' = d_copy s.
Proof.
  induction ty; intros p ln cur md s x p' s' E H T; cbn [tdecodeHash] in H;
    (destruct ((ln <? 0) || (maxInt32 <? ln))%Z eqn:C1; [discriminate|]);
    (destruct (blen by_ <? Z.of_nat p + 2 * ln)%Z eqn:C2; [discriminate|]); cbv zeta in H; try discriminate H;
    destruct cur as [| | | | | | | |o|o|fs]; try discriminate H; (split; [lia|]).
  - apply mbind_Ok in H as (y & s1 & H1 & H).
    assert (K : kept s s1) by (destruct o; [apply q_ret in H1|apply q_tset in H1]; exact H1).
    apply mbind_Ok in H as ((m' & r) & s2 & H2 & H). injection H as _ <- <-.
    destruct (tmap_shape _ _ _ _ _ _ _ _ _ _ H2 (tracked_kept _ _ _ _ K T)) as (X & Sh & T1 & Cc).
    destruct K as [_ K]. rewrite K in *. eauto.
  - apply mbind_Ok in H as (y & s1 & H1 & H).
    assert (K : kept s s1) by (destruct o; [apply q_ret in H1|apply q_tset in H1]; exact H1).
    apply mbind_Ok in H as ((m' & r) & s2 & H2 & H). injection H as _ <- <-.
    destruct (IHty _ _ _ _ _ _ _ _ _ H2 (tracked_kept _ _ _ _ K T)) as (_ & X & Sh & T1 & Cc).
    destruct K as [_ K]. rewrite K in *. eauto.
  - apply mbind_Ok in H as ((m' & r) & s2 & H2 & H). injection H as _ <- <-.
    eapply tstruct_shape; eauto.
Qed.

Lemma tfreezes_shape ty cur md p b s x p' s' E : tdecodeFreeze c by_ urec ty cur md p b s = (Ok (x, p'), s') -> tracked_ok E s ->
  exists r X, named by_ b p r s /\ at_ by_ r [x28; x2b] /\ (exists x, lvint by_ (S (S r)) 1 x) /\
    shape by_ (d_copy s =? 0) E r p' X /\ tracked_ok (X ++ E) s' /\ d_copy s' = d_copy s.
Proof.
  unfold tdecodeFreeze. intros H T. apply mbind_Ok in H as ((nm & r) & s1 & H1 & H).
  apply class_shape in H1 as (-> & Nm). exists r.
  destruct (Nat.leb (length by_) (r + 1)); [discriminate|].
  destruct (nth_error by_ r) as [b0|] eqn:B0; [|discriminate].
  destruct (nth_error by_ (r + 1)) as [b1|] eqn:B1; [|discriminate].
  destruct (negb ((b2n b0 =? typeREFN) && (b2n b1 =? typeARRAY))%N) eqn:C; [discriminate|].
  assert (A : at_ by_ r [x28; x2b]).
  { destruct b0; try discriminate C. destruct b1; try discriminate C. clear CA.
    apply nth_error_split in B0 as (pre & post & -> & <-). exists pre.
    rewrite Nat.add_1_r, nth_error_app2 in B1 by lia. replace (S (length pre) - length pre) with 1 in B1 by lia.
    destruct post as [|y post]; [discriminate|]. injection B1 as ->. exists post. auto. }
  apply mbind_Ok in H as (l & s1 & H1 & H).
  assert (Hl : l < length (d_heap s1)) by (injection H1 as <- <-; cbn [with_heap d_heap]; rewrite app_length; cbn; lia).
  apply q_alloc in H1.
  apply mbind_Ok in H as (e & s2 & H2 & H). destruct (U _ _ _ _ _ _ H2 (tracked_kept _ _ _ _ H1 T)) as (X & Sh & T1 & C1).
  destruct H1 as [_ H1]. rewrite H1 in *. exists X. split; [exact Nm|]. split; [exact A|].
  assert (One : exists x, lvint by_ (S (S r)) 1 x).
  { apply mbind_Ok in H as (v0 & s3 & H3 & H). injection H3 as Ev <-. destruct v0; try discriminate.
    destruct (Nat.eqb_spec n 1) as [->|]; [|discriminate].
    destruct b0; try discriminate C. destruct b1; try discriminate C.
    apply (CA r l s1 e s2 base 1 B0 B1 H2 Hl Ev). }
  split; [exact One|].
  assert (K : kept s2 s' /\ p' = e).
  { apply mbind_Ok in H as (v0 & s3 & H3 & H). apply q_get in H3. destruct v0; try discriminate.
    destruct (negb (n =? 1)); [discriminate|].
    apply mbind_Ok in H as (e0 & s4 & H4 & H). apply q_get in H4. destruct e0; try discriminate.
    enough (K : kept s4 s' /\ p' = e) by (destruct K as [K ->]; split; auto; eauto using kept_trans).
    destruct (d_perl c).
    - apply mbind_Ok in H as (l2 & s5 & H5 & H). apply q_alloc in H5.
      apply mbind_Ok in H as (y & s6 & H6 & H). apply q_setIface in H6. injection H as _ <- <-.
      split; eauto using kept_trans.
    - assert (F : forall y, (set md cur ;; fun s => (Ok (y s, e), s)) s4 = (Ok (x, p'), s') -> kept s4 s' /\ p' = e).
      { intros y H0. apply mbind_Ok in H0 as (z & s5 & H5 & H0). apply q_tset in H5. injection H0 as _ <- <-. auto. }
      assert (F2 : (set md cur ;; fail (A := tval * nat) ECannotUnpack) s4 = (Ok (x, p'), s') -> False).
      { intros H0. apply mbind_Ok in H0 as (z & s5 & _ & [=]). }
      destruct ty; try discriminate H; try (exfalso; exact (F2 H)).
      destruct ty; try (exfalso; exact (F2 H)). destruct k; try (exfalso; exact (F2 H)).
      destruct cur; try (exfalso; exact (F2 H)).
      match goal with o : option (list tval) |- _ => destruct o as [y|] end; [exfalso; exact (F2 H)|].
      eapply F; exact H. }
  destruct K as [K ->]. (split; [|split]); auto.
  - eapply tracked_kept; eauto.
  - destruct K as [_ ->]. exact C1.
Qed.

Lemma tbody_shape : tshapely (tdecode_body c v by_ ibuf ishift rec urec).
Proof.
  intros ty cur md p s x p' s' E H T. unfold tdecode_body in H.
  destruct (Nat.leb (length by_) p); [discriminate|].
  assert (Nil : (let! l := alloc (CV GNil) in
      let! idx := urec p l in
      let! x := get_var l in
      match x with
      | GNil => ret (cur, idx)
      | _ => let! r := set md (VIface x) in ret (r, idx)
      end) s = (Ok (x, p'), s') ->
    exists X, shape by_ (d_copy s =? 0) E p p' X /\ tracked_ok (X ++ E) s' /\ d_copy s' = d_copy s).
  { clear H. intros H. apply mbind_Ok in H as (l & s1 & H1 & H). apply q_alloc in H1.
    apply mbind_Ok in H as (r & s2 & H2 & H). destruct (U _ _ _ _ _ _ H2 (tracked_kept _ _ _ _ H1 T)) as (X & Sh & T1 & C1).
    apply mbind_Ok in H as (y & s3 & H3 & H). apply q_get in H3.
    assert (K : kept s3 s' /\ p' = r).
    { destruct y; cbn beta iota in H.
      1: injection H as _ <- <-; split; [apply kept_refl|auto].
      all: apply mbind_Ok in H as (zz & s5 & H5 & H); apply q_tset in H5; injection H as _ <- <-; auto. }
    destruct K as [K ->]. pose proof (kept_trans _ _ _ H3 K) as K3. destruct H1 as [_ H1]. rewrite H1 in *.
    exists X. (split; [|split]); auto.
    - eapply tracked_kept; eauto.
    - destruct K3 as [_ ->]. exact C1. }
  assert (Main : match skip_pads (skipn p by_) p with
      | None => fail ETruncated
      | Some (tagb, idx) =>
          (if tracked_bit tagb then poison idx else ret tt) ;;
          tdecode_tag c v by_ ibuf ishift rec urec (tag_kind (untrack tagb)) ty cur md (S idx)
      end s = (Ok (x, p'), s') ->
    exists X, shape by_ (d_copy s =? 0) E p p' X /\ tracked_ok (X ++ E) s' /\ d_copy s' = d_copy s).
  2:{ destruct ty; auto. destruct cur; auto. match goal with g : gval |- _ => destruct g end; auto. }
  clear H Nil. intros H.
  destruct (skip_pads (skipn p by_) p) as [[tagb q]|] eqn:SP; [|discriminate].
  apply tag_found in SP as [Tg Nq]. pose proof (tag_kind_fits tagb) as K.
  apply mbind_Ok in H as ([] & s1 & H1 & H).
  assert (T1 : tracked_ok (q :: E) s1 /\ d_copy s1 = d_copy s).
  { destruct (tracked_bit tagb) eqn:TB.
    - unfold poison in H1. apply mbind_Ok in H1 as (l & s2 & H2 & H1). injection H2 as <- <-. injection H1 as <-.
      split; [|reflexivity]. intros n y. cbn [d_tracked with_heap assoc_nat]. destruct (Nat.eqb_spec q n) as [<-|].
      + intros _. split; [now left|]. now apply (marked_bit by_ q tagb Nq).
      + intros A. destruct (T n y A). split; [now right|auto].
    - injection H1 as <-. split; [|reflexivity]. eapply tracked_weaken; [|exact T]. intros z; now right. }
  clear H1 T. destruct T1 as [T C].
  enough (Q : fine (q :: E) s1 q (untrack tagb) p' s').
  { destruct Q as (X & Sh & T2 & C2). exists (X ++ [q]). rewrite C in *. split; [econstructor; eauto|]. split; [|congruence].
    now rewrite <- app_assoc. }
  clear C. revert H T. generalize (q :: E). clear s E. intros E H T. rename s1 into s.
  assert (Q1 : forall e (m : M tval), quiet m -> tag_shape by_ (d_copy s =? 0) E q (untrack tagb) e [] ->
     forall s1, kept s s1 -> (let! x := m in ret (x, e)) s1 = (Ok (x, p'), s') -> fine E s q (untrack tagb) p' s').
  { intros e m Q Kt s1 K1 H0. apply mbind_Ok in H0 as (u & s2 & H0 & H1). injection H1 as _ <- <-. apply Q in H0.
    pose proof (kept_trans _ _ _ K1 H0) as K2.
    exists []. split; [exact Kt|]. split; [eapply tracked_kept; eauto|apply K2]. }
  assert (QR : forall ty cur md, rec ty cur md (S q) s = (Ok (x, p'), s') -> (untrack tagb = 40 \/ untrack tagb = 48)%N ->
     fine E s q (untrack tagb) p' s').
  { intros ty0 cur0 md0 H0 Kt. destruct (R _ _ _ _ _ _ _ _ _ H0 T) as (X & Sh & T1 & C1). exists X. split; [|auto].
    eapply h_ref; eauto. }
  destruct (tag_kind (untrack tagb)) as [t| | | | | | | |n| |n| | |n| | | | | | | | | | | | |t] eqn:TK;
    cbn [kind_fits tdecode_tag] in K, H; try discriminate.
  - eapply Q1; [| |apply kept_refl|exact H]; [apply q_setInt|]. apply h_small. lia.
  - apply mbind_Ok in H as ((z & sz) & s1 & V & H). apply varint_at_inv in V as (-> & n & V & _).
    eapply Q1; [| |apply kept_refl|exact H]; [apply q_setInt|]. eapply h_varint; eauto.
  - apply mbind_Ok in H as ((z & sz) & s1 & V & H). apply varint_at_inv in V as (-> & n & V & _).
    eapply Q1; [| |apply kept_refl|exact H]; [apply q_setInt|]. eapply h_varint; eauto.
  - apply mbind_Ok in H as (n & s1 & V & H). apply fixed_at_inv in V as (-> & L); [|lia].
    eapply Q1; [| |apply kept_refl|exact H]; [apply q_setFloat|]. rewrite K. now apply h_float.
  - apply mbind_Ok in H as (n & s1 & V & H). apply fixed_at_inv in V as (-> & L); [|lia].
    eapply Q1; [| |apply kept_refl|exact H]; [apply q_setFloat|]. rewrite K. now apply h_double.
  - eapply Q1; [| |apply kept_refl|exact H]; [apply q_setBool|]. apply h_small. lia.
  - eapply Q1; [| |apply kept_refl|exact H]; [apply q_setBool|]. apply h_small. lia.
  - apply mbind_Ok in H as ((z & sz) & s1 & V & H). apply varint_at_inv in V as (-> & n & V & Ez & Ln & _).
    destruct (thashes_shape _ _ _ _ _ _ _ _ _ _ H T) as (Lz & X & Sh & T1 & C1).
    destruct (to_int_range _ _ Ez Ln) as [E1 E2]; [lia|]. rewrite E1 in Sh. exists X. split; [|auto]. rewrite K.
    eapply h_hash; eauto. unfold longest, maxInt32 in *. lia.
  - destruct (thashes_shape _ _ _ _ _ _ _ _ _ _ H T) as (_ & X & Sh & T1 & C1). rewrite Nat2Z.id in Sh.
    destruct K as [K ->]. exists X. split; [|auto]. eapply h_hashref; eauto.
  - apply mbind_Ok in H as ((z & sz) & s1 & V & H). apply varint_at_inv in V as (-> & n & V & Ez & Ln & _).
    destruct (tarrays_shape _ _ _ _ _ _ _ _ _ _ H T) as (Lz & X & Sh & T1 & C1).
    destruct (to_int_range _ _ Ez Ln) as [E1 E2]; [lia|]. rewrite E1 in Sh. exists X. split; [|auto]. rewrite K.
    eapply h_array; eauto. unfold longest, maxInt32 in *. lia.
  - destruct (tarrays_shape _ _ _ _ _ _ _ _ _ _ H T) as (_ & X & Sh & T1 & C1). rewrite Nat2Z.id in Sh.
    destruct K as [K ->]. exists X. split; [|auto]. eapply h_arrayref; eauto.
  - apply mbind_Ok in H as ((z & sz) & s1 & V & H). apply varint_at_inv in V as (-> & n & V & Ez & Ln & _).
    apply mbind_Ok in H as ((y & e) & s1 & B & H). apply binary_at_inv in B as (-> & Lz & Le & ->).
    destruct (to_int_range _ _ Ez Ln) as [E1 E2]; [lia|]. rewrite E1 in *.
    eapply Q1; [| |apply kept_refl|exact H]; [apply q_setString|]. apply h_string; [lia|].
    eapply ts_long; eauto using tag_self. unfold longest, maxInt32 in *. lia.
  - apply mbind_Ok in H as ((z & sz) & s1 & V & H). apply varint_at_inv in V as (-> & n & V & Ez & Ln & _).
    apply mbind_Ok in H as ((y & e) & s1 & B & H). apply binary_at_inv in B as (-> & Lz & Le & ->).
    destruct (to_int_range _ _ Ez Ln) as [E1 E2]; [lia|]. rewrite E1 in *.
    eapply Q1; [| |apply kept_refl|exact H]; [apply q_setBinary|]. apply h_string; [lia|].
    eapply ts_long; eauto using tag_self. unfold longest, maxInt32 in *. lia.
  - apply mbind_Ok in H as ((y & e) & s1 & B & H). apply binary_at_inv in B as (-> & Lz & Le & ->).
    rewrite Nat2Z.id in *. destruct K as [K ->].
    eapply Q1; [| |apply kept_refl|exact H]; [apply q_setBinary|]. apply h_string; [lia|].
    eapply ts_short; eauto using tag_self.
  - (* UNDEF *)
    assert (Sm : tag_shape by_ (d_copy s =? 0) E q (untrack tagb) (S q) []) by (apply h_small; lia).
    destruct (d_perl c).
    + apply mbind_Ok in H as (y & s1 & H1 & H). apply mbind_Ok in H1 as (l & s2 & H2 & H1). apply q_alloc in H2. injection H1 as <- <-.
      eapply Q1; [| |exact H2|exact H]; [apply q_setIface|exact Sm].
    + assert (Z : ret (cur, S q) s = (Ok (x, p'), s') -> fine E s q (untrack tagb) p' s').
      { intros [= <- <- <-]. exists []. auto. }
      destruct ty; auto; (eapply Q1; [| |apply kept_refl|exact H]; [apply q_tset|exact Sm]).
  - (* CANONICAL_UNDEF *)
    assert (Sm : tag_shape by_ (d_copy s =? 0) E q (untrack tagb) (S q) []) by (apply h_small; lia).
    destruct (d_perl c).
    + apply mbind_Ok in H as (y & s1 & H1 & H). injection H1 as <- <-.
      eapply Q1; [| |apply kept_refl|exact H]; [apply q_setIface|exact Sm].
    + assert (Z : ret (cur, S q) s = (Ok (x, p'), s') -> fine E s q (untrack tagb) p' s').
      { intros [= <- <- <-]. exists []. auto. }
      destruct ty; auto; (eapply Q1; [| |apply kept_refl|exact H]; [apply q_tset|exact Sm]).
  - (* COPY *)
    apply mbind_Ok in H as (d & s1 & G & H). injection G as <- <-.
    destruct (Nat.ltb 0 (d_copy s)) eqn:D0; [discriminate|].
    apply mbind_Ok in H as ((offs & sz) & s1 & V & H). apply varint_at_inv in V as (-> & n & V & Ez & Ln & Le & _).
    destruct ((offs <? 0) || (Z.of_nat (S q) <=? offs))%Z eqn:C1; [discriminate|]. cbv zeta in H.
    apply mbind_Ok in H as ([] & s1 & G & H). injection G as <-.
    apply mbind_Ok in H as ((y & e0) & s2 & G & H). injection H as _ <- <-.
    destruct (rec ty cur md (Z.to_nat offs) _) as [[[y1 e1]|er|er| |] s3] eqn:Rn; try discriminate.
    injection G as _ _ <-.
    destruct (R _ _ _ _ _ _ _ _ E Rn) as (X & Sh & T1 & C2); [exact T|]. cbn [d_copy Nat.eqb] in Sh, C2.
    destruct (to_int_range _ _ Ez Ln) as [E1 E2]; [lia|]. rewrite E1 in Sh.
    assert (D1 : d_copy s = 0) by (apply Nat.ltb_ge in D0; lia).
    exists X. split; [|split; [exact T1|cbn [d_copy]; rewrite C2; reflexivity]].
    rewrite D1, K. cbn [Nat.eqb]. rewrite K in Tg. eapply h_copy; eauto.
    enough (N.to_nat n <> q) by lia. intros Q. rewrite Q in Sh. eapply shape_not_copy; eauto using tag_self.
  - eapply QR; eauto.
  - exfalso. unfold decodeRefpTyped in H. apply mbind_Ok in H as ((offs & sz) & s1 & _ & H). cbv zeta in H.
    destruct ((offs <? 0) || (Z.of_nat (S q + sz) <=? offs))%Z; [discriminate|].
    apply mbind_Ok in H as (o & s2 & _ & H). destruct o; discriminate.
  - exfalso. unfold decodeRefpTyped in H. apply mbind_Ok in H as ((offs & sz) & s1 & _ & H). cbv zeta in H.
    destruct ((offs <? 0) || (Z.of_nat (S q + sz) <=? offs))%Z; [discriminate|].
    apply mbind_Ok in H as (o & s2 & _ & H). destruct o; discriminate.
  - (* WEAKEN *)
    destruct (d_perl c); [|eapply QR; eauto].
    apply mbind_Ok in H as (l & s1 & H1 & H). apply q_alloc in H1.
    apply mbind_Ok in H as (y & s2 & H2 & H). apply q_setIface in H2. pose proof (kept_trans _ _ _ H1 H2) as K2.
    apply mbind_Ok in H as (r & s3 & H3 & H). injection H as _ <- <-.
    destruct (U _ _ _ _ _ _ H3 (tracked_kept _ _ _ _ K2 T)) as (X & Sh & T1 & C1).
    destruct K2 as [_ K2]. rewrite K2 in *. exists X. split; [|auto]. eapply h_ref; eauto.
  - (* REGEXP *)
    apply mbind_Ok in H as (l & s1 & H1 & H). apply q_alloc in H1. apply mbind_Ok in H as (r0 & s2 & H2 & H).
    unfold decodeRegexp in H2.
    apply mbind_Ok in H2 as ((w & r) & s3 & H3 & H2). apply stringish_inv in H3 as (-> & N1). rewrite Nat2Z.id in N1.
    apply mbind_Ok in H2 as ((w2 & r2) & s3 & H3 & H2). apply stringish_inv in H3 as (-> & N2). rewrite Nat2Z.id in N2.
    apply mbind_Ok in H2 as (l2 & s4 & H4 & H2). apply q_alloc in H4. apply mbind_Ok in H2 as ([] & s5 & H5 & H2).
    apply q_set in H5. injection H2 as <- <-. apply mbind_Ok in H as (y & s6 & H6 & H). apply q_get in H6.
    pose proof (kept_trans _ _ _ H1 (kept_trans _ _ _ H4 (kept_trans _ _ _ H5 H6))) as K6. destruct H1 as [_ H1]. rewrite H1 in *.
    eapply Q1; [| |exact K6|exact H]; [apply q_setIface|]. rewrite K. eapply h_regexp; eauto.
  - apply mbind_Ok in H as ((nm & r) & s1 & H1 & H). apply class_shape in H1 as (-> & Nm). rewrite K. destruct (d_perl c).
    + apply mbind_Ok in H as (l & s1 & H1 & H). apply q_alloc in H1.
      apply mbind_Ok in H as (y & s2 & H2 & H). apply q_setIface in H2. pose proof (kept_trans _ _ _ H1 H2) as K2.
      apply mbind_Ok in H as (r0 & s3 & H3 & H). injection H as _ <- <-.
      destruct (U _ _ _ _ _ _ H3 (tracked_kept _ _ _ _ K2 T)) as (X & Sh & T1 & C1).
      destruct K2 as [_ K2]. rewrite K2 in *. exists X. split; [|auto]. eapply h_object; eauto.
    + destruct (R _ _ _ _ _ _ _ _ _ H T) as (X & Sh & T1 & C1). exists X. split; [|auto]. eapply h_object; eauto.
  - apply mbind_Ok in H as ((nm & r) & s1 & H1 & H). apply class_shape in H1 as (-> & (n & e & V & Nm)). rewrite K. destruct (d_perl c).
    + apply mbind_Ok in H as (l & s1 & H1 & H). apply q_alloc in H1.
      apply mbind_Ok in H as (y & s2 & H2 & H). apply q_setIface in H2. pose proof (kept_trans _ _ _ H1 H2) as K2.
      apply mbind_Ok in H as (r0 & s3 & H3 & H). injection H as _ <- <-.
      destruct (U _ _ _ _ _ _ H3 (tracked_kept _ _ _ _ K2 T)) as (X & Sh & T1 & C1).
      destruct K2 as [_ K2]. rewrite K2 in *. exists X. split; [|auto]. eapply h_objectv; eauto.
    + destruct (R _ _ _ _ _ _ _ _ _ H T) as (X & Sh & T1 & C1). exists X. split; [|auto]. eapply h_objectv; eauto.
  - destruct (tfreezes_shape _ _ _ _ _ _ _ _ _ _ H T) as (r & X & Nm & A & (y & O) & Sh & T1 & C1).
    exists X. split; [|auto]. rewrite K. eapply h_freeze; eauto.
  - destruct (tfreezes_shape _ _ _ _ _ _ _ _ _ _ H T) as (r & X & (n & e & V & Nm) & A & (y & O) & Sh & T1 & C1).
    exists X. split; [|auto]. rewrite K. eapply h_freezev; eauto.
Qed.
End Rec.

Lemma tdecode_shapely f : tshapely (tdecode c v by_ ibuf ishift f).
Proof.
  induction f as [|f IH]; [intros ty cur md p s x p' s' E H; discriminate|]. cbn [tdecode].
  apply tbody_shape; [exact IH|apply decode_shapely|apply decode_counts].
Qed.
End TAccepted.

Section TDocs.
Variable k : codecs.
Variable c : dconfig.
Variable v : goenv.

(** a call with a valid header *)
Lemma typed_start b ib ty cur s x s' : unmarshal_typed_raw k c v b ib ty cur s = (Ok x, s') ->
  exists ver typ l n rest dec, starts b ver typ l n rest /\ documentDecompressor ver typ = Ok dec /\
    (0 <= bodyStart_of l n <= Z.of_nat (length b))%Z /\
    unmarshal_tbody k c v b ib (header_of ver typ l n) dec (Z.to_nat (bodyStart_of l n)) ty cur s = (Ok x, s').
Proof.
  unfold unmarshal_typed_raw. intros H. apply mbind_Ok in H as (h & s1 & H1 & H). unfold lift in H1. injection H1 as H1 <-.
  destruct (checkHeader_inv _ _ H1) as (ver & typ & l & n & rest & S & ->).
  apply mbind_Ok in H as (dec & s1 & H2 & H). unfold lift in H2. injection H2 as H2 <-.
  cbn [header_of h_version h_doctype h_suffixSize] in H2, H. fold (bodyStart_of l n) in H. cbv zeta in H.
  destruct ((Z.of_nat (length b) <? bodyStart_of l n) || (bodyStart_of l n <? 0))%Z eqn:B; [discriminate|].
  exists ver, typ, l, n, rest, dec. split; [exact S|]. split; [exact H2|]. split; [lia|]. exact H.
Qed.

Theorem typed_accepted_shape b ib ty cur s x s' : (Z.of_nat (length b) < two63)%Z -> d_copy s = 0 ->
  unmarshal_typed_raw k c v b ib ty cur s = (Ok x, s') -> document_shape k b.
Proof.
  intros Lb C U. apply typed_start in U as (ver & typ & ln & n & rest & dec & S & D & B & U).
  assert (L10 : length ln <= 10) by (destruct S as (_ & _ & vt & _ & _ & _ & L); exact L).
  assert (Bn : (body_start ln n <= N.of_nat (length b))%N).
  { apply bodyStart_ok; auto. destruct B. apply orb_false_iff. split; apply Z.ltb_ge; auto. }
  rewrite (bodyStart_nat _ _ _ L10 Lb Bn) in U.
  exists ver, typ, ln, n, rest. revert Bn U. generalize (body_start ln n). intros B0 Bn U.
  unfold unmarshal_tbody in U. apply mbind_Ok in U as ((b' & ib') & s1 & U1 & U). cbn [header_of h_version] in U.
  assert (P : exists body, unpacks k ver typ (skipn (N.to_nat B0) b) body /\ b' = firstn (N.to_nat B0) b ++ body /\ d_copy s1 = 0).
  { destruct dec as [dk|].
    - destruct (slice_from b (N.to_nat B0)) as [z|] eqn:Sl; [|discriminate]. apply slice_from_Some in Sl as [_ ->].
      apply mbind_Ok in U1 as (d & s2 & U1 & U2). unfold lift in U1. injection U1 as U1 <-. cbv zeta in U2.
      apply mbind_Ok in U2 as (l0 & s3 & A & U2). apply q_alloc in A as [_ A]. injection U2 as <- <- <-.
      exists d. split; [eapply unpacks_of; eauto|]. split; [reflexivity|congruence].
    - apply decompressor_raw in D as ->. injection U1 as <- <- <-. exists (skipn (N.to_nat B0) b). rewrite firstn_skipn.
      split; [constructor|auto]. }
  destruct P as (body & P & -> & C1). exists body.
  apply mbind_Ok in U as ([] & s2 & U2 & U). injection U2 as <-.
  destruct (ver =? 1)%N eqn:V1.
  - apply mbind_Ok in U as ((y & e) & s3 & U & _).
    destruct (tdecode_shapely c v _ _ _ _ _ _ _ _ _ _ _ _ [] U) as (X & Sh & _); [intros m y0; discriminate|].
    cbn [d_copy] in Sh. rewrite C1 in Sh. exists e, X. auto.
  - destruct (N.to_nat B0 =? 0) eqn:Z0; [discriminate|].
    destruct (slice_from (firstn (N.to_nat B0) b ++ body) (N.to_nat B0 - 1)) as [y|] eqn:Sl; [|discriminate].
    apply slice_from_Some in Sl as [_ ->].
    apply mbind_Ok in U as ((y & e) & s3 & U & _).
    destruct (tdecode_shapely c v _ _ _ _ _ _ _ _ _ _ _ _ [] U) as (X & Sh & _); [intros m y0; discriminate|].
    cbn [d_copy] in Sh. rewrite C1 in Sh. exists e, X.
    split; [auto|]. split; [auto|]. split; [auto|]. split; [lia|].
    rewrite skipn_app in Sh. rewrite firstn_length in Sh.
    replace (N.to_nat B0 - 1 - Nat.min (N.to_nat B0) (length b)) with 0 in Sh by lia. exact Sh.
Qed.
End TDocs.
