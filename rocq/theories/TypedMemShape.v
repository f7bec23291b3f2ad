(** What Unmarshal into typed variables in memory accepts has the shape of a document. *)
From Verif Require Import Base BaseFacts SpecVarint Varint VarintFacts Tags GoMem GoTypes TagsCache Codecs Encode Compress Header Decode
  Document Typed TypedMem Spec SpecDoc SpecHeader SpecShare SpecShape DecodeSafe FrameFacts DecodeSpec ShareDecode HeaderFacts ApiFacts ApiSafe MergeFacts ShapeFacts TypedShape.
From Coq Require Import ZifyBool ZifyNat ZifyN.

Lemma tbind_Ok A B (m : TM A) (k : A -> TM B) s b s' : tbind m k s = (Ok b, s') -> exists a s1, m s = (Ok a, s1) /\ k a s1 = (Ok b, s').
Proof. unfold tbind. destruct (m s) as [[a|e|e| |] s1] eqn:E; try discriminate. intros H. exists a, s1. auto. Qed.
Lemma lift_Ok A (m : M A) s a s' : lift_ m s = (Ok a, s') -> m (m_d s) = (Ok a, m_d s').
Proof. unfold lift_. destruct (m (m_d s)) as [r d]. intros [= -> <-]. reflexivity. Qed.

Notation kd s s' := (kept (m_d s) (m_d s')).
(** operations that touch neither the table nor the depth *)
Definition mq {A} (m : TM A) : Prop := forall s a s', m s = (Ok a, s') -> kd s s'.
Lemma mq_fail A e : mq (tfail (A := A) e). Proof. intros s a s' [=]. Qed.
Lemma mq_panic A e : mq (tpanic (A := A) e). Proof. intros s a s' [=]. Qed.
Lemma mq_ret A a : mq (tret (A := A) a). Proof. intros s x s' [= <- <-]. apply kept_refl. Qed.
Lemma mq_bind A B (m : TM A) (k : A -> TM B) : mq m -> (forall a, mq (k a)) -> mq (tbind m k).
Proof. intros Hm Hk s b s' H. apply tbind_Ok in H as (a & s1 & H1 & H2). eapply kept_trans; [eapply Hm|eapply Hk]; eauto. Qed.
Lemma mq_lift A (m : M A) : quiet m -> mq (lift_ m).
Proof. intros Q s a s' H. apply lift_Ok in H. eapply Q; eauto. Qed.
Lemma mq_new x : mq (new_cell x). Proof. intros s a s' [= <- <-]. apply kept_refl. Qed.
Lemma mq_cell l x : mq (set_cell l x). Proof. intros s a s' [= <- <-]. apply kept_refl. Qed.
Lemma mq_mem : mq get_mem. Proof. intros s a s' [= <- <-]. apply kept_refl. Qed.
Lemma mq_getref l : mq (get_ref l). Proof. intros s a s' [= <- <-]. apply kept_refl. Qed.
Lemma mq_check md : mq (mcheck md). Proof. destruct md; [apply mq_ret|apply mq_panic|apply mq_panic]. Qed.

Section MAccepted.
Variable c : dconfig.
Variable v : goenv.
Variable by_ : bytes.
Variable ibuf : loc.
Variable ishift : nat.
Notation tracked_ok E s := (tracked_ok by_ E (m_d s)).

Lemma mq_write r x : mq (write v r x).
Proof. apply mq_bind; [apply mq_mem|]. intros. apply mq_cell. Qed.
Lemma mq_read r : mq (read v r).
Proof. apply mq_bind; [apply mq_mem|]. intros. apply mq_ret. Qed.
Lemma mq_set md r x : mq (mset v md r x).
Proof. apply mq_bind; [apply mq_check|]. intros. apply mq_write. Qed.
Hint Resolve mq_fail mq_panic mq_ret mq_new mq_cell mq_mem mq_getref mq_check mq_write mq_read mq_set mq_lift q_alloc q_set q_get q_log : mq.
Ltac mqs := repeat (first [solve [auto with mq nocore | apply mq_fail | apply mq_panic | apply mq_ret | apply mq_new | apply mq_cell | apply mq_mem | apply mq_getref | apply mq_check | apply mq_write | apply mq_read | apply mq_set | apply mq_lift, q_get | apply mq_lift, q_log | apply mq_lift, q_alloc] | apply mq_bind | match goal with |- mq (match ?y with _ => _ end) => destruct y end | intros ?]).
Lemma mq_setInt ty md r i : mq (msetInt v ty md r i). Proof. unfold msetInt. mqs. Qed.
Lemma mq_setFloat ty md r i : mq (msetFloat v ty md r i). Proof. unfold msetFloat. mqs. Qed.
Lemma mq_setBool ty md r i : mq (msetBool v ty md r i). Proof. unfold msetBool. mqs. Qed.
Lemma mq_setString ty md r i : mq (msetString v ty md r i). Proof. unfold msetString. mqs. Qed.
Lemma mq_setIface ty md r i : mq (mset_iface v ty md r i). Proof. unfold mset_iface. mqs. Qed.
Lemma mq_setBinary ty md r x : mq (msetBinary v ty md r x).
Proof. unfold msetBinary. mqs. Qed.
Lemma mq_index r i : mq (index_ref v r i). Proof. unfold index_ref. mqs. Qed.
Lemma mq_gval ty md r x : mq (set_gval v ty md r x).
Proof.
  apply mq_bind; [apply mq_check|]. intros _ s a s'. destruct (of_gval _ _ _); [|discriminate]. destruct (build _ _) as [m mem].
  intros H. apply mq_write in H. exact H.
Qed.
Hint Resolve mq_gval : mq.
Lemma mq_refiface ty md r x b : mq (ref_iface c v ty md r x b).
Proof. unfold ref_iface. mqs. Qed.

Definition mfine (E : list nat) (s : mstate) (q : nat) (t : N) (p' : nat) (s' : mstate) : Prop :=
  exists X, tag_shape by_ (d_copy (m_d s) =? 0) E q t p' X /\ tracked_ok (X ++ E) s' /\ d_copy (m_d s') = d_copy (m_d s).
Definition mitem (E : list nat) (s : mstate) (p p' : nat) (s' : mstate) : Prop :=
  exists X, shape by_ (d_copy (m_d s) =? 0) E p p' X /\ tracked_ok (X ++ E) s' /\ d_copy (m_d s') = d_copy (m_d s).
Definition mshapely (m : gtype -> mref -> amode -> nat -> TM nat) : Prop :=
  forall ty r md p s p' s' E, m ty r md p s = (Ok p', s') -> tracked_ok E s -> mitem E s p p' s'.
Lemma mitem_kept E s s1 p p' s' : kd s s1 -> mitem E s1 p p' s' -> mitem E s p p' s'.
Proof. unfold mitem. intros [_ K]. now rewrite K. Qed.
Lemma mitem_then E s p p' s1 s' : mitem E s p p' s1 -> kd s1 s' -> mitem E s p p' s'.
Proof. intros (X & A & B & C) K. exists X. split; [exact A|]. split; [eapply tracked_kept; eauto|]. destruct K. congruence. Qed.
Ltac tb H a s1 H1 := apply tbind_Ok in H as (a & s1 & H1 & H).

Section Rec.
Variable rec : gtype -> mref -> amode -> nat -> TM nat.
Variable urec : nat -> loc -> M nat.
Hypothesis R : mshapely rec.
Hypothesis U : shapely by_ urec.
Hypothesis CA : counts_array by_ urec.

Lemma u_item p l s p' s' E : lift_ (urec p l) s = (Ok p', s') -> tracked_ok E s -> mitem E s p p' s'.
Proof. intros H T. apply lift_Ok in H. destruct (U _ _ _ _ _ _ H T) as (X & A & B & C). exists X. auto. Qed.
Lemma d_item p s p' s' E : lift_ (discard urec p) s = (Ok p', s') -> tracked_ok E s -> mitem E s p p' s'.
Proof. intros H T. apply lift_Ok in H. eapply discard_shape in H as (X & A & B & C); [|exact U|exact T]. exists X. auto. Qed.

Lemma marray_shape n t md r : forall i ln p s p' s' E, marray_loop v rec urec n t md r i ln p s = (Ok p', s') ->
  tracked_ok E s ->
  exists X, shapes by_ (d_copy (m_d s) =? 0) E n p p' X /\ tracked_ok (X ++ E) s' /\ d_copy (m_d s') = d_copy (m_d s).
Proof.
  induction n as [|n IH]; intros i ln p s p' s' E H T; cbn [marray_loop] in H.
  - injection H as <- <-. exists []. (split; [|split]); auto. constructor.
  - tb H j s1 H1. assert (I : mitem E s p j s1).
    { destruct (Nat.ltb i ln); [|eapply d_item; eauto]. tb H1 e s0 H0. apply mq_index in H0.
      eapply mitem_kept; [exact H0|]. eapply R; [exact H1|]. eapply tracked_kept; eauto. }
    destruct I as (X & Sh & T1 & C1). destruct (IH _ _ _ _ _ _ _ H T1) as (Y & Sh2 & T2 & C2).
    rewrite C1 in *. exists (Y ++ X). rewrite <- app_assoc. (split; [|split]); auto. econstructor; eauto.
Qed.
Lemma marrays_shape p ln ty r md s p' s' E : mdecodeArray v by_ rec urec p ln ty r md s = (Ok p', s') ->
  tracked_ok E s -> (0 <= ln <= maxInt32)%Z /\
  exists X, shapes by_ (d_copy (m_d s) =? 0) E (Z.to_nat ln) p p' X /\ tracked_ok (X ++ E) s' /\ d_copy (m_d s') = d_copy (m_d s).
Proof.
  unfold mdecodeArray. intros H T. destruct ((ln <? 0) || (maxInt32 <? ln))%Z eqn:C1; [discriminate|].
  destruct (blen by_ <? Z.of_nat p + ln)%Z eqn:C2; [discriminate|]. split; [lia|]. cbv zeta in H.
  assert (A : forall t md0 n i m s0, kd s s0 -> marray_loop v rec urec (Z.to_nat ln) t md0 n i m p s0 = (Ok p', s') ->
    exists X, shapes by_ (d_copy (m_d s) =? 0) E (Z.to_nat ln) p p' X /\ tracked_ok (X ++ E) s' /\ d_copy (m_d s') = d_copy (m_d s)).
  { intros t md0 n i m s0 K H0. 
    destruct (marray_shape _ _ _ _ _ _ _ _ _ _ _ H0 (tracked_kept _ _ _ _ K T)) as (X & Sh & T1 & Cc).
    destruct K as [_ K]. rewrite K in *. eauto. }
  tb H mem s1 H1. apply mq_mem in H1.
  assert (B : forall t, (do! _ := mcheck md in
      do! _ := lift_ (log_make (Z.to_nat ln) (length by_ - p)) in
      do! l := new_cell (MCell (MArr (repeat (mzero t) (Z.to_nat ln)))) in
      do! _ := write v r (MSlice (Some l)) in
      marray_loop v rec urec (Z.to_nat ln) t Settable r 0 (Z.to_nat ln) p) s1 = (Ok p', s') ->
    exists X, shapes by_ (d_copy (m_d s) =? 0) E (Z.to_nat ln) p p' X /\ tracked_ok (X ++ E) s' /\ d_copy (m_d s') = d_copy (m_d s)).
  { clear H. intros t H. tb H u1 s2 H2. apply mq_check in H2. tb H u2 s3 H3. apply (mq_lift _ _ (q_log _ _)) in H3.
    tb H l s4 H4. apply mq_new in H4. tb H u5 s5 H5. apply mq_write in H5. eapply A; [|exact H]. eauto using kept_trans. }
  destruct ty; try discriminate H; destruct (rd v mem r) as [| | | | | |[l|]|ms| | |]; try discriminate H; eauto.
  destruct (mvar mem l) as [| | | | | | |ms| | |]; try discriminate H. destruct ms; eauto.
Qed.
Lemma mmap_shape n t md r : forall p s p' s' E, mmap_loop v by_ rec n t md r p s = (Ok p', s') ->
  tracked_ok E s ->
  exists X, pair_shapes by_ (d_copy (m_d s) =? 0) E n p p' X /\ tracked_ok (X ++ E) s' /\ d_copy (m_d s') = d_copy (m_d s).
Proof.
  induction n as [|n IH]; intros p s p' s' E H T; cbn [mmap_loop] in H.
  - injection H as <- <-. exists []. (split; [|split]); auto. constructor.
  - apply tbind_Ok in H as ((w & i) & s1 & H1 & H). apply lift_Ok, stringish_inv in H1 as (K1 & Nm). rewrite Nat2Z.id in Nm.
    cbv zeta in H. tb H mem s2 H2. apply mq_mem in H2. rewrite K1 in H2. tb H j s3 H3.
    assert (I : mitem E s i j s3).
    { eapply mitem_kept; [exact H2|]. pose proof (tracked_kept _ _ _ _ H2 T) as T2. clear H.
      destruct (match rd v mem r with MMap (Some l) => _ | _ => _ end) as [x|].
      - tb H3 e s4 H4. apply mq_new in H4. eapply mitem_kept; [exact H4|]. eapply R; [exact H3|]. eapply tracked_kept; eauto.
      - tb H3 e s4 H4. apply mq_new in H4. eapply mitem_kept; [exact H4|]. tb H3 i2 s5 H5. pose proof (R _ _ _ _ _ _ _ E H5 (tracked_kept _ _ _ _ H4 T2)) as I5.
        assert (F : (do! mem := get_mem in
                match rd v mem r with
                | MMap (Some l) =>
                    do! _ := set_cell l (MEntries (mput (mentries mem l) (win_bytes by_ w) (mvar mem e))) in tret i2
                | _ => tpanic EReflect
                end) s5 = (Ok j, s3)) by (destruct md; try discriminate H3; exact H3). clear H3.
        tb F mem2 s6 H6. apply mq_mem in H6. destruct (rd v mem2 r) as [| | | | | | | |[l|]| |]; try discriminate F.
        tb F u s7 H7. apply mq_cell in H7. injection F as <- <-. eapply mitem_then; [exact I5|]. eauto using kept_trans. }
    destruct I as (X & Sh & T1 & C1). destruct (IH _ _ _ _ _ H T1) as (Y & Sh2 & T2 & C2).
    rewrite C1 in *. exists (Y ++ X). rewrite <- app_assoc. (split; [|split]); auto. econstructor; eauto.
Qed.
Lemma mstruct_shape n id md r : forall p s p' s' E, mstruct_loop v by_ rec urec n id md r p s = (Ok p', s') ->
  tracked_ok E s ->
  exists X, pair_shapes by_ (d_copy (m_d s) =? 0) E n p p' X /\ tracked_ok (X ++ E) s' /\ d_copy (m_d s') = d_copy (m_d s).
Proof.
  induction n as [|n IH]; intros p s p' s' E H T; cbn [mstruct_loop] in H.
  - injection H as <- <-. exists []. (split; [|split]); auto. constructor.
  - apply tbind_Ok in H as ((w & i) & s1 & H1 & H). apply lift_Ok, stringish_inv in H1 as (K1 & Nm). rewrite Nat2Z.id in Nm.
    assert (K : kd s s1) by (rewrite K1; apply kept_refl). tb H j s3 H3.
    assert (I : mitem E s i j s3).
    { eapply mitem_kept; [exact K|]. pose proof (tracked_kept _ _ _ _ K T) as T2.
      destruct (find_field _ _ _) as [[? [? ?]]|]; [eapply R; eauto|eapply d_item; eauto]. }
    destruct I as (X & Sh & T1 & C1). destruct (IH _ _ _ _ _ H T1) as (Y & Sh2 & T2 & C2).
    rewrite C1 in *. exists (Y ++ X). rewrite <- app_assoc. (split; [|split]); auto. econstructor; eauto.
Qed.
Lemma mhashes_shape ty : forall p ln r md s p' s' E, mdecodeHash v by_ rec urec ty p ln r md s = (Ok p', s') ->
  tracked_ok E s -> (0 <= ln <= maxInt32)%Z /\
  exists X, pair_shapes by_ (d_copy (m_d s) =? 0) E (Z.to_nat ln) p p' X /\ tracked_ok (X ++ E) s' /\ d_copy (m_d s') = d_copy (m_d s).
Proof.
  induction ty; intros p ln r md s p' s' E H T; cbn [mdecodeHash] in H;
    (destruct ((ln <? 0) || (maxInt32 <? ln))%Z eqn:C1; [discriminate|]);
    (destruct (blen by_ <? Z.of_nat p + 2 * ln)%Z eqn:C2; [discriminate|]); cbv zeta in H;
    tb H cur s1 H1; apply mq_read in H1; try discriminate H;
    destruct cur as [| | | | | | | |o|o|fs]; try discriminate H.
  - split; [lia|]. tb H u s2 H2. assert (K : kd s1 s2).
    { destruct o; [apply mq_ret in H2; exact H2|]. revert H2. match goal with |- ?m s1 = _ -> _ => assert (Q : mq m) by mqs end. apply Q. }
    pose proof (kept_trans _ _ _ H1 K) as K2.
    destruct (mmap_shape _ _ _ _ _ _ _ _ _ H (tracked_kept _ _ _ _ K2 T)) as (X & Sh & T1 & Cc).
    destruct K2 as [_ K2]. rewrite K2 in *. eauto.
  - tb H l s2 H2. assert (K : kd s1 s2).
    { destruct o; [apply mq_ret in H2; exact H2|]. revert H2. match goal with |- ?m s1 = _ -> _ => assert (Q : mq m) by mqs end. apply Q. }
    pose proof (kept_trans _ _ _ H1 K) as K2.
    destruct (IHty _ _ _ _ _ _ _ _ H (tracked_kept _ _ _ _ K2 T)) as (Lz & X & Sh & T1 & Cc).
    destruct K2 as [_ K2]. rewrite K2 in *. eauto.
  - split; [lia|]. destruct (mstruct_shape _ _ _ _ _ _ _ _ _ H (tracked_kept _ _ _ _ H1 T)) as (X & Sh & T1 & Cc).
    destruct H1 as [_ K2]. rewrite K2 in *. eauto.
Qed.
Lemma mrefp_shape ty md r p b s p' s' : mdecodeRefp c v by_ ty md r p b s = (Ok p', s') ->
  kd s s' /\ exists n l, lvint by_ p n p' /\ assoc_nat (N.to_nat n) (d_tracked (m_d s)) = Some l.
Proof.
  unfold mdecodeRefp. intros H. apply tbind_Ok in H as ((z & sz) & s1 & V & H). apply lift_Ok, varint_at_inv in V as (K1 & n & V & Ez & Ln & _).
  cbv zeta in H. destruct ((z <? 0) || (Z.of_nat (p + sz) <=? z))%Z eqn:C1; [discriminate|].
  tb H o s2 H2. apply lift_Ok in H2. injection H2 as H2 E2. destruct (to_int_range _ _ Ez Ln) as [E1 _]; [lia|]. rewrite E1 in H2.
  destruct o as [l|]; [|discriminate]. rewrite K1 in *.
  assert (Q : kd s2 s' /\ p' = p + sz).
  { tb H o s3 H3. apply mq_getref in H3. destruct o as [t|].
    - tb H x s4 H4. apply mq_read in H4. pose proof (kept_trans _ _ _ H3 H4) as K4. clear H3 H4.
      assert (A : forall m : TM unit, mq m -> forall sx, kd s2 sx -> (do! _ := m in tret (p + sz)) sx = (Ok p', s') -> kd s2 s' /\ p' = p + sz).
      { intros m Q sx Kx H0. apply tbind_Ok in H0 as (u & s5 & H5 & H0). apply Q in H5. injection H0 as <- <-. eauto using kept_trans. }
      assert (B : (match tr_ty t, x with
              | TyPtr TyIface, MPtr (Some l') =>
                  do! mem := get_mem in
                  match mvar mem l' with
                  | MIface y => do! _ := ref_iface c v ty md r y b in tret (p + sz)
                  | _ => tpanic EReflect
                  end
              | _, _ =>
                  if gtype_eqb (tr_ty t) ty then do! _ := mset v md r x in tret (p + sz)
                  else match ty with
                       | TyIface => do! _ := mset v md r (MIface GOpaque) in tret (p + sz)
                       | _ => tpanic EReflect
                       end
              end) s4 = (Ok p', s')) by (destruct (tr_md t); try discriminate H; exact H).
      clear H. assert (D : (if gtype_eqb (tr_ty t) ty then do! _ := mset v md r x in tret (p + sz)
                  else match ty with
                       | TyIface => do! _ := mset v md r (MIface GOpaque) in tret (p + sz)
                       | _ => tpanic EReflect
                       end) s4 = (Ok p', s') -> kd s2 s' /\ p' = p + sz).
      { intros H. destruct (gtype_eqb _ _); [eapply A; [apply mq_set| |exact H]; exact K4|]. destruct ty; try discriminate H.
        eapply A; [apply mq_set| |exact H]; exact K4. }
      destruct (tr_ty t) as [| | | | | | | | |t1|]; auto. destruct t1; auto. destruct x as [| | | | | | | | |o|]; auto. destruct o; auto.
      tb B mem s5 H5. apply mq_mem in H5. destruct (mvar mem m); try discriminate B. eapply A; [apply mq_refiface| |exact B]. eauto using kept_trans.
    - tb H x s4 H4. apply (mq_lift _ _ (q_get _)) in H4. tb H u s5 H5. apply mq_refiface in H5. injection H as <- <-. eauto using kept_trans. }
  destruct Q as [Q ->]. rewrite <- E2 in Q. split; [exact Q|]. exists n, l. split; [exact V|]. exact H2.
Qed.

Lemma mfreezes_shape ty r md p b s p' s' E : mdecodeFreeze c v by_ urec ty r md p b s = (Ok p', s') -> tracked_ok E s ->
  exists i X, named by_ b p i (m_d s) /\ at_ by_ i [x28; x2b] /\ (exists x, lvint by_ (S (S i)) 1 x) /\
    shape by_ (d_copy (m_d s) =? 0) E i p' X /\ tracked_ok (X ++ E) s' /\ d_copy (m_d s') = d_copy (m_d s).
Proof.
  unfold mdecodeFreeze. intros H T. apply tbind_Ok in H as ((nm & i) & s1 & H1 & H).
  apply lift_Ok, class_shape in H1 as (K1 & Nm). exists i.
  destruct (Nat.leb (length by_) (i + 1)); [discriminate|].
  destruct (nth_error by_ i) as [b0|] eqn:B0; [|discriminate].
  destruct (nth_error by_ (i + 1)) as [b1|] eqn:B1; [|discriminate].
  destruct (negb ((b2n b0 =? typeREFN) && (b2n b1 =? typeARRAY))%N) eqn:C; [discriminate|].
  assert (A : at_ by_ i [x28; x2b]).
  { destruct b0; try discriminate C. destruct b1; try discriminate C. clear CA.
    apply nth_error_split in B0 as (pre & post & -> & <-). exists pre.
    rewrite Nat.add_1_r, nth_error_app2 in B1 by lia. replace (S (length pre) - length pre) with 1 in B1 by lia.
    destruct post as [|y post]; [discriminate|]. injection B1 as ->. exists post. auto. }
  tb H l s2 H2. apply lift_Ok in H2. rewrite K1 in H2. clear K1.
  assert (Hl : l < length (d_heap (m_d s2))) by (injection H2 as <- <-; cbn [with_heap d_heap]; rewrite app_length; cbn; lia).
  apply q_alloc in H2.
  tb H e s3 H3. apply lift_Ok in H3. destruct (U _ _ _ _ _ _ H3 (tracked_kept _ _ _ _ H2 T)) as (X & Sh & T1 & C1).
  destruct H2 as [_ H2]. rewrite H2 in *. exists X. split; [exact Nm|]. split; [exact A|].
  assert (One : exists x, lvint by_ (S (S i)) 1 x).
  { tb H v0 s4 H4. apply lift_Ok in H4. injection H4 as Ev Es. destruct v0; try discriminate.
    destruct (Nat.eqb_spec n 1) as [->|]; [|discriminate].
    destruct b0; try discriminate C. destruct b1; try discriminate C.
    apply (CA i l (m_d s2) e (m_d s3) base 1 B0 B1 H3 Hl Ev). }
  split; [exact One|].
  assert (K : kd s3 s' /\ p' = e).
  { tb H v0 s4 H4. apply (mq_lift _ _ (q_get _)) in H4. destruct v0; try discriminate.
    destruct (negb (n =? 1)); [discriminate|].
    tb H e0 s5 H5. apply (mq_lift _ _ (q_get _)) in H5. destruct e0; try discriminate.
    enough (K : kd s5 s' /\ p' = e) by (destruct K as [K ->]; split; auto; eauto using kept_trans). clear H4 H5.
    assert (W : forall m : TM unit, mq m -> forall sx, kd s5 sx -> (do! _ := m in tret e) sx = (Ok p', s') -> kd s5 s' /\ p' = e).
    { intros m Q sx Kx H0. apply tbind_Ok in H0 as (u & s6 & H6 & H0). apply Q in H6. injection H0 as <- <-. eauto using kept_trans. }
    destruct (d_perl c).
    - tb H l2 s6 H6. apply (mq_lift _ _ (q_alloc _)) in H6. eapply W; [apply mq_setIface| |exact H]; exact H6.
    - tb H cur s6 H6. apply mq_read in H6.
      assert (F : (do! _ := mcheck md in tfail (A := nat) ECannotUnpack) s6 = (Ok p', s') -> False).
      { intros H0. apply tbind_Ok in H0 as (u & s7 & _ & [=]). }
      destruct ty; try (exfalso; exact (F H)).
      + destruct cur as [| | | | |g| | | | |]; try (exfalso; exact (F H)). destruct g; try (exfalso; exact (F H)).
        destruct md; try discriminate H; (destruct (d_unmarshal _ _ _); [|discriminate H]); (eapply W; [apply mq_write| |exact H]; exact H6).
      + destruct ty as [k| | | | | | | | | |]; try (exfalso; exact (F H)). destruct k; try (exfalso; exact (F H)).
        destruct cur as [| | | | | |o| | | |]; try (exfalso; exact (F H)). destruct o; try (exfalso; exact (F H)).
        tb H u s7 H7. apply mq_check in H7. tb H l2 s8 H8. apply mq_new in H8. eapply W; [apply mq_write| |exact H]. eauto using kept_trans.
      + destruct cur as [| | | | | | | | |o|]; try (exfalso; exact (F H)). destruct o; try (exfalso; exact (F H)).
        tb H u s7 H7. tb H l2 s8 H8. tb H u2 s9 H9. discriminate H. }
  destruct K as [K ->]. (split; [|split]); auto.
  - eapply tracked_kept; eauto.
  - destruct K as [_ ->]. exact C1.
Qed.

Lemma mbody_shape : mshapely (mdecode_body c v by_ ibuf ishift rec urec).
Proof.
  intros ty r md p s p' s' E H T. unfold mdecode_body in H.
  destruct (Nat.leb (length by_) p); [discriminate|]. tb H cur s0 H0. apply mq_read in H0.
  eapply mitem_kept; [exact H0|]. apply (tracked_kept _ _ _ _ H0) in T. clear s H0. rename s0 into s.
  assert (Nil : (do! l := lift_ (alloc (CV GNil)) in
      do! idx := lift_ (urec p l) in
      do! x := lift_ (get_var l) in
      match x with
      | GNil => tret idx
      | _ => do! _ := mset v md r (MIface x) in tret idx
      end) s = (Ok p', s') -> mitem E s p p' s').
  { clear H. intros H. tb H l s1 H1. apply (mq_lift _ _ (q_alloc _)) in H1. eapply mitem_kept; [exact H1|]. apply (tracked_kept _ _ _ _ H1) in T.
    tb H i s2 H2. apply (u_item _ _ _ _ _ E) in H2; [|exact T]. tb H y s3 H3. apply (mq_lift _ _ (q_get _)) in H3.
    assert (K : kd s3 s' /\ p' = i).
    { destruct y; cbn beta iota in H.
      1: injection H as <- <-; split; [apply kept_refl|auto].
      all: tb H zz s5 H5; apply mq_set in H5; injection H as <- <-; auto. }
    destruct K as [K ->]. eapply mitem_then; [exact H2|]. eauto using kept_trans. }
  assert (Main : match skip_pads (skipn p by_) p with
      | None => tfail ETruncated
      | Some (tagb, idx) =>
          do! _ := (if tracked_bit tagb then mtrack idx r ty md else tret tt) in
          mdecode_tag c v by_ ibuf ishift rec urec (tag_kind (untrack tagb)) ty r md (S idx)
      end s = (Ok p', s') -> mitem E s p p' s').
  2:{ destruct ty; auto. destruct cur as [| | | | |g| | | | |]; auto. destruct g; auto. }
  clear H Nil. intros H.
  destruct (skip_pads (skipn p by_) p) as [[tagb q]|] eqn:SP; [|discriminate].
  apply tag_found in SP as [Tg Nq]. pose proof (tag_kind_fits tagb) as K.
  tb H u s1 H1.
  assert (T1 : tracked_ok (q :: E) s1 /\ d_copy (m_d s1) = d_copy (m_d s)).
  { destruct (tracked_bit tagb) eqn:TB.
    - unfold mtrack in H1. tb H1 l s2 H2. apply lift_Ok in H2. tb H1 u2 s3 H3. apply lift_Ok in H3. injection H1 as _ <-. cbn [m_d].
      injection H2 as _ H2. injection H3 as _ H3. rewrite <- H3, <- H2. cbn [with_heap d_copy].
      split; [|reflexivity]. intros n y. cbn [d_tracked with_heap assoc_nat]. destruct (Nat.eqb_spec q n) as [<-|].
      + intros _. split; [now left|]. now apply (marked_bit by_ q tagb Nq).
      + intros A. destruct (T n y A). split; [now right|auto].
    - injection H1 as _ <-. split; [|reflexivity]. eapply tracked_weaken; [|exact T]. intros z; now right. }
  clear H1 T. destruct T1 as [T C].
  enough (Q : mfine (q :: E) s1 q (untrack tagb) p' s').
  { destruct Q as (X & Sh & T2 & C2). exists (X ++ [q]). rewrite C in *. split; [econstructor; eauto|]. split; [|congruence].
    now rewrite <- app_assoc. }
  clear C. revert H T. generalize (q :: E). clear s E. intros E H T. rename s1 into s.
  assert (Q1 : forall e (m : TM unit), mq m -> tag_shape by_ (d_copy (m_d s) =? 0) E q (untrack tagb) e [] ->
     forall s1, kd s s1 -> (do! _ := m in tret e) s1 = (Ok p', s') -> mfine E s q (untrack tagb) p' s').
  { intros e m Q Kt s1 K1 H0. apply tbind_Ok in H0 as (u' & s2 & H0 & H1). injection H1 as <- <-. apply Q in H0.
    pose proof (kept_trans _ _ _ K1 H0) as K2.
    exists []. split; [exact Kt|]. split; [eapply tracked_kept; eauto|apply K2]. }
  assert (QR : forall ty r md, rec ty r md (S q) s = (Ok p', s') -> (untrack tagb = 40 \/ untrack tagb = 48)%N ->
     mfine E s q (untrack tagb) p' s').
  { intros ty0 cur0 md0 H0 Kt. destruct (R _ _ _ _ _ _ _ _ H0 T) as (X & Sh & T1 & C1). exists X. split; [|auto].
    eapply h_ref; eauto. }
  assert (KE : forall s1, m_d s1 = m_d s -> kd s s1) by (intros s1 ->; apply kept_refl).
  destruct (tag_kind (untrack tagb)) as [t| | | | | | | |n| |n| | |n| | | | | | | | | | | | |t] eqn:TK;
    cbn [kind_fits mdecode_tag] in K, H; try discriminate.
  - eapply Q1; [| |apply kept_refl|exact H]; [apply mq_setInt|]. apply h_small. lia.
  - apply tbind_Ok in H as ((z & sz) & s1 & V & H). apply lift_Ok, varint_at_inv in V as (Es & n & V & _).
    eapply Q1; [| |apply KE, Es|exact H]; [apply mq_setInt|]. eapply h_varint; eauto.
  - apply tbind_Ok in H as ((z & sz) & s1 & V & H). apply lift_Ok, varint_at_inv in V as (Es & n & V & _).
    eapply Q1; [| |apply KE, Es|exact H]; [apply mq_setInt|]. eapply h_varint; eauto.
  - tb H n s1 V. apply lift_Ok, fixed_at_inv in V as (Es & L); [|lia].
    eapply Q1; [| |apply KE, Es|exact H]; [apply mq_setFloat|]. rewrite K. now apply h_float.
  - tb H n s1 V. apply lift_Ok, fixed_at_inv in V as (Es & L); [|lia].
    eapply Q1; [| |apply KE, Es|exact H]; [apply mq_setFloat|]. rewrite K. now apply h_double.
  - eapply Q1; [| |apply kept_refl|exact H]; [apply mq_setBool|]. apply h_small. lia.
  - eapply Q1; [| |apply kept_refl|exact H]; [apply mq_setBool|]. apply h_small. lia.
  - apply tbind_Ok in H as ((z & sz) & s1 & V & H). apply lift_Ok, varint_at_inv in V as (Es & n & V & Ez & Ln & _).
    destruct (mhashes_shape _ _ _ _ _ _ _ _ _ H (tracked_kept _ _ _ _ (KE _ Es) T)) as (Lz & X & Sh & T1 & C1). rewrite Es in *.
    destruct (to_int_range _ _ Ez Ln) as [E1 E2]; [lia|]. rewrite E1 in Sh. exists X. split; [|auto]. rewrite K.
    eapply h_hash; eauto. unfold longest, maxInt32 in *. lia.
  - destruct (mhashes_shape _ _ _ _ _ _ _ _ _ H T) as (_ & X & Sh & T1 & C1). rewrite Nat2Z.id in Sh.
    destruct K as [K ->]. exists X. split; [|auto]. eapply h_hashref; eauto.
  - apply tbind_Ok in H as ((z & sz) & s1 & V & H). apply lift_Ok, varint_at_inv in V as (Es & n & V & Ez & Ln & _).
    destruct (marrays_shape _ _ _ _ _ _ _ _ _ H (tracked_kept _ _ _ _ (KE _ Es) T)) as (Lz & X & Sh & T1 & C1). rewrite Es in *.
    destruct (to_int_range _ _ Ez Ln) as [E1 E2]; [lia|]. rewrite E1 in Sh. exists X. split; [|auto]. rewrite K.
    eapply h_array; eauto. unfold longest, maxInt32 in *. lia.
  - destruct (marrays_shape _ _ _ _ _ _ _ _ _ H T) as (_ & X & Sh & T1 & C1). rewrite Nat2Z.id in Sh.
    destruct K as [K ->]. exists X. split; [|auto]. eapply h_arrayref; eauto.
  - apply tbind_Ok in H as ((z & sz) & s1 & V & H). apply lift_Ok, varint_at_inv in V as (Es & n & V & Ez & Ln & _).
    apply tbind_Ok in H as ((y & e) & s2 & B & H). apply lift_Ok, binary_at_inv in B as (Eb & Lz & Le & ->).
    destruct (to_int_range _ _ Ez Ln) as [E1 E2]; [lia|]. rewrite E1 in *.
    eapply Q1; [| |apply KE; rewrite Eb; exact Es|exact H]; [apply mq_setString|]. apply h_string; [lia|].
    eapply ts_long; eauto using tag_self. unfold longest, maxInt32 in *. lia.
  - apply tbind_Ok in H as ((z & sz) & s1 & V & H). apply lift_Ok, varint_at_inv in V as (Es & n & V & Ez & Ln & _).
    apply tbind_Ok in H as ((y & e) & s2 & B & H). apply lift_Ok, binary_at_inv in B as (Eb & Lz & Le & ->).
    destruct (to_int_range _ _ Ez Ln) as [E1 E2]; [lia|]. rewrite E1 in *.
    eapply Q1; [| |apply KE; rewrite Eb; exact Es|exact H]; [apply mq_setBinary|]. apply h_string; [lia|].
    eapply ts_long; eauto using tag_self. unfold longest, maxInt32 in *. lia.
  - apply tbind_Ok in H as ((y & e) & s2 & B & H). apply lift_Ok, binary_at_inv in B as (Eb & Lz & Le & ->).
    rewrite Nat2Z.id in *. destruct K as [K ->].
    eapply Q1; [| |apply KE, Eb|exact H]; [apply mq_setBinary|]. apply h_string; [lia|].
    eapply ts_short; eauto using tag_self.
  - (* UNDEF *)
    assert (Sm : tag_shape by_ (d_copy (m_d s) =? 0) E q (untrack tagb) (S q) []) by (apply h_small; lia).
    destruct (d_perl c).
    + tb H y s1 H1. apply lift_Ok in H1. apply mbind_Ok in H1 as (l & s2 & H2 & H1). apply q_alloc in H2. injection H1 as _ H1. rewrite H1 in H2.
      eapply Q1; [| |exact H2|exact H]; [apply mq_setIface|exact Sm].
    + assert (Z : tret (S q) s = (Ok p', s') -> mfine E s q (untrack tagb) p' s').
      { intros [= <- <-]. exists []. auto. }
      destruct ty; auto; (eapply Q1; [| |apply kept_refl|exact H]; [apply mq_set|exact Sm]).
  - (* CANONICAL_UNDEF *)
    assert (Sm : tag_shape by_ (d_copy (m_d s) =? 0) E q (untrack tagb) (S q) []) by (apply h_small; lia).
    destruct (d_perl c).
    + tb H y s1 H1. apply (mq_lift _ _ (q_ret _ _)) in H1.
      eapply Q1; [| |exact H1|exact H]; [apply mq_setIface|exact Sm].
    + assert (Z : tret (S q) s = (Ok p', s') -> mfine E s q (untrack tagb) p' s').
      { intros [= <- <-]. exists []. auto. }
      destruct ty; auto; (eapply Q1; [| |apply kept_refl|exact H]; [apply mq_set|exact Sm]).
  - (* COPY *)
    tb H d s1 G. apply lift_Ok in G. injection G as Gd Gs. symmetry in Gs.
    destruct (Nat.ltb 0 d) eqn:D0; [discriminate|].
    apply tbind_Ok in H as ((offs & sz) & s2 & V & H). apply lift_Ok, varint_at_inv in V as (Es & n & V & Ez & Ln & Le & _).
    destruct ((offs <? 0) || (Z.of_nat (S q) <=? offs))%Z eqn:C1; [discriminate|]. cbv zeta in H.
    tb H u2 s3 G. apply lift_Ok in G. injection G as _ G.
    tb H i s4 G4. injection H as <- <-.
    destruct (rec ty r md (Z.to_nat offs) s3) as [[i1|er|er| |] s5] eqn:Rn; try discriminate.
    injection G4 as _ <-.
    assert (Tr3 : d_tracked (m_d s3) = d_tracked (m_d s)) by (rewrite <- G, Es, Gs; reflexivity).
    assert (Cp3 : d_copy (m_d s3) = S d) by (rewrite <- G; reflexivity).
    destruct (R _ _ _ _ _ _ _ E Rn) as (X & Sh & T1 & C2); [unfold ShapeFacts.tracked_ok; rewrite Tr3; exact T|].
    rewrite Cp3 in Sh, C2. cbn [Nat.eqb] in Sh.
    destruct (to_int_range _ _ Ez Ln) as [E1 E2]; [lia|]. rewrite E1 in Sh.
    assert (D1 : d_copy (m_d s) = 0) by (apply Nat.ltb_ge in D0; lia).
    exists X. split; [|split; [exact T1|cbn [m_d d_copy]; rewrite C2; cbn; congruence]].
    rewrite D1, K. cbn [Nat.eqb]. rewrite K in Tg. eapply h_copy; eauto.
    enough (N.to_nat n <> q) by lia. intros Q. rewrite Q in Sh. eapply shape_not_copy; eauto using tag_self.
  - eapply QR; eauto.
  - apply mrefp_shape in H as (K1 & n & l & V & A). destruct (T _ _ A) as [I Mk].
    exists []. split; [|split; [eapply tracked_kept; eauto|apply K1]]. eapply h_back; eauto.
  - apply mrefp_shape in H as (K1 & n & l & V & A). destruct (T _ _ A) as [I Mk].
    exists []. split; [|split; [eapply tracked_kept; eauto|apply K1]]. eapply h_back; eauto.
  - (* WEAKEN *)
    destruct (d_perl c); [|eapply QR; eauto].
    tb H l s1 H1. apply (mq_lift _ _ (q_alloc _)) in H1.
    tb H y s2 H2. apply mq_setIface in H2. pose proof (kept_trans _ _ _ H1 H2) as K2.
    destruct (u_item _ _ _ _ _ _ H (tracked_kept _ _ _ _ K2 T)) as (X & Sh & T1 & C1).
    destruct K2 as [_ K2]. rewrite K2 in *. exists X. split; [|auto]. eapply h_ref; eauto.
  - (* REGEXP *)
    tb H l s1 H1. apply (mq_lift _ _ (q_alloc _)) in H1. tb H r0 s2 H2. apply lift_Ok in H2.
    unfold decodeRegexp in H2.
    apply mbind_Ok in H2 as ((w & i) & s3 & H3 & H2). apply stringish_inv in H3 as (-> & N1). rewrite Nat2Z.id in N1.
    apply mbind_Ok in H2 as ((w2 & i2) & s3 & H3 & H2). apply stringish_inv in H3 as (-> & N2). rewrite Nat2Z.id in N2.
    apply mbind_Ok in H2 as (l2 & s4 & H4 & H2). apply q_alloc in H4. apply mbind_Ok in H2 as ([] & s5 & H5 & H2).
    apply q_set in H5. injection H2 as <- H2. tb H y s6 H6. apply (mq_lift _ _ (q_get _)) in H6. rewrite H2 in H5.
    pose proof (kept_trans _ _ _ H1 (kept_trans _ _ _ H4 (kept_trans _ _ _ H5 H6))) as K6. destruct H1 as [_ H1]. rewrite H1 in *.
    eapply Q1; [| |exact K6|exact H]; [apply mq_setIface|]. rewrite K. eapply h_regexp; eauto.
  - apply tbind_Ok in H as ((nm & i) & s1 & H1 & H). apply lift_Ok, class_shape in H1 as (Es & Nm). rewrite K.
    pose proof (tracked_kept _ _ _ _ (KE _ Es) T) as Tk. destruct (d_perl c).
    + tb H l s2 H1. apply (mq_lift _ _ (q_alloc _)) in H1.
      tb H y s3 H2. apply mq_setIface in H2. pose proof (kept_trans _ _ _ H1 H2) as K2.
      destruct (u_item _ _ _ _ _ _ H (tracked_kept _ _ _ _ K2 Tk)) as (X & Sh & T1 & C1).
      destruct K2 as [_ K2]. rewrite K2, Es in *. exists X. split; [|auto]. eapply h_object; eauto.
    + destruct (R _ _ _ _ _ _ _ _ H Tk) as (X & Sh & T1 & C1). rewrite Es in *. exists X. split; [|auto]. eapply h_object; eauto.
  - apply tbind_Ok in H as ((nm & i) & s1 & H1 & H). apply lift_Ok, class_shape in H1 as (Es & (n & e & V & Nm)). rewrite K.
    pose proof (tracked_kept _ _ _ _ (KE _ Es) T) as Tk. destruct (d_perl c).
    + tb H l s2 H1. apply (mq_lift _ _ (q_alloc _)) in H1.
      tb H y s3 H2. apply mq_setIface in H2. pose proof (kept_trans _ _ _ H1 H2) as K2.
      destruct (u_item _ _ _ _ _ _ H (tracked_kept _ _ _ _ K2 Tk)) as (X & Sh & T1 & C1).
      destruct K2 as [_ K2]. rewrite K2, Es in *. exists X. split; [|auto]. eapply h_objectv; eauto.
    + destruct (R _ _ _ _ _ _ _ _ H Tk) as (X & Sh & T1 & C1). rewrite Es in *. exists X. split; [|auto]. eapply h_objectv; eauto.
  - destruct (mfreezes_shape _ _ _ _ _ _ _ _ _ H T) as (i & X & Nm & A & (y & O) & Sh & T1 & C1).
    exists X. split; [|auto]. rewrite K. eapply h_freeze; eauto.
  - destruct (mfreezes_shape _ _ _ _ _ _ _ _ _ H T) as (i & X & (n & e & V & Nm) & A & (y & O) & Sh & T1 & C1).
    exists X. split; [|auto]. rewrite K. eapply h_freezev; eauto.
Qed.
End Rec.

Lemma mdecode_shapely f : mshapely (mdecode c v by_ ibuf ishift f).
Proof.
  induction f as [|f IH]; [intros ty r md p s p' s' E H; discriminate|]. cbn [mdecode].
  apply mbody_shape; [exact IH|apply decode_shapely|apply decode_counts].
Qed.
End MAccepted.

Section MDocs.
Variable k : codecs.
Variable c : dconfig.
Variable v : goenv.

(** a call with a valid header *)
Lemma mem_start b ib ty r s x s' : unmarshal_mem_raw k c v b ib ty r s = (Ok x, s') ->
  exists ver typ l n rest dec s1, starts b ver typ l n rest /\ documentDecompressor ver typ = Ok dec /\
    (0 <= bodyStart_of l n <= Z.of_nat (length b))%Z /\ m_d s1 = m_d s /\
    unmarshal_mbody k c v b ib (header_of ver typ l n) dec (Z.to_nat (bodyStart_of l n)) ty r s1 = (Ok x, s').
Proof.
  unfold unmarshal_mem_raw. intros H. apply tbind_Ok in H as (h & s1 & H1 & H). apply lift_Ok in H1. unfold lift in H1. injection H1 as H1 E1.
  destruct (checkHeader_inv _ _ H1) as (ver & typ & l & n & rest & S & ->).
  apply tbind_Ok in H as (dec & s2 & H2 & H). apply lift_Ok in H2. unfold lift in H2. injection H2 as H2 E2.
  cbn [header_of h_version h_doctype h_suffixSize] in H2, H. fold (bodyStart_of l n) in H. cbv zeta in H.
  destruct ((Z.of_nat (length b) <? bodyStart_of l n) || (bodyStart_of l n <? 0))%Z eqn:B; [discriminate|].
  exists ver, typ, l, n, rest, dec, s2. split; [exact S|]. split; [exact H2|]. split; [lia|]. split; [congruence|exact H].
Qed.

Theorem mem_accepted_shape b ib ty r s x s' : (Z.of_nat (length b) < two63)%Z -> d_copy (m_d s) = 0 ->
  unmarshal_mem_raw k c v b ib ty r s = (Ok x, s') -> document_shape k b.
Proof.
  intros Lb C U. apply mem_start in U as (ver & typ & ln & n & rest & dec & s0 & S & D & B & E0 & U). rewrite <- E0 in C. clear s E0. rename s0 into s.
  assert (L10 : length ln <= 10) by (destruct S as (_ & _ & vt & _ & _ & _ & L); exact L).
  assert (Bn : (body_start ln n <= N.of_nat (length b))%N).
  { apply bodyStart_ok; auto. destruct B. apply orb_false_iff. split; apply Z.ltb_ge; auto. }
  rewrite (bodyStart_nat _ _ _ L10 Lb Bn) in U.
  exists ver, typ, ln, n, rest. revert Bn U. generalize (body_start ln n). intros B0 Bn U.
  unfold unmarshal_mbody in U. apply tbind_Ok in U as ((b' & ib') & s1 & U1 & U). cbn [header_of h_version] in U.
  assert (P : exists body, unpacks k ver typ (skipn (N.to_nat B0) b) body /\ b' = firstn (N.to_nat B0) b ++ body /\ d_copy (m_d s1) = 0).
  { destruct dec as [dk|].
    - destruct (slice_from b (N.to_nat B0)) as [z|] eqn:Sl; [|discriminate]. apply slice_from_Some in Sl as [_ ->].
      apply tbind_Ok in U1 as (d & s2 & U1 & U2). apply lift_Ok in U1. unfold lift in U1. injection U1 as U1 E1. cbv zeta in U2.
      apply tbind_Ok in U2 as (l0 & s3 & A & U2). apply (mq_lift _ _ (q_alloc _)) in A as [_ A]. injection U2 as <- <- <-.
      exists d. split; [eapply unpacks_of; eauto|]. split; [reflexivity|congruence].
    - apply decompressor_raw in D as ->. injection U1 as <- <- <-. exists (skipn (N.to_nat B0) b). rewrite firstn_skipn.
      split; [constructor|auto]. }
  destruct P as (body & P & -> & C1). exists body.
  apply tbind_Ok in U as (u & s2 & U2 & U). apply lift_Ok in U2. injection U2 as _ U2.
  assert (T2 : ShapeFacts.tracked_ok (firstn (N.to_nat B0) b ++ body) [] (m_d s2) /\ forall by_, ShapeFacts.tracked_ok by_ [] (m_d s2))
    by (rewrite <- U2; split; intros; intros ? ?; discriminate).
  assert (C2 : d_copy (m_d s2) = 0) by (rewrite <- U2; exact C1).
  destruct (ver =? 1)%N eqn:V1.
  - apply tbind_Ok in U as (e & s3 & U & _).
    destruct (mdecode_shapely c v _ _ _ _ _ _ _ _ _ _ _ [] U) as (X & Sh & _); [apply T2|].
    rewrite C2 in Sh. exists e, X. auto.
  - destruct (N.to_nat B0 =? 0) eqn:Z0; [discriminate|].
    destruct (slice_from (firstn (N.to_nat B0) b ++ body) (N.to_nat B0 - 1)) as [y|] eqn:Sl; [|discriminate].
    apply slice_from_Some in Sl as [_ ->].
    apply tbind_Ok in U as (e & s3 & U & _).
    destruct (mdecode_shapely c v _ _ _ _ _ _ _ _ _ _ _ [] U) as (X & Sh & _); [apply T2|].
    rewrite C2 in Sh. exists e, X.
    split; [auto|]. split; [auto|]. split; [auto|]. split; [lia|].
    rewrite skipn_app in Sh. rewrite firstn_length in Sh.
    replace (N.to_nat B0 - 1 - Nat.min (N.to_nat B0) (length b)) with 0 in Sh by lia. exact Sh.
Qed.
End MDocs.
