(** What is accepted has the shape of a document. *)
From Verif Require Import Base BaseFacts SpecVarint Varint VarintFacts Tags GoMem Codecs Encode Compress Header Decode
  Document Spec SpecDoc SpecHeader SpecShare SpecShape GrammarFacts DecodeSafe FrameFacts DecodeSpec ShareDecode HeaderFacts ApiFacts ApiSafe MergeFacts.
From Coq Require Import ZifyBool ZifyNat ZifyN.
Ltac Zify.zify_post_hook ::= Z.div_mod_to_equations.

Section Accepted.
Variable c : dconfig.
Variable by_ : bytes.
Variable ibuf : loc.
Variable ishift : nat.

Lemma varint_at_inv idx s z sz s' : varint_at by_ idx s = (Ok (z, sz), s') ->
  s' = s /\ exists n, lvint by_ idx n (idx + sz) /\ z = to_int n /\ (n < 18446744073709551616)%N /\ idx + sz <= length by_ /\ 1 <= sz.
Proof.
  unfold varint_at. destruct (slice_from by_ idx) as [x|] eqn:S; [|discriminate].
  destruct (varintdecode x) as [z0 sz0|] eqn:V; [|discriminate]. intros [= <- <- <-]. split; [reflexivity|].
  apply varintdecode_inv in V as (l & rest & n & -> & -> & B & G & ->).
  apply slice_from_Some in S as [L E].
  assert (A : at_ by_ idx l).
  { exists (firstn idx by_), rest. rewrite E, firstn_skipn, firstn_length. split; [reflexivity|lia]. }
  assert (R : idx + length l <= length by_) by (eapply at_range; eassumption).
  exists (wrap_u64 n). unfold wrap_u64. split; [|split; [|split; [|split]]].
  - exists l, n. repeat split; auto; lia.
  - now rewrite to_int_mod.
  - apply N.mod_lt. discriminate.
  - lia.
  - lia.
Qed.

Lemma to_int_range n z : z = to_int n -> (n < 18446744073709551616)%N -> (0 <= z)%Z -> Z.to_nat z = N.to_nat n /\ z = Z.of_N n.
Proof.
  intros -> L. destruct (Z.ltb_spec (Z.of_N n) two63) as [H|H].
  - rewrite to_int_small by exact H. intros _. split; [|reflexivity]. now rewrite <- N_nat_Z, Nat2Z.id.
  - intros P. exfalso. unfold to_int in P. rewrite Z.mod_small in P by (unfold two64; lia).
    rewrite (proj2 (Z.ltb_ge _ _) H) in P. unfold two64 in P. lia.
Qed.

Lemma tag_found idx tagb q : skip_pads (skipn idx by_) idx = Some (tagb, q) ->
  tag_at by_ idx q (untrack tagb) /\ nth_error by_ q = Some tagb.
Proof.
  intros H. unfold tag_at. unfold untrack. rewrite land_127.
  remember (skipn idx by_) as l eqn:E. revert idx E H.
  induction l as [|x l IH]; intros idx E H; [discriminate|]. cbn [skip_pads] in H.
  assert (X : nth_error by_ idx = Some x).
  { rewrite <- (Nat.add_0_r idx), <- nth_error_skipn, <- E. reflexivity. }
  assert (T : l = skipn (S idx) by_).
  { rewrite <- Nat.add_1_r. rewrite <- skipn_skipn_add, <- E. reflexivity. }
  destruct (is_pad x) eqn:P.
  - destruct (IH _ T H) as ((L & Pd & Tg) & N). split; [|exact N]. split; [lia|]. split; [|exact Tg].
    intros i Hi. destruct (Nat.eq_dec i idx) as [->|]; [|apply Pd; lia].
    exists x. split; [exact X|]. now apply is_pad_spec.
  - injection H as <- <-. split; [|exact X]. split; [lia|]. split; [intros; lia|].
    exists x. repeat split; auto. intros F. enough (is_pad x = true) by congruence.
    apply is_pad_spec. unfold pad_byte. pose proof (b2n_lt x). lia.
Qed.

Definition kind_fits (k : tkind) (t : N) : Prop :=
  (match k with
   | TSmall _ => t < 32 | TVarint => t = 32 | TZigzag => t = 33 | TFloat => t = 34 | TDouble => t = 35
   | TTrue => t = 59 | TFalse => t = 58 | THash => t = 42 | THashRef n => 80 <= t < 96 /\ n = N.to_nat (t - 80)
   | TArray => t = 43 | TArrayRef n => 64 <= t < 80 /\ n = N.to_nat (t - 64)
   | TStrUtf8 => t = 39 | TBinary => t = 38 | TShort n => 96 <= t < 128 /\ n = N.to_nat (t - 96)
   | TUndef => t = 37 | TCanonUndef => t = 57 | TCopy => t = 47 | TRefn => t = 40 | TRefp => t = 41
   | TAlias => t = 46 | TWeaken => t = 48 | TRegexp => t = 49 | TObject => t = 44 | TObjectV => t = 45
   | TFreeze => t = 50 | TFreezeV => t = 51 | TUnknown _ => True
   end)%N.
Lemma tag_kind_fits b : kind_fits (tag_kind (untrack b)) (untrack b).
Proof. destruct b; vm_compute; repeat split; discriminate. Qed.

(** * strings *)
Lemma copy_kept (d : nat) : d = 0 -> Nat.ltb 0 d = false.
Proof. now intros ->. Qed.

Lemma text_not_copy q e : tag_at by_ q q 47 -> text_shape by_ q e -> False.
Proof.
  intros T X. inversion X as [p q' t T' R _|p q' t n r T' R _ _ _]; subst;
    destruct (tag_det _ _ _ _ _ _ T T') as [_ <-]; lia.
Qed.
Lemma tag_self p q t : tag_at by_ p q t -> tag_at by_ q q t.
Proof. intros (_ & _ & X). split; [lia|]. split; [intros; lia|exact X]. Qed.

Lemma stringish_fuel_inv f : forall z s w e s', stringish_fuel by_ f z s = (Ok (w, e), s') ->
  (0 <= z)%Z /\ s' = s /\ name_shape by_ (d_copy s =? 0) (Z.to_nat z) e /\ (0 < d_copy s -> text_shape by_ (Z.to_nat z) e).
Proof.
  induction f as [|f IH]; intros z s w e s' H; [discriminate|]. cbn [stringish_fuel] in H.
  unfold stringish_body in H. destruct ((z <? 0) || (blen by_ <=? z))%Z eqn:Z0; [discriminate|].
  destruct (skip_pads (skipn (Z.to_nat z) by_) (Z.to_nat z)) as [[tagb q]|] eqn:SP; [|discriminate].
  apply tag_found in SP as [T Nq]. pose proof (tag_kind_fits tagb) as K.
  assert (LT : forall e, text_shape by_ (Z.to_nat z) e -> name_shape by_ (d_copy s =? 0) (Z.to_nat z) e /\ (0 < d_copy s -> text_shape by_ (Z.to_nat z) e))
    by (intros; split; [now constructor|auto]).
  assert (Lit : forall ln sz s1, (untrack tagb = 38 \/ untrack tagb = 39)%N -> varint_at by_ (S q) s = (Ok (ln, sz), s1) ->
    (if ((ln <? 0) || (maxInt32 <? ln))%Z then fail EBadStringSize
          else if (blen by_ <? Z.of_nat (S q + sz) + ln)%Z then fail ETruncated
          else let n := Z.to_nat ln in
               match slice_range by_ (S q + sz) (S q + sz + n) with
               | None => crash
               | Some _ => ret (mkWin (S q + sz) n, S q + sz + n)
               end) s1 = (Ok (w, e), s') ->
    (0 <= z)%Z /\ s' = s /\ name_shape by_ (d_copy s =? 0) (Z.to_nat z) e /\ (0 < d_copy s -> text_shape by_ (Z.to_nat z) e)).
  { intros ln sz s1 Tg V H1. apply varint_at_inv in V as (-> & n & V & Ez & Ln & Le & _).
    destruct ((ln <? 0) || (maxInt32 <? ln))%Z eqn:C1; [discriminate|].
    destruct (blen by_ <? Z.of_nat (S q + sz) + ln)%Z eqn:C2; [discriminate|]. cbv zeta in H1.
    destruct (slice_range by_ (S q + sz) (S q + sz + Z.to_nat ln)); [|discriminate].
    injection H1 as <- <- <-. destruct (to_int_range _ _ Ez Ln) as [E1 E2]; [lia|].
    split; [lia|]. split; [reflexivity|]. apply LT. rewrite E1. change (text_shape by_ (Z.to_nat z) ((S q + sz) + N.to_nat n)). eapply ts_long; eauto.
    - unfold longest. unfold maxInt32 in C1. lia.
    - unfold blen in C2. lia. }
  destruct (tag_kind (untrack tagb)) eqn:TK; cbn [kind_fits] in K; try discriminate.
  - apply mbind_Ok in H as ((ln & sz) & s1 & V & H). eapply Lit; eauto.
  - apply mbind_Ok in H as ((ln & sz) & s1 & V & H). eapply Lit; eauto.
  - destruct K as [K ->]. destruct (Nat.ltb (length by_) (S q + N.to_nat (untrack tagb - 96))) eqn:C1; [discriminate|].
    destruct (slice_range by_ (S q) (S q + N.to_nat (untrack tagb - 96))); [|discriminate].
    injection H as <- <- <-. split; [lia|]. split; [reflexivity|]. apply LT.
    change (text_shape by_ (Z.to_nat z) (S q + N.to_nat (untrack tagb - 96))). eapply ts_short; eauto. lia.
  - apply mbind_Ok in H as (d & s1 & G & H). injection G as <- <-.
    destruct (Nat.ltb 0 (d_copy s)) eqn:D0; [discriminate|].
    apply mbind_Ok in H as ((offs & sz) & s1 & V & H). apply varint_at_inv in V as (-> & n & V & Ez & Ln & Le & _).
    destruct ((offs <? 0) || (Z.of_nat (S q) <=? offs))%Z eqn:C1; [discriminate|]. cbv zeta in H.
    apply mbind_Ok in H as ([] & s1 & G & H). injection G as <-.
    apply mbind_Ok in H as ([w0 e0] & s2 & G & H). injection H as <- <- <-.
    destruct (stringish_fuel by_ f offs _) as [[[w1 e1]|er|er| |] s3] eqn:R; try discriminate.
    injection G as <- <- <-. apply IH in R as (_ & -> & _ & Tx). cbn [d_copy d_heap d_tracked d_made pred] in *.
    specialize (Tx ltac:(lia)). destruct (to_int_range _ _ Ez Ln) as [E1 E2]; [lia|].
    split; [lia|]. split; [destruct s; cbn; f_equal; lia|]. split; [|lia].
    rewrite K in T. rewrite E1 in Tx. eapply ns_copy; eauto; [lia|].
    enough (N.to_nat n <> q) by lia. intros Q. rewrite Q in Tx. eapply text_not_copy; eauto using tag_self.
Qed.
Lemma stringish_inv z s w e s' : decodeStringish by_ z s = (Ok (w, e), s') ->
  s' = s /\ name_shape by_ (d_copy s =? 0) (Z.to_nat z) e.
Proof. intros H. apply stringish_fuel_inv in H as (_ & ? & ? & _). auto. Qed.

(** * items *)
Definition tracked_ok (E : list nat) (s : dstate) : Prop := forall n l,
  assoc_nat n (d_tracked s) = Some l -> In n E /\ marked by_ n.
Definition kept (s s' : dstate) : Prop := d_tracked s' = d_tracked s /\ d_copy s' = d_copy s.
Lemma kept_refl s : kept s s. Proof. now split. Qed.
Lemma kept_trans a b c0 : kept a b -> kept b c0 -> kept a c0.
Proof. intros [] []. split; congruence. Qed.
Lemma tracked_kept E s s' : kept s s' -> tracked_ok E s -> tracked_ok E s'.
Proof. intros [K _] H. unfold tracked_ok in *. now rewrite K. Qed.
Lemma tracked_weaken E E' s : incl E E' -> tracked_ok E s -> tracked_ok E' s.
Proof. intros I H n l A. destruct (H n l A). auto. Qed.

(** operations that touch neither the table nor the depth *)
Definition quiet {A} (m : M A) : Prop := forall s a s', m s = (Ok a, s') -> kept s s'.
Lemma q_alloc x : quiet (alloc x).
Proof. intros s a s' [= <- <-]. now split. Qed.
Lemma q_alloc_n n x : quiet (alloc_n n x).
Proof. intros s a s' [= <- <-]. now split. Qed.
Lemma q_set l v : quiet (set_var l v).
Proof. intros s a s' [= <- <-]. now split. Qed.
Lemma q_mapset l k v : quiet (map_set l k v).
Proof. intros s a s'. unfold map_set. intros H. repeat (match goal with K : context [match ?x with _ => _ end] |- _ => destruct x end; try discriminate). all: injection H as <- <-; now split. Qed.
Lemma q_get l : quiet (get_var l).
Proof. intros s a s' [= <- <-]. now split. Qed.
Lemma q_log a b : quiet (log_make a b).
Proof. intros s x s' [= <- <-]. now split. Qed.
Lemma q_ret A (a : A) : quiet (ret a).
Proof. intros s x s' [= <- <-]. now split. Qed.
Lemma q_bind A B (m : M A) (f : A -> M B) : quiet m -> (forall a, quiet (f a)) -> quiet (mbind m f).
Proof. intros Hm Hf s b s' H. apply mbind_Ok in H as (a & s1 & H1 & H2). eapply kept_trans; [eapply Hm|eapply Hf]; eauto. Qed.
Lemma q_if A (b : bool) (m n : M A) : quiet m -> quiet n -> quiet (if b then m else n).
Proof. now destruct b. Qed.
Hint Resolve q_alloc q_alloc_n q_set q_mapset q_get q_log q_ret : quiet.
Ltac quiet := repeat (apply q_if || apply q_bind || (intros; solve [auto with quiet]) || intros ?).

Lemma fixed_at_inv idx k s n s' : 1 <= k -> fixed_at by_ idx k s = (Ok n, s') -> s' = s /\ idx + k <= length by_.
Proof.
  intros K. unfold fixed_at. destruct (Nat.leb_spec (length by_) (idx + k - 1)); [discriminate|].
  destruct (slice_range by_ idx (idx + k)); [|discriminate]. intros [= <- <-]. split; [auto|lia].
Qed.
Lemma binary_at_inv idx ln s x e s' : binary_at by_ idx ln s = (Ok (x, e), s') ->
  s' = s /\ (0 <= ln <= maxInt32)%Z /\ idx + Z.to_nat ln <= length by_ /\ e = idx + Z.to_nat ln.
Proof.
  unfold binary_at. destruct ((ln <? 0) || (maxInt32 <? ln))%Z eqn:C1; [discriminate|].
  destruct (blen by_ <? Z.of_nat idx + ln)%Z eqn:C2; [discriminate|]. unfold blen in C2.
  destruct (slice_range by_ idx (idx + Z.to_nat ln)); [|discriminate]. intros [= <- <- <-]. repeat split; lia.
Qed.
Lemma binary_copy_inv idx ln s x e s' : binary_copy by_ idx ln s = (Ok (x, e), s') ->
  kept s s' /\ (0 <= ln <= maxInt32)%Z /\ idx + Z.to_nat ln <= length by_ /\ e = idx + Z.to_nat ln.
Proof.
  unfold binary_copy. intros H. apply mbind_Ok in H as ((y & e1) & s1 & H & H1).
  apply binary_at_inv in H as (-> & ? & ? & ->).
  apply mbind_Ok in H1 as ([] & s2 & H2 & H1). apply mbind_Ok in H1 as (l & s3 & H3 & H1).
  injection H1 as <- <- <-. split; [|auto]. eapply kept_trans; [eapply q_log|eapply q_alloc]; eauto.
Qed.

(** what the recursive call is known to do *)
Definition shapely (m : nat -> loc -> M nat) : Prop := forall p ptr s p' s' E,
  m p ptr s = (Ok p', s') -> tracked_ok E s ->
  exists X, shape by_ (d_copy s =? 0) E p p' X /\ tracked_ok (X ++ E) s' /\ d_copy s' = d_copy s.

Section Rec.
Variable rec : nat -> loc -> M nat.
Hypothesis R : shapely rec.
Definition counts_array (m : nat -> loc -> M nat) : Prop := forall p ptr s p' s' base n,
  nth_error by_ p = Some x28 -> nth_error by_ (p + 1) = Some x2b -> m p ptr s = (Ok p', s') ->
  ptr < length (d_heap s) -> hget (d_heap s') ptr = GSlice base n -> exists x, lvint by_ (S (S p)) (N.of_nat n) x.
Hypothesis CA : counts_array rec.

Lemma array_shape n : forall base p s p' s' E, array_loop rec n base p s = (Ok p', s') -> tracked_ok E s ->
  exists X, shapes by_ (d_copy s =? 0) E n p p' X /\ tracked_ok (X ++ E) s' /\ d_copy s' = d_copy s.
Proof.
  induction n as [|n IH]; intros base p s p' s' E H T; cbn [array_loop] in H.
  - injection H as <- <-. exists []. (split; [|split]); auto. constructor.
  - apply mbind_Ok in H as (r & s1 & H1 & H). destruct (R _ _ _ _ _ _ H1 T) as (X & Sh & T1 & C1).
    destruct (IH _ _ _ _ _ _ H T1) as (Y & Sh2 & T2 & C2). rewrite C1 in *.
    exists (Y ++ X). rewrite <- app_assoc. (split; [|split]); auto. econstructor; eauto.
Qed.
Lemma hash_shape n : forall m p s p' s' E, hash_loop by_ rec n m p s = (Ok p', s') -> tracked_ok E s ->
  exists X, pair_shapes by_ (d_copy s =? 0) E n p p' X /\ tracked_ok (X ++ E) s' /\ d_copy s' = d_copy s.
Proof.
  induction n as [|n IH]; intros m p s p' s' E H T; cbn [hash_loop] in H.
  - injection H as <- <-. exists []. (split; [|split]); auto. constructor.
  - apply mbind_Ok in H as ((w & r) & s1 & H1 & H). apply stringish_inv in H1 as (-> & Nm). rewrite Nat2Z.id in Nm.
    apply mbind_Ok in H as (vl & s1 & H1 & H). apply q_alloc in H1.
    apply mbind_Ok in H as (r' & s2 & H2 & H). destruct (R _ _ _ _ _ _ H2 (tracked_kept _ _ _ H1 T)) as (X & Sh & T1 & C1).
    apply mbind_Ok in H as (v & s3 & H3 & H). apply q_get in H3.
    apply mbind_Ok in H as ([] & s4 & H4 & H). apply q_mapset in H4.
    assert (K : kept s2 s4) by (eapply kept_trans; eauto).
    destruct (IH _ _ _ _ _ _ H (tracked_kept _ _ _ K T1)) as (Y & Sh2 & T2 & C2).
    destruct H1 as [_ H1]. destruct K as [_ K]. rewrite K, C1, H1 in *.
    exists (Y ++ X). rewrite <- app_assoc. (split; [|split]); auto. econstructor; eauto.
Qed.
Lemma arrays_shape p ln ptr b s p' s' E : decodeArray by_ rec p ln ptr b s = (Ok p', s') -> tracked_ok E s ->
  (0 <= ln <= maxInt32)%Z /\
  exists X, shapes by_ (d_copy s =? 0) E (Z.to_nat ln) p p' X /\ tracked_ok (X ++ E) s' /\ d_copy s' = d_copy s.
Proof.
  unfold decodeArray. intros H T. destruct ((ln <? 0) || (maxInt32 <? ln))%Z eqn:C1; [discriminate|].
  destruct (blen by_ <? Z.of_nat p + ln)%Z eqn:C2; [discriminate|]. split; [lia|]. cbv zeta in H.
  apply mbind_Ok in H as ([] & s1 & H1 & H). apply q_log in H1.
  apply mbind_Ok in H as (base & s2 & H2 & H). apply q_alloc_n in H2.
  apply mbind_Ok in H as ([] & s3 & H3 & H). assert (K : kept s2 s3) by (eapply (q_if unit b); [| |eassumption]; quiet).
  pose proof (kept_trans _ _ _ H1 (kept_trans _ _ _ H2 K)) as K3.
  destruct (array_shape _ _ _ _ _ _ _ H (tracked_kept _ _ _ K3 T)) as (X & Sh & T1 & Cc).
  destruct K3 as [_ K3]. rewrite K3 in *. eauto.
Qed.
Lemma hashes_shape p ln ptr b s p' s' E : decodeHash by_ rec p ln ptr b s = (Ok p', s') -> tracked_ok E s ->
  (0 <= ln <= maxInt32)%Z /\
  exists X, pair_shapes by_ (d_copy s =? 0) E (Z.to_nat ln) p p' X /\ tracked_ok (X ++ E) s' /\ d_copy s' = d_copy s.
Proof.
  unfold decodeHash. intros H T. destruct ((ln <? 0) || (maxInt32 <? ln))%Z eqn:C1; [discriminate|].
  destruct (blen by_ <? Z.of_nat p + 2 * ln)%Z eqn:C2; [discriminate|]. split; [lia|]. cbv zeta in H.
  apply mbind_Ok in H as ([] & s1 & H1 & H). apply q_log in H1.
  apply mbind_Ok in H as (m & s2 & H2 & H). apply q_alloc in H2.
  apply mbind_Ok in H as ([] & s3 & H3 & H). assert (K : kept s2 s3) by (eapply (q_if unit b); [| |eassumption]; quiet).
  pose proof (kept_trans _ _ _ H1 (kept_trans _ _ _ H2 K)) as K3.
  destruct (hash_shape _ _ _ _ _ _ _ H (tracked_kept _ _ _ K3 T)) as (X & Sh & T1 & Cc).
  destruct K3 as [_ K3]. rewrite K3 in *. eauto.
Qed.
Lemma iface_shape : shapely (decode_via_iface by_ rec).
Proof.
  intros p ptr s p' s' E H T. unfold decode_via_iface in H.
  destruct (Nat.leb (length by_) p); [discriminate|].
  apply mbind_Ok in H as (cur & s1 & H1 & H). apply q_get in H1. destruct cur; try discriminate.
  apply mbind_Ok in H as (l & s2 & H2 & H). apply q_alloc in H2. pose proof (kept_trans _ _ _ H1 H2) as K.
  apply mbind_Ok in H as (r & s3 & H3 & H). destruct (R _ _ _ _ _ _ H3 (tracked_kept _ _ _ K T)) as (X & Sh & T1 & C1).
  apply mbind_Ok in H as (v & s4 & H4 & H). apply q_get in H4.
  assert (K2 : kept s4 s' /\ p' = r).
  { destruct v; cbn beta iota in H.
    1: injection H as <- <-; split; [apply kept_refl|auto].
    all: apply mbind_Ok in H as ([] & s5 & H5 & H); apply q_set in H5; injection H as <- <-; auto. }
  destruct K2 as [K2 ->]. pose proof (kept_trans _ _ _ H4 K2) as K3. destruct K as [_ K].
  rewrite K in *. exists X. (split; [|split]); auto.
  - eapply tracked_kept; eauto.
  - destruct K3 as [_ ->]. exact C1.
Qed.

Definition named (v : bool) (p r : nat) (s : dstate) : Prop :=
  if v then exists n e, lvint by_ p n r /\ name_shape by_ (d_copy s =? 0) (N.to_nat n) e
  else name_shape by_ (d_copy s =? 0) p r.
Lemma class_shape p v s nm r s' : class_name by_ p v s = (Ok (nm, r), s') -> s' = s /\ named v p r s.
Proof.
  unfold class_name, named. destruct v; intros H.
  - apply mbind_Ok in H as ((offs & sz) & s1 & V & H). apply varint_at_inv in V as (-> & n & V & Ez & Ln & _).
    apply mbind_Ok in H as ((w & e) & s1 & H1 & H). injection H as <- <- <-.
    pose proof H1 as H2. apply stringish_fuel_inv in H2 as (Z0 & _). apply stringish_inv in H1 as (-> & Nm).
    destruct (to_int_range _ _ Ez Ln Z0) as [E1 _]. rewrite E1 in Nm. eauto.
  - apply mbind_Ok in H as ((w & e) & s1 & H1 & H). injection H as <- <- <-.
    apply stringish_inv in H1 as (-> & Nm). now rewrite Nat2Z.id in Nm.
Qed.
Lemma objects_shape p ptr v s p' s' E : decodeObject c by_ rec p ptr v s = (Ok p', s') -> tracked_ok E s ->
  exists r X, named v p r s /\ shape by_ (d_copy s =? 0) E r p' X /\ tracked_ok (X ++ E) s' /\ d_copy s' = d_copy s.
Proof.
  unfold decodeObject. intros H T. apply mbind_Ok in H as ((nm & r) & s1 & H1 & H).
  apply class_shape in H1 as (-> & Nm). exists r. destruct (d_perl c).
  - apply mbind_Ok in H as (l & s1 & H1 & H). apply q_alloc in H1.
    apply mbind_Ok in H as ([] & s2 & H2 & H). apply q_set in H2. pose proof (kept_trans _ _ _ H1 H2) as K.
    destruct (R _ _ _ _ _ _ H (tracked_kept _ _ _ K T)) as (X & Sh & T1 & C1). destruct K as [_ K].
    rewrite K in *. eauto.
  - destruct (iface_shape _ _ _ _ _ _ H T) as (X & ?). eauto.
Qed.
Lemma freezes_shape p ptr v s p' s' E : decodeFreeze c by_ rec p ptr v s = (Ok p', s') -> tracked_ok E s ->
  exists r X, named v p r s /\ at_ by_ r [x28; x2b] /\ (exists x, lvint by_ (S (S r)) 1 x) /\ shape by_ (d_copy s =? 0) E r p' X /\ tracked_ok (X ++ E) s' /\ d_copy s' = d_copy s.
Proof.
  unfold decodeFreeze. intros H T. apply mbind_Ok in H as ((nm & r) & s1 & H1 & H).
  apply class_shape in H1 as (-> & Nm). exists r.
  destruct (Nat.leb (length by_) (r + 1)); [discriminate|].
  destruct (nth_error by_ r) as [b0|] eqn:B0; [|discriminate].
  destruct (nth_error by_ (r + 1)) as [b1|] eqn:B1; [|discriminate].
  destruct (negb ((b2n b0 =? typeREFN) && (b2n b1 =? typeARRAY))%N) eqn:C; [discriminate|].
  assert (A : at_ by_ r [x28; x2b]).
  { destruct b0; try discriminate C. destruct b1; try discriminate C. clear CA.
    apply nth_error_split in B0 as (pre & post & -> & <-). exists pre.
    rewrite Nat.add_1_r, nth_error_app2 in B1 by lia. replace (S (length pre) - length pre) with 1 in B1 by lia.
    destruct post as [|y post]; [discriminate|]. injection B1 as ->. exists post. auto. }
  apply mbind_Ok in H as (l & s1 & H1 & H).
  assert (Hl : l < length (d_heap s1)) by (injection H1 as <- <-; cbn [with_heap d_heap]; rewrite app_length; cbn; lia).
  apply q_alloc in H1.
  apply mbind_Ok in H as (e & s2 & H2 & H). destruct (R _ _ _ _ _ _ H2 (tracked_kept _ _ _ H1 T)) as (X & Sh & T1 & C1).
  destruct H1 as [_ H1]. rewrite H1 in *. exists X. split; [exact Nm|]. split; [exact A|].
  assert (One : exists x, lvint by_ (S (S r)) 1 x).
  { apply mbind_Ok in H as (v0 & s3 & H3 & H). injection H3 as Ev <-. destruct v0; try discriminate.
    destruct (Nat.eqb_spec n 1) as [->|]; [|discriminate].
    destruct b0; try discriminate C. destruct b1; try discriminate C.
    apply (CA r l s1 e s2 base 1 B0 B1 H2 Hl Ev). }
  split; [exact One|].
  assert (K : kept s2 s' /\ p' = e).
  { apply mbind_Ok in H as (v0 & s3 & H3 & H). apply q_get in H3. destruct v0; try discriminate.
    destruct (negb (n =? 1)); [discriminate|].
    apply mbind_Ok in H as (e0 & s4 & H4 & H). apply q_get in H4. destruct e0; try discriminate.
    enough (K : kept s4 s' /\ p' = e) by (destruct K as [K ->]; split; auto; eauto using kept_trans).
    assert (F : forall l2 v2 s5 p' s', (let! l2 := alloc l2 in set_var ptr (v2 l2) ;; ret e) s5 = (Ok p', s') -> kept s5 s' /\ p' = e).
    { clear. intros l2 v2 s5 p' s' H. apply mbind_Ok in H as (l3 & s6 & H6 & H). apply q_alloc in H6.
      apply mbind_Ok in H as ([] & s7 & H7 & H). apply q_set in H7. injection H as <- <-. split; eauto using kept_trans. }
    destruct (d_perl c); [eapply F; exact H|].
    apply mbind_Ok in H as (cur & s5 & H5 & H). apply q_get in H5. destruct cur; try discriminate.
    destruct (d_um c nm) as [[t|t]|]; try discriminate.
    - destruct (d_unmarshal c t _); [|discriminate].
      apply mbind_Ok in H as ([] & s7 & H7 & H). apply q_set in H7. injection H as <- <-. split; eauto using kept_trans.
    - apply F in H as [H ->]. split; eauto using kept_trans. }
  destruct K as [K ->]. (split; [|split]); auto.
  - eapply tracked_kept; eauto.
  - destruct K as [_ ->]. exact C1.
Qed.
End Rec.

Lemma get_shape p ptr b s p' s' : decodeREFP_ALIAS c by_ p ptr b s = (Ok p', s') ->
  kept s s' /\ exists n l, lvint by_ p n p' /\ assoc_nat (N.to_nat n) (d_tracked s) = Some l.
Proof.
  unfold decodeREFP_ALIAS. intros H.
  apply mbind_Ok in H as ((offs & sz) & s1 & V & H). apply varint_at_inv in V as (-> & n & V & Ez & Ln & _).
  cbv zeta in H. destruct ((offs <? 0) || (Z.of_nat (p + sz) <=? offs))%Z eqn:C1; [discriminate|].
  apply mbind_Ok in H as (t & s1 & H1 & H). injection H1 as <- <-.
  destruct (assoc_nat (Z.to_nat offs) (d_tracked s)) as [rl|] eqn:A; [|discriminate].
  destruct (to_int_range _ _ Ez Ln) as [E1 _]; [lia|]. rewrite E1 in A.
  apply mbind_Ok in H as (v & s2 & H2 & H). apply q_get in H2.
  enough (K : kept s2 s' /\ p' = p + sz) by (destruct K as [K ->]; split; eauto using kept_trans).
  assert (F : (set_var ptr v ;; ret (p + sz)) s2 = (Ok p', s') -> kept s2 s' /\ p' = p + sz).
  { clear. intros H. apply mbind_Ok in H as ([] & s7 & H7 & H). apply q_set in H7. injection H as <- <-. auto. }
  destruct b; [|auto].
  assert (H0 : (if d_noref c then set_var ptr v ;; ret (p + sz)
            else let! l := alloc (CV v) in
                 set_var ptr (GPtr false l) ;; ret (p + sz)) s2 = (Ok p', s')) by (destruct v; try discriminate; exact H).
  destruct (d_noref c); [auto|]. apply mbind_Ok in H0 as (l & s3 & H3 & H0). apply q_alloc in H3.
  apply mbind_Ok in H0 as ([] & s7 & H7 & H0). apply q_set in H7. injection H0 as <- <-. split; eauto using kept_trans.
Qed.

Lemma pads_here p b : nth_error by_ p = Some b -> is_pad b = false -> skip_pads (skipn p by_) p = Some (b, p).
Proof.
  intros H P. apply nth_error_split in H as (pre & post & E & <-). rewrite E.
  rewrite <- (Nat.add_0_r (length pre)) at 1. rewrite skipn_app, skipn_all2 by lia.
  replace (length pre + 0 - length pre) with 0 by lia. cbn [skipn app skip_pads]. now rewrite P.
Qed.
Lemma decode_counts f : counts_array (decode c by_ ibuf ishift f).
Proof.
  intros p ptr s p' s' base n B0 B1 H Hp Hv. destruct f as [|f]; [discriminate|]. cbn [decode] in H. unfold decode_body in H.
  destruct (Nat.leb (length by_) p); [discriminate|]. rewrite (pads_here _ _ B0 eq_refl) in H. cbv zeta in H.
  apply mbind_Ok in H as ([] & s1 & H1 & H). change (tracked_bit x28) with false in *. injection H1 as <-.
  change (tag_kind (untrack x28)) with TRefn in H. cbn [decode_tag] in H. destruct (d_perl c).
  - apply mbind_Ok in H as (l & s1 & _ & H). apply mbind_Ok in H as ([] & s2 & _ & H).
    apply mbind_Ok in H as (r & s3 & _ & H). apply mbind_Ok in H as (v & s4 & _ & H).
    exfalso. assert (H0 : (let! l2 := alloc (CV v) in set_var ptr (GPtr false l2) ;; ret r) s4 = (Ok p', s'))
      by (destruct v; try discriminate; exact H).
    apply mbind_Ok in H0 as (l2 & s5 & _ & H0). apply mbind_Ok in H0 as ([] & s6 & H6 & H0).
    injection H6 as <-. injection H0 as _ <-. cbn [with_heap d_heap] in Hv.
    unfold hget in Hv. destruct (Nat.ltb_spec ptr (length (d_heap s5))) as [L|L].
    + rewrite nth_error_upd_same in Hv by exact L. discriminate.
    + rewrite upd_out in Hv by exact L. rewrite (proj2 (nth_error_None _ _)) in Hv by exact L. discriminate.
  - destruct f as [|f]; [discriminate|]. cbn [decode] in H. unfold decode_body in H.
    destruct (Nat.leb (length by_) (S p)); [discriminate|].
    rewrite Nat.add_1_r in B1. rewrite (pads_here _ _ B1 eq_refl) in H. cbv zeta in H.
    apply mbind_Ok in H as ([] & s1 & H1 & H). change (tracked_bit x2b) with false in *. injection H1 as <-.
    change (tag_kind (untrack x2b)) with TArray in H. cbn [decode_tag] in H.
    apply mbind_Ok in H as ((ln & sz) & s1 & V & H). apply varint_at_inv in V as (-> & m & V & Ez & Ln & _).
    unfold decodeArray in H. destruct ((ln <? 0) || (maxInt32 <? ln))%Z eqn:C1; [discriminate|].
    destruct (blen by_ <? Z.of_nat (S (S p) + sz) + ln)%Z eqn:C2; [discriminate|]. cbv zeta in H.
    apply mbind_Ok in H as ([] & s1 & H1 & H). injection H1 as <-.
    apply mbind_Ok in H as (b0 & s2 & H2 & H). injection H2 as <- <-.
    apply mbind_Ok in H as ([] & s3 & H3 & H). injection H3 as <-.
    destruct (to_int_range _ _ Ez Ln) as [E1 E2]; [lia|].
    exists (S (S p) + sz). enough (En : N.of_nat n = m) by (rewrite En; exact V).
    cbn [with_heap d_heap] in H.
    assert (K : stays (S ptr) (S ptr) (length (d_heap s) + Z.to_nat ln)
      (array_loop (decode c by_ ibuf ishift f) (Z.to_nat ln) (length (d_heap s)) (S (S p) + sz))).
    { apply st_array; [|lia|lia]. intros lo i l Hl Ll.
      intros L2 t a t' Ht E0. destruct (st_decode c by_ ibuf ishift f lo l lo i Ll (le_n _) (le_n _) t a t' Ht E0) as [G K].
      split; [exact G|]. intros x Hx Nx. apply K; lia. }
    destruct (fun L1 L2 => K L1 _ _ _ L2 H) as [_ K1].
    { lia. }
    { cbn [with_heap d_heap]. rewrite upd_length, app_length, repeat_length. destruct (Z.to_nat ln); lia. }
    unfold hget in Hv. rewrite K1 in Hv by lia. cbn [with_heap d_heap] in Hv.
    rewrite nth_error_upd_same in Hv by (rewrite app_length; lia). injection Hv as _ <-. lia.
Qed.

Lemma shape_not_copy E q e X : tag_at by_ q q 47 -> shape by_ false E q e X -> False.
Proof.
  intros T H. inversion H as [ok E0 p q' t p' X0 T' B]; subst. destruct (tag_det _ _ _ _ _ _ T T') as [<- <-].
  inversion B; subst; lia.
Qed.

Lemma decode_shapely f : shapely (decode c by_ ibuf ishift f).
Proof.
  induction f as [|f IH]; intros p ptr s p' s' E H T; [discriminate|]. cbn [decode] in H. unfold decode_body in H.
  destruct (Nat.leb (length by_) p); [discriminate|].
  destruct (skip_pads (skipn p by_) p) as [[tagb q]|] eqn:SP; [|discriminate]. cbv zeta in H.
  apply tag_found in SP as [Tg Nq]. pose proof (tag_kind_fits tagb) as K.
  apply mbind_Ok in H as ([] & s1 & H1 & H).
  assert (T1 : tracked_ok (q :: E) s1 /\ d_copy s1 = d_copy s).
  { destruct (tracked_bit tagb) eqn:TB; injection H1 as <-.
    - split; [|reflexivity]. intros n l. cbn [d_tracked assoc_nat]. destruct (Nat.eqb_spec q n) as [<-|].
      + intros _. split; [now left|]. now apply (marked_bit by_ q tagb Nq).
      + intros A. destruct (T n l A). split; [now right|auto].
    - split; [|reflexivity]. eapply tracked_weaken; [|exact T]. intros x; now right. }
  clear H1 T. destruct T1 as [T C].
  enough (Q : exists X, tag_shape by_ (d_copy s1 =? 0) (q :: E) q (untrack tagb) p' X /\ tracked_ok (X ++ q :: E) s' /\ d_copy s' = d_copy s1).
  { destruct Q as (X & Sh & T2 & C2). exists (X ++ [q]). rewrite C in *. split; [econstructor; eauto|]. split; [|congruence].
    now rewrite <- app_assoc. }
  clear C. revert H T. generalize (q :: E). clear s E. intros E H T. rename s1 into s.
  assert (Q0 : forall m : M unit, quiet m -> (m ;; ret (S q)) s = (Ok p', s') ->
     (untrack tagb < 32 \/ untrack tagb = 37 \/ untrack tagb = 57 \/ untrack tagb = 58 \/ untrack tagb = 59)%N ->
     exists X, tag_shape by_ (d_copy s =? 0) E q (untrack tagb) p' X /\ tracked_ok (X ++ E) s' /\ d_copy s' = d_copy s).
  { intros m Q H0 Kt. apply mbind_Ok in H0 as (u & s1 & H0 & H1). injection H1 as <- <-. apply Q in H0.
    exists []. split; [now constructor|]. split; [eapply tracked_kept; eauto|apply H0]. }
  assert (Q1 : forall e (m : M unit), quiet m -> tag_shape by_ (d_copy s =? 0) E q (untrack tagb) e [] ->
     forall s1, kept s s1 -> (m ;; ret e) s1 = (Ok p', s') ->
     exists X, tag_shape by_ (d_copy s =? 0) E q (untrack tagb) p' X /\ tracked_ok (X ++ E) s' /\ d_copy s' = d_copy s).
  { intros e m Q Kt s1 K1 H0. apply (mbind_Ok unit) in H0 as (u & s2 & H0 & H1). injection H1 as <- <-. apply Q in H0.
    pose proof (kept_trans _ _ _ K1 H0) as K2.
    exists []. split; [exact Kt|]. split; [eapply tracked_kept; eauto|apply K2]. }
  destruct (tag_kind (untrack tagb)) as [t| | | | | | | |n| |n| | |n| | | | | | | | | | | | |t] eqn:TK;
    cbn [kind_fits decode_tag] in K, H; try discriminate.
  - eapply Q0; [|exact H|]; [quiet|lia].
  - apply mbind_Ok in H as ((z & sz) & s1 & V & H). apply varint_at_inv in V as (-> & n & V & _).
    eapply Q1; [| |apply kept_refl|exact H]; [quiet|]. econstructor; eauto.
  - apply mbind_Ok in H as ((z & sz) & s1 & V & H). apply varint_at_inv in V as (-> & n & V & _).
    eapply Q1; [| |apply kept_refl|exact H]; [quiet|]. econstructor; eauto.
  - apply mbind_Ok in H as (n & s1 & V & H). apply fixed_at_inv in V as (-> & L); [|lia].
    eapply Q1; [| |apply kept_refl|exact H]; [quiet|]. rewrite K. now apply h_float.
  - apply mbind_Ok in H as (n & s1 & V & H). apply fixed_at_inv in V as (-> & L); [|lia].
    eapply Q1; [| |apply kept_refl|exact H]; [quiet|]. rewrite K. now apply h_double.
  - eapply Q0; [|exact H|]; [quiet|lia].
  - eapply Q0; [|exact H|]; [quiet|lia].
  - apply mbind_Ok in H as ((z & sz) & s1 & V & H). apply varint_at_inv in V as (-> & n & V & Ez & Ln & _).
    destruct (hashes_shape _ IH _ _ _ _ _ _ _ _ H T) as (Lz & X & Sh & T1 & C1).
    destruct (to_int_range _ _ Ez Ln) as [E1 E2]; [lia|]. rewrite E1 in Sh. exists X. split; [|auto]. rewrite K.
    eapply h_hash; eauto. unfold longest, maxInt32 in *. lia.
  - destruct (hashes_shape _ IH _ _ _ _ _ _ _ _ H T) as (_ & X & Sh & T1 & C1). rewrite Nat2Z.id in Sh.
    destruct K as [K ->]. exists X. split; [|auto]. eapply h_hashref; eauto.
  - apply mbind_Ok in H as ((z & sz) & s1 & V & H). apply varint_at_inv in V as (-> & n & V & Ez & Ln & _).
    destruct (arrays_shape _ IH _ _ _ _ _ _ _ _ H T) as (Lz & X & Sh & T1 & C1).
    destruct (to_int_range _ _ Ez Ln) as [E1 E2]; [lia|]. rewrite E1 in Sh. exists X. split; [|auto]. rewrite K.
    eapply h_array; eauto. unfold longest, maxInt32 in *. lia.
  - destruct (arrays_shape _ IH _ _ _ _ _ _ _ _ H T) as (_ & X & Sh & T1 & C1). rewrite Nat2Z.id in Sh.
    destruct K as [K ->]. exists X. split; [|auto]. eapply h_arrayref; eauto.
  - apply mbind_Ok in H as ((z & sz) & s1 & V & H). apply varint_at_inv in V as (-> & n & V & Ez & Ln & _).
    apply mbind_Ok in H as ((x & e) & s1 & B & H). apply binary_at_inv in B as (-> & Lz & Le & ->).
    destruct (to_int_range _ _ Ez Ln) as [E1 E2]; [lia|]. rewrite E1 in *.
    eapply Q1; [| |apply kept_refl|exact H]; [quiet|]. apply h_string; [lia|].
    eapply ts_long; eauto using tag_self. unfold longest, maxInt32 in *. lia.
  - apply mbind_Ok in H as ((z & sz) & s1 & V & H). apply varint_at_inv in V as (-> & n & V & Ez & Ln & _).
    apply mbind_Ok in H as ((x & e) & s1 & B & H). apply binary_copy_inv in B as (B & Lz & Le & ->).
    destruct (to_int_range _ _ Ez Ln) as [E1 E2]; [lia|]. rewrite E1 in *.
    eapply Q1; [| |exact B|exact H]; [quiet|]. apply h_string; [lia|].
    eapply ts_long; eauto using tag_self. unfold longest, maxInt32 in *. lia.
  - apply mbind_Ok in H as ((x & e) & s1 & B & H). apply binary_copy_inv in B as (B & Lz & Le & ->).
    rewrite Nat2Z.id in *. destruct K as [K ->].
    eapply Q1; [| |exact B|exact H]; [quiet|]. apply h_string; [lia|].
    eapply ts_short; eauto using tag_self.
  - eapply Q0; [|exact H|]; [quiet|lia].
  - eapply Q0; [|exact H|]; [quiet|lia].
  - (* COPY *)
    apply mbind_Ok in H as (d & s1 & G & H). injection G as <- <-.
    destruct (Nat.ltb 0 (d_copy s)) eqn:D0; [discriminate|].
    apply mbind_Ok in H as ((offs & sz) & s1 & V & H). apply varint_at_inv in V as (-> & n & V & Ez & Ln & Le & _).
    destruct ((offs <? 0) || (Z.of_nat (S q) <=? offs))%Z eqn:C1; [discriminate|]. cbv zeta in H.
    apply mbind_Ok in H as ([] & s1 & G & H). injection G as <-.
    apply mbind_Ok in H as (e0 & s2 & G & H). injection H as <- <-.
    destruct (decode c by_ ibuf ishift f (Z.to_nat offs) ptr _) as [[e1|er|er| |] s3] eqn:Rn; try discriminate.
    injection G as <- <-. 
    destruct (IH _ _ _ _ _ E Rn) as (X & Sh & T1 & C2); [exact T|]. cbn [d_copy Nat.eqb] in Sh, C2.
    destruct (to_int_range _ _ Ez Ln) as [E1 E2]; [lia|]. rewrite E1 in Sh.
    assert (D1 : d_copy s = 0) by (apply Nat.ltb_ge in D0; lia).
    exists X. split; [|split; [exact T1|cbn [d_copy]; rewrite C2; reflexivity]].
    rewrite D1, K. cbn [Nat.eqb]. rewrite K in Tg. eapply h_copy; eauto.
    enough (N.to_nat n <> q) by lia. intros Q. rewrite Q in Sh. eapply shape_not_copy; eauto using tag_self.
  - (* REFN *)
    destruct (d_perl c).
    + apply mbind_Ok in H as (l & s1 & H1 & H). apply q_alloc in H1.
      apply mbind_Ok in H as ([] & s2 & H2 & H). apply q_set in H2. pose proof (kept_trans _ _ _ H1 H2) as K2.
      apply mbind_Ok in H as (r & s3 & H3 & H). destruct (IH _ _ _ _ _ _ H3 (tracked_kept _ _ _ K2 T)) as (X & Sh & T1 & C1).
      assert (K3 : kept s3 s' /\ p' = r).
      { destruct (tracked_bit tagb); [injection H as <- <-; split; [apply kept_refl|auto]|].
        apply mbind_Ok in H as (v & s4 & H4 & H). apply q_get in H4.
        assert (H0 : (let! l2 := alloc (CV v) in set_var ptr (GPtr false l2) ;; ret r) s4 = (Ok p', s'))
          by (destruct v; try discriminate; exact H).
        apply mbind_Ok in H0 as (l2 & s5 & H5 & H0). apply q_alloc in H5.
        apply mbind_Ok in H0 as ([] & s6 & H6 & H0). apply q_set in H6. injection H0 as <- <-.
        split; eauto using kept_trans. }
      destruct K3 as [K3 ->]. destruct K2 as [_ K2]. rewrite K2 in *. exists X. split; [|split].
      * eapply h_ref; eauto.
      * eapply tracked_kept; eauto.
      * destruct K3 as [_ ->]. exact C1.
    + destruct (IH _ _ _ _ _ _ H T) as (X & Sh & T1 & C1). exists X. split; [|auto]. eapply h_ref; eauto.
  - apply get_shape in H as (K1 & n & l & V & A). destruct (T _ _ A) as [I Mk].
    exists []. split; [|split; [eapply tracked_kept; eauto|apply K1]]. eapply h_back; eauto.
  - apply get_shape in H as (K1 & n & l & V & A). destruct (T _ _ A) as [I Mk].
    exists []. split; [|split; [eapply tracked_kept; eauto|apply K1]]. eapply h_back; eauto.
  - (* WEAKEN *)
    destruct (d_perl c).
    + apply mbind_Ok in H as (l & s1 & H1 & H). apply q_alloc in H1.
      apply mbind_Ok in H as ([] & s2 & H2 & H). apply q_set in H2. pose proof (kept_trans _ _ _ H1 H2) as K2.
      destruct (IH _ _ _ _ _ _ H (tracked_kept _ _ _ K2 T)) as (X & Sh & T1 & C1).
      destruct K2 as [_ K2]. rewrite K2 in *. exists X. split; [|auto]. eapply h_ref; eauto.
    + destruct (IH _ _ _ _ _ _ H T) as (X & Sh & T1 & C1). exists X. split; [|auto]. eapply h_ref; eauto.
  - (* REGEXP *)
    unfold decodeRegexp in H.
    apply mbind_Ok in H as ((w & r) & s1 & H1 & H). apply stringish_inv in H1 as (-> & N1). rewrite Nat2Z.id in N1.
    apply mbind_Ok in H as ((w2 & r2) & s1 & H1 & H). apply stringish_inv in H1 as (-> & N2). rewrite Nat2Z.id in N2.
    apply mbind_Ok in H as (l & s1 & H1 & H). apply q_alloc in H1.
    eapply Q1; [| |exact H1|exact H]; [quiet|]. rewrite K. eapply h_regexp; eauto.
  - destruct (objects_shape _ IH _ _ _ _ _ _ _ H T) as (r & X & Nm & Sh & T1 & C1).
    exists X. split; [|auto]. rewrite K. eapply h_object; eauto.
  - destruct (objects_shape _ IH _ _ _ _ _ _ _ H T) as (r & X & (n & e & V & Nm) & Sh & T1 & C1).
    exists X. split; [|auto]. rewrite K. eapply h_objectv; eauto.
  - destruct (freezes_shape _ IH (decode_counts f) _ _ _ _ _ _ _ H T) as (r & X & Nm & A & (x & O) & Sh & T1 & C1).
    exists X. split; [|auto]. rewrite K. eapply h_freeze; eauto.
  - destruct (freezes_shape _ IH (decode_counts f) _ _ _ _ _ _ _ H T) as (r & X & (n & e & V & Nm) & A & (x & O) & Sh & T1 & C1).
    exists X. split; [|auto]. rewrite K. eapply h_freezev; eauto.
Qed.
End Accepted.

(** * documents *)
Section Docs.
Variable k : codecs.
Variable c : dconfig.

Lemma vdec_shape x z sz : varintdecode x = VOk z sz -> exists n, lvint x 0 n sz /\ z = to_int n /\ (n < 18446744073709551616)%N.
Proof.
  intros V. apply varintdecode_inv in V as (l & rest & n & -> & -> & B & G & ->).
  exists (wrap_u64 n). unfold wrap_u64. split; [|split].
  - exists l, n. repeat split; auto; try lia. exists [], rest. auto.
  - now rewrite to_int_mod.
  - apply N.mod_lt. discriminate.
Qed.
Lemma framed_shape packed z : framed packed = Ok z -> lcounted packed z.
Proof.
  unfold framed. destruct (varintdecode packed) as [ln sz|] eqn:V; [|discriminate].
  apply vdec_shape in V as (n & V & Ez & Ln).
  destruct ((ln <? 0) || (maxInt32 <? ln) || (Z.of_nat (length packed) <? Z.of_nat sz + ln))%Z eqn:C1; [discriminate|].
  destruct (slice_range packed sz (sz + Z.to_nat ln)) as [x|] eqn:S; [|discriminate]. intros [= <-].
  apply slice_range_Some in S as (_ & L & ->). destruct (to_int_range _ _ Ez Ln) as [E1 E2]; [lia|].
  exists n, sz. split; [exact V|]. split; [unfold longest; unfold maxInt32 in C1; lia|].
  replace (sz + Z.to_nat ln - sz) with (Z.to_nat ln) by lia.
  split.
  - rewrite firstn_length, skipn_length. lia.
  - exists (firstn sz packed), (skipn (Z.to_nat ln) (skipn sz packed)). rewrite !firstn_skipn. split; [auto|].
    rewrite firstn_length. lia.
Qed.
Lemma unpacks_of ver typ dec z d : documentDecompressor ver typ = Ok (Some dec) ->
  decompress k dec z = Ok d -> unpacks k ver typ z d.
Proof.
  unfold documentDecompressor, serealRaw, serealSnappy, serealSnappyIncremental, serealZlib, serealZstd.
  intros D X. destruct (N.eqb_spec typ 0); [discriminate|].
  destruct (N.eqb_spec typ 1) as [->|].
  { destruct (N.eqb_spec ver 1); [|discriminate]. injection D as <-. cbn [decompress snappy_decompress] in X.
    apply up_snappy; auto. unfold lib in X. destruct (snappy_dec k z); congruence. }
  destruct (N.eqb_spec typ 2) as [->|].
  { injection D as <-. cbn [decompress snappy_decompress] in X. destruct (framed z) as [y| | | |] eqn:F; try discriminate.
    cbn [bind] in X. apply framed_shape in F. eapply up_snappy_inc; eauto. unfold lib in X. destruct (snappy_dec k y); congruence. }
  destruct (N.eqb_spec typ 3) as [->|].
  { destruct (N.ltb_spec ver 3); [discriminate|]. injection D as <-. cbn [decompress] in X. unfold zlib_decompress in X.
    destruct (varintdecode z) as [uln usz|] eqn:V; [|discriminate]. apply vdec_shape in V as (u & V & _).
    destruct (slice_from z usz) as [y|] eqn:S; [|discriminate]. apply slice_from_Some in S as [_ ->].
    destruct (framed (skipn usz z)) as [y| | | |] eqn:F; try discriminate. cbn [bind] in X. apply framed_shape in F.
    unfold zlibDecode in X. destruct (zlib_open k y) eqn:O; [|discriminate]. cbn [negb] in X.
    destruct ((uln <? 0) || (281474976710656 <? uln))%Z; [discriminate|].
    eapply up_zlib; eauto. unfold lib in X. destruct (zlib_dec k y); congruence. }
  destruct (N.eqb_spec typ 4) as [->|]; [|discriminate].
  destruct (N.ltb_spec ver 4); [discriminate|]. injection D as <-. cbn [decompress] in X. unfold zstd_decompress in X.
  destruct (framed z) as [y| | | |] eqn:F; try discriminate. cbn [bind] in X. apply framed_shape in F.
  eapply up_zstd; eauto. unfold lib in X. destruct (zstd_dec k y); congruence.
Qed.
Lemma decompressor_raw ver typ : documentDecompressor ver typ = Ok None -> typ = 0%N.
Proof.
  unfold documentDecompressor, serealRaw. destruct (N.eqb_spec typ 0); [auto|].
  repeat match goal with |- context [if ?x then _ else _] => destruct x end; discriminate.
Qed.

Lemma run_shape by_ ib sh p l s u s' : (run_decode c by_ ib sh p l ;; ret tt) s = (Ok u, s') -> d_tracked s = [] -> d_copy s = 0 ->
  exists e X, shape by_ true [] p e X.
Proof.
  intros H T C. apply mbind_Ok in H as (e & s1 & H & _). unfold run_decode in H.
  destruct (decode_shapely c by_ ib sh _ _ _ _ _ _ [] H) as (X & Sh & _).
  { intros n y. rewrite T. discriminate. }
  rewrite C in Sh. eauto.
Qed.

(** whatever the header variable; a Decoder between calls has depth 0 *)
Theorem accepted_shape b ib l s s' : (Z.of_nat (length b) < two63)%Z -> d_copy s = 0 ->
  unmarshal_raw k c b ib TgtNone (TgtIface l) s = (Ok tt, s') -> document_shape k b.
Proof.
  intros Lb C U. destruct (raw_cases k c b ib TgtNone (TgtIface l) s) as [(e & E & _)|(ver & typ & ln & n & rest & dec & S & TD & D & B)].
  { rewrite E in U. discriminate. }
  rewrite (raw_good _ _ _ _ _ _ _ _ _ _ _ _ _ S D B) in U.
  apply mbind_Ok in U as ([] & s1 & U1 & U). cbn [unmarshal_header target_nil orb] in U1. injection U1 as <-.
  assert (L10 : length ln <= 10) by (destruct S as (_ & _ & vt & _ & _ & _ & L); exact L).
  assert (Bn : (body_start ln n <= N.of_nat (length b))%N).
  { apply bodyStart_ok; auto. destruct B. apply orb_false_iff. split; apply Z.ltb_ge; auto. }
  rewrite (bodyStart_nat _ _ _ L10 Lb Bn) in U.
  exists ver, typ, ln, n, rest. revert Bn U. generalize (body_start ln n). intros B0 Bn U.
  rewrite body_unfold in U. apply mbind_Ok in U as ((b' & ib') & s1 & U1 & U). cbn [header_of h_version] in U.
  assert (P : exists body, unpacks k ver typ (skipn (N.to_nat B0) b) body /\ b' = firstn (N.to_nat B0) b ++ body /\ d_copy s1 = 0).
  { unfold unpacked in U1. destruct dec as [dk|].
    - destruct (slice_from b (N.to_nat B0)) as [z|] eqn:Sl; [|discriminate]. apply slice_from_Some in Sl as [_ ->].
      apply mbind_Ok in U1 as (d & s2 & U1 & U2). unfold lift in U1. injection U1 as U1 <-. cbv zeta in U2.
      apply mbind_Ok in U2 as (l0 & s3 & A & U2). apply q_alloc in A as [_ A]. injection U2 as <- <- <-.
      exists d. split; [eapply unpacks_of; eauto|]. split; [reflexivity|congruence].
    - apply decompressor_raw in D as ->. injection U1 as <- <- <-. exists (skipn (N.to_nat B0) b). rewrite firstn_skipn.
      split; [constructor|auto]. }
  destruct P as (body & P & -> & C1). exists body. unfold body_run in U.
  destruct (ver =? 1)%N eqn:V1.
  - apply run_shape in U as (e & X & Sh); [|reflexivity|exact C1]. exists e, X. auto.
  - destruct (N.to_nat B0 =? 0) eqn:Z0; [discriminate|].
    destruct (slice_from (firstn (N.to_nat B0) b ++ body) (N.to_nat B0 - 1)) as [y|] eqn:Sl; [|discriminate].
    apply slice_from_Some in Sl as [_ ->].
    apply run_shape in U as (e & X & Sh); [|reflexivity|exact C1]. exists e, X.
    split; [auto|]. split; [auto|]. split; [auto|]. split; [lia|].
    rewrite skipn_app in Sh. rewrite firstn_length in Sh.
    replace (N.to_nat B0 - 1 - Nat.min (N.to_nat B0) (length b)) with 0 in Sh by lia. exact Sh.
Qed.

Theorem header_accepted_shape b ib l s s' : (Z.of_nat (length b) < two63)%Z -> d_copy s = 0 ->
  unmarshal_raw k c b ib (TgtIface l) TgtNone s = (Ok tt, s') -> suffix_shape b.
Proof.
  intros Lb C U. destruct (raw_cases k c b ib (TgtIface l) TgtNone s) as [(e & E & _)|(ver & typ & ln & n & rest & dec & S & TD & D & B)].
  { rewrite E in U. discriminate. }
  rewrite (raw_good _ _ _ _ _ _ _ _ _ _ _ _ _ S D B) in U.
  apply mbind_Ok in U as ([] & s1 & U1 & U).
  assert (L10 : length ln <= 10) by (destruct S as (_ & _ & vt & _ & _ & _ & L); exact L).
  assert (Bn : (body_start ln n <= N.of_nat (length b))%N).
  { apply bodyStart_ok; auto. destruct B. apply orb_false_iff. split; apply Z.ltb_ge; auto. }
  rewrite (bodyStart_nat _ _ _ L10 Lb Bn) in U1.
  exists ver, typ, ln, n, rest. split; [exact S|]. split; [exact Bn|]. cbv zeta.
  unfold unmarshal_header in U1. cbn [target_nil orb header_of h_suffixSize h_suffixStart] in U1.
  destruct (Z.eqb_spec (wrap64 (to_int n + Z.of_nat (length ln))) 1) as [Sz|_].
  { left. unfold bodyStart_of, headerSize in B. 
    pose proof (bodyStart_nat _ _ _ L10 Lb Bn) as Q. rewrite <- Q. unfold bodyStart_of. 
    rewrite Sz. reflexivity. }
  right. apply mbind_Ok in U1 as ([] & s2 & R & U1). injection R as <-.
  change (headerSize + length ln) with (5 + length ln) in U1.
  destruct (nth_error b (5 + length ln)) as [f|] eqn:Nf; [|discriminate]. exists f. split; [reflexivity|].
  destruct (N.land (b2n f) 1 =? 1)%N eqn:Od.
  - right. apply run_shape in U1 as (e & X & Sh); [|reflexivity|exact C]. exists e, X.
    replace (6 + length ln) with (5 + length ln + 1) by lia. exact Sh.
  - left. destruct f; try reflexivity; discriminate Od.
Qed.
End Docs.
