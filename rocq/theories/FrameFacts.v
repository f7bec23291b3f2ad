(** What a successful decoding call leaves alone: every cell that existed before, except the
    target.  (DecodeSafe.v proves more, from stronger assumptions.) *)
From Verif Require Import Base BaseFacts Varint Tags GoMem Codecs Encode Compress Header Decode Document DecodeSafe.
From Coq Require Import ZifyBool ZifyNat ZifyN.

Lemma mbind_Ok A B (m : M A) (f : A -> M B) s b s' : mbind m f s = (Ok b, s') ->
  exists a s1, m s = (Ok a, s1) /\ f a s1 = (Ok b, s').
Proof. unfold mbind. destruct (m s) as [[a|e|e| |] s1]; try discriminate. eauto. Qed.

Section Frame.
Variable c : dconfig.
Variable by_ : bytes.
Variable ibuf : loc.
Variable ishift : nat.

Section N.
Variable n ptr : nat.

(** [m], started with at least [lo] cells, keeps the first [n] ones but [ptr] *)
Definition stays {A} (lo : nat) (m : M A) : Prop := n <= lo -> forall s a s', lo <= length (d_heap s) ->
  m s = (Ok a, s') -> length (d_heap s) <= length (d_heap s') /\
  forall l, l < n -> l <> ptr -> nth_error (d_heap s') l = nth_error (d_heap s) l.

Lemma st_bind A B lo (m : M A) (f : A -> M B) : stays lo m -> (forall a, stays lo (f a)) -> stays lo (mbind m f).
Proof.
  intros Hm Hf Ln s b s' L H. apply mbind_Ok in H as (a & s1 & H1 & H2).
  destruct (Hm Ln _ _ _ L H1) as [L1 K1]. destruct (Hf a Ln s1 b s' ltac:(lia) H2) as [L2 K2].
  split; [lia|]. intros l Hl Np. rewrite K2, K1; auto.
Qed.
Lemma st_same A lo (m : M A) : (forall s a s', m s = (Ok a, s') -> d_heap s' = d_heap s) -> stays lo m.
Proof. intros H Ln s a s' L E. rewrite (H _ _ _ E). auto. Qed.
Lemma st_alloc A lo x (f : loc -> M A) : (forall l, lo <= l -> stays (S l) (f l)) -> stays lo (mbind (alloc x) f).
Proof.
  intros Hf Ln s b s' L H. apply mbind_Ok in H as (a & s1 & H1 & H2). injection H1 as <- <-.
  destruct (fun L1 => Hf (length (d_heap s)) L ltac:(lia) _ b s' L1 H2) as [L2 K2].
  { cbn [with_heap d_heap]. rewrite app_length. cbn. lia. }
  cbn [with_heap d_heap] in L2, K2. rewrite app_length in L2.
  split; [lia|]. intros l Hl Np. rewrite K2 by auto. apply nth_error_app1. lia.
Qed.
Lemma st_alloc_n A lo k x (f : loc -> M A) : (forall l, lo <= l -> stays (l + k) (f l)) -> stays lo (mbind (alloc_n k x) f).
Proof.
  intros Hf Ln s b s' L H. apply mbind_Ok in H as (a & s1 & H1 & H2). injection H1 as <- <-.
  destruct (fun L1 => Hf (length (d_heap s)) L ltac:(lia) _ b s' L1 H2) as [L2 K2].
  { cbn [with_heap d_heap]. rewrite app_length, repeat_length. lia. }
  cbn [with_heap d_heap] in L2, K2. rewrite app_length in L2.
  split; [lia|]. intros l Hl Np. rewrite K2 by auto. apply nth_error_app1. lia.
Qed.
Lemma st_upd lo l x : l = ptr \/ n <= l -> stays lo (fun s => (Ok tt, with_heap s (upd (d_heap s) l (x s)))).
Proof.
  intros Hl Ln s a s' L [= <- <-]. cbn [with_heap d_heap]. rewrite upd_length. split; [lia|].
  intros j Hj Np. apply nth_error_upd_other. lia.
Qed.
Lemma st_set lo l v : l = ptr \/ n <= l -> stays lo (set_var l v).
Proof. intros H. apply (st_upd lo l (fun _ => CV v)). exact H. Qed.
Lemma st_mapset lo l k v : l = ptr \/ n <= l -> stays lo (map_set l k v).
Proof. intros H. apply (st_upd lo l (fun s => CMap (mput (hmap (d_heap s) l) k v))). exact H. Qed.
Lemma st_if A lo (b : bool) (m1 m2 : M A) : stays lo m1 -> stays lo m2 -> stays lo (if b then m1 else m2).
Proof. now destruct b. Qed.
Lemma st_fail A lo e : stays (A := A) lo (fail e). Proof. now apply st_same. Qed.
Lemma st_panic A lo e : stays (A := A) lo (panic e). Proof. now apply st_same. Qed.
Lemma st_crash A lo : stays (A := A) lo crash. Proof. now apply st_same. Qed.
Lemma st_ret A lo a : stays (A := A) lo (ret a). Proof. apply st_same. now intros s x s' [= <- <-]. Qed.
Lemma st_get lo l : stays lo (get_var l). Proof. apply st_same. now intros s x s' [= <- <-]. Qed.
Lemma st_getcopy lo : stays lo get_copy. Proof. apply st_same. now intros s x s' [= <- <-]. Qed.
Lemma st_setcopy lo d : stays lo (set_copy d). Proof. apply st_same. now intros s x s' [= <- <-]. Qed.
Lemma st_tracked lo o : stays lo (get_tracked o). Proof. apply st_same. now intros s x s' [= <- <-]. Qed.
Lemma st_track lo i l : stays lo (track i l). Proof. apply st_same. now intros s x s' [= <- <-]. Qed.
Lemma st_log lo a b : stays lo (log_make a b). Proof. apply st_same. now intros s x s' [= <- <-]. Qed.
Lemma st_varint lo i : stays lo (varint_at by_ i).
Proof.
  apply st_same. intros s x s'. unfold varint_at. destruct (slice_from by_ i); [|discriminate].
  destruct (varintdecode l); [|discriminate]. now intros [= <- <-].
Qed.
Lemma st_fixed lo i k : stays lo (fixed_at by_ i k).
Proof.
  apply st_same. intros s x s'. unfold fixed_at. destruct (Nat.leb _ _); [discriminate|].
  destruct (slice_range by_ i (i + k)); [|discriminate]. now intros [= <- <-].
Qed.
Lemma st_binary lo i k : stays lo (binary_at by_ i k).
Proof.
  unfold binary_at. apply st_if; [apply st_fail|]. apply st_if; [apply st_fail|].
  destruct (slice_range by_ i _); [apply st_ret|apply st_crash].
Qed.
Lemma st_string lo f : forall z, stays lo (stringish_fuel by_ f z).
Proof.
  induction f as [|f IH]; intros z; cbn [stringish_fuel]; [now apply st_same|]. unfold stringish_body.
  apply st_if; [apply st_fail|]. destruct (skip_pads _ _) as [[tb i]|]; [|apply st_fail].
  destruct (tag_kind (untrack tb)); try apply st_fail.
  1, 2: apply st_bind; [apply st_varint|]; intros [ln sz]; cbv zeta; apply st_if; [apply st_fail|];
    apply st_if; [apply st_fail|]; destruct (slice_range by_ _ _); [apply st_ret|apply st_crash].
  - apply st_if; [apply st_fail|]. destruct (slice_range by_ _ _); [apply st_ret|apply st_crash].
  - apply st_bind; [apply st_getcopy|]. intros d. apply st_if; [apply st_fail|].
    apply st_bind; [apply st_varint|]. intros [o sz]. apply st_if; [apply st_fail|]. cbv zeta.
    apply st_bind; [apply st_setcopy|]. intros []. apply st_bind; [|intros; apply st_ret].
    intros Ln s a s' L. destruct (stringish_fuel by_ f o s) as [[r|e|e| |] s1] eqn:E; try discriminate.
    intros [= <- <-]. exact (IH _ Ln _ _ _ L E).
Qed.

Section Rec.
Variable rec : nat -> loc -> M nat.
Hypothesis Hptr : ptr < n.
Hypothesis R : forall lo i l, l = ptr \/ n <= l -> l < lo -> stays lo (rec i l).

Ltac go := repeat first
  [ apply st_fail | apply st_panic | apply st_crash | apply st_ret | apply st_get | apply st_getcopy | apply st_setcopy
  | apply st_tracked | apply st_track | apply st_log | apply st_varint | apply st_fixed | apply st_binary
  | apply st_string | apply st_if
  | apply st_alloc; intros | apply st_alloc_n; intros | apply st_bind | (apply st_set; lia) | (apply st_mapset; lia)
  | (apply R; lia)
  | progress cbv zeta
  | match goal with |- stays _ (let (_, _) := ?x in _) => destruct x end
  | match goal with |- stays _ (match ?x with _ => _ end) => destruct x end
  | match goal with |- forall _, _ => intro end ].

Lemma st_array k : forall lo base i, n <= base -> base + k <= lo -> stays lo (array_loop rec k base i).
Proof. clear Hptr. induction k as [|k IH]; intros lo base i B L; cbn [array_loop]; go. apply IH; lia. Qed.
Lemma st_hash k : forall lo m i, n <= m -> n <= lo -> stays lo (hash_loop by_ rec k m i).
Proof.
  induction k as [|k IH]; intros lo m i B L; cbn [hash_loop]; [apply st_ret|].
  apply st_bind; [apply st_string|]. intros [w e]. apply st_alloc. intros l Hl.
  apply st_bind; [apply R; lia|]. intros j. apply st_bind; [apply st_get|]. intros v.
  apply st_bind; [apply st_mapset; lia|]. intros _. apply IH; lia.
Qed.
Lemma st_decodeArray lo i ln b : ptr < lo -> n <= lo -> stays lo (decodeArray by_ rec i ln ptr b).
Proof.
  intros Lp Ln. unfold decodeArray. apply st_if; [apply st_fail|]. apply st_if; [apply st_fail|]. cbv zeta.
  apply st_bind; [apply st_log|]. intros []. apply st_alloc_n. intros l Hl.
  apply st_bind; [go|]. intros []. apply st_array; lia.
Qed.
Lemma st_decodeHash lo i ln b : ptr < lo -> n <= lo -> stays lo (decodeHash by_ rec i ln ptr b).
Proof.
  intros Lp Ln. unfold decodeHash. apply st_if; [apply st_fail|]. apply st_if; [apply st_fail|]. cbv zeta.
  apply st_bind; [apply st_log|]. intros []. apply st_alloc. intros l Hl.
  apply st_bind; [go|]. intros []. apply st_hash; lia.
Qed.
Lemma st_class lo i v : stays lo (class_name by_ i v).
Proof. unfold class_name, decodeStringish. go. Qed.
Lemma st_tag lo k t i : n <= lo -> stays lo (decode_tag c by_ ibuf ishift rec k t i ptr).
Proof.
  intros Ln. destruct k; cbn [decode_tag]; try (apply st_decodeArray || apply st_decodeHash; lia);
    unfold binary_copy, decodeREFP_ALIAS, decodeRegexp, decodeObject, decodeFreeze, decode_via_iface, decodeStringish.
  all: try solve [go].
  - apply st_bind; [go|]. intros []. apply st_decodeHash; lia.
  - apply st_bind; [go|]. intros []. apply st_decodeArray; lia.
  - apply st_bind; [go|]. intros d. apply st_if; [go|]. apply st_bind; [go|]. intros [o sz]. apply st_if; [go|]. cbv zeta.
    apply st_bind; [go|]. intros []. apply st_bind; [|intros; go].
    intros _ s a s' L. destruct (rec (Z.to_nat o) ptr s) as [[r|e|e| |] s1] eqn:E; try discriminate.
    intros [= <- <-]. exact (R lo (Z.to_nat o) ptr (or_introl eq_refl) ltac:(lia) Ln s r s1 L E).
  - apply st_bind; [apply st_class|]. intros [cls j]. go.
    intros L s r s' Hs. destruct (d_unmarshal c _ _); [|discriminate]. intros E.
    refine ((_ : stays _ (set_var ptr _ ;; ret _)) L s r s' Hs E). go.
  - apply st_bind; [apply st_class|]. intros [cls j]. go.
    intros L s r s' Hs. destruct (d_unmarshal c _ _); [|discriminate]. intros E.
    refine ((_ : stays _ (set_var ptr _ ;; ret _)) L s r s' Hs E). go.
Qed.
End Rec.
End N.

Lemma st_decode f : forall n ptr lo i, ptr < n -> n <= lo -> stays n ptr lo (decode c by_ ibuf ishift f i ptr).
Proof.
  induction f as [|f IH]; intros n ptr lo i Hp Ln; cbn [decode]; [now apply st_same|]. unfold decode_body.
  apply st_if; [apply st_fail|]. destruct (skip_pads _ _) as [[tb q]|]; [|apply st_fail]. cbv zeta.
  apply st_bind; [apply st_if; [apply st_track|apply st_ret]|]. intros [].
  apply st_tag; auto. intros lo' j l [->|Hl] Ll; [intros L; eapply IH; eauto|].
  intros L s a s' Hs E. destruct (IH lo' l lo' j Ll (le_n _) (le_n _) s a s' Hs E) as [G K].
  split; [exact G|]. intros x Hx _. apply K; lia.
Qed.
End Frame.
