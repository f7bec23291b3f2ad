(** Running the decoder in two memories that hold the same document at different places: the
    runs agree, and what they build is the same up to the places.  Everything built refers to
    nothing outside of what the run was given and what it allocated. *)
From Verif Require Import Base BaseFacts SpecVarint Varint VarintFacts Tags GoMem Decode.
From Coq Require Import ZifyBool ZifyNat ZifyN.

Section Reloc.
Variable c : dconfig.
Variable by_ : bytes.
(** sizes of the memories at the start; the places used, and where they are in the second one *)
Variables n1 n2 : nat.
Variable dom0 : loc -> Prop.
Variable m0 : loc -> loc.
Hypothesis dom0_in : forall l, dom0 l -> l < n1 /\ m0 l < n2.
(** what the second memory held at the start *)
Variable old : heap.
Hypothesis m0_inj : forall l l', dom0 l -> dom0 l' -> m0 l = m0 l' -> l = l'.

Definition mv (l : loc) : loc := if Nat.ltb l n1 then m0 l else l - n1 + n2.
Definition dom (l : loc) : Prop := n1 <= l \/ dom0 l.
Definition lrel (n : nat) (l1 l2 : loc) : Prop := dom l1 /\ l1 < n /\ l2 = mv l1.
Definition wrel (n : nat) (w1 w2 : view) : Prop :=
  lrel n (vloc w1) (vloc w2) /\ voff w1 = voff w2 /\ vlen w1 = vlen w2.

Definition flat (v : gval) : Prop :=
  match v with
  | GNil | GBool _ | GInt _ _ _ | GF32 _ | GF64 _ | GStr _ | GUndefV _ | GCanonUndef => True
  | _ => False
  end.
Inductive vrel (n : nat) : gval -> gval -> Prop :=
| vr_flat v : flat v -> vrel n v v
| vr_bytes w1 w2 : wrel n w1 w2 -> vrel n (GBytes w1) (GBytes w2)
| vr_slice b k : n1 <= b -> b + Nat.max 1 k <= n -> vrel n (GSlice b k) (GSlice (mv b) k)
| vr_map l1 l2 : lrel n l1 l2 -> vrel n (GMap l1) (GMap l2)
| vr_ptr i l1 l2 : lrel n l1 l2 -> vrel n (GPtr i l1) (GPtr i l2)
| vr_obj cls l1 l2 : lrel n l1 l2 -> vrel n (GObjP cls l1) (GObjP cls l2)
| vr_weak l1 l2 : lrel n l1 l2 -> vrel n (GWeakP l1) (GWeakP l2)
| vr_regexp p1 p2 q1 q2 : wrel n p1 p2 -> wrel n q1 q2 -> vrel n (GRegexpV p1 q1) (GRegexpV p2 q2)
| vr_freeze cls w1 w2 : wrel n w1 w2 -> vrel n (GFreezeV cls w1) (GFreezeV cls w2)
| vr_user t w1 w2 : wrel n w1 w2 -> vrel n (GUserP t w1) (GUserP t w2).
Definition erel (n : nat) (x y : bytes * gval) : Prop := fst x = fst y /\ vrel n (snd x) (snd y).
Inductive crel (n : nat) : cell -> cell -> Prop :=
| cr_val v1 v2 : vrel n v1 v2 -> crel n (CV v1) (CV v2)
| cr_map p q : Forall2 (erel n) p q -> crel n (CMap p) (CMap q)
| cr_buf b : crel n (CBuf b) (CBuf b).
Definition orel (n : nat) (a b : option cell) : Prop :=
  match a, b with Some x, Some y => crel n x y | None, None => True | _, _ => False end.
Definition trel (n : nat) (x y : nat * loc) : Prop := fst x = fst y /\ lrel n (snd x) (snd y).

Definition R (s1 s2 : dstate) : Prop :=
  n1 <= length (d_heap s1) /\ length (d_heap s2) = length (d_heap s1) - n1 + n2 /\
  (forall l, dom l -> orel (length (d_heap s1)) (nth_error (d_heap s1) l) (nth_error (d_heap s2) (mv l))) /\
  Forall2 (trel (length (d_heap s1))) (d_tracked s1) (d_tracked s2) /\ d_copy s1 = d_copy s2 /\
  (forall l, l < n2 -> (forall l1, dom0 l1 -> m0 l1 <> l) -> nth_error (d_heap s2) l = nth_error old l).

Lemma Forall2_impl_ {A} (P Q : A -> A -> Prop) l l' : (forall a b, P a b -> Q a b) -> Forall2 P l l' -> Forall2 Q l l'.
Proof. intros H F. induction F; constructor; auto. Qed.

(** ** More memory *)
Lemma lrel_mono n n' l1 l2 : n <= n' -> lrel n l1 l2 -> lrel n' l1 l2.
Proof. clear dom0_in m0_inj. intros L (D & I & E). repeat split; auto. lia. Qed.
Lemma wrel_mono n n' w1 w2 : n <= n' -> wrel n w1 w2 -> wrel n' w1 w2.
Proof. intros L (H & E). split; auto. eapply lrel_mono; eauto. Qed.
Lemma vrel_mono n n' v1 v2 : n <= n' -> vrel n v1 v2 -> vrel n' v1 v2.
Proof. intros L H. destruct H; constructor; try (eapply wrel_mono; eassumption); try (eapply lrel_mono; eassumption); auto; lia. Qed.
Lemma erel_mono n n' x y : n <= n' -> erel n x y -> erel n' x y.
Proof. intros L (E & H). split; auto. eapply vrel_mono; eauto. Qed.
Lemma crel_mono n n' x y : n <= n' -> crel n x y -> crel n' x y.
Proof.
  intros L H. destruct H; constructor; [eapply vrel_mono; eauto|].
  induction H; constructor; auto. eapply erel_mono; eauto.
Qed.
Lemma orel_mono n n' x y : n <= n' -> orel n x y -> orel n' x y.
Proof. intros L. destruct x, y; cbn; auto. now apply crel_mono. Qed.
Lemma trel_mono n n' x y : n <= n' -> trel n x y -> trel n' x y.
Proof. intros L (E & H). split; auto. eapply lrel_mono; eauto. Qed.

Lemma mv_new l : n1 <= l -> mv l = l - n1 + n2.
Proof. clear dom0_in m0_inj dom0. intros H. unfold mv. destruct (Nat.ltb_spec l n1); [lia|reflexivity]. Qed.
Lemma mv_old l : dom0 l -> mv l = m0 l.
Proof. intros H. apply dom0_in in H. unfold mv. destruct (Nat.ltb_spec l n1); [reflexivity|lia]. Qed.
Lemma mv_inj l l' : dom l -> dom l' -> mv l = mv l' -> l = l'.
Proof.
  intros [H|H] [H'|H'] E; rewrite ?(mv_new l), ?(mv_new l') in E by assumption; rewrite ?(mv_old l), ?(mv_old l') in E by assumption.
  - lia.
  - apply dom0_in in H'. lia.
  - apply dom0_in in H. lia.
  - auto.
Qed.

(** ** Runs *)
Definition outrel {A} (n : nat) (Q : nat -> A -> A -> Prop) (r1 r2 : res A) : Prop :=
  match r1, r2 with
  | Ok a1, Ok a2 => Q n a1 a2
  | Err e1, Err e2 | Panic e1, Panic e2 => e1 = e2
  | Crash, Crash | NoFuel, NoFuel => True
  | _, _ => False
  end.
Definition rel {A} (n0 : nat) (p1 p2 : M A) (Q : nat -> A -> A -> Prop) : Prop := forall s1 s2, R s1 s2 ->
  n0 <= length (d_heap s1) ->
  length (d_heap s1) <= length (d_heap (snd (p1 s1))) /\ R (snd (p1 s1)) (snd (p2 s2)) /\
  outrel (length (d_heap (snd (p1 s1)))) Q (fst (p1 s1)) (fst (p2 s2)).
Definition same {A} (n : nat) (a b : A) : Prop := a = b.

Lemma rel_bind {A B} n0 (p1 p2 : M A) (k1 k2 : A -> M B) Q Q' : rel n0 p1 p2 Q ->
  (forall n a1 a2, n0 <= n -> Q n a1 a2 -> rel n (k1 a1) (k2 a2) Q') -> rel n0 (mbind p1 k1) (mbind p2 k2) Q'.
Proof.
  intros H K s1 s2 Hr L. destruct (H s1 s2 Hr L) as (L' & R' & O). unfold mbind.
  destruct (p1 s1) as [[a1|? |? | |] t1], (p2 s2) as [[a2|? |? | |] t2]; cbn [fst snd outrel] in *; try contradiction; auto.
  destruct (K (length (d_heap t1)) a1 a2 (Nat.le_trans _ _ _ L L') O t1 t2 R' (Nat.le_refl _)) as (L2 & R2 & O2). split; [lia|]. auto.
Qed.
Lemma rel_bindE {A B} n0 (p1 p2 : M A) (k1 k2 : A -> M B) Q' : rel n0 p1 p2 same ->
  (forall n a, n0 <= n -> rel n (k1 a) (k2 a) Q') -> rel n0 (mbind p1 k1) (mbind p2 k2) Q'.
Proof. intros H K. eapply rel_bind; [exact H|]. intros n a1 a2 L E. unfold same in E. subst a2. auto. Qed.
Lemma rel_weaken {A} n0 (p1 p2 : M A) (Q Q' : nat -> A -> A -> Prop) : rel n0 p1 p2 Q ->
  (forall n a1 a2, n0 <= n -> Q n a1 a2 -> Q' n a1 a2) -> rel n0 p1 p2 Q'.
Proof.
  intros H K s1 s2 Hr L. destruct (H s1 s2 Hr L) as (L' & R' & O). split; [exact L'|]. split; [exact R'|].
  destruct (fst (p1 s1)), (fst (p2 s2)); cbn in *; auto. apply K; [lia|exact O].
Qed.
Lemma rel_from {A} n0 n (p1 p2 : M A) Q : n0 <= n -> rel n0 p1 p2 Q -> rel n p1 p2 Q.
Proof. intros L H s1 s2 Hr L'. apply H; auto. lia. Qed.
Lemma rel_ret {A} n0 (a1 a2 : A) (Q : nat -> A -> A -> Prop) : (forall n, n0 <= n -> Q n a1 a2) -> rel n0 (ret a1) (ret a2) Q.
Proof. intros H s1 s2 Hr L. cbn. auto. Qed.
Lemma rel_same {A} n0 (a : A) : rel n0 (ret a) (ret a) same.
Proof. apply rel_ret. reflexivity. Qed.
Lemma rel_fail {A} n0 e Q : rel n0 (@fail A e) (fail e) Q.
Proof. intros s1 s2 Hr L. cbn. auto. Qed.
Lemma rel_panic {A} n0 e Q : rel n0 (@panic A e) (panic e) Q.
Proof. intros s1 s2 Hr L. cbn. auto. Qed.
Lemma rel_crash {A} n0 Q : rel n0 (@crash A) crash Q.
Proof. intros s1 s2 Hr L. cbn. auto. Qed.
Lemma rel_nofuel {A} n0 Q : rel n0 (fun s => (@NoFuel A, s)) (fun s => (NoFuel, s)) Q.
Proof. intros s1 s2 Hr L. cbn. auto. Qed.

(** ** The memory *)
Lemma R_cell s1 s2 l1 l2 : R s1 s2 -> lrel (length (d_heap s1)) l1 l2 ->
  orel (length (d_heap s1)) (nth_error (d_heap s1) l1) (nth_error (d_heap s2) l2).
Proof. intros (_ & _ & H & _) (D & _ & ->). auto. Qed.
Lemma R_hget s1 s2 l1 l2 : R s1 s2 -> lrel (length (d_heap s1)) l1 l2 ->
  vrel (length (d_heap s1)) (hget (d_heap s1) l1) (hget (d_heap s2) l2).
Proof.
  intros Hr L. pose proof (R_cell _ _ _ _ Hr L) as C. unfold hget.
  destruct (nth_error (d_heap s1) l1) as [x|], (nth_error (d_heap s2) l2) as [y|]; cbn in C; try contradiction; [|constructor; exact I].
  destruct C; try (constructor; exact I). assumption.
Qed.
Lemma R_hview s1 s2 w1 w2 : R s1 s2 -> wrel (length (d_heap s1)) w1 w2 -> hview (d_heap s1) w1 = hview (d_heap s2) w2.
Proof.
  intros Hr (L & E1 & E2). pose proof (R_cell _ _ _ _ Hr L) as C. unfold hview, hbuf. rewrite E1, E2.
  destruct (nth_error (d_heap s1) (vloc w1)) as [x|], (nth_error (d_heap s2) (vloc w2)) as [y|]; cbn in C; try contradiction; [|reflexivity].
  destruct C; reflexivity.
Qed.
Lemma R_hmap s1 s2 l1 l2 : R s1 s2 -> lrel (length (d_heap s1)) l1 l2 ->
  Forall2 (erel (length (d_heap s1))) (hmap (d_heap s1) l1) (hmap (d_heap s2) l2).
Proof.
  intros Hr L. pose proof (R_cell _ _ _ _ Hr L) as C. unfold hmap.
  destruct (nth_error (d_heap s1) l1) as [x|], (nth_error (d_heap s2) l2) as [y|]; cbn in C; try contradiction; [|constructor].
  destruct C; try constructor. assumption.
Qed.

Lemma R_upd s1 s2 l1 l2 x y : R s1 s2 -> lrel (length (d_heap s1)) l1 l2 -> crel (length (d_heap s1)) x y ->
  R (with_heap s1 (upd (d_heap s1) l1 x)) (with_heap s2 (upd (d_heap s2) l2 y)).
Proof.
  intros (A1 & A2 & A3 & A4 & A5 & A6) (D & L & ->) C. unfold R. cbn [with_heap d_heap d_tracked d_copy]. rewrite !upd_length.
  split; [assumption|]. split; [assumption|]. split; [|split; [assumption|split; [assumption|]]].
  2:{ intros l Ll Nl. rewrite nth_error_upd_other; auto. intros E. subst l. destruct D as [D|D]; [rewrite mv_new in Ll by assumption; lia|].
      apply (Nl l1 D). now rewrite mv_old. }
  intros l Dl. destruct (Nat.eq_dec l1 l) as [<-|Ne].
  - rewrite !nth_error_upd_same; [exact C| |exact L]. specialize (A3 l1 D).
    destruct (nth_error (d_heap s1) l1) eqn:E1; [|apply nth_error_None in E1; lia].
    destruct (nth_error (d_heap s2) (mv l1)) eqn:E2; [|contradiction]. now apply nth_error_Some_lt in E2.
  - rewrite !nth_error_upd_other; auto. intros E. apply Ne. now apply mv_inj.
Qed.
Lemma R_app s1 s2 k x y : R s1 s2 -> crel (length (d_heap s1) + k) x y ->
  R (with_heap s1 (d_heap s1 ++ repeat x k)) (with_heap s2 (d_heap s2 ++ repeat y k)).
Proof.
  intros (A1 & A2 & A3 & A4 & A5 & A6) C. unfold R. cbn [with_heap d_heap d_tracked d_copy]. rewrite !app_length, !repeat_length.
  split; [lia|]. split; [lia|]. split; [|split; [|split; [exact A5|]]].
  3:{ intros l Ll Nl. rewrite nth_error_app1 by lia. auto. }
  - intros l D. destruct (Nat.lt_ge_cases l (length (d_heap s1))) as [L|L].
    + specialize (A3 l D). destruct (nth_error (d_heap s1) l) eqn:E1; [|apply nth_error_None in E1; lia].
      destruct (nth_error (d_heap s2) (mv l)) eqn:E2; [|contradiction]. pose proof (nth_error_Some_lt _ _ _ _ E2).
      rewrite !nth_error_app1, E1, E2 by assumption. eapply crel_mono; [|exact A3]. lia.
    + rewrite mv_new by lia. rewrite !nth_error_app2 by lia. replace (l - n1 + n2 - length (d_heap s2)) with (l - length (d_heap s1)) by lia.
      destruct (Nat.lt_ge_cases (l - length (d_heap s1)) k) as [Lk|Lk].
      * rewrite !nth_error_repeat by assumption. exact C.
      * assert (N : forall z : cell, nth_error (repeat z k) (l - length (d_heap s1)) = None) by (intros z; apply nth_error_None; now rewrite repeat_length).
        rewrite !N. exact I.
  - eapply Forall2_impl_; [|exact A4]. intros a b. apply trel_mono. lia.
Qed.

Ltac ms := repeat match goal with
  | H : lrel ?a ?x ?y, L : ?a <= ?b |- lrel ?b ?x ?y => exact (lrel_mono _ _ _ _ L H)
  | H : lrel ?a ?x ?y |- lrel ?b ?x ?y => eapply lrel_mono; [|exact H]; lia
  end.

Lemma rel_set n0 l1 l2 v1 v2 : lrel n0 l1 l2 -> vrel n0 v1 v2 -> rel n0 (set_var l1 v1) (set_var l2 v2) same.
Proof.
  intros L V s1 s2 Hr Hn. unfold set_var. cbn [fst snd]. split; [|split; [|reflexivity]].
  - cbn [with_heap d_heap]. now rewrite upd_length.
  - apply R_upd; [exact Hr|ms|]. constructor. eapply vrel_mono; eauto.
Qed.
Lemma rel_get n0 l1 l2 : lrel n0 l1 l2 -> rel n0 (get_var l1) (get_var l2) vrel.
Proof.
  intros L s1 s2 Hr Hn. unfold get_var. cbn [fst snd outrel]. split; [lia|]. split; [exact Hr|]. apply R_hget; [exact Hr|ms].
Qed.
Lemma mput_rel n p q k v1 v2 : Forall2 (erel n) p q -> vrel n v1 v2 -> Forall2 (erel n) (mput p k v1) (mput q k v2).
Proof.
  intros F V. induction F as [|[ka va] [kb vb] p q [E H] F IH]; cbn [mput].
  - constructor; [split; auto|constructor].
  - cbn in E, H. subst kb. destruct (bytes_eqb ka k); constructor; auto; split; auto.
Qed.
Lemma rel_map_set n0 l1 l2 k v1 v2 : lrel n0 l1 l2 -> vrel n0 v1 v2 -> rel n0 (map_set l1 k v1) (map_set l2 k v2) same.
Proof.
  intros L V s1 s2 Hr Hn. unfold map_set. cbn [fst snd]. split; [|split; [|reflexivity]].
  - cbn [with_heap d_heap]. now rewrite upd_length.
  - apply R_upd; [exact Hr|ms|]. constructor. apply mput_rel; [|eapply vrel_mono; eauto]. apply R_hmap; [exact Hr|ms].
Qed.
Lemma rel_alloc_n n0 k x y : crel (n0 + k) x y ->
  rel n0 (alloc_n k x) (alloc_n k y) (fun n l1 l2 => n1 <= l1 /\ l1 + k <= n /\ l2 = mv l1).
Proof.
  intros C s1 s2 Hr Hn. unfold alloc_n. cbn [fst snd outrel]. split; [|split].
  - cbn [with_heap d_heap]. rewrite app_length. lia.
  - apply R_app; [exact Hr|]. eapply crel_mono; [|exact C]. lia.
  - destruct Hr as (A1 & A2 & _). cbn [with_heap d_heap]. rewrite app_length, repeat_length, A2. split; [exact A1|]. split; [lia|].
    now rewrite mv_new.
Qed.
Lemma rel_alloc n0 x y : crel (S n0) x y -> rel n0 (alloc x) (alloc y) (fun n l1 l2 => n1 <= l1 /\ lrel n l1 l2).
Proof.
  intros C. change (alloc x) with (alloc_n 1 x). change (alloc y) with (alloc_n 1 y).
  eapply rel_weaken; [apply rel_alloc_n; now rewrite Nat.add_1_r|]. cbn beta. intros n a1 a2 _ (A & B & D).
  split; [exact A|]. split; [now left|]. split; [unfold loc in *; lia|exact D].
Qed.
Lemma rel_track n0 i l1 l2 : lrel n0 l1 l2 -> rel n0 (track i l1) (track i l2) same.
Proof.
  intros L s1 s2 (A1 & A2 & A3 & A4 & A5 & A6) Hn. unfold track, R. cbn [fst snd d_heap d_tracked d_copy]. repeat (split; auto).
  constructor; auto. split; [reflexivity|]. cbn [snd]. ms.
Qed.
Definition oloc (n : nat) (a b : option loc) : Prop :=
  match a, b with Some x, Some y => lrel n x y | None, None => True | _, _ => False end.
Lemma rel_get_tracked n0 i : rel n0 (get_tracked i) (get_tracked i) oloc.
Proof.
  intros s1 s2 Hr Hn. unfold get_tracked. cbn [fst snd outrel]. split; [lia|]. split; [exact Hr|].
  destruct Hr as (_ & _ & _ & F & _). induction F as [|[i1 x] [i2 y] p q [E L] F IH]; cbn [assoc_nat oloc]; auto.
  cbn in E, L. subst i2. destruct (Nat.eqb i1 i); auto.
Qed.
Lemma rel_get_copy n0 : rel n0 get_copy get_copy same.
Proof. intros s1 s2 Hr Hn. unfold get_copy. cbn [fst snd outrel]. split; [lia|]. split; [exact Hr|]. apply Hr. Qed.
Lemma rel_set_copy n0 k : rel n0 (set_copy k) (set_copy k) same.
Proof. intros s1 s2 (A1 & A2 & A3 & A4 & A5 & A6) Hn. unfold set_copy, R, same. cbn. auto 10. Qed.
Lemma rel_log n0 k l : rel n0 (log_make k l) (log_make k l) same.
Proof. intros s1 s2 (A1 & A2 & A3 & A4 & A5 & A6) Hn. unfold log_make, R, same. cbn. auto 10. Qed.

Definition uncopy {A} (m : M A) : M A := fun s =>
  match m s with
  | (Ok r, s') => (Ok r, mkDState (d_heap s') (d_tracked s') (pred (d_copy s')) (d_made s'))
  | (Err e, s') => (Err e, mkDState (d_heap s') (d_tracked s') (pred (d_copy s')) (d_made s'))
  | r => r
  end.
Lemma rel_uncopy {A} n0 (p1 p2 : M A) Q : rel n0 p1 p2 Q -> rel n0 (uncopy p1) (uncopy p2) Q.
Proof.
  intros H s1 s2 Hr L. destruct (H s1 s2 Hr L) as (L' & R' & O). unfold uncopy.
  destruct (p1 s1) as [[a1|? |? | |] t1], (p2 s2) as [[a2|? |? | |] t2]; cbn [fst snd outrel d_heap] in *; try contradiction; auto;
    (split; [exact L'|]; split; [|exact O]; destruct R' as (A1 & A2 & A3 & A4 & A5 & A6); unfold R; cbn [d_heap d_tracked d_copy]; rewrite A5; auto 8).
Qed.

(** ** Reading the input *)
Lemma rel_varint n0 i : rel n0 (varint_at by_ i) (varint_at by_ i) same.
Proof.
  unfold varint_at. destruct (slice_from by_ i); [|apply rel_crash]. destruct (varintdecode _); [apply rel_same|apply rel_fail].
Qed.
Lemma rel_fixed n0 i k : rel n0 (fixed_at by_ i k) (fixed_at by_ i k) same.
Proof.
  unfold fixed_at. destruct (_ <=? _); [apply rel_fail|]. destruct (slice_range _ _ _); [apply rel_same|apply rel_crash].
Qed.
Lemma rel_binary n0 i ln : rel n0 (binary_at by_ i ln) (binary_at by_ i ln) same.
Proof.
  unfold binary_at. destruct (_ || _); [apply rel_fail|]. destruct (_ <? _)%Z; [apply rel_fail|].
  destruct (slice_range _ _ _); [apply rel_same|apply rel_crash].
Qed.
Ltac rb t := eapply rel_bind; [t|].
Ltac re t := eapply rel_bindE; [t|].
Lemma rel_binary_copy n0 i ln :
  rel n0 (binary_copy by_ i ln) (binary_copy by_ i ln) (fun n r1 r2 => wrel n (fst r1) (fst r2) /\ snd r1 = snd r2).
Proof.
  unfold binary_copy. re ltac:(apply rel_binary). intros n [s i'] Hn.
  re ltac:(apply rel_log). intros n' [] Hn'.
  rb ltac:(apply rel_alloc; constructor). intros m l1 l2 Hm (A & L). apply rel_ret. intros m' Hm'. cbn [fst snd]. split; [|reflexivity].
  split; [cbn [vloc]; ms|]. now split.
Qed.
Lemma rel_string_body n0 rec z : (forall n o, n0 <= n -> rel n (rec o) (rec o) same) ->
  rel n0 (stringish_body by_ rec z) (stringish_body by_ rec z) same.
Proof.
  intros Hrec. unfold stringish_body. destruct (_ || _); [apply rel_fail|].
  destruct (skip_pads _ _) as [[tagb idx]|]; [|apply rel_fail]. cbv zeta.
  assert (Long : rel n0
     (let! (ln, sz) := varint_at by_ (S idx) in
          let idx := S idx + sz in
          if ((ln <? 0) || (maxInt32 <? ln))%Z then fail EBadStringSize
          else if (blen by_ <? Z.of_nat idx + ln)%Z then fail ETruncated
          else let n := Z.to_nat ln in
               match slice_range by_ idx (idx + n) with
               | None => crash
               | Some _ => ret (mkWin idx n, idx + n)
               end)
     (let! (ln, sz) := varint_at by_ (S idx) in
          let idx := S idx + sz in
          if ((ln <? 0) || (maxInt32 <? ln))%Z then fail EBadStringSize
          else if (blen by_ <? Z.of_nat idx + ln)%Z then fail ETruncated
          else let n := Z.to_nat ln in
               match slice_range by_ idx (idx + n) with
               | None => crash
               | Some _ => ret (mkWin idx n, idx + n)
               end) same).
  { re ltac:(apply rel_varint). intros n [ln sz] Hn. cbv zeta.
    destruct (_ || _); [apply rel_fail|]. destruct (_ <? _)%Z; [apply rel_fail|].
    destruct (slice_range _ _ _); [apply rel_same|apply rel_crash]. }
  destruct (tag_kind (untrack tagb)) as [| | | | | | | | | | | | |k| | | | | | | | | | | | |]; try exact Long; try apply rel_fail.
  - destruct (_ <? _); [apply rel_fail|]. destruct (slice_range _ _ _); [apply rel_same|apply rel_crash].
  - re ltac:(apply rel_get_copy). intros n d Hn. destruct (0 <? d); [apply rel_fail|].
    re ltac:(apply rel_varint). intros m [offs sz] Hm. destruct (_ || _); [apply rel_fail|].
    re ltac:(apply rel_set_copy). intros k [] Hk.
    re ltac:(apply (rel_uncopy k _ _ same (Hrec k offs ltac:(lia)))). intros q r Hq. apply rel_same.
Qed.
Lemma rel_string_fuel f : forall n0 z, rel n0 (stringish_fuel by_ f z) (stringish_fuel by_ f z) same.
Proof.
  induction f as [|f IH]; intros n0 z; cbn [stringish_fuel]; [apply rel_nofuel|]. apply rel_string_body. intros. apply IH.
Qed.
Lemma rel_string n0 z : rel n0 (decodeStringish by_ z) (decodeStringish by_ z) same.
Proof. apply rel_string_fuel. Qed.

(** ** Decoding *)
Section Body.
Variables ib1 ib2 : loc.
Variable shift : nat.
Variable nb : nat.
Hypothesis Hib : lrel nb ib1 ib2.
Variable rec1 rec2 : nat -> loc -> M nat.
Hypothesis Hrec : forall n i l1 l2, nb <= n -> lrel n l1 l2 -> rel n (rec1 i l1) (rec2 i l2) same.

Ltac nil := constructor; constructor; exact I.
Lemma rel_hash_loop k : forall n0 m1 m2 idx, nb <= n0 -> lrel n0 m1 m2 ->
  rel n0 (hash_loop by_ rec1 k m1 idx) (hash_loop by_ rec2 k m2 idx) same.
Proof.
  induction k as [|k IH]; intros n0 p1 p2 idx Hb Hm; cbn [hash_loop]; [apply rel_same|].
  re ltac:(apply rel_string). intros n [key i1] Hn.
  rb ltac:(apply rel_alloc; nil). intros n' l1 l2 Hn' (_ & L).
  re ltac:(apply Hrec; [lia|exact L]). intros n'' i2 Hn''.
  rb ltac:(apply rel_get; ms). intros n3 v1 v2 Hn3 V.
  re ltac:(apply rel_map_set; [ms|exact V]). intros n4 [] Hn4. apply IH; [lia|ms].
Qed.
Lemma rel_array_loop k : forall n0 base idx, nb <= n0 -> n1 <= base -> base + k <= n0 ->
  rel n0 (array_loop rec1 k base idx) (array_loop rec2 k (mv base) idx) same.
Proof.
  induction k as [|k IH]; intros n0 base idx Hb Hl Hk; cbn [array_loop]; [apply rel_same|].
  re ltac:(apply Hrec; [lia|split; [left; exact Hl|split; [unfold loc in *; lia|reflexivity]]]). intros n i Hn.
  replace (S (mv base)) with (mv (S base)); [apply IH; unfold loc in *; lia|]. rewrite !mv_new by (unfold loc in *; lia). unfold loc in *. lia.
Qed.
Lemma rel_hash n0 idx ln p1 p2 isRef : nb <= n0 -> lrel n0 p1 p2 ->
  rel n0 (decodeHash by_ rec1 idx ln p1 isRef) (decodeHash by_ rec2 idx ln p2 isRef) same.
Proof.
  intros Hb Hp. unfold decodeHash. destruct (_ || _); [apply rel_fail|]. destruct (_ <? _)%Z; [apply rel_fail|].
  cbv zeta. re ltac:(apply rel_log). intros n [] Hn.
  rb ltac:(apply rel_alloc; constructor; constructor). intros n' l1 l2 Hn' (_ & L).
  eapply (rel_bindE n').
  - destruct isRef; [|apply rel_set; [ms|now constructor]].
    rb ltac:(apply rel_alloc; constructor; constructor; ms). intros m q1 q2 Hm (_ & Lq). apply rel_set; [ms|now constructor].
  - intros m [] Hm. apply rel_hash_loop; [lia|ms].
Qed.
Lemma rel_array n0 idx ln p1 p2 isRef : nb <= n0 -> lrel n0 p1 p2 ->
  rel n0 (decodeArray by_ rec1 idx ln p1 isRef) (decodeArray by_ rec2 idx ln p2 isRef) same.
Proof.
  intros Hb Hp. unfold decodeArray. destruct (_ || _); [apply rel_fail|]. destruct (_ <? _)%Z; [apply rel_fail|].
  cbv zeta. re ltac:(apply rel_log). intros n [] Hn.
  rb ltac:(apply rel_alloc_n; nil). intros n' l1 l2 Hn' (A & L & ->).
  eapply (rel_bindE n').
  - destruct isRef; [|apply rel_set; [ms|now constructor]].
    rb ltac:(apply rel_alloc; constructor; constructor; [exact A|lia]). intros m q1 q2 Hm (_ & Lq). apply rel_set; [ms|now constructor].
  - intros m [] Hm. apply rel_array_loop; unfold loc in *; lia.
Qed.

Lemma vrel_nil n v1 v2 : vrel n v1 v2 -> v1 = GNil -> v2 = GNil.
Proof. intros H ->. inversion H. reflexivity. Qed.
(** the same branch is taken on whether a value is nil *)
Lemma rel_isnil {A} n0 n v1 v2 (p1 p2 q1 q2 : M A) Q : vrel n v1 v2 -> rel n0 p1 p2 Q -> rel n0 q1 q2 Q ->
  rel n0 (match v1 with GNil => p1 | _ => q1 end) (match v2 with GNil => p2 | _ => q2 end) Q.
Proof. intros V P1 P2. destruct V as [v F| | | | | | | | |]; auto. destruct v; auto. Qed.

Lemma rel_put n0 p1 p2 v1 v2 (i : nat) : lrel n0 p1 p2 -> vrel n0 v1 v2 ->
  rel n0 (set_var p1 v1 ;; ret i) (set_var p2 v2 ;; ret i) same.
Proof. intros L V. re ltac:(apply rel_set; eassumption). intros n [] Hn. apply rel_same. Qed.
Lemma rel_new n0 p1 p2 v1 v2 b (i : nat) : lrel n0 p1 p2 -> vrel n0 v1 v2 ->
  rel n0 (let! l := alloc (CV v1) in set_var p1 (GPtr b l) ;; ret i) (let! l := alloc (CV v2) in set_var p2 (GPtr b l) ;; ret i) same.
Proof.
  intros L V. rb ltac:(apply rel_alloc; constructor; eapply vrel_mono; [|exact V]; lia). intros n l1 l2 Hn (_ & Lq).
  apply rel_put; [ms|now constructor].
Qed.

Lemma rel_iface n0 idx p1 p2 : nb <= n0 -> lrel n0 p1 p2 ->
  rel n0 (decode_via_iface by_ rec1 idx p1) (decode_via_iface by_ rec2 idx p2) same.
Proof.
  intros Hb Hp. unfold decode_via_iface. destruct (_ <=? _); [apply rel_fail|].
  rb ltac:(apply rel_get; exact Hp). intros n v1 v2 Hn V.
  eapply rel_isnil; [exact V| |apply rel_crash].
  rb ltac:(apply rel_alloc; nil). intros n' l1 l2 Hn' (_ & L).
  re ltac:(apply Hrec; [lia|exact L]). intros n2' i Hn2.
  rb ltac:(apply rel_get; ms). intros n3 w1 w2 Hn3 W.
  eapply rel_isnil; [exact W|apply rel_same|]. apply rel_put; [ms|exact W].
Qed.
Lemma rel_class n0 idx v : rel n0 (class_name by_ idx v) (class_name by_ idx v) same.
Proof.
  unfold class_name. destruct v.
  - re ltac:(apply rel_varint). intros n [offs sz] Hn. re ltac:(apply rel_string). intros n' r Hn'. apply rel_same.
  - re ltac:(apply rel_string). intros n' [w i] Hn'. apply rel_same.
Qed.
Lemma rel_object n0 idx p1 p2 v : nb <= n0 -> lrel n0 p1 p2 ->
  rel n0 (decodeObject c by_ rec1 idx p1 v) (decodeObject c by_ rec2 idx p2 v) same.
Proof.
  intros Hb Hp. unfold decodeObject. re ltac:(apply rel_class). intros n [cls i] Hn.
  destruct (d_perl c); [|apply rel_iface; [lia|ms]].
  rb ltac:(apply rel_alloc; nil). intros n' l1 l2 Hn' (_ & L).
  re ltac:(apply rel_set; [ms|constructor; exact L]). intros m [] Hm. apply Hrec; [lia|ms].
Qed.
Lemma rel_freeze n0 idx p1 p2 v : nb <= n0 -> lrel n0 p1 p2 ->
  rel n0 (decodeFreeze c by_ rec1 idx p1 v) (decodeFreeze c by_ rec2 idx p2 v) same.
Proof.
  intros Hb Hp. unfold decodeFreeze. re ltac:(apply rel_class). intros n [cls i] Hn.
  destruct (_ <=? _); [apply rel_fail|].
  destruct (nth_error by_ i) as [t0|]; [|apply rel_crash]. destruct (nth_error by_ (i + 1)) as [t1|]; [|apply rel_crash].
  destruct (negb _); [apply rel_fail|].
  rb ltac:(apply rel_alloc; nil). intros n' l1 l2 Hn' (_ & L).
  re ltac:(apply Hrec; [lia|exact L]). intros n2' i2 Hn2.
  rb ltac:(apply rel_get; ms). intros n3 w1 w2 Hn3 W.
  destruct W as [w F| |b k Hl Hk| | | | | | |]; try apply rel_fail; [destruct w; try contradiction; apply rel_fail|].
  destruct (negb _); [apply rel_fail|].
  rb ltac:(apply rel_get; split; [left; exact Hl|split; [unfold loc in *; lia|reflexivity]]). intros n4 e1 e2 Hn4 E.
  destruct E as [w F|d1 d2 W| | | | | | | |]; try apply rel_fail; [destruct w; try contradiction; apply rel_fail|].
  destruct (d_perl c); [apply rel_new; [ms|now constructor]|].
  rb ltac:(apply rel_get; ms). intros n5 u1 u2 Hn5 U.
  eapply rel_isnil; [exact U| |apply rel_crash].
  assert (W5 : wrel n5 d1 d2) by (eapply wrel_mono; eauto).
  destruct (d_um c cls) as [[t|t]|]; [|apply rel_panic|apply rel_new; [ms|now constructor]].
  intros s1 s2 Hr HL. rewrite <- (R_hview s1 s2 d1 d2 Hr) by (eapply wrel_mono; eauto).
  destruct (d_unmarshal c t (hview (d_heap s1) d1)).
  - apply (rel_put n5); [ms|now constructor|exact Hr|exact HL].
  - cbn. auto.
Qed.
Lemma rel_refp n0 idx p1 p2 r : lrel n0 p1 p2 ->
  rel n0 (decodeREFP_ALIAS c by_ idx p1 r) (decodeREFP_ALIAS c by_ idx p2 r) same.
Proof.
  intros Hp. unfold decodeREFP_ALIAS. re ltac:(apply rel_varint). intros n [offs sz] Hn. cbv zeta.
  destruct (_ || _); [apply rel_fail|].
  rb ltac:(apply rel_get_tracked). intros n' t1 t2 Hn' T.
  destruct t1 as [l1|], t2 as [l2|]; cbn in T; try contradiction; [|apply rel_fail].
  rb ltac:(apply rel_get; exact T). intros m v1 v2 Hm V.
  assert (P : rel m (set_var p1 v1 ;; ret (idx + sz)) (set_var p2 v2 ;; ret (idx + sz)) same) by (apply rel_put; [ms|exact V]).
  destruct r; [|exact P]. eapply rel_isnil; [exact V|apply rel_panic|].
  destruct (d_noref c); [exact P|]. apply rel_new; [ms|exact V].
Qed.
Lemma rel_regexp n0 idx p1 p2 : nb <= n0 -> lrel n0 p1 p2 ->
  rel n0 (decodeRegexp by_ ib1 shift idx p1) (decodeRegexp by_ ib2 shift idx p2) same.
Proof.
  intros Hb Hp. unfold decodeRegexp.
  re ltac:(apply rel_string). intros n [p i1] Hn. re ltac:(apply rel_string). intros n' [m i2] Hn'.
  apply rel_new; [ms|]. constructor; (split; [cbn [win_view vloc]; ms|now split]).
Qed.
Lemma rel_tag n0 k t idx p1 p2 : nb <= n0 -> lrel n0 p1 p2 ->
  rel n0 (decode_tag c by_ ib1 shift rec1 k t idx p1) (decode_tag c by_ ib2 shift rec2 k t idx p2) same.
Proof.
  intros Hb Hp.
  assert (Put : forall n v (i : nat), n0 <= n -> flat v -> rel n (set_var p1 v ;; ret i) (set_var p2 v ;; ret i) same).
  { intros n v i Hn Fv. apply rel_put; [ms|now constructor]. }
  destruct k; cbn [decode_tag]; try (apply Put; [lia|exact I]).
  - re ltac:(apply rel_varint). intros n [v sz] Hn. destruct (v <? 0)%Z; apply Put; auto; exact I.
  - re ltac:(apply rel_varint). intros n [v sz] Hn. apply Put; auto; exact I.
  - re ltac:(apply rel_fixed). intros n v Hn. apply Put; auto; exact I.
  - re ltac:(apply rel_fixed). intros n v Hn. apply Put; auto; exact I.
  - re ltac:(apply rel_varint). intros n [v sz] Hn. apply rel_hash; [lia|ms].
  - now apply rel_hash.
  - re ltac:(apply rel_varint). intros n [v sz] Hn. apply rel_array; [lia|ms].
  - now apply rel_array.
  - re ltac:(apply rel_varint). intros n [v sz] Hn.
    re ltac:(apply rel_binary). intros n' [s i] Hn'. apply Put; [lia|exact I].
  - re ltac:(apply rel_varint). intros n [v sz] Hn.
    rb ltac:(apply rel_binary_copy). intros n' [s1 i1] [s2 i2] Hn' [W E]. cbn in W, E. subst i2. apply rel_put; [ms|now constructor].
  - rb ltac:(apply rel_binary_copy). intros n' [s1 i1] [s2 i2] Hn' [W E]. cbn in W, E. subst i2. apply rel_put; [ms|now constructor].
  - destruct (d_perl c); [|apply Put; [lia|exact I]].
    eapply (rel_bindE n0); [|intros m [] _; apply rel_same].
    rb ltac:(apply rel_alloc; nil). intros n l1 l2 Hn (_ & L). apply rel_set; [ms|now constructor].
  - destruct (d_perl c); apply Put; auto; exact I.
  - re ltac:(apply rel_get_copy). intros n d Hn. destruct (0 <? d); [apply rel_fail|].
    re ltac:(apply rel_varint). intros n' [offs sz] Hn'. destruct (_ || _); [apply rel_fail|]. cbv zeta.
    re ltac:(apply rel_set_copy). intros m [] Hm.
    re ltac:(apply rel_uncopy; apply Hrec; [lia|ms]). intros m' r Hm'. apply rel_same.
  - destruct (d_perl c); [|now apply Hrec].
    rb ltac:(apply rel_alloc; nil). intros n l1 l2 Hn (_ & L).
    re ltac:(apply rel_set; [ms|constructor; exact L]). intros m [] Hm.
    re ltac:(apply Hrec; [lia|ms]). intros m' i Hm'.
    destruct t; [apply rel_same|].
    rb ltac:(apply rel_get; ms). intros q v1 v2 Hq V.
    eapply rel_isnil; [exact V|apply rel_panic|]. apply rel_new; [ms|exact V].
  - now apply rel_refp.
  - now apply rel_refp.
  - destruct (d_perl c); [|now apply Hrec].
    rb ltac:(apply rel_alloc; nil). intros n l1 l2 Hn (_ & L).
    re ltac:(apply rel_set; [ms|constructor; exact L]). intros m [] Hm. apply Hrec; [lia|ms].
  - now apply rel_regexp.
  - now apply rel_object.
  - now apply rel_object.
  - now apply rel_freeze.
  - now apply rel_freeze.
  - apply rel_fail.
Qed.
Lemma rel_body n0 idx p1 p2 : nb <= n0 -> lrel n0 p1 p2 ->
  rel n0 (decode_body c by_ ib1 shift rec1 idx p1) (decode_body c by_ ib2 shift rec2 idx p2) same.
Proof.
  intros Hb Hp. unfold decode_body. destruct (_ <=? _); [apply rel_fail|].
  destruct (skip_pads _ _) as [[tagb i]|]; [|apply rel_fail]. cbv zeta.
  eapply (rel_bindE n0).
  { destruct (tracked_bit tagb); [now apply rel_track|apply rel_same]. }
  intros n [] Hn. apply rel_tag; [lia|ms].
Qed.
End Body.

Theorem decode_reloc ib1 ib2 shift f : forall n0 idx p1 p2, lrel n0 ib1 ib2 -> lrel n0 p1 p2 ->
  rel n0 (decode c by_ ib1 shift f idx p1) (decode c by_ ib2 shift f idx p2) same.
Proof.
  induction f as [|f IH]; intros n0 idx p1 p2 Hi Hp; cbn [decode]; [apply rel_nofuel|].
  eapply rel_body; [exact Hi| |apply Nat.le_refl|exact Hp]. intros n i l1 l2 Hn Hl. apply IH; [ms|exact Hl].
Qed.
End Reloc.
