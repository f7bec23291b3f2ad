(** Decoding what a value stands for gives the value back. *)
From Verif Require Import Base BaseFacts GoMem Spec SpecValue JsonFacts DecodeSpec.
From Coq Require Import Permutation.

Scheme den_mind := Induction for den Sort Prop
  with dens_mind := Induction for dens Sort Prop
  with denm_mind := Induction for denm Sort Prop.
Combined Scheme den_all_ind from den_mind, dens_mind, denm_mind.

Section VF.
Variable pe nofreeze : bool.       (* how it was encoded *)
Variable pf : bytes -> option N.
Variable h : heap.
Variable reg : bytes -> option nat.
Variable P : loc -> Prop.
Variable h' : heap.                (* where it was decoded, in default mode *)

Notation rp := (repr false reg P h').
Notation sm := (same nofreeze pf reg h h').

Lemma denm_keys m kvs : denm pe nofreeze pf h m kvs -> map fst kvs = map fst m.
Proof. induction 1; cbn; congruence. Qed.

Lemma reprm_get m' kvs : reprm false reg P h' m' kvs -> NoDup (map fst kvs) -> forall k,
  (mget m' k = None <-> ~ In k (map fst kvs)) /\
  (forall v', mget m' k = Some v' -> exists d, In (k, d) kvs /\ rp v' d).
Proof.
  induction 1 as [|m' kvs k0 v d Hm IH Hv]; intros Nd k.
  - cbn. split; [tauto|discriminate].
  - rewrite map_app in *. cbn [map fst] in *.
    assert (Nd' : NoDup (map fst kvs)) by (eapply NoDup_remove_1 in Nd; now rewrite app_nil_r in Nd).
    assert (Nk : ~ In k0 (map fst kvs)).
    { apply NoDup_remove_2 in Nd. now rewrite app_nil_r in Nd. }
    destruct (IH Nd' k) as [I1 I2]. rewrite mget_mput, in_app_iff. cbn [In].
    destruct (bytes_eqb k0 k) eqn:E.
    + apply bytes_eqb_true in E as <-. split; [split; [discriminate|tauto]|].
      intros v' [= <-]. exists d. split; auto. apply in_app_iff. right. now left.
    + apply bytes_eqb_false in E. split.
      * rewrite I1. split; intros H; [|tauto]. intros [K|[K|[]]]; auto.
      * intros v' Hv'. destruct (I2 _ Hv') as (d' & Hin & Hr). exists d'. split; auto.
        apply in_app_iff. auto.
Qed.

Definition Sden (r : bool) (v : gval) (d : data) : Prop := forall v', rp v' d -> sm v v'.
Definition Sdens (vs : list gval) (ds : list data) : Prop :=
  forall base, reprs false reg P h' base ds -> sames nofreeze pf reg h h' vs (cells h' base (length ds)).
Definition Sdenm (m : list (bytes * gval)) (kvs : list (bytes * data)) : Prop :=
  forall k d, In (k, d) kvs -> exists v, In (k, v) m /\ forall v', rp v' d -> sm v v'.

Lemma samem_intro m kvs m0 m' : denm pe nofreeze pf h m kvs -> Sdenm m kvs -> NoDup (map fst m) ->
  Permutation m0 m -> reprm false reg P h' m' kvs -> samem nofreeze pf reg h h' m0 m'.
Proof.
  intros D S Nd Pm R.
  assert (Nk : NoDup (map fst kvs)) by (now rewrite (denm_keys _ _ D)).
  assert (N0 : NoDup (map fst m0)).
  { eapply Permutation_NoDup; [apply Permutation_sym, Permutation_map; exact Pm|exact Nd]. }
  constructor.
  - intros k. destruct (reprm_get _ _ R Nk k) as [-> _]. rewrite mget_None.
    rewrite (denm_keys _ _ D). split; intros H C; apply H.
    + eapply Permutation_in; [apply Permutation_sym, Permutation_map; exact Pm|exact C].
    + eapply Permutation_in; [apply Permutation_map; exact Pm|exact C].
  - intros k v v' Hv Hv'. destruct (reprm_get _ _ R Nk k) as [_ G].
    destruct (G _ Hv') as (d & Hd & Hr). destruct (S _ _ Hd) as (v1 & Hin & Hs).
    replace v with v1; [auto|].
    assert (In (k, v1) m0) by (eapply Permutation_in; [apply Permutation_sym; exact Pm|exact Hin]).
    pose proof (In_mget _ _ _ _ N0 H). congruence.
Qed.

Lemma hmap_cell l m : nth_error h' l = Some (CMap m) -> hmap h' l = m.
Proof. unfold hmap. now intros ->. Qed.

Lemma aref_inv r v' d : rp v' (aref pe r d) -> rp v' d.
Proof.
  unfold aref. destruct (pe && negb r); auto. intros H. inversion H; subst; auto; discriminate.
Qed.

Lemma rp_int v' z : rp v' (DInt z) -> v' = int_result z.
Proof.
  intros H. inversion H; subst; unfold int_result;
    destruct (Z.ltb_spec z two63); auto; lia.
Qed.

Theorem den_repr_same :
  (forall r v d, den pe nofreeze pf h r v d -> Sden r v d) /\
  (forall vs ds, dens pe nofreeze pf h vs ds -> Sdens vs ds) /\
  (forall m kvs, denm pe nofreeze pf h m kvs -> Sdenm m kvs).
Proof.
  apply den_all_ind; unfold Sden; cbn beta.
  - intros r v' H. inversion H; subst; try discriminate. constructor.
  - intros r b v' H. inversion H; subst. constructor.
  - intros r k nm z v' H. apply rp_int in H as ->. constructor.
  - intros r u v' H. inversion H; subst. constructor.
  - intros r u v' H. inversion H; subst. constructor.
  - intros r s v' H. inversion H; subst. constructor.
  - intros r s z D I v' H. apply rp_int in H as ->. now constructor.
  - intros r s D v' H. inversion H; subst. now constructor.
  - intros r s u D E v' H. inversion H; subst. now constructor.
  - intros r w v' H. inversion H; subst. now constructor.
  - intros r base n ds D IH v' H. apply aref_inv in H. inversion H; subst.
    assert (E : length ds = n).
    { clear -D. assert (length (cells h base n) = n) by (unfold cells; now rewrite map_length, seq_length).
      rewrite <- H. clear H. induction D; cbn; congruence. }
    rewrite E in *. constructor. rewrite <- E at 2. now apply IH.
  - intros r a base n ds D IH v' H. apply aref_inv in H. inversion H; subst.
    assert (E : length ds = n).
    { clear -D. assert (length (cells h base n) = n) by (unfold cells; now rewrite map_length, seq_length).
      rewrite <- H. clear H. induction D; cbn; congruence. }
    rewrite E in *. constructor. rewrite <- E at 2. now apply IH.
  - intros r l m kvs Nd Pm D IH v' H. apply aref_inv in H. inversion H as [| | | | | | | | | | | |? m' ? ? Hl Hr| | | | | | | | | |]; subst.
    constructor. rewrite (hmap_cell _ _ Hl). eapply samem_intro; eauto.
  - intros r l m kvs Nd Pm D IH v' H. apply aref_inv in H. inversion H as [| | | | | | | | | | | |? m' ? ? Hl Hr| | | | | | | | | |]; subst.
    apply Permutation_map_inv in Pm as (m0 & E0 & Pm0).
    eapply sm_tmap; [exact E0|]. rewrite (hmap_cell _ _ Hl). eapply samem_intro; eauto.
    now apply Permutation_sym.
  - intros r i l d E D IH v' H. inversion H; subst; try discriminate. constructor. auto.
  - intros r l d E D IH v' H. constructor. auto.
  - intros r v' H. inversion H; subst; try discriminate.
    match goal with K : rp _ DUndef |- _ => inversion K; subst; try discriminate end. constructor.
  - intros r c v' H. destruct c; inversion H; subst; try discriminate; constructor.
  - intros r v' H. inversion H; subst; try discriminate; constructor.
  - intros r cls v d D IH v' H. inversion H; subst; try discriminate. constructor. auto.
  - intros r cls l d D IH v' H. inversion H; subst; try discriminate. constructor. auto.
  - intros r v d D IH v' H. inversion H; subst; try discriminate. constructor. auto.
  - intros r l d D IH v' H. inversion H; subst; try discriminate. constructor. auto.
  - intros r p m v' H. inversion H; subst.
    eapply sm_regexp; [apply hget_cell; eauto|congruence|congruence].
  - intros r cls w m kvs Pm D IH v' H. inversion H as [| | | | | | | | | | | | | | | | |? ? ? _ H0| | | | |]; subst; try discriminate.
    apply (aref_inv false) in H0. inversion H0 as [| | | | | | | | | | | |? m' ? ? Hl Hr| | | | | | | | | |]; subst.
    constructor. rewrite (hmap_cell _ _ Hl). eapply samem_intro; eauto.
    eapply Permutation_NoDup; [apply Permutation_map; exact Pm|].
    cbn. repeat constructor; cbn; intuition discriminate.
  - intros r name b v E v' H. inversion H; subst.
    + eapply sm_user; eauto. now apply hget_cell.
    + eapply sm_user_reg; eauto.
  - intros r name o v d E D IH v' H. apply sm_user_plain; auto.
  - intros r name fs base tags kvs T D IH v' H.
    inversion H as [| | | | | | | | | | | | | | | | |? ? ? _ H0| | | | |]; subst; try discriminate.
    apply (aref_inv false) in H0. inversion H0 as [| | | | | | | | | | | |? m' ? ? Hl Hr| | | | | | | | | |]; subst.
    eapply sm_struct; [exact T|]. rewrite (hmap_cell _ _ Hl). eapply samem_intro; eauto.
    destruct T as [T _]. now rewrite map_map.
  - intros base _. constructor.
  - intros v vs d ds _ IH1 _ IH2 base H. inversion H as [|? ? ? ? _ Hc Hr Hs]; subst.
    cbn [length cells seq map]. rewrite (hget_cell _ _ _ Hc). constructor; auto. now apply IH2.
  - intros k d [].
  - intros k v m d kvs _ IH1 _ IH2 k0 d0 [[= <- <-]|Hin].
    + exists v. split; [now left|exact IH1].
    + destruct (IH2 _ _ Hin) as (v0 & Hi & Hs). exists v0. split; [now right|exact Hs].
Qed.
End VF.
