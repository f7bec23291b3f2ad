(** Reading a document and writing it again with PerlCompat. *)
From Verif Require Import Base BaseFacts SpecVarint Varint VarintFacts Tags GoMem Codecs TagsCache Encode
  Compress Header Decode Spec SpecValue SpecDoc SpecOptions SpecOutcome SpecRewrite SpecPerlRewrite GrammarFacts DecodeSpec ValueFacts
  JsonFacts EncodeSpec EncodeTerm Document DocFacts MarshalFacts OutcomeFacts Roundtrip RoundtripFacts RewriteFacts Sim.
From Coq Require Import ZifyBool ZifyNat ZifyN Permutation.

Scheme apart_mind := Induction for apart Sort Prop
  with aparts_mind := Induction for aparts Sort Prop.
Combined Scheme apart_all_ind from apart_mind, aparts_mind.

Lemma reprm_any perl reg P h m kvs : reprm perl reg P h m kvs ->
  NoDup (map fst m) /\ length m <= length kvs /\
  (forall k v, In (k, v) m -> In k (map fst kvs) /\ exists k' d, In (k', d) kvs /\ repr perl reg P h v d).
Proof.
  induction 1 as [|m kvs k0 v d Hm IH Hv].
  - split; [constructor|]. split; [reflexivity|]. intros k v [].
  - destruct IH as (N & L & A). split; [now apply mput_NoDup|]. split.
    + rewrite app_length. cbn [length]. rewrite <- (map_length fst (mput m k0 v)), mput_keys.
      destruct (mget m k0); rewrite ?app_length, map_length; cbn [length]; lia.
    + intros k v1 I. rewrite map_app, in_app_iff. cbn [map fst].
      assert (I3 : In k (map fst (mput m k0 v))) by (apply in_map_iff; exists (k, v1); auto).
      split.
      * rewrite mput_keys in I3. destruct (mget m k0) eqn:E; [|apply in_app_iff in I3 as [I3|I3]; [|now right]].
        all: apply in_map_iff in I3 as ((k1 & v2) & E1 & I3); cbn in E1; subst; left; now apply (A _ _ I3).
      * apply mput_in in I as [->|I].
        -- exists k0, d. split; [apply in_app_iff; right; now left|exact Hv].
        -- destruct (A _ _ I) as (_ & k' & d' & I' & R). exists k', d'. split; [apply in_app_iff; auto|exact R].
Qed.

Lemma reprs_any perl reg P h l ds : reprs perl reg P h l ds -> Forall2 (repr perl reg P h) (cells h l (length ds)) ds.
Proof.
  induction 1 as [|l v d ds Pl E R H IH]; [constructor|]. cbn [length].
  change (cells h l (S (length ds))) with (hget h l :: cells h (S l) (length ds)).
  rewrite (hget_cell _ _ _ E). constructor; auto.
Qed.

Lemma list_max_in x l : In x l -> x <= list_max l.
Proof. induction l as [|y l IH]; [intros []|]. change (list_max (y :: l)) with (Nat.max y (list_max l)). intros [->|I]; [lia|]. specialize (IH I). lia. Qed.

Section Written.
Variable M : N.
Variable F : bytes -> bytes -> Prop.
Variable nofreeze : bool.
Variable lay : layout.
Variable reg : bytes -> option nat.
Variable P : loc -> Prop.
Variable h : heap.
Notation rp := (repr true reg P h).
Notation small := (bounded M).
Notation tree_ := (tree M F nofreeze lay h).
Notation trees_ := (trees M F nofreeze lay h).

Lemma not_struct v d : rp v d -> perl_struct v = false.
Proof. intros R. inversion R; subst; try discriminate; reflexivity. Qed.

Lemma apart_tree :
  (forall v A, apart lay h v A -> forall d, rp v d -> small d ->
     exists n, tree_ v n A /\ n <= levels d) /\
  (forall vs A, aparts lay h vs A -> forall n, Forall (fun v => exists d, rp v d /\ small d /\ levels d <= n) vs ->
     exists m, trees_ vs m A /\ m <= n).
Proof.
  apply apart_all_ind.
  - intros v L d R B. inversion R; subst; try discriminate; inversion B; subst; cbn [levels].
    all: eexists; split; [constructor; auto; unfold ikind_in, two63, two64 in *; cbn; lia|lia].
  - intros base n A Ap IH d R B. inversion R; subst; try discriminate. inversion B; subst. cbn [levels] in *.
    destruct (IH (list_max (map levels ds))) as (m & T & L).
    + match goal with K : reprs _ _ _ _ _ _ |- _ => apply reprs_any in K; rename K into R2 end.
      match goal with K : Forall _ ds |- _ => rewrite Forall_forall in K; rename K into Bs end.
      assert (Q : forall d, In d ds -> small d /\ levels d <= list_max (map levels ds)).
      { intros d I. split; [now apply Bs|]. now apply list_max_in, List.in_map. }
      clear -R2 Q. generalize dependent (list_max (map levels ds)). intros N Q. induction R2; constructor.
      * exists y. split; [auto|]. apply Q. now left.
      * apply IHR2. intros d I. apply Q. now right.
    + exists (S m). split; [|lia]. apply t_slice; auto.
  - intros l A Ap IH d R B. inversion R; subst; try discriminate. inversion B; subst. cbn [levels] in *.
    match goal with K : nth_error h l = Some (CMap ?m) |- _ => assert (Hm : hmap h l = m) by (unfold hmap; now rewrite K) end.
    match goal with K : reprm _ _ _ _ _ _ |- _ => destruct (reprm_any _ _ _ _ _ _ K) as (N & Lm & Am) end.
    match goal with K : Forall _ kvs |- _ => rewrite Forall_forall in K; rename K into Bs end.
    destruct (IH (list_max (map (fun kd => levels (snd kd)) kvs))) as (n & T & L).
    + rewrite Hm. apply Forall_forall. intros v I. apply in_map_iff in I as ((k & v') & E & I). cbn in E. subst v'.
      destruct (Am _ _ I) as (_ & k' & d & I' & R'). exists d. split; [exact R'|].
      split; [now apply (Bs (k', d))|].
      apply list_max_in. apply in_map_iff. exists (k', d). auto.
    + exists (S n). split; [|lia]. apply t_map; rewrite Hm in *; auto.
      * unfold fits in *. lia.
      * intros k v I. destruct (Am _ _ I) as (I' & _). apply in_map_iff in I' as ((k' & d) & E & I'). cbn in E. subst k'.
        now destruct (Bs _ I').
  - intros l S d R B. inversion R; subst; try discriminate; inversion B; subst; cbn [levels];
      match goal with K : nth_error h l = Some (CV ?v) |- _ => assert (Hg : hget h l = v) by (unfold hget; now rewrite K) end.
    + exists 1. split; [|lia]. apply t_ptr_perl; rewrite Hg; [reflexivity|constructor].
    + match goal with K : rp _ _ |- _ => apply not_struct in K end. congruence.
    + exists 1. split; [|lia]. apply t_ptr_perl; rewrite Hg; [reflexivity|]. now apply t_regexp.
  - intros i l A S Tx Ap IH D d R B. inversion R; subst; try discriminate; inversion B; subst; cbn [levels];
      match goal with K : nth_error h l = Some (CV ?v) |- _ => assert (Hg : hget h l = v) by (unfold hget; now rewrite K) end.
    + rewrite Hg in S. discriminate.
    + destruct (IH d0) as (n & T & L); [now rewrite Hg|auto|].
      exists (Datatypes.S n). split; [|lia]. apply t_ptr; auto.
      * rewrite S. apply orb_true_r.
      * intros a [<-|[]] I. auto.
    + rewrite Hg in S. discriminate.
  - intros cls l A Ap IH d R B. inversion R; subst; try discriminate. inversion B; subst. cbn [levels] in *.
    match goal with K : nth_error h l = Some (CV ?v) |- _ => assert (Hg : hget h l = v) by (unfold hget; now rewrite K) end.
    destruct (IH d0) as (n & T & L); [now rewrite Hg|auto|]. exists (S n). split; [|lia]. now apply t_objp.
  - intros l A Ap IH d R B. inversion R; subst; try discriminate. inversion B; subst. cbn [levels] in *.
    match goal with K : nth_error h l = Some (CV ?v) |- _ => assert (Hg : hget h l = v) by (unfold hget; now rewrite K) end.
    destruct (IH d0) as (n & T & L); [now rewrite Hg|auto|]. exists (S n). split; [|lia]. now apply t_weakp.
  - intros n _. exists 0. split; [constructor|lia].
  - intros v A vs B _ IH1 _ IH2 D n H. inversion H as [|? ? (d & R & Bd & L) Hs]; subst.
    destruct (IH1 _ R Bd) as (n1 & T1 & L1). destruct (IH2 _ Hs) as (n2 & T2 & L2).
    exists (Nat.max n1 n2). split; [|lia]. now constructor.
Qed.
End Written.

Section Back.
Variable pe nofreeze : bool.
Variable pf : bytes -> option N.
Variable h : heap.
Variable reg : bytes -> option nat.
Variable P : loc -> Prop.
Variable h' : heap.
Variable reg' : bytes -> option nat.
Variable P' : loc -> Prop.
Notation rp := (repr true reg P h).
Notation rp' := (repr true reg' P' h').

Variable M : N.
Definition okd (r : bool) (d : data) : Prop := bounded M d /\ (pe = true -> behind_refs r d = true).

Definition Aden (r : bool) (v : gval) (d : data) : Prop :=
  forall d0, rp v d0 -> okd r d0 -> forall v', rp' v' d -> alike h h' v v'.
Definition Adens (vs : list gval) (ds : list data) : Prop :=
  forall ds0, Forall2 rp vs ds0 -> Forall (okd false) ds0 -> forall vs', Forall2 rp' vs' ds -> alikes h h' vs vs'.
Definition Adenm (m : list (bytes * gval)) (kvs : list (bytes * data)) : Prop :=
  forall k d, In (k, d) kvs -> exists v, In (k, v) m /\ Aden false v d.

Lemma reprm_got m' kvs : reprm true reg' P' h' m' kvs -> NoDup (map fst kvs) -> forall k,
  (mget m' k = None <-> ~ In k (map fst kvs)) /\
  (forall v', mget m' k = Some v' -> exists d, In (k, d) kvs /\ rp' v' d).
Proof.
  induction 1 as [|m' kvs k0 v d Hm IH Hv]; intros Nd k.
  - cbn. split; [tauto|discriminate].
  - rewrite map_app in *. cbn [map fst] in *.
    assert (Nd' : NoDup (map fst kvs)) by (eapply NoDup_remove_1 in Nd; now rewrite app_nil_r in Nd).
    assert (Nk : ~ In k0 (map fst kvs)).
    { apply NoDup_remove_2 in Nd. now rewrite app_nil_r in Nd. }
    destruct (IH Nd' k) as [I1 I2]. rewrite mget_mput, in_app_iff. cbn [In].
    destruct (bytes_eqb k0 k) eqn:E.
    + apply bytes_eqb_true in E as <-. split; [split; [discriminate|tauto]|].
      intros v' [= <-]. exists d. split; auto. apply in_app_iff. right. now left.
    + apply bytes_eqb_false in E. split.
      * rewrite I1. split; intros H; [|tauto]. intros [K|[K|[]]]; auto.
      * intros v' Hv'. destruct (I2 _ Hv') as (d' & Hin & Hr). exists d'. split; auto.
        apply in_app_iff. auto.
Qed.

Lemma unboxed r d0 d : okd r d0 -> (match d0 with DArr _ | DHash _ => True | _ => False end) -> aref pe r d = d.
Proof.
  intros [_ B] C. unfold aref. destruct pe; [|reflexivity]. specialize (B eq_refl).
  destruct d0; try contradiction; cbn [behind_refs] in B; apply andb_true_iff in B as [-> _]; reflexivity.
Qed.

Lemma okd_arr r ds : okd r (DArr ds) -> Forall (okd false) ds.
Proof.
  intros [W B]. cbn [behind_refs] in *. inversion W as [| | | | | | | |? _ W1| | | | | |]; subst. rewrite Forall_forall in *. intros d I.
  split; [auto|]. intros Hp. specialize (B Hp). apply andb_true_iff in B as [_ B]. rewrite forallb_forall in B. auto.
Qed.
Lemma okd_hash r kvs k d : okd r (DHash kvs) -> In (k, d) kvs -> okd false d.
Proof.
  intros [W B] I. cbn [behind_refs] in *. inversion W as [| | | | | | | | |? _ W1| | | | |]; subst. rewrite Forall_forall in W1.
  split; [apply (W1 _ I)|]. intros Hp. specialize (B Hp). apply andb_true_iff in B as [_ B]. rewrite forallb_forall in B. apply (B _ I).
Qed.
Lemma okd_ref r d : okd r (DRef d) -> okd true d.
Proof. intros [W B]. inversion W; subst. split; auto. Qed.
Lemma okd_obj r cls d : okd r (DObj cls d) -> okd false d.
Proof. intros [W B]. inversion W; subst. split; auto. Qed.
Lemma okd_weak r d : okd r (DWeak d) -> okd false d.
Proof. intros [W B]. inversion W; subst. split; auto. Qed.

Lemma dens_len vs ds : dens pe nofreeze pf h vs ds -> length ds = length vs.
Proof. induction 1; cbn; congruence. Qed.

Lemma hash_inv v' kvs : rp' v' (DHash kvs) -> exists l m, v' = GMap l /\ nth_error h' l = Some (CMap m) /\ reprm true reg' P' h' m kvs.
Proof. intros H. inversion H; subst. eauto. Qed.

Ltac cellof l := match goal with K : nth_error h l = Some (CV ?v) |- _ =>
  let E := fresh "Hg" in assert (E : hget h l = v) by (unfold hget; now rewrite K) end.
Ltac cellof' l := match goal with K : nth_error h' l = Some (CV ?v) |- _ =>
  let E := fresh "Hg'" in assert (E : hget h' l = v) by (unfold hget; now rewrite K) end.

Theorem den_alike :
  (forall r v d, den pe nofreeze pf h r v d -> Aden r v d) /\
  (forall vs ds, dens pe nofreeze pf h vs ds -> Adens vs ds) /\
  (forall m kvs, denm pe nofreeze pf h m kvs -> Adenm m kvs).
Proof.
  apply den_all_ind; unfold Aden.
  - intros; match goal with K : rp _ _ |- _ => inversion K; subst; discriminate end.
  - intros r b d0 R O v' R'. inversion R'; subst. constructor.
  - intros r k nm z d0 R O v' R'. inversion R; subst; inversion R'; subst; try lia; constructor.
  - intros r u d0 R O v' R'. inversion R'; subst. constructor.
  - intros r u d0 R O v' R'. inversion R'; subst. constructor.
  - intros r s d0 R O v' R'. inversion R'; subst. constructor.
  - intros; match goal with K : rp _ _ |- _ => inversion K; subst; discriminate end.
  - intros; match goal with K : rp _ _ |- _ => inversion K; subst; discriminate end.
  - intros; match goal with K : rp _ _ |- _ => inversion K; subst; discriminate end.
  - intros r w d0 R O v' R'. inversion R'; subst. now constructor.
  - intros r base n ds D IH d0 R O v' R'. inversion R; subst; try discriminate.
    rewrite (unboxed _ _ _ O Logic.I) in R'. inversion R'; subst.
    pose proof (dens_len _ _ D) as Ln. unfold cells in Ln at 1. rewrite map_length, seq_length in Ln.
    rewrite Ln. constructor. eapply IH; [eapply reprs_any; eauto|eapply okd_arr; eauto|].
    rewrite <- Ln. eapply reprs_any; eauto.
  - intros; match goal with K : rp _ _ |- _ => inversion K; subst; discriminate end.
  - intros r l m kvs Nd Pm D IH d0 R O v' R'. inversion R; subst; try discriminate.
    rewrite (unboxed _ _ _ O Logic.I) in R'. destruct (hash_inv _ _ R') as (l' & m' & -> & Hl & Hr).
    match goal with K : nth_error h l = Some (CMap ?m) |- _ => assert (Hm : hmap h l = m) by (unfold hmap; now rewrite K) end.
    match goal with K : reprm true reg P _ _ _ |- _ => destruct (reprm_any _ _ _ _ _ _ K) as (N0 & _ & Am) end.
    assert (Hm' : hmap h' l' = m') by (unfold hmap; now rewrite Hl).
    assert (Nk : NoDup (map fst kvs)) by (now rewrite (denm_keys _ _ _ _ _ _ D)).
    constructor; rewrite Hm, Hm' in *.
    + intros k. destruct (reprm_got _ _ Hr Nk k) as [-> _]. rewrite mget_None.
      rewrite (denm_keys _ _ _ _ _ _ D). split; intros H C; apply H.
      * eapply Permutation_in; [apply Permutation_sym, Permutation_map; exact Pm|exact C].
      * eapply Permutation_in; [apply Permutation_map; exact Pm|exact C].
    + intros k v v1 Hv Hv'. destruct (reprm_got _ _ Hr Nk k) as [_ G].
      destruct (G _ Hv') as (d & Hd & Hr1). destruct (IH _ _ Hd) as (v2 & Hin & Hs).
      assert (I2 : In (k, v2) m0) by (eapply Permutation_in; [apply Permutation_sym; exact Pm|exact Hin]).
      pose proof (In_mget _ _ _ _ N0 I2) as E2. assert (v = v2) by congruence. subst v2.
      destruct (Am _ _ I2) as (_ & k' & d1 & I1 & R1). eapply Hs; eauto. eapply okd_hash; eauto.
  - intros; match goal with K : rp _ _ |- _ => inversion K; subst; discriminate end.
  - intros r i l d E D IH d0 R O v' R'. inversion R; subst; try discriminate; cellof l.
    + rewrite Hg in E. cbn in E. discriminate.
    + inversion R'; subst; try discriminate. cellof' l0. constructor. eapply IH; rewrite ?Hg; eauto using okd_ref.
      now rewrite Hg'.
    + rewrite Hg in E. cbn in E. discriminate.
    + destruct O as [W _]. inversion W.
  - intros r l d E D IH d0 R O v' R'. inversion R; subst; try discriminate; cellof l.
    + rewrite Hg in D. inversion D; subst. inversion R'; subst; try discriminate. cellof' l0.
      constructor. rewrite Hg, Hg'. constructor.
    + rewrite Hg in E. match goal with K : rp v _ |- _ => apply not_struct in K end. congruence.
    + rewrite Hg in D. inversion D; subst. inversion R'; subst; try discriminate. cellof' l0.
      constructor. rewrite Hg, Hg'. now constructor.
    + destruct O as [W _]. inversion W.
  - intros; match goal with K : rp _ _ |- _ => inversion K; subst; discriminate end.
  - intros; match goal with K : rp _ _ |- _ => inversion K; subst; discriminate end.
  - intros r d0 R O v' R'. inversion R'; subst; try discriminate. constructor.
  - intros; match goal with K : rp _ _ |- _ => inversion K; subst; discriminate end.
  - intros r cls l d D IH d0 R O v' R'. inversion R; subst; try discriminate. inversion R'; subst; try discriminate.
    cellof l. cellof' l0. constructor. rewrite Hg'. eapply IH; rewrite ?Hg; eauto using okd_obj, okd_weak.
  - intros; match goal with K : rp _ _ |- _ => inversion K; subst; discriminate end.
  - intros r l d D IH d0 R O v' R'. inversion R; subst; try discriminate. inversion R'; subst; try discriminate.
    cellof l. cellof' l0. constructor. rewrite Hg'. eapply IH; rewrite ?Hg; eauto using okd_obj, okd_weak.
  - intros; match goal with K : rp _ _ |- _ => inversion K; subst; discriminate end.
  - intros; match goal with K : rp _ _ |- _ => inversion K; subst; discriminate end.
  - intros; match goal with K : rp _ _ |- _ => inversion K; subst; discriminate end.
  - intros; match goal with K : rp _ _ |- _ => inversion K; subst; discriminate end.
  - intros; match goal with K : rp _ _ |- _ => inversion K; subst; discriminate end.
  - intros ds0 F O vs' F'. inversion F'; subst. constructor.
  - intros v vs d ds _ IH1 _ IH2 ds0 F O vs' F'. inversion F; subst. inversion F'; subst. inversion O; subst. constructor; eauto.
  - intros k d [].
  - intros k v m d kvs _ IH1 _ IH2 k0 d0 [[= <- <-]|Hin].
    + exists v. split; [now left|exact IH1].
    + destruct (IH2 _ _ Hin) as (v0 & Hi & Hs). exists v0. split; [now right|exact Hs].
Qed.
End Back.

Section Rewrite.
Variable k : codecs.
Variable c c2 : dconfig.
Variable e : econfig.

Theorem perl_rewritten b ver typ suffix d body x : document (go_reader c) k b ver typ suffix d body x ->
  (e_perl e = true -> behind_refs false d = true) ->
  d_perl c = true -> d_perl c2 = true -> sane_world e -> (1 <= proto e <= 3)%N ->
  (Z.of_nat (levels d) < depth_limit e)%Z ->
  exists h v, unmarshal_fresh k c b = Ok (h, v) /\
    forall A, apart (e_layout e) h v A ->
    exists b0, outcome (fun n => Marshal k n (without_compression e) h v) (Ok b0) /\
    ((N.of_nat (length b0) <= 281474976710656)%N ->
     (exists h' v', unmarshal_fresh k c2 b0 = Ok (h', v') /\ alike h h' v v') /\
     (lossless k -> supported (proto e) (e_comp e) -> forall b1,
      outcome (fun n => Marshal k n e h v) (Ok b1) -> (N.of_nat (length b1) <= 2147483647)%N ->
      exists h' v', unmarshal_fresh k c2 b1 = Ok (h', v') /\ alike h h' v v')).
Proof.
  intros D Br Pc Pc2 Hw Hv L. destruct (document_reads _ _ _ _ _ _ _ _ _ D) as (h & v & U & R). rewrite Pc in R.
  exists h, v. split; [exact U|]. intros A Ap.
  pose proof (document_bounded _ _ _ _ _ _ _ _ _ D) as B.
  destruct (proj1 (apart_tree 2147483647 (g_frz (go_dialect c2 0)) (e_nofreeze e) (e_layout e) (reg_of c) (fun _ => True) h)
    v A Ap d R B) as (n & Tr & Ln).
  destruct (roundtrip_outcome k c2 e h Hw Hv v n A Tr ltac:(lia)) as (b0 & O & _ & _ & K).
  exists b0. split; [exact O|]. intros Lb. destruct (K Lb) as (d' & Hd & Rd & Cm).
  assert (Q : forall b', reads k c2 b' d' -> exists h' v', unmarshal_fresh k c2 b' = Ok (h', v') /\ alike h h' v v').
  { intros b' (h' & v' & U' & R'). rewrite Pc2 in R'. exists h', v'. split; [exact U'|].
    eapply (proj1 (den_alike (e_perl e) (e_nofreeze e) (e_parsefloat e) h (reg_of c) (fun _ => True) h' (reg_of c2) (fun _ => True) 2147483647));
      eauto. split; auto. }
  split; [apply Q, Rd|]. intros Lo Su b1 O1 L1. apply Q. eapply Cm; eauto.
Qed.
End Rewrite.
