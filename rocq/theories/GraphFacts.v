(** What the traversal of SpecGraph.v writes, compared with the data the value stands for. *)
From Verif Require Import Base BaseFacts GoMem Spec SpecValue SpecShare SpecGraph ValueFacts EncodeSpec
  ShareDecode ShareEncode JsonFacts.
From Coq Require Import Permutation.

(** induction over data *)
Fixpoint data_rec (P : data -> Prop)
  (H0 : forall d, match d with DArr _ | DHash _ | DRef _ | DWeak _ | DObj _ _ | DBack _ => True | _ => P d end)
  (HA : forall l, Forall P l -> P (DArr l))
  (HH : forall l, Forall (fun kd : bytes * data => P (snd kd)) l -> P (DHash l))
  (HR : forall d, P d -> P (DRef d)) (HW : forall d, P d -> P (DWeak d))
  (HO : forall c d, P d -> P (DObj c d)) (HB : forall d, P d -> P (DBack d)) (d : data) {struct d} : P d :=
  match d as d return
    (match d with DArr _ | DHash _ | DRef _ | DWeak _ | DObj _ _ | DBack _ => True | _ => P d end) -> P d with
  | DArr l => fun _ => HA l ((fix go l : Forall P l :=
      match l with [] => Forall_nil _ | x :: l => Forall_cons _ (data_rec P H0 HA HH HR HW HO HB x) (go l) end) l)
  | DHash l => fun _ => HH l ((fix go l : Forall (fun kd : bytes * data => P (snd kd)) l :=
      match l with [] => Forall_nil _ | kd :: l => Forall_cons kd (data_rec P H0 HA HH HR HW HO HB (snd kd)) (go l) end) l)
  | DRef d => fun _ => HR d (data_rec P H0 HA HH HR HW HO HB d)
  | DWeak d => fun _ => HW d (data_rec P H0 HA HH HR HW HO HB d)
  | DObj c d => fun _ => HO c d (data_rec P H0 HA HH HR HW HO HB d)
  | DBack d => fun _ => HB d (data_rec P H0 HA HH HR HW HO HB d)
  | _ => fun H => H
  end (H0 d).

Lemma flat_unback d : flat (unback d) = flat d.
Proof.
  apply (data_rec (fun d => flat (unback d) = flat d)); clear d; cbn [flat unback]; try congruence.
  - intros d. destruct d; exact I || reflexivity.
  - intros l H. f_equal. rewrite map_map. now apply map_ext_Forall.
  - intros l H. f_equal. rewrite map_map. apply map_ext_Forall. eapply Forall_impl; [|exact H].
    cbn. intros [k d] Hd. cbn [snd fst] in *. congruence.
Qed.

(** in the default decoding mode references make no difference *)
Section RF.
Variable reg : bytes -> option nat.
Variable P : loc -> Prop.
Variable h : heap.
Notation rp := (repr false reg P h).

Lemma reprs_map (f g : data -> data) (ds : list data) : Forall (fun d => forall v, rp v (f d) -> rp v (g d)) ds -> forall base,
  reprs false reg P h base (map f ds) -> reprs false reg P h base (map g ds).
Proof.
  induction 1 as [|d ds Hd _ IH]; intros base R; cbn [map] in *; [constructor|].
  inversion R; subst. econstructor; eauto.
Qed.
Lemma reprm_map (f g : data -> data) kvs : Forall (fun kd : bytes * data => forall v, rp v (f (snd kd)) -> rp v (g (snd kd))) kvs ->
  forall m, reprm false reg P h m (map (fun kd => (fst kd, f (snd kd))) kvs) ->
  reprm false reg P h m (map (fun kd => (fst kd, g (snd kd))) kvs).
Proof.
  induction kvs as [|[k d] kvs IH] using rev_ind; intros H m R; [exact R|].
  rewrite map_app in *. cbn [map fst snd] in *. apply Forall_app in H as [H1 H2].
  inversion H2 as [|? ? Hd _]; subst. cbn [snd] in Hd.
  inversion R as [Em Ek|m0 kvs0 k0 v0 d0 Rm Rv Em Ek].
  - exfalso. revert Ek. destruct (map _ kvs); discriminate.
  - apply app_inj_tail in Ek as [-> [= -> ->]]. constructor; auto.
Qed.

Lemma repr_flat d : forall v, rp v (unback d) <-> rp v (flat d).
Proof.
  apply (data_rec (fun d => forall v, rp v (unback d) <-> rp v (flat d))); clear d; cbn [flat unback].
  - intros d. destruct d; exact I || (intros v; reflexivity).
  - intros l H v.
    split; intros R; inversion R as [| | | | | | | | | | |base n ds En Rs| | | | | | | | | | |]; subst; rewrite map_length;
      (apply r_arr; [now rewrite map_length|]); (eapply reprs_map; [|exact Rs]);
      (eapply Forall_impl; [|exact H]); intros d Hd w; apply Hd.
  - intros l H v.
    split; intros R; inversion R as [| | | | | | | | | | | |l' m kvs Pl Hl Rm| | | | | | | | | | ]; subst;
      (eapply r_hash; [exact Pl|exact Hl|]); (eapply reprm_map; [|exact Rm]);
      (eapply Forall_impl; [|exact H]); intros d Hd w; apply Hd.
  - intros d IH v. rewrite <- IH. split; [intros R; inversion R; subst; [assumption|discriminate]|now constructor].
  - intros d IH v. split; intros R; (inversion R; subst; [|discriminate]); constructor; auto; now apply IH.
  - intros c d IH v. split; intros R; (inversion R; subst; [|discriminate]); constructor; auto; now apply IH.
  - intros d IH v. apply IH.
Qed.
End RF.

(** ** Nothing but the value itself is described *)
Section GF.
Variable M : N.
Variable F : bytes -> bytes -> Prop.
Variable perl nofreeze : bool.
Variable pf : bytes -> option N.
Variable lay : layout.
Variable h : heap.
Variable lev : addr -> nat.
Variable nm : addr -> gval -> Prop.
Hypothesis one : forall a v w, nm a v -> nm a w -> v = w.

Notation dag_ := (dag M F nofreeze lay h lev nm).
Notation dags_ := (dags M F nofreeze lay h lev nm).
Notation den_ := (den perl nofreeze pf h).
Notation dens_ := (dens perl nofreeze pf h).
Notation denm_ := (denm perl nofreeze pf h).
Notation sden_ := (sden perl nofreeze pf lay h).
Notation sdens_ := (sdens perl nofreeze pf lay h).
Notation sdenm_ := (sdenm perl nofreeze pf lay h).
Notation flatm kvs := (map (fun kd : bytes * data => (fst kd, flat (snd kd))) kvs).

Lemma flat_aref p r d : flat (aref p r d) = flat d.
Proof. unfold aref. destruct (p && negb r); reflexivity. Qed.

Lemma den_any_ref r v d : den_ r v d -> forall r', exists d', den_ r' v d' /\ flat d' = flat d.
Proof.
  induction 1 as [| | | | | |r s z D I|r s D|r s u D E| |r base n ds D|r a base n ds D|r l m kvs Nd Pm D|r l m kvs Nd Pm D
    |r i l d Hs D|r l d Hp D| |r c| |r cls v d D|r cls l d D|r v d D|r l d D| |r cls w m kvs Pm D|r name b v Nf
    |r name o v d Nf D IH|r name fs base tags kvs Tb D]; intros r';
    try (eexists; split; [constructor; eassumption|]; rewrite ?flat_aref; reflexivity).
  - exists (aref perl r' (DHash kvs)). split; [now apply dn_map with m|]. now rewrite !flat_aref.
  - exists (aref perl r' (DHash kvs)). split; [now apply dn_tmap with m|]. now rewrite !flat_aref.
  - eexists. split; [apply dn_freezev with m; eassumption|reflexivity].
  - destruct (IH r') as (d' & D' & E). exists d'. split; [now apply dn_user_plain|exact E].
  - eexists. split; [apply dn_struct with tags; eassumption|reflexivity].
Qed.

Lemma den_unback :
  (forall r v d, den_ r v d -> unback d = d) /\ (forall vs ds, dens_ vs ds -> map unback ds = ds) /\
  (forall m kvs, denm_ m kvs -> map (fun kd => (fst kd, unback (snd kd))) kvs = kvs).
Proof.
  apply den_all_ind; intros; try (destruct c); cbn [unback map fst snd]; unfold aref;
    repeat match goal with |- context [if ?b then _ else _] => destruct b end; cbn [unback map fst snd]; congruence.
Qed.

(** what the default mode turns into nil *)
Lemma nilish_flat d : nilish d <-> nilish (flat d).
Proof.
  apply (data_rec (fun d => nilish d <-> nilish (flat d))); clear d; cbn [flat].
  - intros d. destruct d; exact I || reflexivity.
  - intros l _. split; intros N; inversion N.
  - intros l _. split; intros N; inversion N.
  - intros d IH. rewrite <- IH. split; [intros N; now inversion N|now constructor].
  - intros d IH. split; intros N; inversion N; subst; constructor; now apply IH.
  - intros c d IH. split; intros N; inversion N; subst; constructor; now apply IH.
  - intros d IH. rewrite <- IH. split; [intros N; now inversion N|now constructor].
Qed.
Lemma nilish_aref p r d : nilish (aref p r d) -> nilish d.
Proof. unfold aref. destruct (p && negb r); [|auto]. intros N. now inversion N. Qed.

Lemma nilish_null r v d : den_ r v d -> nilish d -> null nofreeze h v.
Proof.
  induction 1; intros N; try (apply nilish_aref in N; inversion N; fail);
    try (inversion N; fail); try (constructor; fail); try (constructor; auto; inversion N; subst; auto; fail).
  - inversion N as [| | | |? ? N1|]; subst. apply nilish_aref in N1. inversion N1.
  - inversion N as [| | | |? ? N1|]; subst. apply nilish_aref in N1. inversion N1.
Qed.

Lemma dags_all vs n : dags_ vs n <-> Forall (fun v => dag_ v n) vs.
Proof. split; induction 1; constructor; auto. Qed.
Lemma dags_perm vs vs' n : Permutation vs vs' -> dags_ vs n -> dags_ vs' n.
Proof. rewrite !dags_all. intros P H. eapply all_perm; eauto. Qed.

(** references only to things that are not nil, if no name stands for nil *)
Definition nonil : Prop := forall a v, nm a v -> ~ null nofreeze h v.
Definition backs (d : data) : Prop := nonil -> backs_ok d.
(** what is recorded about an address is the data of the value it stands for *)
Definition seen (S : senv) : Prop := forall a d, In (a, Some d) S ->
  backs d /\ exists v d0, nm a v /\ den_ true v d0 /\ flat d0 = flat d.
Definition good (r : bool) (v : gval) (d : data) : Prop := backs d /\ exists d0, den_ r v d0 /\ flat d0 = flat d.

Lemma seen_app S Y : seen S -> seen Y -> seen (Y ++ S).
Proof. intros HS HY a d H. apply in_app_iff in H as [H|H]; auto. Qed.

Lemma backs_leaf d : (forall x, within (DBack x) d -> within (DBack x) d -> False) -> backs d.
Proof. intros H _ x W _. eauto. Qed.
Lemma backs_ref d : backs d -> backs (DRef d).
Proof. intros H N x W. inversion W; subst. now apply H. Qed.
Lemma backs_weak d : backs d -> backs (DWeak d).
Proof. intros H N x W. inversion W; subst. now apply H. Qed.
Lemma backs_obj c d : backs d -> backs (DObj c d).
Proof. intros H N x W. inversion W; subst. now apply H. Qed.
Lemma backs_aref p r d : backs d -> backs (aref p r d).
Proof. unfold aref. destruct (p && negb r); auto using backs_ref. Qed.
Lemma backs_arr ds : Forall backs ds -> backs (DArr ds).
Proof. intros H N x W. inversion W as [|ds' d Hin W'| | | | |]; subst. rewrite Forall_forall in H. now apply (H d Hin). Qed.
Lemma backs_hash (kvs : list (bytes * data)) : Forall (fun kd => backs (snd kd)) kvs -> backs (DHash kvs).
Proof.
  intros H N x W. inversion W as [| |kvs' k d Hin W'| | | |]; subst. rewrite Forall_forall in H.
  now apply (H (k, d) Hin).
Qed.

Lemma den_backs r v d : scalar v = true -> den_ r v d -> backs d.
Proof.
  intros Sc D. destruct D; try discriminate Sc; intros N x W; try (inversion W; fail).
  - inversion W as [| | |d' W'| | |]; subst. inversion W'.
  - destruct c; inversion W.
Qed.

Lemma str_map_inj (m m' : list (bytes * gval)) :
  map (fun kv => (GStr (fst kv), snd kv)) m = map (fun kv => (GStr (fst kv), snd kv)) m' -> m = m'.
Proof.
  revert m'. induction m as [|[k v] m IH]; intros [|[k' v'] m'] E; try discriminate; [reflexivity|].
  cbn in E. injection E as -> -> E. f_equal. auto.
Qed.

Lemma own_cases v : own_val h v = v \/ exists i l, v = GPtr i l /\ own_val h v = hget h l.
Proof. destruct v; eauto. Qed.

Theorem traversal_describes :
  (forall S r v d Y, sden_ S r v d Y -> forall n, dag_ v n -> seen S -> good r v d /\ seen Y) /\
  (forall S vs ds Y, sdens_ S vs ds Y -> forall n, dags_ vs n -> seen S ->
     (Forall backs ds /\ exists ds0, dens_ vs ds0 /\ map flat ds0 = map flat ds) /\ seen Y) /\
  (forall S m kvs Y, sdenm_ S m kvs Y -> forall n, dags_ (map snd m) n -> seen S ->
     (Forall (fun kd => backs (snd kd)) kvs /\ exists kvs0, denm_ m kvs0 /\ flatm kvs0 = flatm kvs) /\ seen Y).
Proof.
  apply (sden_all_ind perl nofreeze pf lay h
    (fun S r v d Y _ => forall n, dag_ v n -> seen S -> good r v d /\ seen Y)
    (fun S vs ds Y _ => forall n, dags_ vs n -> seen S ->
       (Forall backs ds /\ exists ds0, dens_ vs ds0 /\ map flat ds0 = map flat ds) /\ seen Y)
    (fun S m kvs Y _ => forall n, dags_ (map snd m) n -> seen S ->
       (Forall (fun kd => backs (snd kd)) kvs /\ exists kvs0, denm_ m kvs0 /\ flatm kvs0 = flatm kvs) /\ seen Y)).
  - (* scalar *) intros S r v d Sc D n _ _. split; [|intros a x []].
    split; [eapply den_backs; eauto|eauto].
  - (* slice *) intros S r base k ds Y _ IH n T HS. inversion T; subst.
    edestruct IH as ((B & ds0 & D0 & E0) & HY); [eassumption|eassumption|]. split; [|exact HY].
    split; [apply backs_aref; now apply backs_arr|]. exists (aref perl r (DArr ds0)). split; [now constructor|].
    rewrite !flat_aref. cbn [flat]. now f_equal.
  - (* typed slice *) intros S r a base k ds Y _ IH n T HS. inversion T; subst.
    edestruct IH as ((B & ds0 & D0 & E0) & HY); [eassumption|eassumption|]. split; [|exact HY].
    split; [apply backs_aref; now apply backs_arr|]. exists (aref perl r (DArr ds0)). split; [now constructor|].
    rewrite !flat_aref. cbn [flat]. now f_equal.
  - (* map *) intros S r l m kvs Y Nd Pm _ IH n T HS. inversion T; subst.
    destruct (IH n0) as ((B & kvs0 & D0 & E0) & HY); auto.
    { eapply dags_perm; [apply Permutation_map; exact Pm|assumption]. }
    split; [|exact HY]. split; [apply backs_aref; now apply backs_hash|].
    exists (aref perl r (DHash kvs0)). split; [now apply dn_map with m|].
    rewrite !flat_aref. cbn [flat]. now f_equal.
  - (* typed map *) intros S r l m kvs Y Nd Pm _ IH n T HS. inversion T as [| | | | | | | | | | | |l0 m0 n0 Em Nd0 Fl Fk Td| | | | | | | | | | | | | |]; subst.
    rewrite Em in Pm. apply Permutation_map_inv in Pm as (m' & Em' & Pm).
    apply str_map_inj in Em'. subst m'. apply Permutation_sym in Pm.
    destruct (IH n0) as ((B & kvs0 & D0 & E0) & HY); auto.
    { eapply dags_perm; [apply Permutation_map; exact Pm|assumption]. }
    split; [|exact HY]. split; [apply backs_aref; now apply backs_hash|].
    exists (aref perl r (DHash kvs0)). split; [apply dn_tmap with m; auto|].
    { rewrite Em. now apply Permutation_map. }
    rewrite !flat_aref. cbn [flat]. now f_equal.
  - (* new pointer *) intros S r i l d Y Hs _ _ IH n T HS.
    inversion T as [| | | | | | | | | | | | |i0 l0 n0 k Hs0 Ht HL Hn HO Td|l0 n0 Hp Td| | | | | | | | | | | |]; subst.
    2:{ rewrite Hp in Hs. discriminate Hs. }
    destruct (IH _ Td) as ((B & d0 & D0 & E0) & HY).
    { intros a x [[=]|Hin]. now apply HS. }
    split.
    + split; [now apply backs_ref|]. exists (DRef d0). split; [now constructor|exact E0].
    + intros a x Hin. rewrite !in_app_iff in Hin. destruct Hin as [Hin|[Hin|[[= <- <-]|[]]]].
      * apply in_map_iff in Hin as (a' & [= -> <-] & Ha). split; [exact B|].
        destruct (HO a Ha) as [_ Na]. exists (own_val h (hget h l)).
        destruct (own_cases (hget h l)) as [Ev|(i' & l' & Ev & Eo)]; [rewrite Ev in *; eauto|].
        rewrite Eo in *. rewrite Ev in D0. inversion D0; subst.
        -- eexists. split; [exact Na|]. split; [eassumption|exact E0].
        -- match goal with K : den_ false _ d0 |- _ => destruct (den_any_ref _ _ _ K true) as (d1 & D1 & E1) end.
           exists d1. split; [exact Na|]. split; [exact D1|congruence].
      * now apply HY.
      * split; [now apply backs_ref|]. exists (hget h l), d0. auto.
  - (* known pointer *) intros S r i l d Hs Kn n T HS.
    inversion T as [| | | | | | | | | | | | |i0 l0 n0 k Hs0 Ht HL Hn HO Td|l0 n0 Hp Td| | | | | | | | | | | |]; subst.
    2:{ rewrite Hp in Hs. discriminate Hs. }
    split; [|intros a x []].
    assert (K : exists a, In (a, Some d) S /\ (a = at_cell lay l \/ In a (own_addr lay l (hget h l)))).
    { unfold known in Kn. destruct (find S (at_cell lay l)) as [o|] eqn:F1.
      - injection Kn as ->. apply find_in in F1. eauto.
      - destruct (own_addr lay l (hget h l)) as [|a ?]; [discriminate|]. apply find_in in Kn.
        exists a. split; [exact Kn|]. right. now left. }
    destruct K as (a & Hin & Ha). destruct (HS _ _ Hin) as (B & v & d0 & Na & D0 & E0).
    assert (Ev : exists d1, den_ true (hget h l) d1 /\ flat d1 = flat d /\ (nonil -> ~ nilish d)).
    { assert (Nn : nonil -> ~ nilish d).
      { intros N Z. apply (N _ _ Na). eapply nilish_null; [exact D0|]. apply nilish_flat. rewrite E0. now apply nilish_flat in Z. }
      destruct Ha as [->|Ha].
      - rewrite (one _ _ _ Hn Na). eauto.
      - destruct (HO a Ha) as [_ Nv]. rewrite (one _ _ _ Na Nv) in D0.
        destruct (own_cases (hget h l)) as [Ev|(i' & l' & Ev & Eo)]; [rewrite Ev in *; eauto|].
        rewrite Eo in D0. rewrite Ev in Td |- *. inversion Td as [| | | | | | | | | | | | |i0 l0 n1 k0 Hs1 Ht1 HL1 Hn1 HO1 Td1|l0 n1 Hp1 Td1| | | | | | | | | | | |]; subst.
        + exists (DRef d0). split; [now constructor|]. auto.
        + destruct (den_any_ref _ _ _ D0 false) as (d1 & D1 & E1). exists d1. split; [now apply dn_ptr_perl|]. split; [congruence|exact Nn]. }
    destruct Ev as (d1 & D1 & E1 & Nn). split.
    + intros N x W. inversion W; subst; [now apply Nn|]. now apply B.
    + exists (DRef d1). split; [now constructor|exact E1].
  - (* pointer to a Perl struct *) intros S r l d Y Hp _ IH n T HS.
    inversion T as [| | | | | | | | | | | | |i0 l0 n0 k Hs0 Ht HL Hn HO Td|l0 n0 Hp0 Td| | | | | | | | | | | |]; subst.
    { rewrite Hp in Hs0. discriminate Hs0. }
    destruct (IH _ Td HS) as ((B & d0 & D0 & E0) & HY). split; [|exact HY].
    split; [exact B|]. exists d0. split; [now apply dn_ptr_perl|exact E0].
  - intros S r cls v d Y _ IH n T HS. inversion T; subst.
    edestruct IH as ((B & d0 & D0 & E0) & HY); [eassumption|eassumption|]. split; [|exact HY].
    split; [now apply backs_obj|]. exists (DObj cls d0). split; [now constructor|]. cbn [flat]. now f_equal.
  - intros S r cls l d Y _ IH n T HS. inversion T; subst.
    edestruct IH as ((B & d0 & D0 & E0) & HY); [eassumption|eassumption|]. split; [|exact HY].
    split; [now apply backs_obj|]. exists (DObj cls d0). split; [now constructor|]. cbn [flat]. now f_equal.
  - intros S r v d Y _ IH n T HS. inversion T; subst.
    edestruct IH as ((B & d0 & D0 & E0) & HY); [eassumption|eassumption|]. split; [|exact HY].
    split; [now apply backs_weak|]. exists (DWeak d0). split; [now constructor|]. cbn [flat]. now f_equal.
  - intros S r l d Y _ IH n T HS. inversion T; subst.
    edestruct IH as ((B & d0 & D0 & E0) & HY); [eassumption|eassumption|]. split; [|exact HY].
    split; [now apply backs_weak|]. exists (DWeak d0). split; [now constructor|]. cbn [flat]. now f_equal.
  - (* PerlFreeze *) intros S r cls w m kvs Y Pm _ IH n T HS. inversion T; subst.
    destruct (IH 0) as ((B & kvs0 & D0 & E0) & HY); auto.
    { eapply dags_perm; [apply Permutation_map; exact Pm|]. cbn. repeat constructor; auto. }
    split; [|exact HY]. split; [apply backs_obj, backs_aref; now apply backs_hash|].
    exists (DObj name_PerlFreeze (aref perl false (DHash kvs0))). split; [now apply dn_freezev with m|].
    cbn [flat]. rewrite !flat_aref. cbn [flat]. now rewrite E0.
  - (* frozen *) intros S r name b v Nf n T HS. split; [|intros a x []].
    split; [intros N x W; inversion W|]. exists (DFreeze name b). split; [now constructor|reflexivity].
  - (* not frozen *) intros S r name o v d Y Nf _ IH n T HS.
    assert (Tv : dag_ v n) by (inversion T; subst; [congruence|assumption]).
    destruct (IH _ Tv HS) as ((B & d0 & D0 & E0) & HY). split; [|exact HY].
    split; [exact B|]. exists d0. split; [now apply dn_user_plain|exact E0].
  - (* struct *) intros S r name fs base tags kvs Y Tb _ IH n T HS.
    inversion T as [| | | | | | | | | | | | | | | | | | | | | | | | | |name0 fs0 base0 tags0 n0 F1 Tb0 F2 Fk Td]; subst.
    pose proof (field_table_perm _ _ _ Tb0 Tb) as PP.
    destruct (IH n0) as ((B & kvs0 & D0 & E0) & HY); auto.
    { rewrite map_map. cbn [snd]. eapply dags_perm; [|exact Td].
      apply (Permutation_map (fun kt : bytes * nat => hget h (base + snd kt)) PP). }
    split; [|exact HY]. split; [apply backs_obj, backs_aref; now apply backs_hash|].
    exists (DObj name (aref perl false (DHash kvs0))). split; [now apply dn_struct with tags|].
    cbn [flat]. rewrite !flat_aref. cbn [flat]. now rewrite E0.
  - intros S n _ _. split; [|intros a x []]. split; [constructor|]. exists []. split; [constructor|reflexivity].
  - intros S v vs d ds Y Z _ IH1 _ IH2 n T HS. inversion T; subst.
    edestruct IH1 as ((B1 & d0 & D0 & E0) & HY); [eassumption|eassumption|].
    edestruct IH2 as ((B2 & ds0 & Ds & Es) & HZ); [eassumption|apply (seen_app _ _ HS HY)|].
    split; [|now apply seen_app]. split; [now constructor|]. exists (d0 :: ds0). split; [now constructor|].
    cbn [map]. now f_equal.
  - intros S n _ _. split; [|intros a x []]. split; [constructor|]. exists []. split; [constructor|reflexivity].
  - intros S k v m d kvs Y Z _ IH1 _ IH2 n T HS. cbn [map snd] in T. inversion T; subst.
    edestruct IH1 as ((B1 & d0 & D0 & E0) & HY); [eassumption|eassumption|].
    edestruct IH2 as ((B2 & ds0 & Ds & Es) & HZ); [eassumption|apply (seen_app _ _ HS HY)|].
    split; [|now apply seen_app]. split; [now constructor|]. exists ((k, d0) :: ds0). split; [now constructor|].
    cbn [map fst snd]. now rewrite E0, Es.
Qed.
End GF.
