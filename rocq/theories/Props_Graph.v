(** C22, C23, C45: values with shared parts, and values written alike.

    [any_dag], [go_dag] (ShareRoundtrip.v): values without cycles; pointers may occur repeatedly.
    [sden S r v d Y] (SpecGraph.v): the data a traversal describes when a pointer met before is
    written as a reference to the item written for it.  [den]: the data a value stands for.
    [flat d]: the data with all references replaced by what they refer to.  [nm a v]: the address
    [a] may be recorded for the value [v]; [unambiguous nm]: for one value only. *)
From Verif Require Import Base BaseFacts SpecVarint Varint VarintFacts Tags GoMem Codecs Encode Compress Header Decode
  Document Spec SpecValue SpecDoc SpecOptions SpecOutcome SpecShare SpecGraph DecodeSafe DecodeSpec DocFacts
  Roundtrip OutcomeFacts RoundtripFacts WireFacts ShareDecode ShareFacts ShareRoundtrip Cases.
From Coq Require Import Permutation ZifyBool ZifyNat ZifyN.

(** C22.  Marshal writes a document of the published format which describes the traversal of the
    value: each reference refers to the item written for the address recorded first. *)
Theorem C22_references : forall k e h lev nm v n,
  sane_world e -> (1 <= proto e <= 3)%N -> any_dag e h lev nm v n -> (Z.of_nat n < depth_limit e)%Z ->
  exists b0, outcome (fun n => Marshal k n (without_compression e) h v) (Ok b0) /\
    (e_comp e = None -> outcome (fun n => Marshal k n e h v) (Ok b0)) /\
    ((Z.of_nat (length b0) < two63 - 1)%Z -> exists d,
      (exists Y, sden (e_perl e) (e_nofreeze e) (e_parsefloat e) (e_layout e) h [] false v d Y) /\
      (exists body, sdocument_in CKeys standard k b0 (proto e) 0 [] d body (length body)) /\
      (lossless k -> supported (proto e) (e_comp e) -> forall b,
       outcome (fun n => Marshal k n e h v) (Ok b) -> (Z.of_nat (length b) < two63)%Z ->
       exists typ body, sdocument_in CKeys standard k b (proto e) typ [] d body (length body))).
Proof. intros k e h lev nm v n Hw Hv. exact (graph_published k e h lev nm Hw Hv v n). Qed.
Print Assumptions C22_references.

(** []interface{}{p, map[string]interface{}{"k": p}, q, q} with p = &5 and q = &[]interface{}{"hi"} *)
Definition h_share : heap :=
  [CV (GPtr false 4); CV (GMap 5); CV (GPtr false 6); CV (GPtr false 6);
   CV (GInt KInt false 5); CMap [([x6b], GPtr false 4)]; CV (GSlice 7 1); CV (GStr [x68; x69])].
Definition nm_share (a : addr) (v : gval) : Prop :=
  match a with
  | Addr 20 => v = GInt KInt false 5          (* cell 4 *)
  | Addr 28 | Addr 32 => v = GSlice 7 1            (* cells 6 and 7 *)
  | _ => False
  end.
Definition lev_share (a : addr) : nat := match a with Addr 20 => 1 | _ => 2 end.

Lemma share_dag M F (nf : bool) : (4 <= M)%N -> dag M F nf lay0 h_share lev_share nm_share (GSlice 0 4) 3.
Proof.
  intros LM.
  assert (P4 : forall n, 1 <= n -> dag M F nf lay0 h_share lev_share nm_share (GPtr false 4) n).
  { intros n Ln. apply (g_ptr M F nf lay0 h_share lev_share nm_share false 4 0 n); try reflexivity.
    - change (lev_share (at_cell lay0 4)) with 1. lia.
    - intros a [].
    - change (hget h_share 4) with (GInt KInt false 5). apply g_int. unfold ikind_in. cbn. lia. }
  assert (P6 : dag M F nf lay0 h_share lev_share nm_share (GPtr false 6) 2).
  { apply (g_ptr M F nf lay0 h_share lev_share nm_share false 6 1 2); try reflexivity.
    - change (lev_share (at_cell lay0 6)) with 2. lia.
    - intros a [<-|[]]. split; [cbn; lia|reflexivity].
    - change (hget h_share 6) with (GSlice 7 1). apply g_slice; [lia|].
      change (cells h_share 7 1) with [GStr [x68; x69]]. apply gs_cons; [|apply gs_nil].
      apply g_str. unfold fits. cbn. lia. }
  apply g_slice; [lia|].
  change (cells h_share 0 4) with [GPtr false 4; GMap 5; GPtr false 6; GPtr false 6].
  apply gs_cons; [apply P4; lia|]. apply gs_cons; [|apply gs_cons; [exact P6|apply gs_cons; [exact P6|apply gs_nil]]].
  apply g_map.
  - cbn. repeat constructor; cbn; intuition discriminate.
  - unfold fits. cbn. lia.
  - intros k v [[= <- <-]|[]]; unfold fits; cbn; lia.
  - change (map snd (hmap h_share 5)) with [GPtr false 4]. apply gs_cons; [apply P4; lia|apply gs_nil].
Qed.

Lemma share_unambiguous : unambiguous nm_share.
Proof.
  intros a v w. unfold nm_share. destruct a as [l].
  do 33 (destruct l as [|l]; try contradiction; try congruence).
Qed.

Definition share_doc : bytes :=
  [x3d; xf3; x72; x6c; x03; x00; x2b; x04; xa8; x05; x2a; x01; x27; x01; x6b; x29; x03;
   xa8; x2b; x01; x27; x02; x68; x69; x29; x0c].
Example C22_references_case : sane_world e0 /\ any_dag e0 h_share lev_share nm_share (GSlice 0 4) 3 /\
  (Z.of_nat 3 < depth_limit e0)%Z /\ outcome (fun n => Marshal k0 n e0 h_share (GSlice 0 4)) (Ok share_doc).
Proof.
  split; [apply eopt_sane|]. split; [apply share_dag; lia|]. split; [cbn; lia|].
  eapply (outcome_marshal k0 e0 h_share None _ 10). vm_compute. reflexivity.
Qed.

(** Two pointers to different values can be written alike: with s = []interface{}{1, 2} and
    t = s[:1] and u = s, the values {&s, &t} and {&s, &u} are marshalled to the same bytes, since
    all three slices start at the same address. *)
Definition h_sub : heap :=
  [CV (GPtr false 4); CV (GPtr false 5); CV (GPtr false 4); CV (GPtr false 8);
   CV (GSlice 6 2); CV (GSlice 6 1); CV (GInt KInt false 1); CV (GInt KInt false 2); CV (GSlice 6 2)].
Definition sub_doc : bytes :=
  [x3d; xf3; x72; x6c; x03; x00; x2b; x02; x28; xab; x02; x01; x02; x29; x04].
Definition any_name (a : addr) (v : gval) : Prop := True.

Lemma sub_dag M F (nf : bool) sd base : (2 <= M)%N -> base = 0 \/ base = 2 ->
  dag M F nf sd h_sub (fun _ => 2) any_name (GSlice base 2) 3.
Proof.
  intros LM B.
  assert (I : dag M F nf sd h_sub (fun _ => 2) any_name (GInt KInt false 1) 0) by (apply g_int; unfold ikind_in; cbn; lia).
  assert (J : dag M F nf sd h_sub (fun _ => 2) any_name (GInt KInt false 2) 0) by (apply g_int; unfold ikind_in; cbn; lia).
  assert (P : forall l k, hget h_sub l = GSlice 6 k -> k = 1 \/ k = 2 ->
    dag M F nf sd h_sub (fun _ => 2) any_name (GPtr false l) 2).
  { intros l k E K. apply (g_ptr M F nf sd h_sub (fun _ => 2) any_name false l 1 2); rewrite ?E; try reflexivity; [lia| |].
    - intros a _. split; [lia|exact Logic.I].
    - apply g_slice; [lia|]. destruct K as [->| ->].
      + change (cells h_sub 6 1) with [GInt KInt false 1]. apply gs_cons; [exact I|apply gs_nil].
      + change (cells h_sub 6 2) with [GInt KInt false 1; GInt KInt false 2]. apply gs_cons; [exact I|].
        apply gs_cons; [exact J|apply gs_nil]. }
  apply g_slice; [lia|]. destruct B as [->| ->].
  - change (cells h_sub 0 2) with [GPtr false 4; GPtr false 5]. apply gs_cons; [eapply P; [reflexivity|auto]|].
    apply gs_cons; [eapply P; [reflexivity|auto]|apply gs_nil].
  - change (cells h_sub 2 2) with [GPtr false 4; GPtr false 8]. apply gs_cons; [eapply P; [reflexivity|auto]|].
    apply gs_cons; [eapply P; [reflexivity|auto]|apply gs_nil].
Qed.

Lemma sub_writes base : base = 0 \/ base = 2 -> writes k0 e0 h_sub (GSlice base 2) sub_doc.
Proof.
  intros B.
  assert (O : outcome (fun n => Marshal k0 n e0 h_sub (GSlice base 2)) (Ok sub_doc)).
  { eapply (outcome_marshal k0 e0 h_sub None _ 10). destruct B as [->| ->]; vm_compute; reflexivity. }
  split; [left; reflexivity|]. split; [exact O|]. split; [cbn; unfold two63; lia|].
  intros b0 O0. pose proof (outcome_unique _ _ _ O O0) as E. injection E as <-. cbn. unfold two63. lia.
Qed.

Theorem C22_no_conflation_refuted : ~ (forall k e h lev nm v n lev' nm' w n' b,
  sane_world e -> (1 <= proto e <= 3)%N ->
  any_dag e h lev nm v n -> any_dag e h lev' nm' w n' ->
  (Z.of_nat n < depth_limit e)%Z -> (Z.of_nat n' < depth_limit e)%Z ->
  writes k e h v b -> writes k e h w b ->
  exists d d', den (e_perl e) (e_nofreeze e) (e_parsefloat e) h false v d /\
    den (e_perl e) (e_nofreeze e) (e_parsefloat e) h false w d' /\ flat d = flat d').
Proof.
  intros H.
  destruct (H k0 e0 h_sub (fun _ => 2) any_name (GSlice 0 2) 3 (fun _ => 2) any_name (GSlice 2 2) 3 sub_doc)
    as (d & d' & D & D' & E).
  - apply eopt_sane.
  - cbn; lia.
  - apply sub_dag; [lia|auto].
  - apply sub_dag; [lia|auto].
  - cbn; lia.
  - cbn; lia.
  - apply sub_writes; auto.
  - apply sub_writes; auto.
  - assert (Sl : forall base n d, den false false (e_parsefloat e0) h_sub false (GSlice base n) d ->
      exists ds, d = DArr ds /\ dens false false (e_parsefloat e0) h_sub (cells h_sub base n) ds).
    { clear. intros base n d D. inversion D; subst. eexists. split; [reflexivity|assumption]. }
    apply Sl in D as (ds & -> & D). apply Sl in D' as (ds' & -> & D').
    assert (K : forall l n vs ds, hget h_sub l = GSlice 6 n -> cells h_sub 6 n = vs ->
      dens false false (e_parsefloat e0) h_sub [GPtr false l] ds ->
      exists es, flat (DArr ds) = DArr [DArr es] /\ length es = length vs).
    { clear. intros l n vs ds E Ev D. inversion D as [|x xs y ys Dp Dn]; subst. inversion Dn; subst.
      assert (R : exists es, y = DRef (DArr es) /\ dens false false (e_parsefloat e0) h_sub (cells h_sub 6 n) es).
      { inversion Dp; subst; rewrite E in *; [|discriminate].
        match goal with K : den _ _ _ _ true _ _ |- _ => inversion K; subst end. eexists. split; [reflexivity|assumption]. }
      destruct R as (es & -> & Des). exists (map flat es). split; [reflexivity|]. rewrite map_length.
      clear - Des. induction Des; cbn; congruence. }
    change (cells h_sub 0 2) with [GPtr false 4; GPtr false 5] in D.
    change (cells h_sub 2 2) with [GPtr false 4; GPtr false 8] in D'.
    inversion D as [|x xs y ys _ D1]; subst. inversion D' as [|x' xs' y' ys' _ D1']; subst.
    destruct (K 5 1 _ _ eq_refl eq_refl D1) as (es & E1 & L1).
    destruct (K 8 2 _ _ eq_refl eq_refl D1') as (es' & E1' & L1').
    cbn [flat map] in E, E1, E1'. injection E as _ E. rewrite E in E1. rewrite E1 in E1'. injection E1' as <-.
    cbn in L1, L1'. congruence.
Qed.
Print Assumptions C22_no_conflation_refuted.

(** So can a pointer to a struct and a pointer to its first field, which are at one address: for
    type T struct{ A int } and t = T{7}, the values {&t, &t.A} and {&t, &t} are marshalled to the
    same bytes, and a reader gets two pointers to a T. *)
Definition h_first : heap :=
  [CV (GPtr false 4); CV (GPtr false 5); CV (GPtr false 4); CV (GPtr false 4);
   CV (GStruct [x54] [mkField [x41] [] true] 5); CV (GInt KInt false 7)].
Definition e_first : econfig := mkEConfig false None 0 false false 0 0 (fun _ _ l => l)
  (mkLayout (fun l => match l with 5 => Addr 20 | _ => Addr (4 * l + 4) end) (at_place lay0)) (fun _ => None).
Definition first_doc : bytes :=
  [x3d; xf3; x72; x6c; x03; x00; x2b; x02; xa8; x2c; x61; x54; x2a; x01; x27; x01; x41; x07; x29; x03].

Lemma first_table : field_table [mkField [x41] [] true] [([x41], 0)].
Proof.
  split; [repeat constructor; intros []|]. intros k i. split.
  - intros [[= <- <-]|[]]. eexists. split; [reflexivity|]. split; [reflexivity|].
    intros [|j] f' Hj Hf; [lia|]. destruct j; discriminate Hf.
  - intros (f' & H & K & _). destruct i as [|i]; [|destruct i; discriminate H]. injection H as <-. injection K as <-. now left.
Qed.
Lemma first_dag base : base = 0 \/ base = 2 ->
  any_dag e_first h_first (fun _ => 2) any_name (GSlice base 2) 3.
Proof.
  intros B.
  assert (I : any_dag e_first h_first (fun _ => 2) any_name (GInt KInt false 7) 0) by (apply g_int; unfold ikind_in; cbn; lia).
  assert (P4 : any_dag e_first h_first (fun _ => 2) any_name (GPtr false 4) 2).
  { eapply g_ptr with (n := 1); try reflexivity; try (cbn; lia); try exact Logic.I.
    - change (hget h_first 4) with (GStruct [x54] [mkField [x41] [] true] 5).
      apply g_struct with (tags := [([x41], 0)]).
      + unfold fits. cbn. lia.
      + exact first_table.
      + unfold fits. cbn. lia.
      + intros k i [[= <- <-]|[]]. split; [unfold fits; cbn; lia|]. eexists. split; reflexivity.
      + apply gs_cons; [exact I|apply gs_nil]. }
  assert (P5 : any_dag e_first h_first (fun _ => 2) any_name (GPtr false 5) 2).
  { eapply g_ptr with (n := 0); try reflexivity; try (cbn; lia); try exact Logic.I. exact I. }
  apply g_slice; [cbn; lia|]. destruct B as [->| ->].
  - change (cells h_first 0 2) with [GPtr false 4; GPtr false 5].
    apply gs_cons; [exact P4|]. apply gs_cons; [exact P5|apply gs_nil].
  - change (cells h_first 2 2) with [GPtr false 4; GPtr false 4].
    apply gs_cons; [exact P4|]. apply gs_cons; [exact P4|apply gs_nil].
Qed.

Lemma first_writes base : base = 0 \/ base = 2 -> writes k0 e_first h_first (GSlice base 2) first_doc.
Proof.
  intros B.
  assert (O : outcome (fun n => Marshal k0 n e_first h_first (GSlice base 2)) (Ok first_doc)).
  { eapply (outcome_marshal k0 e_first h_first None _ 10). destruct B as [->| ->]; vm_compute; reflexivity. }
  split; [left; reflexivity|]. split; [exact O|]. split; [cbn; unfold two63; lia|].
  intros b0 O0. pose proof (outcome_unique _ _ _ O O0) as E. injection E as <-. cbn. unfold two63. lia.
Qed.

Theorem C22_first_field_refuted :
  any_dag e_first h_first (fun _ => 2) any_name (GSlice 0 2) 3 /\
  any_dag e_first h_first (fun _ => 2) any_name (GSlice 2 2) 3 /\
  writes k0 e_first h_first (GSlice 0 2) first_doc /\ writes k0 e_first h_first (GSlice 2 2) first_doc /\
  ~ (exists d d', den false false (e_parsefloat e_first) h_first false (GSlice 0 2) d /\
       den false false (e_parsefloat e_first) h_first false (GSlice 2 2) d' /\ flat d = flat d').
Proof.
  split; [apply first_dag; auto|]. split; [apply first_dag; auto|].
  split; [apply first_writes; auto|]. split; [apply first_writes; auto|].
  intros (d & d' & D & D' & E).
  assert (Sl : forall base n d, den false false (e_parsefloat e_first) h_first false (GSlice base n) d ->
      exists ds, d = DArr ds /\ dens false false (e_parsefloat e_first) h_first (cells h_first base n) ds).
  { clear. intros base n d D. inversion D; subst. eexists. split; [reflexivity|assumption]. }
  apply Sl in D as (ds & -> & D). apply Sl in D' as (ds' & -> & D').
  change (cells h_first 0 2) with [GPtr false 4; GPtr false 5] in D.
  change (cells h_first 2 2) with [GPtr false 4; GPtr false 4] in D'.
  inversion D as [|x xs y ys _ D1]; subst. inversion D' as [|x' xs' y' ys' _ D1']; subst.
  inversion D1 as [|x xs y1 ys1 D2 N1]; subst. inversion D1' as [|x' xs' y1' ys1' D2' N1']; subst.
  clear D D' D1 D1'.
  assert (K5 : forall d, den false false (e_parsefloat e_first) h_first false (GPtr false 5) d -> flat d = DInt 7).
  { clear. intros d D. inversion D; subst;
      repeat match goal with K : context[hget h_first 5] |- _ => change (hget h_first 5) with (GInt KInt false 7) in K end;
      [|discriminate].
    match goal with K : den _ _ _ _ true _ _ |- _ => inversion K; subst end. reflexivity. }
  assert (K4 : forall d, den false false (e_parsefloat e_first) h_first false (GPtr false 4) d -> exists x, flat d = DObj [x54] x).
  { clear. intros d D. inversion D; subst;
      repeat match goal with K : context[hget h_first 4] |- _ =>
        change (hget h_first 4) with (GStruct [x54] [mkField [x41] [] true] 5) in K end;
      [|discriminate].
    match goal with K : den _ _ _ _ true _ _ |- _ => inversion K; subst end. eexists. reflexivity. }
  apply K5 in D2. apply K4 in D2' as (x & D2'). cbn [flat map] in E. rewrite D2, D2' in E. discriminate.
Qed.
Print Assumptions C22_first_field_refuted.

(** It is only so with ambiguous addresses: otherwise values written alike stand for the same data,
    up to references, whatever the options and wherever they are in memory. *)
Theorem C22_no_conflation_partial : forall k e h lev nm v n e' h' lev' nm' w n' b,
  sane_world e -> sane_world e' -> (1 <= proto e <= 3)%N -> (1 <= proto e' <= 3)%N ->
  any_dag e h lev nm v n -> any_dag e' h' lev' nm' w n' -> unambiguous nm -> unambiguous nm' ->
  (Z.of_nat n < depth_limit e)%Z -> (Z.of_nat n' < depth_limit e')%Z ->
  writes k e h v b -> writes k e' h' w b ->
  exists d d', den (e_perl e) (e_nofreeze e) (e_parsefloat e) h false v d /\
    den (e_perl e') (e_nofreeze e') (e_parsefloat e') h' false w d' /\ flat d = flat d'.
Proof. exact graphs_written_alike. Qed.
Print Assumptions C22_no_conflation_partial.

Lemma share_writes : writes k0 e0 h_share (GSlice 0 4) share_doc.
Proof.
  assert (O : outcome (fun n => Marshal k0 n e0 h_share (GSlice 0 4)) (Ok share_doc)).
  { eapply (outcome_marshal k0 e0 h_share None _ 10). vm_compute. reflexivity. }
  split; [left; reflexivity|]. split; [exact O|]. split; [cbn; unfold two63; lia|].
  intros b0 O0. pose proof (outcome_unique _ _ _ O O0) as E. injection E as <-. cbn. unfold two63. lia.
Qed.
(** the same value marshalled in the Perl-compatible mode is different: other references *)
Example C22_case : any_dag e0 h_share lev_share nm_share (GSlice 0 4) 3 /\ unambiguous nm_share /\
  writes k0 e0 h_share (GSlice 0 4) share_doc /\
  match Marshal k0 10 (eopt true None 0 3) h_share (GSlice 0 4) with Ok b => b <> share_doc | _ => False end.
Proof.
  split; [apply share_dag; lia|]. split; [exact share_unambiguous|]. split; [exact share_writes|].
  vm_compute. discriminate.
Qed.

(** C45.  Without shared parts, values written alike stand for the same data. *)
Theorem C45_written_alike : forall k e h v n A e' h' w n' A' b,
  sane_world e -> sane_world e' -> (1 <= proto e <= 3)%N -> (1 <= proto e' <= 3)%N ->
  any_tree e h v n A -> any_tree e' h' w n' A' ->
  (Z.of_nat n < depth_limit e)%Z -> (Z.of_nat n' < depth_limit e')%Z ->
  writes k e h v b -> writes k e' h' w b ->
  exists d, den (e_perl e) (e_nofreeze e) (e_parsefloat e) h false v d /\
    den (e_perl e') (e_nofreeze e') (e_parsefloat e') h' false w d.
Proof. exact written_alike. Qed.
Print Assumptions C45_written_alike.

Lemma doc0_writes : writes k0 e0 h0 v0 doc0.
Proof.
  assert (O : outcome (fun n => Marshal k0 n e0 h0 v0) (Ok doc0)).
  { eapply (outcome_marshal k0 e0 h0 None _ 10). vm_compute. reflexivity. }
  split; [left; reflexivity|]. split; [exact O|]. split; [cbn; unfold two63; lia|].
  intros b0 O0. pose proof (outcome_unique _ _ _ O O0) as E. injection E as <-. cbn. unfold two63. lia.
Qed.
Example C45_case : sane_world e0 /\ any_tree e0 h0 v0 3 [at_cell lay0 3] /\ (Z.of_nat 3 < depth_limit e0)%Z /\
  writes k0 e0 h0 v0 doc0.
Proof. split; [apply eopt_sane|]. split; [apply tree0; lia|]. split; [cbn; lia|]. exact doc0_writes. Qed.

(** C23.  A pointer to nil occurring twice is written, but cannot be read back, even with
    DisableReferentialIntegrity. *)
Definition noref : dconfig := mkDConfig false true (fun _ => None) (fun _ _ => true).
Definition h_nils : heap := [CV (GPtr true 2); CV (GPtr true 2); CV GNil].
Definition nm_nils (a : addr) (v : gval) : Prop := a = at_cell lay0 2 /\ v = GNil.

Theorem C23_shared_pointers_refuted : ~ (forall k c e h lev nm v n b,
  sane_world e -> (1 <= proto e <= 3)%N -> go_dag c e h lev nm v n -> unambiguous nm ->
  (Z.of_nat n < depth_limit e)%Z -> d_perl c = false -> d_noref c = true ->
  outcome (fun n => Marshal k n (without_compression e) h v) (Ok b) -> (N.of_nat (length b) <= 281474976710656)%N ->
  exists h' v', unmarshal_fresh k c b = Ok (h', v') /\ same (e_nofreeze e) (e_parsefloat e) (reg_of c) h h' v v').
Proof.
  intros H.
  destruct (H k0 noref e0 h_nils (fun _ => 1) nm_nils (GSlice 0 2) 2
    [x3d; xf3; x72; x6c; x03; x00; x2b; x02; xa8; x25; x29; x03]) as (h' & v' & U & _).
  - apply eopt_sane.
  - cbn; lia.
  - apply g_slice; [lia|]. change (cells h_nils 0 2) with [GPtr true 2; GPtr true 2].
    assert (P : go_dag noref e0 h_nils (fun _ => 1) nm_nils (GPtr true 2) 1).
    { apply (g_ptr 2147483647 (g_frz (go_dialect noref 0)) (e_nofreeze e0) (e_layout e0) h_nils (fun _ => 1) nm_nils true 2 0 1); try reflexivity; [lia|now split|intros a []|].
      change (hget h_nils 2) with GNil. apply g_nil. }
    apply gs_cons; [exact P|]. apply gs_cons; [exact P|apply gs_nil].
  - intros a v w [-> ->] [_ ->]. reflexivity.
  - cbn; lia.
  - reflexivity.
  - reflexivity.
  - eapply (outcome_marshal k0 _ h_nils None _ 10). vm_compute. reflexivity.
  - cbn. lia.
  - vm_compute in U. discriminate.
Qed.
Print Assumptions C23_shared_pointers_refuted.

(** Without DisableReferentialIntegrity the occurrences come back as different types: [&5, &5] as
    [5, *int(5)]. *)
Definition h_five : heap := [CV (GPtr false 2); CV (GPtr false 2); CV (GInt KInt false 5)].
Definition nm_five (a : addr) (v : gval) : Prop := a = at_cell lay0 2 /\ v = GInt KInt false 5.

Lemma five_dag M F (nf : bool) : (2 <= M)%N -> dag M F nf lay0 h_five (fun _ => 1) nm_five (GSlice 0 2) 2.
Proof.
  intros LM. apply g_slice; [lia|]. change (cells h_five 0 2) with [GPtr false 2; GPtr false 2].
  assert (P : dag M F nf lay0 h_five (fun _ => 1) nm_five (GPtr false 2) 1).
  { apply (g_ptr M F nf lay0 h_five (fun _ => 1) nm_five false 2 0 1); try reflexivity; [lia|now split|intros a []|].
    change (hget h_five 2) with (GInt KInt false 5). apply g_int. unfold ikind_in. cbn. lia. }
  apply gs_cons; [exact P|]. apply gs_cons; [exact P|apply gs_nil].
Qed.

Theorem C23_default_mode_refuted : ~ (forall k c e h lev nm v n b,
  sane_world e -> (1 <= proto e <= 3)%N -> go_dag c e h lev nm v n -> unambiguous nm ->
  (forall a v, nm a v -> ~ null (e_nofreeze e) h v) ->
  (Z.of_nat n < depth_limit e)%Z -> d_perl c = false ->
  outcome (fun n => Marshal k n (without_compression e) h v) (Ok b) -> (N.of_nat (length b) <= 281474976710656)%N ->
  exists h' v', unmarshal_fresh k c b = Ok (h', v') /\ same (e_nofreeze e) (e_parsefloat e) (reg_of c) h h' v v').
Proof.
  intros H.
  destruct (H k0 c0 e0 h_five (fun _ => 1) nm_five (GSlice 0 2) 2
    [x3d; xf3; x72; x6c; x03; x00; x2b; x02; xa8; x05; x29; x03]) as (h' & v' & U & S).
  - apply eopt_sane.
  - cbn; lia.
  - apply five_dag; lia.
  - intros a v w [-> ->] [_ ->]. reflexivity.
  - intros a v [-> ->] N. inversion N.
  - cbn; lia.
  - reflexivity.
  - eapply (outcome_marshal k0 _ h_five None _ 10). vm_compute. reflexivity.
  - cbn. lia.
  - vm_compute in U. injection U as <- <-.
    set (h' := CBuf _ :: _) in S.
    assert (P : sames (e_nofreeze e0) (e_parsefloat e0) (reg_of c0) h_five h' [GPtr false 2; GPtr false 2]
      [GInt KInt false 5; GPtr false 5]).
    { inversion S; subst. assumption. }
    inversion P as [|? ? ? ? _ P1]; subst. inversion P1 as [|? ? ? ? P2 _]; subst.
    inversion P2; subst. match goal with K : same _ _ _ _ _ (hget h_five 2) _ |- _ => inversion K end.
Qed.
Print Assumptions C23_default_mode_refuted.

(** With DisableReferentialIntegrity, unambiguous addresses and no pointers to nil, the same value
    comes back, from the plain and from the compressed document. *)
Theorem C23_shared_pointers_partial : forall k c e h lev nm v n,
  sane_world e -> (1 <= proto e <= 3)%N -> go_dag c e h lev nm v n -> unambiguous nm ->
  (forall a v, nm a v -> ~ null (e_nofreeze e) h v) ->
  (Z.of_nat n < depth_limit e)%Z -> d_perl c = false -> d_noref c = true ->
  exists b0, outcome (fun n => Marshal k n (without_compression e) h v) (Ok b0) /\
    ((N.of_nat (length b0) <= 281474976710656)%N ->
      (exists h' v', unmarshal_fresh k c b0 = Ok (h', v') /\
         same (e_nofreeze e) (e_parsefloat e) (reg_of c) h h' v v') /\
      (lossless k -> supported (proto e) (e_comp e) -> forall b,
       outcome (fun n => Marshal k n e h v) (Ok b) -> (N.of_nat (length b) <= 2147483647)%N ->
       exists h' v', unmarshal_fresh k c b = Ok (h', v') /\
         same (e_nofreeze e) (e_parsefloat e) (reg_of c) h h' v v')).
Proof.
  intros k c e h lev nm v n Hw Hv T One Nn L Pl Nr.
  destruct (graph_read_back k e h lev nm Hw Hv c v n T L) as (b0 & O & _ & D). exists b0. split; [exact O|].
  intros Lb. destruct (D Lb) as (d & (Y & Dn) & R). rewrite Nr in R.
  destruct (traversal_of e h lev nm _ _ _ _ _ _ T One Dn) as (B & d0 & D0 & E0).
  destruct R as (R & Rc); [intros _; exact (B Nn)|]. cbn [shown] in R, Rc. split.
  - eapply graph_same; eauto.
  - intros Lo Su b Ob Lc. eapply graph_same; eauto.
Qed.
Print Assumptions C23_shared_pointers_partial.

(** With any decoder options, what comes back is the data of the traversal, which differs from the
    data of the value in references only. *)
Theorem C23_any_options_partial : forall k c e h lev nm v n,
  sane_world e -> (1 <= proto e <= 3)%N -> go_dag c e h lev nm v n -> unambiguous nm ->
  (d_perl c = false -> forall a v, nm a v -> ~ null (e_nofreeze e) h v) ->
  (Z.of_nat n < depth_limit e)%Z ->
  exists b0, outcome (fun n => Marshal k n (without_compression e) h v) (Ok b0) /\
    ((N.of_nat (length b0) <= 281474976710656)%N -> exists d d0,
      (exists Y, sden (e_perl e) (e_nofreeze e) (e_parsefloat e) (e_layout e) h [] false v d Y) /\
      den (e_perl e) (e_nofreeze e) (e_parsefloat e) h false v d0 /\ flat d = flat d0 /\
      reads k c b0 (shown (d_noref c) d) /\
      (lossless k -> supported (proto e) (e_comp e) -> forall b,
       outcome (fun n => Marshal k n e h v) (Ok b) -> (N.of_nat (length b) <= 2147483647)%N ->
       reads k c b (shown (d_noref c) d))).
Proof.
  intros k c e h lev nm v n Hw Hv T One Nn L.
  destruct (graph_read_back k e h lev nm Hw Hv c v n T L) as (b0 & O & _ & D). exists b0. split; [exact O|].
  intros Lb. destruct (D Lb) as (d & (Y & Dn) & R).
  destruct (traversal_of e h lev nm _ _ _ _ _ _ T One Dn) as (B & d0 & D0 & E0).
  destruct R as (R & Rc); [intros Pl; exact (B (Nn Pl))|]. exists d, d0. repeat (split; [eauto|]). exact Rc.
Qed.
Print Assumptions C23_any_options_partial.

Example C23_case : go_dag noref e0 h_share lev_share nm_share (GSlice 0 4) 3 /\ unambiguous nm_share /\
  (forall a v, nm_share a v -> ~ null (e_nofreeze e0) h_share v) /\
  (exists h', unmarshal_fresh k0 noref share_doc = Ok (h', GSlice 3 4) /\
    exists m s s', cells h' 3 4 = [GInt KInt false 5; GMap m; GSlice s 1; GSlice s' 1] /\
      hmap h' m = [([x6b], GInt KInt false 5)] /\ cells h' s 1 = [GStr [x68; x69]] /\ cells h' s' 1 = [GStr [x68; x69]]) /\
  (exists h', unmarshal_fresh k0 c0 share_doc = Ok (h', GSlice 3 4) /\
    exists m s p q, cells h' 3 4 = [GInt KInt false 5; GMap m; GSlice s 1; GPtr false p] /\
      hmap h' m = [([x6b], GPtr false q)] /\ hget h' q = GInt KInt false 5).
Proof.
  split; [apply share_dag; lia|]. split; [exact share_unambiguous|]. split; [|split].
  - intros a v. unfold nm_share. destruct a as [l].
    do 33 (try (destruct l as [|l]; try contradiction)); intros -> N; inversion N.
  - eexists. split; [vm_compute; reflexivity|]. do 3 eexists. repeat split; vm_compute; reflexivity.
  - eexists. split; [vm_compute; reflexivity|]. do 4 eexists. repeat split; vm_compute; reflexivity.
Qed.
