(** C58: graphs of typed variables written by Marshal and read by Unmarshal.

    [typed_memory v lay h sty target], [shape v h sty target ty x] (SpecTypedKnot.v): in memory [h] the
    variables hold values of the types given by [sty], pointers point to structs, and [x] is a value
    of type [ty]; the structs may refer to each other in any way.  [same_graph v h mem sty P ty x m]: the graph
    of [x] and the graph of the content [m] of a variable are the same. *)
From Verif Require Import Base BaseFacts SpecVarint Varint Tags GoMem GoTypes TagsCache Codecs Encode Compress Header Decode
  Document Spec SpecValue SpecDoc SpecShare SpecKnot SpecOptions SpecOutcome SpecTyped DecodeSpec Roundtrip RoundtripFacts MarshalFacts OutcomeFacts KnotMarshal JsonFacts
  TypedMem SpecMem SpecTypedKnot TypedKnot TypedKnotDoc Cases Props_Typed.
From Coq Require Import ZifyBool ZifyNat ZifyN.

(** C58. *)
Theorem C58_typed_graph_round_trip : forall k c e h v sty target ty x b hh mem ib l,
  sane_world e -> (1 <= proto e <= 3)%N -> d_perl c = false ->
  go_proper c e h x -> typed_memory v (e_layout e) h sty target -> shape v h sty target ty x ->
  outcome (fun n => Marshal k n e h x) (Ok b) -> (N.of_nat (length b) <= 2147483647)%N ->
  e_comp e = None \/ (lossless k /\ supported (proto e) (e_comp e) /\
    forall b0, outcome (fun n => Marshal k n (without_compression e) h x) (Ok b0) -> (N.of_nat (length b0) <= 281474976710656)%N) ->
  nth_error hh ib = Some (CBuf b) -> nth_error mem l = Some (MCell (mzero ty)) ->
  exists h' mem' m, unmarshal_mem k c v hh mem b ib ty (l, []) = (Ok (h', mem'), mem') /\
    nth_error mem' l = Some (MCell m) /\ same_graph v h mem' sty (fun c => length mem <= c) ty x m /\
    length mem <= length mem' /\ (forall l', l' < length mem -> l' <> l -> nth_error mem' l' = nth_error mem l').
Proof.
  intros k c e h v sty target ty x b hh mem ib l W V Hp P TM Sh O Lb Cc Hib Hl.
  destruct (typed_knot_read_back k c e h v sty target ty x b W V Hp P TM Sh O) as (b0 & O0 & En & D).
  destruct D as [D0 D1]; [|exact Lb|].
  { destruct Cc as [Cn|(_ & _ & Cl)]; [|now apply Cl]. rewrite <- (En Cn). lia. }
  destruct Cc as [Cn|(Lo & Su & _)]; [rewrite <- (En Cn) in D0; now apply D0|now apply D1].
Qed.
Print Assumptions C58_typed_graph_round_trip.

(** type T struct { V int8; N *T }; a := T{V: 7, N: &b}; b := T{V: -1, N: &a}; Marshal(&a) *)
Definition U_fields : list (fdecl * gtype) :=
  [(mkField [x56] [] true, TyInt KInt8); (mkField [x4e] [] true, TyPtr (TyStruct 0))].
Definition env2 : goenv := mkGoEnv (fun u => u) (fun u => u) (fun s => s) (fun _ => mkStruct [x54] U_fields).
Definition U_at (base : loc) : gval := GStruct [x54] (map fst U_fields) base.
Definition h_pair : heap := map CV
  [U_at 2; U_at 4; GInt KInt8 false 7; GPtr false 1; GInt KInt8 false (-1); GPtr false 0].
Definition pair_types (l : loc) : option gtype :=
  nth_error [TyStruct 0; TyStruct 0; TyInt KInt8; TyPtr (TyStruct 0); TyInt KInt8; TyPtr (TyStruct 0)] l.
Definition pair_target (l : loc) : Prop := l < 2.

Lemma pair_exported k i : serialised (map fst U_fields) k i -> In (k, i) [([x56], 0); ([x4e], 1)].
Proof. intros H. apply (tags_of_table (map fst U_fields)) in H. revert H. vm_compute. intuition. Qed.
Lemma pair_struct base : (forall i, i < 2 -> pair_types (base + i) = option_map snd (nth_error U_fields i)) ->
  shape env2 h_pair pair_types pair_target (TyStruct 0) (U_at base).
Proof.
  intros H. apply (sp_struct env2 h_pair pair_types pair_target 0 base). intros k i J.
  apply pair_exported in J as [[= <- <-]|[[= <- <-]|[]]]; do 2 eexists; (split; [reflexivity|]); (split; [reflexivity|]).
  - now apply (H 0); lia.
  - now apply (H 1); lia.
Qed.
Lemma pair_typed : typed_memory env2 lay0 h_pair pair_types pair_target.
Proof.
  split.
  - intros l t. unfold pair_types. destruct l as [|[|[|[|[|[|l]]]]]]; [intros [= <-]..|].
    + apply pair_struct. intros [|[|i]] Hi; try lia; reflexivity.
    + apply pair_struct. intros [|[|i]] Hi; try lia; reflexivity.
    + apply sp_int. unfold ikind_in. cbn. lia.
    + apply sp_ptr; [unfold pair_target; lia|reflexivity].
    + apply sp_int. unfold ikind_in. cbn. lia.
    + apply sp_ptr; [unfold pair_target; lia|reflexivity].
    + destruct l; discriminate.
  - unfold pair_target. intros l l' H1 H2. destruct l as [|[|l]], l' as [|[|l']]; try lia; cbn; discriminate.
Qed.
Lemma pair_proper c : go_proper c e0 h_pair (GPtr false 0).
Proof.
  assert (St : forall base, proper 2147483647 (g_frz (go_dialect c 0)) (e_nofreeze e0) h_pair (U_at base)).
  { intros base. eapply pr_struct with (tags := tags_of (map fst U_fields));
      [vm_compute; discriminate|apply tags_of_table|vm_compute; discriminate|].
    intros k i H. apply (tags_of_table (map fst U_fields)), pair_exported in H as [[= <- <-]|[[= <- <-]|[]]]; vm_compute; discriminate. }
  split; [|constructor]. split; [|split].
  - intros l. do 2 (destruct l as [|l]; [apply St|]). destruct l as [|l]; [apply pr_int; unfold ikind_in; cbn; lia|].
    destruct l as [|l]; [constructor|]. destruct l as [|l]; [apply pr_int; unfold ikind_in; cbn; lia|].
    destruct l as [|l]; [constructor|]. destruct l; constructor.
  - intros l k v H. unfold hmap, h_pair in H. do 7 (destruct l as [|l]; [destruct H|]). destruct H.
  - intros l k v H. unfold htmap, h_pair in H. do 7 (destruct l as [|l]; [destruct H|]). destruct H.
Qed.
Definition doc_pair : bytes := match Marshal k0 20 e0 h_pair (GPtr false 0) with Ok b => b | _ => [] end.
Example C58_case : (forall c, go_proper c e0 h_pair (GPtr false 0)) /\
  typed_memory env2 (e_layout e0) h_pair pair_types pair_target /\
  shape env2 h_pair pair_types pair_target (TyPtr (TyStruct 0)) (GPtr false 0) /\
  outcome (fun n => Marshal k0 n e0 h_pair (GPtr false 0)) (Ok doc_pair) /\
  snd (unmarshal_mem k0 c0 env2 [CBuf doc_pair] [MCell (MPtr None)] doc_pair 0 (TyPtr (TyStruct 0)) (0, [])) =
    [MCell (MPtr (Some 1)); MCell (MStruct [(0, MInt 7); (1, MPtr (Some 2))]);
     MCell (MStruct [(0, MInt (-1)); (1, MPtr (Some 1))])].
Proof.
  split; [exact pair_proper|]. split; [exact pair_typed|]. split; [apply sp_ptr; [unfold pair_target; lia|reflexivity]|].
  split; [apply outcome_marshal with 20; vm_compute; reflexivity|]. vm_compute. reflexivity.
Qed.

(** For pointers to other things than structs it is false: pointers to two variables holding the same map
    are different before and equal after. *)
Definition h_maps : heap := [CTMap [(GStr [x61], GInt KInt8 false 5)]; CV (GTMap 0); CV (GTMap 0); CV (GPtr false 1); CV (GPtr false 2)].
Theorem C58_map_pointers_refuted : exists k c e h v ty b,
  sane_world e /\ proto e = 3%N /\ d_perl c = false /\
  ty = TyArr 2 (TyPtr (TyMap (TyInt KInt8))) /\ go_proper c e h (GTSlice true 3 2) /\ has_type v h ty (GTSlice true 3 2) /\
  cells h 3 2 = [GPtr false 1; GPtr false 2] /\ at_cell (e_layout e) 1 <> at_cell (e_layout e) 2 /\
  outcome (fun n => Marshal k n e h (GTSlice true 3 2)) (Ok b) /\
  exists h' mem' l, unmarshal_mem k c v [CBuf b] [MCell (mzero ty)] b 0 ty (0, []) = (Ok (h', mem'), mem') /\
    nth_error mem' 0 = Some (MCell (MArr [MPtr (Some l); MPtr (Some l)])).
Proof.
  exists k0, c0, e0, h_maps, env2, (TyArr 2 (TyPtr (TyMap (TyInt KInt8)))),
    (match Marshal k0 20 e0 h_maps (GTSlice true 3 2) with Ok b => b | _ => [] end).
  split; [apply eopt_sane|]. split; [reflexivity|]. split; [reflexivity|]. split; [reflexivity|]. split.
  { assert (Pm : proper 2147483647 (g_frz (go_dialect c0 0)) (e_nofreeze e0) h_maps (GTMap 0)).
    { apply pr_tmap with (m := [([x61], GInt KInt8 false 5)]); [reflexivity|repeat constructor; intros []|vm_compute; discriminate|].
      intros k v [[= <- <-]|[]]. vm_compute; discriminate. }
    split; [|constructor; lia]. split; [|split].
    - intros l. destruct l as [|l]; [constructor|]. destruct l as [|l]; [exact Pm|]. destruct l as [|l]; [exact Pm|].
      destruct l as [|l]; [constructor|]. destruct l as [|l]; [constructor|]. destruct l; constructor.
    - intros l k v H. unfold hmap, h_maps in H. do 6 (destruct l as [|l]; [destruct H|]). destruct H.
    - intros l k v H. unfold htmap, h_maps in H. destruct l as [|l].
      + destruct H as [[= <- <-]|[]]. apply pr_int. unfold ikind_in. cbn. lia.
      + do 5 (destruct l as [|l]; [destruct H|]). destruct H. }
  split.
  { assert (Tm : has_type env2 h_maps (TyMap (TyInt KInt8)) (GTMap 0)).
    { apply ht_map with (m := [([x61], GInt KInt8 false 5)]); [discriminate|reflexivity|].
      repeat constructor; unfold ikind_in; cbn; lia. }
    apply ht_array. repeat constructor; cbn; try discriminate; exact Tm. }
  split; [reflexivity|]. split; [discriminate|]. split; [apply outcome_marshal with 20; vm_compute; reflexivity|].
  do 3 eexists. vm_compute. split; reflexivity.
Qed.
Print Assumptions C58_map_pointers_refuted.
