(** C36-C38, C44: Unmarshal into variables of other types than interface{}.

    [unmarshal_typed k c v h b ib ty cur]: Unmarshal of document [b] into a variable of type
    [ty] holding [cur]; memory [h] has the document in cell [ib].  [zero ty]: the zero value.
    [has_type v h ty x], [tsame], [into]: SpecTyped.v.  [d_perl c = false]: default mode. *)
From Verif Require Import Base BaseFacts SpecVarint Tags GoMem GoTypes TagsCache Codecs Encode Compress Header Decode
  Document Spec SpecValue SpecDoc SpecOptions SpecOutcome DecodeSpec DocFacts JsonFacts Roundtrip OutcomeFacts
  RoundtripFacts WireFacts SpecTyped Typed TypedSpec TypedDoc TypedRound Cases.
From Coq Require Import Permutation ZifyBool ZifyNat ZifyN.

(** C36.  A value of a type of the fragment comes back in a new variable of its type. *)
Theorem C36_typed_roundtrip : forall k c e h v,
  sane_world e -> (1 <= proto e <= 3)%N -> d_perl c = false -> forall ty x n A,
  go_tree c e h x n A -> (Z.of_nat n < depth_limit e)%Z -> has_type v h ty x ->
  exists b0, outcome (fun f => Marshal k f (without_compression e) h x) (Ok b0) /\
    (e_comp e = None -> outcome (fun f => Marshal k f e h x) (Ok b0)) /\
    ((N.of_nat (length b0) <= 281474976710656)%N ->
      (exists h' y, unmarshal_typed k c v [CBuf b0] b0 0 ty (zero ty) = Ok (h', y) /\
         tsame v (e_nofreeze e) (e_parsefloat e) (reg_of c) h h' ty x y) /\
      (lossless k -> supported (proto e) (e_comp e) -> forall b,
       outcome (fun f => Marshal k f e h x) (Ok b) -> (N.of_nat (length b) <= 2147483647)%N ->
       exists h' y, unmarshal_typed k c v [CBuf b] b 0 ty (zero ty) = Ok (h', y) /\
         tsame v (e_nofreeze e) (e_parsefloat e) (reg_of c) h h' ty x y)).
Proof. exact typed_roundtrip. Qed.
Print Assumptions C36_typed_roundtrip.

(** type T struct { A int8; B []string; N *T `sereal:"n"`; c int; I interface{} }
    x = T{A: -5, B: []string{"hi"}, N: &T{A: 3, c: 1}, c: 9, I: uint(7)} *)
Definition T_fields : list (fdecl * gtype) :=
  [(mkField [x41] [] true, TyInt KInt8); (mkField [x42] [] true, TySlice TyStr);
   (mkField [x4e] [x6e] true, TyPtr (TyStruct 0)); (mkField [x63] [] false, TyInt KInt);
   (mkField [x49] [] true, TyIface)].
Definition env0 : goenv := mkGoEnv (fun u => u) (fun u => u)
  (fun s => match s with [x61] => [x41] | _ => s end) (fun _ => mkStruct [x54] T_fields).
Definition T_at (base : loc) : gval := GStruct [x54] (map fst T_fields) base.
Definition hT : heap := map CV
  [GInt KInt8 false (-5); GTSlice false 11 1; GPtr false 5; GInt KInt false 9; GInt KUint false 7;
   T_at 6;
   GInt KInt8 false 3; GTSlice false 12 0; GNilPtr; GInt KInt false 1; GNil;
   GStr [x68; x69]].

Lemma T_exported k i : In (k, i) (tags_of (map fst T_fields)) -> In (k, i) [([x41], 0); ([x42], 1); ([x6e], 2); ([x49], 4)].
Proof. vm_compute. intuition. Qed.

Lemma T_type : has_type env0 hT (TyStruct 0) (T_at 0).
Proof.
  assert (In0 : has_type env0 hT (TyStruct 0) (T_at 6)).
  { apply (ht_struct env0 hT 0 6). intros k i H. apply (tags_of_table (map fst T_fields)) in H.
    apply T_exported in H as [[= <- <-]|[[= <- <-]|[[= <- <-]|[[= <- <-]|[]]]]]; do 2 eexists; (split; [reflexivity|]); (split; [reflexivity|]).
    - apply ht_int. unfold ikind_in. cbn. lia.
    - apply ht_slice; [discriminate|discriminate|constructor].
    - now apply ht_nilptr.
    - apply ht_iface. }
  apply (ht_struct env0 hT 0 0). intros k i H. apply (tags_of_table (map fst T_fields)) in H.
  apply T_exported in H as [[= <- <-]|[[= <- <-]|[[= <- <-]|[[= <- <-]|[]]]]]; do 2 eexists; (split; [reflexivity|]); (split; [reflexivity|]).
  - apply ht_int. unfold ikind_in. cbn. lia.
  - apply ht_slice; [discriminate|discriminate|]. repeat constructor.
  - apply ht_ptr; [reflexivity|discriminate|exact In0].
  - apply ht_iface.
Qed.

Lemma T_tree : go_tree c0 e0 hT (T_at 0) 4 [at_cell lay0 5].
Proof.
  unfold go_tree.
  assert (In0 : tree 2147483647 (g_frz (go_dialect c0 0)) (e_nofreeze e0) (e_layout e0) hT (T_at 6) 2 []).
  { apply (t_struct _ _ _ _ _ _ _ _ (tags_of (map fst T_fields)) 1 []).
    - unfold fits. cbn. lia.
    - apply tags_of_table.
    - unfold fits. cbn. lia.
    - intros k i H. apply T_exported in H as [[= <- <-]|[[= <- <-]|[[= <- <-]|[[= <- <-]|[]]]]]; (split; [unfold fits; cbn; lia|]); eexists; split; reflexivity.
    - change (map _ _) with [GInt KInt8 false 3; GTSlice false 12 0; GNilPtr; GNil].
      apply (ts_cons _ _ _ _ _ _ 0 [] _ 1 []); [apply t_int; unfold ikind_in; cbn; lia| |intros a []].
      apply (ts_cons _ _ _ _ _ _ 1 [] _ 1 []); [apply t_tslice; [lia|apply ts_nil]| |intros a []].
      apply (ts_cons _ _ _ _ _ _ 1 [] _ 0 []); [apply t_nilptr| |intros a []].
      apply (ts_cons _ _ _ _ _ _ 0 [] _ 0 []); [apply t_nil|apply ts_nil|intros a []]. }
  apply (t_struct _ _ _ _ _ _ _ _ (tags_of (map fst T_fields)) 3 [at_cell lay0 5]).
  - unfold fits. cbn. lia.
  - apply tags_of_table.
  - unfold fits. cbn. lia.
  - intros k i H. apply T_exported in H as [[= <- <-]|[[= <- <-]|[[= <- <-]|[[= <- <-]|[]]]]]; (split; [unfold fits; cbn; lia|]); eexists; split; reflexivity.
  - change (map _ _) with [GInt KInt8 false (-5); GTSlice false 11 1; GPtr false 5; GInt KUint false 7].
    apply (ts_cons _ _ _ _ _ _ 0 [] _ 3 [at_cell lay0 5]); [apply t_int; unfold ikind_in; cbn; lia| |intros a []].
    apply (ts_cons _ _ _ _ _ _ 1 [] _ 3 [at_cell lay0 5]); [| |intros a []].
    { apply t_tslice; [lia|]. apply (ts_cons _ _ _ _ _ _ 0 [] _ 0 []); [apply t_str; unfold fits; cbn; lia|apply ts_nil|intros a []]. }
    apply (ts_cons _ _ _ _ _ _ 3 [at_cell lay0 5] _ 0 []); [| |intros a _ []].
    { apply (t_ptr 2147483647 (g_frz (go_dialect c0 0)) (e_nofreeze e0) (e_layout e0) hT false 5 2 []); [reflexivity|reflexivity|intros a _ []|exact In0]. }
    apply (ts_cons _ _ _ _ _ _ 0 [] _ 0 []); [apply t_int; unfold ikind_in; cbn; lia|apply ts_nil|intros a []].
Qed.

Example C36_case : go_tree c0 e0 hT (T_at 0) 4 [at_cell lay0 5] /\ (4 < depth_limit e0)%Z /\
  has_type env0 hT (TyStruct 0) (T_at 0) /\
  match Marshal k0 10 e0 hT (T_at 0) with
  | Ok b => match unmarshal_typed k0 c0 env0 [CBuf b] b 0 (TyStruct 0) (VStruct []) with
            | Ok (_, VStruct fs) =>
                sfield env0 0 0 fs = VInt (-5) /\ sfield env0 0 1 fs = VSlice (Some [VStr [x68; x69]]) /\
                sfield env0 0 3 fs = VInt 0 /\ sfield env0 0 4 fs = VIface (GInt KInt false 7) /\
                match sfield env0 0 2 fs with
                | VPtr (Some (VStruct fs')) => sfield env0 0 0 fs' = VInt 3 /\ sfield env0 0 2 fs' = VPtr None
                | _ => False
                end
            | _ => False
            end
  | _ => False
  end.
Proof.
  split; [exact T_tree|]. split; [reflexivity|]. split; [exact T_type|].
  vm_compute. repeat split; reflexivity.
Qed.

(** Pointers to scalars are outside the fragment: a *int is written, but cannot be read into
    a *int. *)
Theorem C36_scalar_pointers_refuted : ~ (forall k c e v h l z,
  sane_world e -> (1 <= proto e <= 3)%N -> d_perl c = false ->
  hget h l = GInt KInt false z -> ikind_in KInt z ->
  exists b h' y, outcome (fun n => Marshal k n (without_compression e) h (GPtr false l)) (Ok b) /\
    unmarshal_typed k c v [CBuf b] b 0 (TyPtr (TyInt KInt)) (VPtr None) = Ok (h', y)).
Proof.
  intros H. destruct (H k0 c0 e0 env0 [CV (GInt KInt false 5)] 0 5%Z (eopt_sane _ _ _ _)) as (b & h' & y & O & U).
  - cbn; lia.
  - reflexivity.
  - reflexivity.
  - unfold ikind_in. cbn. lia.
  - assert (O' : outcome (fun n => Marshal k0 n (without_compression e0) [CV (GInt KInt false 5)] (GPtr false 0)) (Ok
      [x3d; xf3; x72; x6c; x03; x00; x28; x05])).
    { eapply (outcome_marshal k0 _ _ None _ 3). vm_compute. reflexivity. }
    pose proof (outcome_unique _ _ _ O O') as E. injection E as ->. vm_compute in U. discriminate U.
Qed.
Print Assumptions C36_scalar_pointers_refuted.

(** the number 300 *)
Definition b300 : bytes := raw_document 3 [x20; xac; x02].
Lemma doc300 : document (go_reader c0) k0 b300 3 0 [] (DInt 300) [x20; xac; x02] 3.
Proof.
  apply raw_is_document; [lia|vm_compute; discriminate|].
  unfold body_item. cbn [N.eqb Pos.eqb]. set (by_ := x00 :: _).
  change 300%Z with (Z.of_N 300).
  eapply (i_varint _ _ _ 1 1 300 4); [tag_here|].
  exists [xac; x02]. split; [at_here 2|]. split; [|repeat split; cbn; lia].
  change 300%N with (b2n xac - 128 + 128 * b2n x02)%N. apply vg_more; [vm_compute; discriminate|].
  apply vg_last. reflexivity.
Qed.

(** C37.  A number that does not fit is not reported: 300 read into an int8 gives 44. *)
Theorem C37_overflow_reported_refuted : ~ (forall k c v h b ver typ suffix z body e ib kd cur h' x,
  d_perl c = false -> document (go_reader c) k b ver typ suffix (DInt z) body e ->
  nth_error h ib = Some (CBuf b) ->
  unmarshal_typed k c v h b ib (TyInt kd) cur = Ok (h', x) -> x = VInt z).
Proof.
  intros H.
  assert (C : VInt 44 = VInt 300); [|discriminate C].
  eapply (H k0 c0 env0 [CBuf b300] b300 _ _ _ _ _ _ 0 KInt8 (VInt 0) _ (VInt 44) eq_refl doc300 eq_refl).
  vm_compute. reflexivity.
Qed.
Print Assumptions C37_overflow_reported_refuted.

(** What holds: a number that fits is stored; any other number leaves its low bits. *)
Theorem C37_overflow_reported_partial : forall k c v b ver typ suffix z body e h ib kd cur,
  d_perl c = false -> document (go_reader c) k b ver typ suffix (DInt z) body e ->
  nth_error h ib = Some (CBuf b) ->
  exists h' n, unmarshal_typed k c v h b ib (TyInt kd) cur = Ok (h', VInt n) /\
    ikind_in kd n /\ (n mod 2 ^ ikind_bits kd = z mod 2 ^ ikind_bits kd)%Z /\ (ikind_in kd z -> n = z).
Proof. exact int_stored. Qed.
Print Assumptions C37_overflow_reported_partial.

Example C37_case : document (go_reader c0) k0 b300 3 0 [] (DInt 300) [x20; xac; x02] 3 /\ ikind_in KInt16 300 /\
  exists h', unmarshal_typed k0 c0 env0 [CBuf b300] b300 0 (TyInt KInt16) (VInt 1) = Ok (h', VInt 300).
Proof.
  split; [exact doc300|]. split; [unfold ikind_in; cbn; lia|]. eexists. vm_compute. reflexivity.
Qed.

(** {"a": 7, "b": 5} *)
Definition bmap : bytes := raw_document 3 [x2a; x02; x61; x61; x07; x61; x62; x05].
Lemma docmap : document (go_reader c0) k0 bmap 3 0 [] (DHash [([x61], DInt 7); ([x62], DInt 5)])
  [x2a; x02; x61; x61; x07; x61; x62; x05] 8.
Proof.
  apply raw_is_document; [lia|vm_compute; discriminate|].
  unfold body_item. cbn [N.eqb Pos.eqb]. set (by_ := x00 :: _).
  eapply (i_hash _ _ _ 1 1 2 3); [tag_here| | |reflexivity|].
  - exact (vint1 by_ 2 x02 eq_refl eq_refl).
  - vm_compute. discriminate.
  - eapply (ps_cons _ _ _ 3 [x61] 5 (DInt 7) 6).
    + eapply (str_lit _ _ _ 3). eapply (lit_short _ _ 3 3 97 [x61]); [tag_here|lia|at_here 4|reflexivity].
    + apply (i_pos _ _ _ 5 5 7); [tag_here|lia].
    + eapply (ps_cons _ _ _ 6 [x62] 8 (DInt 5) 9).
      * eapply (str_lit _ _ _ 6). eapply (lit_short _ _ 6 6 97 [x62]); [tag_here|lia|at_here 7|reflexivity].
      * apply (i_pos _ _ _ 8 8 5); [tag_here|lia].
      * apply ps_nil.
Qed.

(** C38.  A key the map already has makes Unmarshal fail. *)
Theorem C38_map_update_refuted : ~ (forall k c v b ver typ suffix kvs body e h ib t m0,
  d_perl c = false -> document (go_reader c) k b ver typ suffix (DHash kvs) body e ->
  nth_error h ib = Some (CBuf b) -> NoDup (map fst kvs) ->
  Forall (fun kd => readable v t (zero t) (snd kd)) kvs ->
  exists h' m', unmarshal_typed k c v h b ib (TyMap t) (VMap (Some m0)) = Ok (h', VMap (Some m')) /\
    (forall key x, mget m0 key = Some x -> ~ In key (map fst kvs) -> mget m' key = Some x) /\
    (forall key, In key (map fst kvs) -> mget m' key <> None)).
Proof.
  intros H.
  destruct (H k0 c0 env0 bmap _ _ _ _ _ _ [CBuf bmap] 0 (TyInt KInt) [([x61], VInt 1)] eq_refl docmap eq_refl)
    as (h' & m' & U & _).
  - repeat constructor; cbn; intuition discriminate.
  - repeat constructor; cbn; [exists (VInt 7)|exists (VInt 5)]; apply in_int; try reflexivity; unfold ikind_in; cbn; lia.
  - vm_compute in U. discriminate U.
Qed.
Print Assumptions C38_map_update_refuted.

(** What holds: keys the map does not have are added, the others stay.  ([kvs] has no key twice.) *)
Theorem C38_map_update_partial : forall v k c b ver typ suffix kvs body e h ib t m0,
  d_perl c = false -> document (go_reader c) k b ver typ suffix (DHash kvs) body e ->
  nth_error h ib = Some (CBuf b) ->
  NoDup (map fst kvs) -> (forall key, In key (map fst kvs) -> mget m0 key = None) ->
  Forall (fun kd => readable v t (zero t) (snd kd)) kvs ->
  exists h' m', unmarshal_typed k c v h b ib (TyMap t) (VMap (Some m0)) = Ok (h', VMap (Some m')) /\ memory_kept h h' /\
    (forall key x, mget m0 key = Some x -> mget m' key = Some x) /\
    (forall key d, In (key, d) kvs -> exists x, mget m' key = Some x /\
       into v (repr false (reg_of c) (fun l => l = ib \/ length h <= l < length h') h') t (zero t) d x) /\
    (forall key, mget m0 key = None -> ~ In key (map fst kvs) -> mget m' key = None).
Proof. exact map_update. Qed.
Print Assumptions C38_map_update_partial.

Example C38_case : document (go_reader c0) k0 bmap 3 0 [] (DHash [([x61], DInt 7); ([x62], DInt 5)])
    [x2a; x02; x61; x61; x07; x61; x62; x05] 8 /\
  exists h', unmarshal_typed k0 c0 env0 [CBuf bmap] bmap 0 (TyMap (TyInt KInt)) (VMap (Some [([x63], VInt 1)])) =
    Ok (h', VMap (Some [([x63], VInt 1); ([x61], VInt 7); ([x62], VInt 5)])).
Proof. split; [exact docmap|]. eexists. vm_compute. reflexivity. Qed.

(** C44.  Whatever the document's data and the variable's type and content: if the data can be
    read into the variable ([into], with anything in its interface{} parts), Unmarshal does,
    the interface{} parts hold values representing their data, and other memory is unchanged. *)
Theorem C44_typed_unmarshal : forall k c v,
  d_perl c = false -> forall b ver typ suffix d body e h ib ty cur x0,
  document (go_reader c) k b ver typ suffix d body e ->
  nth_error h ib = Some (CBuf b) ->
  into v (fun _ _ => True) ty cur d x0 ->
  exists h' x, unmarshal_typed k c v h b ib ty cur = Ok (h', x) /\ memory_kept h h' /\
    into v (repr false (reg_of c) (fun l => l = ib \/ length h <= l < length h') h') ty cur d x.
Proof. exact typed_document. Qed.
Print Assumptions C44_typed_unmarshal.

(** {"a": 7, "b": 5} read into T{A: 1, I: "hi"}: "a" names A, "b" is unknown *)
Example C44_case :
  into env0 (fun _ _ => True) (TyStruct 0) (VStruct [(0, VInt 1); (4, VIface (GStr [x68; x69]))])
    (DHash [([x61], DInt 7); ([x62], DInt 5)])
    (VStruct [(0, VInt 7); (0, VInt 1); (4, VIface (GStr [x68; x69]))]) /\
  exists h', unmarshal_typed k0 c0 env0 [CBuf bmap] bmap 0 (TyStruct 0)
      (VStruct [(0, VInt 1); (4, VIface (GStr [x68; x69]))]) =
    Ok (h', VStruct [(0, VInt 7); (0, VInt 1); (4, VIface (GStr [x68; x69]))]).
Proof.
  split; [|eexists; vm_compute; reflexivity].
  assert (Nb : forall key, key = [x61] \/ key = [x62] -> forall i, ~ serialised (map fst T_fields) key i).
  { intros key Hk i H. apply (tags_of_table (map fst T_fields)) in H. apply T_exported in H.
    destruct Hk as [-> | ->]; destruct H as [H|[H|[H|[H|[]]]]]; discriminate H. }
  apply (in_struct env0 _ 0 _ _ [(0, VInt 7)]).
  eapply if_hit with (f := fst (nth 0 T_fields (mkField [] [] false, TyBool))) (t := TyInt KInt8); try reflexivity.
  - right. split; [apply Nb; auto|]. apply (tags_of_table (map fst T_fields)). vm_compute. auto.
  - apply in_int; [unfold ikind_in; cbn; lia|reflexivity].
  - apply if_miss; [|apply if_end]. intros i [H|[_ H]]; apply (Nb [x62] ltac:(auto) i); exact H.
  - intros [].
Qed.
