(** C62: Unmarshal into variables of Go types stores nothing but the document's data.

    [unmarshal_typed k c v h b ib ty cur]: see Props_Typed.v.  [stores], [fits_type]: SpecStore.v. *)
From Verif Require Import Base BaseFacts SpecVarint Tags GoMem GoTypes TagsCache Codecs Header Decode
  Document Spec SpecValue SpecDoc DecodeSpec DocFacts WireFacts SpecTyped SpecStore Typed TypedStore Cases Props_Typed.
From Coq Require Import ZifyBool ZifyNat ZifyN.

(** C62.  Whatever the document's data and the variable's type and content: if Unmarshal returns
    without an error, the variable holds what the data make of it, part by part; the parts the
    data do not reach are as before; the interface{} parts hold values representing their data;
    other memory is unchanged. *)
Theorem C62_stores_only : forall k c v,
  d_perl c = false -> forall b ver typ suffix d body e h ib ty cur h' x,
  document (go_reader c) k b ver typ suffix d body e ->
  nth_error h ib = Some (CBuf b) ->
  unmarshal_typed k c v h b ib ty cur = Ok (h', x) ->
  memory_kept h h' /\
  stores v (repr false (reg_of c) (fun l => l = ib \/ length h <= l < length h') h') Free ty cur d x.
Proof. exact typed_document_stores. Qed.
Print Assumptions C62_stores_only.

(** In particular data that do not fit the variable's type are refused. *)
Theorem C62_wrong_type : forall k c v,
  d_perl c = false -> forall b ver typ suffix d body e h ib ty cur h' x,
  document (go_reader c) k b ver typ suffix d body e ->
  nth_error h ib = Some (CBuf b) -> ty <> TyIface ->
  unmarshal_typed k c v h b ib ty cur = Ok (h', x) -> fits_type ty d = true.
Proof.
  intros k c v Hp b ver typ suffix d body e h ib ty cur h' x D Hb Nt U.
  destruct (typed_document_stores k c v Hp _ _ _ _ _ _ _ _ _ _ _ _ _ D Hb U) as [_ S].
  eapply stores_fits; eassumption.
Qed.
Print Assumptions C62_wrong_type.

(** an object of class T frozen as "hi": read into a nil []byte, refused for others and for
    strings; {"a": 7, "b": 5}: read into a *T, refused for a map[string]int8 that has "b" *)
Definition bfrozen : bytes := raw_document 3 [x32; x61; x54; x28; x2b; x01; x62; x68; x69].
Lemma docfrozen : document (go_reader c0) k0 bfrozen 3 0 [] (DFreeze [x54] [x68; x69])
  [x32; x61; x54; x28; x2b; x01; x62; x68; x69] 9.
Proof.
  apply raw_is_document; [lia|vm_compute; discriminate|].
  unfold body_item. cbn [N.eqb Pos.eqb]. set (by_ := x00 :: _).
  eapply (i_freeze _ _ _ 1 1 [x54] 4 1 7); [tag_here| |at_here 4| |reflexivity| |].
  - eapply (str_lit _ _ _ 2). eapply (lit_short _ _ 2 2 97 [x54]); [tag_here|lia|at_here 3|reflexivity].
  - exact (vint1 by_ 6 x01 eq_refl eq_refl).
  - apply (i_str _ _ _ 7 false [x68; x69] 10). eapply (lit_short _ _ 7 7 98 [x68; x69]); [tag_here|lia|at_here 8|reflexivity].
  - vm_compute. auto.
Qed.
Definition byte_slice := TySlice (TyInt KUint8).
Example C62_case :
  document (go_reader c0) k0 bfrozen 3 0 [] (DFreeze [x54] [x68; x69]) [x32; x61; x54; x28; x2b; x01; x62; x68; x69] 9 /\
  (exists h', unmarshal_typed k0 c0 env0 [CBuf bfrozen] bfrozen 0 byte_slice (VSlice None) =
     Ok (h', VSlice (Some [VInt 104; VInt 105]))) /\
  (exists e, unmarshal_typed k0 c0 env0 [CBuf bfrozen] bfrozen 0 byte_slice (VSlice (Some [])) = Err e) /\
  (exists e, unmarshal_typed k0 c0 env0 [CBuf bfrozen] bfrozen 0 TyStr (VStr []) = Err e) /\
  fits_type TyStr (DFreeze [x54] [x68; x69]) = false /\
  document (go_reader c0) k0 bmap 3 0 [] (DHash [([x61], DInt 7); ([x62], DInt 5)])
    [x2a; x02; x61; x61; x07; x61; x62; x05] 8 /\
  (exists h', unmarshal_typed k0 c0 env0 [CBuf bmap] bmap 0 (TyPtr (TyStruct 0)) (VPtr (Some (VStruct [(1, VSlice None)]))) =
     Ok (h', VPtr (Some (VStruct [(0, VInt 7); (1, VSlice None)])))) /\
  (exists e, unmarshal_typed k0 c0 env0 [CBuf bmap] bmap 0 (TyMap (TyInt KInt8)) (VMap (Some [([x62], VInt 1)])) = Err e).
Proof.
  split; [exact docfrozen|]. split; [eexists; vm_compute; reflexivity|].
  do 2 (split; [eexists; vm_compute; reflexivity|]). split; [reflexivity|]. split; [exact docmap|].
  split; eexists; vm_compute; reflexivity.
Qed.
