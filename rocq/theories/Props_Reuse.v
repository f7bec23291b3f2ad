(** C69: Unmarshal into an interface{} variable that holds a value already.

    [unmarshal_typed], [unmarshal_mem]: see Props_Typed.v and Props_TypedMem.v.  [bare] (SpecReuse.v):
    data without the references, weak references and classes around it. *)
From Verif Require Import Base BaseFacts Tags GoMem GoTypes Codecs Header Decode Document Spec SpecValue SpecDoc
  DecodeSpec DocFacts WireFacts SpecTyped SpecStore SpecReuse Typed TypedMem TypedStore ReuseFacts Cases Props_Typed.
From Coq Require Import ZifyBool ZifyNat ZifyN.

(** C69.  Unmarshal(b, &x) returning no error does not mean that x holds the data of b: undef
    leaves an interface{} variable as it is. *)
Definition undef_doc : bytes := raw_document 3 [x25].
Lemma undef_is_document : document (go_reader c0) k0 undef_doc 3 0 [] DUndef [x25] 1.
Proof.
  apply raw_is_document; [lia|vm_compute; discriminate|].
  unfold body_item. cbn [N.eqb Pos.eqb]. set (by_ := x00 :: _). apply (i_undef _ _ _ 1 1). tag_here.
Qed.

Theorem C69_replaces_refuted : ~ (forall k c v b ver typ suffix d body e h ib w h' x, d_perl c = false ->
  document (go_reader c) k b ver typ suffix d body e -> nth_error h ib = Some (CBuf b) ->
  unmarshal_typed k c v h b ib TyIface (VIface w) = Ok (h', x) ->
  exists y, x = VIface y /\ repr false (reg_of c) (fun _ => True) h' y d).
Proof.
  intros H. destruct (H k0 c0 env0 undef_doc 3%N 0%N [] DUndef [x25] 1 [CBuf undef_doc] 0 (GInt KInt false 7)
    [CBuf undef_doc] (VIface (GInt KInt false 7)) eq_refl undef_is_document eq_refl) as (y & E & R).
  - vm_compute. reflexivity.
  - injection E as <-. inversion R.
Qed.
Print Assumptions C69_replaces_refuted.

(** Nor is a variable that was read into once fit for reading the next document, unless that
    describes nothing but a regexp: of all documents of the tree format only undef, which changes
    nothing, and regexps are accepted, also behind references and in objects. *)
Theorem C69_documents_partial : forall k c v, d_perl c = false ->
  forall b ver typ suffix d body e h ib w h' x,
  document (go_reader c) k b ver typ suffix d body e -> nth_error h ib = Some (CBuf b) -> w <> GNil ->
  unmarshal_typed k c v h b ib TyIface (VIface w) = Ok (h', x) ->
  ((bare d = DUndef \/ bare d = DCanon) /\ x = VIface w) \/
  exists p m y, bare d = DRegexp p m /\ x = VIface y /\
    repr false (reg_of c) (fun l => l = ib \/ length h <= l < length h') h' y (DRegexp p m).
Proof.
  intros k c v Hp b ver typ suffix d body e h ib w h' x D Hb Nw U.
  destruct (typed_document_stores k c v Hp _ _ _ _ _ _ _ _ _ _ _ _ _ D Hb U) as [_ S].
  exact (stores_iface v _ _ _ _ _ _ S w eq_refl eq_refl Nw).
Qed.
Print Assumptions C69_documents_partial.

(** For all bytes, with back references and frozen objects and whatever else the program's
    variables hold: after an error every variable is as it was; without one the variable is as
    it was, or holds a new regexp, or, if it held an object of a registered class, such an object
    with other content. *)
Theorem C69_any_bytes_partial : forall k c v h mem b ib l w, d_perl c = false ->
  nth_error mem l = Some (MCell (MIface w)) -> w <> GNil ->
  match unmarshal_mem k c v h mem b ib TyIface (l, []) with
  | (Ok (h', mem''), mem') => mem'' = mem' /\
      (mem' = mem \/
       (exists p pat mods, mem' = upd mem l (MCell (MIface (GPtr false p))) /\ nth_error h' p = Some (CV (GRegexpV pat mods))) \/
       (exists t old data, w = GUserP t old /\ mem' = upd mem l (MCell (MIface (GUserP t data)))))
  | (_, mem') => mem' = mem
  end.
Proof. exact reuse_any. Qed.
Print Assumptions C69_any_bytes_partial.

(** 5, undef, a regexp and [5], read into a variable holding 7; 5 read into a nil variable, and
    then 5 again *)
Definition five_doc : bytes := raw_document 3 [x05].
Definition re_doc : bytes := raw_document 3 [x31; x61; x61; x61; x69].
Example C69_case :
  unmarshal_mem k0 c0 env0 [] [MCell (MIface (GInt KInt false 7))] five_doc 0 TyIface (0, []) =
    (Err EReflect, [MCell (MIface (GInt KInt false 7))]) /\
  unmarshal_mem k0 c0 env0 [] [MCell (MIface (GInt KInt false 7))] (raw_document 3 [x41; x05]) 0 TyIface (0, []) =
    (Err EReflect, [MCell (MIface (GInt KInt false 7))]) /\
  unmarshal_mem k0 c0 env0 [] [MCell (MIface (GInt KInt false 7))] undef_doc 0 TyIface (0, []) =
    (Ok ([], [MCell (MIface (GInt KInt false 7))]), [MCell (MIface (GInt KInt false 7))]) /\
  (exists h', unmarshal_mem k0 c0 env0 [] [MCell (MIface (GInt KInt false 7))] re_doc 0 TyIface (0, []) =
    (Ok (h', [MCell (MIface (GPtr false 1))]), [MCell (MIface (GPtr false 1))])) /\
  unmarshal_mem k0 c0 env0 [] [MCell (MIface GNil)] five_doc 0 TyIface (0, []) =
    (Ok ([CV (GInt KInt false 5)], [MCell (MIface (GInt KInt false 5))]), [MCell (MIface (GInt KInt false 5))]) /\
  unmarshal_mem k0 c0 env0 [] [MCell (MIface (GInt KInt false 5))] five_doc 0 TyIface (0, []) =
    (Err EReflect, [MCell (MIface (GInt KInt false 5))]).
Proof.
  repeat (split; [try (eexists; vm_compute; reflexivity); vm_compute; reflexivity|]). vm_compute. reflexivity.
Qed.
