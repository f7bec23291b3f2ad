(** C57: documents with sharing and cycles read into typed variables.

    [gdocument rd k b ver typ suffix x body e] (SpecCycle.v): [b] is a document in which REFP and
    ALIAS refer back to marked items, describing the node [x].  [fits_type v ty x] (SpecTypedGraph.v):
    [x] has the shape of the Go type [ty] and its references are to items of their own type that
    exist by then.  [tshown v mem L ty m x F]: [m] is the content of a variable of type [ty] described
    by [x], the marked item [i] having the type and content [L i], and [F] are the cells of its parts. *)
From Verif Require Import Base BaseFacts SpecVarint Varint Tags GoMem GoTypes TagsCache Codecs Encode Compress Header Decode
  Document Spec SpecValue SpecDoc SpecShare SpecCycle SpecOptions SpecTyped DecodeSpec DocFacts JsonFacts WireFacts CycleFacts
  TypedMem SpecMem SpecTypedGraph TypedGraph TypedGraphDoc Cases Props_Typed Props_TypedMem.
From Coq Require Import ZifyBool ZifyNat ZifyN.

(** C57.  A new variable of a type which the document fits is given the graph the document
    describes.  Its parts are different new cells, and no other variable changes. *)
Theorem C57_typed_graph : forall k c v b ver typ suffix x body e h mem ib ty l,
  d_perl c = false ->
  gdocument (go_reader c) k b ver typ suffix x body e -> fits_type v ty x ->
  nth_error h ib = Some (CBuf b) -> nth_error mem l = Some (MCell (mzero ty)) ->
  exists h' mem' m L F, unmarshal_mem k c v h mem b ib ty (l, []) = (Ok (h', mem'), mem') /\
    nth_error mem' l = Some (MCell m) /\
    tshown v mem' (fun i t w => L i = (t, w)) ty m x F /\ NoDup F /\ (forall l', In l' F -> length mem <= l') /\
    length mem <= length mem' /\
    (forall l', l' < length mem -> l' <> l -> nth_error mem' l' = nth_error mem l').
Proof. intros k c v b ver typ suffix x body e h mem ib ty l Hp. now apply unmarshal_mem_gdocument. Qed.
Print Assumptions C57_typed_graph.

(** type T struct { A int8; N *T `sereal:"n"`; ... }; x := &T{A: 7}; x.N = x *)
Definition ring_node : node := NRef (NAt 0 (NHash [([x41], NLeaf (DInt 7)); ([x6e], NBack 0)])).
Definition ring_body : bytes := [x28; xaa; x02; x61; x41; x07; x61; x6e; x29; x02].
Lemma ring_gdocument c : gdocument (go_reader c) k0 ring_doc 3 0 [] ring_node ring_body 10.
Proof.
  apply raw_is_gdocument; [lia|cbn; lia|].
  exists ([] ++ [2]). cbn [N.eqb Pos.eqb]. unfold ring_body. set (by_ := x00 :: _).
  assert (U : forall b n, nth_error by_ n = Some b -> (b2n b < 128)%N -> ~ marked by_ n).
  { intros b n H1 H2 (b' & H3 & H4). rewrite H1 in H3. injection H3 as <-. lia. }
  eapply (g_off _ _ [] _ 1 1 40); [tag_here|apply (U x28); [reflexivity|vm_compute; reflexivity]|].
  apply g_refn. eapply (g_on _ _ [] _ 2 2 42); [tag_here|exists xaa; split; [reflexivity|vm_compute; discriminate]|].
  eapply (g_hash _ _ _ _ 2 2 4); [apply (vint1 by_ 3 x02); reflexivity|cbn; lia|reflexivity|].
  change (@nil nat) with (@nil nat ++ []). eapply gp_cons.
  { eapply (str_lit _ _ _ 4 false _ 6). eapply (lit_short _ _ 4 4 97); [tag_here|lia|at_here 5|reflexivity]. }
  { eapply (g_off _ _ _ _ 6 6 7); [tag_here|apply (U x07); [reflexivity|vm_compute; reflexivity]|].
    apply g_plain; [unfold plain_tag; lia|]. apply (i_pos _ _ _ 6 6 7); [tag_here|lia]. }
  change (@nil nat) with (@nil nat ++ []). eapply gp_cons; [| |apply gp_nil].
  { eapply (str_lit _ _ _ 7 false _ 9). eapply (lit_short _ _ 7 7 97); [tag_here|lia|at_here 8|reflexivity]. }
  eapply (g_off _ _ _ _ 9 9 41); [tag_here|apply (U x29); [reflexivity|vm_compute; reflexivity]|].
  eapply (g_refp _ _ _ _ 9 2 11); [apply (vint1 by_ 10 x02); reflexivity|cbn; lia|reflexivity].
Qed.
Lemma ring_fits : fits_type env0 (TyPtr (TyStruct 0)) ring_node.
Proof.
  exists (fun _ => TyPtr (TyStruct 0)). apply tf_ref, tf_at; [reflexivity|]. apply tf_ptr; [reflexivity|].
  apply (tf_struct _ _ _ _ _ _ [0; 2]); [reflexivity|repeat constructor; cbn; intuition discriminate|].
  intros k x i [[= <- <- <-]|[[= <- <- <-]|[]]]; do 2 eexists; (split; [|split; [reflexivity|split; [reflexivity|]]]).
  - left. apply (tags_of_table (map fst T_fields)). vm_compute. auto.
  - eapply tf_leaf; [discriminate|]. apply (in_int _ _ _ _ _ 7); [unfold ikind_in; cbn; lia|reflexivity].
  - left. apply (tags_of_table (map fst T_fields)). vm_compute. auto.
  - apply tf_back; [reflexivity|discriminate|discriminate|intros []].
Qed.
Example C57_case : gdocument (go_reader c0) k0 ring_doc 3 0 [] ring_node ring_body 10 /\
  fits_type env0 (TyPtr (TyStruct 0)) ring_node /\
  unmarshal_mem k0 c0 env0 [CBuf ring_doc] [MCell (MPtr None)] ring_doc 0 (TyPtr (TyStruct 0)) (0, []) =
    (Ok ([CBuf ring_doc; CV GOpaque], [MCell (MPtr (Some 1)); MCell (MStruct [(0, MInt 7); (2, MPtr (Some 1))])]),
     [MCell (MPtr (Some 1)); MCell (MStruct [(0, MInt 7); (2, MPtr (Some 1))])]).
Proof. split; [apply ring_gdocument|]. split; [exact ring_fits|]. vm_compute. reflexivity. Qed.

(** The type matters: the same document is refused for a variable of type T, which has the shape of the
    document but is not a *T like the field that refers back to it. *)
Theorem C57_struct_ring_refuted : exists k c v b x body,
  d_perl c = false /\ gdocument (go_reader c) k b 3 0 [] x body (length body) /\
  fits_type v (TyPtr (TyStruct 0)) x /\
  exists e, fst (unmarshal_mem k c v [CBuf b] [MCell (mzero (TyStruct 0))] b 0 (TyStruct 0) (0, [])) = Err e.
Proof.
  exists k0, c0, env0, ring_doc, ring_node, ring_body. split; [reflexivity|]. split; [apply ring_gdocument|]. split; [exact ring_fits|].
  eexists. vm_compute. reflexivity.
Qed.
Print Assumptions C57_struct_ring_refuted.
