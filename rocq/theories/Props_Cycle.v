(** C53: documents whose items refer to each other in any way, cycles included.

    [gdocument rd k b ver typ suffix x body e] (SpecCycle.v): [b] is a document in which REFP and
    ALIAS tags may refer to any marked item met before, also to one they are inside of; [x] is the
    graph described: [NAt i y] is the marked item number [i], [NBack i] a reference to it, [NSame i]
    the item itself.  [reads_node k c b x] (CycleFacts.v): Unmarshal succeeds, and the value is what
    [x] describes, where number [i] is one Go value [L i] wherever it occurs.  [followable perl x]
    (SpecCycle.v): no reference to nil, and none to an item of which the Go value does not exist
    before its contents are read. *)
From Verif Require Import Base BaseFacts SpecVarint Varint VarintFacts Tags GoMem Codecs Encode Compress Header Decode
  Document Spec SpecValue SpecDoc SpecOptions SpecShare SpecCycle DecodeSafe DecodeSpec DocFacts
  Roundtrip OutcomeFacts RoundtripFacts WireFacts ShareDecode ShareFacts CycleDecode CycleFacts Cases.
From Coq Require Import Permutation ZifyBool ZifyNat ZifyN.

(** C53.  An object of class "A", an array with a reference to the object: not read by default,
    but in the Perl-compatible mode. *)
Definition own_object : bytes := [xac; x61; x41; x2b; x01; x29; x01].
Definition own_node : node := NAt 0 (NObj [x41] (NArr [NBack 0])).

Lemma own_object_document rd k : (forall s, 1 <= g_max (r_dialect rd s))%N -> (100 <= r_memory rd)%N ->
  gdocument rd k (raw_document 3 own_object) 3 0 [] own_node own_object 7.
Proof.
  intros G L. apply raw_is_gdocument; [lia|cbn [length own_object]; lia|].
  exists ([] ++ [1]). cbn [N.eqb Pos.eqb]. unfold own_object. set (by_ := x00 :: _).
  assert (U : forall b n, nth_error by_ n = Some b -> (b2n b < 128)%N -> ~ marked by_ n).
  { intros b n H1 H2 (b' & H3 & H4). rewrite H1 in H3. injection H3 as <-. lia. }
  eapply (g_on _ _ [] _ 1 1 44); [tag_here|exists xac; split; [reflexivity|vm_compute; discriminate]|].
  eapply (g_object _ _ _ _ 1 [x41] 4).
  - eapply (str_lit _ _ _ 2 false). eapply (lit_short _ _ 2 2 97); [tag_here|lia|at_here 3|reflexivity].
  - eapply (g_off _ _ _ _ 4 4 43); [tag_here|apply (U x2b); [reflexivity|vm_compute; reflexivity]|].
    eapply (g_array _ _ _ _ 4 1 6); [apply (vint1 by_ 5 x01); reflexivity|apply G|reflexivity|].
    change (@nil nat) with (@nil nat ++ []). eapply gs_cons; [|apply gs_nil].
    eapply (g_off _ _ _ _ 6 6 41); [tag_here|apply (U x29); [reflexivity|vm_compute; reflexivity]|].
    eapply (g_refp _ _ _ _ 6 1 8); [apply (vint1 by_ 7 x01); reflexivity|cbn; lia|reflexivity].
Qed.

Theorem C53_cycles_refuted : ~ (forall k c b ver typ suffix x body e,
  gdocument (go_reader c) k b ver typ suffix x body e -> reads_node k c b x).
Proof.
  intros H.
  destruct (H k0 c0 _ _ _ _ _ _ _ (own_object_document (go_reader c0) k0 ltac:(cbn; lia) ltac:(cbn; lia)))
    as (h' & v & L & U & _).
  vm_compute in U. discriminate.
Qed.
Print Assumptions C53_cycles_refuted.
Example C53_refuted_perl : reads_node k0 c1 (raw_document 3 own_object) own_node.
Proof.
  eapply gdocument_reads; [apply own_object_document; [cbn; lia|cbn; lia]|].
  exists (fun _ => False). cbn. tauto.
Qed.

(** Every other document is read, whatever the version, the compression, the padding and the options:
    slices, maps and pointers are shared and form cycles as in the document.  Missing: references to
    nil, and by default references to an object or a frozen object from inside of it. *)
Theorem C53_cycles_partial : forall k c b ver typ suffix x body e,
  gdocument (go_reader c) k b ver typ suffix x body e -> followable (d_perl c) x ->
  reads_node k c b x.
Proof. exact gdocument_reads. Qed.
Print Assumptions C53_cycles_partial.

(** x = \{"a": x} *)
Definition loop_body : bytes := [xa8; x2a; x01; x61; x61; x29; x01].
Definition loop_node : node := NAt 0 (NRef (NHash [([x61], NBack 0)])).
Example C53_case :
  (forall c, gdocument (go_reader c) k0 (raw_document 3 loop_body) 3 0 [] loop_node loop_body 7) /\
  (forall p, followable p loop_node) /\
  (exists h', unmarshal_fresh k0 c0 (raw_document 3 loop_body) = Ok (h', GMap 3) /\
    nth_error h' 3 = Some (CMap [([x61], GPtr false 5)]) /\ nth_error h' 5 = Some (CV (GMap 3))) /\
  (exists h' l m q, unmarshal_fresh k0 c1 (raw_document 3 loop_body) = Ok (h', GPtr true l) /\
    nth_error h' l = Some (CV (GMap m)) /\ nth_error h' m = Some (CMap [([x61], GPtr false q)]) /\
    nth_error h' q = Some (CV (GPtr true l))).
Proof.
  split; [|split; [|split]].
  - intros c. apply raw_is_gdocument; [lia|cbn; lia|].
    exists ([] ++ [1]). cbn [N.eqb Pos.eqb]. unfold loop_body. set (by_ := x00 :: _).
    assert (U : forall b n, nth_error by_ n = Some b -> (b2n b < 128)%N -> ~ marked by_ n).
    { intros b n H1 H2 (b' & H3 & H4). rewrite H1 in H3. injection H3 as <-. lia. }
    eapply (g_on _ _ [] _ 1 1 40); [tag_here|exists xa8; split; [reflexivity|vm_compute; discriminate]|].
    apply g_refn. eapply (g_off _ _ _ _ 2 2 42); [tag_here|apply (U x2a); [reflexivity|vm_compute; reflexivity]|].
    eapply (g_hash _ _ _ _ 2 1 4); [apply (vint1 by_ 3 x01); reflexivity|cbn; lia|reflexivity|].
    change (@nil nat) with (@nil nat ++ []). eapply gp_cons; [| |apply gp_nil].
    + eapply (str_lit _ _ _ 4 false _ 6). eapply (lit_short _ _ 4 4 97); [tag_here|lia|at_here 5|reflexivity].
    + eapply (g_off _ _ _ _ 6 6 41); [tag_here|apply (U x29); [reflexivity|vm_compute; reflexivity]|].
      eapply (g_refp _ _ _ _ 6 1 8); [apply (vint1 by_ 7 x01); reflexivity|cbn; lia|reflexivity].
  - intros p. exists (fun _ => False). destruct p; cbn; intuition discriminate.
  - eexists. split; [vm_compute; reflexivity|]. split; reflexivity.
  - eexists _, _, _, _. split; [vm_compute; reflexivity|]. repeat split; reflexivity.
Qed.
