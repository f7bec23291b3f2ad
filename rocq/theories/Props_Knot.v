(** C54: values with any sharing and any cycles, from Marshal to Unmarshal.

    [kden perl nofreeze pf lay h S r v x Y] (SpecKnot.v): a traversal of [v] in memory [h], in
    which a pointer met before is a reference to the item recorded for it, describes the graph [x].
    [gdocument] (SpecCycle.v): a document describes [x].  [reads_node k c b x] (CycleFacts.v):
    Unmarshal succeeds and the value is what [x] describes, every marked item being one Go value.
    [any_proper], [go_proper] (KnotMarshal.v): conditions on each variable on its own (lengths that fit, different
    keys); pointers may lead anywhere. *)
From Verif Require Import Base BaseFacts SpecVarint Varint VarintFacts Tags GoMem Codecs Encode Compress Header Decode
  Document Spec SpecValue SpecDoc SpecOptions SpecShare SpecGraph SpecCycle SpecKnot SpecOutcome DecodeSafe DecodeSpec DocFacts
  Roundtrip OutcomeFacts RoundtripFacts WireFacts CycleDecode CycleFacts KnotMarshal Cases.
From Coq Require Import Permutation ZifyBool ZifyNat ZifyN.

Notation traversal e h v x := (exists Y, kden (e_perl e) (e_nofreeze e) (e_parsefloat e) (e_layout e) h [] false v x Y).

(** C54.  What Marshal writes describes the graph of the value, for all options and versions,
    compressed or not. *)
Theorem C54_graph_written : forall k e h v b, sane_world e -> (1 <= proto e <= 3)%N -> any_proper e h v ->
  outcome (fun n => Marshal k n e h v) (Ok b) ->
  exists b0, outcome (fun n => Marshal k n (without_compression e) h v) (Ok b0) /\ (e_comp e = None -> b = b0) /\
    ((Z.of_nat (length b0) < two63 - 1)%Z -> (Z.of_nat (length b) < two63)%Z ->
     exists x, traversal e h v x /\
      (exists body, gdocument standard k b0 (proto e) 0 [] x body (length body)) /\
      (lossless k -> supported (proto e) (e_comp e) ->
       exists typ body, gdocument standard k b (proto e) typ [] x body (length body))).
Proof.
  intros k e h v b W V P O. destruct (knot_published k e h W V v b P O) as (b0 & O0 & En & D).
  exists b0. split; [exact O0|]. split; [exact En|]. intros L1 L2. destruct (D L1 L2) as (x & T & _ & D0 & D1). eauto.
Qed.
Print Assumptions C54_graph_written.

(** type T struct { N *T }; t.N = &t *)
Definition ring_fields : list fdecl := [mkField [x4e] [] true].
Definition h_ring : heap := [CV (GStruct [x54] ring_fields 1); CV (GPtr false 0)].
Definition doc_ring : bytes := [x3d; xf3; x72; x6c; x03; x00; xa8; x2c; x61; x54; x2a; x01; x27; x01; x4e; x29; x01].

Lemma ring_table : field_table ring_fields [([x4e], 0)].
Proof.
  split; [repeat constructor; intros []|]. intros k i. split.
  - intros [[= <- <-]|[]]. eexists. split; [reflexivity|]. split; [reflexivity|].
    intros [|j] f' Hj Hf; [lia|]. destruct j; discriminate Hf.
  - intros (f' & H & K & _). destruct i as [|i]; [|destruct i; discriminate H]. injection H as <-. injection K as <-. now left.
Qed.
Lemma ring_proper c : go_proper c e0 h_ring (GPtr false 0).
Proof.
  split; [|constructor]. split; [|split].
  - intros l. destruct l as [|l].
    { change (hget h_ring 0) with (GStruct [x54] ring_fields 1).
      eapply pr_struct with (tags := [([x4e], 0)]); [vm_compute; discriminate|exact ring_table|vm_compute; discriminate|].
      intros k i [[= <- <-]|[]]. vm_compute; discriminate. }
    destruct l as [|l]; [constructor|]. destruct l; constructor.
  - intros l k v H. unfold hmap, h_ring in H. do 3 (destruct l as [|l]; [destruct H|]). destruct H.
  - intros l k v H. unfold htmap, h_ring in H. do 3 (destruct l as [|l]; [destruct H|]). destruct H.
Qed.
Lemma ring_written : outcome (fun n => Marshal k0 n e0 h_ring (GPtr false 0)) (Ok doc_ring).
Proof. apply outcome_marshal with 10. vm_compute. reflexivity. Qed.

(** By default a ring of structs is written but not read. *)
Theorem C54_round_trip_refuted : ~ (forall k c e h v b, sane_world e -> (1 <= proto e <= 3)%N -> go_proper c e h v ->
  e_comp e = None -> outcome (fun n => Marshal k n e h v) (Ok b) -> (N.of_nat (length b) <= 1000)%N ->
  exists x, traversal e h v x /\ reads_node k c b x).
Proof.
  intros H.
  destruct (H k0 c0 e0 h_ring (GPtr false 0) doc_ring (eopt_sane _ _ _ _) ltac:(cbn; lia) (ring_proper c0) eq_refl
    ring_written ltac:(cbn; lia)) as (x & _ & h' & v & L & U & _).
  vm_compute in U. discriminate.
Qed.
Print Assumptions C54_round_trip_refuted.

(** In the Perl-compatible mode everything is read back, and in both modes all values made of scalars, slices,
    maps, frozen objects and pointers to these other than nil ([tame], SpecKnot.v); missing: cycles through
    structs and objects, pointers to pointers, and two pointers to the same nil, by default. *)
Theorem C54_round_trip_partial : forall k c e h v b, sane_world e -> (1 <= proto e <= 3)%N -> go_proper c e h v ->
  d_perl c = true \/ (tame_memory h /\ tame h v) ->
  outcome (fun n => Marshal k n e h v) (Ok b) -> (N.of_nat (length b) <= 2147483647)%N ->
  e_comp e = None \/ (lossless k /\ supported (proto e) (e_comp e) /\
    forall b0, outcome (fun n => Marshal k n (without_compression e) h v) (Ok b0) -> (N.of_nat (length b0) <= 281474976710656)%N) ->
  exists x, traversal e h v x /\ reads_node k c b x.
Proof.
  intros k c e h v b W V P T O L Cc. destruct (knot_read_back k e h W V c v b P O) as (b0 & O0 & En & D).
  destruct D as (x & Tx & _ & D); [|exact L|].
  { destruct Cc as [Cn|(_ & _ & Cl)]; [|now apply Cl]. rewrite <- (En Cn). lia. }
  exists x. split; [exact Tx|]. destruct D as [D0 D1]; [tauto|].
  destruct Cc as [Cn|(Lo & Su & _)]; [now rewrite (En Cn)|auto].
Qed.
Print Assumptions C54_round_trip_partial.

(** m := map[string]interface{}{}; m["a"] = &m *)
Definition h_loop : heap := [CMap [([x61], GPtr true 1)]; CV (GMap 0)].
Definition doc_loop : bytes := [x3d; xf3; x72; x6c; x03; x00; xa8; x2a; x01; x27; x01; x61; x29; x01].
Example C54_case :
  (forall c, go_proper c e0 h_loop (GPtr true 1)) /\ tame_memory h_loop /\ tame h_loop (GPtr true 1) /\
  outcome (fun n => Marshal k0 n e0 h_loop (GPtr true 1)) (Ok doc_loop) /\
  (forall c, d_perl c = true -> exists x, traversal e0 h_ring (GPtr false 0) x /\ reads_node k0 c doc_ring x) /\
  traversal e0 h_loop (GPtr true 1) (NAt 0 (NRef (NHash [([x61], NBack 0)]))).
Proof.
  assert (Tp : tame h_loop (GPtr true 1)) by (right; right; right; right; left; exists true, 1; auto).
  split; [|split; [|split; [|split; [|split]]]].
  - intros c. split; [|constructor]. split; [|split].
    + intros l. destruct l as [|l]; [constructor|]. destruct l as [|l]; [|destruct l; constructor].
      constructor; [repeat constructor; intros []|vm_compute; discriminate|]. intros k v [[= <- <-]|[]]. vm_compute; discriminate.
    + intros l k v H. unfold hmap, h_loop in H. destruct l as [|l]; [destruct H as [[= <- <-]|[]]; constructor|].
      do 2 (destruct l as [|l]; [destruct H|]). destruct H.
    + intros l k v H. unfold htmap, h_loop in H. do 3 (destruct l as [|l]; [destruct H|]). destruct H.
  - split; [|split].
    + intros l. destruct l as [|l]; [now left|]. destruct l as [|l]; [now right; left|]. left. destruct l; reflexivity.
    + intros l k v H. unfold hmap, h_loop in H. destruct l as [|l]; [destruct H as [[= <- <-]|[]]; exact Tp|].
      do 2 (destruct l as [|l]; [destruct H|]). destruct H.
    + intros l k v H. unfold htmap, h_loop in H. do 3 (destruct l as [|l]; [destruct H|]). destruct H.
  - exact Tp.
  - apply outcome_marshal with 10. vm_compute. reflexivity.
  - intros c Hc. apply (C54_round_trip_partial k0 c e0 h_ring (GPtr false 0) doc_ring); auto.
    + apply eopt_sane. + cbn; lia. + apply ring_proper. + apply ring_written. + cbn; lia.
  - eexists. apply (kd_item _ _ _ _ _ _ (Some 0)). apply kb_ptr; [reflexivity|reflexivity|].
    apply (kd_item _ _ _ _ _ _ None). eapply kb_map with (m := [([x61], GPtr true 1)]).
    + repeat constructor. intros [].
    + reflexivity.
    + eapply (kdm_cons _ _ _ _ _ _ _ _ []); [|apply kdm_nil]. apply (kd_item _ _ _ _ _ _ None). apply kb_back; reflexivity.
    + now apply bx_as.
Qed.
