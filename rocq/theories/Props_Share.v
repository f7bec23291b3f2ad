(** C43: documents in which items are shared.

    [sdocument rd k b ver typ suffix d body e] (SpecShare.v): [b] is a document in which REFP and
    ALIAS tags may refer to earlier items; [d] is the data described, [DBack x] a reference to an
    earlier item describing [x].  [shown true d]: references to earlier items replaced by the items
    (DisableReferentialIntegrity).  [reads k c b d] (Roundtrip.v): Unmarshal succeeds and the
    resulting value holds the data [d]. *)
From Verif Require Import Base BaseFacts SpecVarint Varint VarintFacts Tags GoMem Codecs Encode Compress Header Decode
  Document Spec SpecValue SpecDoc SpecOptions SpecShare DecodeSafe DecodeSpec DocFacts
  Roundtrip OutcomeFacts RoundtripFacts WireFacts ShareDecode ShareFacts Cases.
From Coq Require Import Permutation ZifyBool ZifyNat ZifyN.

(** C43.  [undef, \that undef] is a document, but reading it fails. *)
Definition ref_to_undef : bytes := [x2b; x02; xa5; x29; x03].

Lemma ref_to_undef_document rd k : (forall s, 2 <= g_max (r_dialect rd s))%N -> (100 <= r_memory rd)%N ->
  sdocument rd k (raw_document 3 ref_to_undef) 3 0 [] (DArr [DUndef; DBack DUndef]) ref_to_undef 5.
Proof.
  intros G L. apply raw_is_sdocument; [lia|cbn [length ref_to_undef]; lia|].
  eexists. cbn [N.eqb Pos.eqb]. unfold ref_to_undef. set (by_ := x00 :: _).
  eapply (s_item _ _ _ _ 1 1 43); [tag_here|].
  eapply (s_array _ _ _ _ 1 2 3); [apply (vint1 by_ 2 x02); reflexivity|apply G|reflexivity|].
  eapply ss_cons.
  - eapply (s_item _ _ _ _ 3 3 37); [tag_here|]. apply s_plain; [right; now left|].
    eapply (i_undef _ _ _ 3 3). tag_here.
  - eapply ss_cons; [|apply ss_nil]. eapply (s_item _ _ _ _ 4 4 41); [tag_here|].
    eapply (s_refp _ _ _ _ 4 3 6); [apply (vint1 by_ 5 x03); reflexivity|cbn; lia| |reflexivity].
    exists xa5. split; [reflexivity|]. vm_compute. discriminate.
Qed.

Theorem C43_back_references_refuted : ~ (forall k c b ver typ suffix d body x,
  sdocument (go_reader c) k b ver typ suffix d body x -> reads k c b (shown (d_noref c) d)).
Proof.
  intros H.
  destruct (H k0 c0 _ _ _ _ _ _ _ (ref_to_undef_document (go_reader c0) k0 ltac:(cbn; lia) ltac:(cbn; lia)))
    as (h' & v & U & _).
  vm_compute in U. discriminate.
Qed.
Print Assumptions C43_back_references_refuted.

(** Every other document is read: whatever the version, the compression, the padding, the options,
    a REFP is a pointer to a copy of the item referred to, or with DisableReferentialIntegrity the
    item itself, and an ALIAS is the item itself.  Missing: references to nil, and references to an
    item from inside of it (cycles). *)
Theorem C43_back_references_partial : forall k c b ver typ suffix d body x,
  sdocument (go_reader c) k b ver typ suffix d body x ->
  (d_perl c = false -> forall y, within (DBack y) d -> ~ nilish y) ->
  reads k c b (shown (d_noref c) d).
Proof. exact sdocument_reads. Qed.
Print Assumptions C43_back_references_partial.

(** ["a", \"a", alias "a"]: the tag of the first "a" carries the track flag *)
Definition refs_body : bytes := [x2b; x03; xe1; x61; x29; x03; x2e; x03].
Definition refs_data : data := DArr [DBin [x61]; DBack (DBin [x61]); DBin [x61]].
Example C43_case : sdocument (go_reader c0) k0 (raw_document 2 refs_body) 2 0 [] refs_data refs_body 8 /\
  (forall y, within (DBack y) refs_data -> ~ nilish y) /\
  (exists h', unmarshal_fresh k0 c0 (raw_document 2 refs_body) = Ok (h', GSlice 3 3) /\
    nth_error h' 3 = Some (CV (GBytes (mkView 6 0 1))) /\ nth_error h' 4 = Some (CV (GPtr false 7)) /\
    nth_error h' 7 = Some (CV (GBytes (mkView 6 0 1))) /\ nth_error h' 5 = Some (CV (GBytes (mkView 6 0 1)))) /\
  (exists h', unmarshal_fresh k0 (mkDConfig false true (fun _ => None) (fun _ _ => true))
      (raw_document 2 refs_body) = Ok (h', GSlice 3 3) /\
    nth_error h' 4 = Some (CV (GBytes (mkView 6 0 1)))).
Proof.
  split; [|split; [|split]].
  - apply raw_is_sdocument; [lia|cbn; lia|].
    eexists. cbn [N.eqb Pos.eqb]. unfold refs_body. set (by_ := x00 :: _).
    eapply (s_item _ _ _ _ 1 1 43); [tag_here|].
    eapply (s_array _ _ _ _ 1 3 3); [apply (vint1 by_ 2 x03); reflexivity|cbn; lia|reflexivity|].
    assert (Mk : marked by_ 3) by (exists xe1; split; [reflexivity|vm_compute; discriminate]).
    eapply ss_cons.
    + eapply (s_item _ _ _ _ 3 3 97); [tag_here|]. apply s_plain; [unfold plain_tag; lia|].
      eapply (i_str _ _ _ 3 false [x61] 5). eapply (lit_short _ _ 3 3 97); [tag_here|lia|at_here 4|reflexivity].
    + eapply ss_cons.
      * eapply (s_item _ _ _ _ 5 5 41); [tag_here|].
        eapply (s_refp _ _ _ _ 5 3 7); [apply (vint1 by_ 6 x03); reflexivity|cbn; lia|exact Mk|reflexivity].
      * eapply ss_cons; [|apply ss_nil]. eapply (s_item _ _ _ _ 7 7 46); [tag_here|].
        eapply (s_alias _ _ _ _ 7 3 9); [apply (vint1 by_ 8 x03); reflexivity|cbn; lia|exact Mk|reflexivity].
  - intros y W. inversion W as [|ds d Hin Hw| | | | |]; subst. destruct Hin as [<-|[<-|[<-|[]]]]; inversion Hw; subst;
      intros N; try (match goal with K : within _ (DBin _) |- _ => inversion K end); inversion N.
  - eexists. split; [vm_compute; reflexivity|]. repeat split.
  - eexists. split; [vm_compute; reflexivity|]. reflexivity.
Qed.
