(** C47: a document that is read and written again.

    [document (go_reader c) k b ver typ suffix d body e] (SpecDoc.v): [b] is a document with data [d]
    within the reader's limits (C07).  [deep h h' v v'] (SpecRewrite.v): the values [v] in memory [h] and
    [v'] in memory [h'] are deeply equal.  [outcome f (Ok b)] (SpecOutcome.v): the call [f] ends with
    result [b]. *)
From Verif Require Import Base BaseFacts SpecVarint Varint VarintFacts Tags GoMem GoTypes TagsCache Codecs Encode Compress Header Decode
  Document Spec SpecValue SpecDoc SpecOptions SpecOutcome SpecRewrite DecodeSpec DocFacts Roundtrip OutcomeFacts RoundtripFacts
  WireFacts RewriteFacts Cases.
From Coq Require Import ZifyBool ZifyNat ZifyN.

(** C47.  An object frozen by another program is read as a *PerlFreeze, and Marshal writes that as an
    ordinary object. *)
Definition frozen_x : bytes := [x32; x61; x54; x28; x2b; x01; x61; x78].
Lemma frozen_document : document (go_reader c0) k0 (raw_document 3 frozen_x) 3 0 [] (DFreeze [x54] [x78]) frozen_x 8.
Proof.
  apply raw_is_document; [lia|cbn; lia|]. unfold body_item. cbn [N.eqb Pos.eqb]. unfold frozen_x. set (by_ := x00 :: _).
  eapply (i_freeze _ _ _ 1 1 [x54] 4 1 7); [tag_here| |at_here 4|apply (vint1 by_ 6 x01); reflexivity|reflexivity| |cbn; auto].
  - apply (str_lit _ _ _ 2 false [x54] 4). apply (lit_short _ _ 2 2 97 [x54]); [tag_here|lia|at_here 3|reflexivity].
  - apply (i_str _ _ _ 7 false [x78] 9). apply (lit_short _ _ 7 7 97 [x78]); [tag_here|lia|at_here 8|reflexivity].
Qed.

Theorem C47_rewrite_refuted : ~ (forall k c e b ver typ suffix d body x h v b0,
  document (go_reader c) k b ver typ suffix d body x -> d_perl c = false -> sane_world e -> (1 <= proto e <= 3)%N ->
  (Z.of_nat (nesting d) < depth_limit e)%Z -> unmarshal_fresh k c b = Ok (h, v) ->
  outcome (fun n => Marshal k n (without_compression e) h v) (Ok b0) -> (N.of_nat (length b0) <= 281474976710656)%N ->
  exists h' v', unmarshal_fresh k c b0 = Ok (h', v') /\ deep h h' v v').
Proof.
  intros H.
  destruct (unmarshal_fresh k0 c0 (raw_document 3 frozen_x)) as [[h v]| | | |] eqn:U; try (vm_compute in U; discriminate).
  assert (O : exists b0, Marshal k0 5 (without_compression e0) h v = Ok b0 /\ (N.of_nat (length b0) <= 281474976710656)%N /\
    exists h' l, unmarshal_fresh k0 c0 b0 = Ok (h', GMap l) /\ exists l', v = GPtr false l').
  { vm_compute in U. injection U as <- <-. eexists. split; [vm_compute; reflexivity|]. split; [vm_compute; discriminate|].
    do 2 eexists. split; [vm_compute; reflexivity|eauto]. }
  destruct O as (b0 & O & L & h' & l & U' & l' & ->).
  destruct (H k0 c0 e0 _ _ _ _ _ _ _ h (GPtr false l') b0 frozen_document eq_refl (eopt_sane _ _ _ _)) as (h2 & v2 & U2 & D); auto.
  - cbn; lia.
  - cbn; lia.
  - eapply outcome_marshal, O.
  - rewrite U' in U2. injection U2 as <- <-. inversion D.
Qed.
Print Assumptions C47_rewrite_refuted.

(** Every other document: whatever its version, compression, padding, number formats and COPY tags,
    Marshal succeeds on what was read unless it nests too deep, and Unmarshal of the result gives a
    deeply equal value; with compression too.  Missing: documents with REFP and ALIAS, and
    Perl-compatible mode. *)
Theorem C47_rewrite_partial : forall k c c2 e b ver typ suffix d body x,
  document (go_reader c) k b ver typ suffix d body x -> thawed d = true ->
  d_perl c = false -> d_perl c2 = false -> sane_world e -> (1 <= proto e <= 3)%N ->
  (Z.of_nat (nesting d) < depth_limit e)%Z ->
  exists h v b0, unmarshal_fresh k c b = Ok (h, v) /\
    outcome (fun n => Marshal k n (without_compression e) h v) (Ok b0) /\
    ((N.of_nat (length b0) <= 281474976710656)%N ->
     (exists h' v', unmarshal_fresh k c2 b0 = Ok (h', v') /\ deep h h' v v') /\
     (lossless k -> supported (proto e) (e_comp e) -> forall b1,
      outcome (fun n => Marshal k n e h v) (Ok b1) -> (N.of_nat (length b1) <= 2147483647)%N ->
      exists h' v', unmarshal_fresh k c2 b1 = Ok (h', v') /\ deep h h' v v')).
Proof. exact rewritten. Qed.
Print Assumptions C47_rewrite_partial.

(** [5, {"a": true, "b": true}], written with COPY, comes out without it. *)
Definition copied : bytes := [x42; x05; x52; x61; x61; x3b; x61; x62; x2f; x06].
Example C47_case : document (go_reader c0) k0 (raw_document 3 copied) 3 0 []
    (DRef (DArr [DInt 5; DRef (DHash [([x61], DBool true); ([x62], DBool true)])])) copied 10 /\
  match unmarshal_fresh k0 c0 (raw_document 3 copied) with
  | Ok (h, v) => match Marshal k0 9 e0 h v with
     | Ok b => b = raw_document 3 [x2b; x02; x05; x2a; x02; x27; x01; x61; x3b; x27; x01; x62; x3b]
     | _ => False
     end
  | _ => False
  end.
Proof.
  split; [|vm_compute; reflexivity].
  apply raw_is_document; [lia|cbn; lia|]. unfold body_item. cbn [N.eqb Pos.eqb]. unfold copied. set (by_ := x00 :: _).
  eapply (i_arrayref _ _ _ 1 1 66); [tag_here|lia|reflexivity|].
  eapply is_cons; [apply (i_pos _ _ _ 2 2 5); [tag_here|lia]|]. eapply is_cons; [|apply is_nil].
  eapply (i_hashref _ _ _ 3 3 82); [tag_here|lia|reflexivity|].
  eapply (ps_cons _ _ _ 4 [x61] 6 _ 7).
  { apply (str_lit _ _ _ 4 false [x61] 6). apply (lit_short _ _ 4 4 97 [x61]); [tag_here|lia|at_here 5|reflexivity]. }
  { apply (i_true _ _ _ 6 6). tag_here. }
  eapply (ps_cons _ _ _ 7 [x62] 9 _ 11); [| |apply ps_nil].
  { apply (str_lit _ _ _ 7 false [x62] 9). apply (lit_short _ _ 7 7 97 [x62]); [tag_here|lia|at_here 8|reflexivity]. }
  eapply (i_copy _ _ 9 9 6 11); [tag_here|apply (vint1 by_ 10 x06); reflexivity|cbn; lia| |].
  - split; [cbn; lia|]. discriminate.
  - apply (i_true _ _ _ 6 6). tag_here.
Qed.
