(** C76: merging a compressed document is merging what DecompressDocument makes of it.

    [DecompressDocument k p mm dst b] runs in a memory [mm] of byte arrays and returns a slice
    [out] and the memory [mm'] (see Props_Documents.v); [Append k w g m b spare] is the Merger's
    Append, where [spare] is what lies between the length and the capacity of b. *)
From Verif Require Import Base SpecVarint Tags GoMem Codecs Compress Header Document SpecDoc SpecHeader GoSlice Redocument RedocFacts
  Merge SpecMerge SpecTaken SpecCut RemergeFacts Cases Props_Documents Props_Merge.

(** Whatever the Merger and the document, the two calls have the same result and leave the same
    Merger, if the bytes beyond the end of the decompressed document are the same; these do not
    depend on the Merger. *)
Theorem C76_remerge k w p mm dst b ver typ ln n rest out mm' :
  slice_ok mm dst -> starts b ver typ ln n rest -> (Z.of_N n < two63)%Z ->
  DecompressDocument k p mm dst b = Ok (out, mm') ->
  forall spare, exists spare', forall g m,
    Append k w g m b spare = Append k w g m (contents mm' out) spare'.
Proof.
  intros Hd S Hn E spare. destruct (merger_doc_redoc k w p mm dst b ver typ ln n rest out mm' Hd S Hn E) as [f Hf].
  exists (f spare). intros g m. apply Append_doc, Hf.
Qed.
Print Assumptions C76_remerge.

(** With a decompressed document clear of the hazards of C33 (tags cut short, mainly), those
    bytes do not matter: after any successful calls, both calls do exactly the same, and answer. *)
Theorem C76_remerge_safe k w v before m g p mm dst b ver typ ln n rest out mm' :
  slice_ok mm dst -> starts b ver typ ln n rest -> (Z.of_N n < two63)%Z ->
  DecompressDocument k p mm dst b = Ok (out, mm') ->
  (v = 0 \/ v = 2 \/ v = 3)%N -> append_all k w (new_merger v) before = Some m ->
  (Z.of_nat (length (contents mm' out)) < two63)%Z -> ~ hazard k (g_flat g) (g_top g) (contents mm' out) ->
  (g_expected g = 0 \/ 5 <= g_expected g) ->
  (forall body, body_taken k (contents mm' out) body -> N.of_nat (sl_len (m_buf m) + 11 * length body) < 9223372036854775000)%N ->
  forall spare spare', Append k w g m b spare = Append k w g m (contents mm' out) spare' /\
    match fst (Append k w g m b spare) with Ok _ | Err _ => True | _ => False end.
Proof.
  intros Hd S Hn E Hv A L Hz Ex Sz spare spare'.
  destruct (C76_remerge k w p mm dst b ver typ ln n rest out mm' Hd S Hn E spare) as [sp Q].
  destruct (C33_append_safe_partial k w v before m g (contents mm' out) Hv A L Hz Ex Sz spare') as [Sf Ind].
  rewrite Q, Ind. split; [reflexivity|exact Sf].
Qed.
Print Assumptions C76_remerge_safe.

(** A document of a type that its version defines, and with a complete header, which DecompressDocument
    refuses: Append refuses it with the same error and leaves the Merger as it is; a Merger that is
    not initialised yet, or finished, does not accept it either. *)
Theorem C76_refused_partial k w p mm dst b ver typ ln n rest e :
  slice_ok mm dst -> starts b ver typ ln n rest -> type_defined ver typ -> (Z.of_N n < two63)%Z ->
  5 + length ln + N.to_nat n <= length b -> (Z.of_nat (length b) < two63)%Z ->
  DecompressDocument k p mm dst b = Err e ->
  forall g m spare, (m_inited m = true -> m_finished m = false -> Append k w g m b spare = (Err e, m)) /\
    forall count, fst (Append k w g m b spare) <> Ok count.
Proof.
  intros Hd S T Hn Lh Ls E g m spare.
  pose proof (merger_doc_refused k w p mm dst b ver typ ln n rest e Hd S T Hn Lh Ls E spare) as R. unfold Append. split.
  - intros In Fi. unfold initMerger. rewrite In, Fi, R. reflexivity.
  - intros count. destruct (initMerger w g m) as [[u|? |? | |] m1]; cbn [fst bind]; try discriminate.
    destruct (m_finished m1); [discriminate|]. rewrite R. discriminate.
Qed.
Print Assumptions C76_refused_partial.

(** Without the condition on the type this is false: Append ignores the error and merges the body
    of a document of an unknown type as it is. *)
Definition unknown_type : bytes := [x3d;xf3;x72;x6c;x93;x00;x01].
Theorem C76_refused_refuted :
  ~ (forall k w p mm dst b e, slice_ok mm dst -> DecompressDocument k p mm dst b = Err e ->
       forall g m spare count, fst (Append k w g m b spare) <> Ok count).
Proof.
  intros H. apply (H k0 w0 p0 [] nil_slice unknown_type (EDocType 9) ltac:(split; cbn; auto) eq_refl g0 (new_merger 3) [] 1%Z).
  vm_compute. reflexivity.
Qed.
Print Assumptions C76_refused_refuted.

(** a zlib body that cannot be read, and a Merger holding one document *)
Definition spoilt : bytes := [x3d;xf3;x72;x6c;x33;x00; x06;x09;x78; x2b].
Example C76_refused_case : exists e, starts spoilt 3 3 [x00] 0 [x06;x09;x78;x2b] /\ type_defined 3 3 /\
  DecompressDocument k0 p0 [] nil_slice spoilt = Err e /\
  let m := snd (Append k0 w0 g0 (new_merger 3) (with3 [x01]) []) in
  m_inited m = true /\ m_finished m = false /\ Append k0 w0 g0 m spoilt [x73] = (Err e, m).
Proof.
  eexists. split; [|split; [|split; [vm_compute; reflexivity|]]].
  - split; [lia|]. split; [lia|]. exists x33. repeat split; try (vm_compute; reflexivity); try (cbn; lia).
    all: try (now constructor).
  - right; right; right; left. split; [reflexivity|lia].
  - repeat split; vm_compute; reflexivity.
Qed.

(** the document of C33_case, compressed with zlib *)
Definition packed_cut : bytes := [x3d;xf3;x72;x6c;x33;x00; x06;x07;x78; x2b;x03;x63;x31;x22;x2c].
Example C76_case : exists out mm',
  starts packed_cut 3 3 [x00] 0 [x06;x07;x78; x2b;x03;x63;x31;x22;x2c] /\
  DecompressDocument k0 p0 [] nil_slice packed_cut = Ok (out, mm') /\
  ~ hazard k0 false 0 (contents mm' out) /\
  fst (Append k0 w0 g0 (new_merger 3) packed_cut [x73]) = Ok 1%Z /\
  Append k0 w0 g0 (new_merger 3) packed_cut [x73] = Append k0 w0 g0 (new_merger 3) (contents mm' out) [x01; x02].
Proof.
  eexists _, _. split; [|split; [vm_compute; reflexivity|]].
  - split; [lia|]. split; [lia|]. exists x33. repeat split; try (vm_compute; reflexivity); try (cbn; lia).
    all: try (now constructor).
  - split; [exact (proj1 C33_case)|]. split; vm_compute; reflexivity.
Qed.
