(** C08-C14, C21, C24-C26: Unmarshal on arbitrary bytes.

    [call_result k c dec q]: what the caller gets from one call on a Decoder in any state [dec]
    (COPY counter, table of tracked references); [unmarshal_fresh], [unmarshal_header_fresh]:
    Unmarshal and UnmarshalHeader with a new Decoder (Document.v).  [observe n h v]: what is
    seen of [v] down to depth [n] (SpecObserve.v).  [starts], [acceptable], [harmless]:
    SpecHeader.v. *)
From Verif Require Import Base BaseFacts SpecVarint Varint VarintFacts Tags GoMem Codecs Encode Compress Header Decode
  Document Spec SpecValue SpecDoc SpecHeader SpecObserve SpecOptions SpecOutcome DecodeSafe DecodeSpec DocFacts
  Roundtrip OutcomeFacts RoundtripFacts HeaderFacts ApiFacts ApiSafe ApiProps HeaderRound LooksFacts WireFacts Cases.
From Coq Require Import Permutation ZifyBool ZifyNat ZifyN.

(** C08.  A document of 16 bytes makes Unmarshal slice b[-1:], one of 7 bytes makes
    UnmarshalHeader index past the end, one of 18 bytes makes it ask for 2^63-1 bytes. *)
Definition wrapping_doc : bytes := [x3d;xf3;x72;x6c;x03;xf1;xff;xff;xff;xff;xff;xff;xff;xff;x01;x01].
Definition padded_doc : bytes := [x3d;x73;x72;x6c;x02;x80;x00].
Definition huge_zlib_doc : bytes :=
  [x3d;xf3;x72;x6c;x33;x00;xff;xff;xff;xff;xff;xff;xff;xff;x7f;x02;x78;x25].
Theorem C08_no_crash_refuted : ~ (forall k c b, unmarshal_fresh k c b <> Crash) /\
  ~ (forall k c b, unmarshal_header_fresh k c b <> Crash) /\
  unmarshal_fresh k0 c0 huge_zlib_doc = Crash.
Proof.
  split; [intros H; apply (H k0 c0 wrapping_doc); vm_compute; reflexivity|].
  split; [intros H; apply (H k0 c0 padded_doc); vm_compute; reflexivity|]. vm_compute. reflexivity.
Qed.
Print Assumptions C08_no_crash_refuted.

(** Nothing else crashes: whatever the bytes, the Decoder's past and the codecs, a call
    that avoids these three returns a value or an error. *)
Theorem C08_no_crash_partial : forall k c dec q,
  (let '(b, vh, vb) := req_targets q in harmless vh vb b) ->
  (exists r, call_result k c dec q = Ok r) \/ (exists er, call_result k c dec q = Err er).
Proof.
  intros k c dec q H. unfold call_result. pose proof (call_wpc k c dec q) as W. rewrite call_raw_eq in *.
  pose proof (req_ok dec q) as T. destruct (req_targets q) as [[b vh] vb].
  destruct T as (T1 & T2 & Dj).
  pose proof (raw_nocrash k c b 0 vh vb (ready_d b dec) T1 T2 Dj H) as N.
  destruct (unmarshal_raw k c b 0 vh vb (ready_d b dec)) as [[u|er|er| |] s']; cbn in *; eauto; contradiction.
Qed.
Print Assumptions C08_no_crash_partial.

Example C08_case : harmless TgtNone (TgtIface 2) (firstn 15 doc0) /\
  call_result k0 c0 new_decoder (ReqBody (firstn 15 doc0)) = Err ETruncated.
Proof.
  split; [|vm_compute; reflexivity]. intros ver typ l n rest S. split; [congruence|]. intros _.
  assert (S2 : starts (firstn 15 doc0) 3 0 [x00] 0 (skipn 6 (firstn 15 doc0))).
  { split; [lia|]. split; [lia|]. exists x03. split; [reflexivity|]. split; [reflexivity|].
    split; [apply (vg_last x00); reflexivity|cbn; lia]. }
  destruct (starts_det _ _ _ _ _ _ _ _ _ _ _ S S2) as (-> & -> & -> & -> & _). split; [intros _; vm_compute; discriminate|discriminate].
Qed.

(** C09.  Every call finishes, with nested calls of decode at most 2n+4 deep, n being the
    length of the bytes decoded: a larger allowance changes nothing. *)
Theorem C09_recursion_depth : forall k c,
  (forall dec q, fst (call_raw k c dec q) <> NoFuel) /\
  (forall by_ b shift idx l copy, l = 1 \/ l = 2 -> exists r h, r <> NoFuel /\
     forall fuel, 2 * length by_ + 4 <= fuel ->
       fst (decode c by_ 0 shift fuel idx l (ready b copy)) = r /\
       d_heap (snd (decode c by_ 0 shift fuel idx l (ready b copy))) = h).
Proof.
  intros k c. split.
  - intros dec q E. pose proof (call_wpc k c dec q) as W. destruct (call_raw k c dec q) as [r s'].
    cbn in E. subst r. exact W.
  - intros by_ b shift idx l copy Hl. destruct (depth_enough c by_ b shift idx l copy Hl) as (r & h & N & _ & H). eauto.
Qed.
Print Assumptions C09_recursion_depth.

(** a COPY that points at itself, nested references *)
Example C09_case : call_result k0 c0 new_decoder (ReqBody (firstn 6 doc0 ++ [x28; x28; x2f; x02])) = Err ENestedCOPY /\
  fst (decode c0 [x00; x28; x28; x28; x01] 0 0 3 1 2 (ready [] 0)) = NoFuel /\
  fst (decode c0 [x00; x28; x28; x28; x01] 0 0 4 1 2 (ready [] 0)) = Ok 5.
Proof. vm_compute. auto. Qed.

(** C10.  An accepted document has a point before which every cut is an error and from which
    on every cut gives the same value.  ([typ = 1], one Snappy block in version 1, is left
    to the Snappy library.) *)
Theorem C10_truncation : forall k c b ver typ ln n rest h v,
  starts b ver typ ln n rest -> typ <> 1%N -> unmarshal_fresh k c b = Ok (h, v) ->
  exists m, m <= length b /\
    (forall i, i < m -> exists er, unmarshal_fresh k c (firstn i b) = Err er) /\
    (forall i, m <= i -> exists h' v', unmarshal_fresh k c (firstn i b) = Ok (h', v') /\
       forall d, observe d h' v' = observe d h v).
Proof. exact truncation. Qed.
Print Assumptions C10_truncation.

(** For an uncompressed document of the format the point is the end of the body item. *)
Theorem C10_exact : forall k c b ver suffix d body e m,
  document (go_reader c) k b ver 0 suffix d body e -> m < length b - (length body - e) ->
  exists er, unmarshal_fresh k c (firstn m b) = Err er.
Proof. exact described_cut. Qed.
Print Assumptions C10_exact.

Example C10_case : starts doc0 3 0 [x00] 0 (skipn 6 doc0) /\ accepts k0 c0 doc0 = true /\
  forallb (fun i => negb (accepts k0 c0 (firstn i doc0))) (seq 0 23) = true /\
  forallb (fun i => negb (accepts k0 c0 (firstn i (firstn 4 doc0 ++ [x33; x00; x11; x12; x78] ++ skipn 6 doc0)))) (seq 0 26) = true /\
  accepts k0 c0 (firstn 4 doc0 ++ [x33; x00; x11; x12; x78] ++ skipn 6 doc0) = true.
Proof.
  split; [|vm_compute; auto]. split; [lia|]. split; [lia|]. exists x03. split; [reflexivity|]. split; [reflexivity|].
  split; [apply (vg_last x00); reflexivity|cbn; lia].
Qed.

(** C11.  Bytes after the body do not matter (again leaving [typ = 1] to Snappy). *)
Theorem C11_trailing_bytes : forall k c b x h v ver typ ln n rest,
  starts b ver typ ln n rest -> typ <> 1%N -> unmarshal_fresh k c b = Ok (h, v) ->
  exists h' v', unmarshal_fresh k c (b ++ x) = Ok (h', v') /\ forall d, observe d h' v' = observe d h v.
Proof. exact appended. Qed.
Print Assumptions C11_trailing_bytes.

Example C11_case : starts doc0 3 0 [x00] 0 (skipn 6 doc0) /\ accepts k0 c0 (doc0 ++ [xff; x2f; x00]) = true.
Proof.
  split; [|vm_compute; auto]. split; [lia|]. split; [lia|]. exists x03. split; [reflexivity|]. split; [reflexivity|].
  split; [apply (vg_last x00); reflexivity|cbn; lia].
Qed.

(** C12.  With a zero suffix length written in two bytes, the flags byte of the header is
    taken from the body. *)
Theorem C12_header_independent_refuted : ~ (forall k c ver typ suffix pre y1 y2,
  preamble ver typ suffix pre -> (Z.of_nat (length pre) < two63)%Z ->
  same_outcome (unmarshal_header_fresh k c (pre ++ y1)) (unmarshal_header_fresh k c (pre ++ y2))).
Proof.
  intros H. assert (P : preamble 2 0 [] padded_doc).
  { split; [lia|]. split; [lia|]. exists x02, [x80; x00]. split; [reflexivity|]. split; [reflexivity|].
    split; [|cbn; lia]. apply (vg_more x80 [x00] 0); [cbn; lia|]. apply (vg_last x00). reflexivity. }
  specialize (H k0 c0 2%N 0%N [] padded_doc [x00] [x01] P eq_refl). vm_compute in H. exact H.
Qed.
Print Assumptions C12_header_independent_refuted.

(** In every other case the body has no influence on UnmarshalHeader. *)
Theorem C12_header_independent_partial : forall k c ver typ suffix pre y1 y2,
  preamble ver typ suffix pre -> (suffix = [] -> length pre = 6) -> (Z.of_nat (length pre) < two63)%Z ->
  same_outcome (unmarshal_header_fresh k c (pre ++ y1)) (unmarshal_header_fresh k c (pre ++ y2)).
Proof. exact header_independent. Qed.
Print Assumptions C12_header_independent_partial.

Example C12_case : let pre := [x3d;xf3;x72;x6c;x03;x03;x01;x61;x7a] in
  preamble 3 0 [x01; x61; x7a] pre /\
  match unmarshal_header_fresh k0 c0 (pre ++ [xff; xff]) with
  | Ok (h, v) => observe 3 h v = OBytes [x7a] | _ => False
  end.
Proof.
  split; [|vm_compute; reflexivity]. split; [lia|]. split; [lia|]. exists x03, [x03].
  split; [reflexivity|]. split; [reflexivity|]. split; [apply (vg_last x03); reflexivity|cbn; lia].
Qed.

(** C13.  A header in which a string occurs twice comes back wrong: {"a":{"a":1}} as
    {"a":{"\x03\x0b\x01*\x01'\x01a*\x01/\x03":1}}. *)
Definition twice_heap : heap := [CMap [([x61], GMap 1)]; CMap [([x61], GInt KInt false 1)]].
Definition twice_doc : bytes :=
  [x3d;xf3;x72;x6c;x03;x0b;x01;x2a;x01;x27;x01;x61;x2a;x01;x2f;x03;x01;x25].
Lemma same_map nf pf reg h h' l l' : same nf pf reg h h' (GMap l) (GMap l') ->
  (forall k, mget (hmap h l) k = None <-> mget (hmap h' l') k = None) /\
  (forall k v v', mget (hmap h l) k = Some v -> mget (hmap h' l') k = Some v' -> same nf pf reg h h' v v').
Proof. intros S. inversion S; subst. match goal with M : samem _ _ _ _ _ _ _ |- _ => inversion M; subst; auto end. Qed.
Theorem C13_header_roundtrip_refuted : ~ (forall k c e h hv nh Ah,
  sane_world e -> (2 <= proto e <= 3)%N -> d_perl c = false ->
  go_tree c e h hv nh Ah -> (Z.of_nat nh < depth_limit e)%Z ->
  exists b h' v', outcome (fun n => MarshalWithHeader k n (without_compression e) h (Some hv) GNil) (Ok b) /\
    unmarshal_header_fresh k c b = Ok (h', v') /\
    same (e_nofreeze e) (e_parsefloat e) (reg_of c) h h' hv v').
Proof.
  intros H. assert (T : go_tree c0 e0 twice_heap (GMap 0) 2 []).
  { apply t_map; cbn; [repeat constructor; cbn; tauto|unfold fits; cbn; lia| |].
    { intros k v [[= <- <-]|[]]. unfold fits. cbn. lia. }
    apply (ts_cons _ _ _ _ _ _ 1 [] _ 0 []); [|apply ts_nil|intros a []].
    apply t_map; cbn; [repeat constructor; cbn; tauto|unfold fits; cbn; lia| |].
    { intros k v [[= <- <-]|[]]. unfold fits. cbn. lia. }
    apply (ts_cons _ _ _ _ _ _ 0 [] _ 0 []); [|apply ts_nil|intros a []].
    apply t_int. unfold ikind_in. cbn. lia. }
  destruct (H k0 c0 e0 twice_heap (GMap 0) 2 [] (eopt_sane _ _ _ _)) as (b & h' & v' & O & U & S);
    [cbn; lia|reflexivity|exact T|cbn; lia|].
  assert (O' : outcome (fun n => MarshalWithHeader k0 n (without_compression e0) twice_heap (Some (GMap 0)) GNil) (Ok twice_doc)).
  { eapply (outcome_marshal k0 _ twice_heap (Some (GMap 0)) _ 3). vm_compute. reflexivity. }
  pose proof (outcome_unique _ _ _ O O') as E. injection E as ->. clear O O'.
  assert (U' : unmarshal_header_fresh k0 c0 twice_doc = Ok
    ([CBuf twice_doc; CV (GMap 3); CV GNil; CMap [([x61], GMap 5)]; CV (GMap 5);
      CMap [([x03; x0b; x01; x2a; x01; x27; x01; x61; x2a; x01; x2f; x03], GInt KInt false 1)]; CV (GInt KInt false 1)], GMap 3))
    by (vm_compute; reflexivity).
  rewrite U' in U. apply Ok_pair in U as [-> ->].
  apply same_map in S as [_ V]. specialize (V [x61] (GMap 1) (GMap 5) eq_refl eq_refl).
  apply same_map in V as [K _]. specialize (K [x61]). cbn in K.
  destruct K as [_ K]. discriminate (K eq_refl).
Qed.
Print Assumptions C13_header_roundtrip_refuted.

(** What holds, body included: headers written without COPY tags, because no string is
    repeated in them or deduplication is off. *)
Theorem C13_header_roundtrip_partial : forall k c e h hv nh Ah v n A bh,
  sane_world e -> (2 <= proto e <= 3)%N ->
  go_tree c e h hv nh Ah -> (Z.of_nat nh < depth_limit e)%Z ->
  go_tree c e h v n A -> (Z.of_nat n < depth_limit e)%Z ->
  let marshal e hv v := fun n => MarshalWithHeader k n e h (Some hv) v in
  outcome (marshal (without_compression e) hv GNil) (Ok bh) ->
  outcome (marshal (without_dedup (without_compression e)) hv GNil) (Ok bh) ->
  (Z.of_nat (length bh) < two63)%Z ->
  exists b0, outcome (marshal (without_compression e) hv v) (Ok b0) /\
    (e_comp e = None -> outcome (marshal e hv v) (Ok b0)) /\
    ((N.of_nat (length b0) <= 281474976710656)%N -> exists dh d,
      den (e_perl e) (e_nofreeze e) (e_parsefloat e) h false hv dh /\
      den (e_perl e) (e_nofreeze e) (e_parsefloat e) h false v d /\
      reads_header k c b0 dh /\ reads k c b0 d /\
      (lossless k -> supported (proto e) (e_comp e) -> forall b,
       outcome (marshal e hv v) (Ok b) -> (N.of_nat (length b) <= 2147483647)%N ->
       reads_header k c b dh /\ reads k c b d)).
Proof.
  intros k c e h hv nh Ah v n A bh Hw Hv Th Lh T L marshal O1 O2 Lb.
  exact (header_roundtrip k c e h Hw Hv hv nh Ah v n A bh Th Lh T L O1 O2 Lb).
Qed.
Print Assumptions C13_header_roundtrip_partial.

(** the header {"a":7,"b":["hi",&int8(-5)]} with the body "x" *)
Example C13_case : go_tree c0 e0 h0 v0 3 [at_cell lay0 3] /\ go_tree c0 e0 h0 (GStr [x78]) 0 [] /\
  MarshalWithHeader k0 9 (without_compression e0) h0 (Some v0) GNil =
    MarshalWithHeader k0 9 (without_dedup (without_compression e0)) h0 (Some v0) GNil /\
  match MarshalWithHeader k0 9 e0 h0 (Some v0) (GStr [x78]) with
  | Ok b => match unmarshal_header_fresh k0 c0 b, unmarshal_fresh k0 c0 b with
            | Ok (h1, v1), Ok (h2, v2) =>
                observe 5 h1 v1 = OMap [([x61], OInt KInt false 7);
                  ([x62], OSlice [OStr [x68; x69]; OInt KInt false (-5)])] /\
                v2 = GStr [x78]
            | _, _ => False
            end
  | _ => False
  end.
Proof.
  split; [apply tree0; lia|]. split; [apply t_str; unfold fits; cbn; lia|].
  split; vm_compute; auto.
Qed.

(** C14.  The header check accepts exactly the documents described by [acceptable]; all
    others are errors whatever is asked for; the UTF-8 encoded magic has its own error. *)
Theorem C14_header_check : forall k c b ib s, (Z.of_nat (length b) < two63)%Z ->
  (fst (UnmarshalHeaderBody k c b ib TgtNone TgtNone s) = Ok tt <-> acceptable b) /\
  (~ acceptable b -> forall vh vb, exists er, fst (UnmarshalHeaderBody k c b ib vh vb s) = Err er) /\
  (forall t vh vb, b = utf8_magic ++ t -> 2 <= length t ->
     fst (UnmarshalHeaderBody k c b ib vh vb s) = Err EBadHeaderUTF8).
Proof.
  intros k c b ib s Lb. split; [now apply accepted_iff|]. split.
  - intros Na vh vb. now apply unacceptable_rejected.
  - intros t vh vb -> Lt. destruct t as [|x [|y t]]; cbn in Lt; try lia. apply utf8_rejected.
Qed.
Print Assumptions C14_header_check.

Example C14_case : acceptable doc0 /\ ~ acceptable (x3d :: x73 :: skipn 2 doc0) /\
  fst (UnmarshalHeaderBody k0 c0 (utf8_magic ++ [x6c; x03; x00; x25]) 0 TgtNone (TgtIface 2) (ready [] 0)) = Err EBadHeaderUTF8.
Proof.
  split; [|split; [|reflexivity]].
  - apply (accepted_iff k0 c0 doc0 0 (ready [] 0)); [reflexivity|]. vm_compute. reflexivity.
  - intros A. apply (accepted_iff k0 c0 _ 0 (ready [] 0)) in A; [|reflexivity]. vm_compute in A. discriminate A.
Qed.

(** C21.  What Marshal returns looks like Sereal (for every value, cyclic ones included);
    what does not look like Sereal is not accepted by Unmarshal. *)
Theorem C21_looks_like_sereal : forall k, lossless k -> snappy_dec k [] = None ->
  (forall fuel e h hv v b, (1 <= proto e <= 3)%N -> MarshalWithHeader k fuel e h hv v = Ok b ->
     (Z.of_nat (length b) < two63)%Z -> LooksLikeSereal b = true) /\
  (forall c b, LooksLikeSereal b = false -> exists er, unmarshal_fresh k c b = Err er).
Proof.
  intros k Lk Ns. split.
  - intros fuel e h hv v b V M L. exact (marshalled_looks k fuel e h hv v b Lk Ns V M L).
  - intros c b H. destruct (unlike_rejected k c b 0 2 (fresh_state b) Ns H) as [er E]. exists er.
    unfold unmarshal_fresh, Unmarshal. destruct (UnmarshalHeaderBody k c b 0 TgtNone (TgtIface 2) (fresh_state b)) as [r s'].
    cbn in E. now subst r.
Qed.
Print Assumptions C21_looks_like_sereal.

(** a pointer to itself *)
Example C21_case : lossless k0 /\ snappy_dec k0 [] = None /\
  match Marshal k0 50 (eopt false (Some (CZlib 0)) 10 3) [CV (GPtr true 0)] (GPtr true 0) with
  | Ok b => LooksLikeSereal b = true | _ => False end /\
  LooksLikeSereal (firstn 6 doc0) = false /\ unmarshal_fresh k0 c0 (firstn 6 doc0) = Err ETruncated.
Proof. split; [apply k0_lossless|]. vm_compute. auto. Qed.

(** C24.  After a document that makes reflect panic inside a COPY, the Decoder refuses every
    document with a COPY tag. *)
Definition panic_doc : bytes := [x3d;xf3;x72;x6c;x03;x00;x2b;x02;x63;xa8;x29;x04;x2f;x04].
Definition copy_doc : bytes := [x3d;xf3;x72;x6c;x03;x00;x2b;x02;x61;x61;x2f;x03].
Theorem C24_reuse_refuted : ~ (forall k c hist q, call_result k c (history k c new_decoder hist) q = call_result k c new_decoder q).
Proof. intros H. specialize (H k0 c0 [ReqBody panic_doc] (ReqBody copy_doc)). vm_compute in H. discriminate H. Qed.
Print Assumptions C24_reuse_refuted.

(** Calls that succeed or return an ordinary error leave no trace. *)
Theorem C24_reuse_partial : forall k c hist q,
  (forall p, In p hist -> call_panics k c new_decoder p = false) ->
  call_result k c (history k c new_decoder hist) q = call_result k c new_decoder q.
Proof. exact reuse. Qed.
Print Assumptions C24_reuse_partial.

Example C24_case : call_panics k0 c0 new_decoder (ReqBody (firstn 11 copy_doc)) = false /\
  call_result k0 c0 new_decoder (ReqBody (firstn 11 copy_doc)) = Err EBadVarint /\
  call_panics k0 c0 new_decoder (ReqBoth doc0) = false /\ call_panics k0 c0 new_decoder (ReqBody panic_doc) = true.
Proof. vm_compute. auto. Qed.

(** C25.  A regular expression read from an uncompressed document changes with the buffer. *)
Definition regexp_doc : bytes := [x3d;xf3;x72;x6c;x03;x00;x31;x61;x61;x60].
Theorem C25_no_alias_refuted : ~ (forall k c b h v b' n, unmarshal_fresh k c b = Ok (h, v) ->
  observe n (upd h 0 (CBuf b')) v = observe n h v).
Proof.
  intros H. destruct (unmarshal_fresh k0 c0 regexp_doc) as [[h v]| | | |] eqn:U; vm_compute in U; try discriminate U.
  specialize (H k0 c0 regexp_doc _ _ (firstn 8 regexp_doc ++ [x62; x60]) 3 ltac:(vm_compute; reflexivity)). vm_compute in H. discriminate H.
Qed.
Print Assumptions C25_no_alias_refuted.

(** Everything else is copied: values without regular expressions, and all values of
    compressed documents. *)
Theorem C25_no_alias_partial : forall k c b h v b' n ver typ l nn rest,
  starts b ver typ l nn rest -> unmarshal_fresh k c b = Ok (h, v) ->
  typ <> 0%N \/ no_regexp (observe n h v) = true ->
  observe n (upd h 0 (CBuf b')) v = observe n h v.
Proof. exact no_alias. Qed.
Print Assumptions C25_no_alias_partial.

Example C25_case : match unmarshal_fresh k0 c0 copy_doc with
  | Ok (h, v) => observe 5 h v = OSlice [OBytes [x61]; OBytes [x61]] /\
                 observe 5 (upd h 0 (CBuf [])) v = OSlice [OBytes [x61]; OBytes [x61]]
  | _ => False
  end.
Proof. vm_compute. auto. Qed.

(** C26.  Every size asked of make for a length field of the body, in whatever call and with
    whatever outcome, is at most the number of bytes left. *)
Theorem C26_allocation : forall k c dec q,
  Forall (fun '(size, bytes_left) => size <= bytes_left) (d_made (snd (call_raw k c dec q))).
Proof.
  intros k c dec q. pose proof (call_wpc k c dec q) as W.
  destruct (call_raw k c dec q) as [[u|er|er| |] s']; try exact (proj2 W); [exact W|contradiction].
Qed.
Print Assumptions C26_allocation.

Example C26_case : d_made (snd (call_raw k0 c0 new_decoder (ReqBody doc0))) <> [] /\
  call_result k0 c0 new_decoder (ReqBody (firstn 6 doc0 ++ [x2b; xff; xff; x03; x01])) = Err ETruncated.
Proof. split; vm_compute; [discriminate|reflexivity]. Qed.
