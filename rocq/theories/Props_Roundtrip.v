(** C03-C07, C15, C16, C19, C20, C39-C42: what Marshal writes and Unmarshal reads.

    [outcome f r]: the call returns [r] (SpecOutcome.v).  [go_tree], [any_tree]: finite
    values without shared pointers, strings and containers below 2^31 resp. 2^64 elements
    (SpecValue.v).  [den]: the data a value stands for.  [same]: equal values. *)
From Verif Require Import Base BaseFacts SpecVarint Tags GoMem Codecs Encode Compress Header Decode
  Document Spec SpecValue SpecDoc SpecOptions SpecOutcome DecodeSpec DocFacts Roundtrip OutcomeFacts
  RoundtripFacts WireFacts Cases.
From Coq Require Import Permutation ZifyBool ZifyNat ZifyN.

(** C03.  Every built-in integer comes back as the same integer. *)
Theorem C03_integers : forall k c e h kd z, sane_world e -> (1 <= proto e <= 3)%N -> ikind_in kd z ->
  exists b, outcome (fun n => Marshal k n (without_compression e) h (GInt kd false z)) (Ok b) /\
    length b <= 17 /\
    exists h', unmarshal_fresh k c b = Ok (h', GInt (if (z <? two63)%Z then KInt else KUint) false z).
Proof. exact int_roundtrip. Qed.
Print Assumptions C03_integers.

Example C03_case : sane_world e0 /\ (1 <= proto e0 <= 3)%N /\ ikind_in KUint64 18446744073709551615 /\
  match Marshal k0 5 e0 [] (GInt KUint64 false 18446744073709551615) with
  | Ok b => match unmarshal_fresh k0 c0 b with Ok (_, v) => v = GInt KUint false 18446744073709551615 | _ => False end
  | _ => False
  end.
Proof. split; [apply eopt_sane|]. split; [cbn; lia|]. split; [unfold ikind_in; cbn; lia|]. vm_compute. reflexivity. Qed.

(** C04.  The same for user-defined integer types is false: time.Duration(-20) comes back
    as uint(2^64-20). *)
Theorem C04_named_integers_refuted : ~ (forall k c e h kd z,
  sane_world e -> (1 <= proto e <= 3)%N -> ikind_in kd z ->
  exists b, outcome (fun n => Marshal k n (without_compression e) h (GInt kd true z)) (Ok b) /\
    exists h', unmarshal_fresh k c b = Ok (h', GInt (if (z <? two63)%Z then KInt else KUint) false z)).
Proof.
  intros H. destruct (H k0 c0 e0 [] KInt64 (-20)%Z (eopt_sane _ _ _ _)) as (b & O & h' & U).
  - cbn; lia.
  - unfold ikind_in. cbn. lia.
  - assert (O' : outcome (fun n => Marshal k0 n (without_compression e0) [] (GInt KInt64 true (-20))) (Ok
      [x3d; xf3; x72; x6c; x03; x00; x20; xec; xff; xff; xff; xff; xff; xff; xff; xff; x01])).
    { eapply (outcome_marshal k0 _ [] None _ 1). vm_compute. reflexivity. }
    pose proof (outcome_unique _ _ _ O O') as E. injection E as ->. vm_compute in U. discriminate U.
Qed.
Print Assumptions C04_named_integers_refuted.

(** What holds: signed kinds, when the kind is int or the value is not negative.
    (Unsigned named kinds are refused by Marshal, see C04_case.) *)
Theorem C04_named_integers_partial : forall k c e h kd z,
  sane_world e -> (1 <= proto e <= 3)%N -> ikind_in kd z -> ikind_signed kd = true ->
  kd = KInt \/ (0 <= z)%Z ->
  exists b, outcome (fun n => Marshal k n (without_compression e) h (GInt kd true z)) (Ok b) /\
    length b <= 17 /\
    exists h', unmarshal_fresh k c b = Ok (h', GInt (if (z <? two63)%Z then KInt else KUint) false z).
Proof. exact named_int_roundtrip. Qed.
Print Assumptions C04_named_integers_partial.

Example C04_case : ikind_in KInt (-20) /\
  match Marshal k0 5 e0 [] (GInt KInt true (-20)) with
  | Ok b => match unmarshal_fresh k0 c0 b with Ok (_, v) => v = GInt KInt false (-20) | _ => False end
  | _ => False
  end /\ Marshal k0 5 e0 [] (GInt KUint8 true 3) = Err EReflect.
Proof. split; [unfold ikind_in; cbn; lia|]. split; vm_compute; reflexivity. Qed.

(** C05.  Round trip of whole values, uncompressed. *)
Theorem C05_roundtrip : forall k c e h v n A,
  sane_world e -> (1 <= proto e <= 3)%N -> go_tree c e h v n A -> (Z.of_nat n < depth_limit e)%Z ->
  exists b, outcome (fun n => Marshal k n (without_compression e) h v) (Ok b) /\
    ((N.of_nat (length b) <= 281474976710656)%N ->
     exists h' v' d, unmarshal_fresh k c b = Ok (h', v') /\
       den (e_perl e) (e_nofreeze e) (e_parsefloat e) h false v d /\
       repr (d_perl c) (reg_of c) (fun _ => True) h' v' d /\
       (d_perl c = false -> same (e_nofreeze e) (e_parsefloat e) (reg_of c) h h' v v')).
Proof.
  intros k c e h v n A Hw Hv T L.
  destruct (roundtrip_outcome k c e h Hw Hv v n A T L) as (b & O & _ & _ & D). exists b. split; [exact O|].
  intros Lb. destruct (D Lb) as (d & Hd & (h' & v' & U & R) & _). exists h', v', d.
  repeat (split; [assumption|]). intros P.
  destruct (reads_same k c e h b v d P Hd) as (h2 & v2 & U2 & S); [now exists h', v'|].
  assert (E : h2 = h' /\ v2 = v') by (split; congruence). destruct E as [-> ->]. exact S.
Qed.
Print Assumptions C05_roundtrip.

Example C05_case : sane_world e0 /\ (1 <= proto e0 <= 3)%N /\ go_tree c0 e0 h0 v0 3 [at_cell lay0 3] /\
  (Z.of_nat 3 < depth_limit e0)%Z /\ Marshal k0 10 e0 h0 v0 = Ok doc0 /\
  match unmarshal_fresh k0 c0 doc0 with
  | Ok (h', GMap l) => hmap h' l = [([x61], GInt KInt false 7); ([x62], GSlice 6 2)] /\
                       cells h' 6 2 = [GStr [x68; x69]; GInt KInt false (-5)]
  | _ => False
  end.
Proof.
  split; [apply eopt_sane|]. split; [cbn; lia|]. split; [apply tree0; lia|]. split; [cbn; lia|].
  split; [exact doc0_marshalled|]. vm_compute. auto.
Qed.

(** C06.  Everything Marshal writes is a document of the published format describing the
    value, with COPY tags only in place of hash keys, class names and regexp strings, and
    nothing after the body item. *)
Theorem C06_published_format : forall k e h v n A,
  sane_world e -> (1 <= proto e <= 3)%N -> any_tree e h v n A -> (Z.of_nat n < depth_limit e)%Z ->
  exists b0, outcome (fun n => Marshal k n (without_compression e) h v) (Ok b0) /\
    (e_comp e = None -> outcome (fun n => Marshal k n e h v) (Ok b0)) /\
    ((Z.of_nat (length b0) < two63 - 1)%Z -> exists d,
      den (e_perl e) (e_nofreeze e) (e_parsefloat e) h false v d /\
      (exists body, document_in CKeys standard k b0 (proto e) 0 [] d body (length body)) /\
      (lossless k -> supported (proto e) (e_comp e) -> forall b,
       outcome (fun n => Marshal k n e h v) (Ok b) -> (Z.of_nat (length b) < two63)%Z ->
       exists typ body, document_in CKeys standard k b (proto e) typ [] d body (length body))).
Proof. intros k e h v n A Hw Hv. exact (published_outcome k e h Hw Hv v n A). Qed.
Print Assumptions C06_published_format.

Example C06_case : sane_world e0 /\ any_tree e0 h0 v0 3 [at_cell lay0 3] /\ (Z.of_nat 3 < depth_limit e0)%Z /\
  Marshal k0 10 (eopt false (Some (CZlib 0)) 0 3) h0 v0 =
    Ok (firstn 4 doc0 ++ [x33; x00; x11; x12; x78] ++ skipn 6 doc0).
Proof. split; [apply eopt_sane|]. split; [apply tree0; lia|]. split; [cbn; lia|]. vm_compute. reflexivity. Qed.

(** C07.  Not every document of the published format is accepted (nested COPY). *)
Theorem C07_reads_published_refuted : ~ (forall k c b ver typ suffix d body e,
  document standard k b ver typ suffix d body e -> reads k c b d).
Proof.
  intros H. destruct (H k0 c0 _ _ _ _ _ _ _ (nested_copy_document k0)) as (h' & v' & U & _).
  rewrite nested_copy_rejected in U. discriminate U.
Qed.
Print Assumptions C07_reads_published_refuted.

(** Every document of the format restricted to: lengths below 2^31, documents below 2^48
    bytes, odd zigzag numbers, COPY of items not containing COPY, frozen objects only in
    the default mode and not refused by a registered unmarshaler. *)
Theorem C07_reads_published_partial : forall k c b ver typ suffix d body e,
  document (go_reader c) k b ver typ suffix d body e ->
  exists h' v', unmarshal_fresh k c b = Ok (h', v') /\
    repr (d_perl c) (reg_of c) (fun _ => True) h' v' d.
Proof. exact document_reads. Qed.
Print Assumptions C07_reads_published_partial.

Example C07_case : document (go_reader c0) k0 (raw_document 4 [x21; x07]) 4 0 [] (DInt (-4)) [x21; x07] 2 /\
  unmarshal_fresh k0 c0 (raw_document 4 [x21; x07]) =
    Ok ([CBuf (raw_document 4 [x21; x07]); CV GNil; CV (GInt KInt false (-4))], GInt KInt false (-4)).
Proof.
  split; [|vm_compute; reflexivity]. change (-4)%Z with (zigzag_meaning (b2n x07)).
  change 2 with (S (length [x07])). apply zigzag_document; try (cbn; lia).
  constructor. vm_compute. reflexivity.
Qed.

(** C15.  With any lossless codec and supported combination, the compressed and the plain
    document are read as the same data, which the value stands for. *)
Theorem C15_compression_transparent : forall k c e h v n A b,
  sane_world e -> (1 <= proto e <= 3)%N -> go_tree c e h v n A -> (Z.of_nat n < depth_limit e)%Z ->
  lossless k -> supported (proto e) (e_comp e) ->
  outcome (fun n => Marshal k n e h v) (Ok b) -> (N.of_nat (length b) <= 2147483647)%N ->
  exists b0, outcome (fun n => Marshal k n (without_compression e) h v) (Ok b0) /\
    ((N.of_nat (length b0) <= 281474976710656)%N ->
     exists d, den (e_perl e) (e_nofreeze e) (e_parsefloat e) h false v d /\
       reads k c b0 d /\ reads k c b d).
Proof.
  intros k c e h v n A b Hw Hv T L Lo Su O Lb.
  destruct (roundtrip_outcome k c e h Hw Hv v n A T L) as (b0 & O0 & _ & _ & D). exists b0.
  split; [exact O0|]. intros L0. destruct (D L0) as (d & Hd & R & K). exists d. auto.
Qed.
Print Assumptions C15_compression_transparent.

Example C15_case : lossless k0 /\ supported 2 (Some (CSnappy true)) /\
  go_tree c0 (eopt false (Some (CSnappy true)) 0 2) h0 v0 3 [at_cell lay0 3] /\
  match Marshal k0 10 (eopt false (Some (CSnappy true)) 0 2) h0 v0 with
  | Ok b => nth 4 b x00 = x22 /\
            match unmarshal_fresh k0 c0 b with Ok (h', GMap l) => hmap h' l = [([x61], GInt KInt false 7); ([x62], GSlice 7 2)] | _ => False end
  | _ => False
  end.
Proof. split; [exact k0_lossless|]. split; [reflexivity|]. split; [apply tree0; lia|]. vm_compute. auto. Qed.

(** C16.  Marshal with protocol 1 and the incremental Snappy option succeeds, but writes a
    document Unmarshal cannot read. *)
Theorem C16_compressed_readable_refuted : ~ (forall k c e h v n A b,
  sane_world e -> (1 <= proto e <= 3)%N -> go_tree c e h v n A -> lossless k ->
  outcome (fun n => Marshal k n e h v) (Ok b) -> (N.of_nat (length b) <= 2147483647)%N ->
  exists d, reads k c b d).
Proof.
  intros H. set (e := eopt false (Some (CSnappy true)) 0 1).
  assert (O : outcome (fun n => Marshal k0 n e [] (GBool true)) (Ok [x3d; x73; x72; x6c; x11; x00; x02; xaa; x3b])).
  { eapply (outcome_marshal k0 e [] None _ 1). vm_compute. reflexivity. }
  destruct (H k0 c0 e [] (GBool true) 0 [] [x3d; x73; x72; x6c; x11; x00; x02; xaa; x3b] (eopt_sane _ _ _ _))
    as (d & h' & v' & U & _); try exact O.
  - cbn; lia.
  - apply t_bool.
  - exact k0_lossless.
  - cbn; lia.
  - vm_compute in U. discriminate U.
Qed.
Print Assumptions C16_compressed_readable_refuted.

(** In every other case what Marshal returns is read back, whatever the threshold. *)
Theorem C16_compressed_readable_partial : forall k c e h v n A b,
  sane_world e -> (1 <= proto e <= 3)%N -> go_tree c e h v n A -> (Z.of_nat n < depth_limit e)%Z ->
  lossless k -> ~ (proto e = 1%N /\ e_comp e = Some (CSnappy true)) ->
  outcome (fun n => Marshal k n e h v) (Ok b) -> (N.of_nat (length b) <= 2147483647)%N ->
  (forall b0, outcome (fun n => Marshal k n (without_compression e) h v) (Ok b0) ->
     (N.of_nat (length b0) <= 281474976710656)%N) ->
  exists d, den (e_perl e) (e_nofreeze e) (e_parsefloat e) h false v d /\ reads k c b d.
Proof.
  intros k c e h v n A b Hw Hv T L Lo Ne O Lb L0.
  destruct (roundtrip_outcome k c e h Hw Hv v n A T L) as (b0 & O0 & _ & Cl & D).
  destruct (D (L0 b0 O0)) as (d & Hd & R & K). exists d. split; [exact Hd|].
  destruct (Cl b O) as [-> |[Su|X]]; [exact R|now apply K|contradiction].
Qed.
Print Assumptions C16_compressed_readable_partial.

Example C16_case :
  Marshal k0 10 (eopt false (Some (CSnappy false)) 0 1) [] (GBool true) = Ok [x3d; x73; x72; x6c; x11; x00; xaa; x3b] /\
  go_tree c0 (eopt false (Some (CSnappy false)) 0 1) [] (GBool true) 0 [] /\
  match unmarshal_fresh k0 c0 [x3d; x73; x72; x6c; x11; x00; xaa; x3b] with Ok (_, v) => v = GBool true | _ => False end.
Proof. split; [vm_compute; reflexivity|]. split; [apply t_bool|vm_compute; reflexivity]. Qed.

(** C19.  The recursion limit is exact. *)
Theorem C19_limit_exact : forall k e h v n A,
  sane_world e -> (1 <= proto e <= 3)%N -> any_tree e h v n A ->
  ((Z.of_nat n < depth_limit e)%Z ->
     exists b, outcome (fun n => Marshal k n (without_compression e) h v) (Ok b)) /\
  ((depth_limit e <= Z.of_nat n)%Z ->
     outcome (fun n => Marshal k n (without_compression e) h v) (Err EMaxRecursion) /\
     outcome (fun n => Marshal k n e h v) (Err EMaxRecursion)).
Proof.
  intros k e h v n A Hw Hv T. split.
  - intros L. destruct (published_outcome k e h Hw Hv v n A T L) as (b & O & _). eauto.
  - intros L. split; [|now apply (limit_outcome k e h Hw Hv v n A)].
    now apply (limit_outcome k (without_compression e) h Hw Hv v n A).
Qed.
Print Assumptions C19_limit_exact.

Example C19_case : any_tree (eopt false None 3 3) h0 v0 3 [at_cell lay0 3] /\
  Marshal k0 10 (eopt false None 3 3) h0 v0 = Err EMaxRecursion /\
  Marshal k0 10 (eopt false None 4 3) h0 v0 = Ok doc0.
Proof. split; [apply tree0; lia|]. split; vm_compute; reflexivity. Qed.

(** C20.  Marshal returns on every memory, cyclic or not, whatever the limit (0 stands for
    the default limit 2147483647). *)
Theorem C20_marshal_terminates : forall k e h header v,
  (forall t A (l : list A), Permutation l (e_shuffle e t A l)) ->
  exists r, outcome (fun n => MarshalWithHeader k n e h header v) r.
Proof. exact marshal_terminates. Qed.
Print Assumptions C20_marshal_terminates.

(** a slice containing itself *)
Example C20_case : Marshal k0 20 (eopt false None 6 3) [CV (GSlice 0 1)] (GSlice 0 1) = Err EMaxRecursion /\
  outcome (fun n => MarshalWithHeader k0 n (eopt false None 6 3) [CV (GSlice 0 1)] None (GSlice 0 1)) (Err EMaxRecursion).
Proof.
  assert (E : Marshal k0 20 (eopt false None 6 3) [CV (GSlice 0 1)] (GSlice 0 1) = Err EMaxRecursion)
    by (vm_compute; reflexivity).
  split; [exact E|]. eapply mono_outcome; [apply mono_marshal|exact E|discriminate].
Qed.

(** C39.  Zigzag numbers are not read according to the format: 2 stands for 1. *)
Theorem C39_zigzag_refuted : ~ (forall k c ver l n, (1 <= ver <= 4)%N -> vgroups l n -> length l <= 10 ->
  (n < 18446744073709551616)%N ->
  exists h', unmarshal_fresh k c (raw_document ver (x21 :: l)) = Ok (h', GInt KInt false (zigzag_meaning n))).
Proof.
  intros H. destruct (H k0 c0 3%N [x02] (b2n x02)) as (h' & U); try (cbn; lia).
  - constructor. vm_compute. reflexivity.
  - vm_compute in U. discriminate U.
Qed.
Print Assumptions C39_zigzag_refuted.

(** The numbers standing for negative integers are. *)
Theorem C39_zigzag_partial : forall k c ver l n, (1 <= ver <= 4)%N -> vgroups l n -> length l <= 10 ->
  (n < 18446744073709551616)%N -> N.even n = false ->
  exists h', unmarshal_fresh k c (raw_document ver (x21 :: l)) = Ok (h', GInt KInt false (zigzag_meaning n)).
Proof. exact zigzag_odd. Qed.
Print Assumptions C39_zigzag_partial.

Example C39_case : vgroups [x83; x01] 131 /\ zigzag_meaning 131 = (-66)%Z /\
  match unmarshal_fresh k0 c0 (raw_document 1 [x21; x83; x01]) with Ok (_, v) => v = GInt KInt false (-66) | _ => False end.
Proof.
  split; [|split; vm_compute; reflexivity].
  replace 131%N with (b2n x83 - 128 + 128 * b2n x01)%N by reflexivity.
  constructor; [vm_compute; congruence|]. constructor. vm_compute. reflexivity.
Qed.

(** C40.  json.Number. *)
Theorem C40_json_numbers : forall k c e h s z, sane_world e -> (1 <= proto e <= 3)%N -> decimal s z ->
  (N.of_nat (length s) <= 2147483647)%N ->
  exists b, outcome (fun n => Marshal k n (without_compression e) h (GJson s)) (Ok b) /\
   exists h', unmarshal_fresh k c b =
     Ok (h', if ((- two63 <=? z) && (z <? two63))%Z then int_result z else GStr s).
Proof. exact json_roundtrip. Qed.
Print Assumptions C40_json_numbers.

(** "-12" and "9223372036854775808" *)
Example C40_case : decimal [x2d; x31; x32] (-12) /\
  match Marshal k0 5 e0 [] (GJson [x2d; x31; x32]) with
  | Ok b => match unmarshal_fresh k0 c0 b with Ok (_, v) => v = GInt KInt false (-12) | _ => False end
  | _ => False
  end /\
  let s := [x39;x32;x32;x33;x33;x37;x32;x30;x33;x36;x38;x35;x34;x37;x37;x35;x38;x30;x38] in
  match Marshal k0 5 e0 [] (GJson s) with
  | Ok b => match unmarshal_fresh k0 c0 b with Ok (_, v) => v = GStr s | _ => False end
  | _ => False
  end.
Proof.
  split.
  - apply (dec_minus x2d [x31; x32] 12); [reflexivity|].
    apply (dg_snoc [x31] 1 x32); [apply (dg_one x31)|]; unfold is_digit; cbn; lia.
  - split; vm_compute; reflexivity.
Qed.

(** C41.  In Perl-compatible mode frozen objects cannot be read. *)
Theorem C41_frozen_objects_refuted : ~ (forall k c e h name data v,
  sane_world e -> (1 <= proto e <= 3)%N -> e_nofreeze e = false -> d_um c name = None ->
  (N.of_nat (length name) <= 2147483647)%N -> (N.of_nat (length data) <= 2147483647)%N ->
  exists b, outcome (fun n => Marshal k n (without_compression e) h (GUser name (Some data) v)) (Ok b) /\
   exists h' l w, unmarshal_fresh k c b = Ok (h', GPtr false l) /\
     hget h' l = GFreezeV name w /\ hview h' w = data).
Proof.
  intros H. destruct (H k0 c1 e0 [] [x54] [x01] GNil (eopt_sane _ _ _ _)) as (b & O & h' & l & w & U & _);
    try (cbn; lia); try reflexivity.
  assert (O' : outcome (fun n => Marshal k0 n (without_compression e0) [] (GUser [x54] (Some [x01]) GNil)) (Ok
     [x3d; xf3; x72; x6c; x03; x00; x32; x27; x01; x54; x28; x2b; x01; x61; x01])).
  { eapply (outcome_marshal k0 _ [] None _ 1). vm_compute. reflexivity. }
  pose proof (outcome_unique _ _ _ O O') as E. injection E as ->. vm_compute in U. discriminate U.
Qed.
Print Assumptions C41_frozen_objects_refuted.

(** In default mode they come back, through the registered unmarshaler if there is one. *)
Theorem C41_frozen_objects_partial : forall k c e h name data v,
  sane_world e -> (1 <= proto e <= 3)%N -> e_nofreeze e = false -> d_perl c = false ->
  (N.of_nat (length name) <= 2147483647)%N -> (N.of_nat (length data) <= 2147483647)%N ->
  match d_um c name with
  | None => True | Some (UMPtr t) => d_unmarshal c t data = true | Some (UMVal _) => False
  end ->
  exists b, outcome (fun n => Marshal k n (without_compression e) h (GUser name (Some data) v)) (Ok b) /\
   exists h' v', unmarshal_fresh k c b = Ok (h', v') /\ exists w, hview h' w = data /\
     match d_um c name with
     | Some (UMPtr t) => v' = GUserP t w
     | _ => exists l, v' = GPtr false l /\ hget h' l = GFreezeV name w
     end.
Proof. exact freeze_roundtrip. Qed.
Print Assumptions C41_frozen_objects_partial.

Example C41_case :
  match Marshal k0 5 e0 [] (GUser [x54] (Some [x01; x02]) GNil) with
  | Ok b => match unmarshal_fresh k0 c0 b with
            | Ok (h', GPtr false l) => exists w, hget h' l = GFreezeV [x54] w /\ hview h' w = [x01; x02]
            | _ => False
            end
  | _ => False
  end.
Proof. vm_compute. eexists. split; reflexivity. Qed.

(** C42.  The format allows a COPY of a hash whose keys are COPY tags; Unmarshal does not.
    (What is accepted: C07_reads_published_partial.) *)
Theorem C42_nested_copy_refuted : forall k, exists b d body e,
  document standard k b 3 0 [] d body e /\ forall c, unmarshal_fresh k c b = Err ENestedCOPY.
Proof.
  intros k. exists (raw_document 3 nested_copy_body), nested_copy_data, nested_copy_body, 11.
  split; [apply nested_copy_document|]. intros c. apply nested_copy_rejected.
Qed.
Print Assumptions C42_nested_copy_refuted.
