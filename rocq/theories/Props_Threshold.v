(** C70: what the encoder's Compression and CompressionThreshold change.

    [without_compression], [proto], [supported] (SpecOptions.v), [preamble], [packing] (SpecDoc.v);
    [below], [refused] (SpecThreshold.v): when a body is left as it is, and what cannot be
    compressed; [outcome]: Props_Roundtrip.v; [append_each] (Merge.v): a new Merger given documents, each
    accepted or not; [sum_of]: Props_Merge.v. *)
From Verif Require Import Base BaseFacts Tags GoMem GoTypes Codecs Encode Compress Header Document Spec SpecDoc SpecOptions
  SpecOutcome OutcomeFacts SpecThreshold ThresholdFacts GoSlice RedocFacts Merge MergeRun MergeProps MergeFinish MergeApi
  Cases Props_Merge.
From Coq Require Import ZifyBool ZifyNat ZifyN.

(** C70.  For any value, header and memory: what fails without compression fails in the same way
    with it.  Otherwise a body shorter than the threshold, unless that is 0, is written byte for
    byte as without compression; from the threshold on the header differs in the type only and
    the body is packed, or there is an error, which is exactly when the encoder does not know the
    combination of compressor and version or the compressor fails. *)
Theorem C70_threshold : forall k e h header v r0, (1 <= proto e <= 3)%N ->
  outcome (fun n => MarshalWithHeader k n (without_compression e) h header v) r0 ->
  match r0 with
  | Ok b0 => (Z.of_nat (length b0) < two63)%Z ->
      exists suffix pre body r, b0 = pre ++ body /\ preamble (proto e) 0 suffix pre /\
        outcome (fun n => MarshalWithHeader k n e h header v) r /\
        match e_comp e with
        | None => r = Ok b0
        | Some c =>
            (below e (length body) -> r = Ok b0) /\
            (~ below e (length body) -> refused k (proto e) c body -> exists x, r = Err x) /\
            (~ below e (length body) -> ~ refused k (proto e) c body ->
             exists typ pre' packed, r = Ok (pre' ++ packed) /\ typ <> 0%N /\
               preamble (proto e) typ suffix pre' /\ length pre' = length pre /\
               (lossless k -> supported (proto e) (Some c) ->
                (N.of_nat (length packed) < 18446744073709551616)%N ->
                packing k (N.of_nat (length packed)) (proto e) typ packed body))
        end
  | _ => outcome (fun n => MarshalWithHeader k n e h header v) r0
  end.
Proof. exact threshold_any. Qed.
Print Assumptions C70_threshold.

(** A Merger compares the threshold with the length of the whole document: below it Finish returns
    what it returns without compression and leaves the Merger in the same state; from it on a
    success of Finish means that the compressor took the body. *)
Theorem C70_merger : forall k w v top calls rs m g c out0 m0,
  (v = 0 \/ v = 2 \/ v = 3)%N -> Forall (fun c => g_top (c_conf c) = top) calls ->
  append_each k w (new_merger v) calls = (rs, m) -> (sum_of rs < 34359738368)%Z ->
  g_top g = top -> g_comp g = Some c ->
  Finish k w (mkMConfig (g_top g) None (g_threshold g) (g_dedupe g) (g_flat g) (g_expected g)) m = (Ok out0, m0) ->
  (g_threshold g <> 0%Z /\ (Z.of_nat (length out0) < g_threshold g)%Z -> Finish k w g m = (Ok out0, m0)) /\
  (g_threshold g = 0%Z \/ (g_threshold g <= Z.of_nat (length out0))%Z -> forall out m', Finish k w g m = (Ok out, m') ->
   supported (if (v =? 0)%N then 3 else v)%N (Some c) /\ exists z, compress k c (skipn 6 out0) = Ok z).
Proof.
  intros k w v top calls rs m g c out0 m0 Hv F A Hs Ht Hc F0.
  rewrite sum_total in Hs. destruct (each_new k w top v calls rs m Hv F A) as (Hi & Pn & _).
  set (g' := mkMConfig _ _ _ _ _ _) in F0.
  destruct (hist_ready k w top v _ g' m out0 m0 Hv Hi Ht F0) as (m1 & R & Fn & F1 & E).
  assert (Eg : Finish k w g m = Finish k w g m1).
  { destruct E as [->|[u E]]; [reflexivity|]. eapply (finish_init_any k w g); [exact E|apply R]. }
  rewrite Eg. clear Eg E F0.
  assert (Hv' : (out_version v = 2 \/ out_version v = 3)%N) by (unfold out_version; destruct Hv as [->|[->| ->]]; cbn; auto).
  pose proof F1 as F2. unfold Finish in F2. rewrite (init_ready w _ _ _ _ _ R), Fn in F2.
  pose proof (put_ready _ _ _ _ R ltac:(lia) Hv') as (mem & rest & Pu & O & C & _). rewrite Pu in F2.
  cbn [g' g_comp] in F2. injection F2 as F2 F3.
  assert (Le : length out0 = sl_len (m_buf m1)) by (rewrite <- F2; apply contents_length, O).
  assert (Go : Finish k w g m1 = if ((g_threshold g =? 0) || (g_threshold g <=? Z.of_nat (length out0)))%Z then
     let '(r, m) := finish_comp k g m0 c in
     (bind r (fun o => match o with Some b => Ok b | None => Ok (contents (m_mem m) (m_buf m)) end), m) else (Ok out0, m0)).
  { unfold Finish. rewrite (init_ready w _ _ _ _ _ R), Fn, Pu, Hc, F3.
    replace (sl_len (m_buf m0)) with (length out0) by (rewrite Le, <- F3; reflexivity).
    destruct (_ || _); [reflexivity|]. rewrite <- F2, <- F3. reflexivity. }
  split.
  - intros [N0 L]. rewrite Go. destruct (Z.eqb_spec (g_threshold g) 0); [contradiction|].
    destruct (Z.leb_spec (g_threshold g) (Z.of_nat (length out0))); [lia|]. reflexivity.
  - intros L out m' H. rewrite Go in H.
    replace ((g_threshold g =? 0) || (g_threshold g <=? Z.of_nat (length out0)))%Z with true in H.
    2:{ symmetry. apply orb_true_iff. destruct L as [->|L]; [left; reflexivity|right; apply Z.leb_le; exact L]. }
    destruct (finish_comp k g m0 c) as [[[o|]|? |? | |] m2] eqn:Fc; try discriminate H.
    + destruct (finish_comp_result k g m0 c (out_version v) (skipn 6 out0) o m2) as [Su (z & K & _)];
        [rewrite <- F3; exact O|rewrite <- F3; apply R|rewrite <- F3; apply R|exact Hv'| |exact Fc|].
      { rewrite <- F3. cbn [set_finished m_mem m_buf]. rewrite <- F2, C. unfold hdr. destruct Hv' as [-> | ->]; reflexivity. }
      split; [|eauto]. exact Su.
    + exfalso. clear - Fc. unfold finish_comp in Fc. destruct (reslice _ _ _); [|discriminate].
      destruct (compress_at _ _ _ _) as [[]| | | |]; try discriminate. destruct (reslice _ _ _); [|discriminate].
      destruct c as [[]| |]; try discriminate. destruct (_ <? _)%N; discriminate.
Qed.
Print Assumptions C70_merger.

(** true, one byte as a body, with a threshold of 2, 1, 0 and -3; and what is refused then *)
Definition thr (c : compressor) (t : Z) (ver : N) : econfig :=
  mkEConfig false (Some c) t false false 0 ver (fun _ _ l => l) lay0 (fun _ => None).
Definition plain3 : bytes := [x3d; xf3; x72; x6c; x03; x00; x3b].
Definition packed3 : bytes := [x3d; xf3; x72; x6c; x23; x00; x02; xaa; x3b].
Example C70_case :
  Marshal k0 3 (without_compression (thr (CSnappy true) 2 3)) [] (GBool true) = Ok plain3 /\
  below (thr (CSnappy true) 2 3) 1 /\ ~ below (thr (CSnappy true) 1 3) 1 /\
  Marshal k0 3 (thr (CSnappy true) 2 3) [] (GBool true) = Ok plain3 /\
  Marshal k0 3 (thr (CSnappy true) 1 3) [] (GBool true) = Ok packed3 /\
  Marshal k0 3 (thr (CSnappy true) 0 3) [] (GBool true) = Ok packed3 /\
  Marshal k0 3 (thr (CSnappy true) (-3) 3) [] (GBool true) = Ok packed3 /\
  Marshal k0 3 (thr (CZstd 1) 2 3) [] (GBool true) = Ok plain3 /\
  Marshal k0 3 (thr (CZstd 1) 1 3) [] (GBool true) = Err ECodec /\
  refused k0 3 (CZstd 1) [x3b] /\
  Marshal k0 3 (thr (CZlib 0) 1 2) [] (GBool true) = Err EZlibV3Only.
Proof.
  assert (B : below (thr (CSnappy true) 2 3) 1) by (split; [discriminate|reflexivity]).
  assert (Nb : ~ below (thr (CSnappy true) 1 3) 1) by (intros [_ X]; discriminate X).
  repeat split; try exact Nb; try discriminate; vm_compute; reflexivity.
Qed.

(** a Merger given nothing: its document has 12 bytes *)
Definition mthr (t : Z) : mconfig := mkMConfig 0 (Some (CSnappy true)) t false false 40.
Example C70_merger_case : exists out0 packed, length out0 = 12 /\ packed <> out0 /\
  fst (Finish k0 w0 (mkMConfig 0 None 13 false false 40) (new_merger 3)) = Ok out0 /\
  fst (Finish k0 w0 (mthr 13) (new_merger 3)) = Ok out0 /\
  fst (Finish k0 w0 (mthr 12) (new_merger 3)) = Ok packed /\ fst (Finish k0 w0 (mthr 0) (new_merger 3)) = Ok packed.
Proof.
  eexists _, _. split; [|split; [|repeat (split; [vm_compute; reflexivity|]); vm_compute; reflexivity]]; [reflexivity|discriminate].
Qed.
