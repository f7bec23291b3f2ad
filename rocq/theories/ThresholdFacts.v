(** The compression threshold of the encoder. *)
From Verif Require Import Base BaseFacts Varint VarintFacts SpecVarint Tags GoMem GoTypes Codecs Encode Compress Header
  Document Spec SpecDoc SpecOptions SpecOutcome OutcomeFacts RoundtripFacts MarshalFacts SpecThreshold.
From Coq Require Import ZifyBool ZifyNat ZifyN.

(** marking the type in the header *)
Lemma mark_typ ver typ suffix pre : (1 <= ver <= 3)%N -> (typ = 1 \/ typ = 2 \/ typ = 3)%N -> preamble ver 0 suffix pre ->
  preamble ver typ suffix (upd pre 4 (n2b (N.lor (b2n (nth 4 pre x00)) (N.shiftl typ 4)))).
Proof.
  intros V Ht (P1 & _ & vt & len & -> & Hb & Gr & Le). split; [exact P1|]. split; [lia|].
  assert (Eu : forall y, upd (magic ver ++ [vt] ++ len ++ suffix) 4 y = magic ver ++ [y] ++ len ++ suffix)
    by (intros; unfold magic; destruct (ver <? 3)%N; reflexivity).
  assert (En : nth 4 (magic ver ++ [vt] ++ len ++ suffix) x00 = vt)
    by (unfold magic; destruct (ver <? 3)%N; reflexivity).
  rewrite Eu, En. eexists _, len. split; [reflexivity|]. split; [|auto]. rewrite Hb.
  assert (V' : (ver = 1 \/ ver = 2 \/ ver = 3)%N) by lia.
  destruct V' as [-> |[-> | ->]], Ht as [-> |[-> | ->]]; reflexivity.
Qed.

Section T.
Variables (k : codecs) (e : econfig).

Lemma compress_below pre body : (e_comp e = None \/ below e (length body)) ->
  marshal_compress k e pre body = Ok (pre, body).
Proof.
  unfold marshal_compress, below. destruct (e_comp e) as [c|]; [|reflexivity].
  intros [X|[N0 L]]; [discriminate|].
  destruct (Z.eqb_spec (e_threshold e) 0); [contradiction|].
  destruct (Z.leb_spec (e_threshold e) (Z.of_nat (length body))); [lia|]. reflexivity.
Qed.

Lemma compress_refused c pre body : e_comp e = Some c -> ~ below e (length body) ->
  refused k (e_version e) c body -> exists x, recovered (marshal_compress k e pre body) = Err x.
Proof.
  intros Hc Nb R. unfold marshal_compress. rewrite Hc.
  replace ((e_threshold e =? 0) || (e_threshold e <=? Z.of_nat (length body)))%Z with true.
  2:{ symmetry. unfold below in Nb. apply orb_true_iff. destruct (Z.eqb_spec (e_threshold e) 0); [auto|].
      right. apply Z.leb_le. lia. }
  destruct c as [inc|l|l]; cbn [compress refused] in *.
  - unfold snappy_compress, maxUint32. destruct (Z.leb_spec 4294967295 (Z.of_nat (length body))); [cbn; eauto|].
    destruct R as [R|[R ->]]; [lia|]. cbn [bind]. destruct (N.ltb_spec 1 (e_version e)); [|lia]. cbn. eauto.
  - unfold zlib_compress. destruct (zlib_enc k _ body) as [z|] eqn:Z; [|cbn; eauto]. cbn [bind].
    destruct R as [R|R]; [|rewrite R in Z; discriminate]. destruct (N.ltb_spec (e_version e) 3); [|lia]. cbn. eauto.
  - unfold zstd_compress. destruct (zstd_enc k _ body); cbn; eauto.
Qed.

Lemma compress_done c suffix pre body : (1 <= e_version e <= 3)%N -> preamble (e_version e) 0 suffix pre ->
  e_comp e = Some c -> ~ below e (length body) -> ~ refused k (e_version e) c body ->
  exists typ pre' z, marshal_compress k e pre body = Ok (pre', z) /\ typ <> 0%N /\
    preamble (e_version e) typ suffix pre' /\ length pre' = length pre.
Proof.
  intros V P Hc Nb R. unfold marshal_compress. rewrite Hc.
  replace ((e_threshold e =? 0) || (e_threshold e <=? Z.of_nat (length body)))%Z with true.
  2:{ symmetry. unfold below in Nb. apply orb_true_iff. destruct (Z.eqb_spec (e_threshold e) 0); [auto|].
      right. apply Z.leb_le. lia. }
  destruct c as [inc|l|l]; cbn [compress refused] in *; [| |tauto].
  - unfold snappy_compress, maxUint32. destruct (Z.leb_spec 4294967295 (Z.of_nat (length body))); [tauto|].
    cbn [bind].
    assert (X : ((1 <? e_version e) && negb inc = false)%N).
    { destruct inc; [apply andb_false_r|]. destruct (N.ltb_spec 1 (e_version e)); [|reflexivity].
      exfalso. apply R. right. split; [lia|reflexivity]. }
    rewrite X. destruct (N.eqb_spec (e_version e) 1); cbn [bind]; eexists _, _, _; (split; [reflexivity|]).
    + split; [|split; [apply (mark_typ _ 1); auto|apply upd_length]]. discriminate.
    + split; [|split; [apply (mark_typ _ 2); auto|apply upd_length]]. discriminate.
  - unfold zlib_compress. destruct (zlib_enc k _ body) as [z|]; [|tauto]. cbn [bind].
    destruct (N.ltb_spec (e_version e) 3); [tauto|]. cbn [bind]. eexists _, _, _. split; [reflexivity|].
    split; [|split; [apply (mark_typ _ 3); auto|apply upd_length]]. discriminate.
Qed.
End T.

Lemma header_shape fuel e h header pre tick : (1 <= e_version e <= 3)%N ->
  marshal_header fuel e h header = Ok (pre, tick) -> (Z.of_nat (length pre) < two63)%Z ->
  exists suffix, preamble (e_version e) 0 suffix pre.
Proof.
  intros V H L.
  assert (G : forall suffix, length suffix <= length pre ->
    pre = (put32 (if (e_version e <? 3)%N then magicHeaderBytes else magicHeaderBytesHighBit) ++ [n2b (e_version e)])
       ++ varint (ulen suffix) ++ suffix -> exists s, preamble (e_version e) 0 s pre).
  { intros s Ls E. exists s. rewrite E. apply preamble_plain; [exact V|lia]. }
  assert (K : forall q t, Ok (q, t) = Ok (pre, tick) -> pre = q) by (intros q t [= -> _]; reflexivity).
  assert (Z : varint (ulen (@nil byte)) ++ [] = [x00]) by reflexivity.
  unfold marshal_header in H. destruct header as [hv|].
  2:{ apply K in H. apply (G []); [apply Nat.le_0_l|]. rewrite Z. exact H. }
  destruct (2 <=? e_version e)%N.
  2:{ apply K in H. apply (G []); [apply Nat.le_0_l|]. rewrite Z. exact H. }
  destruct (encode _ _ _ _ _ _ _) as [s| | | |]; try discriminate H. cbn [bind] in H. apply K in H.
  apply (G (s_by s)); [rewrite H, !app_length; lia|exact H].
Qed.

Theorem threshold_any k e h header v r0 : (1 <= proto e <= 3)%N ->
  outcome (fun n => MarshalWithHeader k n (without_compression e) h header v) r0 ->
  match r0 with
  | Ok b0 => (Z.of_nat (length b0) < two63)%Z ->
      exists suffix pre body r, b0 = pre ++ body /\ preamble (proto e) 0 suffix pre /\
        outcome (fun n => MarshalWithHeader k n e h header v) r /\
        match e_comp e with
        | None => r = Ok b0
        | Some c =>
            (below e (length body) -> r = Ok b0) /\
            (~ below e (length body) -> refused k (proto e) c body -> exists x, r = Err x) /\
            (~ below e (length body) -> ~ refused k (proto e) c body ->
             exists typ pre' packed, r = Ok (pre' ++ packed) /\ typ <> 0%N /\
               preamble (proto e) typ suffix pre' /\ length pre' = length pre /\
               (lossless k -> supported (proto e) (Some c) ->
                (N.of_nat (length packed) < 18446744073709551616)%N ->
                packing k (N.of_nat (length packed)) (proto e) typ packed body))
        end
  | _ => outcome (fun n => MarshalWithHeader k n e h header v) r0
  end.
Proof.
  intros V O. destruct (fix_same e) as (E1 & E2 & E3 & _).
  destruct O as (Nf & n0 & O).
  assert (Hc : forall fuel, MarshalWithHeader k fuel (without_compression e) h header v =
    recovered (bind (marshal_header fuel (fix_version e) h header) (fun '(pre, tick) =>
      bind (marshal_body fuel (fix_version e) h pre tick v) (fun body => Ok (pre ++ body))))).
  { intros fuel. unfold MarshalWithHeader. rewrite fix_without.
    change (marshal_header fuel (without_compression (fix_version e)) h header) with (marshal_header fuel (fix_version e) h header).
    destruct (marshal_header fuel (fix_version e) h header) as [[pre tick]| | | |]; try reflexivity. }
  assert (On := O n0 (Nat.le_refl _)). rewrite Hc in On.
  assert (Out : forall r, MarshalWithHeader k n0 e h header v = r -> r <> NoFuel ->
    outcome (fun n => MarshalWithHeader k n e h header v) r).
  { intros r R N. eapply (mono_outcome (fun n => MarshalWithHeader k n e h header v) n0); [apply mono_marshal|exact R|exact N]. }
  unfold MarshalWithHeader in Out.
  destruct (marshal_header n0 (fix_version e) h header) as [[pre tick]|x|x| |] eqn:Hh;
    try (cbn [bind recovered] in *; subst r0; apply Out; [reflexivity|discriminate]); [|cbn in On; congruence].
  cbn [bind] in *.
  destruct (marshal_body n0 (fix_version e) h pre tick v) as [body|x|x| |] eqn:Hb;
    try (cbn [bind recovered] in *; subst r0; apply Out; [reflexivity|discriminate]); [|cbn in On; congruence].
  cbn [bind recovered] in *. subst r0. intros L.
  rewrite app_length in L. rewrite <- proto_fix in V.
  destruct (header_shape _ _ _ _ _ _ V Hh) as [suffix P]; [lia|].
  assert (Bl : forall n, below (fix_version e) n <-> below e n) by (intros n; unfold below; rewrite E3; tauto).
  exists suffix, pre, body. rewrite <- proto_fix.
  destruct (e_comp e) as [c|] eqn:Ec.
  2:{ exists (Ok (pre ++ body)). split; [reflexivity|]. split; [exact P|]. split; [|reflexivity].
      apply Out; [|discriminate]. rewrite compress_below; [reflexivity|left; rewrite E2; reflexivity]. }
  eexists. split; [reflexivity|]. split; [exact P|]. split.
  { apply Out; [reflexivity|]. assert (M := marshal_compress_no k (fix_version e) pre body).
    destruct (marshal_compress k (fix_version e) pre body) as [[p z]| | | |]; cbn; congruence. }
  split; [|split].
  - intros B. rewrite compress_below; [reflexivity|]. right. now apply Bl.
  - intros B R. destruct (compress_refused k (fix_version e) c pre body) as [x X]; auto; [now rewrite Bl|].
    exists x. destruct (marshal_compress k (fix_version e) pre body) as [[p z]| | | |]; cbn in *; congruence.
  - intros B R. destruct (compress_done k (fix_version e) c suffix pre body) as (typ & pre' & z & X & Nt & P' & Lp); auto; [now rewrite Bl|].
    exists typ, pre', z. rewrite X. split; [reflexivity|]. split; [exact Nt|]. split; [exact P'|]. split; [exact Lp|].
    intros Lo Su Lz. rewrite <- E2 in Su.
    destruct (compress_packs k (fix_version e) suffix pre body pre' z Lo) as (typ' & P2 & _ & Pk); auto.
    assert (typ' = typ) as ->.
    { destruct P' as (_ & _ & vt & len & Q1 & Q2 & _), P2 as (_ & _ & vt' & len' & Q1' & Q2' & _).
      rewrite Q1 in Q1'. apply app_inv_head in Q1'. injection Q1' as <- _. lia. }
    apply Pk; lia.
Qed.
