(** The result of DecompressDocument, read back. *)
From Verif Require Import Base BaseFacts SpecVarint Varint VarintFacts Tags GoMem Codecs Encode Compress
  Header Decode Spec SpecDoc SpecHeader SpecObserve GrammarFacts DecodeSafe DecodeSpec Document DocFacts Sim
  Roundtrip HeaderFacts ApiFacts ApiSafe ApiProps HeaderRound GoSlice Redocument RedocFacts.
From Coq Require Import ZifyBool ZifyNat ZifyN.
Ltac Zify.zify_post_hook ::= Z.div_mod_to_equations.

Lemma body_start_small ln n : length ln <= 10 -> (Z.of_N n < two63)%Z ->
  bodyStart_of ln n = wrap64 (5 + Z.of_nat (length ln) + Z.of_N n).
Proof.
  intros L H. unfold bodyStart_of. rewrite to_int_small by exact H.
  unfold wrap64, to_uint, to_int, two64, two63, headerSize in *.
  repeat match goal with |- context [if ?x then _ else _] => destruct x eqn:? end; lia.
Qed.
Lemma body_start_in ln n len : length ln <= 10 -> (Z.of_N n < two63)%Z ->
  (0 <= bodyStart_of ln n <= Z.of_nat len)%Z ->
  Z.to_nat (bodyStart_of ln n) = 5 + length ln + N.to_nat n.
Proof.
  intros L H. rewrite (body_start_small ln n L H). unfold wrap64, to_uint, to_int, two64, two63 in *.
  repeat match goal with |- context [if ?x then _ else _] => destruct x eqn:? end; lia.
Qed.

Lemma land15 ver typ : (1 <= ver <= 4)%N -> (typ < 16)%N -> N.land (ver + 16 * typ) 15 = ver.
Proof. intros V T. change 15%N with (N.ones 4). rewrite N.land_ones. change (2 ^ 4)%N with 16%N. lia. Qed.

(** the type cleared: the same document start, marked raw *)
Lemma untyped_starts b ver typ ln n rest d : starts b ver typ ln n rest -> 
  let bs := 5 + length ln + N.to_nat n in bs <= length b ->
  starts (untyped (firstn bs b) ++ d) ver 0 ln n (firstn (N.to_nat n) rest ++ d) /\
  skipn 5 (untyped (firstn bs b) ++ d) = skipn 5 (firstn bs b ++ d).
Proof.
  intros (V & T & vt & -> & Hv & G & L) bs Lb.
  assert (Lm : length (magic ver) = 4) by (unfold magic; destruct (ver <? 3)%N; reflexivity).
  assert (Ef : firstn bs (magic ver ++ [vt] ++ ln ++ rest) = magic ver ++ [vt] ++ ln ++ firstn (N.to_nat n) rest).
  { replace bs with (length (magic ver ++ [vt] ++ ln) + N.to_nat n) by (rewrite !app_length, Lm; cbn; unfold bs; lia).
    replace (magic ver ++ [vt] ++ ln ++ rest) with ((magic ver ++ [vt] ++ ln) ++ rest) by now rewrite <- !app_assoc.
    rewrite firstn_app_2. now rewrite <- !app_assoc. }
  rewrite Ef. unfold untyped.
  assert (E4 : forall y : bytes, nth 4 (magic ver ++ [vt] ++ y) x00 = vt).
  { intros y. rewrite app_nth2 by lia. now rewrite Lm. }
  assert (U4 : forall (y : bytes) z, upd (magic ver ++ [vt] ++ y) 4 z = magic ver ++ [z] ++ y).
  { intros y z. unfold magic. destruct (ver <? 3)%N; reflexivity. }
  rewrite E4, U4, Hv, land15 by assumption. split.
  - split; [exact V|]. split; [lia|]. exists (n2b ver). rewrite <- !app_assoc. split; [reflexivity|].
    split; [|auto]. rewrite b2n_n2b; lia.
  - unfold magic. destruct (ver <? 3)%N; reflexivity.
Qed.

Section RP.
Variable k : codecs.
Variable c : dconfig.
Variable p : placing.

(** how DecompressDocument comes to a result *)
Lemma redoc_cases m dst b ver typ ln n rest : slice_ok m dst -> starts b ver typ ln n rest ->
  (Z.of_N n < two63)%Z ->
  (exists e, DecompressDocument k p m dst b = Err e /\ forall h ib vh vb, 
      exists s', unmarshal_raw k c b ib vh (TgtIface vb) (mkDState h [] 0 []) = (Err e, s') \/ vh <> TgtNone) \/
  (DecompressDocument k p m dst b = Crash /\ 
     exists dk, documentDecompressor ver typ = Ok (Some dk) /\ 5 + length ln + N.to_nat n <= length b /\
      (decompress k dk (skipn (5 + length ln + N.to_nat n) b) = Crash \/
       (decompress k dk (skipn (5 + length ln + N.to_nat n) b) = Ok [] /\ 0 < sl_len dst))) \/
  (exists out m', DecompressDocument k p m dst b = Ok (out, m') /\ type_defined ver typ /\ 
    (0 <= bodyStart_of ln n <= Z.of_nat (length b))%Z /\
    Z.to_nat (bodyStart_of ln n) = 5 + length ln + N.to_nat n /\
    ((typ = 0%N /\ contents m' out = b) \/
     exists dk d, typ <> 0%N /\ documentDecompressor ver typ = Ok (Some dk) /\
       decompress k dk (skipn (5 + length ln + N.to_nat n) b) = Ok d /\
       contents m' out = untyped (firstn (5 + length ln + N.to_nat n) b) ++ d)).
Proof.
  intros Hd S Hn. destruct (starts_length _ _ _ _ _ _ S) as [_ L10].
  destruct (decompressor_total ver typ) as [[dec D]|[e D]].
  2:{ left. exists e. split.
      - unfold DecompressDocument. rewrite (checkHeader_starts _ _ _ _ _ _ S). cbn [bind header_of h_version h_doctype].
        now rewrite D.
      - intros. eexists. left. unfold unmarshal_raw. unfold mbind at 1. unfold lift at 1.
        rewrite (checkHeader_starts _ _ _ _ _ _ S). unfold mbind at 1. unfold lift at 1.
        cbn [header_of h_version h_doctype]. rewrite D. reflexivity. }
  destruct ((Z.of_nat (length b) <? bodyStart_of ln n) || (bodyStart_of ln n <? 0))%Z eqn:B.
  { left. exists EBadOffset. split.
    - unfold DecompressDocument. rewrite (checkHeader_starts _ _ _ _ _ _ S). cbn [bind header_of h_version h_doctype h_suffixSize].
      rewrite D. cbn [bind]. fold (bodyStart_of ln n). now rewrite B.
    - intros. eexists. left. unfold unmarshal_raw. unfold mbind at 1. unfold lift at 1.
      rewrite (checkHeader_starts _ _ _ _ _ _ S). unfold mbind at 1. unfold lift at 1.
      cbn [header_of h_version h_doctype h_suffixSize]. rewrite D. fold (bodyStart_of ln n). now rewrite B. }
  assert (Bd : (0 <= bodyStart_of ln n <= Z.of_nat (length b))%Z) by lia. clear B.
  pose proof (body_start_in ln n (length b) (proj2 L10) Hn Bd) as Es.
  assert (T : type_defined ver typ) by (apply (decompressor_defined ver typ (proj1 S)); eauto).
  destruct dec as [dk|].
  2:{ apply decompressor_raw in D. subst typ. right. right.
      destruct (redoc_raw k p m dst b ver ln n rest Hd S Bd) as (out & m' & E & Ec).
      exists out, m'. repeat (split; [assumption || (apply Bd)|]). left. auto. }
  assert (T0 : typ <> 0%N) by (intros ->; rewrite (proj2 (decompressor_raw ver 0) eq_refl) in D; discriminate).
  pose proof (redoc_packed k p m dst b ver typ ln n rest dk Hd S D Bd) as P. cbv zeta in P. rewrite Es in P.
  specialize (P ltac:(lia)). set (bs := 5 + length ln + N.to_nat n) in *.
  destruct (decompress_cases k dk (skipn bs b)) as [[d Dd]|[[e Dd]|[Dd _]]]; rewrite Dd in P.
  - destruct P as [(out & m' & E & Ec)|(-> & Ln & E)].
    + right. right. exists out, m'. repeat (split; [assumption || (apply Bd)|]). right. exists dk, d. auto.
    + right. left. split; [exact E|]. exists dk. split; [exact D|]. split; [lia|]. right. auto.
  - left. exists e. split; [exact P|]. intros. destruct vh.
    + eexists. left. rewrite (raw_good k c _ _ _ _ _ _ _ _ _ _ _ S D Bd). rewrite Es.
      unfold unmarshal_header. cbn [target_nil orb]. unfold mbind at 1, ret at 1.
      rewrite body_unfold. unfold unpacked. rewrite (slice_from_le b bs) by lia.
      unfold mbind, lift. rewrite Dd. reflexivity.
    + exists (mkDState h [] 0 []). right. discriminate.
    + exists (mkDState h [] 0 []). right. discriminate.
  - right. left. split; [exact P|]. exists dk. split; [exact D|]. split; [lia|]. now left.
Qed.

(** the result begins as the document does, but raw; a raw document is returned as it is *)
Theorem redoc_shape m dst b ver typ ln n rest out m' : slice_ok m dst -> starts b ver typ ln n rest ->
  (Z.of_N n < two63)%Z -> DecompressDocument k p m dst b = Ok (out, m') ->
  (typ = 0%N -> contents m' out = b) /\
  exists rest', starts (contents m' out) ver 0 ln n rest' /\
    N.to_nat n <= length rest /\ firstn (N.to_nat n) rest' = firstn (N.to_nat n) rest.
Proof.
  intros Hd S Hn E. destruct (starts_length _ _ _ _ _ _ S) as [Lb L10].
  destruct (redoc_cases m dst b ver typ ln n rest Hd S Hn) as [(e & E' & _)|[(E' & _)|(out2 & m2 & E' & T & B & Es & Cs)]];
    rewrite E' in E; try discriminate. injection E as -> ->.
  assert (Ln : N.to_nat n <= length rest) by lia.
  destruct Cs as [[-> ->]|(dk & d & T0 & D & Dd & ->)].
  - split; [reflexivity|]. exists rest. auto.
  - split; [intros; congruence|]. destruct (untyped_starts b ver typ ln n rest d S ltac:(lia)) as [S' _].
    exists (firstn (N.to_nat n) rest ++ d). split; [exact S'|]. split; [exact Ln|].
    rewrite firstn_app, firstn_firstn, Nat.min_id, firstn_length.
    replace (N.to_nat n - Nat.min (N.to_nat n) (length rest)) with 0 by lia. apply app_nil_r.
Qed.

(** and is not changed by a second application *)
Theorem redoc_twice m dst b ver typ ln n rest out m' : slice_ok m dst -> starts b ver typ ln n rest ->
  (Z.of_N n < two63)%Z -> DecompressDocument k p m dst b = Ok (out, m') ->
  forall m2 dst2, slice_ok m2 dst2 ->
  exists out2 m2', DecompressDocument k p m2 dst2 (contents m' out) = Ok (out2, m2') /\
    contents m2' out2 = contents m' out.
Proof.
  intros Hd S Hn E m2 dst2 Hd2.
  destruct (redoc_shape _ _ _ _ _ _ _ _ _ _ Hd S Hn E) as (_ & rest' & S' & Ln & Ef).
  destruct (starts_length _ _ _ _ _ _ S') as [Lb L10].
  assert (Ln' : N.to_nat n <= length rest').
  { apply (f_equal (@length _)) in Ef. rewrite !firstn_length in Ef. lia. }
  apply (redoc_raw k p m2 dst2 _ ver ln n rest' Hd2 S').
  rewrite (body_start_small ln n (proj2 L10) Hn).
  destruct (redoc_cases m dst b ver typ ln n rest Hd S Hn) as [(e & E' & _)|[(E' & _)|(out3 & m3 & E' & T & B & Es & Cs)]];
    rewrite E' in E; try discriminate. 
  rewrite (body_start_small ln n (proj2 L10) Hn) in B, Es.
  set (w := wrap64 _) in *. clearbody w. lia.
Qed.

(** bodies: nothing can be told apart, whatever the bytes, except in version 1 *)
Theorem redoc_body m dst b ver typ ln n rest out m' : slice_ok m dst -> starts b ver typ ln n rest ->
  (Z.of_N n < two63)%Z -> DecompressDocument k p m dst b = Ok (out, m') -> typ <> 0%N -> ver <> 1%N ->
  same_outcome (unmarshal_fresh k c b)
    (unmarshal_at k c [CBuf b; CV GNil; CV GNil; CBuf (contents m' out)] (contents m' out) 3 2).
Proof.
  intros Hd S Hn E Ht Hv. destruct (starts_length _ _ _ _ _ _ S) as [Lb L10].
  destruct (redoc_cases m dst b ver typ ln n rest Hd S Hn) as [(e & E' & _)|[(E' & _)|(out2 & m2 & E' & T & B & Es & Cs)]];
    rewrite E' in E; try discriminate. injection E as -> ->.
  destruct Cs as [[-> _]|(dk & d & T0 & D & Dd & ->)]; [congruence|].
  set (bs := 5 + length ln + N.to_nat n) in *.
  assert (Lbs : bs <= length b) by lia.
  destruct (untyped_starts b ver typ ln n rest d S Lbs) as [S' Sk]. fold bs in S', Sk.
  pose proof (packed_body k c b ver typ ln n rest dk (fresh_state b) S D B) as E1. cbv zeta in E1. rewrite Es, Dd in E1.
  change (length (d_heap (fresh_state b))) with 3 in E1.
  set (out1 := untyped (firstn bs b) ++ d) in *. set (nb := firstn bs b ++ d) in *.
  assert (Lnb : length out1 = length nb) by (unfold out1, nb; rewrite !app_length, untyped_length; reflexivity).
  assert (Lf : length nb = bs + length d) by (unfold nb; rewrite app_length, firstn_length; lia).
  assert (B2 : (0 <= bodyStart_of ln n <= Z.of_nat (length out1))%Z) by (rewrite Lnb, Lf; lia).
  pose proof (raw_body k c out1 3 2 (mkDState [CBuf b; CV GNil; CV GNil; CBuf out1] [] 0 []) _ _ _ _ S' B2) as E2.
  rewrite Es in E2.
  unfold unmarshal_fresh, unmarshal_at, Unmarshal, UnmarshalHeaderBody. rewrite E1, E2. clear E1 E2.
  assert (Sk2 : skipn (bs - 1) out1 = skipn (bs - 1) nb).
  { assert (Ex : bs - 1 = (bs - 6) + 5) by (unfold bs; pose proof (proj1 L10); lia).
    rewrite Ex, Nat.add_comm, <- !skipn_skipn_add. now rewrite Sk. }
  unfold body_run. destruct (N.eqb_spec ver 1); [congruence|]. destruct (Nat.eqb_spec bs 0); [unfold bs in *; lia|].
  rewrite (slice_from_le nb), (slice_from_le out1) by lia. rewrite Sk2.
  set (by_ := skipn (bs - 1) nb).
  assert (R0 : R by_ 3 3 (bs - 1) nb out1 (reset (with_heap (fresh_state b) (d_heap (fresh_state b) ++ [CBuf nb])))
                 (reset (mkDState [CBuf b; CV GNil; CV GNil; CBuf out1] [] 0 []))).
  { unfold R. cbn. repeat split; auto.
    - intros [|[|[|[|l]]]] H; try reflexivity. congruence.
    - intros [|[|[|[|l]]]] cl H; cbn in H; try (injection H as <-; exact I); destruct l; discriminate. }
  pose proof (run_decode_sim c by_ [] 3 (bs - 1) nb out1 1 2 ltac:(lia) _ _ R0) as Sm.
  cbv zeta in Sm. rewrite app_nil_r in Sm.
  destruct ((run_decode c by_ 3 (bs - 1) 1 2;; ret tt) (reset (with_heap (fresh_state b) (d_heap (fresh_state b) ++ [CBuf nb]))))
    as [r1 t1] eqn:Er1.
  destruct ((run_decode c by_ 3 (bs - 1) 1 2;; ret tt) (reset (mkDState [CBuf b; CV GNil; CV GNil; CBuf out1] [] 0 [])))
    as [r2 t2] eqn:Er2.
  cbn [fst snd] in Sm.
  destruct r1 as [[]|e|e| |].
  - destruct Sm as (-> & (_ & _ & _ & A4 & A5 & A6 & A7) & _). cbn. intros q. symmetry.
    rewrite (oget 3 _ _ _ _ A4 A5 A6).
    eapply observe_same; eauto.
    + eapply cget. exact A7.
    + left. intros _. unfold agree. cbn [fst snd]. rewrite Sk2. reflexivity.
  - destruct (Sm eq_refl) as [-> _]. cbn. reflexivity.
  - destruct (Sm eq_refl) as [-> _]. cbn. reflexivity.
  - destruct (Sm eq_refl) as [-> _]. cbn. exact I.
  - exfalso. 
    pose proof (fresh_nofuel k c b) as [Nf _]. apply Nf. unfold unmarshal_fresh, Unmarshal, UnmarshalHeaderBody.
    pose proof (packed_body k c b ver typ ln n rest dk (fresh_state b) S D B) as E1. cbv zeta in E1. rewrite Es, Dd in E1.
    change (length (d_heap (fresh_state b))) with 3 in E1. rewrite E1. fold nb. unfold body_run.
    destruct (N.eqb_spec ver 1); [congruence|]. destruct (Nat.eqb_spec bs 0); [unfold bs in *; lia|].
    rewrite (slice_from_le nb) by lia. fold by_. rewrite Er1. reflexivity.
Qed.

(** described documents, of every version *)
Theorem redoc_described m dst b ver typ suffix d body e out m' : slice_ok m dst ->
  document (go_reader c) k b ver typ suffix d body e ->
  DecompressDocument k p m dst b = Ok (out, m') ->
  document (go_reader c) k (contents m' out) ver 0 suffix d body e.
Proof.
  intros Hd (pre & packed & -> & Hp & Pk & Lb & Lm & It) E.
  cbn [go_reader r_packed r_memory r_dialect] in *. rewrite app_length in Lb.
  destruct (preamble_starts ver typ _ pre Hp) as (ln & St & Lp). specialize (St packed).
  destruct (starts_length _ _ _ _ _ _ St) as [_ L10].
  assert (Hn : (Z.of_N (N.of_nat (length suffix)) < two63)%Z) by (unfold two63; lia).
  destruct (redoc_cases m dst _ ver typ ln _ _ Hd St Hn) as [(er & E' & _)|[(E' & _)|(out2 & m2 & E' & T & B & Es & Cs)]];
    rewrite E' in E; try discriminate. injection E as -> ->.
  destruct (unpack k ver typ packed body (proj1 Hp) Pk ltac:(lia)) as (o & Dd & Ho).
  assert (Ebs : 5 + length ln + N.to_nat (N.of_nat (length suffix)) = length pre) by lia.
  rewrite Ebs in *.
  destruct Cs as [[-> ->]|(dk & d' & T0 & D & Dc & ->)].
  - rewrite (proj2 (decompressor_raw ver 0) eq_refl) in Dd. injection Dd as <-.
    destruct Ho as [_ ->]. exists pre, body. split; [reflexivity|]. split; [exact Hp|].
    split; [constructor|]. cbn [r_memory go_reader]. rewrite app_length. split; [lia|]. split; [lia|]. exact It.
  - rewrite Dd in D. injection D as ->. rewrite skipn_app_len in Dc. rewrite Ho in Dc. apply Ok_inj in Dc. subst d'.
    rewrite firstn_app_len.
    exists (untyped pre), body. split; [reflexivity|].
    destruct (untyped_starts (pre ++ packed) ver typ ln _ _ [] St ltac:(rewrite app_length; lia)) as [St2 Sk].
    rewrite Ebs, firstn_app_len, !app_nil_r in St2, Sk.
    assert (Hp2 : preamble ver 0 suffix (untyped pre)).
    { destruct St2 as (V & T2 & vt & Ev & Hv & G & L). split; [exact V|]. split; [exact T2|]. exists vt, ln.
      rewrite Nat2N.id in Ev. rewrite Ev, firstn_app_len. auto. }
    split; [exact Hp2|]. split; [constructor|].
    assert (Lu : length (untyped pre) = length pre) by apply untyped_length.
    cbn [r_memory go_reader]. rewrite app_length, Lu.
    split; [lia|]. split; [lia|].
    unfold body_item in *. destruct (ver =? 1)%N; [|exact It]. rewrite Lu. 
    destruct (grammar_move (go_dialect c (length pre)) (go_dialect c (length pre)) (pre ++ body) (untyped pre ++ body) (length pre) (length pre)) as (G & _ & _);
      auto using mle_refl; try (cbn; lia).
    + rewrite !app_length, Lu. lia.
    + intros i x. rewrite !nth_error_app2 by lia. now rewrite Lu.
    + destruct (G _ _ _ _ It (le_n _)) as [_ G2]. specialize (G2 CAny I). unfold mv in G2.
      replace (length pre - length pre + length pre) with (length pre) in G2 by lia.
      replace (length pre + e - length pre + length pre) with (length pre + e) in G2 by lia. exact G2.
Qed.

(** headers whose back references, if any, are to the header itself *)
Theorem redoc_header m dst b ver typ ln fl tail y d e out m' : slice_ok m dst ->
  starts b ver typ ln (N.of_nat (S (length tail))) (fl :: tail ++ y) ->
  N.odd (b2n fl) = true -> (N.of_nat (length b) <= 281474976710656)%N ->
  item (go_dialect c 5) (firstn (5 + length ln + S (length tail)) b) CAny (5 + length ln + 1) d e ->
  DecompressDocument k p m dst b = Ok (out, m') ->
  reads_header k c b d /\ reads_header k c (contents m' out) d.
Proof.
  intros Hd S Hfl Lb It E. destruct (starts_length _ _ _ _ _ _ S) as [Ls L10].
  cbn [length] in Ls. rewrite app_length in Ls.
  set (bs := 5 + length ln + Datatypes.S (length tail)) in *.
  assert (Hn : (Z.of_N (N.of_nat (Datatypes.S (length tail))) < two63)%Z) by (unfold two63; lia).
  destruct (redoc_cases m dst b ver typ ln _ _ Hd S Hn) as [(er & E' & _)|[(E' & _)|(out2 & m2 & E' & T & B & Es & Cs)]];
    rewrite E' in E; try discriminate. injection E as -> ->.
  rewrite Nat2N.id in *. fold bs in Es, Cs.
  assert (Go : forall b2 typ2 y2, starts b2 ver typ2 ln (N.of_nat (Datatypes.S (length tail))) (fl :: tail ++ y2) ->
     type_defined ver typ2 -> skipn 5 (firstn bs b2) = skipn 5 (firstn bs b) -> length b2 >= bs ->
     reads_header k c b2 d).
  { intros b2 typ2 y2 S2 T2 Sk L2. pose proof S2 as (V & Ty & vt & E2 & Hvt & G & _).
    set (pre := magic ver ++ [vt] ++ ln ++ fl :: tail).
    assert (Lm : length (magic ver) = 4) by (unfold magic; destruct (ver <? 3)%N; reflexivity).
    assert (Lpre : length pre = bs) by (unfold pre; rewrite !app_length, Lm; cbn [length]; unfold bs; lia).
    assert (Eb : b2 = pre ++ y2) by (rewrite E2; unfold pre; rewrite <- !app_assoc; reflexivity).
    rewrite Eb. apply (item_reads k c ver typ2 fl tail pre ln y2 d e); auto.
    - split; [exact V|]. split; [exact Ty|]. exists vt, ln. cbn [length].
      split; [reflexivity|]. split; [exact Hvt|]. split; [exact G|lia].
    - rewrite <- Eb. exact S2.
    - destruct (grammar_move (go_dialect c 5) (go_dialect c 0) (firstn bs b) pre 5 5) as (Gm & _ & _);
        auto using mle_refl; try (cbn; lia).
      + rewrite firstn_length. lia.
      + intros i x. rewrite Eb in Sk. rewrite <- Lpre, firstn_app_len in Sk. rewrite Lpre in Sk.
        rewrite <- !nth_error_skipn, Sk. auto.
      + destruct (Gm _ _ _ _ It ltac:(lia)) as [Le G2]. specialize (G2 CAny I). unfold mv in G2.
        replace (5 + length ln + 1 - 5 + 5) with (5 + length ln + 1) in G2 by lia.
        replace (e - 5 + 5) with e in G2 by lia. exact G2.
    - lia. }
  split.
  - apply (Go b typ y); auto. lia.
  - destruct Cs as [[-> ->]|(dk & d' & T0 & D & Dc & ->)].
    + apply (Go b 0%N y); auto. lia.
    + destruct (untyped_starts b ver typ ln _ _ d' S ltac:(lia)) as [S' Sk].
      rewrite Nat2N.id in S', Sk. fold bs in S', Sk. cbn [firstn] in S'. rewrite firstn_app_len in S'.
      apply (Go _ 0%N d'); auto.
      * now left.
      * pose proof (untyped_length (firstn bs b)) as Lu. rewrite firstn_length in Lu.
        destruct (untyped_starts b ver typ ln _ _ [] S ltac:(lia)) as [_ Sk2].
        rewrite Nat2N.id in Sk2. fold bs in Sk2. rewrite !app_nil_r in Sk2.
        rewrite firstn_app. replace (bs - length (untyped (firstn bs b))) with 0 by lia.
        cbn [firstn]. rewrite app_nil_r. rewrite firstn_all2 by lia. exact Sk2.
      * rewrite app_length, untyped_length, firstn_length. lia.
Qed.

(** every accepted document can be decompressed, into any buffer *)
Theorem redoc_accepted m dst b ver typ ln n rest h v : slice_ok m dst -> starts b ver typ ln n rest ->
  (Z.of_N n < two63)%Z -> unmarshal_fresh k c b = Ok (h, v) ->
  exists out m', DecompressDocument k p m dst b = Ok (out, m').
Proof.
  intros Hd S Hn U. destruct (unmarshal_fresh_Ok _ _ _ _ _ U) as (s' & E & _). destruct (starts_length _ _ _ _ _ _ S) as [_ L10].
  destruct (redoc_cases m dst b ver typ ln n rest Hd S Hn) as
    [(e & E' & Er)|[(E' & dk & D & Lb & Dc)|(out2 & m2 & E' & _)]]; [| |eauto].
  - destruct (Er [CBuf b; CV GNil; CV GNil] 0 TgtNone 2) as (s2 & [E2|X]); [|congruence].
    unfold fresh_state in E. rewrite E2 in E. discriminate.
  - exfalso. destruct (raw_accepted _ _ _ _ _ _ _ _ E) as (ver' & typ' & ln' & n' & rest' & S' & B).
    destruct (starts_det _ _ _ _ _ _ _ _ _ _ _ S S') as (<- & <- & <- & <- & <-).
    pose proof (body_start_in ln n (length b) (proj2 L10) Hn B) as Es.
    pose proof (packed_body k c b ver typ ln n rest dk (fresh_state b) S D B) as E1. cbv zeta in E1. rewrite E, Es in E1.
    set (bs := 5 + length ln + N.to_nat n) in *.
    destruct Dc as [Dc|[Dc _]]; rewrite Dc in E1; [discriminate|]. rewrite app_nil_r in E1.
    assert (Lf : length (firstn bs b) = bs) by (rewrite firstn_length; lia).
    unfold body_run in E1. destruct (ver =? 1)%N.
    + unfold run_decode, mbind, decode_fuel in E1. rewrite Lf in E1.
      replace (2 * bs + 4) with (Datatypes.S (2 * bs + 3)) in E1 by lia. cbn [decode] in E1. unfold decode_body in E1.
      rewrite Lf, Nat.leb_refl in E1. discriminate.
    + destruct (Nat.eqb_spec bs 0); [discriminate|]. rewrite slice_from_le in E1 by lia.
      set (by_ := skipn (bs - 1) (firstn bs b)) in *.
      assert (Ly : length by_ = 1) by (unfold by_; rewrite skipn_length; lia).
      unfold run_decode, mbind, decode_fuel in E1. rewrite Ly in E1. cbn [Nat.mul Nat.add decode] in E1.
      unfold decode_body in E1. rewrite Ly in E1. cbn [Nat.leb] in E1. discriminate.
Qed.

(** nothing but a document or an error, apart from one crash *)
Theorem redoc_total m dst b : slice_ok m dst ->
  (forall ver typ ln n rest, starts b ver typ ln n rest -> (Z.of_N n < two63)%Z /\
     (typ = 3%N -> zlib_modest (skipn (5 + length ln + N.to_nat n) b)) /\
     (forall dk, documentDecompressor ver typ = Ok (Some dk) ->
        decompress k dk (skipn (5 + length ln + N.to_nat n) b) = Ok [] -> sl_len dst = 0)) ->
  (exists out m', DecompressDocument k p m dst b = Ok (out, m')) \/
  exists e, DecompressDocument k p m dst b = Err e.
Proof.
  intros Hd H. destruct (checkHeader_total b) as [[h Ch]|[e Ch]].
  2:{ right. exists e. unfold DecompressDocument. now rewrite Ch. }
  destruct (checkHeader_inv _ _ Ch) as (ver & typ & ln & n & rest & S & ->).
  destruct (H _ _ _ _ _ S) as (Hn & Hz & He).
  destruct (redoc_cases m dst b ver typ ln n rest Hd S Hn) as
    [(e & E' & Er)|[(E' & dk & D & Lb & Dc)|(out2 & m2 & E' & _)]]; [eauto| |eauto].
  exfalso. destruct Dc as [Dc|[Dc L]]; [|specialize (He _ D Dc); lia].
  destruct (decompress_cases k dk (skipn (5 + length ln + N.to_nat n) b)) as [[d Dd]|[[e Dd]|(_ & -> & Nz)]]; try congruence.
  apply Nz, Hz. unfold documentDecompressor in D.
  change serealRaw with 0%N in D. change serealSnappy with 1%N in D.
  change serealSnappyIncremental with 2%N in D. change serealZlib with 3%N in D. change serealZstd with 4%N in D.
  repeat match type of D with context [if ?q then _ else _] => destruct q eqn:? end; try discriminate. lia.
Qed.
End RP.
