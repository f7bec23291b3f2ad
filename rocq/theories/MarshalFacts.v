(** Marshal produces documents describing its argument. *)
From Verif Require Import Base BaseFacts SpecVarint Varint VarintFacts Tags GoMem Codecs TagsCache Encode
  Compress Spec SpecValue SpecDoc SpecOptions GrammarFacts EncodeSpec EncodeTerm DocFacts Document Header.
From Coq Require Import ZifyBool ZifyNat ZifyN Permutation.
Ltac Zify.zify_post_hook ::= Z.div_mod_to_equations.

Section MF.
Variable k : codecs.
Variable e : econfig.
Variable h : heap.
(** a family of dialects differing only in where back references start *)
Variable G : nat -> dialect.
Variable M : N.
Variable F : bytes -> bytes -> Prop.
Hypothesis Gs : forall s, g_start (G s) = s.
Hypothesis Gm : forall s, g_max (G s) = M.
Hypothesis Gf : forall s, g_frz (G s) = F.
Hypothesis Mlt : (M < 18446744073709551616)%N.
Hypothesis Hw : sane_world e.

Notation tree_ := (tree M F (e_nofreeze e) (e_layout e) h).
Notation den_ := (den (e_perl e) (e_nofreeze e) (e_parsefloat e) h).

Lemma limit_pos : (1 <= depth_limit e)%Z.
Proof. unfold depth_limit. destruct (Z.ltb_spec 0 (e_maxdepth e)); lia. Qed.
Lemma limit_eq : remainingRecursion (e_maxdepth e) = depth_limit e.
Proof. unfold remainingRecursion, depth_limit. destruct (Z.ltb_spec 0 (e_maxdepth e)), (Z.leb_spec (e_maxdepth e) 0); lia. Qed.

Definition wrote (pre : bytes) (v : gval) (s' : estate) (tail : bytes) : Prop :=
  s_by s' = pre ++ tail /\
  forall start m, e_nodedup e = true \/ (copy_ok m = true /\ start <= length pre) ->
    (Z.of_nat (length pre + length tail) < two63)%Z ->
    exists d, den_ false v d /\ item (G start) (pre ++ tail) m (length pre) d (length pre + length tail).

Lemma encode_from v n A : tree_ v n A -> exists N0, forall fuel dep pre tick,
  N0 <= fuel -> (1 <= dep)%Z ->
  if (Z.of_nat n <? dep)%Z
  then exists s' tail, encode e h fuel v false dep (estart pre tick) = Ok s' /\ wrote pre v s' tail
  else encode e h fuel v false dep (estart pre tick) = Err EMaxRecursion.
Proof.
  intros T. destruct Hw as [Hshuf Hpf].
  assert (K : forall start m, Penc e h (G start) m v n A).
  { intros start m.
    destruct (encoder_appends_items e h (G start) m) as [E _]; auto.
    { rewrite Gm. exact Mlt. }
    apply E. rewrite Gm, Gf. exact T. }
  destruct (K 0 CAny) as [N0 P0]. exists N0. intros fuel dep pre tick Lf Ld.
  assert (Td : tdisj (s_ptr (estart pre tick)) A) by (intros a _; reflexivity).
  pose proof (P0 fuel false dep (estart pre tick) Lf Ld Td) as R0.
  destruct (Z.of_nat n <? dep)%Z eqn:C; [|exact R0].
  destruct R0 as (s' & R & _ & [[tail Et] _]). exists s', tail. split; [exact R|].
  split; [exact Et|]. intros start m Rd Sm.
  destruct (K start m) as [N1 P1].
  pose proof (P1 (Nat.max N1 fuel) false dep (estart pre tick) ltac:(lia) Ld Td) as R1. rewrite C in R1.
  destruct R1 as (s1 & R1 & _ & [_ St]).
  rewrite (encode_mono e h fuel (Nat.max N1 fuel) v false dep (estart pre tick) (Ok s') R) in R1;
    [|discriminate|lia]. injection R1 as <-.
  cbn [estart s_by] in *. rewrite Et in St. 
  assert (Sl : small s') by (unfold small; rewrite Et, app_length; lia).
  destruct (St Sl) as [_ (d & Hd & Hi)].
  { destruct Rd as [Rd|[Rd1 Rd2]]; [now left|right]. split; [exact Rd1|]. rewrite Gs. split; [exact Rd2|].
    intros key off Hk. discriminate Hk. }
  exists d. split; [exact Hd|]. now rewrite app_length in Hi.
Qed.

(** the bodies *)
Lemma body_ok v n A : (e_version e = 1 \/ e_version e = 2 \/ e_version e = 3)%N -> tree_ v n A ->
  exists N0, forall fuel pre tick, N0 <= fuel ->
  if (Z.of_nat n <? depth_limit e)%Z
  then exists body, marshal_body fuel e h pre tick v = Ok body /\
    ((Z.of_nat (S (length pre + length body)) < two63)%Z ->
     exists d, den_ false v d /\ body_item CKeys G (e_version e) pre body d (length body))
  else marshal_body fuel e h pre tick v = Err EMaxRecursion.
Proof.
  intros V T. destruct (encode_from v n A T) as [N0 E]. exists N0. intros fuel pre tick Lf.
  unfold marshal_body. rewrite limit_eq.
  assert (B : forall P tick, if (Z.of_nat n <? depth_limit e)%Z
     then exists body,
       bind (encode e h fuel v false (depth_limit e) (estart P tick))
         (fun s => Ok (skipn (length P) (s_by s))) = Ok body /\
       ((Z.of_nat (length P + length body) < two63)%Z -> exists d, den_ false v d /\
         item (G (length P)) (P ++ body) CKeys (length P) d (length P + length body))
     else bind (encode e h fuel v false (depth_limit e) (estart P tick))
         (fun s => Ok (skipn (length P) (s_by s))) = Err EMaxRecursion).
  { intros P tk. specialize (E fuel (depth_limit e) P tk Lf limit_pos).
    destruct (Z.of_nat n <? depth_limit e)%Z.
    - destruct E as (s' & tail & R & Es & W). rewrite R. cbn [bind]. rewrite Es, skipn_app_len.
      exists tail. split; [reflexivity|]. intros Sm. apply W; auto.
    - now rewrite E. }
  destruct V as [V|V].
  - rewrite V. cbn [N.eqb Pos.eqb]. specialize (B pre tick).
    destruct (Z.of_nat n <? depth_limit e)%Z; [|exact B].
    destruct B as (body & R & D). exists body. split; [exact R|]. intros Sm.
    destruct D as (d & Hd & Hi); [lia|]. exists d. split; [exact Hd|exact Hi].
  - assert (V' : ((e_version e =? 1) = false /\ ((e_version e =? 2) || (e_version e =? 3)) = true)%N)
      by (destruct V as [-> | ->]; split; reflexivity).
    destruct V' as [-> ->]. specialize (B [x00] tick). cbn [length] in B.
    destruct (Z.of_nat n <? depth_limit e)%Z; [|exact B].
    destruct B as (body & R & D). exists body. split; [exact R|]. intros Sm.
    destruct D as (d & Hd & Hi); [lia|]. exists d. split; [exact Hd|].
    unfold body_item. destruct V as [-> | ->]; exact Hi.
Qed.
End MF.

(** * The fixed header *)
Lemma preamble_plain ver suffix : (1 <= ver <= 3)%N -> (Z.of_nat (length suffix) < two63)%Z ->
  preamble ver 0 suffix
    ((put32 (if (ver <? 3)%N then magicHeaderBytes else magicHeaderBytesHighBit) ++ [n2b ver])
       ++ varint (ulen suffix) ++ suffix).
Proof.
  intros V L. split; [lia|]. split; [reflexivity|]. exists (n2b ver), (varint (ulen suffix)).
  unfold two63 in L. destruct (varint_groups (ulen suffix)) as [Gr Ll]; [unfold ulen; lia|].
  split; [|split; [rewrite b2n_n2b_small by lia; lia|split; [exact Gr|lia]]].
  rewrite <- !app_assoc. f_equal. unfold magic. destruct (ver <? 3)%N; reflexivity.
Qed.

Lemma preamble_length ver typ suffix pre : preamble ver typ suffix pre -> 6 <= length pre.
Proof.
  intros (_ & _ & vt & len & -> & _ & Gr & _). apply vgroups_nonempty in Gr.
  unfold magic. destruct (ver <? 3)%N; cbn; rewrite app_length; lia.
Qed.

(** compression marks the document type and packs the body *)
Lemma compress_packs k e suffix pre body pre' packed :
  lossless k -> supported (e_version e) (e_comp e) ->
  (1 <= e_version e <= 3)%N -> preamble (e_version e) 0 suffix pre ->
  marshal_compress k e pre body = Ok (pre', packed) ->
  exists typ, preamble (e_version e) typ suffix pre' /\ length pre' = length pre /\
    forall lim, (N.of_nat (length packed) <= lim < 18446744073709551616)%N ->
      (Z.of_nat (length body) < two63)%Z -> packing k lim (e_version e) typ packed body.
Proof.
  intros Ll Su V P. unfold marshal_compress.
  destruct (e_comp e) as [c|].
  2:{ intros [= <- <-]. exists 0%N. split; [exact P|]. split; [reflexivity|]. intros. constructor. }
  destruct ((e_threshold e =? 0) || (e_threshold e <=? Z.of_nat (length body)))%Z.
  2:{ intros [= <- <-]. exists 0%N. split; [exact P|]. split; [reflexivity|]. intros. constructor. }
  assert (U : forall typ, (typ = 1 \/ typ = 2 \/ typ = 3)%N ->
    preamble (e_version e) typ suffix
      (upd pre 4 (n2b (N.lor (b2n (nth 4 pre x00)) (N.shiftl typ 4))))).
  { intros typ Ht. destruct P as (P1 & _ & vt & len & -> & Hb & Gr & Le).
    split; [exact P1|]. split; [lia|].
    assert (Eu : forall y, upd (magic (e_version e) ++ [vt] ++ len ++ suffix) 4 y
       = magic (e_version e) ++ [y] ++ len ++ suffix)
      by (intros; unfold magic; destruct (e_version e <? 3)%N; reflexivity).
    assert (En : nth 4 (magic (e_version e) ++ [vt] ++ len ++ suffix) x00 = vt)
      by (unfold magic; destruct (e_version e <? 3)%N; reflexivity).
    rewrite Eu, En. eexists _, len. split; [reflexivity|]. split; [|auto]. rewrite Hb.
    assert (V' : (e_version e = 1 \/ e_version e = 2 \/ e_version e = 3)%N) by lia.
    destruct V' as [-> |[-> | ->]], Ht as [-> |[-> | ->]]; reflexivity. }
  destruct Ll as (Ls & Lz & _).
  destruct c as [inc|lv|lv]; cbn [compress supported] in *; [| |contradiction].
  - unfold snappy_compress. destruct (maxUint32 <=? Z.of_nat (length body))%Z; [discriminate|].
    cbn [bind]. subst inc.
    destruct (N.eqb_spec (e_version e) 1) as [E1|E1].
    + rewrite E1 in *. cbn [negb andb N.ltb]. cbn. intros [= <- <-]. exists 1%N.
      split; [apply (U 1%N); auto|]. split; [apply upd_length|].
      intros. apply pk_snappy; [reflexivity|apply Ls].
    + destruct (N.ltb_spec 1 (e_version e)); [|lia]. cbn [negb andb].
      cbn [bind]. intros [= <- <-]. exists 2%N.
      split; [apply (U 2%N); auto|]. split; [apply upd_length|].
      intros lim Lp Lb. rewrite app_length in Lp.
      eapply (pk_snappy_inc _ _ _ _ (snappy_enc k body) []); [|apply Ls].
      exists (varint (ulen (snappy_enc k body))). rewrite app_nil_r.
      destruct (varint_groups (ulen (snappy_enc k body))) as [Gr Le].
      { unfold ulen. lia. }
      split; [reflexivity|]. split; [exact Gr|]. split; lia.
  - unfold zlib_compress.
    destruct (zlib_enc k _ body) as [z|] eqn:Ez; [|discriminate]. cbn [bind].
    destruct (N.ltb_spec (e_version e) 3); [lia|]. cbn [bind].
    intros [= <- <-]. exists 3%N.
    split; [apply (U 3%N); auto|]. split; [apply upd_length|].
    intros lim Lp Lb. rewrite !app_length in Lp.
    destruct (Lz _ _ _ Ez) as [Lo Ld].
    destruct (varint_groups (ulen body)) as [Gr Le]; [unfold ulen; unfold two63 in Lb; lia|].
    destruct (varint_groups (ulen z)) as [Gr2 Le2]; [unfold ulen; lia|].
    apply (pk_zlib _ _ _ (varint (ulen body)) (varint (ulen z) ++ z) z []); auto; [lia|].
    exists (varint (ulen z)). rewrite app_nil_r. repeat split; auto; lia.
Qed.

(** the same body after another header *)
Lemma body_item_head m G ver pre pre' body d x : (forall s, g_start (G s) = s) ->
  length pre' = length pre -> body_item m G ver pre body d x -> body_item m G ver pre' body d x.
Proof.
  intros Gs L. unfold body_item. destruct (ver =? 1)%N; [|auto]. intros I. rewrite L.
  destruct (grammar_move (G (length pre)) (G (length pre)) (pre ++ body) (pre' ++ body)
              (length pre) (length pre)) as (Gm & _ & _); auto using mle_refl; try lia.
  { rewrite !app_length. lia. }
  { intros i y. rewrite !nth_error_app2 by lia. now rewrite L. }
  { left. rewrite Gs. lia. }
  destruct (Gm _ _ _ _ I (Nat.le_refl _)) as [_ K]. specialize (K m (mle_refl _)).
  unfold mv in K. rewrite Nat.sub_diag in K.
  replace (length pre + x - length pre + length pre) with (length pre + x) in K by lia. exact K.
Qed.

(** options after choosing the version *)
Lemma proto_fix e : e_version (fix_version e) = proto e.
Proof. unfold fix_version, proto. destruct (e_version e =? 0)%N; reflexivity. Qed.
Lemma fix_same e : let f := fix_version e in (e_perl f = e_perl e) /\ e_comp f = e_comp e /\
 e_threshold f = e_threshold e /\
 e_nodedup f = e_nodedup e /\ e_nofreeze f = e_nofreeze e /\ e_maxdepth f = e_maxdepth e /\
 e_shuffle f = e_shuffle e /\ e_layout f = e_layout e /\ e_parsefloat f = e_parsefloat e.
Proof. unfold fix_version. destruct (e_version e =? 0)%N; cbn; auto 10. Qed.
Lemma sane_fix e : sane_world e -> sane_world (fix_version e).
Proof. unfold fix_version. destruct (e_version e =? 0)%N; auto. Qed.
Lemma limit_fix e : depth_limit (fix_version e) = depth_limit e.
Proof. unfold fix_version, depth_limit. destruct (e_version e =? 0)%N; auto. Qed.
Lemma fix_without e : fix_version (without_compression e) = without_compression (fix_version e).
Proof. unfold fix_version, without_compression. cbn. destruct (e_version e =? 0)%N; reflexivity. Qed.

Section Whole.
Variable k : codecs.
Variable e : econfig.
Variable h : heap.
Variable rd : reader.
Variable M : N.
Variable F : bytes -> bytes -> Prop.
Hypothesis Gs : forall s, g_start (r_dialect rd s) = s.
Hypothesis Gm : forall s, g_max (r_dialect rd s) = M.
Hypothesis Gf : forall s, g_frz (r_dialect rd s) = F.
Hypothesis Mlt : (M < 18446744073709551616)%N.
Hypothesis Plt : (r_packed rd < 18446744073709551616)%N.
Hypothesis Hw : sane_world e.
Hypothesis Hv : (1 <= proto e <= 3)%N.

Notation tree_ := (tree M F (e_nofreeze e) (e_layout e) h).
Notation den_ := (den (e_perl e) (e_nofreeze e) (e_parsefloat e) h).

(** fits in memory *)
Definition in_memory (pre body : bytes) : Prop :=
  (N.of_nat (length pre + length body) <= r_memory rd)%N /\
 (Z.of_nat (S (length pre + length body)) < two63)%Z.

(** Within the depth limit the uncompressed document is a document describing the value;
    beyond it, marshalling is refused (compressed or not). *)
Theorem marshal_any v n A : tree_ v n A ->
  exists N0, forall fuel, N0 <= fuel -> forall header pre tick suffix,
  marshal_header fuel (fix_version e) h header = Ok (pre, tick) ->
  preamble (proto e) 0 suffix pre ->
  if (Z.of_nat n <? depth_limit e)%Z
  then exists body, MarshalWithHeader k fuel (without_compression e) h header v = Ok (pre ++ body) /\
    MarshalWithHeader k fuel e h header v =
      recovered (bind (marshal_compress k (fix_version e) pre body) (fun '(p, b) => Ok (p ++ b))) /\
    (in_memory pre body -> exists d, den_ false v d /\
       body_item CKeys (r_dialect rd) (proto e) pre body d (length body))
  else MarshalWithHeader k fuel e h header v = Err EMaxRecursion /\
       MarshalWithHeader k fuel (without_compression e) h header v = Err EMaxRecursion.
Proof.
  intros T. destruct (fix_same e) as (E1 & E2 & E3 & E4 & E5 & E6 & E7 & E8 & E9).
  destruct (body_ok (fix_version e) h (r_dialect rd) M F Gs Gm Gf Mlt (sane_fix _ Hw) v n A) as [N0 B].
  { rewrite proto_fix. lia. }
  { rewrite E5, E8. exact T. }
  exists N0. intros fuel Lf header pre tick suffix Hh P.
  unfold MarshalWithHeader. rewrite fix_without.
  assert (Eh : marshal_header fuel (without_compression (fix_version e)) h header =
               marshal_header fuel (fix_version e) h header) by reflexivity.
  rewrite Eh, Hh. rewrite proto_fix in *.
  specialize (B fuel pre tick Lf). rewrite limit_fix, E1, E5, E9 in B.
  cbn [bind].
  assert (Eb : marshal_body fuel (without_compression (fix_version e)) h pre tick v =
               marshal_body fuel (fix_version e) h pre tick v).
  { reflexivity. }
  rewrite Eb.
  destruct (Z.of_nat n <? depth_limit e)%Z.
  - destruct B as (body & R & D). exists body. rewrite R.
    cbn [bind marshal_compress without_compression e_comp recovered].
    split; [reflexivity|]. split; [reflexivity|].
    intros [I1 I2]. apply D. exact I2.
  - rewrite B. split; reflexivity.
Qed.

Lemma plain_header fuel : exists pre,
  marshal_header fuel (fix_version e) h None = Ok (pre, 0) /\ preamble (proto e) 0 [] pre.
Proof using Hv.
  eexists. cbn [marshal_header]. split; [reflexivity|]. rewrite proto_fix.
  apply (preamble_plain (proto e) []); [exact Hv|reflexivity].
Qed.

(** the document type chosen *)
Definition describes (b : bytes) (typ : N) (suffix : bytes) (v : gval) (d : data) : Prop :=
  den_ false v d /\ exists body, document_in CKeys rd k b (proto e) typ suffix d body (length body).

(** sizes within what the reader can handle; [b0] is the uncompressed document *)
Definition readable (b0 b : bytes) : Prop :=
  (N.of_nat (length b0) <= r_memory rd)%N /\ (N.of_nat (length b) <= r_memory rd)%N /\
  (Z.of_nat (length b0) < two63 - 1)%Z /\
  (e_comp e = None \/ (N.of_nat (length b) <= r_packed rd)%N).

(** what successful compression tells about the options *)
Lemma compress_supported e0 pre body pre' packed :
  (1 <= e_version e0 <= 3)%N ->
  marshal_compress k e0 pre body = Ok (pre', packed) ->
  (pre' = pre /\ packed = body) \/ supported (e_version e0) (e_comp e0) \/
  (e_version e0 = 1%N /\ e_comp e0 = Some (CSnappy true)).
Proof.
  intros V. unfold marshal_compress. destruct (e_comp e0) as [cp|]; [|intros [= <- <-]; auto].
  destruct (_ || _); [|intros [= <- <-]; auto].
  destruct (compress k cp body); cbn [bind]; try discriminate.
  destruct cp as [inc|lv|lv]; cbn [supported].
  - destruct ((1 <? e_version e0)%N && negb inc) eqn:B; cbn [bind]; [discriminate|].
    intros _. destruct inc, (N.eqb_spec (e_version e0) 1) as [E|E]; auto.
    + cbn in B. destruct (1 <? e_version e0)%N eqn:B2; [discriminate|lia].
  - destruct (N.ltb_spec (e_version e0) 3); cbn [bind]; [discriminate|]. auto.
  - cbn [bind]. discriminate.
Qed.
Lemma marshal_compress_done e0 pre body : marshal_compress k e0 pre body <> NoFuel.
Proof.
  unfold marshal_compress. destruct (e_comp e0) as [cp|]; [|discriminate].
  destruct (_ || _); [|discriminate].
  assert (C : compress k cp body <> NoFuel).
  { destruct cp; cbn; unfold snappy_compress, zlib_compress, zstd_compress.
    - destruct (_ <=? _)%Z; discriminate.
    - destruct (zlib_enc _ _ _); discriminate.
    - destruct (zstd_enc _ _ _); discriminate. }
  destruct (compress k cp body); cbn [bind]; try discriminate; try contradiction.
  destruct cp.
  - destruct (_ && _); [discriminate|]. destruct (_ =? _)%N; discriminate.
  - destruct (_ <? _)%N; discriminate.
  - discriminate.
Qed.

Theorem marshal_documents v n A : tree_ v n A -> (Z.of_nat n < depth_limit e)%Z ->
  exists N0, forall fuel, N0 <= fuel -> forall header pre tick suffix,
  marshal_header fuel (fix_version e) h header = Ok (pre, tick) ->
  preamble (proto e) 0 suffix pre ->
  exists b0, MarshalWithHeader k fuel (without_compression e) h header v = Ok b0 /\
    (e_comp e = None -> MarshalWithHeader k fuel e h header v = Ok b0) /\
    MarshalWithHeader k fuel e h header v <> NoFuel /\
    (forall b, MarshalWithHeader k fuel e h header v = Ok b -> b = b0 \/
       supported (proto e) (e_comp e) \/ (proto e = 1%N /\ e_comp e = Some (CSnappy true))) /\
    ((N.of_nat (length b0) <= r_memory rd)%N -> (Z.of_nat (length b0) < two63 - 1)%Z ->
     exists d, describes b0 0 suffix v d /\
       (lossless k -> supported (proto e) (e_comp e) -> forall b,
        MarshalWithHeader k fuel e h header v = Ok b -> readable b0 b -> exists typ, describes b typ suffix v d)).
Proof.
  intros T Ln. destruct (marshal_any v n A T) as [N0 K]. exists N0.
  intros fuel Lf header pre tick suffix Hh P. specialize (K fuel Lf header pre tick suffix Hh P).
  destruct (Z.ltb_spec (Z.of_nat n) (depth_limit e)); [|lia].
  destruct K as (body & R0 & R & D). exists (pre ++ body). split; [exact R0|]. split.
  { intros Cn. rewrite R. unfold marshal_compress. destruct (fix_same e) as (_ & -> & _).
    now rewrite Cn. }
  split.
  { rewrite R. pose proof (marshal_compress_done (fix_version e) pre body) as Cd.
    destruct (marshal_compress _ _ _ _) as [[? ?]| | | |]; cbn; congruence. }
  split.
  { intros b Rb. rewrite R in Rb.
    destruct (marshal_compress k (fix_version e) pre body) as [[pre' packed]| | | |] eqn:C; try discriminate Rb.
    cbn [bind recovered] in Rb. injection Rb as <-.
    apply compress_supported in C; [|now rewrite proto_fix]. rewrite proto_fix in C.
    destruct (fix_same e) as (_ & Ec & _). rewrite Ec in C.
    destruct C as [[-> ->]|C]; auto. }
  rewrite app_length. intros L1 L2.
  destruct D as (d & Hd & Hi); [split; lia|]. exists d. split.
  { split; [exact Hd|]. exists body. exists pre, body. split; [reflexivity|].
    split; [exact P|]. split; [constructor|]. rewrite app_length. auto. }
  intros Lo Su b Rb (Q1 & Q2 & Q3 & Q4). rewrite R in Rb.
  destruct (marshal_compress k (fix_version e) pre body) as [[pre' packed]| | | |] eqn:C; try discriminate Rb.
  cbn [bind recovered] in Rb. injection Rb as <-.
  destruct (fix_same e) as (_ & Ec & _). rewrite <- Ec, <- proto_fix in Su.
  destruct (e_comp e) as [cp|] eqn:Cn.
  2:{ unfold marshal_compress in C. rewrite Ec in C. injection C as <- <-.
      exists 0%N. split; [exact Hd|]. exists body. exists pre, body. split; [reflexivity|].
      split; [exact P|]. split; [constructor|]. rewrite app_length in *. auto. }
  destruct Q4 as [Q4|Q4]; [discriminate Q4|].
  rewrite <- proto_fix in P.
  destruct (compress_packs k (fix_version e) suffix pre body pre' packed Lo Su) as (typ & P' & Le & Pk); auto.
  { rewrite proto_fix. lia. }
  rewrite proto_fix in *. rewrite app_length in *.
  exists typ. split; [exact Hd|]. exists body. exists pre', packed. split; [reflexivity|]. split; [exact P'|].
  split; [apply Pk; lia|]. rewrite app_length. split; [lia|]. rewrite Le. split; [lia|].
  eapply body_item_head; [exact Gs|exact Le|exact Hi].
Qed.
End Whole.
