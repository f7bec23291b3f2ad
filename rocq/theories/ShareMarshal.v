(** Marshal of values with shared parts produces documents with references to earlier items. *)
From Verif Require Import Base BaseFacts SpecVarint Varint VarintFacts Tags GoMem Codecs TagsCache Encode
  Compress Spec SpecValue SpecDoc SpecOptions SpecShare SpecGraph GrammarFacts EncodeSpec EncodeTerm
  DocFacts Document Header MarshalFacts ShareEncode ShareDecode ShareFacts.
From Coq Require Import ZifyBool ZifyNat ZifyN Permutation.
Ltac Zify.zify_post_hook ::= Z.div_mod_to_equations.

Lemma fut_nil b b' : fut [] b b' -> exists tail, b' = b ++ tail.
Proof.
  revert b'. induction b as [|x b IH]; intros b' H; [exists b'; reflexivity|].
  destruct (H 0 x eq_refl) as (y & Hy & [->|[[] _]]). destruct b' as [|z b']; [discriminate|].
  injection Hy as ->. destruct (IH b') as [tail ->]; [|exists tail; reflexivity].
  intros i u Hu. apply (H (S i) u Hu).
Qed.

Section SM.
Variable k : codecs.
Variable e : econfig.
Variable h : heap.
Variable lev : addr -> nat.
Variable nm : addr -> gval -> Prop.
Variable G : nat -> dialect.
Variable M : N.
Variable F : bytes -> bytes -> Prop.
Variable m : cmode.
Hypothesis Gs : forall s, g_start (G s) = s.
Hypothesis Gm : forall s, g_max (G s) = M.
Hypothesis Gf : forall s, g_frz (G s) = F.
Hypothesis Mlt : (M < 18446744073709551616)%N.
Hypothesis Hw : sane_world e.
Hypothesis Hm : copy_ok m = true.

Notation dag_ := (dag M F (e_nofreeze e) (e_layout e) h lev nm).
Notation sden_ := (sden (e_perl e) (e_nofreeze e) (e_parsefloat e) (e_layout e) h).

Lemma sencode_from v n : dag_ v n -> exists N0, forall fuel dep pre tick,
  N0 <= fuel -> (Z.of_nat n < dep)%Z ->
  exists s' tail, encode e h fuel v false dep (estart pre tick) = Ok s' /\ s_by s' = pre ++ tail /\
    forall start, start <= length pre -> (Z.of_nat (length pre + length tail) < two63)%Z ->
    exists d Y X, sden_ [] false v d Y /\ sitem (G start) (pre ++ tail) [] m (length pre) d (length pre + length tail) X.
Proof.
  intros T. destruct Hw as [Hshuf Hpf].
  assert (K : forall start, Penc e h (G start) m lev v n).
  { intros start. destruct (encoder_follows_traversal e h (G start) m lev nm) as [E _]; auto.
    { rewrite Gm. exact Mlt. }
    apply E. rewrite Gm, Gf. exact T. }
  destruct (K 0) as [N0 P0]. exists N0. intros fuel dep pre tick Lf Ld.
  assert (A : forall s0, s0 = estart pre tick -> al [] [] [] s0).
  { intros s0 ->. split; [intros ? []|]. split; [intros ? []|]. reflexivity. }
  assert (B : busy lev [] n) by (intros a Ha; discriminate Ha).
  destruct (P0 fuel false dep (estart pre tick) [] [] [] Lf Ld (A _ eq_refl) B)
    as (s' & d0 & Y0 & X0 & N1 & R & _ & _ & (Fu & _)).
  destruct (fut_nil _ _ Fu) as [tail Et]. cbn [estart s_by] in Et.
  exists s', tail. split; [exact R|]. split; [exact Et|]. intros start Ls Sm.
  destruct (K start) as [N2 P2].
  destruct (P2 (Nat.max N2 fuel) false dep (estart pre tick) [] [] [] ltac:(lia) Ld (A _ eq_refl) B)
    as (s1 & d & Y & X & N3 & R1 & (Dn & _) & _ & (_ & _ & St)).
  rewrite (encode_mono e h fuel (Nat.max N2 fuel) v false dep (estart pre tick) (Ok s') R) in R1;
    [|discriminate|lia]. injection R1 as <-.
  exists d, Y, X. split; [exact Dn|].
  destruct St as [_ Q].
  { unfold small. rewrite Et, app_length. lia. }
  { split; [intros ? []|]. right. split; [exact Hm|]. rewrite Gs. split; [exact Ls|].
    intros key off Hk. discriminate Hk. }
  specialize (Q (s_by s') (fut_refl _ _)). unfold Qitem in Q. cbn [estart s_by] in Q. rewrite Et in Q.
  now rewrite app_length in Q.
Qed.

Lemma sbody_ok v n : (e_version e = 1 \/ e_version e = 2 \/ e_version e = 3)%N -> dag_ v n ->
  (Z.of_nat n < depth_limit e)%Z ->
  exists N0, forall fuel pre tick, N0 <= fuel ->
  exists body, marshal_body fuel e h pre tick v = Ok body /\
    ((Z.of_nat (S (length pre + length body)) < two63)%Z ->
     exists d Y, sden_ [] false v d Y /\ sbody_item m G (e_version e) pre body d (length body)).
Proof.
  intros V T Ld. destruct (sencode_from v n T) as [N0 E]. exists N0. intros fuel pre tick Lf.
  unfold marshal_body.
  replace (remainingRecursion (e_maxdepth e)) with (depth_limit e)
    by (unfold remainingRecursion, depth_limit; destruct (Z.ltb_spec 0 (e_maxdepth e)), (Z.leb_spec (e_maxdepth e) 0); lia).
  assert (B : forall P tick, exists body,
       bind (encode e h fuel v false (depth_limit e) (estart P tick))
         (fun s => Ok (skipn (length P) (s_by s))) = Ok body /\
       ((Z.of_nat (length P + length body) < two63)%Z -> exists d Y X, sden_ [] false v d Y /\
         sitem (G (length P)) (P ++ body) [] m (length P) d (length P + length body) X)).
  { intros P tk. destruct (E fuel (depth_limit e) P tk Lf Ld) as (s' & tail & R & Es & W).
    rewrite R. cbn [bind]. rewrite Es, skipn_app_len.
    exists tail. split; [reflexivity|]. intros Sm. apply W; auto. }
  destruct V as [V|V].
  - rewrite V. cbn [N.eqb Pos.eqb]. destruct (B pre tick) as (body & R & D). exists body. split; [exact R|]. intros Sm.
    destruct D as (d & Y & X & Hd & Hi); [lia|]. exists d, Y. split; [exact Hd|]. exists X. exact Hi.
  - assert (V' : ((e_version e =? 1) = false /\ ((e_version e =? 2) || (e_version e =? 3)) = true)%N)
      by (destruct V as [-> | ->]; split; reflexivity).
    destruct V' as [V1 ->]. rewrite V1. destruct (B [x00] tick) as (body & R & D). cbn [length] in *.
    exists body. split; [exact R|]. intros Sm.
    destruct D as (d & Y & X & Hd & Hi); [lia|]. exists d, Y. split; [exact Hd|].
    exists X. rewrite V1. exact Hi.
Qed.
End SM.

Lemma sbody_item_head m G ver pre pre' body d x : (forall s, g_start (G s) = s) ->
  length pre' = length pre -> sbody_item m G ver pre body d x -> sbody_item m G ver pre' body d x.
Proof.
  intros Gs L [X I]. exists X. destruct (ver =? 1)%N; [|exact I]. rewrite L.
  destruct (share_move (G (length pre)) (pre ++ body) (pre' ++ body) (length pre)) as (S1 & _).
  - rewrite !app_length. lia.
  - intros i y Li. rewrite !nth_error_app2 by lia. now rewrite L.
  - rewrite Gs. lia.
  - apply (S1 _ _ _ _ _ _ I); [intros ? ? []|lia].
Qed.

Section Whole.
Variable k : codecs.
Variable e : econfig.
Variable h : heap.
Variable lev : addr -> nat.
Variable nm : addr -> gval -> Prop.
Variable rd : reader.
Variable M : N.
Variable F : bytes -> bytes -> Prop.
Variable m : cmode.
Hypothesis Gs : forall s, g_start (r_dialect rd s) = s.
Hypothesis Gm : forall s, g_max (r_dialect rd s) = M.
Hypothesis Gf : forall s, g_frz (r_dialect rd s) = F.
Hypothesis Mlt : (M < 18446744073709551616)%N.
Hypothesis Plt : (r_packed rd < 18446744073709551616)%N.
Hypothesis Hw : sane_world e.
Hypothesis Hv : (1 <= proto e <= 3)%N.
Hypothesis Hm : copy_ok m = true.

Notation dag_ := (dag M F (e_nofreeze e) (e_layout e) h lev nm).
Notation sden_ := (sden (e_perl e) (e_nofreeze e) (e_parsefloat e) (e_layout e) h).

Definition sdescribes (b : bytes) (typ : N) (suffix : bytes) (v : gval) (d : data) : Prop :=
  (exists Y, sden_ [] false v d Y) /\
  exists body, sdocument_in m rd k b (proto e) typ suffix d body (length body).

Theorem marshal_sdocuments v n : dag_ v n -> (Z.of_nat n < depth_limit e)%Z ->
  exists N0, forall fuel, N0 <= fuel -> forall header pre tick suffix,
  marshal_header fuel (fix_version e) h header = Ok (pre, tick) ->
  preamble (proto e) 0 suffix pre ->
  exists b0, MarshalWithHeader k fuel (without_compression e) h header v = Ok b0 /\
    (e_comp e = None -> MarshalWithHeader k fuel e h header v = Ok b0) /\
    MarshalWithHeader k fuel e h header v <> NoFuel /\
    (forall b, MarshalWithHeader k fuel e h header v = Ok b -> b = b0 \/
       supported (proto e) (e_comp e) \/ (proto e = 1%N /\ e_comp e = Some (CSnappy true))) /\
    ((N.of_nat (length b0) <= r_memory rd)%N -> (Z.of_nat (length b0) < two63 - 1)%Z ->
     exists d, sdescribes b0 0 suffix v d /\
       (lossless k -> supported (proto e) (e_comp e) -> forall b,
        MarshalWithHeader k fuel e h header v = Ok b -> readable e rd b0 b -> exists typ, sdescribes b typ suffix v d)).
Proof.
  intros T Ln. destruct (fix_same e) as (E1 & E2 & E3 & E4 & E5 & E6 & E7 & E8 & E9).
  destruct (sbody_ok (fix_version e) h lev nm (r_dialect rd) M F m Gs Gm Gf Mlt (sane_fix _ Hw) Hm v n) as [N0 B].
  { rewrite proto_fix. lia. }
  { rewrite E5, E8. exact T. }
  { rewrite limit_fix. exact Ln. }
  exists N0. intros fuel Lf header pre tick suffix Hh P.
  destruct (B fuel pre tick Lf) as (body & R1 & D). rewrite E1, E5, E8, E9, proto_fix in D.
  assert (R : MarshalWithHeader k fuel e h header v =
    recovered (bind (marshal_compress k (fix_version e) pre body) (fun '(p, b) => Ok (p ++ b)))).
  { unfold MarshalWithHeader. rewrite Hh. cbn [bind]. rewrite R1. reflexivity. }
  assert (R0 : MarshalWithHeader k fuel (without_compression e) h header v = Ok (pre ++ body)).
  { unfold MarshalWithHeader. rewrite fix_without.
    assert (Eh : marshal_header fuel (without_compression (fix_version e)) h header =
               marshal_header fuel (fix_version e) h header) by reflexivity.
    rewrite Eh, Hh. cbn [bind].
    assert (Eb : marshal_body fuel (without_compression (fix_version e)) h pre tick v =
               marshal_body fuel (fix_version e) h pre tick v) by reflexivity.
    rewrite Eb, R1. reflexivity. }
  exists (pre ++ body). split; [exact R0|]. split.
  { intros Cn. rewrite R. unfold marshal_compress. rewrite E2. now rewrite Cn. }
  split.
  { rewrite R. pose proof (marshal_compress_done k (fix_version e) pre body) as Cd.
    destruct (marshal_compress _ _ _ _) as [[? ?]| | | |]; cbn; congruence. }
  split.
  { intros b Rb. rewrite R in Rb.
    destruct (marshal_compress k (fix_version e) pre body) as [[pre' packed]| | | |] eqn:C; try discriminate Rb.
    cbn [bind recovered] in Rb. injection Rb as <-.
    apply (compress_supported k e rd M Mlt Plt Hv) in C; [|now rewrite proto_fix]. rewrite proto_fix in C.
    rewrite E2 in C. destruct C as [[-> ->]|C]; auto. }
  rewrite app_length. intros L1 L2.
  destruct D as (d & Y & Hd & Hi); [lia|]. exists d. split.
  { split; [eauto|]. exists body. exists pre, body. split; [reflexivity|].
    split; [exact P|]. split; [constructor|]. rewrite app_length. auto. }
  intros Lo Su b Rb (Q1 & Q2 & Q3 & Q4). rewrite R in Rb.
  destruct (marshal_compress k (fix_version e) pre body) as [[pre' packed]| | | |] eqn:C; try discriminate Rb.
  cbn [bind recovered] in Rb. injection Rb as <-.
  rewrite <- E2, <- proto_fix in Su.
  destruct (e_comp e) as [cp|] eqn:Cn.
  2:{ unfold marshal_compress in C. rewrite E2 in C. injection C as <- <-.
      exists 0%N. split; [eauto|]. exists body. exists pre, body. split; [reflexivity|].
      split; [exact P|]. split; [constructor|]. rewrite app_length in *. auto. }
  destruct Q4 as [Q4|Q4]; [discriminate Q4|].
  rewrite <- proto_fix in P.
  destruct (compress_packs k (fix_version e) suffix pre body pre' packed Lo Su) as (typ & P' & Le & Pk); auto.
  { rewrite proto_fix. lia. }
  rewrite proto_fix in *. rewrite app_length in *.
  exists typ. split; [eauto|]. exists body. exists pre', packed. split; [reflexivity|]. split; [exact P'|].
  split; [apply Pk; lia|]. rewrite app_length. split; [lia|]. rewrite Le. split; [lia|].
  eapply sbody_item_head; [exact Gs|exact Le|exact Hi].
Qed.
End Whole.
