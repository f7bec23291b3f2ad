(** Marshal of values with sharing and cycles. *)
From Verif Require Import Base BaseFacts SpecVarint Varint VarintFacts Tags GoMem Codecs TagsCache Encode
  Compress Decode Spec SpecValue SpecDoc SpecOptions SpecShare SpecGraph SpecCycle SpecKnot SpecOutcome GrammarFacts
  DecodeSpec EncodeSpec EncodeTerm DocFacts Document Header MarshalFacts OutcomeFacts Roundtrip RoundtripFacts
  ShareEncode ShareDecode ShareFacts ShareMarshal CycleDecode CycleFacts KnotEncode KnotFacts KnotTame.
From Coq Require Import ZifyBool ZifyNat ZifyN Permutation.
Ltac Zify.zify_post_hook ::= Z.div_mod_to_equations.

(** in which modes a graph can be read *)
Definition follows (h : heap) (v : gval) (x : node) : Prop :=
  forall perl, perl = true \/ (tame_memory h /\ tame h v) -> followable perl x.

Section KM.
Variable e : econfig.
Variable h : heap.
Variable G : nat -> dialect.
Variable M : N.
Variable F : bytes -> bytes -> Prop.
Hypothesis Gs : forall s, g_start (G s) = s.
Hypothesis Gm : forall s, g_max (G s) = M.
Hypothesis Gf : forall s, g_frz (G s) = F.
Hypothesis Mlt : (M < 18446744073709551616)%N.
Hypothesis Hw : sane_world e.
Hypothesis Pm : proper_memory M F (e_nofreeze e) h.

Notation kden_ := (kden (e_perl e) (e_nofreeze e) (e_parsefloat e) (e_layout e) h).

Lemma knot_from v fuel dep pre tick s' : proper M F (e_nofreeze e) h v ->
  encode e h fuel v false dep (estart pre tick) = Ok s' ->
  exists tail, s_by s' = pre ++ tail /\
    forall start, start <= length pre -> (Z.of_nat (length pre + length tail) < two63)%Z ->
    exists x Y X, kden_ [] false v x Y /\ follows h v x /\
      gitem (G start) (pre ++ tail) [] CAny (length pre) x (length pre + length tail) X.
Proof.
  intros Pv R. destruct Hw as [Hshuf Hpf].
  assert (K : forall start, goes e h (G start) CAny (encode e h fuel) v).
  { intros start. apply encoder_follows_knots; auto.
    - rewrite Gm. exact Mlt.
    - rewrite Gm, Gf. exact Pm.
    - rewrite Gm, Gf. exact Pv. }
  assert (A : KnotEncode.al [] [] [] (estart pre tick)).
  { split; [intros ? []|]. split; [intros ? []|]. reflexivity. }
  destruct (K 0 false dep (estart pre tick) [] [] [] A s' R) as (x0 & Y0 & X0 & N0 & _ & _ & Fu & _).
  destruct (fut_nil _ _ Fu) as [tail Et]. cbn [estart s_by] in Et.
  exists tail. split; [exact Et|]. intros start Ls Sm.
  destruct (K start false dep (estart pre tick) [] [] [] A s' R)
    as (x & Y & X & N & (_ & _ & xb & -> & Hk) & _ & (_ & _ & St)).
  destruct St as [_ Q].
  { unfold small. rewrite Et, app_length. lia. }
  { split; [intros ? []|]. right. split; [reflexivity|]. rewrite Gs. split; [exact Ls|].
    intros key off Hx. discriminate Hx. }
  specialize (Q (s_by s') (fut_refl _ _)). unfold Qitem in Q. cbn [estart s_by] in Q, Hk. rewrite Et in Q.
  rewrite app_length in Q.
  set (by_ := pre ++ tail) in *. set (FF := filter (markedb by_) X).
  destruct (oitem_numbered (G start) by_) as (C1 & _).
  destruct (C1 _ _ _ _ _ _ Q FF) as (Gi & Bd & Ez).
  { exists []. split; [now rewrite app_nil_r|]. intros z []. }
  { intros n []. }
  destruct (kden_rename (number FF) (e_perl e) (e_nofreeze e) (e_parsefloat e) (e_layout e) h) as (_ & C2 & _).
  pose proof Hk as Hk0. apply C2 in Hk; [|exact Bd].
  exists (rename (number FF) (NAt (length pre) xb)), (rens (number FF) Y), (filter (markedb by_) X).
  split; [cbn [rename]; now apply kd_item|]. split; [|exact Gi].
  assert (Ft : followable true (rename (number FF) (NAt (length pre) xb))) by (exists (fun _ => False); exact Ez).
  intros [|] Hp; [exact Ft|]. destruct Hp as [[=]|[Tm Tv]].
  set (xo := NAt (length pre) xb) in *.
  destruct (labels_apart (G start) by_) as (La & _). destruct (La _ _ _ _ _ _ Q) as [Nd _].
  exists (Zn (number FF) (marks xo)).
  destruct (tame_fine (number FF) (marks xo) Nd (number_inj FF) (e_perl e) (e_nofreeze e) (e_parsefloat e) (e_layout e) h Tm)
    as (Tf & _).
  destruct (Tf _ _ _ _ _ (kd_item _ _ _ _ _ _ (Some (length pre)) _ _ _ _ Hk0) Tv) as (Ok_ & _); auto.
  { intros a n []. }
  { apply incl_refl. }
  eapply Ok_. exact Ez.
Qed.

Lemma knot_body v fuel pre tick body :
  (e_version e = 1 \/ e_version e = 2 \/ e_version e = 3)%N -> proper M F (e_nofreeze e) h v ->
  marshal_body fuel e h pre tick v = Ok body ->
  (Z.of_nat (S (length pre + length body)) < two63)%Z ->
  exists x Y, kden_ [] false v x Y /\ follows h v x /\ gbody_item G (e_version e) pre body x (length body).
Proof.
  intros V Pv. unfold marshal_body.
  assert (B : forall P tick dep body,
       bind (encode e h fuel v false dep (estart P tick))
         (fun s => Ok (skipn (length P) (s_by s))) = Ok body ->
       (Z.of_nat (length P + length body) < two63)%Z -> exists x Y X, kden_ [] false v x Y /\ follows h v x /\
         gitem (G (length P)) (P ++ body) [] CAny (length P) x (length P + length body) X).
  { intros P tk dep body0 R. destruct (encode e h fuel v false dep (estart P tk)) as [s'| | | |] eqn:Re; try discriminate R.
    cbn [bind] in R. injection R as R. destruct (knot_from v fuel dep P tk s' Pv Re) as (tail & Es & W).
    rewrite Es, skipn_app_len in R. subst tail. intros Sm. apply W; auto. }
  destruct V as [V|V].
  - rewrite V. cbn [N.eqb Pos.eqb]. intros R Sm. destruct (B _ _ _ _ R) as (x & Y & X & H1 & H2 & H3); [lia|].
    exists x, Y. split; [exact H1|]. split; [exact H2|]. exists X. exact H3.
  - assert (V' : ((e_version e =? 1) = false /\ ((e_version e =? 2) || (e_version e =? 3)) = true)%N)
      by (destruct V as [-> | ->]; split; reflexivity).
    destruct V' as [V1 ->]. rewrite V1. intros R Sm.
    destruct (B [x00] _ _ _ R) as (x & Y & X & H1 & H2 & H3); [cbn [length]; lia|].
    exists x, Y. split; [exact H1|]. split; [exact H2|]. exists X. rewrite V1. exact H3.
Qed.
End KM.

Lemma gbody_item_head G ver pre pre' body x n : (forall s, g_start (G s) = s) ->
  length pre' = length pre -> gbody_item G ver pre body x n -> gbody_item G ver pre' body x n.
Proof.
  intros Gs L [X I]. exists X. destruct (ver =? 1)%N; [|exact I]. rewrite L.
  destruct (cycle_move (G (length pre)) (pre ++ body) (pre' ++ body) (length pre)) as (S1 & _).
  - rewrite !app_length. lia.
  - intros i y Li. rewrite !nth_error_app2 by lia. now rewrite L.
  - rewrite Gs. lia.
  - apply (S1 _ _ _ _ _ _ I). lia.
Qed.

Section Whole.
Variable k : codecs.
Variable e : econfig.
Variable h : heap.
Variable rd : reader.
Variable M : N.
Variable F : bytes -> bytes -> Prop.
Hypothesis Gs : forall s, g_start (r_dialect rd s) = s.
Hypothesis Gm : forall s, g_max (r_dialect rd s) = M.
Hypothesis Gf : forall s, g_frz (r_dialect rd s) = F.
Hypothesis Mlt : (M < 18446744073709551616)%N.
Hypothesis Plt : (r_packed rd < 18446744073709551616)%N.
Hypothesis Hw : sane_world e.
Hypothesis Hv : (1 <= proto e <= 3)%N.
Hypothesis Pm : proper_memory M F (e_nofreeze e) h.

Notation kden_ := (kden (e_perl e) (e_nofreeze e) (e_parsefloat e) (e_layout e) h).

Theorem marshal_gdocuments v : proper M F (e_nofreeze e) h v ->
  forall fuel header pre tick suffix b,
  marshal_header fuel (fix_version e) h header = Ok (pre, tick) ->
  preamble (proto e) 0 suffix pre ->
  MarshalWithHeader k fuel e h header v = Ok b ->
  exists b0, MarshalWithHeader k fuel (without_compression e) h header v = Ok b0 /\
    (e_comp e = None -> b = b0) /\
    (readable e rd b0 b -> exists x, (exists Y, kden_ [] false v x Y) /\ follows h v x /\
      (exists body, gdocument rd k b0 (proto e) 0 suffix x body (length body)) /\
      (lossless k -> supported (proto e) (e_comp e) ->
       exists typ body, gdocument rd k b (proto e) typ suffix x body (length body))).
Proof.
  intros Pv fuel header pre tick suffix b Hh P Rb.
  destruct (fix_same e) as (E1 & E2 & E3 & E4 & E5 & E6 & E7 & E8 & E9).
  unfold MarshalWithHeader in Rb. rewrite Hh in Rb. cbn [bind] in Rb.
  destruct (marshal_body fuel (fix_version e) h pre tick v) as [body| | | |] eqn:R1; try discriminate Rb.
  cbn [bind] in Rb.
  assert (R0 : MarshalWithHeader k fuel (without_compression e) h header v = Ok (pre ++ body)).
  { unfold MarshalWithHeader. rewrite fix_without.
    assert (Eh : marshal_header fuel (without_compression (fix_version e)) h header =
               marshal_header fuel (fix_version e) h header) by reflexivity.
    rewrite Eh, Hh. cbn [bind].
    assert (Eb : marshal_body fuel (without_compression (fix_version e)) h pre tick v =
               marshal_body fuel (fix_version e) h pre tick v) by reflexivity.
    rewrite Eb, R1. reflexivity. }
  exists (pre ++ body). split; [exact R0|]. split.
  { intros Cn. unfold marshal_compress in Rb. rewrite E2, Cn in Rb. cbn in Rb. congruence. }
  intros (Q1 & Q2 & Q3 & Q4). rewrite app_length in Q1, Q3.
  destruct (knot_body (fix_version e) h (r_dialect rd) M F Gs Gm Gf Mlt (sane_fix _ Hw)) with (v := v) (fuel := fuel)
    (pre := pre) (tick := tick) (body := body) as (x & Y & Hd & Fx & Hi); auto.
  { rewrite E5. exact Pm. }
  { rewrite proto_fix. lia. }
  { rewrite E5. exact Pv. }
  { lia. }
  rewrite E1, E5, E8, E9 in Hd. rewrite proto_fix in Hi.
  exists x. split; [eauto|]. split; [exact Fx|]. split.
  { exists body. exists pre, body. split; [reflexivity|].
    split; [exact P|]. split; [constructor|]. rewrite app_length. auto. }
  intros Lo Su.
  destruct (marshal_compress k (fix_version e) pre body) as [[pre' packed]| | | |] eqn:C; try discriminate Rb.
  cbn [bind recovered] in Rb. injection Rb as <-.
  rewrite <- E2, <- proto_fix in Su.
  destruct (e_comp e) as [cp|] eqn:Cn.
  2:{ unfold marshal_compress in C. rewrite E2 in C. injection C as <- <-.
      exists 0%N. exists body. exists pre, body. split; [reflexivity|].
      split; [exact P|]. split; [constructor|]. rewrite app_length in *. auto. }
  destruct Q4 as [Q4|Q4]; [discriminate Q4|].
  rewrite <- proto_fix in P.
  destruct (compress_packs k (fix_version e) suffix pre body pre' packed Lo Su) as (typ & P' & Le & Pk); auto.
  { rewrite proto_fix. lia. }
  rewrite proto_fix in *. rewrite app_length in *.
  exists typ. exists body. exists pre', packed. split; [reflexivity|]. split; [exact P'|].
  split; [apply Pk; lia|]. rewrite app_length. split; [lia|]. rewrite Le. split; [lia|].
  eapply gbody_item_head; [exact Gs|exact Le|exact Hi].
Qed.
End Whole.

(** memories and values that can be written / that a decoder with options [c] can read back *)
Definition any_proper (e : econfig) (h : heap) (v : gval) : Prop :=
  proper_memory 18446744073709551615 (fun _ _ => True) (e_nofreeze e) h /\
  proper 18446744073709551615 (fun _ _ => True) (e_nofreeze e) h v.
Definition go_proper (c : dconfig) (e : econfig) (h : heap) (v : gval) : Prop :=
  proper_memory 2147483647 (g_frz (go_dialect c 0)) (e_nofreeze e) h /\
  proper 2147483647 (g_frz (go_dialect c 0)) (e_nofreeze e) h v.

Section Api.
Variable k : codecs.
Variable e : econfig.
Variable h : heap.
Hypothesis Hw : sane_world e.
Hypothesis Hv : (1 <= proto e <= 3)%N.
Notation kden_ := (kden (e_perl e) (e_nofreeze e) (e_parsefloat e) (e_layout e) h).

Theorem knot_published v b : any_proper e h v ->
  outcome (fun n => Marshal k n e h v) (Ok b) ->
  exists b0, outcome (fun n => Marshal k n (without_compression e) h v) (Ok b0) /\ (e_comp e = None -> b = b0) /\
    ((Z.of_nat (length b0) < two63 - 1)%Z -> (Z.of_nat (length b) < two63)%Z ->
     exists x, (exists Y, kden_ [] false v x Y) /\ follows h v x /\
      (exists body, gdocument standard k b0 (proto e) 0 [] x body (length body)) /\
      (lossless k -> supported (proto e) (e_comp e) ->
       exists typ body, gdocument standard k b (proto e) typ [] x body (length body))).
Proof.
  intros [Pm Pv] [_ [N0 O]]. specialize (O N0 (Nat.le_refl _)). cbn beta in O.
  destruct (plain_header e h Hv N0) as (pre & Hh & P).
  destruct (marshal_gdocuments k e h standard 18446744073709551615 (fun _ _ => True)) with (v := v) (fuel := N0)
    (header := @None gval) (pre := pre) (tick := 0) (suffix := @nil byte) (b := b) as (b0 & R0 & En & D); auto;
    try reflexivity.
  exists b0. split; [eapply outcome_marshal, R0|]. split; [exact En|]. intros L1 L2. apply D.
  unfold readable. cbn [standard r_memory r_packed]. unfold two63 in *. repeat split; try lia; right; lia.
Qed.

Theorem knot_read_back c v b : go_proper c e h v ->
  outcome (fun n => Marshal k n e h v) (Ok b) ->
  exists b0, outcome (fun n => Marshal k n (without_compression e) h v) (Ok b0) /\ (e_comp e = None -> b = b0) /\
    ((N.of_nat (length b0) <= 281474976710656)%N -> (N.of_nat (length b) <= 2147483647)%N ->
     exists x, (exists Y, kden_ [] false v x Y) /\ follows h v x /\
      ((d_perl c = true \/ (tame_memory h /\ tame h v) \/ followable (d_perl c) x) -> reads_node k c b0 x /\
       (lossless k -> supported (proto e) (e_comp e) -> reads_node k c b x))).
Proof.
  intros [Pm Pv] [_ [N0 O]]. specialize (O N0 (Nat.le_refl _)). cbn beta in O.
  destruct (plain_header e h Hv N0) as (pre & Hh & P).
  destruct (marshal_gdocuments k e h (go_reader c) 2147483647 (g_frz (go_dialect c 0))) with (v := v) (fuel := N0)
    (header := @None gval) (pre := pre) (tick := 0) (suffix := @nil byte) (b := b) as (b0 & R0 & En & D); auto;
    try reflexivity.
  exists b0. split; [eapply outcome_marshal, R0|]. split; [exact En|]. intros L1 L2.
  destruct D as (x & Hk & Fx & (body & D0) & D1).
  { unfold readable. cbn [go_reader r_memory r_packed]. unfold two63. repeat split; try lia; right; lia. }
  exists x. split; [exact Hk|]. split; [exact Fx|]. intros Fd0.
  assert (Fd : followable (d_perl c) x) by (destruct Fd0 as [H|[H|H]]; [apply Fx; now left|apply Fx; now right|exact H]).
  split; [eapply gdocument_reads; eauto|].
  intros Lo Su. destruct (D1 Lo Su) as (typ & body' & D'). eapply gdocument_reads; eauto.
Qed.
End Api.
