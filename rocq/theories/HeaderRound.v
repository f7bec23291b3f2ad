(** MarshalWithHeader followed by UnmarshalHeader and Unmarshal. *)
From Verif Require Import Base BaseFacts SpecVarint Varint VarintFacts Tags GoMem Codecs TagsCache Encode
  Compress Header Decode Spec SpecValue SpecDoc SpecHeader SpecOptions SpecOutcome GrammarFacts DecodeSafe DecodeSpec ValueFacts
  EncodeSpec EncodeTerm Document DocFacts MarshalFacts OutcomeFacts Roundtrip RoundtripFacts
  HeaderFacts ApiFacts ApiSafe ApiProps.
From Coq Require Import ZifyBool ZifyNat ZifyN Permutation.
Ltac Zify.zify_post_hook ::= Z.div_mod_to_equations.

(** UnmarshalHeader with a new Decoder succeeds with a value standing for [d] *)
Definition reads_header (k : codecs) (c : dconfig) (b : bytes) (d : data) : Prop :=
  exists h' v', unmarshal_header_fresh k c b = Ok (h', v') /\
    repr (d_perl c) (reg_of c) (fun _ => True) h' v' d.

Lemma nth_error_at {A} (a l r : list A) i x : nth_error l i = Some x -> nth_error (a ++ l ++ r) (length a + i) = Some x.
Proof.
  intros H. rewrite nth_error_app2 by lia. replace (length a + i - length a) with i by lia.
  rewrite nth_error_app1; [exact H|]. apply nth_error_Some. congruence.
Qed.

(** a suffix holding an item *)
Lemma item_reads k c ver typ fl tail pre ln y d e : preamble ver typ (fl :: tail) pre ->
  starts (pre ++ y) ver typ ln (N.of_nat (S (length tail))) ((fl :: tail) ++ y) ->
  length pre = 5 + length ln + S (length tail) ->
  N.odd (b2n fl) = true -> type_defined ver typ ->
  item (go_dialect c 0) pre CAny (5 + length ln + 1) d e ->
  (Z.of_nat (length pre) <= 281474976710656)%Z ->
  reads_header k c (pre ++ y) d.
Proof.
  intros Hp St Lp Hfl Ht It2 Lp48.
  destruct (starts_length _ _ _ _ _ _ St) as [_ L10].
  assert (Es : exists p0, pre = p0 ++ fl :: tail /\ length p0 = 5 + length ln).
  { destruct Hp as (_ & _ & vt & ln2 & E & _). exists (magic ver ++ [vt] ++ ln2).
    split; [rewrite E; now rewrite <- !app_assoc|].
    apply (f_equal (@length _)) in E. rewrite !app_length in *. cbn [length] in *. lia. }
  destruct Es as (p0 & Es & Lp0).
  set (s := reset (fresh_state (pre ++ y))).
  destruct (decode_implements_grammar c pre 0 0 (pre ++ y) 0) as (D & _ & _).
  { unfold two63. lia. }
  { exists [], y. split; reflexivity. }
  destruct (D _ _ _ _ It2) as (L1 & L2 & D').
  destruct (D' (decode_fuel pre) 1 s) as (s' & v & Rn & F & Cv & V); try reflexivity.
  { cbn. unfold need, decode_fuel. lia. }
  assert (U : unmarshal_raw k c (pre ++ y) 0 (TgtIface 1) TgtNone (fresh_state (pre ++ y)) = (Ok tt, s')).
  { rewrite (header_call k c ver typ (fl :: tail) pre ln y 0 1 (fresh_state (pre ++ y)) St Lp ltac:(unfold two63; lia)).
    apply (decompressor_defined ver typ (proj1 Hp)) in Ht as [dec Hd]. rewrite Hd.
    unfold unmarshal_header. cbn [target_nil orb header_of h_suffixSize h_suffixStart]. unfold headerSize.
    destruct (Z.eqb_spec (wrap64 (to_int (N.of_nat (length (fl :: tail))) + Z.of_nat (length ln))) 1) as [E|_].
    { exfalso. cbn [length] in E. rewrite to_int_small in E by (unfold two63; lia).
      rewrite wrap64_small in E by (unfold two63; lia). lia. }
    unfold mbind at 1. unfold fresh_tracked at 1. fold (reset (fresh_state (pre ++ y))). fold s.
    assert (Nf : nth_error (pre ++ y) (5 + length ln) = Some fl).
    { rewrite nth_error_app1 by lia. rewrite Es, <- Lp0.
      rewrite nth_error_app2, Nat.sub_diag by lia. reflexivity. }
    rewrite Nf, firstn_app_len.
    destruct (N.eqb_spec (N.land (b2n fl) 1) 1) as [_|C].
    - unfold runs in Rn. unfold run_decode, mbind. now rewrite Rn.
    - exfalso. apply C. change 1%N with (N.ones 1) at 1. rewrite N.land_ones. 
      rewrite <- N.bit0_odd in Hfl. change (2 ^ 1)%N with 2%N. rewrite <- N.bit0_mod, Hfl. reflexivity. }
  exists (d_heap s'), v. split.
  - unfold unmarshal_header_fresh, UnmarshalHeader, UnmarshalHeaderBody. rewrite U. cbn [recovered bind].
    now rewrite (hget_cell _ _ _ Cv).
  - eapply repr_stable; [|exact V]. intros. split; [exact I|reflexivity].
Qed.

(** a suffix holding an item without back references *)
Lemma suffix_reads k c ver typ fl tail pre y d : preamble ver typ (fl :: tail) pre ->
  N.odd (b2n fl) = true -> type_defined ver typ ->
  item (go_dialect c (S (length tail))) (fl :: tail) CNone 1 d (S (length tail)) ->
  (Z.of_nat (length pre) <= 281474976710656)%Z ->
  reads_header k c (pre ++ y) d.
Proof.
  intros Hp Hfl Ht It Lp48.
  destruct (preamble_starts ver typ _ pre Hp) as (ln & St & Lp). specialize (St y). cbn [length] in *.
  destruct (starts_length _ _ _ _ _ _ St) as [_ L10].
  set (n := N.of_nat (S (length tail))) in *.
  (* the item at its place in pre *)
  assert (Es : exists p0, pre = p0 ++ fl :: tail /\ length p0 = 5 + length ln).
  { destruct Hp as (_ & _ & vt & ln2 & E & _). exists (magic ver ++ [vt] ++ ln2).
    split; [rewrite E; now rewrite <- !app_assoc|].
    apply (f_equal (@length _)) in E. rewrite !app_length in *. cbn [length] in *. lia. }
  destruct Es as (p0 & Es & Lp0).
  assert (It2 : item (go_dialect c 0) pre CAny (5 + length ln + 1) d (length pre)).
  { destruct (grammar_move (go_dialect c (S (length tail))) (go_dialect c 0) (fl :: tail) pre 0 (5 + length ln)) as (G & _ & _).
    - cbn [length]. lia.
    - intros i x Hx. change (0 + i) with i in Hx. rewrite <- Lp0, Es.
      rewrite <- (app_nil_r (fl :: tail)). now apply nth_error_at.
    - cbn. lia.
    - cbn. auto.
    - exact I.
    - auto.
    - cbn. auto.
    - right. cbn. lia.
    - destruct (G _ _ _ _ It (Nat.le_0_l _)) as [_ G2]. specialize (G2 CAny I). unfold mv in G2.
      replace (1 - 0 + (5 + length ln)) with (5 + length ln + 1) in G2 by lia.
      replace (S (length tail) - 0 + (5 + length ln)) with (length pre) in G2 by lia. exact G2. }
  exact (item_reads k c ver typ fl tail pre ln y d _ Hp St Lp Hfl Ht It2 Lp48).
Qed.

Lemma packing_type k lim ver typ p b : (1 <= ver <= 4)%N -> packing k lim ver typ p b -> type_defined ver typ.
Proof. intros V H. unfold type_defined. destruct H; subst; auto 10. Qed.

Lemma Ok_inj {A} (a b : A) : Ok a = Ok b -> a = b.
Proof. now intros [= ->]. Qed.

Lemma nil_body e h f p t : (e_version e = 2 \/ e_version e = 3)%N -> 0 < f ->
  marshal_body f e h p t GNil = Ok [tagb typeUNDEF].
Proof.
  intros V L. unfold marshal_body. destruct (N.eqb_spec (e_version e) 1) as [X|_]; [lia|].
  assert (X : ((e_version e =? 2) || (e_version e =? 3))%N = true) by lia. rewrite X.
  destruct f as [|f]; [lia|]. reflexivity.
Qed.

Section HR.
Variable k : codecs.
Variable c : dconfig.
Variable e : econfig.
Variable h : heap.
Hypothesis Hw : sane_world e.
Hypothesis Hv : (2 <= proto e <= 3)%N.

Notation den_ := (den (e_perl e) (e_nofreeze e) (e_parsefloat e) h).

Definition marshal_h (e : econfig) (hv v : gval) : nat -> res bytes :=
  fun n => MarshalWithHeader k n e h (Some hv) v.

(** the header bytes, when written without COPY tags *)
Lemma header_bytes e1 hv nh Ah : sane_world e1 -> (2 <= e_version e1 <= 3)%N -> e_nodedup e1 = true ->
  e_nofreeze e1 = e_nofreeze e -> e_layout e1 = e_layout e ->
  go_tree c e h hv nh Ah -> (Z.of_nat nh < depth_limit e1)%Z ->
  exists N0, forall fuel, N0 <= fuel -> exists tail tick,
    marshal_header fuel e1 h (Some hv) = Ok ((put32 (if (e_version e1 <? 3)%N then magicHeaderBytes else magicHeaderBytesHighBit)
       ++ [n2b (e_version e1)]) ++ varint (ulen (x01 :: tail)) ++ x01 :: tail, tick) /\
    ((Z.of_nat (S (length tail)) < two63)%Z -> exists d, den (e_perl e1) (e_nofreeze e1) (e_parsefloat e1) h false hv d /\
       item (go_dialect c (S (length tail))) (x01 :: tail) CNone 1 d (S (length tail))).
Proof.
  intros W V Nd En Es T Ld.
  destruct (encode_from e1 h (go_dialect c) 2147483647 (g_frz (go_dialect c 0))) with (v := hv) (n := nh) (A := Ah)
    as [N0 K]; auto; try reflexivity.
  { rewrite En, Es. exact T. }
  exists N0. intros fuel Lf.
  assert (L1 : (1 <= depth_limit e1)%Z) by (unfold depth_limit; destruct (Z.ltb_spec 0 (e_maxdepth e1)); lia).
  specialize (K fuel (depth_limit e1) [x01] 0 Lf L1).
  destruct (Z.ltb_spec (Z.of_nat nh) (depth_limit e1)); [|lia].
  destruct K as (s' & tail & R & Eb & Wr). exists tail, (s_tick s').
  unfold marshal_header. destruct (N.leb_spec 2 (e_version e1)); [|lia].
  assert (Lq : remainingRecursion (e_maxdepth e1) = depth_limit e1).
  { unfold remainingRecursion, depth_limit. destruct (Z.ltb_spec 0 (e_maxdepth e1)), (Z.leb_spec (e_maxdepth e1) 0); lia. }
  rewrite Lq, R. cbn [bind]. rewrite Eb. split; [reflexivity|].
  intros Sm. destruct (Wr (S (length tail)) CNone) as (d & Hd & Hi); [now left|cbn [length]; lia|].
  exists d. split; [exact Hd|exact Hi].
Qed.

(** What holds: a header written without COPY tags, i.e. in which no string is repeated or
    string deduplication is off. *)
Theorem header_roundtrip hv nh Ah v n A bh :
  go_tree c e h hv nh Ah -> (Z.of_nat nh < depth_limit e)%Z ->
  go_tree c e h v n A -> (Z.of_nat n < depth_limit e)%Z ->
  outcome (marshal_h (without_compression e) hv GNil) (Ok bh) ->
  outcome (marshal_h (without_dedup (without_compression e)) hv GNil) (Ok bh) ->
  (Z.of_nat (length bh) < two63)%Z ->
  exists b0, outcome (marshal_h (without_compression e) hv v) (Ok b0) /\
    (e_comp e = None -> outcome (marshal_h e hv v) (Ok b0)) /\
    ((N.of_nat (length b0) <= 281474976710656)%N -> exists dh d,
      den_ false hv dh /\ den_ false v d /\ reads_header k c b0 dh /\ reads k c b0 d /\
      (lossless k -> supported (proto e) (e_comp e) -> forall b,
       outcome (marshal_h e hv v) (Ok b) -> (N.of_nat (length b) <= 2147483647)%N ->
       reads_header k c b dh /\ reads k c b d)).
Proof.
  intros Th Lh T Ln O1 O2 Lbh.
  destruct (fix_same e) as (E1 & E2 & E3 & E4 & E5 & E6 & E7 & E8 & E9).
  set (e1 := fix_version (without_dedup (without_compression e))).
  assert (V1 : e_version e1 = proto e).
  { unfold e1. rewrite proto_fix. reflexivity. }
  assert (S1 : e_nodedup e1 = true /\ e_nofreeze e1 = e_nofreeze e /\ e_layout e1 = e_layout e /\
     e_perl e1 = e_perl e /\ e_parsefloat e1 = e_parsefloat e /\ depth_limit e1 = depth_limit e /\ sane_world e1).
  { unfold e1, fix_version. destruct (_ =? _)%N; cbn; repeat split; apply Hw. }
  destruct S1 as (Nd1 & En1 & Es1 & Ep1 & Epf1 & El1 & Hw1).
  destruct (header_bytes e1 hv nh Ah Hw1 ltac:(lia) Nd1 En1 Es1 Th ltac:(lia)) as [N1 Hb].
  destruct (marshal_documents k e h (go_reader c) 2147483647 (g_frz (go_dialect c 0))) with (v := v) (n := n) (A := A)
    as [N0 K]; auto; try reflexivity; try lia.
  destruct O1 as [_ [n1 O1]], O2 as [_ [n2 O2]].
  set (fuel := S (Nat.max (Nat.max N0 N1) (Nat.max n1 n2))).
  assert (F0 : 0 < fuel) by (unfold fuel; lia).
  destruct (Hb fuel ltac:(lia)) as (tail & tick & Hh1 & It).
  (* the header bytes with the given options are the same *)
  assert (Hh : exists tick', marshal_header fuel (fix_version e) h (Some hv) =
     Ok ((put32 (if (proto e <? 3)%N then magicHeaderBytes else magicHeaderBytesHighBit)
       ++ [n2b (proto e)]) ++ varint (ulen (x01 :: tail)) ++ x01 :: tail, tick') /\ (Z.of_nat (S (length tail)) < two63)%Z).
  { specialize (O1 fuel ltac:(lia)). specialize (O2 fuel ltac:(lia)). unfold marshal_h, MarshalWithHeader in O1, O2.
    fold e1 in O2. rewrite Hh1 in O2. cbn [bind] in O2. rewrite V1 in O2.
    rewrite fix_without in O1.
    assert (Eh : marshal_header fuel (without_compression (fix_version e)) h (Some hv) =
                 marshal_header fuel (fix_version e) h (Some hv)) by reflexivity.
    rewrite Eh in O1.
    destruct (marshal_header fuel (fix_version e) h (Some hv)) as [[pre tk]| | | |]; try discriminate O1.
    cbn [bind] in O1.
    rewrite nil_body in O2 by (rewrite ?V1; lia). rewrite nil_body in O1 by (cbn [without_compression e_version]; rewrite ?proto_fix; lia).
    cbn [bind] in O1, O2. unfold marshal_compress in O1, O2.
    cbn [without_compression e_comp] in O1.
    assert (C1 : e_comp e1 = None) by (destruct (fix_same (without_dedup (without_compression e))) as (_ & X & _); exact X).
    rewrite C1 in O2. cbn [bind recovered] in O1, O2. apply Ok_inj in O1. apply Ok_inj in O2. rewrite <- O1 in O2.
    apply app_inv_tail in O2. exists tk. rewrite <- O2. split; [reflexivity|].
    rewrite <- O1, <- O2 in Lbh. revert Lbh. rewrite !app_length. cbn [length]. lia. }
  destruct Hh as (tick' & Hh & Lt).
  set (pre := (put32 (if (proto e <? 3)%N then magicHeaderBytes else magicHeaderBytesHighBit)
       ++ [n2b (proto e)]) ++ varint (ulen (x01 :: tail)) ++ x01 :: tail) in *.
  assert (Pp : preamble (proto e) 0 (x01 :: tail) pre) by (apply preamble_plain; [lia|exact Lt]).
  destruct (It Lt) as (dh & Hdh & Hit). rewrite Ep1, En1, Epf1 in Hdh.
  destruct (K fuel ltac:(unfold fuel; lia) (Some hv) pre tick' (x01 :: tail) Hh Pp) as (b0 & R0 & Rn & Rf & Rs & D).
  exists b0. split; [eapply outcome_marshal, R0|]. split; [intros Cn; eapply outcome_marshal, (Rn Cn)|].
  intros L. cbn [go_reader r_memory r_packed] in D.
  destruct D as (d & (Hd & body & Doc) & Dc); [exact L|unfold two63; lia|].
  assert (Rh : forall b typ body, document_in CKeys (go_reader c) k b (proto e) typ (x01 :: tail) d body (length body) ->
     (N.of_nat (length b) <= 281474976710656)%N -> reads_header k c b dh /\ reads k c b d).
  { intros b typ bd Dd Lb. split; [|eapply document_reads, document_any, Dd].
    destruct Dd as (pre' & packed & -> & P & Pk & _).
    apply (suffix_reads k c (proto e) typ x01 tail pre' packed dh P eq_refl).
    - eapply packing_type; [|exact Pk]. lia.
    - exact Hit.
    - rewrite app_length in Lb. lia. }
  exists dh, d. split; [exact Hdh|]. split; [exact Hd|].
  destruct (Rh b0 0%N body Doc L) as [H1 H2]. split; [exact H1|]. split; [exact H2|].
  intros Lo Su b Ob Lb.
  assert (Rb : MarshalWithHeader k fuel e h (Some hv) v = Ok b).
  { apply (outcome_at _ fuel (Ok b) (mono_marshal k e h (Some hv) v) Ob Rf). }
  destruct (Dc Lo Su b Rb) as (typ' & _ & body' & Doc').
  { unfold readable. cbn [go_reader r_memory r_packed]. unfold two63. repeat split; try lia; right; lia. }
  apply (Rh b typ' body' Doc'). lia.
Qed.
End HR.
