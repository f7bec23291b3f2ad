(** Marshal followed by Unmarshal, stated on outcomes. *)
From Verif Require Import Base BaseFacts SpecVarint Varint VarintFacts Tags GoMem Codecs TagsCache Encode
  Compress Header Decode Spec SpecValue SpecDoc SpecOptions SpecOutcome GrammarFacts DecodeSpec ValueFacts
  JsonFacts EncodeSpec EncodeTerm Document DocFacts MarshalFacts OutcomeFacts Roundtrip.
From Coq Require Import ZifyBool ZifyNat ZifyN Permutation.
Ltac Zify.zify_post_hook ::= Z.div_mod_to_equations.

Lemma outcome_marshal k e h hd v n b :
  MarshalWithHeader k n e h hd v = Ok b -> outcome (fun n => MarshalWithHeader k n e h hd v) (Ok b).
Proof. intros H. eapply mono_outcome; [apply mono_marshal|exact H|discriminate]. Qed.

Section RT.
Variable k : codecs.
Variable c : dconfig.
Variable e : econfig.
Variable h : heap.
Hypothesis Hw : sane_world e.
Hypothesis Hv : (1 <= proto e <= 3)%N.

Notation den_ := (den (e_perl e) (e_nofreeze e) (e_parsefloat e) h).
Notation marshal e v := (fun fuel => Marshal k fuel e h v).

Theorem roundtrip_outcome v n A : go_tree c e h v n A -> (Z.of_nat n < depth_limit e)%Z ->
  exists b0, outcome (marshal (without_compression e) v) (Ok b0) /\
    (e_comp e = None -> outcome (marshal e v) (Ok b0)) /\
    (forall b, outcome (marshal e v) (Ok b) -> b = b0 \/
       supported (proto e) (e_comp e) \/ (proto e = 1%N /\ e_comp e = Some (CSnappy true))) /\
    ((N.of_nat (length b0) <= 281474976710656)%N -> exists d,
      den_ false v d /\ reads k c b0 d /\
      (lossless k -> supported (proto e) (e_comp e) -> forall b,
       outcome (marshal e v) (Ok b) -> (N.of_nat (length b) <= 2147483647)%N -> reads k c b d)).
Proof.
  intros T L. destruct (marshal_read_back k c e h Hw Hv v n A T L) as [N0 K].
  destruct (K N0 (Nat.le_refl _)) as (b0 & R0 & R1 & Rf & Rs & D). exists b0.
  assert (At : forall b, outcome (marshal e v) (Ok b) -> Marshal k N0 e h v = Ok b).
  { intros b O. apply (outcome_at _ N0 (Ok b) (mono_marshal k e h None v) O Rf). }
  split; [eapply outcome_marshal, R0|]. split; [intros C; eapply outcome_marshal, (R1 C)|].
  split; [intros b O; apply Rs, At, O|].
  intros Lb. destruct (D Lb) as (d & Hd & Hr & Hc). exists d. repeat (split; [assumption|]).
  intros Lo Su b O. apply Hc; auto.
Qed.

Theorem published_outcome v n A : any_tree e h v n A -> (Z.of_nat n < depth_limit e)%Z ->
  exists b0, outcome (marshal (without_compression e) v) (Ok b0) /\
    (e_comp e = None -> outcome (marshal e v) (Ok b0)) /\
    ((Z.of_nat (length b0) < two63 - 1)%Z -> exists d,
      den_ false v d /\
      (exists body, document_in CKeys standard k b0 (proto e) 0 [] d body (length body)) /\
      (lossless k -> supported (proto e) (e_comp e) -> forall b,
       outcome (marshal e v) (Ok b) -> (Z.of_nat (length b) < two63)%Z ->
       exists typ body, document_in CKeys standard k b (proto e) typ [] d body (length body))).
Proof.
  intros T L. destruct (marshal_published k e h Hw Hv v n A T L) as [N0 K].
  destruct (K N0 (Nat.le_refl _)) as (b0 & R0 & R1 & Rf & Rs & D). exists b0.
  assert (At : forall b, outcome (marshal e v) (Ok b) -> Marshal k N0 e h v = Ok b).
  { intros b O. apply (outcome_at _ N0 (Ok b) (mono_marshal k e h None v) O Rf). }
  split; [eapply outcome_marshal, R0|]. split; [intros C; eapply outcome_marshal, (R1 C)|].
  intros Lb. destruct (D Lb) as (d & Hd & Hr & Hc). exists d. repeat (split; [assumption|]).
  intros Lo Su b O. apply Hc; auto.
Qed.

(** reading in default mode gives the same value back *)
Lemma reads_same b v d : d_perl c = false -> den_ false v d -> reads k c b d ->
  exists h' v', unmarshal_fresh k c b = Ok (h', v') /\
    same (e_nofreeze e) (e_parsefloat e) (reg_of c) h h' v v'.
Proof.
  intros P D (h' & v' & U & R). exists h', v'. split; [exact U|]. rewrite P in R.
  eapply den_repr_same; eauto.
Qed.

(** the depth limit *)
Theorem limit_outcome v n A : any_tree e h v n A ->
  (depth_limit e <= Z.of_nat n)%Z -> outcome (marshal e v) (Err EMaxRecursion).
Proof.
  intros T L.
  destruct (marshal_any k e h standard 18446744073709551615 (fun _ _ => True)) with (v := v) (n := n) (A := A)
    as [N0 K]; auto; try reflexivity.
  destruct (plain_header e h Hv N0) as (pre & Hh & P).
  specialize (K N0 (Nat.le_refl _) None pre 0 [] Hh P).
  destruct (Z.ltb_spec (Z.of_nat n) (depth_limit e)); [lia|]. destruct K as [K _].
  eapply mono_outcome; [apply mono_marshal|exact K|discriminate].
Qed.
End RT.

(** * Values without containers *)
Lemma varint_len n : (n < 18446744073709551616)%N -> length (varint n) <= 10.
Proof. intros L. apply varint_groups in L as [_ [_ L]]. lia. Qed.
Lemma to_uint_lt i : (to_uint i < 18446744073709551616)%N.
Proof. unfold to_uint, two64. lia. Qed.

Lemma encodeInt_len i z : length (encodeInt i z) <= 11.
Proof.
  unfold encodeInt.
  repeat match goal with |- context [if ?b then _ else _] => destruct b end;
    cbn [length]; try lia; pose proof (varint_len _ (to_uint_lt z));
    match goal with |- context [varint ?n] => pose proof (varint_len n (to_uint_lt _)) end; lia.
Qed.

(** a value written at once *)
Lemma marshal_leaf k e h v bs : (1 <= proto e <= 3)%N ->
  (forall f d s, encode (fix_version e) h (S f) v false d s = Ok (emit bs s)) ->
  exists pre, length pre = 6 /\
    outcome (fun n => Marshal k n (without_compression e) h v) (Ok (pre ++ bs)).
Proof.
  intros Hv H. set (e' := fix_version e) in *.
  exists (put32 (if (e_version e' <? 3)%N then magicHeaderBytes else magicHeaderBytesHighBit)
          ++ [n2b (e_version e')] ++ [x00]). split; [reflexivity|].
  eapply mono_outcome; [apply mono_marshal|instantiate (1 := 1)|discriminate].
  cbv beta. unfold Marshal, MarshalWithHeader. rewrite fix_without. fold e'. unfold marshal_header.
  change (e_version (without_compression e')) with (e_version e'). cbn [bind].
  assert (Ep : e_version e' = proto e) by apply proto_fix.
  unfold marshal_body. change (e_version (without_compression e')) with (e_version e').
  assert (H' : forall d s, encode (without_compression e') h 1 v false d s = Ok (emit bs s)).
  { intros d s. exact (H 0 d s). }
  rewrite !H'. cbn [bind].
  destruct (e_version e' =? 1)%N eqn:V1.
  - cbn [bind]. unfold marshal_compress. cbn [e_comp without_compression bind recovered].
    unfold estart, emit. cbn [s_by with_by]. rewrite skipn_app_len. now rewrite <- !app_assoc.
  - destruct ((e_version e' =? 2) || (e_version e' =? 3))%N eqn:V2; [|lia].
    cbn [bind]. unfold marshal_compress. cbn [e_comp without_compression bind recovered].
    unfold estart, emit. cbn [s_by with_by skipn app]. now rewrite <- !app_assoc.
Qed.

Lemma limit_pos e : (0 < depth_limit e)%Z.
Proof. unfold depth_limit. destruct (Z.ltb_spec 0 (e_maxdepth e)); lia. Qed.

(** integers: the document and what is read back *)
Theorem int_roundtrip k c e h kd z : sane_world e -> (1 <= proto e <= 3)%N -> ikind_in kd z ->
  exists b0, outcome (fun n => Marshal k n (without_compression e) h (GInt kd false z)) (Ok b0) /\
    length b0 <= 17 /\ exists h', unmarshal_fresh k c b0 = Ok (h', int_result z).
Proof.
  intros Hw Hv K.
  destruct (roundtrip_outcome k c e h Hw Hv (GInt kd false z) 0 []) as (b0 & O & _ & _ & D).
  { now apply t_int. }
  { cbn. apply limit_pos. }
  destruct (marshal_leaf k e h (GInt kd false z) (encodeInt (ikind_signed kd) (to_int (to_uint z))) Hv)
    as (pre & Lp & O'); [reflexivity|].
  assert (b0 = pre ++ encodeInt (ikind_signed kd) (to_int (to_uint z))).
  { pose proof (outcome_unique _ _ _ O O'). congruence. }
  assert (L : length b0 <= 17).
  { subst b0. rewrite app_length. pose proof (encodeInt_len (ikind_signed kd) (to_int (to_uint z))). lia. }
  exists b0. split; [exact O|]. split; [exact L|].
  destruct D as (d & Dd & (h' & v' & U & R) & _); [lia|]. exists h'. rewrite U.
  inversion Dd; subst. inversion R; subst; unfold int_result;
    destruct (Z.ltb_spec z two63); try lia; reflexivity.
Qed.

Theorem named_int_roundtrip k c e h kd z : sane_world e -> (1 <= proto e <= 3)%N -> ikind_in kd z ->
  ikind_signed kd = true -> kd = KInt \/ (0 <= z)%Z ->
  exists b0, outcome (fun n => Marshal k n (without_compression e) h (GInt kd true z)) (Ok b0) /\
    length b0 <= 17 /\ exists h', unmarshal_fresh k c b0 = Ok (h', int_result z).
Proof.
  intros Hw Hv K Sg P.
  destruct (roundtrip_outcome k c e h Hw Hv (GInt kd true z) 0 []) as (b0 & O & _ & _ & D).
  { now apply t_named. }
  { cbn. apply limit_pos. }
  destruct (marshal_leaf k e h (GInt kd true z) (encodeInt (match kd with KInt => true | _ => false end) z) Hv)
    as (pre & Lp & O').
  { intros f d s. cbn [encode encode_body]. now rewrite Sg. }
  assert (b0 = pre ++ encodeInt (match kd with KInt => true | _ => false end) z).
  { pose proof (outcome_unique _ _ _ O O'). congruence. }
  assert (L : length b0 <= 17).
  { subst b0. rewrite app_length. pose proof (encodeInt_len (match kd with KInt => true | _ => false end) z). lia. }
  exists b0. split; [exact O|]. split; [exact L|].
  destruct D as (d & Dd & (h' & v' & U & R) & _); [lia|]. exists h'. rewrite U.
  inversion Dd; subst. inversion R; subst; unfold int_result;
    destruct (Z.ltb_spec z two63); try lia; reflexivity.
Qed.

(** json.Number *)
Lemma decimal_det s z z' : decimal s z -> decimal s z' -> z = z'.
Proof.
  intros D D'. pose proof (parse_int_spec s) as P.
  inversion D as [? n Dn|b t n E Dn|b t n E Dn]; subst; inversion D' as [? n' Dn'|b' t' n' E' Dn'|b' t' n' E' Dn']; subst;
    try (rewrite (digits_det _ _ _ Dn Dn')); try reflexivity;
    try (apply digits_head in Dn; unfold is_digit in Dn; lia);
    try (apply digits_head in Dn'; unfold is_digit in Dn'; lia); try lia.
Qed.

Theorem json_roundtrip k c e h s z : sane_world e -> (1 <= proto e <= 3)%N -> decimal s z ->
  (N.of_nat (length s) <= 2147483647)%N ->
  exists b0, outcome (fun n => Marshal k n (without_compression e) h (GJson s)) (Ok b0) /\
   exists h', unmarshal_fresh k c b0 =
     Ok (h', if ((- two63 <=? z) && (z <? two63))%Z then int_result z else GStr s).
Proof.
  intros Hw Hv De L.
  destruct (roundtrip_outcome k c e h Hw Hv (GJson s) 0 []) as (b0 & O & _ & _ & D).
  { now apply t_json. }
  { cbn. apply limit_pos. }
  assert (E : exists bs, length bs <= 11 + length s /\
    forall f d st, encode (fix_version e) h (S f) (GJson s) false d st = Ok (emit bs st)).
  { cbn [encode encode_body]. unfold encodeJsonNumber.
    assert (Es : forall st, encodeString (fix_version e) s false st = emit (tagb typeSTR_UTF8 :: varint (ulen s) ++ s) st).
    { intros st. unfold encodeString. now rewrite andb_false_r. }
    pose proof (varint_len (ulen s) ltac:(unfold ulen; lia)).
    pose proof (fun z => encodeInt_len true z).
    destruct (parse_int s) as [p| |].
    - eexists. split; [|reflexivity]. specialize (H0 p). lia.
    - destruct (e_parsefloat (fix_version e) s).
      + eexists. split; [|reflexivity]. cbn. lia.
      + eexists. split; [|intros; rewrite Es; reflexivity]. cbn [length]. rewrite app_length. lia.
    - eexists. split; [|intros; rewrite Es; reflexivity]. cbn [length]. rewrite app_length. lia. }
  destruct E as (bs & Lb & E). destruct (marshal_leaf k e h (GJson s) bs Hv E) as (pre & Lp & O').
  assert (b0 = pre ++ bs). { pose proof (outcome_unique _ _ _ O O'). congruence. }
  exists b0. split; [exact O|].
  destruct D as (d & Dd & (h' & v' & U & R) & _); [subst b0; rewrite app_length; lia|]. exists h'. rewrite U.
  inversion Dd as [| | | | | |? ? z' D' I|? ? D'|? ? ? D'| | | | | | | | | | | | | | | | | | |]; subst.
  - rewrite (decimal_det _ _ _ De D'). unfold int64 in I. destruct ((- two63 <=? z') && (z' <? two63))%Z eqn:C; [|lia].
    inversion R; subst; unfold int_result; destruct (Z.ltb_spec z' two63); try lia; reflexivity.
  - specialize (D' _ De). unfold int64 in D'. destruct ((- two63 <=? z) && (z <? two63))%Z eqn:C; [exfalso; apply D'; lia|].
    inversion R; subst; reflexivity.
  - exfalso. eapply D'; eauto.
Qed.

(** values with MarshalBinary *)
Theorem freeze_roundtrip k c e h name data v : sane_world e -> (1 <= proto e <= 3)%N ->
  e_nofreeze e = false -> d_perl c = false ->
  (N.of_nat (length name) <= 2147483647)%N -> (N.of_nat (length data) <= 2147483647)%N ->
  match d_um c name with
  | None => True | Some (UMPtr t) => d_unmarshal c t data = true | Some (UMVal _) => False
  end ->
  exists b0, outcome (fun n => Marshal k n (without_compression e) h (GUser name (Some data) v)) (Ok b0) /\
   exists h' v', unmarshal_fresh k c b0 = Ok (h', v') /\ exists w, hview h' w = data /\
     match d_um c name with
     | Some (UMPtr t) => v' = GUserP t w
     | _ => exists l, v' = GPtr false l /\ hget h' l = GFreezeV name w
     end.
Proof.
  intros Hw Hv Nf Pl Ln Ld Rg.
  destruct (roundtrip_outcome k c e h Hw Hv (GUser name (Some data) v) 0 []) as (b0 & O & _ & _ & D).
  { apply t_user; auto. lia. cbn. auto. }
  { cbn. apply limit_pos. }
  assert (E : exists bs, length bs <= 50 + length name + length data /\
    outcome (fun n => Marshal k n (without_compression e) h (GUser name (Some data) v)) (Ok bs)).
  { destruct (fix_same e) as (_ & _ & _ & _ & Fn & _).
    set (e' := fix_version e) in *.
    assert (Es : forall st, s_str st = [] -> exists bs str', length bs <= 11 + length name /\
       encodeString e' name true st = mkEState (s_by st ++ bs) str' (s_ptr st) (s_tick st)).
    { intros st Hs. unfold encodeString. rewrite Hs. cbn [mget].
      pose proof (varint_len (ulen name) ltac:(unfold ulen; lia)).
      destruct (negb (e_nodedup e') && true); (eexists; eexists; split;
        [|unfold emit, with_by; cbn [s_by s_str s_ptr s_tick]; reflexivity]); cbn [length]; rewrite app_length; lia. }
    assert (Eb : forall st, exists bs, length bs <= 11 + length data /\ encodeBytes e' data false st = emit bs st).
    { intros st. unfold encodeBytes. rewrite andb_false_r.
      pose proof (varint_len (ulen data) ltac:(unfold ulen; lia)).
      eexists. split; [|reflexivity]. destruct (_ <? _)%N; cbn [length]; [|rewrite app_length]; lia. }
    assert (En : forall pre t, exists bs, length bs <= 40 + length name + length data /\
      forall d, exists st', encode e' h 1 (GUser name (Some data) v) false d (estart pre t) = Ok st' /\
      s_by st' = pre ++ bs).
    { intros pre t. cbn [encode encode_body]. rewrite Fn, Nf.
      set (s0 := emit [tagb typeOBJECT_FREEZE] (estart pre t)).
      destruct (Es s0 eq_refl) as (b1 & str' & L1 & E1). rewrite E1.
      match goal with |- context [encodeBytes e' data false ?s] => destruct (Eb s) as (b2 & L2 & E2); rewrite E2 end.
      eexists. split; [|intros d; eexists; split; [reflexivity|]].
      2:{ unfold s0, estart, emit, with_by. cbn [s_by]. rewrite <- !app_assoc. reflexivity. }
      rewrite !app_length. cbn [length].
      pose proof (varint_len 1 ltac:(lia)). lia. }
    eassert (Hm : exists bs, length bs <= 50 + length name + length data /\
       Marshal k 1 (without_compression e) h (GUser name (Some data) v) = Ok bs).
    { unfold Marshal, MarshalWithHeader. rewrite fix_without. fold e'. unfold marshal_header.
      change (e_version (without_compression e')) with (e_version e'). cbn [bind].
      assert (Ep : e_version e' = proto e) by apply proto_fix.
      unfold marshal_body. change (e_version (without_compression e')) with (e_version e').
      destruct (e_version e' =? 1)%N eqn:V1.
      - match goal with |- context [estart ?p ?t] => destruct (En p t) as (bs & L & X) end.
        destruct (X (remainingRecursion (e_maxdepth (without_compression e')))) as (st' & Y & Z).
        change (encode (without_compression e')) with (encode e').
        rewrite Y. cbn [bind]. unfold marshal_compress. cbn [e_comp without_compression bind recovered].
        rewrite Z, skipn_app_len. eexists. split; [|reflexivity]. rewrite !app_length.
        destruct (_ <? _)%N; cbn; lia.
      - destruct ((e_version e' =? 2) || (e_version e' =? 3))%N eqn:V2; [|lia].
        match goal with |- context [estart ?p ?t] => destruct (En p t) as (bs & L & X) end.
        destruct (X (remainingRecursion (e_maxdepth (without_compression e')))) as (st' & Y & Z).
        change (encode (without_compression e')) with (encode e').
        rewrite Y. cbn [bind]. unfold marshal_compress. cbn [e_comp without_compression bind recovered].
        rewrite Z. cbn [skipn app]. eexists. split; [|reflexivity]. rewrite !app_length.
        destruct (_ <? _)%N; cbn; lia. }
    destruct Hm as (bs & L & Hm). exists bs. split; [exact L|].
    eapply (outcome_marshal k _ h None _ 1 bs Hm). }
  destruct E as (bs & Lb & O').
  assert (b0 = bs). { pose proof (outcome_unique _ _ _ O O'). congruence. }
  subst bs. exists b0. split; [exact O|].
  destruct D as (d & Dd & (h' & v' & U & R) & _); [lia|]. exists h', v'. split; [exact U|].
  rewrite Pl in R. inversion Dd; subst; [|congruence].
  unfold reg_of in R. inversion R; subst.
  - exists w. split; [reflexivity|]. destruct (d_um c name) as [[t|t]|]; try discriminate; eauto.
    + contradiction.
    + exists l. split; [reflexivity|]. now apply hget_cell.
  - exists w. split; [reflexivity|]. destruct (d_um c name) as [[t'|t']|]; try discriminate. congruence.
Qed.
