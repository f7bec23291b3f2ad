(** Unmarshal into a typed variable, on whole documents. *)
From Verif Require Import Base BaseFacts SpecVarint Varint VarintFacts Tags GoMem GoTypes Codecs TagsCache Encode
  Compress Header Decode DecodeSafe Spec SpecValue SpecDoc SpecOptions SpecOutcome SpecTyped GrammarFacts DecodeSpec
  ValueFacts EncodeSpec EncodeTerm Document DocFacts MarshalFacts OutcomeFacts Roundtrip RoundtripFacts Typed TypedSpec.
From Coq Require Import ZifyBool ZifyNat ZifyN Permutation.
Ltac Zify.zify_post_hook ::= Z.div_mod_to_equations.

Section Docs.
Variable k : codecs.
Variable c : dconfig.
Variable v : goenv.
Hypothesis Hp : d_perl c = false.

Lemma tbody_decoded ver pre body d e ib s ty cur x0 : (1 <= length pre)%nat ->
  (Z.of_nat (length pre + length body) <= 281474976710656)%Z ->
  body_item CAny (go_dialect c) ver pre body d e ->
  nth_error (d_heap s) ib = Some (CBuf (pre ++ body)) -> d_copy s = 0 ->
  into v (fun _ _ => True) ty cur d x0 ->
  exists s' x,
    (if (ver =? 1)%N then
       let! r := tdecode c v (pre ++ body) ib 0 (decode_fuel (pre ++ body)) ty cur Settable (length pre) in ret (fst r)
     else if Nat.eqb (length pre) 0 then crash
     else match slice_from (pre ++ body) (length pre - 1) with
          | None => crash
          | Some by_ => let! r := tdecode c v by_ ib (length pre - 1) (decode_fuel by_) ty cur Settable 1 in ret (fst r)
          end) s = (Ok x, s') /\
    (forall W, frm W s s') /\ into v (repr false (reg_of c) (fresh ib s s') (d_heap s')) ty cur d x.
Proof.
  intros Lp Lb I Hib Hc HI. unfold body_item in I. destruct (ver =? 1)%N.
  - destruct (tdecode_implements_into c v (pre ++ body) ib 0 (pre ++ body) (length pre)) as (D & _ & _); auto.
    { rewrite app_length. unfold two63. lia. }
    { exists [], []. now rewrite app_nil_r. }
    destruct (D _ _ _ _ I) as (L1 & L2 & D').
    destruct (D' (decode_fuel (pre ++ body)) ty cur s x0) as (s' & x & R & F & X); auto.
    { rewrite Hc. unfold need, decode_fuel. lia. }
    exists s', x. split; [|auto]. unfold mbind. unfold runs in R. now rewrite R.
  - destruct (Nat.eqb_spec (length pre) 0); [lia|].
    destruct (exists_last (l := pre)) as (pre0 & y & ->); [intros ->; cbn in *; lia|].
    rewrite app_length in *. cbn [length] in *.
    replace (length pre0 + 1 - 1) with (length pre0) by lia.
    rewrite <- app_assoc in *. cbn [app] in *.
    assert (S : slice_from (pre0 ++ y :: body) (length pre0) = Some (y :: body)).
    { unfold slice_from. rewrite app_length, skipn_app_len. cbn.
      destruct (Nat.leb_spec (length pre0) (length pre0 + S (length body))); [reflexivity|lia]. }
    rewrite S.
    apply (item_head _ x00 y) in I; [|reflexivity].
    destruct (tdecode_implements_into c v (y :: body) ib (length pre0) (pre0 ++ y :: body) 1) as (D & _ & _); auto.
    { cbn [length]. unfold two63. lia. }
    { exists pre0, []. now rewrite app_nil_r. }
    destruct (D _ _ _ _ I) as (L1 & L2 & D').
    destruct (D' (decode_fuel (y :: body)) ty cur s x0) as (s' & x & R & F & X); auto.
    { rewrite Hc. unfold need, decode_fuel. lia. }
    exists s', x. split; [|auto]. unfold mbind. unfold runs in R. now rewrite R.
Qed.

Theorem typed_document b ver typ suffix d body e h ib ty cur x0 :
  document (go_reader c) k b ver typ suffix d body e ->
  nth_error h ib = Some (CBuf b) ->
  into v (fun _ _ => True) ty cur d x0 ->
  exists h' x, unmarshal_typed k c v h b ib ty cur = Ok (h', x) /\ memory_kept h h' /\
    into v (repr false (reg_of c) (fun l => l = ib \/ length h <= l < length h') h') ty cur d x.
Proof.
  intros (pre & packed & -> & Hpre & Pk & Lb & Lm & I) Hib HI.
  cbn [go_reader r_packed r_memory r_dialect] in *. rewrite app_length in Lb.
  destruct (checkHeader_preamble _ _ _ _ packed Hpre ltac:(lia)) as (sz & Ch & Lpre & Lsz).
  destruct (unpack k ver typ packed body (proj1 Hpre) Pk ltac:(lia)) as (o & Dd & Ho).
  unfold unmarshal_typed, unmarshal_typed_raw.
  unfold mbind at 1. unfold lift at 1. rewrite Ch.
  unfold mbind at 1. unfold lift at 1. cbn [h_version h_doctype h_suffixSize]. rewrite Dd.
  assert (Eb : wrap64 (Z.of_nat headerSize + Z.of_nat (sz + length suffix)) = Z.of_nat (length pre)).
  { rewrite wrap64_small; unfold headerSize, two63 in *; lia. }
  rewrite Eb, Nat2Z.id. rewrite app_length.
  destruct ((Z.of_nat (length pre + length packed) <? Z.of_nat (length pre)) || (Z.of_nat (length pre) <? 0))%Z
    eqn:C; [lia|].
  unfold unmarshal_tbody. cbn [h_version].
  destruct o as [dk|].
  - set (nb := pre ++ body).
    set (s1 := mkDState (h ++ [CBuf nb]) [] 0 []).
    destruct (tbody_decoded ver pre body d e (length h) s1 ty cur x0) as (s' & x & R & F & X); auto.
    { unfold headerSize in *. lia. }
    { lia. }
    { cbn. rewrite nth_error_app2, Nat.sub_diag by lia. reflexivity. }
    exists (d_heap s'), x. destruct (F (fun _ => False)) as (F1 & F2 & F3).
    cbn in F1, F2. rewrite app_length in F1, F2. cbn in F1, F2.
    split; [|split].
    + unfold mbind at 1. assert (Sl : slice_from (pre ++ packed) (length pre) = Some packed).
      { unfold slice_from. rewrite app_length, skipn_app_len.
        destruct (Nat.leb_spec (length pre) (length pre + length packed)); [reflexivity|lia]. }
      rewrite Sl. unfold mbind at 1. unfold lift at 1. rewrite Ho. cbv zeta. rewrite firstn_app_len.
      unfold mbind at 1. unfold alloc at 1. unfold ret at 1.
      unfold mbind at 1. unfold fresh_tracked at 1. cbn [with_heap d_heap d_copy d_made].
      fold nb. fold s1. fold nb in R. rewrite R. reflexivity.
    + intros l y Hl. pose proof (nth_error_Some_lt _ _ _ _ Hl).
      rewrite F2; [|lia|auto]. now rewrite nth_error_app1.
    + eapply into_mono; [|exact X]. intros y dd. eapply repr_stable.
      intros l Hl. split; [|reflexivity]. right. destruct Hl as [->|Hl]; [lia|].
      cbn in Hl. rewrite app_length in Hl. cbn in Hl. lia.
  - destruct Ho as [-> ->].
    set (s1 := mkDState h [] 0 []).
    destruct (tbody_decoded ver pre body d e ib s1 ty cur x0) as (s' & x & R & F & X); auto.
    { unfold headerSize in *. lia. }
    { lia. }
    exists (d_heap s'), x. destruct (F (fun _ => False)) as (F1 & F2 & F3).
    split; [|split].
    + unfold mbind at 1. unfold ret at 1. unfold mbind at 1. unfold fresh_tracked at 1.
      change (mkDState (d_heap s1) [] (d_copy s1) (d_made s1)) with s1. rewrite R. reflexivity.
    + intros l y Hl. pose proof (nth_error_Some_lt _ _ _ _ Hl). cbn in F2. rewrite F2; auto.
    + exact X.
Qed.
End Docs.

(** Marshal writes documents this reader accepts *)
Section MD.
Variable k : codecs.
Variable c : dconfig.
Variable e : econfig.
Variable h : heap.
Hypothesis Hw : sane_world e.
Hypothesis Hv : (1 <= proto e <= 3)%N.

Notation den_ := (den (e_perl e) (e_nofreeze e) (e_parsefloat e) h).
Notation marshal e v := (fun fuel => Marshal k fuel e h v).
Definition carries (b : bytes) (d : data) : Prop :=
  exists ver typ suffix body x, document (go_reader c) k b ver typ suffix d body x.

Theorem marshal_carries v n A : go_tree c e h v n A -> (Z.of_nat n < depth_limit e)%Z ->
  exists b0, outcome (marshal (without_compression e) v) (Ok b0) /\
    (e_comp e = None -> outcome (marshal e v) (Ok b0)) /\
    ((N.of_nat (length b0) <= 281474976710656)%N -> exists d,
      den_ false v d /\ carries b0 d /\
      (lossless k -> supported (proto e) (e_comp e) -> forall b,
       outcome (marshal e v) (Ok b) -> (N.of_nat (length b) <= 2147483647)%N -> carries b d)).
Proof.
  intros T Ln.
  destruct (marshal_documents k e h (go_reader c) 2147483647 (g_frz (go_dialect c 0))) with (v := v) (n := n) (A := A)
    as [N0 K]; auto; try reflexivity.
  destruct (plain_header e h Hv N0) as (pre & Hh & P).
  destruct (K N0 (Nat.le_refl _) None pre 0 [] Hh P) as (b0 & R0 & Rn & Rf & Rs & D). exists b0.
  assert (At : forall b, outcome (marshal e v) (Ok b) -> Marshal k N0 e h v = Ok b).
  { intros b O. apply (outcome_at _ N0 (Ok b) (mono_marshal k e h None v) O Rf). }
  split; [eapply outcome_marshal, R0|]. split; [intros C; eapply outcome_marshal, (Rn C)|].
  intros L.
  cbn [go_reader r_memory r_packed] in *.
  destruct D as (d & (Hd & body & Doc) & Dc); [exact L|unfold two63; lia|].
  exists d. split; [exact Hd|]. split; [do 5 eexists; eapply document_any, Doc|].
  intros Lo Su b Rb Lb.
  destruct (Dc Lo Su b (At b Rb)) as (typ' & _ & body' & Doc').
  { unfold MarshalFacts.readable. cbn [go_reader r_memory r_packed]. unfold two63. repeat split; try lia; right; lia. }
  do 5 eexists; eapply document_any, Doc'.
Qed.
End MD.
