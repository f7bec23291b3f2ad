(** Whole documents are decoded to the data they describe. *)
From Verif Require Import Base BaseFacts SpecVarint Varint VarintFacts Tags GoMem Codecs Encode Compress
  Header Decode DecodeSafe Spec SpecDoc DecodeSpec GrammarFacts Document.
From Coq Require Import ZifyBool ZifyNat ZifyN.
Ltac Zify.zify_post_hook ::= Z.div_mod_to_equations.

(** What this implementation reads: compressed data up to 2^31-1 bytes, memory objects up
    to 2^48 bytes (amd64). *)
Definition go_reader (c : dconfig) : reader :=
  mkReader (go_dialect c) 2147483647 281474976710656.

Lemma skipn_app_len {A} (a b : list A) : skipn (length a) (a ++ b) = b.
Proof. now rewrite skipn_app, skipn_all, Nat.sub_diag. Qed.
Lemma firstn_app_len {A} (a b : list A) : firstn (length a) (a ++ b) = a.
Proof. now rewrite firstn_app, Nat.sub_diag, firstn_all, app_nil_r. Qed.

Lemma to_int_len n : (Z.of_N n <= 281474976710656)%Z -> to_int n = Z.of_N n.
Proof. intros. apply to_int_small. unfold two63. lia. Qed.

(** the fixed part of the header *)
Lemma readHeader_preamble ver typ suffix pre packed : preamble ver typ suffix pre ->
  (Z.of_nat (length pre) <= 281474976710656)%Z ->
  exists sz, readHeader (pre ++ packed) =
    Ok (mkHeader typ ver (headerSize + sz) (Z.of_nat (sz + length suffix))) /\
    length pre = headerSize + sz + length suffix /\ 1 <= sz.
Proof.
  intros (Hv & Ht & vt & len & -> & Hb & G & Ll) Lp.
  pose proof (vgroups_nonempty _ _ G) as Ln.
  exists (length len).
  assert (Lm : length (magic ver) = 4) by (unfold magic; destruct (ver <? 3)%N; reflexivity).
  rewrite !app_length in *. cbn [length] in *. rewrite Lm in *.
  split; [|split; [cbn; lia|lia]].
  unfold readHeader. rewrite !app_length. cbn [length]. rewrite Lm.
  destruct (Nat.leb_spec (4 + (1 + (length len + length suffix)) + length packed) headerSize) as [L|_];
    [unfold headerSize in L; lia|].
  assert (E4 : nth 4 ((magic ver ++ [vt] ++ len ++ suffix) ++ packed) x00 = vt).
  { unfold magic. destruct (ver <? 3)%N; reflexivity. }
  assert (E5 : skipn 5 ((magic ver ++ [vt] ++ len ++ suffix) ++ packed) = len ++ suffix ++ packed).
  { unfold magic. destruct (ver <? 3)%N; cbn; now rewrite <- app_assoc. }
  rewrite E4, E5, (varintdecode_groups _ _ _ G Ll), Hb.
  assert (Ed : N.shiftr (ver + 16 * typ) 4 = typ).
  { rewrite N.shiftr_div_pow2. change (2 ^ 4)%N with 16%N. lia. }
  assert (Ev : N.land (ver + 16 * typ) 15 = ver).
  { change 15%N with (N.ones 4). rewrite N.land_ones. change (2 ^ 4)%N with 16%N. lia. }
  rewrite Ed, Ev, to_int_len by lia.
  rewrite wrap64_small by (unfold two63; lia).
  replace (Z.of_N (N.of_nat (length suffix)) + Z.of_nat (length len))%Z
    with (Z.of_nat (length len + length suffix)) by lia.
  assert (Ef : le32 ((magic ver ++ [vt] ++ len ++ suffix) ++ packed) =
    if (ver <? 3)%N then magicHeaderBytes else magicHeaderBytesHighBit).
  { unfold magic. destruct (ver <? 3)%N; reflexivity. }
  rewrite Ef.
  destruct (N.ltb_spec ver 3).
  - replace (magicHeaderBytes =? magicHeaderBytes)%N with true by reflexivity.
    destruct ((1 <=? ver) && (ver <=? 2))%N eqn:C; [reflexivity|lia].
  - replace (magicHeaderBytesHighBit =? magicHeaderBytes)%N with false by reflexivity.
    replace (magicHeaderBytesHighBit =? magicHeaderBytesHighBit)%N with true by reflexivity.
    destruct (3 <=? ver)%N eqn:C; [reflexivity|lia].
Qed.

Lemma checkHeader_preamble ver typ suffix pre packed : preamble ver typ suffix pre ->
  (Z.of_nat (length pre) <= 281474976710656)%Z ->
  exists sz, checkHeader (pre ++ packed) =
    Ok (mkHeader typ ver (headerSize + sz) (Z.of_nat (sz + length suffix))) /\
    length pre = headerSize + sz + length suffix /\ 1 <= sz.
Proof.
  intros P L. destruct (readHeader_preamble _ _ _ _ packed P L) as (sz & E & K).
  exists sz. split; [|exact K]. unfold checkHeader. rewrite E. cbn [bind h_version].
  destruct P as (Hv & _). destruct ((1 <=? ver) && (ver <=? 4))%N eqn:C; [reflexivity|lia].
Qed.

Lemma framed_counted lim packed z rest : counted lim packed z rest -> (lim <= 2147483647)%N ->
  framed packed = Ok z.
Proof.
  intros (len & -> & G & Ll & Lz) Lm. unfold framed.
  rewrite (varintdecode_groups _ _ _ G Ll), to_int_len by lia.
  rewrite !app_length. unfold maxInt32.
  match goal with |- context [if ?c then _ else _] => destruct c eqn:C end; [lia|].
  replace (slice_range (len ++ z ++ rest) (length len)
    (length len + Z.to_nat (Z.of_N (N.of_nat (length z))))) with (Some z); [reflexivity|].
  symmetry. apply slice_range_Some. rewrite !app_length.
  replace (Z.to_nat (Z.of_N (N.of_nat (length z)))) with (length z) by lia.
  repeat split; try lia.
  replace (length len + length z - length len) with (length z) by lia.
  now rewrite skipn_app_len, firstn_app_len.
Qed.

(** unpacking *)
Lemma unpack k ver typ packed body : (1 <= ver <= 4)%N ->
  packing k 2147483647 ver typ packed body -> (N.of_nat (length body) <= 281474976710656)%N ->
  exists o, documentDecompressor ver typ = Ok o /\
    match o with None => typ = 0%N /\ packed = body | Some dk => decompress k dk packed = Ok body end.
Proof.
  intros V P L. destruct P as [body|z body E D|packed z rest body Cz D|ulen packed z rest body V3 Gu Lu Cz O D|packed z rest body V4 Cz D].
  - exists None. repeat split.
  - subst ver. exists (Some (DSnappy false)). split; [reflexivity|]. cbn. now rewrite D.
  - exists (Some (DSnappy true)). split.
    + unfold documentDecompressor. cbn. reflexivity.
    + cbn. rewrite (framed_counted _ _ _ _ Cz) by lia. cbn. now rewrite D.
  - exists (Some DZlib). split.
    + unfold documentDecompressor. cbn. destruct (N.ltb_spec ver 3); [lia|reflexivity].
    + cbn [decompress]. unfold zlib_decompress.
      rewrite (varintdecode_groups _ _ _ Gu Lu), to_int_len by lia.
      assert (S : slice_from (ulen ++ packed) (length ulen) = Some packed).
      { unfold slice_from. rewrite app_length, skipn_app_len.
        destruct (Nat.leb_spec (length ulen) (length ulen + length packed)); [reflexivity|lia]. }
      rewrite S, (framed_counted _ _ _ _ Cz) by lia. cbn [bind].
      unfold zlibDecode. rewrite O. cbn [negb].
      destruct ((Z.of_N (N.of_nat (length body)) <? 0) ||
                (281474976710656 <? Z.of_N (N.of_nat (length body))))%Z eqn:B; [lia|].
      now rewrite D.
  - exists (Some DZstd). split.
    + unfold documentDecompressor. cbn. destruct (N.ltb_spec ver 4); [lia|reflexivity].
    + cbn. unfold zstd_decompress. rewrite (framed_counted _ _ _ _ Cz) by lia. cbn. now rewrite D.
Qed.

(** the first byte is never looked at when back references start at 1 *)
Lemma item_head g x y body m d e : g_start g = 1 ->
  item g (x :: body) m 1 d e -> item g (y :: body) m 1 d e.
Proof.
  intros Hs H.
  destruct (grammar_move g g (x :: body) (y :: body) 1 1) as (G & _ & _);
    auto using mle_refl; try (left; lia); try (intros i z; cbn; auto; fail); try lia.
  destruct (G _ _ _ _ H) as [L G']; [lia|]. specialize (G' m (mle_refl m)).
  unfold mv in G'. now replace (1 - 1 + 1) with 1 in G' by lia; replace (e - 1 + 1) with e in G' by lia.
Qed.

Section Docs.
Variable k : codecs.
Variable c : dconfig.

(** decoding the unpacked body of a document *)
Lemma body_decoded ver pre body d e ib l s : (1 <= length pre)%nat ->
  (Z.of_nat (length pre + length body) <= 281474976710656)%Z ->
  body_item CAny (go_dialect c) ver pre body d e ->
  nth_error (d_heap s) ib = Some (CBuf (pre ++ body)) -> nth_error (d_heap s) l = Some (CV GNil) ->
  d_copy s = 0 ->
  exists s' v,
    (if (ver =? 1)%N then run_decode c (pre ++ body) ib 0 (length pre) l ;; ret tt
     else if Nat.eqb (length pre) 0 then crash
     else match slice_from (pre ++ body) (length pre - 1) with
          | None => crash
          | Some by_ => run_decode c by_ ib (length pre - 1) 1 l ;; ret tt
          end) s = (Ok tt, s') /\
    frm (eq l) s s' /\ nth_error (d_heap s') l = Some (CV v) /\
    repr (d_perl c) (reg_of c) (fresh ib s s') (d_heap s') v d.
Proof.
  intros Lp Lb I Hib Hl Hc. unfold body_item in I. destruct (ver =? 1)%N.
  - destruct (decode_implements_grammar c (pre ++ body) ib 0 (pre ++ body) (length pre)) as (D & _ & _).
    { rewrite app_length. unfold two63. lia. }
    { exists [], []. now rewrite app_nil_r. }
    destruct (D _ _ _ _ I) as (L1 & L2 & D').
    destruct (D' (decode_fuel (pre ++ body)) l s) as (s' & v & R & F & Cv & V); auto.
    { rewrite Hc. unfold need, decode_fuel. lia. }
    exists s', v. split; [|auto]. unfold run_decode, mbind. unfold runs in R. now rewrite R.
  - destruct (Nat.eqb_spec (length pre) 0); [lia|].
    destruct (exists_last (l := pre)) as (pre0 & x & ->); [intros ->; cbn in *; lia|].
    rewrite app_length in *. cbn [length] in *.
    replace (length pre0 + 1 - 1) with (length pre0) by lia.
    rewrite <- app_assoc in *. cbn [app] in *.
    assert (S : slice_from (pre0 ++ x :: body) (length pre0) = Some (x :: body)).
    { unfold slice_from. rewrite app_length, skipn_app_len. cbn.
      destruct (Nat.leb_spec (length pre0) (length pre0 + S (length body))); [reflexivity|lia]. }
    rewrite S.
    apply (item_head _ x00 x) in I; [|reflexivity].
    destruct (decode_implements_grammar c (x :: body) ib (length pre0) (pre0 ++ x :: body) 1) as (D & _ & _).
    { cbn [length]. unfold two63. lia. }
    { exists pre0, []. now rewrite app_nil_r. }
    destruct (D _ _ _ _ I) as (L1 & L2 & D').
    destruct (D' (decode_fuel (x :: body)) l s) as (s' & v & R & F & Cv & V); auto.
    { rewrite Hc. unfold need, decode_fuel. lia. }
    exists s', v. split; [|auto]. unfold run_decode, mbind. unfold runs in R. now rewrite R.
Qed.

(** memory changes of a call that fills the variable [l] *)
Definition fills (l : loc) (h h' : heap) (v : gval) : Prop :=
  length h <= length h' /\
  (forall x, x < length h -> x <> l -> nth_error h' x = nth_error h x) /\
  nth_error h' l = Some (CV v).

Theorem unmarshal_document b ver typ suffix d body e ib l s :
  document (go_reader c) k b ver typ suffix d body e ->
  nth_error (d_heap s) ib = Some (CBuf b) -> nth_error (d_heap s) l = Some (CV GNil) ->
  d_copy s = 0 ->
  exists s' v, Unmarshal k c b ib (TgtIface l) s = (Ok tt, s') /\
    fills l (d_heap s) (d_heap s') v /\ d_copy s' = 0 /\
    repr (d_perl c) (reg_of c) (fun x => x = ib \/ length (d_heap s) <= x < length (d_heap s'))
      (d_heap s') v d.
Proof.
  intros (pre & packed & -> & Hp & Pk & Lb & Lm & I) Hib Hl Hc.
  cbn [go_reader r_packed r_memory r_dialect] in *. rewrite app_length in Lb.
  destruct (checkHeader_preamble _ _ _ _ packed Hp ltac:(lia)) as (sz & Ch & Lpre & Lsz).
  destruct (unpack k ver typ packed body (proj1 Hp) Pk ltac:(lia)) as (o & Dd & Ho).
  unfold Unmarshal, UnmarshalHeaderBody, unmarshal_raw.
  unfold mbind at 1. unfold lift at 1. rewrite Ch.
  unfold mbind at 1. unfold lift at 1. cbn [h_version h_doctype h_suffixSize]. rewrite Dd.
  assert (Eb : wrap64 (Z.of_nat headerSize + Z.of_nat (sz + length suffix)) = Z.of_nat (length pre)).
  { rewrite wrap64_small; unfold headerSize, two63 in *; lia. }
  rewrite Eb, Nat2Z.id. rewrite app_length.
  destruct ((Z.of_nat (length pre + length packed) <? Z.of_nat (length pre)) || (Z.of_nat (length pre) <? 0))%Z
    eqn:C; [lia|].
  unfold mbind at 1. unfold unmarshal_header. cbn [target_nil orb]. unfold ret at 1.
  unfold unmarshal_body. cbn [target_nil h_version].
  destruct o as [dk|].
  - set (nb := pre ++ body).
    set (s1 := mkDState (d_heap s ++ [CBuf nb]) [] (d_copy s) (d_made s)).
    destruct (body_decoded ver pre body d e (length (d_heap s)) l s1) as (s' & v & R & F & Cv & V); auto.
    { unfold headerSize in *. lia. }
    { lia. }
    { cbn. rewrite nth_error_app2, Nat.sub_diag by lia. reflexivity. }
    { cbn. now apply nth_error_app_l. }
    exists s', v. split; [|split; [|split]].
    + unfold mbind at 1. assert (Sl : slice_from (pre ++ packed) (length pre) = Some packed).
      { unfold slice_from. rewrite app_length, skipn_app_len.
        destruct (Nat.leb_spec (length pre) (length pre + length packed)); [reflexivity|lia]. }
      rewrite Sl. unfold mbind at 1. unfold lift at 1. rewrite Ho. cbv zeta. rewrite firstn_app_len.
      unfold mbind at 1. unfold alloc at 1. unfold ret at 1.
      unfold mbind at 1. unfold fresh_tracked at 1. cbn [with_heap d_heap d_copy d_made].
      fold nb. fold s1. unfold s1 in R at 1. unfold with_heap in *. cbn [d_made d_copy] in *.
      fold s1 in R. fold nb in R. rewrite R. reflexivity.
    + destruct F as (F1 & F2 & F3). cbn in F1, F2. rewrite app_length in F1, F2. cbn in F1, F2.
      split; [lia|]. split; [|exact Cv].
      intros x Lx Nx. rewrite F2; [|lia|congruence]. now rewrite nth_error_app1.
    + destruct F as (_ & _ & F3). rewrite F3. exact Hc.
    + destruct F as (F1 & F2 & F3). cbn in F1. rewrite app_length in F1. cbn in F1.
      eapply (repr_stable _ _ _ _ (d_heap s')); [|exact V].
      intros x Hx. split; [|reflexivity]. right. destruct Hx as [->|Hx]; [lia|].
      cbn in Hx. rewrite app_length in Hx. cbn in Hx. lia.
  - destruct Ho as [-> ->].
    set (s1 := mkDState (d_heap s) [] (d_copy s) (d_made s)).
    destruct (body_decoded ver pre body d e ib l s1) as (s' & v & R & F & Cv & V); auto.
    { unfold headerSize in *. lia. }
    { lia. }
    exists s', v. split; [|split; [|split]].
    + unfold mbind at 1. unfold ret at 1. unfold mbind at 1. unfold fresh_tracked at 1. fold s1.
      rewrite R. reflexivity.
    + destruct F as (F1 & F2 & F3). split; [exact F1|]. split; [|exact Cv].
      intros x Lx Nx. apply F2; auto.
    + destruct F as (_ & _ & F3). rewrite F3. exact Hc.
    + exact V.
Qed.
End Docs.
