(** The header check, on arbitrary bytes. *)
From Verif Require Import Base BaseFacts SpecVarint Varint VarintFacts Tags GoMem Codecs Encode Compress
  Header Decode Spec SpecDoc SpecHeader Document DocFacts.
From Coq Require Import ZifyBool ZifyNat ZifyN.
Ltac Zify.zify_post_hook ::= Z.div_mod_to_equations.

Lemma magic_length ver : length (magic ver) = 4.
Proof. unfold magic. destruct (ver <? 3)%N; reflexivity. Qed.

Lemma starts_length b ver typ l n rest : starts b ver typ l n rest ->
  length b = 5 + length l + length rest /\ 1 <= length l <= 10.
Proof.
  intros (_ & _ & vt & -> & _ & G & L). rewrite !app_length, magic_length. cbn [length].
  pose proof (vgroups_nonempty _ _ G). lia.
Qed.

Lemma starts_skip b ver typ l n rest : starts b ver typ l n rest -> skipn 5 b = l ++ rest.
Proof.
  intros (_ & _ & vt & -> & _). unfold magic. destruct (ver <? 3)%N; reflexivity.
Qed.

Lemma starts_ext b ver typ l n rest x : starts b ver typ l n rest -> starts (b ++ x) ver typ l n (rest ++ x).
Proof.
  intros (A & B & vt & -> & C). split; [exact A|]. split; [exact B|]. exists vt.
  split; [|exact C]. now rewrite <- !app_assoc.
Qed.

(** replacing what follows the length field *)
Lemma starts_replace b ver typ l n rest r2 : starts b ver typ l n rest ->
  starts (magic ver ++ [nth 4 b x00] ++ l ++ r2) ver typ l n r2 /\
  b = magic ver ++ [nth 4 b x00] ++ l ++ rest.
Proof.
  intros (A & B & vt & -> & C & D).
  assert (E : nth 4 (magic ver ++ [vt] ++ l ++ rest) x00 = vt).
  { unfold magic. destruct (ver <? 3)%N; reflexivity. }
  rewrite E. split; [|reflexivity]. repeat (split; [assumption|]). exists vt. auto.
Qed.

Definition header_of (ver typ : N) (l : bytes) (n : N) : serealHeader :=
  mkHeader typ ver (headerSize + length l) (wrap64 (to_int n + Z.of_nat (length l))).

Lemma checkHeader_starts b ver typ l n rest : starts b ver typ l n rest ->
  checkHeader b = Ok (header_of ver typ l n).
Proof.
  intros S. pose proof (starts_length _ _ _ _ _ _ S) as [Lb Ll]. pose proof (starts_skip _ _ _ _ _ _ S) as E5.
  destruct S as (Hv & Ht & vt & E & Hb & G & L10). unfold checkHeader, readHeader.
  destruct (Nat.leb_spec (length b) headerSize) as [L|_]; [unfold headerSize in L; lia|].
  assert (E4 : nth 4 b x00 = vt) by (subst b; unfold magic; destruct (ver <? 3)%N; reflexivity).
  rewrite E4, E5, (varintdecode_groups _ _ _ G L10), Hb.
  assert (Ed : N.shiftr (ver + 16 * typ) 4 = typ).
  { rewrite N.shiftr_div_pow2. change (2 ^ 4)%N with 16%N. lia. }
  assert (Ev : N.land (ver + 16 * typ) 15 = ver).
  { change 15%N with (N.ones 4). rewrite N.land_ones. change (2 ^ 4)%N with 16%N. lia. }
  rewrite Ed, Ev.
  assert (Ef : le32 b = if (ver <? 3)%N then magicHeaderBytes else magicHeaderBytesHighBit).
  { subst b. unfold magic. destruct (ver <? 3)%N; reflexivity. }
  rewrite Ef.
  destruct (N.ltb_spec ver 3).
  - replace (magicHeaderBytes =? magicHeaderBytes)%N with true by reflexivity.
    destruct ((1 <=? ver) && (ver <=? 2))%N eqn:C; [|lia]. cbn [bind h_version].
    destruct ((1 <=? ver) && (ver <=? 4))%N eqn:C2; [reflexivity|lia].
  - replace (magicHeaderBytesHighBit =? magicHeaderBytes)%N with false by reflexivity.
    replace (magicHeaderBytesHighBit =? magicHeaderBytesHighBit)%N with true by reflexivity.
    destruct (3 <=? ver)%N eqn:C; [|lia]. cbn [bind h_version].
    destruct ((1 <=? ver) && (ver <=? 4))%N eqn:C2; [reflexivity|lia].
Qed.

Lemma le32_inv b0 b1 b2 b3 t a0 a1 a2 a3 : le32 (b0 :: b1 :: b2 :: b3 :: t) = le32 [a0; a1; a2; a3] ->
  [b0; b1; b2; b3] = [a0; a1; a2; a3].
Proof.
  cbn [le32]. intros H.
  pose proof (b2n_lt b0). pose proof (b2n_lt b1). pose proof (b2n_lt b2). pose proof (b2n_lt b3).
  pose proof (b2n_lt a0). pose proof (b2n_lt a1). pose proof (b2n_lt a2). pose proof (b2n_lt a3).
  assert (E0 : b2n b0 = b2n a0) by lia. assert (E1 : b2n b1 = b2n a1) by lia.
  assert (E2 : b2n b2 = b2n a2) by lia. assert (E3 : b2n b3 = b2n a3) by lia.
  apply b2n_inj in E0, E1, E2, E3. now subst.
Qed.

Lemma checkHeader_inv b h : checkHeader b = Ok h ->
  exists ver typ l n rest, starts b ver typ l n rest /\ h = header_of ver typ l n.
Proof.
  unfold checkHeader, readHeader. destruct (Nat.leb_spec (length b) headerSize) as [L|L]; [discriminate|].
  unfold headerSize in L.
  destruct b as [|b0 [|b1 [|b2 [|b3 [|vt t]]]]]; cbn [length] in L; try lia.
  cbn [skipn nth].
  destruct (varintdecode t) as [z sz|] eqn:V.
  2:{ destruct (_ =? _)%N; [destruct (_ && _)%bool; discriminate|].
      destruct (_ =? _)%N; [destruct (_ <=? _)%N; discriminate|]. destruct (_ =? _)%N; discriminate. }
  apply varintdecode_inv in V as (l & rest & n & -> & -> & Bs & G & ->).
  assert (Hs : N.shiftr (b2n vt) 4 = (b2n vt / 16)%N) by (now rewrite N.shiftr_div_pow2).
  assert (Hl : N.land (b2n vt) 15 = (b2n vt mod 16)%N).
  { change 15%N with (N.ones 4). now rewrite N.land_ones. }
  rewrite Hs, Hl. pose proof (b2n_lt vt).
  assert (Done : forall m : bytes, magic (b2n vt mod 16) = m -> [b0; b1; b2; b3] = m -> (1 <= b2n vt mod 16 <= 4)%N ->
     starts (b0 :: b1 :: b2 :: b3 :: vt :: l ++ rest) (b2n vt mod 16) (b2n vt / 16) l n rest).
  { intros m Em E Hv. split; [exact Hv|]. split; [lia|]. exists vt. rewrite Em, <- E.
    split; [reflexivity|]. split; [lia|]. split; [exact G|lia]. }
  destruct (N.eqb_spec (le32 (b0 :: b1 :: b2 :: b3 :: vt :: l ++ rest)) magicHeaderBytes) as [E|_].
  - destruct ((1 <=? b2n vt mod 16) && (b2n vt mod 16 <=? 2))%N eqn:C; [|discriminate]. cbn [bind h_version].
    destruct ((1 <=? b2n vt mod 16) && (b2n vt mod 16 <=? 4))%N eqn:C2; [|discriminate]. intros [= <-].
    exists (b2n vt mod 16)%N, (b2n vt / 16)%N, l, n, rest. split; [|reflexivity].
    apply (Done [x3d; x73; x72; x6c]).
    + unfold magic. destruct (N.ltb_spec (b2n vt mod 16) 3); [reflexivity|lia].
    + apply (le32_inv _ _ _ _ (vt :: l ++ rest)). exact E.
    + lia.
  - destruct (N.eqb_spec (le32 (b0 :: b1 :: b2 :: b3 :: vt :: l ++ rest)) magicHeaderBytesHighBit) as [E|_].
    + destruct (3 <=? b2n vt mod 16)%N eqn:C; [|discriminate]. cbn [bind h_version].
      destruct ((1 <=? b2n vt mod 16) && (b2n vt mod 16 <=? 4))%N eqn:C2; [|discriminate]. intros [= <-].
      exists (b2n vt mod 16)%N, (b2n vt / 16)%N, l, n, rest. split; [|reflexivity].
      apply (Done [x3d; xf3; x72; x6c]).
      * unfold magic. destruct (N.ltb_spec (b2n vt mod 16) 3); [lia|reflexivity].
      * apply (le32_inv _ _ _ _ (vt :: l ++ rest)). exact E.
      * lia.
    + destruct (_ =? _)%N; discriminate.
Qed.

Lemma checkHeader_total b : (exists h, checkHeader b = Ok h) \/ exists e, checkHeader b = Err e.
Proof.
  unfold checkHeader, readHeader. destruct (Nat.leb _ _); [right; eexists; reflexivity|].
  assert (R : forall r : res serealHeader, (exists h, r = Ok h) \/ (exists e, r = Err e) ->
     (exists h, bind r (fun h => if ((1 <=? h_version h) && (h_version h <=? 4))%N then Ok h else Err (EVersion (h_version h))) = Ok h) \/
     exists e, bind r (fun h => if ((1 <=? h_version h) && (h_version h <=? 4))%N then Ok h else Err (EVersion (h_version h))) = Err e).
  { intros r [[h ->]|[e ->]]; cbn [bind]; [|eauto]. destruct (_ && _)%bool; eauto. }
  apply R.
  destruct (_ =? _)%N; [|destruct (_ =? _)%N; [|destruct (_ =? _)%N; eauto]];
    (match goal with |- context [if ?x then _ else _] => destruct x end; [|eauto]);
    destruct (varintdecode (skipn 5 b)); eauto.
Qed.

Lemma starts_det b ver typ l n rest ver' typ' l' n' rest' :
  starts b ver typ l n rest -> starts b ver' typ' l' n' rest' ->
  ver = ver' /\ typ = typ' /\ l = l' /\ n = n' /\ rest = rest'.
Proof.
  intros S S'. pose proof (checkHeader_starts _ _ _ _ _ _ S) as C.
  rewrite (checkHeader_starts _ _ _ _ _ _ S') in C. injection C as E1 E2 E3 _.
  pose proof (starts_skip _ _ _ _ _ _ S) as K. rewrite (starts_skip _ _ _ _ _ _ S') in K.
  assert (l = l').
  { apply (f_equal (firstn (length l))) in K. rewrite firstn_app_len in K.
    replace (length l) with (length l') in K by lia. rewrite firstn_app_len in K. auto. }
  subst l'. apply app_inv_head in K.
  destruct S as (_ & _ & _ & _ & _ & G & _), S' as (_ & _ & _ & _ & _ & G' & _).
  rewrite (vgroups_det _ _ _ G G'). auto.
Qed.

Lemma decompressor_total ver typ : (exists d, documentDecompressor ver typ = Ok d) \/ exists e, documentDecompressor ver typ = Err e.
Proof.
  unfold documentDecompressor.
  repeat match goal with |- context [if ?x then _ else _] => destruct x end; eauto.
Qed.
Lemma decompressor_defined ver typ : (1 <= ver <= 4)%N ->
  (type_defined ver typ <-> exists d, documentDecompressor ver typ = Ok d).
Proof.
  intros Hv. unfold type_defined, documentDecompressor, serealRaw, serealSnappy, serealSnappyIncremental, serealZlib, serealZstd.
  repeat match goal with |- context [if ?x then _ else _] => destruct x eqn:? end;
   (split; [intros H|intros [d H]; try discriminate]); eauto; try lia.
Qed.
Lemma decompressor_raw ver typ : documentDecompressor ver typ = Ok None <-> typ = 0%N.
Proof.
  unfold documentDecompressor, serealRaw, serealSnappy, serealSnappyIncremental, serealZlib, serealZstd.
  repeat match goal with |- context [if ?x then _ else _] => destruct x eqn:? end;
   (split; [intros H; try discriminate|intros H]); auto; try lia.
Qed.

(** the offset of the body as computed by the code *)
Definition bodyStart_of (l : bytes) (n : N) : Z :=
  wrap64 (Z.of_nat headerSize + wrap64 (to_int n + Z.of_nat (length l))).

Lemma bodyStart_spec l n : length l <= 10 ->
  bodyStart_of l n = to_int (body_start l n).
Proof.
  intros L. unfold bodyStart_of, body_start, wrap64, to_uint, to_int, two64, two63, headerSize.
  repeat match goal with |- context [if ?x then _ else _] => destruct x eqn:? end; lia.
Qed.

Lemma bodyStart_ok l n len : length l <= 10 -> (Z.of_nat len < two63)%Z ->
  ((Z.of_nat len <? bodyStart_of l n) || (bodyStart_of l n <? 0))%Z = false <->
  (body_start l n <= N.of_nat len)%N.
Proof.
  intros L Ln. rewrite (bodyStart_spec l n L).
  assert (B : (body_start l n < 18446744073709551616)%N) by (unfold body_start; lia).
  unfold to_int, two64, two63 in *.
  rewrite Z.mod_small by lia.
  destruct (Z.ltb_spec (Z.of_N (body_start l n)) 9223372036854775808); lia.
Qed.
Lemma bodyStart_nat l n len : length l <= 10 -> (Z.of_nat len < two63)%Z ->
  (body_start l n <= N.of_nat len)%N -> Z.to_nat (bodyStart_of l n) = N.to_nat (body_start l n).
Proof.
  intros L Ln H. rewrite (bodyStart_spec l n L). unfold to_int, two64, two63 in *.
  rewrite Z.mod_small by lia.
  destruct (Z.ltb_spec (Z.of_N (body_start l n)) 9223372036854775808); lia.
Qed.
