(** What Append accepts. *)
From Verif Require Import Base BaseFacts SpecVarint Varint VarintFacts Tags GoSlice Codecs Encode Compress Header Decode Spec SpecDoc
  SpecHeader SpecShape SpecAccept SpecTaken HeaderFacts Merge MergeFacts MergeSafe MergeRun ShapeFacts.
From Coq Require Import ZifyBool ZifyNat ZifyN.

Definition cnt (c : N) : nat := N.to_nat (c mod 2147483648).

Section Chain.
Variable by_ : bytes.
Inductive chain : list N -> list nat -> nat -> list nat -> nat -> Prop :=
| ch_nil E p : chain [] E p E p
| ch_cons c s E p E1 p1 E' p' : taken by_ (cnt c) E p E1 p1 -> chain s E1 p1 E' p' -> chain (c :: s) E p E' p'.

Lemma chain_end s E p : length by_ <= p -> chain s E p E p.
Proof. intros L. induction s; econstructor; eauto. now constructor. Qed.
Lemma cnt_zero c : zero c -> cnt c = 0.
Proof. intros Z. apply zero_mod in Z. unfold cnt. now rewrite Z. Qed.
Lemma chain_zeros z s E p E' p' : Forall zero z -> chain s E p E' p' -> chain (z ++ s) E p E' p'.
Proof. induction 1 as [|c z Z _ IH]; intros C; [exact C|]. cbn [app]. econstructor; eauto. rewrite (cnt_zero _ Z). constructor. Qed.
Lemma cnt_pred c : ~ zero c -> cnt c = S (cnt (N.pred c)).
Proof. rewrite zero_mod. unfold cnt. intros Z. lia. Qed.
End Chain.

Lemma pop_split s : exists z, Forall zero z /\ s = z ++ pop_stack s /\ match pop_stack s with c :: _ => ~ zero c | [] => True end.
Proof.
  induction s as [|c s (z & Z & E & H)]; [exists []; repeat split; constructor|]. cbn [pop_stack].
  destruct (N.eqb_spec (N.land c 2147483647) 0) as [Zc|Zc].
  - exists (c :: z). split; [now constructor|]. split; [cbn [app]; congruence|exact H].
  - exists []. repeat split; auto; constructor.
Qed.

Lemma skipn_cons_nth (l : bytes) i b r : skipn i l = b :: r -> nth_error l i = Some b.
Proof. revert l. induction i as [|i IH]; intros [|x l] H; try discriminate; cbn in *; [congruence|auto]. Qed.
Lemma tag_untrack b : untrack b = tag_of b.
Proof. destruct b; reflexivity. Qed.

Section Doc.
Variable d : mdoc.
Notation buf := (md_buf d).
Notation by_ := (x00 :: buf).

Lemma lvint_shift i n sz : lvint (skipn i buf) 0 n sz -> lvint by_ (S i) n (S i + sz).
Proof.
  intros (l & m & (x & y & E & Lx) & G & L10 & En & ->). exists l, m.
  apply length_zero_iff_nil in Lx. subst x. cbn [app] in E. repeat (split; [|auto]); auto.
  assert (Li : i <= length buf \/ l = []).
  { destruct (Nat.le_gt_cases i (length buf)); [now left|right]. rewrite skipn_all2 in E by lia.
    symmetry in E. now apply app_eq_nil in E as [-> _]. }
  destruct Li as [Li| ->]; [|inversion G].
  exists (x00 :: firstn i buf), y. rewrite <- (firstn_skipn i buf) at 1. rewrite E. split; [reflexivity|].
  cbn [length]. rewrite firstn_length. lia.
Qed.
Lemma vdec_at i z sz : varintdecode (skipn i buf) = VOk z sz -> exists n, lvint by_ (S i) n (S i + sz) /\ z = to_int n /\ (n < 18446744073709551616)%N.
Proof. intros V. apply vdec_shape in V as (n & V & E & L). exists n. split; [now apply lvint_shift|auto]. Qed.
Lemma count_vdec i z sz : varintdecode (skipn i buf) = VOk z sz -> (0 <= z)%Z ->
  exists n, count_at by_ (S i) n (S i + sz) /\ z = Z.of_N n /\ Z.to_nat z = N.to_nat n.
Proof.
  intros V P. apply vdec_at in V as (n & V & E & L). destruct (ShapeFacts.to_int_range _ _ E L P) as [E1 E2].
  exists n. split; [split; [exact V|]|auto]. pose proof (BaseFacts.to_int_range n). unfold two63 in *. lia.
Qed.

Lemma land31 t : (96 <= t < 128)%N -> N.land t 31 = (t - 96)%N.
Proof. intros H. change 31%N with (N.ones 5). rewrite N.land_ones. change (2 ^ 5)%N with 32%N. lia. Qed.

Lemma read_name i off s : readString (skipn i buf) = Ok (off, s) -> name_taken by_ (S i) (S i + (off + length s)) /\ 1 <= off.
Proof.
  unfold readString. destruct (skipn i buf) as [|b rest] eqn:Ek; [discriminate|].
  assert (Nb : nth_error by_ (S i) = Some b) by (cbn [nth_error]; now apply skipn_cons_nth in Ek).
  assert (Er : rest = skipn (S i) buf).
  { symmetry. clear -Ek. revert i Ek. induction buf as [|x l IH]; intros [|i] H; try discriminate; [injection H; auto|].
    cbn [skipn] in *. now apply IH. }
  assert (Lr : i + length (b :: rest) = length buf).
  { rewrite <- Ek, skipn_length. assert (i < length buf); [|lia]. apply nth_error_Some. cbn [nth_error] in Nb. congruence. }
  rewrite tag_untrack. destruct (isShallowStringish (tag_of b)) eqn:Sh; [|discriminate]. cbn [negb].
  assert (Ht : tag_on by_ (S i) (tag_of b)) by (exists b; auto).
  unfold isShallowStringish, typeBINARY, typeSTR_UTF8, typeSHORT_BINARY_0 in *.
  destruct (N.ltb_spec 96 (tag_of b)) as [L|L]; cbn [bind].
  - rewrite land31 by lia. match goal with |- context [if ?x then Err EBadStringSize else _] => destruct x eqn:C1 end; [discriminate|].
    destruct (Nat.ltb_spec (length (b :: rest)) (1 + Z.to_nat (Z.of_N (tag_of b - 96)))) as [|C2]; [discriminate|].
    intros [= <- <-]. split; [|lia]. rewrite firstn_length, ?skipn_length.
    replace (S i + _) with (S (S i) + N.to_nat (tag_of b - 96)) by (cbn [length] in *; lia).
    apply nt_short; auto; [lia|]. cbn [length] in *. lia.
  - destruct (varintdecode rest) as [ln sz|] eqn:V; [|discriminate]. cbn [bind].
    match goal with |- context [if ?x then Err EBadStringSize else _] => destruct x eqn:C1 end; [discriminate|].
    destruct (Nat.ltb_spec (length (b :: rest)) (S sz + Z.to_nat ln)) as [|C2]; [discriminate|].
    intros [= <- <-]. split; [|lia]. rewrite Er in V. apply count_vdec in V as (n & V & E1 & E2); [|lia].
    eapply nt_long; [exact Ht|lia|]. exists n, (S (S i) + sz). split; [exact V|]. split; [unfold maxUint32 in *; lia|].
    rewrite firstn_length, ?skipn_length. cbn [length] in *. lia.
Qed.

Ltac kinds := unfold merge_kind, typeVARINT, typeUNDEF, typeCANONICAL_UNDEF, typeTRUE, typeFALSE, typeSHORT_BINARY_0, typePAD, typeREFN,
  typeWEAKEN, typeEXTEND, typeZIGZAG, typeFLOAT, typeDOUBLE, typeLONG_DOUBLE, typeBINARY, typeSTR_UTF8, typeCOPY, typeREFP, typeALIAS,
  typeOBJECTV, typeOBJECTV_FREEZE, typeARRAY, typeHASH, typeARRAYREF_0, typeHASHREF_0, typeREGEXP, typeOBJECT, typeOBJECT_FREEZE,
  typePACKET_START.

Lemma kind_tags t : (t < 128)%N ->
  match merge_kind t with
  | KByte => (t < 32 \/ t = 37 \/ t = 57 \/ t = 58 \/ t = 59 \/ t = 96)%N
  | KFake => (t = 63 \/ t = 40 \/ t = 48 \/ t = 62)%N
  | KVarint => (t = 32 \/ t = 33)%N
  | KFixed n => (t = 34%N /\ n = 5) \/ (t = 35%N /\ n = 9) \/ (t = 36%N /\ n = 17) \/ (t = 97%N /\ n = 2)
  | KString => (t = 38 \/ t = 39 \/ 98 <= t < 128)%N
  | KBack => (t = 47 \/ t = 41 \/ t = 46 \/ t = 45 \/ t = 51)%N
  | KContainer => (t = 43 \/ t = 42)%N
  | KContainerRef => (64 <= t < 96)%N
  | KRegexp => t = 49%N
  | KObject => (t = 44 \/ t = 50)%N
  | KStart => t = 61%N
  | KUnknown => True
  end.
Proof.
  intros L. kinds.
  repeat match goal with |- context [if ?x then _ else _] => destruct x eqn:? end; lia || exact I.
Qed.

Lemma Ok_is (A : Type) (x y : A) : Ok x = Ok y -> x = y.
Proof. congruence. Qed.
Lemma cnt_array n : cnt ((Z.to_N (Z.of_N n)) mod 4294967296) = low31 n.
Proof. unfold cnt, low31. rewrite N2Z.id. lia. Qed.
Lemma flagged m : N.lor (m mod 4294967296) hashFlag = (m mod 2147483648 + 2147483648)%N.
Proof.
  unfold hashFlag. assert (E : (m mod 4294967296)%N = N.lor (m mod 2147483648) (if N.testbit m 31 then 2147483648 else 0)).
  { apply N.bits_inj. intros j. rewrite N.lor_spec.
    change 4294967296%N with (2 ^ 32)%N. change 2147483648%N with (2 ^ 31)%N.
    destruct (N.ltb_spec j 32) as [L|L].
    - rewrite N.mod_pow2_bits_low by exact L. destruct (N.ltb_spec j 31) as [L1|L1].
      + rewrite N.mod_pow2_bits_low by exact L1. replace (N.testbit (if N.testbit m 31 then 2 ^ 31 else 0) j) with false.
        * now rewrite orb_false_r.
        * destruct (N.testbit m 31); [|now rewrite N.bits_0]. rewrite N.pow2_bits_eqb. symmetry. apply N.eqb_neq. lia.
      + assert (j = 31)%N as -> by lia. rewrite N.mod_pow2_bits_high by lia. cbn [orb].
        destruct (N.testbit m 31); [|now rewrite N.bits_0]. now rewrite N.pow2_bits_true.
    - rewrite !N.mod_pow2_bits_high by lia. cbn [orb]. destruct (N.testbit m 31); [|now rewrite N.bits_0].
      rewrite N.pow2_bits_eqb. symmetry. apply N.eqb_neq. lia. }
  assert (D : N.land (m mod 2147483648) 2147483648 = 0%N).
  { apply N.bits_inj. intros j. rewrite N.land_spec, N.bits_0. change 2147483648%N with (2 ^ 31)%N.
    rewrite N.pow2_bits_eqb. destruct (N.eqb_spec 31 j) as [<-|]; [|now rewrite andb_false_r].
    now rewrite N.mod_pow2_bits_high by lia. }
  rewrite E, <- N.lor_assoc. replace (N.lor (if N.testbit m 31 then _ else _) 2147483648) with 2147483648%N
    by (destruct (N.testbit m 31); reflexivity).
  pose proof (N.add_nocarry_lxor (m mod 2147483648) 2147483648 D) as A. rewrite A.
  rewrite <- (N.lxor_lor _ _ D). reflexivity.
Qed.
Lemma cnt_hash n : cnt (N.lor ((2 * Z.to_N (Z.of_N n)) mod 4294967296) hashFlag) = low31 (2 * n).
Proof. rewrite flagged, N2Z.id. unfold cnt, low31. lia. Qed.
Lemma cnt_hashref n : (n < 16)%N -> cnt (N.lor (2 * n) hashFlag) = 2 * N.to_nat n.
Proof.
  intros L. pose proof (flagged (2 * n)) as F. rewrite (N.mod_small _ 4294967296), (N.mod_small _ 2147483648) in F by lia.
  rewrite F. unfold cnt. lia.
Qed.

(** what one tag is taken for *)
Lemma tag_taken strs objs tt_ i rel dd b f E : nth_error buf i = Some b ->
  (forall n v, tfind n tt_ = Some v -> In n E) ->
  merge_tag d strs objs tt_ i rel dd b = Ok f ->
  let p := S i in
  (f_push f = [] /\ f_fake f = true /\ (tag_of b = 63 \/ tag_of b = 40 \/ tag_of b = 48 \/ tag_of b = 62)%N /\ f_adv f = 1) \/
  (f_push f = [] /\ f_fake f = false /\ leaf_taken by_ E p (tag_of b) (p + f_adv f)) \/
  (exists m, f_push f = [m] /\ f_fake f = false /\ nest_taken by_ E p (tag_of b) (cnt m) (p + f_adv f)).
Proof.
  intros Nb K H p. unfold merge_tag in H. rewrite tag_untrack in H.
  assert (Lt : (tag_of b < 128)%N) by (unfold tag_of; lia). pose proof (kind_tags _ Lt) as Kt.
  assert (Li : i < length buf) by (apply nth_error_Some; congruence).
  destruct (merge_kind (tag_of b)) as [| | |n| | | | | | | |].
  - injection H as <-. cbn [f_push f_fake f_adv plain]. right; left. repeat split; auto.
    replace (p + 1) with (S p) by lia. now apply lf_byte.
  - injection H as <-. cbn [f_push f_fake f_adv]. left. auto.
  - destruct (varintdecode (skipn (S i) buf)) as [z sz|] eqn:V; [|discriminate].
    destruct (drange d i (i + sz + 1)) as [s| | | |]; try discriminate. injection H as <-.
    cbn [f_push f_fake f_adv plain]. right; left. repeat split; auto.
    apply vdec_at in V as (n & V & _). eapply lf_varint; [exact Kt|].
    replace (p + (sz + 1)) with (S (S i) + sz) by (subst p; lia). exact V.
  - destruct (drange d i (i + n)) as [s| | | |]; try discriminate. injection H as <-.
    cbn [f_push f_fake f_adv plain]. right; left. repeat split; auto.
    replace n with (N.to_nat (N.of_nat n)) by lia. apply lf_fixed. lia.
  - right; left. unfold typeSHORT_BINARY_0 in H. destruct (N.ltb_spec 96 (tag_of b)) as [L|L]; cbn [bind] in H.
    + rewrite land31 in H by lia. destruct (_ || _)%Z eqn:C1 in H; [discriminate|].
      match type of H with (if Nat.ltb ?x ?y then _ else _) = _ => destruct (Nat.ltb_spec x y) as [|C2]; [discriminate|] end.
      destruct (drange _ _ _) as [s| | | |] in H; try discriminate. cbn [bind] in H.
      assert (R : f_push f = [] /\ f_fake f = false /\ f_adv f = 0 + Z.to_nat (Z.of_N (tag_of b - 96)) + 1).
      { destruct dd; [|injection H as <-; auto]. destruct (assoc _ _) in H; [|injection H as <-; auto].
        destruct (tagVarint _ _) in H; try discriminate. injection H as <-; auto. }
      destruct R as (-> & -> & ->). repeat split; auto.
      replace (p + (0 + Z.to_nat (Z.of_N (tag_of b - 96)) + 1)) with (S p + N.to_nat (tag_of b - 96)) by lia.
      apply lf_short; [lia|]. cbn [length]. subst p. lia.
    + destruct (varintdecode (skipn (S i) buf)) as [z sz|] eqn:V; [|discriminate]. cbn [bind] in H.
      destruct (_ || _)%Z eqn:C1 in H; [discriminate|].
      match type of H with (if Nat.ltb ?x ?y then _ else _) = _ => destruct (Nat.ltb_spec x y) as [|C2]; [discriminate|] end.
      destruct (drange _ _ _) as [s| | | |] in H; try discriminate. cbn [bind] in H.
      assert (R : f_push f = [] /\ f_fake f = false /\ f_adv f = sz + Z.to_nat z + 1).
      { destruct dd; [|injection H as <-; auto]. destruct (assoc _ _) in H; [|injection H as <-; auto].
        destruct (tagVarint _ _) in H; try discriminate. injection H as <-; auto. }
      destruct R as (-> & -> & ->). repeat split; auto. apply lf_long; [lia|].
      apply count_vdec in V as (n & V & E1 & E2); [|lia]. exists n, (S (S i) + sz). split; [exact V|].
      unfold maxUint32 in *. cbn [length]. subst p. lia.
  - destruct (varintdecode (skipn (S i) buf)) as [z sz|] eqn:V; [|discriminate].
    destruct (Z.ltb_spec z 0); [discriminate|]. destruct (tfind (Z.to_nat z) tt_) as [tg|] eqn:T; [|discriminate].
    apply K in T. destruct (tagVarint _ _) in H; try discriminate. injection H as <-. cbn [f_push f_fake f_adv].
    apply count_vdec in V as (n & V & E1 & E2); [|lia]. rewrite E2 in T.
    replace (p + (sz + 1)) with (S (S i) + sz) by (subst p; lia).
    unfold typeOBJECTV, typeOBJECTV_FREEZE. right.
    destruct ((tag_of b =? 45) || (tag_of b =? 51))%N eqn:O.
    + right. exists 1%N. repeat split. change (cnt 1) with 1. eapply ne_objectv; [lia|exact V|exact T].
    + left. repeat split. eapply lf_back; [lia|exact V|exact T].
  - destruct (varintdecode (skipn (S i) buf)) as [z sz|] eqn:V; [|discriminate].
    destruct (Z.ltb_spec z 0); [discriminate|]. destruct (drange _ _ _) as [s| | | |] in H; try discriminate. cbn [bind] in H. apply Ok_is in H. subst f.
    cbn [f_push f_fake f_adv]. apply count_vdec in V as (n & V & E1 & E2); [|lia]. subst z.
    replace (p + (sz + 1)) with (S (S i) + sz) by (subst p; lia).
    right; right. eexists. split; [reflexivity|]. split; [reflexivity|]. unfold typeHASH.
    destruct (N.eqb_spec (tag_of b) 42).
    + rewrite cnt_hash. apply ne_hash; auto.
    + rewrite cnt_array. apply ne_array; auto. lia.
  - apply Ok_is in H. subst f. cbn [f_push f_fake f_adv]. right; right. eexists. split; [reflexivity|]. split; [reflexivity|].
    replace (p + 1) with (S p) by lia. unfold typeHASHREF_0.
    assert (E15 : forall t, N.land t 15 = (t mod 16)%N) by (intros; change 15%N with (N.ones 4); now rewrite N.land_ones).
    rewrite E15. destruct (N.leb_spec 80 (tag_of b)).
    + replace (tag_of b mod 16)%N with (tag_of b - 80)%N by lia. rewrite cnt_hashref by lia. apply ne_hashref. lia.
    + replace (tag_of b mod 16)%N with (tag_of b - 64)%N by lia.
      replace (cnt (tag_of b - 64)) with (N.to_nat (tag_of b - 64)) by (unfold cnt; lia). apply ne_arrayref. lia.
  - destruct (readString (skipn (S i) buf)) as [[o1 s1]| | | |] eqn:R1; try discriminate. cbn [bind] in H.
    destruct (readString (skipn (i + (o1 + length s1 + 1)) buf)) as [[o2 s2]| | | |] eqn:R2; try discriminate. cbn [bind] in H.
    destruct (drange _ _ _) as [s| | | |] in H; try discriminate. injection H as <-. cbn [f_push f_fake f_adv plain].
    right; left. repeat split. apply read_name in R1 as [R1 _]. apply read_name in R2 as [R2 _].
    eapply lf_regexp; [exact Kt|exact R1|]. subst p.
    replace (S (S i) + (o1 + length s1)) with (S (i + (o1 + length s1 + 1))) by lia.
    replace (S i + (o1 + length s1 + 1 + (o2 + length s2))) with (S (i + (o1 + length s1 + 1)) + (o2 + length s2)) by lia. exact R2.
  - destruct (readString (skipn (S i) buf)) as [[o1 s1]| | | |] eqn:R1; try discriminate. cbn [bind] in H.
    apply read_name in R1 as [R1 _].
    assert (R : f_push f = [1%N] /\ f_fake f = false /\ f_adv f = o1 + length s1 + 1).
    { destruct (assoc s1 objs) in H.
      - destruct (tagVarint _ _) in H; try discriminate. injection H as <-. auto.
      - destruct (drange _ _ _) as [s| | | |] in H; try discriminate. injection H as <-. auto. }
    destruct R as (E1 & E2 & E3). right; right. exists 1%N. split; [exact E1|]. split; [exact E2|]. rewrite E3.
    change (cnt 1) with 1. apply ne_object; [exact Kt|].
    replace (p + (o1 + length s1 + 1)) with (S (S i) + (o1 + length s1)) by (subst p; lia). exact R1.
  - discriminate.
  - discriminate.
Qed.

Variable w : mworld.
Variable g : mconfig.
Variable bo : nat.

Lemma step_none st E : merge_step w g bo d st = Ok None -> exists E' p', chain by_ (s_stack st) E (S (s_idx st)) E' p'.
Proof.
  unfold merge_step. destruct (nth_error buf (s_idx st)) as [b|] eqn:Nb.
  - destruct (pop_split (s_stack st)) as (z & Z & Es & Zc). destruct (pop_stack (s_stack st)) as [|c rest].
    + intros _. rewrite Es. do 2 eexists. apply chain_zeros; [exact Z|constructor].
    + cbv zeta. destruct (merge_tag _ _ _ _ _ _ _ _) as [f| | | |]; try discriminate. cbn [bind].
      destruct (w_append _ _ _ _) as [s mem]. destruct (match f_track f with Some _ => _ | None => _ end); discriminate.
  - intros _. do 2 eexists. apply chain_end. cbn [length]. apply nth_error_None in Nb. lia.
Qed.

Lemma step_some st st' E : merge_step w g bo d st = Ok (Some st') ->
  (forall n v, tfind n (s_ttab st) = Some v -> In n E) ->
  (forall n v, tfind n (s_ttab st') = Some v -> In n (S (s_idx st) :: E)) /\
  forall E' p', chain by_ (s_stack st') (S (s_idx st) :: E) (S (s_idx st')) E' p' -> chain by_ (s_stack st) E (S (s_idx st)) E' p'.
Proof.
  unfold merge_step. destruct (nth_error buf (s_idx st)) as [b|] eqn:Nb; [|discriminate].
  destruct (pop_split (s_stack st)) as (z & Z & Es & Zc). destruct (pop_stack (s_stack st)) as [|c rest]; [discriminate|].
  cbv zeta. destruct (merge_tag _ _ _ _ _ _ _ _) as [f| | | |] eqn:M; try discriminate. cbn [bind].
  destruct (w_append _ _ _ _) as [s mem]. destruct (match f_track f with Some _ => _ | None => _ end); try discriminate.
  cbn [bind]. intros St K. injection St as <-. split.
  - cbn [s_ttab]. intros n v T. destruct (match s_tidx st with i :: _ => _ | [] => _ end) in T; [|right; eapply K, T].
    cbn [tfind] in T. destruct (Nat.eqb_spec (S (s_idx st)) n); [now left|right; eapply K, T].
  - intros E' p' C. cbn [s_stack s_idx] in C. rewrite Es. apply chain_zeros; auto.
    assert (Ht : tag_on by_ (S (s_idx st)) (tag_of b)) by (exists b; auto).
    destruct (tag_taken _ _ _ _ _ _ _ _ E Nb K M) as [(F1 & F2 & F3 & F4)|[(F1 & F2 & F3)|(m & F1 & F2 & F3)]];
      rewrite F1, F2 in C; cbn [app] in C.
    + rewrite F4 in C. inversion C as [|? ? ? ? ? ? ? ? T1 C1]; subst. econstructor; [|exact C1]. rewrite (cnt_pred c Zc) in *.
      eapply tk_prefix; eauto. replace (S (S (s_idx st))) with (S (s_idx st + 1)) by lia. exact T1.
    + inversion C as [|? ? ? ? ? ? ? ? T1 C1]; subst. econstructor; [|exact C1]. rewrite (cnt_pred c Zc). eapply tk_leaf; eauto.
    + inversion C as [|? ? ? ? ? ? ? ? T1 C1]; subst. inversion C1 as [|? ? ? ? ? ? ? ? T2 C2]; subst. econstructor; [|exact C2].
      rewrite (cnt_pred c Zc). eapply tk_nest; eauto.
Qed.

Lemma loop_chain : forall fuel st fin E, merge_loop w fuel g bo d st = (Ok tt, fin) ->
  (forall n v, tfind n (s_ttab st) = Some v -> In n E) ->
  exists E' p', chain by_ (s_stack st) E (S (s_idx st)) E' p'.
Proof.
  induction fuel as [|fuel IH]; intros st fin E H K; rewrite loop_unfold in H;
    destruct (merge_step w g bo d st) as [[st'|]| | | |] eqn:St; try discriminate; eauto using step_none.
  destruct (step_some _ _ E St K) as [K' C]. destruct (IH _ _ _ H K') as (E' & p' & C'). eauto.
Qed.

Lemma elements_of n skip : expectedElements g buf = Ok (n, skip) -> (0 <= n)%Z -> elements by_ (g_flat g) (g_top g) (Z.to_N n) (S skip).
Proof.
  unfold expectedElements. destruct (g_flat g) eqn:Fl.
  2:{ intros [= <- <-] _. now apply el_whole. }
  destruct buf as [|b0 [|b1 rest]] eqn:Eb; try discriminate. rewrite !tag_untrack.
  assert (T1 : tag_on by_ 1 (tag_of b0)) by (exists b0; rewrite Eb; auto).
  assert (T2 : tag_on by_ 2 (tag_of b1)) by (exists b1; rewrite Eb; auto).
  rewrite <- Eb in *.
  assert (At : forall j, match varintdecode (skipn j buf) with VOk ln sz => Ok (ln, sz + j) | VBad _ => Err EBadVarint end = Ok (n, skip) ->
    (0 <= n)%Z -> count_at by_ (S j) (Z.to_N n) (S skip)).
  { intros j H P. destruct (varintdecode (skipn j buf)) as [z sz|] eqn:V; [|discriminate]. injection H as <- <-.
    apply count_vdec in V as (m & V & -> & _); [|exact P]. rewrite N2Z.id. replace (S (sz + j)) with (S j + sz) by lia. exact V. }
  unfold typeARRAY, typeREFN, typeARRAYREF_0.
  destruct (N.eqb_spec (g_top g) 0) as [E0|E0]; [|destruct (N.eqb_spec (g_top g) 1) as [E1|E1]].
  - destruct (N.eqb_spec (tag_of b0) 43) as [Ea|Ea]; intros H P.
    + rewrite Ea in T1. apply el_array; auto.
    + injection H as <- <-. eapply el_other; [reflexivity|exact T1|exact T2|lia|lia].
  - destruct ((tag_of b0 =? 40) && (tag_of b1 =? 43))%N eqn:Ea; intros H P.
    + assert (tag_of b0 = 40%N) as Ea0 by lia. assert (tag_of b1 = 43%N) as Ea1 by lia. rewrite Ea0 in T1. rewrite Ea1 in T2.
      apply el_refn; auto.
    + destruct ((64 <=? tag_of b0) && (tag_of b0 <? 64 + 16))%N eqn:Er.
      * injection H as <- <-. rewrite N2Z.id.
        assert (E15 : N.land (tag_of b0) 15 = (tag_of b0 - 64)%N).
        { change 15%N with (N.ones 4). rewrite N.land_ones. change (2 ^ 4)%N with 16%N. lia. }
        rewrite E15. apply el_arrayref; auto. lia.
      * injection H as <- <-. eapply el_other; [reflexivity|exact T1|exact T2|lia|lia].
  - intros [= <- <-] P. eapply el_other; [reflexivity|exact T1|exact T2|lia|lia].
Qed.

End Doc.

Lemma tfind_none t : forall n v, tfind n (map (fun i => (i, None)) t) = Some v -> False.
Proof. induction t as [|i t IH]; intros n v; cbn [map tfind]; [discriminate|]. destruct (Nat.eqb i n); [discriminate|apply IH]. Qed.

Section Api.
Variable k : codecs.
Variable w : mworld.

Lemma items_taken g m d tracked r m' : mergeItems w g m d tracked = (Ok r, m') ->
  let by_ := x00 :: md_buf d in
  exists n start E' p', elements by_ (g_flat g) (g_top g) n start /\ (n <= 4294967295)%N /\
    m_length m' = wrap64 (m_length m + Z.of_N n) /\ taken by_ (low31 n) [] start E' p'.
Proof.
  intros H by_. revert H. unfold mergeItems. destruct (expectedElements g (md_buf d)) as [[n skip]| | | |] eqn:X; try discriminate.
  destruct ((n <? 0) || (maxUint32 <? n))%Z eqn:C1; [discriminate|].
  match goal with |- context [merge_loop w ?a ?b ?c ?e ?st] => destruct (merge_loop w a b c e st) as [r0 fin] eqn:L end.
  destruct r0 as [[]| | | |]; try discriminate. intros [= _ <-].
  apply orb_false_iff in C1 as [C1 C2]. apply Z.ltb_ge in C1. apply Z.ltb_ge in C2. apply elements_of in X; [|exact 0|exact C1].
  apply loop_chain with (E := []) in L; [|cbn [s_ttab]; intros i v T; elim (tfind_none _ _ _ T)].
  destruct L as (E' & p' & C). cbn [s_stack s_idx] in C. inversion C as [|? ? ? ? ? ? ? ? T1 C3]; subst.
  exists (Z.to_N n), (S skip), E1, p1. split; [exact X|]. split; [unfold maxUint32 in *; lia|].
  split; [cbn [m_length]; f_equal; lia|exact T1].
Qed.

Lemma decompressor_known ver typ : (1 <= ver)%N ->
  (type_defined ver typ <-> exists d, documentDecompressor ver typ = Ok d).
Proof.
  intros Hv. unfold type_defined, documentDecompressor, serealRaw, serealSnappy, serealSnappyIncremental, serealZlib, serealZstd.
  repeat match goal with |- context [if ?x then _ else _] => destruct x eqn:? end;
   (split; [intros H|intros [d H]; try discriminate]); eauto; try lia.
Qed.

Lemma doc_taken b spare d : (Z.of_nat (length b) < two63)%Z -> merger_doc k w b spare = Ok d -> body_taken k b (md_buf d).
Proof.
  intros Lb. unfold merger_doc, readHeader. destruct (Nat.leb_spec (length b) headerSize) as [L|L]; [discriminate|].
  unfold headerSize in L.
  destruct b as [|b0 [|b1 [|b2 [|b3 [|vt t]]]]]; cbn [length] in L; try lia.
  cbn [skipn nth].
  destruct (varintdecode t) as [z sz|] eqn:V.
  2:{ destruct (_ =? _)%N; [destruct (_ && _)%bool; discriminate|].
      destruct (_ =? _)%N; [destruct (_ <=? _)%N; discriminate|]. destruct (_ =? _)%N; discriminate. }
  apply varintdecode_inv in V as (l & rest & n & -> & -> & Bs & G & ->).
  assert (Hs : N.shiftr (b2n vt) 4 = (b2n vt / 16)%N) by (now rewrite N.shiftr_div_pow2).
  assert (Hl : N.land (b2n vt) 15 = (b2n vt mod 16)%N).
  { change 15%N with (N.ones 4). now rewrite N.land_ones. }
  rewrite Hs, Hl. pose proof (b2n_lt vt). set (b := b0 :: b1 :: b2 :: b3 :: vt :: l ++ rest) in *.
  assert (L10 : length l <= 10) by lia.
  assert (Done : magic (b2n vt mod 16) = [b0; b1; b2; b3] -> (1 <= b2n vt mod 16)%N ->
    bind (Ok (mkHeader (b2n vt / 16) (b2n vt mod 16) (5 + length l) (wrap64 (to_int n + Z.of_nat (length l))))) (fun h =>
      let start := wrap64 (Z.of_nat headerSize + h_suffixSize h) in
      if ((start <? 0) || (Z.of_nat (length b) <? start))%Z then Crash else
      let body := skipn (Z.to_nat start) b in
      match documentDecompressor (h_version h) (h_doctype h) with
      | Ok (Some dk) => bind (decompress k dk body) (fun d => Ok (mkMDoc d (w_spare w d)))
      | _ => Ok (mkMDoc body spare)
      end) = Ok d -> body_taken k b (md_buf d)).
  { intros Em Hv. cbn [bind h_suffixSize h_version h_doctype]. cbv zeta. fold (bodyStart_of l n).
    destruct ((bodyStart_of l n <? 0) || (Z.of_nat (length b) <? bodyStart_of l n))%Z eqn:B; [discriminate|].
    assert (Bn : (body_start l n <= N.of_nat (length b))%N).
    { apply (bodyStart_ok l n (length b) L10 Lb). rewrite orb_comm. exact B. }
    rewrite (bodyStart_nat _ _ _ L10 Lb Bn). intros D.
    exists (b2n vt mod 16)%N, (b2n vt / 16)%N, l, n, rest, vt. split; [lia|]. split; [rewrite Em; reflexivity|].
    split; [lia|]. split; [exact G|]. split; [exact L10|]. split; [exact Bn|]. cbv zeta.
    destruct (decompressor_known (b2n vt mod 16) (b2n vt / 16) Hv) as [_ K].
    destruct (documentDecompressor (b2n vt mod 16) (b2n vt / 16)) as [[dk|]| | | |] eqn:Dd.
    - destruct (decompress k dk _) as [z| | | |] eqn:Z in D; try discriminate. injection D as <-. left. eapply unpacks_of; eauto.
    - injection D as <-. left. apply HeaderFacts.decompressor_raw in Dd. rewrite Dd. constructor.
    - injection D as <-. right. split; [|reflexivity]. intros T. apply decompressor_known in T as [x T]; [congruence|exact Hv].
    - injection D as <-. right. split; [|reflexivity]. intros T. apply decompressor_known in T as [x T]; [congruence|exact Hv].
    - injection D as <-. right. split; [|reflexivity]. intros T. apply decompressor_known in T as [x T]; [congruence|exact Hv].
    - injection D as <-. right. split; [|reflexivity]. intros T. apply decompressor_known in T as [x T]; [congruence|exact Hv]. }
  destruct (N.eqb_spec (le32 b) magicHeaderBytes) as [E|_].
  - destruct ((1 <=? b2n vt mod 16) && (b2n vt mod 16 <=? 2))%N eqn:C; [|discriminate]. apply Done; [|lia].
    rewrite (le32_inv _ _ _ _ (vt :: l ++ rest) x3d x73 x72 x6c E).
    unfold magic. destruct (N.ltb_spec (b2n vt mod 16) 3); [reflexivity|lia].
  - destruct (N.eqb_spec (le32 b) magicHeaderBytesHighBit) as [E|_].
    + destruct (3 <=? b2n vt mod 16)%N eqn:C; [|discriminate]. apply Done; [|lia].
      rewrite (le32_inv _ _ _ _ (vt :: l ++ rest) x3d xf3 x72 x6c E).
      unfold magic. destruct (N.ltb_spec (b2n vt mod 16) 3); [lia|reflexivity].
    + destruct (_ =? _)%N; discriminate.
Qed.

Lemma wrap64_le n : (n <= 4294967295)%N -> wrap64 (Z.of_N n) = Z.of_N n.
Proof. intros L. apply wrap64_small. unfold two63. lia. Qed.

Theorem append_taken g m b spare z m' : (Z.of_nat (length b) < two63)%Z -> Append k w g m b spare = (Ok z, m') ->
  exists body n start E' p', body_taken k b body /\ elements (x00 :: body) (g_flat g) (g_top g) n start /\
    z = Z.of_N n /\ taken (x00 :: body) (low31 n) [] start E' p'.
Proof.
  intros Lb. unfold Append. destruct (initMerger w g m) as [[[]| | | |] m0]; try discriminate. 
  destruct (m_finished m0); [discriminate|].
  destruct (merger_doc k w b spare) as [d| | | |] eqn:D; try discriminate. cbn [bind].
  destruct (buildTrackTable (md_buf d)) as [t| | | |]; try discriminate. cbn [bind].
  destruct (w_append _ _ _ _) as [s mem].
  destruct (mergeItems _ _ _ _ _) as [[r| | | |] m2] eqn:I; try discriminate. intros [= <- <-].
  apply items_taken in I as (n & start & E' & p' & El & Ln & Em & T). apply (doc_taken _ _ _ Lb) in D.
  exists (md_buf d), n, start, E', p'. split; [exact D|]. split; [exact El|]. split; [|exact T].
  rewrite Em. cbn [with_buf m_length]. rewrite MergeRun.wrap64_diff. now apply wrap64_le.
Qed.
End Api.
