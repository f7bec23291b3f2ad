(** Recursion depth, truncation, headers, reuse and aliasing of Unmarshal. *)
From Verif Require Import Base BaseFacts SpecVarint Varint VarintFacts Tags GoMem Decode Codecs Compress
  Header Document DecodeSafe Sim SpecObserve Spec SpecDoc SpecHeader DecodeSpec DocFacts HeaderFacts ApiFacts ApiSafe.
From Coq Require Import ZifyBool ZifyNat ZifyN.
Ltac Zify.zify_post_hook ::= Z.div_mod_to_equations.

Section More.
Variable k : codecs.
Variable c : dconfig.

Lemma nth_error_ext {A} (l1 l2 : list A) : (forall i, nth_error l1 i = nth_error l2 i) -> l1 = l2.
Proof.
  revert l2. induction l1 as [|x l1 IH]; intros [|y l2] H.
  - reflexivity.
  - discriminate (H 0).
  - discriminate (H 0).
  - f_equal; [now injection (H 0)|]. apply IH. intros i. exact (H (S i)).
Qed.

(** a Decoder in the middle of its life, ready for a call *)
Definition ready (b : bytes) (copy : nat) : dstate := mkDState [CBuf b; CV GNil; CV GNil] [] copy [].

Lemma ready_R by1 ibuf shift b1 b2 copy : R by1 0 ibuf shift b1 b2 (ready b1 copy) (ready b2 copy).
Proof.
  unfold R. cbn. repeat split; auto.
  - intros [|l] H; [congruence|reflexivity].
  - intros [|[|[|l]]] cl H; cbn in H; try (injection H as <-; exact I); destruct l; discriminate.
Qed.

(** * Recursion depth *)
Lemma depth_enough by_ b shift idx l copy : l = 1 \/ l = 2 ->
  exists r h, r <> NoFuel /\ r <> Crash /\ forall fuel, 2 * length by_ + 4 <= fuel ->
    fst (decode c by_ 0 shift fuel idx l (ready b copy)) = r /\
    d_heap (snd (decode c by_ 0 shift fuel idx l (ready b copy))) = h.
Proof.
  intros Hl. set (s := ready b copy).
  assert (L : l < length (d_heap s)) by (destruct Hl; subst l; cbn; lia).
  assert (Hn : hget (d_heap s) l = GNil) by (destruct Hl; subst l; reflexivity).
  set (f0 := 2 * length by_ + 4).
  exists (fst (decode c by_ 0 shift f0 idx l s)), (d_heap (snd (decode c by_ 0 shift f0 idx l s))).
  pose proof (decode_safe c by_ 0 shift f0 idx l s) as W.
  assert (Nd : need by_ idx (d_copy s) <= f0) by (unfold need, f0; destruct (d_copy s); lia).
  specialize (W Nd L Hn). unfold wp in W.
  split; [|split].
  - destruct (decode c by_ 0 shift f0 idx l s) as [[| | | |] s']; cbn; congruence || contradiction.
  - destruct (decode c by_ 0 shift f0 idx l s) as [[| | | |] s']; cbn; congruence || contradiction.
  - intros fuel Hf.
    assert (Hl0 : l <> 0) by lia.
    pose proof (decode_sim c by_ [] 0 0 shift b b f0 fuel idx l Hf Hl0 s s (ready_R _ _ _ _ _ _)) as S.
    cbv zeta in S. rewrite app_nil_r in S.
    destruct (decode c by_ 0 shift f0 idx l s) as [r1 s1]. destruct (decode c by_ 0 shift fuel idx l s) as [r2 s2].
    cbn [fst snd] in *.
    assert (G : r2 = r1 /\ R by_ 0 0 shift b b s1 s2).
    { destruct r1; try contradiction; [tauto|now apply S..]. }
    destruct G as [-> (A1 & _ & _ & A4 & A5 & A6 & _)]. split; [reflexivity|].
    apply nth_error_ext. intros i. destruct (Nat.eq_dec i 0) as [->|Ni]; [congruence|]. symmetry. now apply A6.
Qed.

(** * Truncation *)
(** a body item that ends at [n] needs its [n] bytes *)
Lemma decode_needs by_ x b1 b2 ib shift fuel idx l s1 s2 n s2' : l <> ib -> l < length (d_heap s1) ->
  hget (d_heap s1) l = GNil ->
  R by_ ib ib shift b1 b2 s1 s2 ->
  decode_fuel (by_ ++ x) <= fuel ->
  decode c (by_ ++ x) ib shift fuel idx l s2 = (Ok n, s2') ->
  forall i s1', decode c by_ ib shift (decode_fuel by_) idx l s1 = (Ok i, s1') -> i = n /\ n <= length by_.
Proof.
  intros Hl L Hn Hr Hf E i s1' E1.
  assert (Lf : decode_fuel by_ <= fuel) by (unfold decode_fuel in *; rewrite app_length in Hf; lia).
  pose proof (decode_sim c by_ x ib ib shift b1 b2 _ fuel idx l Lf Hl s1 s2 Hr) as S.
  cbv zeta in S. rewrite E1, E in S. cbn [fst snd] in S. destruct S as (Eq & _ & _).
  injection Eq as ->. split; [reflexivity|].
  pose proof (decode_safe c by_ ib shift (decode_fuel by_) idx l s1) as W.
  assert (Nd : need by_ idx (d_copy s1) <= decode_fuel by_) by (unfold need, decode_fuel; destruct (d_copy s1); lia).
  specialize (W Nd L Hn). unfold wp in W. rewrite E1 in W. tauto.
Qed.

(** * Bytes after the body of a compressed document *)
Lemma framed_ext z x y : framed z = Ok y -> framed (z ++ x) = Ok y.
Proof.
  unfold framed. destruct (varintdecode z) as [ln sz|e] eqn:V; [|discriminate].
  - intros H. rewrite (varintdecode_ext _ x _ _ V). rewrite app_length.
    match goal with H : (if ?c then _ else _) = _ |- _ => destruct c eqn:C end; [discriminate|].
    match goal with |- (if ?c then _ else _) = _ => destruct c eqn:C2 end; [lia|].
    destruct (slice_range z sz (sz + Z.to_nat ln)) as [y'|] eqn:Sr; [|discriminate]. injection H as ->.
    apply slice_range_Some in Sr as (A & B & ->).
    assert (G : slice_range (z ++ x) sz (sz + Z.to_nat ln) = Some (firstn (sz + Z.to_nat ln - sz) (skipn sz z))).
    { apply slice_range_Some. rewrite app_length. split; [lia|]. split; [lia|].
      rewrite skipn_app, firstn_app, skipn_length.
      replace (sz + Z.to_nat ln - sz - (length z - sz)) with 0 by lia. cbn [firstn]. now rewrite app_nil_r. }
    now rewrite G.
Qed.

Lemma decompress_ext dk z x y : dk <> DSnappy false -> decompress k dk z = Ok y -> decompress k dk (z ++ x) = Ok y.
Proof.
  intros Hd. destruct dk as [[]| |]; try congruence; cbn [decompress]; unfold snappy_decompress, zlib_decompress, zstd_decompress.
  - destruct (framed z) as [f|e|e| |] eqn:F; try discriminate. now rewrite (framed_ext _ x _ F).
  - destruct (varintdecode z) as [u usz|e] eqn:V; [|discriminate]. rewrite (varintdecode_ext _ x _ _ V).
    destruct (varintdecode_range _ _ _ V) as (_ & _ & L).
    rewrite (slice_from_le z usz L), (slice_from_le (z ++ x) usz) by (rewrite app_length; lia).
    rewrite skipn_app. replace (usz - length z) with 0 by lia. cbn [skipn].
    destruct (framed (skipn usz z)) as [f|e|e| |] eqn:F; try discriminate. now rewrite (framed_ext _ x _ F).
  - destruct (framed z) as [f|e|e| |] eqn:F; try discriminate. now rewrite (framed_ext _ x _ F).
Qed.

(** the body of a compressed document, unpacked *)
Lemma packed_body b ver typ ln n rest dk s : starts b ver typ ln n rest -> documentDecompressor ver typ = Ok (Some dk) ->
  (0 <= bodyStart_of ln n <= Z.of_nat (length b))%Z ->
  let bs := Z.to_nat (bodyStart_of ln n) in
  unmarshal_raw k c b 0 TgtNone (TgtIface 2) s =
  match decompress k dk (skipn bs b) with
  | Ok d => body_run c ver (firstn bs b ++ d) (length (d_heap s)) bs 2
      (reset (with_heap s (d_heap s ++ [CBuf (firstn bs b ++ d)])))
  | Err e => (Err e, s) | Panic e => (Panic e, s) | Crash => (Crash, s) | NoFuel => (NoFuel, s)
  end.
Proof.
  intros S D B bs. rewrite (raw_good k c _ _ _ _ _ _ _ _ _ _ _ S D B). fold bs.
  unfold unmarshal_header. cbn [target_nil orb]. unfold mbind at 1, ret at 1.
  rewrite body_unfold. unfold unpacked. rewrite (slice_from_le b bs) by (unfold bs; lia).
  unfold mbind, lift. destruct (decompress k dk (skipn bs b)); reflexivity.
Qed.

Lemma packed_R by_ shift b1 b2 nb copy : R by_ 0 3 shift b1 b2
  (mkDState [CBuf b1; CV GNil; CV GNil; CBuf nb] [] copy []) (mkDState [CBuf b2; CV GNil; CV GNil; CBuf nb] [] copy []).
Proof.
  unfold R. cbn. repeat split; auto.
  - intros [|l] H; [congruence|reflexivity].
  - intros [|[|[|[|l]]]] cl H; cbn in H; try (injection H as <-; exact I); destruct l; discriminate.
Qed.

Lemma body_run_elsewhere ver nb bs b1 b2 s1 s2 t : (forall by_ shift, R by_ 0 3 shift b1 b2 s1 s2) ->
  body_run c ver nb 3 bs 2 s1 = (Ok tt, t) ->
  exists t2 by_ shift, body_run c ver nb 3 bs 2 s2 = (Ok tt, t2) /\ R by_ 0 3 shift b1 b2 t t2.
Proof.
  intros Hr. unfold body_run.
  assert (G : forall by_ shift idx, (run_decode c by_ 3 shift idx 2;; ret tt) s1 = (Ok tt, t) ->
    exists t2, (run_decode c by_ 3 shift idx 2;; ret tt) s2 = (Ok tt, t2) /\ R by_ 0 3 shift b1 b2 t t2).
  { intros by_ shift idx E. unfold run_decode, mbind in *.
    pose proof (decode_sim c by_ [] 0 3 shift b1 b2 _ _ idx 2 (Nat.le_refl (decode_fuel by_)) (Nat.neq_succ_0 1) s1 s2 (Hr by_ shift)) as S.
    cbv zeta in S. rewrite app_nil_r in S.
    destruct (decode c by_ 3 shift (decode_fuel by_) idx 2 s1) as [[i|e|e| |] t1]; try discriminate.
    destruct (decode c by_ 3 shift (decode_fuel by_) idx 2 s2) as [r t2]. cbn [fst snd] in S.
    destruct S as (-> & Hr' & _). injection E as <-. exists t2. split; [reflexivity|exact Hr']. }
  destruct (ver =? 1)%N.
  - intros E. destruct (G _ _ _ E) as (t2 & E2 & R2). eauto 10.
  - destruct (Nat.eqb bs 0); [discriminate|]. destruct (slice_from nb (bs - 1)) as [by_|]; [|discriminate].
    intros E. destruct (G _ _ _ E) as (t2 & E2 & R2). eauto 10.
Qed.

Theorem appended b x h v ver typ ln n rest : starts b ver typ ln n rest -> typ <> 1%N ->
  unmarshal_fresh k c b = Ok (h, v) ->
  exists h' v', unmarshal_fresh k c (b ++ x) = Ok (h', v') /\ forall n, observe n h' v' = observe n h v.
Proof.
  intros S Ht U. destruct (N.eq_dec typ 0) as [->|Ht0]; [exact (unmarshal_ext k c _ _ _ _ _ _ _ _ S U)|].
  destruct (unmarshal_fresh_Ok _ _ _ _ _ U) as (s' & E & -> & ->).
  destruct (raw_cases k c b 0 TgtNone (TgtIface 2) (fresh_state b)) as [(e & E' & _)|(ver2 & typ2 & l2 & n2 & rest2 & dec & S2 & T & D & B)];
    [rewrite E' in E; discriminate|].
  destruct (starts_det _ _ _ _ _ _ _ _ _ _ _ S S2) as (<- & <- & <- & <- & <-). clear S2.
  destruct dec as [dk|]; [|apply decompressor_raw in D; congruence].
  assert (Hdk : dk <> DSnappy false).
  { unfold documentDecompressor in D. change serealSnappy with 1%N in D.
    destruct (N.eqb_spec typ 1); [congruence|]. intros ->.
    repeat match type of D with context [if ?q then _ else _] => destruct q end; congruence. }
  pose proof (packed_body _ _ _ _ _ _ _ (fresh_state b) S D B) as E1. cbv zeta in E1. rewrite E in E1.
  assert (B2 : (0 <= bodyStart_of ln n <= Z.of_nat (length (b ++ x)))%Z) by (rewrite app_length; lia).
  pose proof (packed_body (b ++ x) _ _ _ _ _ _ (fresh_state (b ++ x)) (starts_ext _ _ _ _ _ _ x S) D B2) as E2. cbv zeta in E2.
  set (bs := Z.to_nat (bodyStart_of ln n)) in *. assert (Lb : bs <= length b) by (unfold bs; lia).
  destruct (decompress k dk (skipn bs b)) as [d|e|e| |] eqn:Dc; try discriminate.
  assert (Es : skipn bs (b ++ x) = skipn bs b ++ x).
  { rewrite skipn_app. now replace (bs - length b) with 0 by lia. }
  assert (Ef : firstn bs (b ++ x) = firstn bs b).
  { rewrite firstn_app. replace (bs - length b) with 0 by lia. cbn [firstn]. now rewrite app_nil_r. }
  rewrite Es, Ef, (decompress_ext dk _ x _ Hdk Dc) in E2.
  symmetry in E1.
  destruct (body_run_elsewhere ver (firstn bs b ++ d) bs b (b ++ x) _ (reset (with_heap (fresh_state (b ++ x)) (d_heap (fresh_state (b ++ x)) ++ [CBuf (firstn bs b ++ d)]))) _
     (fun by_ shift => packed_R by_ shift b (b ++ x) (firstn bs b ++ d) 0) E1) as (t2 & by_ & shift & E3 & Rt).
  change (length (d_heap (fresh_state (b ++ x)))) with 3 in E2. rewrite E3 in E2.
  apply unmarshal_fresh_raw in E2. eexists _, _. split; [exact E2|]. intros m.
  destruct Rt as (_ & _ & _ & A4 & A5 & A6 & A7).
  rewrite (oget 0 _ _ _ _ A4 A5 A6).
  eapply observe_same; eauto.
  - eapply cget. exact A7.
  - left. discriminate.
Qed.

Definition accepts (b : bytes) : bool := match unmarshal_fresh k c b with Ok _ => true | _ => false end.

Lemma fresh_nofuel b : unmarshal_fresh k c b <> NoFuel /\ (forall e, unmarshal_fresh k c b <> Panic e).
Proof.
  pose proof (raw_wpc k c b 0 TgtNone (TgtIface 2) (fresh_state b) I) as W.
  assert (T : target_ok (fresh_state b) (TgtIface 2)) by (split; [cbn; lia|reflexivity]).
  specialize (W T). unfold wpc in W. unfold unmarshal_fresh, Unmarshal, UnmarshalHeaderBody.
  destruct (unmarshal_raw k c b 0 TgtNone (TgtIface 2) (fresh_state b)) as [[[]|e|e| |] s']; cbn; split; try congruence.
  exfalso. apply W. intros l Hl. contradiction Hl.
Qed.

Lemma fresh_crash b : harmless TgtNone (TgtIface 2) b -> unmarshal_fresh k c b <> Crash.
Proof.
  intros H. assert (T : target_ok (fresh_state b) (TgtIface 2)) by (split; [cbn; lia|reflexivity]).
  assert (Dj : forall l, points TgtNone l -> ~ points (TgtIface 2) l) by (intros l Hl; contradiction Hl).
  pose proof (raw_nocrash k c b 0 TgtNone (TgtIface 2) (fresh_state b) I T Dj H) as N.
  unfold unmarshal_fresh, Unmarshal, UnmarshalHeaderBody.
  destruct (unmarshal_raw k c b 0 TgtNone (TgtIface 2) (fresh_state b)) as [[[]|e|e| |] s']; cbn in *; congruence.
Qed.

(** the unpacked length of an accepted zlib body *)
Lemma to_int_modest_inv n : (0 <= to_int n <= 281474976710656)%Z -> (n mod 18446744073709551616 <= 281474976710656)%N.
Proof.
  unfold to_int. intros H. apply N2Z.inj_le. rewrite N2Z.inj_mod by discriminate.
  change (Z.of_N 18446744073709551616) with two64. change (Z.of_N 281474976710656) with 281474976710656%Z.
  pose proof (Z.mod_pos_bound (Z.of_N n) two64 eq_refl) as Hq.
  set (q := (Z.of_N n mod two64)%Z) in *. clearbody q. unfold two63, two64 in *.
  destruct (Z.ltb_spec q 9223372036854775808); lia.
Qed.
Lemma zlib_accepted z d : decompress k DZlib z = Ok d -> zlib_modest z.
Proof.
  cbn [decompress]. unfold zlib_decompress. intros E l rest n -> G L.
  rewrite (varintdecode_groups _ _ _ G L) in E.
  rewrite slice_from_le in E by (rewrite app_length; lia).
  destruct (framed (skipn (length l) (l ++ rest))) as [f|e|e| |]; try discriminate. cbn [bind] in E. unfold zlibDecode in E.
  destruct (zlib_open k f); [|discriminate]. cbn [negb] in E.
  destruct ((to_int n <? 0) || (281474976710656 <? to_int n))%Z eqn:C; [discriminate|].
  apply to_int_modest_inv. lia.
Qed.

Lemma zlib_modest_prefix z x : zlib_modest (z ++ x) -> zlib_modest z.
Proof. intros H l rest n -> G L. apply (H l (rest ++ x) n); auto. now rewrite app_assoc. Qed.

(** a prefix of an accepted document does not crash *)
Lemma prefix_harmless b y ver typ ln n rest : starts (b ++ y) ver typ ln n rest -> accepts (b ++ y) = true ->
  harmless TgtNone (TgtIface 2) b.
Proof.
  intros S A ver' typ' ln' n' rest' S'. split; [congruence|]. intros _.
  destruct (starts_det _ _ _ _ _ _ _ _ _ _ _ S (starts_ext _ _ _ _ _ _ y S')) as (<- & <- & <- & <- & _).
  unfold accepts in A.
  destruct (unmarshal_fresh k c (b ++ y)) as [[h v]|e|e| |] eqn:U; try discriminate.
  destruct (unmarshal_fresh_Ok _ _ _ _ _ U) as (s' & E & _).
  destruct (raw_cases k c (b ++ y) 0 TgtNone (TgtIface 2) (fresh_state (b ++ y))) as [(e & E' & _)|(ver2 & typ2 & l2 & n2 & rest2 & dec & S2 & T & D & B)];
    [rewrite E' in E; discriminate|].
  destruct (starts_det _ _ _ _ _ _ _ _ _ _ _ S S2) as (<- & <- & <- & <- & <-). clear S2.
  destruct (starts_length _ _ _ _ _ _ S) as [_ L10].
  pose proof (start_zero _ _ (proj2 L10) (proj1 B)) as Es.
  assert (Bz : forall nb ib s t, ver <> 1%N -> body_start ln n = 0%N ->
    body_run c ver nb ib (Z.to_nat (bodyStart_of ln n)) 2 s <> (Ok tt, t)).
  { intros nb ib s t Hv Z. rewrite Es, Z. unfold body_run. destruct (N.eqb_spec ver 1); [congruence|]. discriminate. }
  destruct dec as [dk|].
  - pose proof (packed_body _ _ _ _ _ _ _ (fresh_state (b ++ y)) S D B) as E1. cbv zeta in E1. rewrite E in E1.
    destruct (decompress k dk (skipn (Z.to_nat (bodyStart_of ln n)) (b ++ y))) as [d|e|e| |] eqn:Dc; try discriminate.
    split.
    + intros Hv Z. exact (Bz _ _ _ _ Hv Z (eq_sym E1)).
    + intros ->. assert (dk = DZlib).
      { unfold documentDecompressor in D. cbn in D. destruct (ver <? 3)%N; congruence. }
      subst dk. apply zlib_accepted in Dc. rewrite Es in Dc. rewrite skipn_app in Dc.
      exact (zlib_modest_prefix _ _ Dc).
  - apply decompressor_raw in D. subst typ. split; [|discriminate].
    intros Hv Z. rewrite (raw_body k c _ _ _ _ _ _ _ _ S B) in E. exact (Bz _ _ _ _ Hv Z E).
Qed.

Lemma firstn_split {A} (b : list A) m m' : m <= m' -> firstn m' b = firstn m b ++ firstn (m' - m) (skipn m b).
Proof.
  intros L. rewrite <- (firstn_skipn m b) at 1.
  destruct (Nat.le_ge_cases (length b) m) as [Lb|Lb].
  - rewrite (skipn_all2 b) by lia. now rewrite app_nil_r, firstn_nil, app_nil_r, !firstn_all2; rewrite ?firstn_all2; try lia.
  - rewrite firstn_app, firstn_length. rewrite firstn_all2 by (rewrite firstn_length; lia).
    now replace (Nat.min m (length b)) with m by lia.
Qed.

(** an accepted cut stays accepted, with the same value, when more is kept *)
Lemma cut_mono b ver typ ln n rest m m' h v : starts b ver typ ln n rest -> typ <> 1%N -> m <= m' ->
  unmarshal_fresh k c (firstn m b) = Ok (h, v) ->
  exists h' v', unmarshal_fresh k c (firstn m' b) = Ok (h', v') /\ forall d, observe d h' v' = observe d h v.
Proof.
  intros S Ht L U. destruct (unmarshal_fresh_Ok _ _ _ _ _ U) as (s' & E & _).
  destruct (raw_accepted _ _ _ _ _ _ _ _ E) as (v2 & t2 & l2 & n2 & r2 & S2 & _).
  pose proof (starts_ext _ _ _ _ _ _ (skipn m b) S2) as S3. rewrite firstn_skipn in S3.
  destruct (starts_det _ _ _ _ _ _ _ _ _ _ _ S S3) as (<- & <- & <- & <- & _).
  rewrite (firstn_split b m m' L). exact (appended _ _ _ _ _ _ _ _ _ S2 Ht U).
Qed.

Lemma least (P : nat -> bool) n : P n = true -> exists m, m <= n /\ P m = true /\ forall i, i < m -> P i = false.
Proof.
  revert P. induction n as [|n IH]; intros P H.
  - exists 0. repeat split; auto. lia.
  - destruct (P 0) eqn:E0; [exists 0; repeat split; auto; lia|].
    destruct (IH (fun i => P (S i)) H) as (m & L & Hm & Lt). exists (S m). split; [lia|]. split; [exact Hm|].
    intros [|i] Li; [exact E0|]. apply Lt. lia.
Qed.

Lemma cut_rejected b ver typ ln n rest m : starts b ver typ ln n rest -> accepts b = true ->
  accepts (firstn m b) = false -> exists e, unmarshal_fresh k c (firstn m b) = Err e.
Proof.
  intros S A F. pose proof (fresh_nofuel (firstn m b)) as [N P].
  assert (H : harmless TgtNone (TgtIface 2) (firstn m b)).
  { apply (prefix_harmless (firstn m b) (skipn m b) ver typ ln n rest); now rewrite firstn_skipn. }
  pose proof (fresh_crash _ H) as C. unfold accepts in F.
  destruct (unmarshal_fresh k c (firstn m b)) as [[h v]|e|e| |]; eauto; try congruence; now contradiction (P e).
Qed.

Theorem truncation b ver typ ln n rest h v : starts b ver typ ln n rest -> typ <> 1%N -> unmarshal_fresh k c b = Ok (h, v) ->
  exists m, m <= length b /\
    (forall i, i < m -> exists e, unmarshal_fresh k c (firstn i b) = Err e) /\
    (forall i, m <= i -> exists h' v', unmarshal_fresh k c (firstn i b) = Ok (h', v') /\
       forall d, observe d h' v' = observe d h v).
Proof.
  intros S Ht U. assert (A : accepts b = true) by (unfold accepts; now rewrite U).
  destruct (least (fun i => accepts (firstn i b)) (length b)) as (m & L & Hm & Lt).
  { now rewrite firstn_all. }
  exists m. split; [exact L|]. split.
  - intros i Li. exact (cut_rejected b ver typ ln n rest i S A (Lt i Li)).
  - unfold accepts in Hm. destruct (unmarshal_fresh k c (firstn m b)) as [[h1 v1]|e|e| |] eqn:U1; try discriminate.
    assert (Same : forall d, observe d h v = observe d h1 v1).
    { destruct (cut_mono b ver typ ln n rest m (length b) h1 v1 S Ht L U1) as (h2 & v2 & U2 & O).
      rewrite firstn_all in U2. rewrite U in U2. injection U2 as <- <-. exact O. }
    intros i Li. destruct (cut_mono b ver typ ln n rest m i h1 v1 S Ht Li U1) as (h2 & v2 & U2 & O).
    exists h2, v2. split; [exact U2|]. intros d. rewrite O. now rewrite Same.
Qed.

(** the position at which the item of a described body ends *)
Definition end_index (ver : N) (pre : bytes) (e : nat) : nat := if (ver =? 1)%N then length pre + e else 1 + e.

Lemma described_end ver pre body d e l s : (1 <= length pre)%nat ->
  (Z.of_nat (length pre + length body) <= 281474976710656)%Z ->
  body_item CAny (go_dialect c) ver pre body d e ->
  nth_error (d_heap s) 0 = Some (CBuf (pre ++ body)) -> nth_error (d_heap s) l = Some (CV GNil) ->
  d_copy s = 0 ->
  let by_ := if (ver =? 1)%N then pre ++ body else skipn (length pre - 1) (pre ++ body) in
  let shift := if (ver =? 1)%N then 0 else length pre - 1 in
  let idx := if (ver =? 1)%N then length pre else 1 in
  exists s', decode c by_ 0 shift (decode_fuel by_) idx l s = (Ok (end_index ver pre e), s').
Proof.
  intros Lp Lb It Hib Hl Hc. unfold body_item in It. unfold end_index. destruct (ver =? 1)%N; cbv zeta.
  - destruct (decode_implements_grammar c (pre ++ body) 0 0 (pre ++ body) (length pre)) as (D & _ & _).
    { rewrite app_length. unfold two63. lia. }
    { exists [], []. now rewrite app_nil_r. }
    destruct (D _ _ _ _ It) as (L1 & L2 & D').
    destruct (D' (decode_fuel (pre ++ body)) l s) as (s' & v & R & _); auto.
    { rewrite Hc. unfold need, decode_fuel. lia. }
    eauto.
  - destruct (exists_last (l := pre)) as (pre0 & x & ->); [intros ->; cbn in *; lia|].
    rewrite app_length in *. cbn [length] in *.
    replace (length pre0 + 1 - 1) with (length pre0) by lia.
    rewrite <- app_assoc in *. cbn [app] in *. rewrite skipn_app_len.
    apply (item_head _ x00 x) in It; [|reflexivity].
    destruct (decode_implements_grammar c (x :: body) 0 (length pre0) (pre0 ++ x :: body) 1) as (D & _ & _).
    { cbn [length]. unfold two63. lia. }
    { exists pre0, []. now rewrite app_nil_r. }
    destruct (D _ _ _ _ It) as (L1 & L2 & D').
    destruct (D' (decode_fuel (x :: body)) l s) as (s' & v & R & _); auto.
    { rewrite Hc. unfold need, decode_fuel. lia. }
    eauto.
Qed.

(** described raw documents need every byte up to the end of the item *)
Theorem described_cut b ver suffix d body e m :
  document (go_reader c) k b ver 0 suffix d body e -> m < length b - (length body - e) ->
  exists er, unmarshal_fresh k c (firstn m b) = Err er.
Proof.
  intros Doc Lm. pose proof Doc as (pre & packed & Eb & Hp & Pk & Lb & Lb2 & It).
  assert (Ep : packed = body) by (inversion Pk; congruence). subst packed.
  cbn [go_reader r_packed r_memory r_dialect] in *.
  assert (St : exists ln rest, starts b ver 0 ln (N.of_nat (length suffix)) rest /\ length pre = 5 + length ln + length suffix).
  { destruct Hp as (Hv & Ht & vt & ln & Ep & Hvt & Vg & Ll). exists ln, (suffix ++ body). split.
    - split; [exact Hv|]. split; [exact Ht|]. exists vt. split; [|auto]. rewrite Eb, Ep. now rewrite <- !app_assoc.
    - rewrite Ep. rewrite !app_length. unfold magic. destruct (ver <? 3)%N; cbn; lia. }
  destruct St as (ln & rest & St & Lpre).
  assert (Acc : accepts b = true).
  { destruct (unmarshal_document k c b ver 0 suffix d body e 0 2 (fresh_state b) Doc eq_refl eq_refl eq_refl)
      as (s' & v & U & _).
    unfold accepts, unmarshal_fresh. rewrite U. reflexivity. }
  destruct (accepts (firstn m b)) eqn:Am; [exfalso|exact (cut_rejected b ver 0%N ln _ rest m St Acc Am)].
  unfold accepts in Am. destruct (unmarshal_fresh k c (firstn m b)) as [[h1 v1]|er|er| |] eqn:U1; try discriminate.
  destruct (unmarshal_fresh_Ok _ _ _ _ _ U1) as (s1 & E1 & _).
  destruct (raw_accepted _ _ _ _ _ _ _ _ E1) as (v2 & t2 & l2 & n2 & r2 & S2 & B2).
  pose proof (starts_ext _ _ _ _ _ _ (skipn m b) S2) as S3. rewrite firstn_skipn in S3.
  destruct (starts_det _ _ _ _ _ _ _ _ _ _ _ St S3) as (<- & <- & <- & <- & _).
  destruct (starts_length _ _ _ _ _ _ St) as [Lb5 L10].
  rewrite (raw_body k c _ _ _ _ _ _ _ _ S2 B2) in E1.
  assert (Bs : Z.to_nat (bodyStart_of ln (N.of_nat (length suffix))) = length pre).
  { rewrite (start_zero _ _ (proj2 L10) (proj1 B2)). unfold body_start. rewrite N.mod_small by lia. lia. }
  assert (Lfm : length pre <= length (firstn m b)) by lia.
  rewrite Bs in E1. rewrite firstn_length in Lfm.
  assert (Lbb : length b = length pre + length body) by (rewrite Eb, app_length; lia).
  pose proof (described_end ver pre body d e 2 (ready b 0) ltac:(lia) ltac:(lia) It
    ltac:(cbn; now rewrite Eb) eq_refl eq_refl) as Fin. cbv zeta in Fin. rewrite <- Eb in Fin.
  destruct Fin as (s' & Fin).
  assert (R0 : forall by_ shift, R by_ 0 0 shift (firstn m b) b (reset (fresh_state (firstn m b))) (ready b 0)).
  { intros. exact (ready_R by_ 0 shift (firstn m b) b 0). }
  unfold body_run in E1. unfold end_index in Fin. destruct (ver =? 1)%N.
  - unfold run_decode, mbind in E1.
    destruct (decode c (firstn m b) 0 0 (decode_fuel (firstn m b)) (length pre) 2 (reset (fresh_state (firstn m b))))
      as [[i| | | |] t1] eqn:D1; try discriminate.
    assert (Eqb : b = firstn m b ++ skipn m b) by now rewrite firstn_skipn.
    rewrite Eqb in Fin at 1 2.
    destruct (decode_needs (firstn m b) (skipn m b) (firstn m b) b 0 0 _ (length pre) 2
      (reset (fresh_state (firstn m b))) (ready b 0) _ _ ltac:(lia) ltac:(cbn; lia) eq_refl (R0 _ _)
      (Nat.le_refl _) Fin i t1 D1) as [_ Le].
    rewrite firstn_length in Le. lia.
  - destruct (Nat.eqb_spec (length pre) 0); [lia|].
    assert (Sl : slice_from (firstn m b) (length pre - 1) = Some (skipn (length pre - 1) (firstn m b))).
    { unfold slice_from. rewrite firstn_length. destruct (Nat.leb_spec (length pre - 1) (Nat.min m (length b))); [reflexivity|lia]. }
    rewrite Sl in E1. unfold run_decode, mbind in E1.
    set (by1 := skipn (length pre - 1) (firstn m b)) in *.
    assert (Eqb : skipn (length pre - 1) b = by1 ++ skipn m b).
    { unfold by1. rewrite <- (firstn_skipn m b) at 1. rewrite skipn_app, firstn_length.
      now replace (length pre - 1 - Nat.min m (length b)) with 0 by lia. }
    destruct (decode c by1 0 (length pre - 1) (decode_fuel by1) 1 2 (reset (fresh_state (firstn m b))))
      as [[i| | | |] t1] eqn:D1; try discriminate.
    rewrite Eqb in Fin.
    destruct (decode_needs by1 (skipn m b) (firstn m b) b 0 (length pre - 1) _ 1 2
      (reset (fresh_state (firstn m b))) (ready b 0) _ _ ltac:(lia) ltac:(cbn; lia) eq_refl (R0 _ _)
      (Nat.le_refl _) Fin i t1 D1) as [_ Le].
    unfold by1 in Le. rewrite skipn_length, firstn_length in Le. lia.
Qed.

(** * Reading the header only *)
Lemma preamble_starts ver typ suffix pre : preamble ver typ suffix pre -> exists ln,
  (forall y, starts (pre ++ y) ver typ ln (N.of_nat (length suffix)) (suffix ++ y)) /\
  length pre = 5 + length ln + length suffix.
Proof.
  intros (Hv & Ht & vt & ln & Ep & Hvt & Vg & Ll). exists ln. split.
  - intros y. split; [exact Hv|]. split; [exact Ht|]. exists vt. split; [|auto]. rewrite Ep. now rewrite <- !app_assoc.
  - rewrite Ep. rewrite !app_length. unfold magic. destruct (ver <? 3)%N; cbn; lia.
Qed.

(** the Decoder state after reading the header only *)
Lemma header_call ver typ suffix pre ln y ib l s :
  starts (pre ++ y) ver typ ln (N.of_nat (length suffix)) (suffix ++ y) ->
  length pre = 5 + length ln + length suffix -> (Z.of_nat (length pre) < two63)%Z ->
  unmarshal_raw k c (pre ++ y) ib (TgtIface l) TgtNone s =
  match documentDecompressor ver typ with
  | Ok _ => unmarshal_header c (pre ++ y) ib (header_of ver typ ln (N.of_nat (length suffix))) (length pre) (TgtIface l) s
  | Err e => (Err e, s)
  | _ => (Crash, s)
  end.
Proof.
  intros St Lp L63. destruct (decompressor_total ver typ) as [[dec D]|[e D]]; rewrite D.
  - assert (B : bodyStart_of ln (N.of_nat (length suffix)) = Z.of_nat (length pre)).
    { destruct (starts_length _ _ _ _ _ _ St) as [_ L10]. rewrite bodyStart_spec by lia.
      unfold body_start. rewrite N.mod_small by (unfold two63 in *; lia). rewrite to_int_small by (unfold two63 in *; lia). lia. }
    rewrite (raw_good k c _ _ _ _ _ _ _ _ _ _ _ St D) by (rewrite B, app_length; lia).
    rewrite B, Nat2Z.id. unfold mbind.
    destruct (unmarshal_header c (pre ++ y) ib (header_of ver typ ln (N.of_nat (length suffix))) (length pre) (TgtIface l) s)
      as [[[]|e|e| |] s']; reflexivity.
  - unfold unmarshal_raw. unfold mbind at 1. unfold lift at 1. rewrite (checkHeader_starts _ _ _ _ _ _ St).
    unfold mbind at 1. unfold lift at 1. cbn [header_of h_version h_doctype]. now rewrite D.
Qed.

Theorem header_independent ver typ suffix pre y1 y2 : preamble ver typ suffix pre ->
  (suffix = [] -> length pre = 6) -> (Z.of_nat (length pre) < two63)%Z ->
  same_outcome (unmarshal_header_fresh k c (pre ++ y1)) (unmarshal_header_fresh k c (pre ++ y2)).
Proof.
  intros Hp H0 L63.
  destruct (preamble_starts ver typ suffix pre Hp) as (ln & St & Lp).
  pose proof (St y1) as St1. pose proof (St y2) as St2.
  set (n := N.of_nat (length suffix)) in *.
  unfold unmarshal_header_fresh, UnmarshalHeader, UnmarshalHeaderBody.
  rewrite (header_call ver typ suffix pre ln y1 0 1 _ St1 Lp L63), (header_call ver typ suffix pre ln y2 0 1 _ St2 Lp L63).
  fold n.
  destruct (decompressor_total ver typ) as [[dec D]|[e D]]; rewrite D; [|cbn; reflexivity].
  unfold unmarshal_header. cbn [target_nil orb]. cbn [header_of h_suffixSize h_suffixStart].
  destruct (wrap64 (to_int n + Z.of_nat (length ln)) =? 1)%Z eqn:E1.
  { cbn. intros d. destruct d; reflexivity. }
  assert (Ns : 0 < length suffix).
  { destruct suffix; [|cbn; lia]. exfalso. specialize (H0 eq_refl). cbn [length] in *.
    assert (L1 : length ln = 1) by lia. rewrite L1 in E1. vm_compute in E1. discriminate. }
  unfold mbind at 1 3. unfold fresh_tracked at 1 2. fold (reset (fresh_state (pre ++ y1))) (reset (fresh_state (pre ++ y2))).
  unfold headerSize. rewrite !nth_error_app1 by lia.
  destruct (nth_error pre (5 + length ln)) as [fl|] eqn:Fl; [|apply nth_error_None in Fl; lia].
  destruct (_ =? _)%N; [|cbn; intros d; destruct d; reflexivity].
  rewrite !firstn_app_len.
  pose proof (run_decode_sim c pre [] 0 0 (pre ++ y1) (pre ++ y2) (5 + length ln + 1) 1 ltac:(lia)
    _ _ (fresh_R _ _ _ _ _ _ eq_refl)) as S.
  cbv zeta in S. rewrite app_nil_r in S.
  pose proof (run_safe c pre 0 0 (5 + length ln + 1) 1 (reset (fresh_state (pre ++ y1))) ltac:(cbn; lia) eq_refl) as W.
  unfold wp in W.
  destruct ((run_decode c pre 0 0 (5 + length ln + 1) 1;; ret tt) (reset (fresh_state (pre ++ y1)))) as [r1 s1].
  destruct ((run_decode c pre 0 0 (5 + length ln + 1) 1;; ret tt) (reset (fresh_state (pre ++ y2)))) as [r2 s2].
  cbn [fst snd] in *. destruct r1 as [u|e|e| |]; try contradiction.
  - destruct S as (-> & Hr & _). cbn. destruct Hr as (_ & _ & _ & A4 & A5 & A6 & A7).
    intros d. rewrite (oget 0 _ _ _ _ A4 A5 A6). symmetry.
    eapply observe_same; eauto.
    + eapply cget. exact A7.
    + left. intros _. apply agree_firstn. cbn [Nat.add]. now rewrite !firstn_app_len.
  - destruct (S eq_refl) as [-> _]. reflexivity.
  - destruct (S eq_refl) as [-> _]. reflexivity.
Qed.

(** * Reuse of a Decoder *)
Lemma start_ready copy b : mkDState [CBuf b; CV GNil; CV GNil] [] copy [] = ready b copy.
Proof. reflexivity. Qed.

Definition req_targets (q : request) : bytes * target * target :=
  match q with
  | ReqBody b => (b, TgtNone, TgtIface 2)
  | ReqHeader b => (b, TgtIface 1, TgtNone)
  | ReqBoth b => (b, TgtIface 1, TgtIface 2)
  end.
Definition ready_d (b : bytes) (d : decoder) : dstate :=
  mkDState [CBuf b; CV GNil; CV GNil] (de_tracked d) (de_copy d) [].
Lemma call_raw_eq d q : call_raw k c d q =
  let '(b, vh, vb) := req_targets q in unmarshal_raw k c b 0 vh vb (ready_d b d).
Proof. destruct q; reflexivity. Qed.

Lemma req_ok d q : let '(b, vh, vb) := req_targets q in
  target_ok (ready_d b d) vh /\ target_ok (ready_d b d) vb /\ forall l, points vh l -> ~ points vb l.
Proof. destruct q; cbn; repeat split; try lia; try reflexivity; auto; intros l; cbn; try lia; tauto. Qed.

Lemma call_wpc d q :
  match call_raw k c d q with
  | (Ok _, s') | (Err _, s') | (Crash, s') => d_copy s' = de_copy d /\ made_ok (d_made s')
  | (Panic _, s') => made_ok (d_made s')
  | (NoFuel, _) => False
  end.
Proof.
  rewrite call_raw_eq. pose proof (req_ok d q) as H. destruct (req_targets q) as [[b vh] vb].
  destruct H as (T1 & T2 & Dj).
  pose proof (raw_wpc k c b 0 vh vb (ready_d b d) T1 T2 Dj) as W. unfold wpc in W.
  assert (M0 : made_ok (d_made (ready_d b d))) by constructor.
  destruct (unmarshal_raw k c b 0 vh vb (ready_d b d)) as [[u|e|e| |] s'];
    repeat match goal with H : keeps _ _ _ |- _ => destruct H as [(_ & _ & ?) ?]
           | H : touches _ _ _ |- _ => destruct H as (_ & _ & ?) end; auto.
Qed.

(** the table of tracked references left by earlier calls is not used *)
Definition eqt (s1 s2 : dstate) : Prop :=
  d_heap s1 = d_heap s2 /\ d_copy s1 = d_copy s2 /\ d_made s1 = d_made s2.
Definition same_run {A} (r1 r2 : res A * dstate) : Prop := fst r1 = fst r2 /\ eqt (snd r1) (snd r2).

Lemma eqt_reset s1 s2 : eqt s1 s2 -> reset s1 = reset s2.
Proof. intros (A & B & C). unfold reset. now rewrite A, B, C. Qed.
Lemma same_run_refl {A} (r : res A * dstate) : same_run r r.
Proof. repeat split. Qed.
Lemma eqt_bind {A B} (m : M A) (f : A -> M B) s1 s2 : same_run (m s1) (m s2) ->
  (forall a t1 t2, eqt t1 t2 -> same_run (f a t1) (f a t2)) -> same_run (mbind m f s1) (mbind m f s2).
Proof.
  unfold mbind. destruct (m s1) as [r1 t1], (m s2) as [r2 t2]. intros [E Q]. cbn in E, Q. subst r2.
  intros H. destruct r1; auto; split; auto.
Qed.
Lemma eqt_fresh {A} (f : M A) s1 s2 : eqt s1 s2 -> same_run ((fresh_tracked ;; f) s1) ((fresh_tracked ;; f) s2).
Proof.
  intros E. change (same_run (f (reset s1)) (f (reset s2))).
  rewrite (eqt_reset _ _ E). apply same_run_refl.
Qed.
Lemma header_eqt b ib h bs vh s1 s2 : eqt s1 s2 ->
  same_run (unmarshal_header c b ib h bs vh s1) (unmarshal_header c b ib h bs vh s2).
Proof.
  intros E. unfold unmarshal_header. destruct (_ || _); [split; auto|]. now apply eqt_fresh.
Qed.
Lemma body_eqt b ib h dec bs vb s1 s2 : eqt s1 s2 ->
  same_run (unmarshal_body k c b ib h dec bs vb s1) (unmarshal_body k c b ib h dec bs vb s2).
Proof.
  intros E. unfold unmarshal_body. destruct (target_nil vb); [split; auto|].
  apply eqt_bind.
  - destruct dec as [dk|]; [|split; auto]. destruct (slice_from b bs) as [z|]; [|split; auto].
    apply eqt_bind; [split; auto|]. intros a t1 t2 (E1 & E2 & E3).
    unfold mbind, alloc, with_heap, ret, same_run, eqt. cbn. now rewrite E1, E2, E3.
  - intros [b' ib'] t1 t2 E'. now apply eqt_fresh.
Qed.
Lemma raw_eqt b ib vh vb s1 s2 : eqt s1 s2 ->
  same_run (unmarshal_raw k c b ib vh vb s1) (unmarshal_raw k c b ib vh vb s2).
Proof.
  intros E. unfold unmarshal_raw. apply eqt_bind; [split; auto|]. intros h t1 t2 E1.
  apply eqt_bind; [split; auto|]. intros dec u1 u2 E2. destruct (_ || _); [split; auto|].
  apply eqt_bind; [now apply header_eqt|]. intros [] w1 w2 E3. now apply body_eqt.
Qed.
Lemma call_eqt d1 d2 q : de_copy d1 = de_copy d2 ->
  same_run (call_raw k c d1 q) (call_raw k c d2 q).
Proof.
  intros E. rewrite !call_raw_eq. destruct (req_targets q) as [[b vh] vb]. apply raw_eqt.
  split; [reflexivity|]. split; [exact E|reflexivity].
Qed.

Theorem reuse hist q : (forall p, In p hist -> call_panics k c new_decoder p = false) ->
  call_result k c (history k c new_decoder hist) q = call_result k c new_decoder q.
Proof.
  intros H. assert (E : de_copy (history k c new_decoder hist) = 0).
  { unfold history. assert (G : forall d, de_copy d = 0 -> de_copy (fold_left (after k c) hist d) = 0); [|now apply G].
    induction hist as [|p hist IH]; intros d Hd; [exact Hd|]. cbn [fold_left]. apply IH.
    - intros p' Hp. apply H. now right.
    - unfold after. cbn [de_copy]. specialize (H p (or_introl eq_refl)). unfold call_panics in H.
      pose proof (call_eqt d new_decoder p Hd) as [E1 (_ & E2 & _)]. rewrite E2.
      pose proof (call_wpc new_decoder p) as W.
      destruct (call_raw k c new_decoder p) as [[u|e|e| |] s']; cbn in *; try tauto; discriminate. }
  unfold call_result. pose proof (call_eqt (history k c new_decoder hist) new_decoder q E) as [E1 (E2 & _)].
  destruct (call_raw k c (history k c new_decoder hist) q) as [r1 s1], (call_raw k c new_decoder q) as [r2 s2].
  cbn in E1, E2. now subst r2; rewrite E2.
Qed.

(** * Aliasing *)
Lemma clean_final by_ ib ibuf shift b s fuel idx l r s' : R by_ ib ibuf shift b b s s -> l <> ib ->
  decode c by_ ibuf shift fuel idx l s = (Ok r, s') -> R by_ ib ibuf shift b b s' s'.
Proof.
  intros Hr Hl E. pose proof (decode_sim c by_ [] ib ibuf shift b b fuel fuel idx l (Nat.le_refl _) Hl s s Hr) as S.
  cbv zeta in S. rewrite app_nil_r, E in S. cbn in S. tauto.
Qed.

Lemma overwritten by_ ibuf shift b s b' n v : R by_ 0 ibuf shift b b s s ->
  clean 0 ibuf (shift, shift + length by_) v ->
  (ibuf <> 0 \/ no_regexp (observe n (d_heap s) v) = true) ->
  observe n (upd (d_heap s) 0 (CBuf b')) v = observe n (d_heap s) v.
Proof.
  intros (_ & _ & _ & A4 & _ & _ & A7) Cv H.
  assert (L0 : 0 < length (d_heap s)) by (eapply nth_error_Some_lt; exact A4).
  apply (observe_same 0 ibuf (shift, shift + length by_) (d_heap s) (upd (d_heap s) 0 (CBuf b')) b b').
  - exact A4.
  - now apply nth_error_upd_same.
  - intros l Hl. symmetry. now apply nth_error_upd_other; auto.
  - exact A7.
  - exact Cv.
  - destruct H as [H|H]; [left; congruence|now right].
Qed.

Theorem no_alias b h v b' n ver typ l nn rest : starts b ver typ l nn rest ->
  unmarshal_fresh k c b = Ok (h, v) ->
  typ <> 0%N \/ no_regexp (observe n h v) = true ->
  observe n (upd h 0 (CBuf b')) v = observe n h v.
Proof.
  intros St U H. destruct (unmarshal_fresh_Ok _ _ _ _ _ U) as (s' & E & -> & ->). clear U.
  destruct (raw_cases k c b 0 TgtNone (TgtIface 2) (fresh_state b)) as [(e & E' & _)|(ver2 & typ2 & l2 & n2 & rest2 & dec & S & T & D & B)];
    [rewrite E' in E; discriminate|].
  destruct (starts_det _ _ _ _ _ _ _ _ _ _ _ St S) as (<- & <- & <- & <- & <-). clear S.
  rewrite (raw_good k c _ _ _ _ _ _ _ _ _ _ _ St D B) in E.
  unfold unmarshal_header in E. cbn [target_nil orb] in E. unfold mbind at 1 in E. unfold ret at 1 in E.
  rewrite body_unfold in E. unfold mbind in E.
  set (bs := Z.to_nat (bodyStart_of l nn)) in *. assert (Lb : bs <= length b) by (unfold bs; lia).
  destruct (unpacked_cases k b 0 dec bs (fresh_state b) Lb) as [(nb & ib & s1 & U & _ & Lb' & Cs)|[[e U]|(U & _)]];
    rewrite U in E; try discriminate.
  assert (Fin : exists by_ shift ibuf, R by_ 0 ibuf shift b b s' s' /\ (typ <> 0%N -> ibuf <> 0)).
  { assert (Ri : forall by_ shift, R by_ 0 ib shift b b (reset s1) (reset s1)).
    { intros. destruct Cs as [(_ & _ & -> & ->)|(_ & _ & -> & ->)]; [apply ready_R|].
      unfold R. cbn. repeat split; auto.
      intros [|[|[|[|x]]]] cl Hx; cbn in Hx; try (injection Hx as <-; exact I). destruct x; discriminate. }
    assert (Ti : typ <> 0%N -> ib <> 0).
    { intros Ht. destruct Cs as [(Hd & _)|(_ & _ & -> & _)]; [|discriminate].
      subst dec. apply decompressor_raw in D. congruence. }
    unfold body_run in E. destruct (_ =? 1)%N.
    - unfold run_decode, mbind in E.
      destruct (decode c nb ib 0 (decode_fuel nb) bs 2 (reset s1)) as [[i| | | |] t] eqn:De; try discriminate.
      injection E as <-. exists nb, 0, ib. split; [|exact Ti].
      exact (clean_final nb 0 ib 0 b _ _ _ _ _ _ (Ri _ _) (Nat.neq_succ_0 1) De).
    - destruct (Nat.eqb bs 0); [discriminate|]. destruct (slice_from nb (bs - 1)) as [by_|]; [|discriminate].
      unfold run_decode, mbind in E.
      destruct (decode c by_ ib (bs - 1) (decode_fuel by_) 1 2 (reset s1)) as [[i| | | |] t] eqn:De; try discriminate.
      injection E as <-. exists by_, (bs - 1), ib. split; [|exact Ti].
      exact (clean_final by_ 0 ib (bs - 1) b _ _ _ _ _ _ (Ri _ _) (Nat.neq_succ_0 1) De). }
  destruct Fin as (by_ & shift & ibuf & Rf & Ti).
  apply (overwritten by_ ibuf shift b s' b' n).
  - exact Rf.
  - destruct Rf as (_ & _ & _ & _ & _ & _ & A7). eapply cget. exact A7.
  - destruct H as [H|H]; auto.
Qed.
End More.
