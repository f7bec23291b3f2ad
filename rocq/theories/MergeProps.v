(** Properties of Append and Finish for any history of calls. *)
From Verif Require Import Base BaseFacts SpecVarint Varint VarintFacts Tags Codecs Encode Compress Header
  GoMem Spec SpecDoc GrammarFacts DocFacts GoSlice RedocFacts Merge SpecMerge MergeFacts MergeItems MergeRun MergeSafe.
From Coq Require Import ZifyBool ZifyNat ZifyN.
Ltac Zify.zify_post_hook ::= Z.div_mod_to_equations.

(** the sum of the reported counts *)
Definition reported (r : res Z) : Z := match r with Ok n => n | _ => 0%Z end.
Definition total (rs : list (res Z)) : Z := fold_right (fun r s => (reported r + s)%Z) 0%Z rs.

Section Any.
Variable k : codecs.
Variable w : mworld.

Definition ready (top ver : N) (sum : Z) (m : merger) : Prop :=
  (top = 0 \/ top = 1)%N /\ m_inited m = true /\ m_version m = ver /\ m_bodyOffset m = 5 /\ m_lenOffset m = lo top /\
  slice_ok (m_mem m) (m_buf m) /\ lo top + 5 <= sl_len (m_buf m) /\
  firstn (lo top) (contents (m_mem m) (m_buf m)) = hdr ver ++ opening top /\
  (forall v o, assoc v (m_str m) = Some o -> lo top <= o) /\ (forall v o, assoc v (m_obj m) = Some o -> lo top <= o) /\
  m_length m = wrap64 sum.

(** before the first successful initMerger *)
Definition raw (v : N) (m : merger) : Prop :=
  m_inited m = false /\ m_finished m = false /\ m_length m = 0%Z /\ (m_version m = v \/ m_version m = out_version v).

Lemma raw_new v : raw v (new_merger v).
Proof. repeat split. now left. Qed.

Lemma init_raw g v m r m' : (v = 0 \/ v = 2 \/ v = 3)%N -> raw v m -> initMerger w g m = (r, m') ->
  match r with
  | Ok _ => ready (g_top g) (out_version v) 0 m' /\ m_finished m' = false
  | _ => raw v m'
  end.
Proof.
  intros Hv (R1 & R2 & R3 & R4). unfold initMerger. rewrite R1.
  destruct (Nat.ltb 0 (g_expected g) && _); [intros [= <- <-]; repeat split; auto|].
  set (ver := if (m_version m =? 0)%N then ProtocolVersion else m_version m).
  assert (Ev : ver = out_version v).
  { unfold ver, out_version, ProtocolVersion in *. destruct R4 as [->| ->]; [reflexivity|]. destruct Hv as [->|[->| ->]]; reflexivity. }
  clearbody ver.
  assert (Hv' : (ver = 2 \/ ver = 3)%N) by (rewrite Ev; unfold out_version; destruct Hv as [->|[->| ->]]; cbn; auto).
  destruct (N.ltb_spec ProtocolVersion ver) as [L|_]; [unfold ProtocolVersion in L; lia|].
  set (start := put32le _ ++ [n2b ver]).
  assert (Es : start = magic ver ++ [n2b ver]) by (unfold start; destruct Hv' as [->| ->]; reflexivity). clearbody start.
  pose proof (make_with_contents (m_mem m) start (Nat.max headerSize (g_expected g))) as M.
  destruct (make_with (m_mem m) start _) as [s0 mem0]. destruct M as (C0 & L0 & O0 & _).
  destruct (w_append w mem0 s0 [x00]) as [s1 mem1] eqn:A1. apply (w_append_ok _ _ _ _ _ _ O0) in A1 as (O1 & L1 & C1 & _).
  assert (Ls : length start = 5) by (rewrite Es; destruct Hv' as [->| ->]; reflexivity).
  rewrite C0 in C1. rewrite L0, Ls in L1. cbn [length] in L1. rewrite L1. replace (5 + 1 - 1) with 5 by lia.
  cbn [m_inited m_finished m_version m_bodyOffset m_lenOffset m_length m_mem m_buf m_str m_obj].
  match goal with |- match ?x with Some _ => _ | None => _ end = _ -> _ => destruct x as [tags|] eqn:Et end.
  2:{ intros [= <- <-]. repeat split; cbn; auto. }
  assert (T : (g_top g = 0 \/ g_top g = 1)%N /\ tags = opening (g_top g)).
  { unfold opening. destruct (N.eqb_spec (g_top g) 0); [|destruct (N.eqb_spec (g_top g) 1); [|discriminate]];
      injection Et as <-; auto. }
  destruct T as [T ->]. clear Et.
  destruct (w_append w mem1 s1 _) as [s2 mem2] eqn:A2. apply (w_append_ok _ _ _ _ _ _ O1) in A2 as (O2 & L2 & C2 & _).
  change (repeat (n2b typePAD) 5) with slot.
  destruct (w_append w mem2 s2 _) as [s3 mem3] eqn:A3. apply (w_append_ok _ _ _ _ _ _ O2) in A3 as (O3 & L3 & C3 & _).
  assert (Lo : length (opening (g_top g)) = lo (g_top g) - 6) by (destruct T as [->| ->]; reflexivity).
  assert (Lg : 7 <= lo (g_top g)) by (destruct T as [->| ->]; cbn; lia).
  intros [= <- <-]. split; [|exact R2].
  split; [exact T|]. cbn [m_inited m_finished m_version m_bodyOffset m_lenOffset m_length m_mem m_buf m_str m_obj].
  split; [reflexivity|]. split; [exact Ev|]. split; [reflexivity|]. split; [lia|]. split; [exact O3|].
  split; [cbn [length slot] in L3; lia|]. split.
  - rewrite C3, C2, C1, Es. rewrite <- Ev. unfold hdr.
    replace ((magic ver ++ [n2b ver]) ++ [x00]) with (magic ver ++ [n2b ver; x00]) by (now rewrite <- app_assoc).
    assert (Lh : length (magic ver ++ [n2b ver; x00]) = 6) by (destruct Hv' as [->| ->]; reflexivity).
    rewrite firstn_app, firstn_all2; [|rewrite app_length; lia].
    rewrite app_length, Lh, Lo. replace (lo (g_top g) - (6 + (lo (g_top g) - 6))) with 0 by lia.
    rewrite firstn_O. apply app_nil_r.
  - split; [intros; discriminate|]. split; [intros; discriminate|]. exact R3.
Qed.

(** ** Append on a Merger that is ready *)
Lemma init_ready top ver sum g m : ready top ver sum m -> initMerger w g m = (Ok tt, m).
Proof. intros (_ & I & _). unfold initMerger. now rewrite I. Qed.

(** What an Append that gets as far as merging starts from: the same bytes, in the same or a
    larger array. *)
Record begun (m : merger) (d : mdoc) (m1 : merger) : Prop := mkBegun {
  b_contents : contents (m_mem m1) (m_buf m1) = contents (m_mem m) (m_buf m);
  b_len : sl_len (m_buf m1) = sl_len (m_buf m);
  b_ok : slice_ok (m_mem m1) (m_buf m1);
  b_arr : 0 < sl_len (m_buf m) -> sl_arr (m_buf m1) < length (m_mem m1);
  b_rest : m_str m1 = m_str m /\ m_obj m1 = m_obj m /\ m_version m1 = m_version m /\ m_length m1 = m_length m /\
           m_lenOffset m1 = m_lenOffset m /\ m_bodyOffset m1 = m_bodyOffset m /\ m_inited m1 = m_inited m /\
           m_finished m1 = m_finished m
}.

Lemma append_cases g m b spare r m' : m_inited m = true -> m_finished m = false -> slice_ok (m_mem m) (m_buf m) ->
  Append k w g m b spare = (r, m') ->
  (m' = m /\ (forall n, r <> Ok n) /\ (forall d t, merger_doc k w b spare = Ok d -> buildTrackTable (md_buf d) <> Ok t)) \/
  exists d tracked m1 r1, merger_doc k w b spare = Ok d /\ buildTrackTable (md_buf d) = Ok tracked /\ begun m d m1 /\
    mergeItems w g m1 d tracked = (r1, m') /\
    r = match r1 with Ok _ => Ok (wrap64 (m_length m' - m_length m)) | Err e => Err e | Panic e => Panic e | Crash => Crash | NoFuel => NoFuel end.
Proof.
  intros In Fi O. unfold Append, initMerger. rewrite In, Fi.
  destruct (merger_doc k w b spare) as [d|? |? | |] eqn:Ed; cbn [bind];
    try (intros [= <- <-]; left; repeat split; try (intros; discriminate); fail).
  destruct (buildTrackTable (md_buf d)) as [tracked|? |? | |] eqn:Et; cbn [bind];
    try (intros [= <- <-]; left; repeat split; try (intros; congruence); fail).
  destruct (w_append w (m_mem m) (m_buf m) (md_buf d)) as [s mem] eqn:A.
  pose proof (w_append_ok _ _ _ _ _ _ O A) as (O1 & L1 & C1 & Lm & Sn).
  set (s1 := mkSlice (sl_arr s) (sl_off s) (sl_len (m_buf m)) (sl_cap s)). set (m1 := with_buf m s1 mem).
  assert (Cs : contents mem s1 = contents (m_mem m) (m_buf m)).
  { unfold s1. rewrite truncate_contents, C1, <- (contents_length _ _ O) by lia.
    now rewrite firstn_app, Nat.sub_diag, firstn_all, app_nil_r. }
  intros H. right. exists d, tracked, m1. destruct (mergeItems w g m1 d tracked) as [r1 m2] eqn:M. exists r1.
  split; [reflexivity|]. split; [exact Et|]. split.
  { split; cbn [m1 with_buf m_mem m_buf]; auto.
    - destruct O1 as [O1 O2]. split; cbn; [lia|exact O2].
    - intros L. destruct O1 as [O1 [O2|O2]]; [cbn [s1 sl_arr]; lia|]. apply array_long. cbn [s1 sl_arr]. lia.
    - repeat split. }
  destruct r1 as [[]|? |? | |]; cbn [bind] in H; injection H as <- <-; auto.
Qed.

(** ** The old slice while the loop runs *)
Lemma w_append_arrays mem s b s' mem' a : slice_ok mem s -> w_append w mem s b = (s', mem') ->
  length (array mem a) <= length (array mem' a).
Proof.
  intros [O1 O2] E. unfold w_append, append_slice in E. destruct (Nat.leb_spec (sl_len s + length b) (sl_cap s)) as [L|L].
  - injection E as _ <-. destruct (Nat.eq_dec (sl_arr s) a) as [<-|Ne].
    + destruct (Nat.lt_ge_cases (sl_arr s) (length mem)) as [La|La].
      * rewrite array_upd_same by exact La. unfold overwrite. rewrite !app_length, firstn_length, skipn_length. lia.
      * unfold array at 1. rewrite nth_overflow by lia. cbn. lia.
    + now rewrite array_upd_other by exact Ne.
  - unfold make_with in E. injection E as _ <-. unfold array. destruct (Nat.lt_ge_cases a (length mem)).
    + now rewrite app_nth1 by lia.
    + rewrite nth_overflow by lia. cbn. lia.
Qed.
Lemma ok_grow mem mem' s : slice_ok mem s -> length (array mem (sl_arr s)) <= length (array mem' (sl_arr s)) -> slice_ok mem' s.
Proof. intros [A B] L. split; lia. Qed.

Lemma set_track_other mem s i mem' s1 : slice_ok mem s -> set_track mem s i = Ok mem' ->
  (sl_arr s = sl_arr s1 -> sl_off s = sl_off s1 /\ sl_len s1 <= sl_len s) -> slice_ok mem s1 ->
  slice_ok mem' s1 /\ (contents mem' s1 = contents mem s1 \/ exists x, contents mem' s1 = upd (contents mem s1) i x).
Proof.
  intros O E B O1. pose proof O as [Oa Ob]. unfold set_track in E. destruct (Nat.ltb_spec i (sl_len s)) as [L|]; [|discriminate]. injection E as <-.
  destruct Ob as [Ob|Ob]; [lia|]. assert (La : sl_arr s < length mem) by (apply array_long; lia).
  set (x := n2b _). destruct (Nat.eq_dec (sl_arr s) (sl_arr s1)) as [Ea|Ea].
  - destruct (B Ea) as [Eo Ll]. split.
    + apply (ok_grow mem); [exact O1|]. rewrite <- Ea, array_upd_same, upd_length by exact La. lia.
    + right. exists x. unfold contents. rewrite <- Ea, array_upd_same by exact La. rewrite <- Eo, skipn_upd, firstn_upd. reflexivity.
  - split; [|left; unfold contents; now rewrite array_upd_other by exact Ea].
    apply (ok_grow mem); [exact O1|]. now rewrite array_upd_other by exact Ea.
Qed.

Definition Oinv (s1 : slice) (L : nat) (P0 : bytes) (st : mstate) : Prop :=
  Linv L P0 st /\ slice_ok (s_mem st) s1 /\ beside s1 st /\ firstn L (contents (s_mem st) s1) = P0.

Lemma Oinv_step s1 L P0 g d st st' : Oinv s1 L P0 st -> merge_step w g 5 d st = Ok (Some st') -> Oinv s1 L P0 st'.
Proof.
  intros (Li & O1 & [B1 B2] & F) H. split; [eapply Linv_step; eassumption|].
  destruct Li as (O & Ln & _ & T).
  destruct (step_facts w (fun o => L <= o) g 5 d st st' O T ltac:(cbv beta; lia) ltac:(cbv beta; lia) H) as (b & out & mem1 & _ & A & M & _).
  pose proof (w_append_other w _ _ _ _ _ s1 O A B1 B2) as Ok.
  pose proof (w_append_arrays _ _ _ _ _ (sl_arr s1) O A) as Ar.
  apply (w_append_ok w _ _ _ _ _ O) in A as (O2 & L2 & C2 & Lm & Sn).
  pose proof (ok_grow _ _ _ O1 Ar) as O3.
  assert (B3 : sl_arr (s_buf st') = sl_arr s1 -> sl_off (s_buf st') = sl_off s1 /\ sl_len s1 <= sl_len (s_buf st')).
  { intros Ea. destruct Sn as [(Sa & So & _)|Sa]; [|lia]. rewrite So, L2. rewrite Sa in Ea. specialize (B2 Ea). lia. }
  unfold beside. destruct M as [->|(i & Li & _ & M)].
  - split; [exact O3|]. split; [split; [lia|exact B3]|]. now rewrite Ok.
  - destruct (set_track_other _ _ _ _ s1 O2 M B3 O3) as [O4 C4].
    apply (set_track_ok _ _ _ _ O2) in M as (_ & Lm2 & _).
    split; [exact O4|]. split; [split; [lia|exact B3]|].
    destruct C4 as [->|[x ->]]; rewrite Ok; [exact F|].
    rewrite firstn_upd, F, upd_out; [reflexivity|]. rewrite <- F, firstn_length. lia.
Qed.

Definition failed {A} (r : res A) : Prop := forall n, r <> Ok n.

Lemma merge_ready top ver sum g m d m1 tracked r m' : ready top ver sum m -> begun m d m1 ->
  mergeItems w g m1 d tracked = (r, m') ->
  m_finished m' = m_finished m /\
  match r with
  | Ok _ => exists n, (0 <= n <= 4294967295)%Z /\ ready top ver (sum + n) m' /\ m_length m' = wrap64 (m_length m + n)
  | _ => ready top ver sum m'
  end.
Proof.
  intros (T & In & Ve & Bo & Le & O & L & F & S1 & S2 & Sm) [Bc Bl Bs Ba (E1 & E2 & E3 & E4 & E5 & E6 & E7 & E8)] H.
  assert (R1 : ready top ver sum m1).
  { unfold ready. rewrite Bc, Bl, E1, E2, E3, E4, E5, E6, E7. auto 15. }
  unfold mergeItems in H. destruct (expectedElements g (md_buf d)) as [[n skip]|? |? | |];
    try (injection H as <- <-; auto; fail).
  destruct ((n <? 0) || (maxUint32 <? n))%Z eqn:Rn; [injection H as <- <-; auto|].
  rewrite E6, Bo in H. set (st := mkMState _ _ _ _ _ _ _ _) in H.
  destruct (merge_loop w (Datatypes.S (length (md_buf d))) g 5 d st) as [r1 fin] eqn:Lp.
  assert (Li : Oinv (m_buf m1) (lo top) (hdr ver ++ opening top) st).
  { split; [|split; [exact Bs|split]].
    - split; [exact Bs|]. split; [cbn [st s_buf]; lia|]. split; [cbn [st s_mem s_buf]; now rewrite Bc|].
      split; [|split]; cbn [st s_str s_obj s_ttab]; rewrite ?E1, ?E2; auto. intros v o Fd. now apply tfind_new in Fd.
    - split; [apply Ba; lia|]. cbn [st s_buf]. auto.
    - cbn [st s_mem]. now rewrite Bc. }
  pose proof (loop_keeps w _ g 5 d (Oinv_step (m_buf m1) (lo top) (hdr ver ++ opening top) g d) _ _ _ _ Li Lp)
    as ((O' & L' & F' & T1 & T2 & _) & O1' & _ & F1').
  unfold maxUint32 in Rn.
  assert (K : ready top ver sum (mkMerger (s_mem fin) (m_buf m1) (s_str fin) (s_obj fin) (m_version m1) (m_length m1)
                    (m_lenOffset m1) 5 (m_inited m1) (m_finished m1))).
  { unfold ready. cbn [m_inited m_finished m_version m_bodyOffset m_lenOffset m_length m_mem m_buf m_str m_obj].
    rewrite Bl, E3, E4, E5, E7. auto 15. }
  destruct r1 as [[]|? |? | |]; injection H as <- <-; cbn [m_finished]; (split; [exact E8|]); try exact K.
  exists n. split; [lia|]. split; [|cbn [m_length]; now rewrite E4].
  unfold ready. cbn [m_inited m_finished m_version m_bodyOffset m_lenOffset m_length m_mem m_buf m_str m_obj].
  rewrite E3, E4, E5, E7, Sm, wrap64_add. auto 15.
Qed.

Lemma append_ready top ver sum g m b spare r m' : ready top ver sum m -> m_finished m = false ->
  Append k w g m b spare = (r, m') ->
  ready top ver (sum + reported r) m' /\ m_finished m' = false /\ (0 <= reported r <= 4294967295)%Z.
Proof.
  intros R Fi H. pose proof R as (_ & In & _ & _ & _ & O & _ & _ & _ & _ & Sm).
  destruct (append_cases g m b spare r m' In Fi O H) as [(-> & Nr & _)|(d & tracked & m1 & r1 & _ & _ & Bg & M & ->)].
  - assert (E : reported r = 0%Z) by (destruct r as [n|? |? | |]; try reflexivity; now elim (Nr n)).
    rewrite E, Z.add_0_r. split; [exact R|split; [exact Fi|lia]].
  - destruct (merge_ready _ _ _ _ _ _ _ _ _ _ R Bg M) as [F1 K]. rewrite F1.
    destruct r1 as [u|? |? | |]; cbn [reported]; rewrite ?Z.add_0_r; try (split; [exact K|split; [exact Fi|lia]]).
    destruct K as (n & Hn & K & El). rewrite El, wrap64_diff, wrap64_small by (unfold two63; lia).
    split; [exact K|split; [exact Fi|lia]].
Qed.

Definition hist (top v : N) (sum : Z) (m : merger) : Prop :=
  m_finished m = false /\ ((raw v m /\ sum = 0%Z) \/ ready top (out_version v) sum m).

Lemma append_init_any g m r m1 b spare : initMerger w g m = (Ok r, m1) -> m_inited m1 = true ->
  Append k w g m b spare = Append k w g m1 b spare.
Proof. intros E I. unfold Append. rewrite E. unfold initMerger at 1. now rewrite I. Qed.
Lemma finish_init_any g m r m1 : initMerger w g m = (Ok r, m1) -> m_inited m1 = true ->
  Finish k w g m = Finish k w g m1.
Proof. intros E I. unfold Finish. rewrite E. unfold initMerger at 1. now rewrite I. Qed.

Lemma append_hist top v sum g m b spare r m' : (v = 0 \/ v = 2 \/ v = 3)%N -> hist top v sum m -> g_top g = top ->
  Append k w g m b spare = (r, m') -> hist top v (sum + reported r) m' /\ (0 <= reported r <= 4294967295)%Z.
Proof.
  intros Hv (Fi & [[R Z]|R]) Ht H.
  - destruct (initMerger w g m) as [ri m1] eqn:E. pose proof (init_raw g v m ri m1 Hv R E) as K.
    destruct ri as [u|? |? | |]; try (unfold Append in H; rewrite E in H; injection H as <- <-; cbn [bind reported];
      rewrite Z.add_0_r; split; [split; [apply K|left; auto]|lia]).
    destruct K as [K F1]. rewrite Ht, <- Z in K. rewrite (append_init_any _ _ _ _ _ _ E) in H by apply K.
    destruct (append_ready _ _ _ _ _ _ _ _ _ K F1 H) as (A & B & C). split; [split; [exact B|right; exact A]|lia].
  - destruct (append_ready _ _ _ _ _ _ _ _ _ R Fi H) as (A & B & C). split; [split; [exact B|right; exact A]|lia].
Qed.

Lemma each_hist top v : (v = 0 \/ v = 2 \/ v = 3)%N -> forall calls sum m rs m', hist top v sum m ->
  Forall (fun c => g_top (c_conf c) = top) calls -> append_each k w m calls = (rs, m') ->
  hist top v (sum + total rs) m' /\ Forall (fun r => (0 <= reported r <= 4294967295)%Z) rs /\ length rs = length calls.
Proof.
  intros Hv. induction calls as [|c calls IH]; intros sum m rs m' Hi F H; cbn [append_each] in H.
  - injection H as <- <-. cbn [total fold_right]. rewrite Z.add_0_r. auto.
  - destruct (Append k w (c_conf c) m (c_doc c) (c_spare c)) as [r m1] eqn:A.
    destruct (append_each k w m1 calls) as [rs1 m2] eqn:E. injection H as <- <-.
    inversion F; subst. destruct (append_hist _ _ _ _ _ _ _ _ _ Hv Hi eq_refl A) as [H1 B1].
    destruct (IH _ _ _ _ H1 ltac:(assumption) E) as (Hi2 & B2 & L2). cbn [total fold_right length].
    rewrite Z.add_assoc. fold (total rs1). auto.
Qed.

Lemma total_nonneg rs : Forall (fun r => (0 <= reported r <= 4294967295)%Z) rs -> (0 <= total rs)%Z.
Proof. induction 1; cbn [total fold_right]; [lia|]. fold (total l). lia. Qed.

Lemma new_hist top v : hist top v 0 (new_merger v).
Proof. split; [reflexivity|]. left. split; [apply raw_new|reflexivity]. Qed.

(** Finish writes the count in its place *)
Lemma put_ready top ver sum m : ready top ver sum m -> (0 <= sum < 34359738368)%Z -> (ver = 2 \/ ver = 3)%N ->
  exists mem rest, put_uvarint (m_mem m) (m_buf m) (m_lenOffset m) (m_length m) = Ok mem /\ slice_ok mem (m_buf m) /\
    contents mem (m_buf m) = hdr ver ++ opening top ++ varint (Z.to_N sum) ++ rest /\
    skipn (lo top + 5) (contents mem (m_buf m)) = skipn (lo top + 5) (contents (m_mem m) (m_buf m)).
Proof.
  intros (T & In & Ve & Bo & Le & O & L & F & S1 & S2 & Sm) Hs Hv. unfold put_uvarint.
  rewrite Sm, wrap64_small, Le by (unfold two63; lia).
  assert (Et : to_uint sum = Z.to_N sum) by (unfold to_uint; rewrite Z.mod_small by (unfold two64; lia); lia).
  rewrite Et. assert (Lv : 1 <= length (varint (Z.to_N sum)) <= 5) by (apply varint_five; lia).
  set (v := varint _) in *. clearbody v.
  destruct (Nat.leb_spec (lo top + length v) (sl_len (m_buf m))) as [Lb|]; [|lia].
  set (C := contents (m_mem m) (m_buf m)) in *.
  assert (Lg : 7 <= lo top) by (destruct T as [->| ->]; cbn; lia).
  assert (Lc : length C = sl_len (m_buf m)) by (apply contents_length; exact O).
  eexists. exists (skipn (lo top + length v) C). split; [reflexivity|]. split.
  { destruct O as [O1 O2]. split; [exact O1|]. destruct O2 as [O2|O2]; [now left|right].
    rewrite array_upd_same by (apply array_long; lia). rewrite overwrite_length by lia. exact O2. }
  rewrite put_contents by (try exact O; lia). fold C. unfold overwrite. rewrite F. split; [now rewrite <- app_assoc|].
  rewrite <- F, app_assoc, skipn_app, (skipn_all2 (_ ++ v)); [|rewrite app_length, firstn_length; lia].
  rewrite app_length, firstn_length, Nat.min_l by lia. cbn [app]. rewrite skipn_add. f_equal. lia.
Qed.

Lemma init_succeeds g v m : (v = 0 \/ v = 2 \/ v = 3)%N -> raw v m -> (g_top g = 0 \/ g_top g = 1)%N ->
  (g_expected g = 0 \/ 5 <= g_expected g) -> exists m1, initMerger w g m = (Ok tt, m1).
Proof.
  intros Hv (R1 & R2 & R3 & R4) T He. unfold initMerger. rewrite R1.
  replace (Nat.ltb 0 (g_expected g) && Nat.ltb (g_expected g) headerSize) with false by (unfold headerSize; lia).
  set (ver := if (m_version m =? 0)%N then ProtocolVersion else m_version m).
  assert (Hv' : (ver = 2 \/ ver = 3)%N).
  { unfold ver, out_version, ProtocolVersion in *. destruct R4 as [->| ->]; destruct Hv as [->|[->| ->]]; cbn; auto. }
  clearbody ver. destruct (N.ltb_spec ProtocolVersion ver) as [L|_]; [unfold ProtocolVersion in L; lia|].
  assert (E : exists tags, (if (g_top g =? 0)%N then Some [n2b typeARRAY]
     else if (g_top g =? 1)%N then Some [n2b typeREFN; n2b typeARRAY] else None) = Some tags)
    by (destruct T as [->| ->]; eexists; reflexivity).
  destruct E as [tags ->]. destruct (make_with _ _ _). destruct (w_append _ _ _ _).
  destruct (w_append _ _ _ _). destruct (w_append _ _ _ _). eauto.
Qed.

Lemma finish_hist top v sum g m r m' : (v = 0 \/ v = 2 \/ v = 3)%N -> (top = 0 \/ top = 1)%N -> hist top v sum m ->
  g_top g = top -> g_comp g = None -> (g_expected g = 0 \/ 5 <= g_expected g) -> (0 <= sum < 34359738368)%Z ->
  Finish k w g m = (r, m') ->
  exists rest, r = Ok (hdr (out_version v) ++ opening top ++ varint (Z.to_N sum) ++ rest).
Proof.
  intros Hv T (Fi & Hi) Ht Hc He Hs H.
  assert (Hv' : (out_version v = 2 \/ out_version v = 3)%N) by (unfold out_version; destruct Hv as [->|[->| ->]]; cbn; auto).
  assert (J : exists m1, ready top (out_version v) sum m1 /\ m_finished m1 = false /\ Finish k w g m1 = (r, m')).
  { destruct Hi as [[R Z]|R]; [|now exists m].
    destruct (initMerger w g m) as [ri m1] eqn:E. pose proof (init_raw g v m ri m1 Hv R E) as K.
    assert (Eok : exists u, ri = Ok u).
    { destruct (init_succeeds g v m Hv R ltac:(now rewrite Ht) He) as [m2 E2]. exists tt. congruence. }
    destruct Eok as [u ->]. destruct K as [K F1]. rewrite Ht, <- Z in K. exists m1. split; [exact K|]. split; [exact F1|].
    now rewrite <- (finish_init_any _ _ _ _ E) by apply K. }
  destruct J as (m1 & R & F1 & H1). unfold Finish in H1. rewrite (init_ready _ _ _ _ _ R), F1 in H1.
  destruct (put_ready _ _ _ _ R Hs Hv') as (mem & rest & Pu & _ & C & _). rewrite Pu, Hc in H1. injection H1 as <- _.
  cbn [set_finished m_mem m_buf]. exists rest. now rewrite C.
Qed.

(** ** After Finish *)
Lemma finished_append g m b spare : m_inited m = true -> m_finished m = true -> Append k w g m b spare = (Err EFinished, m).
Proof. intros I F. unfold Append, initMerger. now rewrite I, F. Qed.
Lemma finished_finish g m : m_inited m = true -> m_finished m = true ->
  Finish k w g m = (Ok (contents (m_mem m) (m_buf m)), m).
Proof. intros I F. unfold Finish, initMerger. now rewrite I, F. Qed.

Lemma init_inited g m u m1 : initMerger w g m = (Ok u, m1) -> m_inited m1 = true.
Proof.
  unfold initMerger. destruct (m_inited m) eqn:I; [intros [= _ <-]; exact I|].
  destruct (Nat.ltb 0 (g_expected g) && _); [discriminate|].
  destruct (_ <? _)%N; [discriminate|]. destruct (make_with _ _ _). destruct (w_append _ _ _ _).
  match goal with |- match ?x with Some _ => _ | None => _ end = _ -> _ => destruct x end; [|discriminate].
  destruct (w_append _ _ _ _). destruct (w_append _ _ _ _). intros [= _ <-]. reflexivity.
Qed.

Lemma finish_final g m out m' : Finish k w g m = (Ok out, m') ->
  m_inited m' = true /\ m_finished m' = true /\ contents (m_mem m') (m_buf m') = out.
Proof.
  unfold Finish. destruct (initMerger w g m) as [[u|? |? | |] m1] eqn:E; try discriminate.
  apply init_inited in E. destruct (m_finished m1) eqn:F; [intros [= <- <-]; auto|].
  destruct (put_uvarint _ _ _ _) as [mem|? |? | |]; try discriminate.
  destruct (g_comp g) as [c|]; [|intros [= <- <-]; cbn; auto].
  destruct (_ || _)%Z; [|intros [= <- <-]; cbn; auto].
  unfold finish_comp. cbn [set_finished m_buf m_bodyOffset m_mem].
  destruct (reslice _ _ _) as [body|]; [|discriminate].
  destruct (compress_at k c mem body) as [[z mem2]|? |? | |]; try discriminate.
  cbn [with_buf m_buf m_bodyOffset]. destruct (reslice _ _ _) as [s|]; [|discriminate].
  destruct c as [[]| |]; try discriminate; cbn [m_version].
  - intros [= <- <-]. cbn. auto.
  - destruct (_ <? _)%N; [discriminate|]. intros [= <- <-]. cbn. auto.
Qed.
End Any.
