(** Append and Finish succeed on the documents of SpecAccept. *)
From Verif Require Import Base BaseFacts SpecVarint Varint VarintFacts Tags Codecs Header Decode Document GoMem Spec SpecDoc GrammarFacts
  GoSlice RedocFacts DocFacts Merge MergeFacts MergeItems MergeRun SpecAccept MergeAccept.
From Coq Require Import Sorted ZifyBool ZifyNat ZifyN.

(** * The sorted table *)
Lemma insert_in x n l : In x (insert n l) <-> x = n \/ In x l.
Proof.
  induction l as [|y l IH]; cbn [insert]; [cbn; intuition|].
  destruct (Nat.ltb_spec n y); [cbn; intuition|]. destruct (Nat.eqb_spec n y) as [->|]; [cbn; intuition|].
  cbn [In]. rewrite IH. intuition.
Qed.
Lemma insert_sorted n l : StronglySorted lt l -> StronglySorted lt (insert n l).
Proof.
  induction 1 as [|y l Hl IH Hy]; cbn [insert]; [constructor; constructor|]. rewrite Forall_forall in Hy.
  destruct (Nat.ltb_spec n y).
  - constructor; [constructor; [exact Hl|apply Forall_forall; exact Hy]|]. apply Forall_forall. intros x [<-|Hx]; [assumption|apply Hy in Hx; lia].
  - destruct (Nat.eqb_spec n y) as [->|]; [constructor; [exact Hl|apply Forall_forall; exact Hy]|].
    constructor; [exact IH|]. apply Forall_forall. intros x Hx. apply insert_in in Hx as [->|Hx]; [lia|auto].
Qed.
Lemma keys_sorted l : StronglySorted lt (sorted_keys l).
Proof. induction l as [|x l IH]; [constructor|]. now apply insert_sorted. Qed.
Lemma keys_in x l : In x (sorted_keys l) <-> In x l.
Proof. induction l as [|y l IH]; [reflexivity|]. cbn [sorted_keys fold_right]. rewrite insert_in. fold (sorted_keys l). rewrite IH. cbn. intuition. Qed.

(** * What a document announces *)
Lemma opening_scan (g : mconfig) d n p b : (Z.of_nat (length (md_buf d)) < 2147483647)%Z -> nth_error (md_buf d) 0 = Some b -> b = x2b ->
  vint (x00 :: md_buf d) 2 n p -> scans d 1 p [] [] 1.
Proof.
  intros Hl Hb -> Hv. pose proof (vint_ends _ _ _ _ Hv) as L.
  replace p with (1 + (p - 1)) by lia. apply (scans_one g d Hl 1 x2b (p - 1) [] []); [exact Hb|lia|lia|].
  apply (track_vint g d Hl 0 43 n p); [lia|exact Hv].
Qed.

Lemma announced g d n : (Z.of_nat (length (md_buf d)) < 2147483647)%Z -> mergeable (g_flat g) (g_top g) (md_buf d) n ->
  exists p seen j, laid (x00 :: md_buf d) n [] p seen (length (x00 :: md_buf d)) /\
    1 <= p /\ expectedElements g (md_buf d) = Ok (Z.of_nat n, p - 1) /\ scans d 1 p [] [] j.
Proof.
  intros Hl (p & seen & L & H). exists p, seen. unfold expectedElements.
  destruct H as [(-> & -> & Hf)|[(-> & -> & b0 & b1 & l & Eb & H0 & H1)|[(Hf & Ht & Hb & Hv)|[(Hf & Ht & Hb & Hb1 & Hv)|(Hf & Ht & -> & Ln & Hb & L2)]]]].
  - exists 0. split; [exact L|]. split; [lia|]. split; [now rewrite Hf|]. apply (scans_refl g d Hl).
  - exists 0. split; [exact L|]. split; [lia|]. split; [|apply (scans_refl g d Hl)]. destruct (g_flat g); [|reflexivity]. rewrite Eb.
    rewrite !untrack_mod. fold (tag_of b0) (tag_of b1). unfold typeARRAY, typeREFN, typeARRAYREF_0.
    destruct (N.eqb_spec (g_top g) 0) as [T0|T0].
    + specialize (H0 T0). destruct (N.eqb_spec (tag_of b0) 43); [contradiction|reflexivity].
    + destruct (N.eqb_spec (g_top g) 1) as [T1|T1]; [|reflexivity]. destruct (H1 T1) as [A1 A2].
      destruct ((tag_of b0 =? 40) && (tag_of b1 =? 43))%N eqn:C; [exfalso; apply A2; lia|].
      destruct ((64 <=? tag_of b0) && (tag_of b0 <? 64 + 16))%N eqn:C2; [lia|reflexivity].
  - exists 1. pose proof (vint_ends _ _ _ _ Hv) as Le. split; [exact L|]. split; [lia|]. split; [|now apply (opening_scan g d (N.of_nat n) p x2b)].
    rewrite Hf, Ht. destruct (md_buf d) as [|b0 [|b1 l]] eqn:Eb; [discriminate|cbn in Le; lia|]. injection Hb as ->.
    cbn [N.eqb]. change (untrack x2b =? typeARRAY)%N with true. cbn match.
    destruct (varintdecode_vint (x2b :: b1 :: l) 1 (N.of_nat n) p) as [E _]; [exact Hv|].
    rewrite E. destruct (laid_ends _ _ _ _ _ _ L) as (E1 & _). cbn [length] in *. rewrite to_int_small by (unfold two63; lia). f_equal. f_equal; lia.
  - pose proof (vint_ends _ _ _ _ Hv) as Le. exists (1 + 1). split; [exact L|]. split; [lia|]. split.
    + rewrite Hf, Ht. destruct (md_buf d) as [|b0 [|b1 l]] eqn:Eb; [discriminate|discriminate|]. injection Hb as ->. injection Hb1 as ->.
      change (if (1 =? 0)%N then _ else ?x) with x. change (if (1 =? 1)%N then ?x else _) with x.
      change ((untrack x28 =? typeREFN) && (untrack x2b =? typeARRAY))%N with true. cbn match.
      destruct (varintdecode_vint (x28 :: x2b :: l) 2 (N.of_nat n) p) as [E _]; [exact Hv|].
      rewrite E. destruct (laid_ends _ _ _ _ _ _ L) as (E1 & _). cbn [length] in *. rewrite to_int_small by (unfold two63; lia). f_equal. f_equal; lia.
    + eapply (scans_trans g d Hl).
      * apply (scans_one g d Hl 1 x28 1 [] []); [exact Hb|lia|lia|]. apply (track_one g d Hl). cbn. lia.
      * cbn [app plus]. change (tracked_bit x28) with false. cbn match. replace p with (2 + (p - 2)) by lia.
        apply (scans_one g d Hl 2 x2b (p - 2) [] []); [exact Hb1|lia|lia|]. apply (track_vint g d Hl 1 43 (N.of_nat n) p); [lia|exact Hv].
  - exists 1. split; [exact L|]. split; [lia|].
    assert (Tg : tag_of (n2b (64 + N.of_nat n)) = (64 + N.of_nat n)%N) by (unfold tag_of; rewrite b2n_n2b; lia).
    split.
    + rewrite Hf, Ht. destruct (md_buf d) as [|b0 [|b1 l]] eqn:Eb; [discriminate|cbn in L2; lia|].
      assert (b0 = n2b (64 + N.of_nat n)) by (change (Some b0 = Some (n2b (64 + N.of_nat n))) in Hb; congruence). subst b0.
      change (if (1 =? 0)%N then _ else ?x) with x. change (if (1 =? 1)%N then ?x else _) with x.
      rewrite !untrack_mod. fold (tag_of (n2b (64 + N.of_nat n))) (tag_of b1). rewrite Tg. unfold typeREFN, typeARRAY, typeARRAYREF_0.
      destruct ((64 + N.of_nat n =? 40) && _)%N eqn:C; [lia|]. destruct ((64 <=? _) && _)%N eqn:C2; [|lia].
      change 15%N with (N.ones 4). rewrite N.land_ones. change (2 ^ 4)%N with 16%N. f_equal. f_equal; lia.
    + pose proof (scans_one g d Hl 1 (n2b (64 + N.of_nat n)) 1 [] [] Hb ltac:(lia) ltac:(lia)) as S1. rewrite Tg in S1.
      specialize (S1 (track_one g d Hl 0 (64 + N.of_nat n)%N ltac:(clear - Ln; lia))). cbn [app] in S1.
      assert (Tb : tracked_bit (n2b (64 + N.of_nat n)) = false).
      { clear - Ln. do 16 (destruct n as [|n]; [reflexivity|]). lia. }
      rewrite Tb in S1. exact S1.
Qed.

(** * Between calls *)
Record ready (top : N) (m : merger) (n : nat) (L : Z) : Prop := mkReady {
  r_inited : m_inited m = true; r_unfinished : m_finished m = false;
  r_bo : m_bodyOffset m = 5; r_lo : m_lenOffset m = lo top;
  r_slice : slice_ok (m_mem m) (m_buf m); r_slot : m_lenOffset m + 5 <= sl_len (m_buf m);
  r_str : forall v o, assoc v (m_str m) = Some o -> o < sl_len (m_buf m) - 5;
  r_obj : forall v o, assoc v (m_obj m) = Some o -> o < sl_len (m_buf m) - 5;
  r_count : m_length m = Z.of_nat n;
  r_long : (Z.of_nat (sl_len (m_buf m)) <= L)%Z }.

Section Total.
Variable k : codecs.
Variable w : mworld.

Lemma carries_doc b spare body : carries k b body -> exists d, merger_doc k w b spare = Ok d /\ md_buf d = body.
Proof.
  intros (ver & typ & suffix & pre & packed & -> & P & Pk & L1 & L2).
  destruct (readHeader_preamble ver typ suffix pre packed P) as (sz & Rh & Lp & Ls); [rewrite app_length in L1; lia|].
  destruct (unpack k ver typ packed body) as (o & Ho & Hp); [apply P|exact Pk|rewrite app_length in L1; lia|].
  unfold merger_doc. rewrite Rh. cbn [bind h_suffixSize h_version h_doctype]. rewrite app_length in *.
  unfold headerSize in *. rewrite wrap64_small by (unfold two63; lia).
  destruct ((_ <? _) || (_ <? _))%Z eqn:C; [lia|].
  replace (Z.to_nat _) with (length pre) by lia. rewrite skipn_app_len, Ho.
  destruct o as [dk|]; [|destruct Hp as [_ ->]; eauto]. rewrite Hp. cbn [bind]. eauto.
Qed.

Lemma append_accepts top m n L g b spare body c : ready top m n L -> carries k b body ->
  mergeable (g_flat g) (g_top g) body c -> (L + 11 * Z.of_nat (length body) < two63)%Z ->
  (Z.of_nat n + Z.of_nat c < two63)%Z ->
  exists m', Append k w g m b spare = (Ok (Z.of_nat c), m') /\ ready top m' (n + c) (L + 11 * Z.of_nat (length body)).
Proof.
  intros R Cb Mb LL Lc. unfold Append, initMerger. rewrite (r_inited _ _ _ _ R), (r_unfinished _ _ _ _ R).
  assert (Hl : (Z.of_nat (length body) < 2147483647)%Z) by (destruct Cb as (? & ? & ? & ? & ? & _ & _ & _ & _ & H); lia).
  destruct (carries_doc b spare body Cb) as (d & -> & Ed). cbn [bind]. subst body. clear Cb.
  destruct (announced g d c Hl Mb) as (p & seen & j0 & La & Lp & Ee & S0).
  destruct (scan_laid g d Hl c [] p seen _ La Lp []) as (tr & j1 & S1 & F1).
  pose proof (scans_trans g d Hl _ _ _ _ _ _ _ _ S0 S1) as [Sj Sc]. destruct F1 as (_ & F1 & F2).
  destruct (laid_ends _ _ _ _ _ _ La) as (E1 & _ & l & El & Hl2). rewrite app_nil_r in El. subst l.
  unfold buildTrackTable.
  replace (track_loop (length (md_buf d)) (md_buf d) 0 []) with (Ok tr).
  2:{ cbn [length] in Sj. replace (length (md_buf d)) with (j0 + j1 + (length (md_buf d) - (j0 + j1))) at 1 by lia.
      rewrite Sc. cbn [length]. rewrite Nat.sub_succ, Nat.sub_0_r.
      destruct (length (md_buf d) - (j0 + j1)); cbn [track_loop]; (destruct (nth_error (md_buf d) (length (md_buf d))) eqn:X; [|reflexivity]);
        apply nth_error_Some_lt in X; lia. }
  cbn [bind]. pose proof (append_ok (w_grow w (length (m_mem m))) (m_mem m) (m_buf m) (md_buf d) (r_slice _ _ _ _ R)) as A.
  unfold w_append. destruct (append_slice _ (m_mem m) (m_buf m) _) as [s mem]. destruct A as [[O1 O2] Ls].
  set (s1 := mkSlice (sl_arr s) (sl_off s) (sl_len (m_buf m)) (sl_cap s)).
  unfold mergeItems. rewrite Ee. destruct ((_ <? _) || (_ <? _))%Z eqn:C; [cbn [length] in E1; unfold maxUint32 in C; lia|].
  cbn [with_buf m_mem m_buf m_str m_obj m_bodyOffset]. rewrite (r_bo _ _ _ _ R).
  set (st := mkMState mem s1 (m_str m) (m_obj m) (p - 1) [Z.to_N (Z.of_nat c)] (sorted_keys tr) (map (fun i => (i, None)) tr)).
  set (B := (L + 11 * Z.of_nat (length (md_buf d)) + 1)%Z).
  assert (HT : forall o, In o (sorted_keys tr) -> In o seen) by (intros o Ho; destruct (F1 _ (proj1 (keys_in _ _) Ho)) as [[]|H]; exact H).
  pose proof (r_slot _ _ _ _ R) as Rs. rewrite (r_lo _ _ _ _ R) in Rs.
  assert (Lo : 7 <= lo top) by (unfold lo; destruct (top =? 0)%N; lia).
  assert (I0 : inv d (sorted_keys tr) B (sl_len (m_buf m)) p st).
  { split; unfold st; cbn [s_mem s_buf s_idx s_tidx s_ttab s_str s_obj].
    - split; [cbn; lia|exact O2].
    - cbn [s1 sl_len]. lia.
    - lia.
    - symmetry. apply (filter_all g d Hl 6 (le_n _)). intros o Ho. apply HT, Hl2 in Ho. lia.
    - intros o Ho Lo'. apply HT, Hl2 in Ho. lia.
    - cbn [s1 sl_len]. apply (r_str _ _ _ _ R).
    - cbn [s1 sl_len]. apply (r_obj _ _ _ _ R).
    - cbn [s1 sl_len length]. pose proof (r_long _ _ _ _ R). unfold B. lia. }
  destruct (merge_laid w g d Hl (sorted_keys tr) (keys_sorted tr) B ltac:(unfold B; lia) (sl_len (m_buf m)) ltac:(lia) c [] p seen _ La Lp (le_n _)) with (h := 0%N) (st := st) (rest := @nil N)
    as (st' & j & Sj' & Lj & I' & K').
  - intros o Ho. left. now apply HT.
  - intros q o Hq Hb. apply (proj2 (keys_in _ _)). destruct (F2 q o Hq Hb) as [[]|]; assumption.
  - intros o [].
  - now left.
  - exact I0.
  - unfold st. cbn [s_stack]. replace (Z.to_N (Z.of_nat c)) with (0 + N.of_nat c)%N by lia. apply stk_here.
  - replace (merge_loop w (S (length (md_buf d))) g 5 d st) with (@Ok unit tt, st').
    2:{ cbn [length] in Lj. replace (S (length (md_buf d))) with (j + (S (length (md_buf d)) - j)) by lia. rewrite Sj'.
        assert (X : merge_step w g 5 d st' = Ok None).
        { unfold merge_step. pose proof (v_idx _ _ _ _ _ _ I') as Ei. cbn [length] in Ei. injection Ei as ->.
          destruct (nth_error (md_buf d) (length (md_buf d))) eqn:X; [apply nth_error_Some_lt in X; lia|reflexivity]. }
        destruct (S (length (md_buf d)) - j); cbn [merge_loop]; now rewrite X. }
    pose proof (v_room _ _ _ _ _ _ I') as V. rewrite Nat.sub_diag in V. unfold B in V.
    cbn [m_length with_buf]. rewrite (r_count _ _ _ _ R). eexists. split.
    + f_equal. f_equal. rewrite wrap64_diff, wrap64_small by (unfold two63 in *; lia). reflexivity.
    + assert (Grow : sl_len (m_buf m) <= sl_len (s_buf st')).
      { exact (v_low _ _ _ _ _ _ I'). }
      split; cbn [m_inited m_finished m_version m_bodyOffset m_lenOffset m_length m_mem m_buf m_str m_obj with_buf]; try apply R; try exact (v_slice _ _ _ _ _ _ I').
      * reflexivity.
      * pose proof (r_slot _ _ _ _ R). lia.
      * apply (v_str _ _ _ _ _ _ I').
      * apply (v_obj _ _ _ _ _ _ I').
      * rewrite wrap64_small by (unfold two63 in *; lia). lia.
      * lia.
Qed.

Lemma init_ready g v : (v <= 3)%N -> (g_top g = 0 \/ g_top g = 1)%N -> g_expected g = 0 \/ 5 <= g_expected g ->
  exists m, initMerger w g (new_merger v) = (Ok tt, m) /\ ready (g_top g) m 0 13.
Proof.
  intros Hv Ht He. unfold initMerger. cbn [m_inited new_merger m_mem m_version m_length m_lenOffset m_bodyOffset m_finished].
  destruct (Nat.ltb 0 (g_expected g) && Nat.ltb (g_expected g) headerSize) eqn:C; [unfold headerSize in C; lia|].
  set (ver := if (v =? 0)%N then ProtocolVersion else v).
  assert (Hv' : (1 <= ver <= 3)%N) by (unfold ver; destruct (N.eqb_spec v 0); [unfold ProtocolVersion|]; lia). clearbody ver.
  destruct (N.ltb_spec ProtocolVersion ver) as [L|_]; [unfold ProtocolVersion in L; lia|].
  set (start := put32le _ ++ [n2b ver]). assert (Ls : length start = 5) by reflexivity. clearbody start.
  pose proof (make_with_contents [] start (Nat.max headerSize (g_expected g))) as M.
  destruct (make_with [] start _) as [s0 mem0]. destruct M as (_ & L0 & O0 & _).
  pose proof (append_ok (w_grow w (length mem0)) mem0 s0 [x00] O0) as A1.
  unfold w_append at 1. destruct (append_slice _ mem0 s0 [x00]) as [s1 mem1]. destruct A1 as [O1 L1].
  rewrite L0, Ls in L1. cbn [length] in L1. rewrite L1. replace (5 + 1 - 1) with 5 by lia.
  replace (if (g_top g =? 0)%N then _ else _) with (Some (opening (g_top g))) by (destruct Ht as [->| ->]; reflexivity).
  pose proof (append_ok (w_grow w (length mem1)) mem1 s1 (opening (g_top g)) O1) as A2.
  unfold w_append at 1. destruct (append_slice _ mem1 s1 _) as [s2 mem2]. destruct A2 as [O2 L2].
  change (repeat (n2b typePAD) 5) with slot.
  pose proof (append_ok (w_grow w (length mem2)) mem2 s2 slot O2) as A3.
  unfold w_append at 1. destruct (append_slice _ mem2 s2 _) as [s3 mem3]. destruct A3 as [O3 L3]. cbn [slot length] in L3.
  assert (Lo : sl_len s2 = lo (g_top g)) by (rewrite L2, L1; destruct Ht as [->| ->]; reflexivity).
  assert (Lo8 : lo (g_top g) <= 8) by (unfold lo; destruct (g_top g =? 0)%N; lia).
  eexists. split; [reflexivity|].
  split; cbn [m_inited m_finished m_version m_bodyOffset m_lenOffset m_length m_mem m_buf m_str m_obj]; auto; try (intros ? ? ?; discriminate); lia.
Qed.

Lemma finish_accepts top g m n L : ready top m n L -> g_comp g = None -> (Z.of_nat n < 34359738368)%Z ->
  exists out m', Finish k w g m = (Ok out, m') /\ (Z.of_nat (length out) <= L)%Z.
Proof.
  intros R Hc Ln. unfold Finish, initMerger. rewrite (r_inited _ _ _ _ R), (r_unfinished _ _ _ _ R).
  unfold put_uvarint. rewrite (r_count _ _ _ _ R).
  assert (E : to_uint (Z.of_nat n) = N.of_nat n).
  { unfold to_uint. rewrite Z.mod_small; [lia|]. unfold two64. lia. }
  rewrite E. pose proof (varint_five (N.of_nat n) ltac:(lia)) as V. pose proof (r_slot _ _ _ _ R) as Rs.
  destruct (Nat.leb_spec (m_lenOffset m + length (varint (N.of_nat n))) (sl_len (m_buf m))) as [_|C]; [|lia].
  rewrite Hc. do 2 eexists. split; [reflexivity|]. unfold contents, set_finished. cbn [m_mem m_buf].
  rewrite firstn_length. pose proof (r_long _ _ _ _ R). lia.
Qed.

(** a call of Append with a document to be accepted, whose body and number of elements are given *)
Definition accepted (c : call) (bn : bytes * nat) : Prop :=
  carries k (c_doc c) (fst bn) /\ mergeable (g_flat (c_conf c)) (g_top (c_conf c)) (fst bn) (snd bn).
Definition bytes_in (l : list (bytes * nat)) : nat := list_sum (map (fun bn => length (fst bn)) l).
Definition count_in (l : list (bytes * nat)) : nat := list_sum (map snd l).

Lemma mergeable_short flat top body n : mergeable flat top body n -> n <= length body.
Proof.
  intros (p & seen & L & H). destruct (laid_ends _ _ _ _ _ _ L) as (E & _). cbn [length] in E.
  enough (1 <= p) by lia. destruct H as [(-> & _)|[(-> & _)|[(_ & _ & _ & Hv)|[(_ & _ & _ & _ & Hv)|(_ & _ & -> & _)]]]]; try lia;
    apply vint_ends in Hv; lia.
Qed.

Lemma each_accepts top : forall calls docs m n L, ready top m n L -> Forall2 accepted calls docs ->
  (L + 11 * Z.of_nat (bytes_in docs) < two63)%Z -> (Z.of_nat n + Z.of_nat (bytes_in docs) < two63)%Z ->
  exists m', append_each k w m calls = (map (fun bn => Ok (Z.of_nat (snd bn))) docs, m') /\
    append_all k w m calls = Some m' /\
    ready top m' (n + count_in docs) (L + 11 * Z.of_nat (bytes_in docs)).
Proof.
  induction calls as [|c calls IH]; intros docs m n L R F LL Ln; inversion F as [|? bn ? docs' Hc Hd]; subst.
  - exists m. cbn. split; [reflexivity|]. split; [reflexivity|]. rewrite Nat.add_0_r, Z.add_0_r. exact R.
  - destruct Hc as [Cb Mb]. pose proof (mergeable_short _ _ _ _ Mb) as Ls.
    assert (Eb : bytes_in (bn :: docs') = length (fst bn) + bytes_in docs') by reflexivity.
    assert (Ec : count_in (bn :: docs') = snd bn + count_in docs') by reflexivity. rewrite Eb in *.
    destruct (append_accepts top m n L (c_conf c) (c_doc c) (c_spare c) (fst bn) (snd bn) R Cb Mb ltac:(lia) ltac:(lia)) as (m1 & A1 & R1).
    destruct (IH docs' m1 _ _ R1 Hd ltac:(lia) ltac:(lia)) as (m2 & A2 & A3 & R2).
    exists m2. cbn [append_each append_all map]. rewrite A1, A2. split; [reflexivity|]. split; [exact A3|].
    rewrite Ec. replace (n + (snd bn + count_in docs')) with (n + snd bn + count_in docs') by lia.
    replace (L + 11 * Z.of_nat (length (fst bn) + bytes_in docs'))%Z with (L + 11 * Z.of_nat (length (fst bn)) + 11 * Z.of_nat (bytes_in docs'))%Z by lia.
    exact R2.
Qed.

Lemma count_short calls docs : Forall2 accepted calls docs -> count_in docs <= bytes_in docs.
Proof.
  induction 1 as [|c bn calls docs [_ H] F IH]; [apply le_n|].
  change (snd bn + count_in docs <= length (fst bn) + bytes_in docs). apply mergeable_short in H. lia.
Qed.

Definition settings (g : mconfig) : Prop := (g_top g = 0 \/ g_top g = 1)%N /\ (g_expected g = 0 \/ 5 <= g_expected g).

Theorem merge_total v calls docs g : (v <= 3)%N -> Forall2 accepted calls docs -> Forall (fun c => settings (c_conf c)) calls ->
  settings g -> g_comp g = None -> (N.of_nat (bytes_in docs) < 34359738368)%N ->
  exists m out m', append_each k w (new_merger v) calls = (map (fun bn => Ok (Z.of_nat (snd bn))) docs, m) /\
    append_all k w (new_merger v) calls = Some m /\ Finish k w g m = (Ok out, m') /\
    length out <= 13 + 11 * bytes_in docs.
Proof.
  intros Hv F Hs Hg Hc Lb. pose proof (count_short _ _ F) as Lc.
  destruct calls as [|c calls].
  - inversion F; subst docs. destruct (init_ready g v Hv (proj1 Hg) (proj2 Hg)) as (m1 & I1 & R1).
    destruct (finish_accepts _ g m1 0 13 R1 Hc ltac:(lia)) as (out & m' & Fi & Lo).
    exists (new_merger v), out, m'. split; [reflexivity|]. split; [reflexivity|]. split; [|unfold bytes_in; cbn; lia].
    rewrite (finish_init k w g _ _ _ I1 (r_inited _ _ _ _ R1)). exact Fi.
  - apply Forall_inv in Hs. destruct (init_ready (c_conf c) v Hv (proj1 Hs) (proj2 Hs)) as (m1 & I1 & R1).
    destruct (each_accepts _ (c :: calls) docs m1 0 13 R1 F ltac:(unfold two63; lia) ltac:(unfold two63; lia)) as (m2 & A1 & A2 & R2).
    destruct (finish_accepts _ g m2 _ _ R2 Hc ltac:(lia)) as (out & m' & Fi & Lo).
    exists m2, out, m'. pose proof (append_init k w (c_conf c) _ _ _ (c_doc c) (c_spare c) I1 (r_inited _ _ _ _ R1)) as Ai.
    split; [|split; [|split; [exact Fi|lia]]].
    + cbn [append_each]. rewrite Ai. exact A1.
    + cbn [append_all]. rewrite Ai. exact A2.
Qed.
End Total.
