(** Two Mergers with the same bytes behave alike, however the bytes lie in memory; what a
    failed Append leaves behind. *)
From Verif Require Import Base BaseFacts SpecVarint Varint VarintFacts Tags Codecs Encode Compress Header
  GoMem Spec SpecDoc SpecOptions GrammarFacts DocFacts GoSlice RedocFacts
  SpecShape SpecAccept SpecTaken SpecCut Merge SpecMerge MergeFacts MergeItems MergeRun MergeSafe MergeProps MergeFinish MergeShape.
From Coq Require Import ZifyBool ZifyNat ZifyN.
Ltac Zify.zify_post_hook ::= Z.div_mod_to_equations.

(** ** The places where tags are read *)
Lemma tfind_key t : forall n v, tfind n t = Some v -> In n (map fst t).
Proof.
  induction t as [|[i o] t IH]; intros n v H; [discriminate|]. cbn [tfind] in H. cbn [map fst In].
  destruct (Nat.eqb_spec i n); [now left|right; eauto].
Qed.

Lemma met_tag d s0 strs objs tt_ i rel dd b f : met (x00 :: md_buf d) s0 (S i) -> nth_error (md_buf d) i = Some b ->
  merge_tag d strs objs tt_ i rel dd b = Ok f -> met (x00 :: md_buf d) s0 (S (i + f_adv f)).
Proof.
  intros Mt Hb E. destruct (tag_taken d strs objs tt_ i rel dd b f (map fst tt_) Hb
      ltac:(intros; eapply tfind_key; eauto) E) as [(_ & _ & Kf & ->)|[(_ & _ & Lf)|(n & _ & _ & Nf)]].
  - replace (S (i + 1)) with (S (S i)) by lia. eapply mt_prefix; [exact Mt|exists b; eauto|exact Kf].
  - eapply mt_leaf; [exact Mt|exists b; eauto|exact Lf].
  - eapply mt_nest; [exact Mt|exists b; eauto|exact Nf].
Qed.
Lemma met_step w g bo d s0 st st' : met (x00 :: md_buf d) s0 (S (s_idx st)) -> merge_step w g bo d st = Ok (Some st') ->
  met (x00 :: md_buf d) s0 (S (s_idx st')).
Proof.
  intros Mt H. unfold merge_step in H. destruct (nth_error (md_buf d) (s_idx st)) as [b|] eqn:Hb; [|discriminate].
  destruct (pop_stack (s_stack st)) as [|c rest]; [discriminate|]. apply bind_Ok in H as (f & Hf & H).
  destruct (w_append w (s_mem st) (s_buf st) (f_out f)) as [s mem1]. apply bind_Ok in H as (mem & _ & [= <-]).
  cbn [s_idx]. eapply met_tag; eassumption.
Qed.

Section Sim.
Variable k : codecs.
Variable w : mworld.

Definition ssim (a b : mstate) : Prop :=
  slice_ok (s_mem a) (s_buf a) /\ slice_ok (s_mem b) (s_buf b) /\
  contents (s_mem a) (s_buf a) = contents (s_mem b) (s_buf b) /\
  s_str a = s_str b /\ s_obj a = s_obj b /\ s_idx a = s_idx b /\ s_stack a = s_stack b /\ s_tidx a = s_tidx b /\ s_ttab a = s_ttab b.

Lemma same_len mem1 s1 mem2 s2 : slice_ok mem1 s1 -> slice_ok mem2 s2 -> contents mem1 s1 = contents mem2 s2 -> sl_len s1 = sl_len s2.
Proof. intros O1 O2 E. rewrite <- (contents_length _ _ O1), <- (contents_length _ _ O2). now rewrite E. Qed.

Lemma set_track_value mem s i mem' : slice_ok mem s -> set_track mem s i = Ok mem' ->
  slice_ok mem' s /\ contents mem' s = upd (contents mem s) i (n2b (N.lor (b2n (nth i (contents mem s) x00)) trackFlag)).
Proof.
  intros O E. pose proof O as [O1 O2]. unfold set_track in E. destruct (Nat.ltb_spec i (sl_len s)) as [L|]; [|discriminate]. injection E as <-.
  destruct O2 as [O2|O2]; [lia|]. assert (La : sl_arr s < length mem) by (apply array_long; lia).
  assert (En : nth (sl_off s + i) (array mem (sl_arr s)) x00 = nth i (contents mem s) x00).
  { rewrite nth_plus. unfold contents. symmetry. rewrite <- (firstn_skipn (sl_len s) (skipn (sl_off s) _)) at 2.
    rewrite app_nth1; [reflexivity|]. rewrite firstn_length, skipn_length. lia. }
  rewrite En. split.
  - split; [exact O1|]. right. rewrite array_upd_same, upd_length by exact La. exact O2.
  - unfold contents at 1. rewrite array_upd_same by exact La. rewrite skipn_upd, firstn_upd. reflexivity.
Qed.

Definition rsim {A} (R : A -> A -> Prop) (a b : res A) : Prop :=
  match a, b with
  | Ok x, Ok y => R x y | Err e, Err e' => e = e' | Panic e, Panic e' => e = e' | Crash, Crash => True | NoFuel, NoFuel => True
  | _, _ => False
  end.

Lemma step_sim g bo d a b : ssim a b ->
  rsim (fun x y => match x, y with None, None => True | Some a, Some b => ssim a b | _, _ => False end)
    (merge_step w g bo d a) (merge_step w g bo d b).
Proof.
  intros (O1 & O2 & C & E1 & E2 & E3 & E4 & E5 & E6). unfold merge_step. rewrite <- E1, <- E2, <- E3, <- E4, <- E5, <- E6.
  rewrite <- (same_len _ _ _ _ O1 O2 C).
  destruct (nth_error (md_buf d) (s_idx a)) as [t|]; [|exact I]. destruct (pop_stack (s_stack a)) as [|c rest]; [exact I|].
  destruct (merge_tag _ _ _ _ _ _ _ _) as [f|? |? | |]; cbn [bind]; try reflexivity; try exact I.
  destruct (w_append w (s_mem a) (s_buf a) (f_out f)) as [s1 m1] eqn:A1.
  destruct (w_append w (s_mem b) (s_buf b) (f_out f)) as [s2 m2] eqn:A2.
  apply (w_append_ok w _ _ _ _ _ O1) in A1 as (Oa & La & Ca & _). apply (w_append_ok w _ _ _ _ _ O2) in A2 as (Ob & Lb & Cb & _).
  assert (Cc : contents m1 s1 = contents m2 s2) by congruence.
  pose proof (same_len _ _ _ _ Oa Ob Cc) as Ls.
  destruct (f_track f) as [i|]; [|cbn; repeat (split; [assumption||reflexivity|]); reflexivity].
  destruct (set_track m1 s1 i) as [m3|? |? | |] eqn:T1; destruct (set_track m2 s2 i) as [m4|? |? | |] eqn:T2; cbn [bind];
    try exact I; try (exfalso; clear - T1 T2 Ls; unfold set_track in *; rewrite Ls in T1;
      destruct (Nat.ltb i (sl_len s2)); discriminate).
  apply (set_track_value _ _ _ _ Oa) in T1 as [Oc Cd]. apply (set_track_value _ _ _ _ Ob) in T2 as [Oe Ce].
  cbn [rsim]. unfold ssim. cbn [s_mem s_buf s_str s_obj s_idx s_stack s_tidx s_ttab].
  split; [exact Oc|]. split; [exact Oe|]. split; [rewrite Cd, Ce, Cc; reflexivity|]. repeat split.
Qed.

Lemma loop_sim g bo d : forall fuel a b, ssim a b ->
  let '(r1, f1) := merge_loop w fuel g bo d a in let '(r2, f2) := merge_loop w fuel g bo d b in r1 = r2 /\ ssim f1 f2.
Proof.
  induction fuel as [|fuel IH]; intros a b S; rewrite !loop_unfold; pose proof (step_sim g bo d a b S) as H;
    destruct (merge_step w g bo d a) as [[a'|]|? |? | |], (merge_step w g bo d b) as [[b'|]|? |? | |]; cbn [rsim] in H;
    try contradiction; try (subst; split; [reflexivity|exact S]).
  apply IH, H.
Qed.

(** slices stay inside their arrays *)
Definition both_ok (s1 : slice) (st : mstate) : Prop := slice_ok (s_mem st) (s_buf st) /\ slice_ok (s_mem st) s1.
Lemma set_track_arrays mem s i mem' a : set_track mem s i = Ok mem' -> length (array mem a) <= length (array mem' a).
Proof.
  unfold set_track. destruct (Nat.ltb i (sl_len s)); [|discriminate]. intros [= <-].
  destruct (Nat.eq_dec (sl_arr s) a) as [<-|Ne]; [|now rewrite array_upd_other by exact Ne].
  destruct (Nat.lt_ge_cases (sl_arr s) (length mem)) as [La|La].
  - rewrite array_upd_same, upd_length by exact La. lia.
  - unfold array at 1. rewrite nth_overflow by lia. cbn. lia.
Qed.
Lemma both_ok_step s1 g bo d st st' : both_ok s1 st -> merge_step w g bo d st = Ok (Some st') -> both_ok s1 st'.
Proof.
  intros [O O1] H. destruct (step_facts w (fun _ => True) _ _ _ _ _ O (trivial_tabs st) I I H) as (b & out & mem1 & _ & A & M & _).
  pose proof (w_append_arrays w _ _ _ _ _ (sl_arr s1) O A) as Ar.
  apply (w_append_ok w _ _ _ _ _ O) in A as (O2 & _). pose proof (ok_grow _ _ _ O1 Ar) as O3. unfold both_ok.
  destruct M as [->|(i & _ & _ & M)]; [auto|]. pose proof (set_track_arrays _ _ _ _ (sl_arr s1) M) as Ar2.
  apply (set_track_ok _ _ _ _ O2) in M as (O4 & _). split; [exact O4|]. exact (ok_grow _ _ _ O3 Ar2).
Qed.

(** ** Mergers *)
Definition msim (a b : merger) : Prop :=
  slice_ok (m_mem a) (m_buf a) /\ slice_ok (m_mem b) (m_buf b) /\ 0 < sl_len (m_buf a) /\
  contents (m_mem a) (m_buf a) = contents (m_mem b) (m_buf b) /\
  m_inited a = true /\ m_inited b = true /\
  m_str a = m_str b /\ m_obj a = m_obj b /\ m_version a = m_version b /\ m_length a = m_length b /\
  m_lenOffset a = m_lenOffset b /\ m_bodyOffset a = m_bodyOffset b /\ m_finished a = m_finished b.

Lemma msim_refl m : slice_ok (m_mem m) (m_buf m) -> 0 < sl_len (m_buf m) -> m_inited m = true -> msim m m.
Proof. intros. repeat split; auto; apply H. Qed.

Definition calm (g : mconfig) (b spare : bytes) : Prop := forall d n skip i,
  merger_doc k w b spare = Ok d -> expectedElements g (md_buf d) = Ok (n, skip) -> (0 <= n)%Z ->
  met (x00 :: md_buf d) (S skip) (S i) -> no_ref d i.

(** what an Append on a calm document does to bytes and tables *)
Lemma calm_append g m b spare r m' : m_inited m = true -> m_finished m = false -> slice_ok (m_mem m) (m_buf m) ->
  0 < sl_len (m_buf m) -> calm g b spare -> Append k w g m b spare = (r, m') ->
  slice_ok (m_mem m') (m_buf m') /\ m_inited m' = true /\ m_finished m' = false /\ m_version m' = m_version m /\
  m_lenOffset m' = m_lenOffset m /\ m_bodyOffset m' = m_bodyOffset m /\
  (exists l, m_str m' = l ++ m_str m) /\ (exists l, m_obj m' = l ++ m_obj m) /\
  match r with
  | Ok _ => exists x, contents (m_mem m') (m_buf m') = contents (m_mem m) (m_buf m) ++ x
  | _ => contents (m_mem m') (m_buf m') = contents (m_mem m) (m_buf m) /\ m_length m' = m_length m
  end.
Proof.
  intros In Fi O Lp Ca H.
  destruct (append_cases k w g m b spare r m' In Fi O H) as [(-> & Nr & _)|(d & tracked & m1 & r1 & Ed & _ & Bg & M & ->)].
  { split; [exact O|]. do 5 (split; [auto|]). split; [now exists []|]. split; [now exists []|].
    destruct r as [n|? |? | |]; auto. now elim (Nr n). }
  destruct Bg as [Bc Bl Bs Ba (E1 & E2 & E3 & E4 & E5 & E6 & E7 & E8)].
  unfold mergeItems in M.
  assert (Z : forall r, r1 = r -> m1 = m' -> (forall n, r <> Ok n) ->
    slice_ok (m_mem m') (m_buf m') /\ m_inited m' = true /\ m_finished m' = false /\ m_version m' = m_version m /\
    m_lenOffset m' = m_lenOffset m /\ m_bodyOffset m' = m_bodyOffset m /\
    (exists l, m_str m' = l ++ m_str m) /\ (exists l, m_obj m' = l ++ m_obj m) /\
    match match r1 with Ok _ => Ok (wrap64 (m_length m' - m_length m)) | Err e => Err e | Panic e => Panic e | Crash => Crash | NoFuel => NoFuel end with
    | Ok _ => exists x, contents (m_mem m') (m_buf m') = contents (m_mem m) (m_buf m) ++ x
    | _ => contents (m_mem m') (m_buf m') = contents (m_mem m) (m_buf m) /\ m_length m' = m_length m
    end).
  { intros r -> <- Nr. rewrite E1, E2, E3, E4, E5, E6, E7, E8, Bc. split; [exact Bs|]. do 5 (split; [auto|]).
    split; [now exists []|]. split; [now exists []|]. destruct r as [n|? |? | |]; auto. now elim (Nr n). }
  destruct (expectedElements g (md_buf d)) as [[n skip]|? |? | |] eqn:Ex;
    try (injection M as M1 M2; apply (Z _ (eq_sym M1) M2); discriminate).
  destruct ((n <? 0) || (maxUint32 <? n))%Z eqn:Rn; [injection M as M1 M2; apply (Z _ (eq_sym M1) M2); discriminate|].
  clear Z. rewrite E6 in M. set (st := mkMState _ _ _ _ _ _ _ _) in M.
  destruct (merge_loop w (Datatypes.S (length (md_buf d))) g (m_bodyOffset m) d st) as [r2 fin] eqn:Lp2.
  assert (Ki : Kinv (m_buf m1) (contents (m_mem m) (m_buf m)) (contents (m_mem m) (m_buf m)) (m_str m) (m_obj m) st).
  { split; [exact Bs|]. split; [split; [apply Ba; exact Lp|cbn [st s_buf]; auto]|].
    split; [exact Bc|]. split; [exists []; cbn [st s_mem s_buf]; now rewrite app_nil_r|].
    split; cbn [st s_str s_obj]; [rewrite E1|rewrite E2]; now exists []. }
  assert (Kp : forall st st', Kinv (m_buf m1) (contents (m_mem m) (m_buf m)) (contents (m_mem m) (m_buf m)) (m_str m) (m_obj m) st /\
      met (x00 :: md_buf d) (Datatypes.S skip) (Datatypes.S (s_idx st)) -> merge_step w g (m_bodyOffset m) d st = Ok (Some st') ->
    Kinv (m_buf m1) (contents (m_mem m) (m_buf m)) (contents (m_mem m) (m_buf m)) (m_str m) (m_obj m) st' /\
      met (x00 :: md_buf d) (Datatypes.S skip) (Datatypes.S (s_idx st'))).
  { intros sa sb [Ka Ma] Hs. split; [|eapply met_step; eassumption].
    eapply Kinv_step; [|exact Ka|exact Hs]. apply (Ca d n skip); auto. lia. }
  pose proof (loop_keeps w _ g (m_bodyOffset m) d Kp _ _ _ _ (conj Ki (mt_start _ _)) Lp2)
    as ((Of & _ & Ck & Cx & T1 & T2) & _).
  assert (Bo : both_ok (m_buf m1) st) by (split; exact Bs).
  apply (loop_keeps w _ g (m_bodyOffset m) d (both_ok_step (m_buf m1) g (m_bodyOffset m) d) _ _ _ _ Bo) in Lp2 as [_ Os].
  destruct r2 as [[]|? |? | |]; injection M as <- <-;
    cbn [m_inited m_finished m_version m_bodyOffset m_lenOffset m_length m_mem m_buf m_str m_obj];
    (split; [assumption|]); rewrite E3, E5, E7, E8, ?E4; auto 15.
Qed.

(** ** Append and Finish on similar Mergers *)
Lemma msim_sym a b : msim a b -> msim b a.
Proof.
  intros (O1 & O2 & L & C & H). pose proof (same_len _ _ _ _ O1 O2 C). unfold msim. intuition (try congruence; lia).
Qed.

Lemma append_sim g a b doc spare : msim a b -> calm g doc spare ->
  let '(r1, a') := Append k w g a doc spare in let '(r2, b') := Append k w g b doc spare in r1 = r2 /\ msim a' b'.
Proof.
  intros Hs Ca. pose proof Hs as (O1 & O2 & L & C & I1 & I2 & E1 & E2 & E3 & E4 & E5 & E6 & E7).
  destruct (m_finished a) eqn:Fa.
  { rewrite (finished_append k w g a), (finished_append k w g b) by congruence. auto. }
  pose proof (same_len _ _ _ _ O1 O2 C) as Ll.
  destruct (Append k w g a doc spare) as [r1 a'] eqn:A1. destruct (Append k w g b doc spare) as [r2 b'] eqn:A2.
  pose proof (calm_append g a doc spare r1 a' I1 Fa O1 L Ca A1) as (K1 & K2 & K3 & K4 & K5 & K6 & _ & _ & K7).
  pose proof (calm_append g b doc spare r2 b' I2 ltac:(congruence) O2 ltac:(lia) Ca A2) as (J1 & J2 & J3 & J4 & J5 & J6 & _ & _ & J7).
  unfold Append, initMerger in A1, A2. rewrite I1, Fa in A1. rewrite I2, <- E7 in A2.
  destruct (bind (merger_doc k w doc spare) _) as [[d tracked]|? |? | |];
    try (injection A1 as <- <-; injection A2 as <- <-; split; [reflexivity|exact Hs]).
  destruct (w_append w (m_mem a) (m_buf a) (md_buf d)) as [s1 m1] eqn:W1.
  destruct (w_append w (m_mem b) (m_buf b) (md_buf d)) as [s2 m2] eqn:W2.
  apply (w_append_ok w _ _ _ _ _ O1) in W1 as (Oa & La & Ca1 & _). apply (w_append_ok w _ _ _ _ _ O2) in W2 as (Ob & Lb & Cb & _).
  unfold mergeItems in A1, A2. cbn [with_buf m_inited m_finished m_version m_bodyOffset m_lenOffset m_length m_mem m_buf m_str m_obj] in A1, A2.
  set (s1' := mkSlice (sl_arr s1) (sl_off s1) (sl_len (m_buf a)) (sl_cap s1)) in A1.
  set (s2' := mkSlice (sl_arr s2) (sl_off s2) (sl_len (m_buf b)) (sl_cap s2)) in A2.
  assert (Sa : slice_ok m1 s1') by (destruct Oa as [Oa Oa']; split; cbn; [lia|exact Oa']).
  assert (Sb : slice_ok m2 s2') by (destruct Ob as [Ob Ob']; split; cbn; [lia|exact Ob']).
  assert (Cs : contents m1 s1' = contents m2 s2').
  { unfold s1', s2'. rewrite !truncate_contents by lia. rewrite Ca1, Cb, C, Ll. reflexivity. }
  destruct (expectedElements g (md_buf d)) as [[n skip]|? |? | |].
  2-5: injection A1 as <- <-; injection A2 as <- <-; split; [reflexivity|];
    unfold msim; cbn [with_buf m_inited m_finished m_version m_bodyOffset m_lenOffset m_length m_mem m_buf m_str m_obj];
    rewrite <- E7, Fa; auto 20.
  destruct ((n <? 0) || (maxUint32 <? n))%Z.
  { injection A1 as <- <-; injection A2 as <- <-; split; [reflexivity|];
    unfold msim; cbn [with_buf m_inited m_finished m_version m_bodyOffset m_lenOffset m_length m_mem m_buf m_str m_obj];
    rewrite <- E7, Fa; auto 20. }
  rewrite <- E6 in A2.
  set (st1 := mkMState m1 s1' (m_str a) (m_obj a) skip [Z.to_N n] (sorted_keys tracked) (map (fun i => (i, None)) tracked)) in A1.
  set (st2 := mkMState m2 s2' (m_str b) (m_obj b) skip [Z.to_N n] (sorted_keys tracked) (map (fun i => (i, None)) tracked)) in A2.
  assert (Ss : ssim st1 st2) by (unfold ssim; cbn; repeat split; try apply Sa; try apply Sb; assumption).
  pose proof (loop_sim g (m_bodyOffset a) d (Datatypes.S (length (md_buf d))) st1 st2 Ss) as Lp.
  destruct (merge_loop w _ g (m_bodyOffset a) d st1) as [r3 f1]. destruct (merge_loop w _ g (m_bodyOffset a) d st2) as [r4 f2].
  destruct Lp as [<- (F1 & F2 & F3 & F4 & F5 & _)].
  destruct r3 as [[]|? |? | |]; cbn [m_length] in A1, A2; injection A1 as <- <-; injection A2 as <- <-;
    (split; [now rewrite ?E4|]); 
    unfold msim; cbn [with_buf m_inited m_finished m_version m_bodyOffset m_lenOffset m_length m_mem m_buf m_str m_obj] in *;
    pose proof (same_len _ _ _ _ F1 F2 F3); rewrite <- E7, Fa.
  - split; [exact F1|]. split; [exact F2|]. split; [|rewrite E4; auto 15].
    destruct K7 as [x K7]. rewrite <- (contents_length _ _ F1), K7, app_length, (contents_length _ _ O1). lia.
  - split; [exact K1|]. split; [exact J1|]. split; [exact L|]. rewrite (proj1 K7), (proj1 J7). auto 15.
  - split; [exact K1|]. split; [exact J1|]. split; [exact L|]. rewrite (proj1 K7), (proj1 J7). auto 15.
  - split; [exact K1|]. split; [exact J1|]. split; [exact L|]. rewrite (proj1 K7), (proj1 J7). auto 15.
  - split; [exact K1|]. split; [exact J1|]. split; [exact L|]. rewrite (proj1 K7), (proj1 J7). auto 15.
Qed.

Lemma each_sim : forall calls a b, msim a b -> Forall (fun c => calm (c_conf c) (c_doc c) (c_spare c)) calls ->
  let '(r1, a') := append_each k w a calls in let '(r2, b') := append_each k w b calls in r1 = r2 /\ msim a' b'.
Proof.
  induction calls as [|c calls IH]; intros a b S F; cbn [append_each]; [auto|]. inversion F; subst.
  pose proof (append_sim (c_conf c) a b (c_doc c) (c_spare c) S ltac:(assumption)) as H.
  destruct (Append k w (c_conf c) a (c_doc c) (c_spare c)) as [r1 a1], (Append k w (c_conf c) b (c_doc c) (c_spare c)) as [r2 b1].
  destruct H as [-> S1]. specialize (IH a1 b1 S1 ltac:(assumption)).
  destruct (append_each k w a1 calls), (append_each k w b1 calls). destruct IH as [-> S2]. auto.
Qed.

Lemma finish_sim g a b : msim a b -> g_comp g = None -> fst (Finish k w g a) = fst (Finish k w g b).
Proof.
  intros (O1 & O2 & L & C & I1 & I2 & E1 & E2 & E3 & E4 & E5 & E6 & E7) Hc. unfold Finish, initMerger. rewrite I1, I2, <- E7.
  destruct (m_finished a); [cbn; now rewrite C|]. pose proof (same_len _ _ _ _ O1 O2 C) as Ll.
  unfold put_uvarint. rewrite <- E4, <- E5, <- Ll. set (v := varint (to_uint (m_length a))).
  destruct (Nat.leb_spec (m_lenOffset a + length v) (sl_len (m_buf a))); [|reflexivity]. rewrite Hc. cbn [fst set_finished m_mem m_buf].
  rewrite !put_contents by (assumption || lia). now rewrite C.
Qed.

(** A failed Append on a calm document that leaves the tables as they were has no effect on
    later calls. *)
Theorem failed_is_forgotten top v sum m g doc spare r m' calls gf : (v = 0 \/ v = 2 \/ v = 3)%N ->
  ready top (out_version v) sum m -> m_finished m = false ->
  Append k w g m doc spare = (r, m') -> (forall n, r <> Ok n) -> calm g doc spare ->
  m_str m' = m_str m -> m_obj m' = m_obj m ->
  Forall (fun c => calm (c_conf c) (c_doc c) (c_spare c)) calls -> g_comp gf = None ->
  let '(r1, m1) := append_each k w m calls in let '(r2, m2) := append_each k w m' calls in
  r1 = r2 /\ fst (Finish k w gf m1) = fst (Finish k w gf m2).
Proof.
  intros Hv (T & In & Ve & Bo & Le & O & L & _) Fi A Nr Ca Ts To Fc Hc.
  pose proof (calm_append g m doc spare r m' In Fi O ltac:(lia) Ca A) as (K1 & K2 & K3 & K4 & K5 & K6 & _ & _ & K7).
  assert (K8 : contents (m_mem m') (m_buf m') = contents (m_mem m) (m_buf m) /\ m_length m' = m_length m).
  { destruct r as [n|? |? | |]; auto. now elim (Nr n). }
  assert (S : msim m m').
  { destruct K8 as [K8 K9]. unfold msim. rewrite K8, K9, K3, K4, K5, K6, Ts, To. split; [exact O|]. split; [exact K1|]. split; [lia|]. auto 15. }
  pose proof (each_sim calls m m' S Fc) as H.
  destruct (append_each k w m calls) as [r1 m1], (append_each k w m' calls) as [r2 m2]. destruct H as [-> S2].
  split; [reflexivity|]. apply finish_sim; assumption.
Qed.

(** ** Documents that register no names *)
Definition nameless (d : mdoc) (i : nat) : Prop :=
  forall b, nth_error (md_buf d) i = Some b ->
    let t := untrack b in
    t <> typeHASH /\ ~ (typeHASHREF_0 <= t < typeHASHREF_0 + 16)%N /\ t <> typeOBJECT /\ t <> typeOBJECT_FREEZE /\
    (t = typeARRAY -> forall ln sz, varintdecode (skipn (Datatypes.S i) (md_buf d)) = VOk ln sz -> (ln < 2147483648)%Z).
Definition small_counts (s : list N) : Prop := Forall (fun c => (c < 2147483648)%N) s.

Lemma pop_small s : small_counts s -> small_counts (pop_stack s).
Proof. induction 1 as [|c s Hc Hs IH]; cbn [pop_stack]; [constructor|]. destruct (_ =? _)%N; [exact IH|constructor; assumption]. Qed.

Lemma small_flag c : (c < 2147483648)%N -> (N.land c hashFlag = 0)%N.
Proof.
  intros L. unfold hashFlag. change 2147483648%N with (2 ^ 31)%N in *.
  apply N.bits_inj_iff. intros i. rewrite N.land_spec, N.bits_0. destruct (N.eq_dec i 31) as [->|Ne].
  - rewrite (N.bits_above_log2 c 31); [reflexivity|]. destruct (N.eq_0_gt_0_cases c) as [->|P]; [reflexivity|].
    apply N.log2_lt_pow2; [exact P|exact L].
  - rewrite N.pow2_bits_false by lia. apply andb_false_r.
Qed.

Lemma nameless_tag d strs objs tt_ i rel b f : nameless d i -> nth_error (md_buf d) i = Some b ->
  merge_tag d strs objs tt_ i rel false b = Ok f -> f_str f = None /\ f_obj f = None /\ small_counts (f_push f).
Proof.
  intros Hn Hb H. specialize (Hn b Hb). cbn zeta in Hn. destruct Hn as (N1 & N2 & N3 & N4 & N5).
  unfold merge_tag in H. destruct (merge_kind (untrack b)) eqn:Kd.
  - injection H as <-. repeat split; constructor.
  - injection H as <-. repeat split; constructor.
  - destruct (varintdecode _); [|discriminate]. apply bind_Ok in H as (s & _ & [= <-]). repeat split; constructor.
  - apply bind_Ok in H as (s & _ & [= <-]). repeat split; constructor.
  - apply bind_Ok in H as ([ln sz] & _ & H). destruct (_ || _); [discriminate|]. destruct (Nat.ltb _ _); [discriminate|].
    apply bind_Ok in H as (s & _ & [= <-]). repeat split; constructor.
  - destruct (varintdecode _) as [off sz|]; [|discriminate]. destruct (if (off <? 0)%Z then None else _); [|discriminate].
    apply bind_Ok in H as (s & _ & [= <-]). repeat split. cbn [f_push]. destruct (_ || _)%N; repeat constructor.
  - destruct (varintdecode _) as [ln sz|]; [|discriminate]. destruct (ln <? 0)%Z eqn:Ln; [discriminate|].
    apply bind_Ok in H as (s & _ & [= <-]). repeat split. cbn [f_push].
    destruct (N.eqb_spec (untrack b) typeHASH); [contradiction|]. constructor; [|constructor].
    assert (Ta : untrack b = typeARRAY).
    { unfold merge_kind in Kd. repeat match type of Kd with (if ?c then _ else _) = _ => destruct c eqn:?; try discriminate end.
      match goal with Q0 : (_ || _) = true |- _ => rename Q0 into Q end; apply orb_true_iff in Q as [Q|Q]; apply N.eqb_eq in Q; congruence. }
    specialize (N5 Ta _ _ eq_refl). rewrite N.mod_small; lia.
  - injection H as <-. repeat split. cbn [f_push].
    assert (Q : (typeARRAYREF_0 <= untrack b < typeARRAYREF_0 + 16)%N).
    { unfold merge_kind in Kd. repeat match type of Kd with (if ?c then _ else _) = _ => destruct c eqn:?; try discriminate end.
      match goal with Q0 : (_ || _) = true |- _ => rename Q0 into Q end; apply orb_true_iff in Q as [Q|Q]; [lia|]. exfalso. apply N2. lia. }
    destruct (N.leb_spec typeHASHREF_0 (untrack b)); [unfold typeHASHREF_0, typeARRAYREF_0 in *; lia|].
    constructor; [|constructor]. change 15%N with (N.ones 4). rewrite N.land_ones. change (2 ^ 4)%N with 16%N. lia.
  - apply bind_Ok in H as ([o1 s1] & _ & H). apply bind_Ok in H as ([o2 s2] & _ & H). apply bind_Ok in H as (s & _ & [= <-]).
    repeat split; constructor.
  - exfalso. unfold merge_kind in Kd. repeat match type of Kd with (if ?c then _ else _) = _ => destruct c eqn:?; try discriminate end.
    match goal with Q0 : (_ || _) = true |- _ => rename Q0 into Q end; apply orb_true_iff in Q as [Q|Q]; apply N.eqb_eq in Q; contradiction.
  - discriminate.
  - discriminate.
Qed.

Definition Ninv (strs objs : list (bytes * nat)) (st : mstate) : Prop :=
  s_str st = strs /\ s_obj st = objs /\ small_counts (s_stack st).
Lemma Ninv_step strs objs g bo d st st' : nameless d (s_idx st) -> g_dedupe g = false -> Ninv strs objs st ->
  merge_step w g bo d st = Ok (Some st') -> Ninv strs objs st'.
Proof.
  intros Hn Hg (E1 & E2 & E3) H. unfold merge_step in H.
  destruct (nth_error (md_buf d) (s_idx st)) as [b|] eqn:Hb; [|discriminate].
  pose proof (pop_small _ E3) as Ps. destruct (pop_stack (s_stack st)) as [|c rest]; [discriminate|].
  inversion Ps as [|? ? Pc Pr]; subst. rewrite Hg, (small_flag c Pc) in H. cbn [N.eqb negb andb orb] in H.
  apply bind_Ok in H as (f & Hf & H). destruct (w_append w (s_mem st) (s_buf st) (f_out f)) as [s mem1].
  apply bind_Ok in H as (mem & _ & [= <-]).
  destruct (nameless_tag _ _ _ _ _ _ _ _ Hn Hb Hf) as (F1 & F2 & F3). rewrite F1, F2.
  split; [reflexivity|]. split; [reflexivity|]. cbn [s_stack]. apply Forall_app. split; [exact F3|].
  constructor; [|exact Pr]. destruct (f_fake f); lia.
Qed.

Lemma nameless_append g m b spare r m' : m_inited m = true -> m_finished m = false -> slice_ok (m_mem m) (m_buf m) ->
  (forall d n skip, merger_doc k w b spare = Ok d -> expectedElements g (md_buf d) = Ok (n, skip) -> (0 <= n)%Z ->
    (n < 2147483648)%Z /\ forall i, met (x00 :: md_buf d) (S skip) (S i) -> nameless d i) -> g_dedupe g = false ->
  Append k w g m b spare = (r, m') -> m_str m' = m_str m /\ m_obj m' = m_obj m.
Proof.
  intros In Fi O Hn Hg H.
  destruct (append_cases k w g m b spare r m' In Fi O H) as [(-> & _)|(d & tracked & m1 & r1 & Ed & _ & Bg & M & ->)]; [auto|].
  destruct (b_rest _ _ _ Bg) as (E1 & E2 & _).
  unfold mergeItems in M. destruct (expectedElements g (md_buf d)) as [[n skip]|? |? | |] eqn:Ex;
    try (injection M as _ <-; auto; fail).
  destruct ((n <? 0) || (maxUint32 <? n))%Z eqn:Rn; [injection M as _ <-; auto|].
  destruct (Hn d n skip Ed Ex ltac:(lia)) as [Ln Nm].
  set (st := mkMState _ _ _ _ _ _ _ _) in M.
  destruct (merge_loop w (Datatypes.S (length (md_buf d))) g (m_bodyOffset m1) d st) as [r2 fin] eqn:Lp.
  assert (Ni : Ninv (m_str m) (m_obj m) st).
  { split; [exact E1|]. split; [exact E2|]. constructor; [lia|constructor]. }
  assert (Kp : forall st st', Ninv (m_str m) (m_obj m) st /\ met (x00 :: md_buf d) (Datatypes.S skip) (Datatypes.S (s_idx st)) ->
    merge_step w g (m_bodyOffset m1) d st = Ok (Some st') ->
    Ninv (m_str m) (m_obj m) st' /\ met (x00 :: md_buf d) (Datatypes.S skip) (Datatypes.S (s_idx st'))).
  { intros sa sb [Ka Ma] Hs. split; [|eapply met_step; eassumption]. eapply Ninv_step; eauto. }
  pose proof (loop_keeps w _ g (m_bodyOffset m1) d Kp _ _ _ _ (conj Ni (mt_start _ _)) Lp) as ((F1 & F2 & _) & _).
  destruct r2 as [[]|? |? | |]; injection M as _ <-; auto.
Qed.
End Sim.
