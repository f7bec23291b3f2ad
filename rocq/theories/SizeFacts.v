(** A Merger's results do not depend on the capacity of its buffer. *)
From Verif Require Import Base BaseFacts SpecVarint Varint VarintFacts Tags Codecs Encode Compress Header
  GoMem Spec SpecDoc SpecOptions GrammarFacts DocFacts GoSlice RedocFacts
  SpecShape SpecAccept SpecTaken SpecCut Merge SpecMerge MergeFacts MergeItems MergeRun MergeSafe MergeProps MergeFinish MergeShape
  MergeSim MergeApi SpecSize.
From Coq Require Import ZifyBool ZifyNat ZifyN.

Lemma resized_eq a b : resized a b -> exists n, b = mkMConfig (g_top a) (g_comp a) (g_threshold a) (g_dedupe a) (g_flat a) n.
Proof. destruct a, b. intros (E1 & E2 & E3 & E4 & E5). cbn in *. subst. eauto. Qed.

(** the buffer never gets empty *)
Definition filled (st : mstate) : Prop := slice_ok (s_mem st) (s_buf st) /\ 0 < sl_len (s_buf st).
Lemma filled_loop w g bo d fuel st r fin : filled st -> merge_loop w fuel g bo d st = (r, fin) -> filled fin.
Proof.
  apply loop_keeps. clear. intros st st' [O L] H. unfold merge_step in H.
  destruct (nth_error (md_buf d) (s_idx st)) as [b|]; [|discriminate].
  destruct (pop_stack (s_stack st)) as [|c rest]; [discriminate|]. apply bind_Ok in H as (f & _ & H).
  destruct (w_append w (s_mem st) (s_buf st) (f_out f)) as [s mem1] eqn:A. apply (w_append_ok w _ _ _ _ _ O) in A as (Oa & La & _).
  apply bind_Ok in H as (mem & T & [= <-]). split; cbn [s_mem s_buf]; [|lia].
  destruct (f_track f) as [i|]; [|injection T as <-; exact Oa]. now apply (set_track_ok _ _ _ _ Oa) in T.
Qed.

Section Size.
Variable k : codecs.
Variable w w' : mworld.
Hypothesis Hw : w_spare w = w_spare w'.

Lemma doc_world b sp : merger_doc k w b sp = merger_doc k w' b sp.
Proof. unfold merger_doc. now rewrite Hw. Qed.

Lemma step_size g g' bo d a b : resized g g' -> ssim a b ->
  rsim (fun x y => match x, y with None, None => True | Some a, Some b => ssim a b | _, _ => False end)
    (merge_step w g bo d a) (merge_step w' g' bo d b).
Proof.
  intros (_ & _ & _ & Ed & _) (O1 & O2 & C & E1 & E2 & E3 & E4 & E5 & E6). unfold merge_step. rewrite <- E1, <- E2, <- E3, <- E4, <- E5, <- E6, <- Ed.
  rewrite <- (same_len _ _ _ _ O1 O2 C).
  destruct (nth_error (md_buf d) (s_idx a)) as [t|]; [|exact I]. destruct (pop_stack (s_stack a)) as [|c rest]; [exact I|].
  destruct (merge_tag _ _ _ _ _ _ _ _) as [f|? |? | |]; cbn [bind]; try reflexivity; try exact I.
  destruct (w_append w (s_mem a) (s_buf a) (f_out f)) as [s1 m1] eqn:A1.
  destruct (w_append w' (s_mem b) (s_buf b) (f_out f)) as [s2 m2] eqn:A2.
  apply (w_append_ok w _ _ _ _ _ O1) in A1 as (Oa & La & Ca & _). apply (w_append_ok w' _ _ _ _ _ O2) in A2 as (Ob & Lb & Cb & _).
  assert (Cc : contents m1 s1 = contents m2 s2) by congruence.
  pose proof (same_len _ _ _ _ Oa Ob Cc) as Ls.
  destruct (f_track f) as [i|]; [|cbn; repeat (split; [assumption||reflexivity|]); reflexivity].
  destruct (set_track m1 s1 i) as [m3|? |? | |] eqn:T1; destruct (set_track m2 s2 i) as [m4|? |? | |] eqn:T2; cbn [bind];
    try exact I; try (exfalso; clear - T1 T2 Ls; unfold set_track in *; rewrite Ls in T1;
      destruct (Nat.ltb i (sl_len s2)); discriminate).
  apply (set_track_value _ _ _ _ Oa) in T1 as [Oc Cd]. apply (set_track_value _ _ _ _ Ob) in T2 as [Oe Ce].
  cbn [rsim]. unfold ssim. cbn [s_mem s_buf s_str s_obj s_idx s_stack s_tidx s_ttab].
  split; [exact Oc|]. split; [exact Oe|]. split; [rewrite Cd, Ce, Cc; reflexivity|]. repeat split.
Qed.

Lemma loop_size g g' bo d : resized g g' -> forall fuel a b, ssim a b ->
  let '(r1, f1) := merge_loop w fuel g bo d a in let '(r2, f2) := merge_loop w' fuel g' bo d b in r1 = r2 /\ ssim f1 f2.
Proof.
  intros Rg. induction fuel as [|fuel IH]; intros a b S; rewrite !loop_unfold; pose proof (step_size g g' bo d a b Rg S) as H;
    destruct (merge_step w g bo d a) as [[a'|]|? |? | |], (merge_step w' g' bo d b) as [[b'|]|? |? | |]; cbn [rsim] in H;
    try contradiction; try (subst; split; [reflexivity|exact S]).
  apply IH, H.
Qed.

Lemma expected_size g g' b : resized g g' -> expectedElements g b = expectedElements g' b.
Proof. intros R. apply resized_eq in R as [n ->]. reflexivity. Qed.
Lemma calm_size g g' b sp : resized g g' -> calm k w g b sp -> calm k w' g' b sp.
Proof.
  intros R C d n skip i E1 E2. rewrite <- doc_world in E1. rewrite <- (expected_size _ _ _ R) in E2. now apply C.
Qed.

Lemma append_size g g' a b doc spare r a' : resized g g' -> msim a b -> Append k w g a doc spare = (r, a') ->
  calm k w g doc spare \/ (exists n, r = Ok n) ->
  exists b', Append k w' g' b doc spare = (r, b') /\ msim a' b'.
Proof.
  intros Rg Hs A1 Ca. pose proof Hs as (O1 & O2 & L & C & I1 & I2 & E1 & E2 & E3 & E4 & E5 & E6 & E7).
  destruct (m_finished a) eqn:Fa.
  { rewrite (finished_append k w g a) in A1 by assumption. injection A1 as <- <-. rewrite (finished_append k w' g' b) by congruence. eauto. }
  pose proof (same_len _ _ _ _ O1 O2 C) as Ll.
  destruct (Append k w' g' b doc spare) as [r2 b'] eqn:A2. pose proof A1 as A1'. pose proof A2 as A2'.
  unfold Append, initMerger in A1, A2. rewrite I1, Fa in A1. rewrite I2, <- E7, <- doc_world in A2.
  destruct (bind (merger_doc k w doc spare) _) as [[d tracked]|? |? | |];
    try (injection A1 as <- <-; injection A2 as <- <-; exists b; split; [reflexivity|exact Hs]).
  destruct (w_append w (m_mem a) (m_buf a) (md_buf d)) as [s1 m1] eqn:W1.
  destruct (w_append w' (m_mem b) (m_buf b) (md_buf d)) as [s2 m2] eqn:W2.
  apply (w_append_ok w _ _ _ _ _ O1) in W1 as (Oa & La & Ca1 & _). apply (w_append_ok w' _ _ _ _ _ O2) in W2 as (Ob & Lb & Cb & _).
  unfold mergeItems in A1, A2. cbn [with_buf m_inited m_finished m_version m_bodyOffset m_lenOffset m_length m_mem m_buf m_str m_obj] in A1, A2.
  set (s1' := mkSlice (sl_arr s1) (sl_off s1) (sl_len (m_buf a)) (sl_cap s1)) in A1.
  set (s2' := mkSlice (sl_arr s2) (sl_off s2) (sl_len (m_buf b)) (sl_cap s2)) in A2.
  assert (Sa : slice_ok m1 s1') by (destruct Oa as [Oa Oa']; split; cbn; [lia|exact Oa']).
  assert (Sb : slice_ok m2 s2') by (destruct Ob as [Ob Ob']; split; cbn; [lia|exact Ob']).
  assert (Cs : contents m1 s1' = contents m2 s2').
  { unfold s1', s2'. rewrite !truncate_contents by lia. rewrite Ca1, Cb, C, Ll. reflexivity. }
  rewrite <- (expected_size _ _ _ Rg) in A2.
  destruct (expectedElements g (md_buf d)) as [[n skip]|? |? | |].
  2-5: injection A1 as <- <-; injection A2 as <- <-; eexists; split; [reflexivity|];
    unfold msim; cbn [with_buf m_inited m_finished m_version m_bodyOffset m_lenOffset m_length m_mem m_buf m_str m_obj];
    rewrite <- E7, Fa; auto 20.
  destruct ((n <? 0) || (maxUint32 <? n))%Z.
  { injection A1 as <- <-; injection A2 as <- <-; eexists; split; [reflexivity|];
    unfold msim; cbn [with_buf m_inited m_finished m_version m_bodyOffset m_lenOffset m_length m_mem m_buf m_str m_obj];
    rewrite <- E7, Fa; auto 20. }
  rewrite <- E6 in A2.
  set (st1 := mkMState m1 s1' (m_str a) (m_obj a) skip [Z.to_N n] (sorted_keys tracked) (map (fun i => (i, None)) tracked)) in A1.
  set (st2 := mkMState m2 s2' (m_str b) (m_obj b) skip [Z.to_N n] (sorted_keys tracked) (map (fun i => (i, None)) tracked)) in A2.
  assert (Ss : ssim st1 st2) by (unfold ssim; cbn; repeat split; try apply Sa; try apply Sb; assumption).
  pose proof (loop_size g g' (m_bodyOffset a) d Rg (Datatypes.S (length (md_buf d))) st1 st2 Ss) as Lp.
  destruct (merge_loop w _ g (m_bodyOffset a) d st1) as [r3 f1] eqn:Lo. destruct (merge_loop w' _ g' (m_bodyOffset a) d st2) as [r4 f2].
  destruct Lp as [<- (F1 & F2 & F3 & F4 & F5 & _)].
  assert (Kn : (forall x, r <> Ok x) -> calm k w g doc spare) by (intros Nr; destruct Ca as [Ca|[x Ex]]; [exact Ca|now elim (Nr x)]).
  destruct r3 as [[]|? |? | |]; cbn [m_length] in A1, A2; injection A1 as <- <-; injection A2 as <- <-.
  1: { eexists. split; [now rewrite E4|]. unfold msim. cbn [with_buf m_inited m_finished m_version m_bodyOffset m_lenOffset m_length m_mem m_buf m_str m_obj] in *.
    rewrite <- E7, Fa. split; [exact F1|]. split; [exact F2|]. split; [|rewrite E4; auto 15].
    exact (proj2 (filled_loop w g _ d _ st1 _ f1 (conj Sa L) Lo)). }
  all: eexists; split; [reflexivity|]; specialize (Kn ltac:(discriminate)); pose proof (calm_size _ _ _ _ Rg Kn) as Kn';
    pose proof (calm_append k w g a doc spare _ _ I1 Fa O1 L Kn A1') as (K1 & _ & _ & _ & _ & _ & _ & _ & K7);
    pose proof (calm_append k w' g' b doc spare _ _ I2 ltac:(congruence) O2 ltac:(lia) Kn' A2') as (J1 & _ & _ & _ & _ & _ & _ & _ & J7);
    unfold msim; cbn [with_buf m_inited m_finished m_version m_bodyOffset m_lenOffset m_length m_mem m_buf m_str m_obj] in *;
    rewrite <- E7, Fa;
    (split; [exact K1|]); (split; [exact J1|]); (split; [exact L|]); rewrite (proj1 K7), (proj1 J7); auto 15.
Qed.

Lemma each_size : forall calls calls' a b rs a', Forall2 resized_call calls calls' -> msim a b ->
  append_each k w a calls = (rs, a') ->
  Forall2 (fun c r => calm k w (c_conf c) (c_doc c) (c_spare c) \/ exists n, r = Ok n) calls rs ->
  exists b', append_each k w' b calls' = (rs, b') /\ msim a' b'.
Proof.
  induction calls as [|c calls IH]; intros calls' a b rs a' F S A G; inversion F as [|? c' ? l' (Rc & Ed & Es) F']; subst; cbn [append_each] in *.
  - injection A as <- <-. eauto.
  - destruct (Append k w (c_conf c) a (c_doc c) (c_spare c)) as [r a1] eqn:A1.
    destruct (append_each k w a1 calls) as [rs1 a2] eqn:A2. injection A as <- <-. inversion G as [|? ? ? ? G1 G2]; subst.
    rewrite <- Ed, <- Es. destruct (append_size _ _ _ _ _ _ _ _ Rc S A1 G1) as (b1 & -> & S1).
    destruct (IH _ _ _ _ _ F' S1 A2 G2) as (b2 & -> & S2). eauto.
Qed.

Lemma finish_size g g' a b : msim a b -> g_comp g = None -> g_comp g' = None -> fst (Finish k w g a) = fst (Finish k w' g' b).
Proof.
  intros (O1 & O2 & L & C & I1 & I2 & E1 & E2 & E3 & E4 & E5 & E6 & E7) Hc Hc'. unfold Finish, initMerger. rewrite I1, I2, <- E7.
  destruct (m_finished a); [cbn; now rewrite C|]. pose proof (same_len _ _ _ _ O1 O2 C) as Ll.
  unfold put_uvarint. rewrite <- E4, <- E5, <- Ll. set (v := varint (to_uint (m_length a))).
  destruct (Nat.leb_spec (m_lenOffset a + length v) (sl_len (m_buf a))); [|reflexivity]. rewrite Hc, Hc'. cbn [fst set_finished m_mem m_buf].
  rewrite !put_contents by (assumption || lia). now rewrite C.
Qed.

Lemma fresh_size ga gb v m ua a ub b : (v = 0 \/ v = 2 \/ v = 3)%N -> raw v m -> g_top ga = g_top gb ->
  initMerger w ga m = (Ok ua, a) -> initMerger w' gb m = (Ok ub, b) -> msim a b.
Proof.
  intros Hv R Et Ea Eb.
  destruct (init_state w _ _ _ _ _ Hv R Ea) as (Ca & Sa & Oa & La). destruct (init_state w' _ _ _ _ _ Hv R Eb) as (Cb & Sb & Ob & Lb).
  pose proof (init_raw w _ _ _ _ _ Hv R Ea) as [(_ & A1 & A2 & A3 & A4 & A5 & A6 & _) Fa].
  pose proof (init_raw w' _ _ _ _ _ Hv R Eb) as [(_ & B1 & B2 & B3 & B4 & B5 & B6 & _) Fb].
  repeat split; auto; try congruence; try apply A5; try apply B5. lia.
Qed.

(** two runs, up to the start of Finish *)
Lemma any_states v calls calls' rs m g g' : (v = 0 \/ v = 2 \/ v = 3)%N -> Forall2 resized_call calls calls' ->
  resized g g' -> (forall c, In c calls \/ In c calls' -> (g_top (c_conf c) = 0 \/ g_top (c_conf c) = 1)%N /\ usable (c_conf c)) ->
  (g_top g = 0 \/ g_top g = 1)%N -> usable g -> usable g' ->
  append_each k w (new_merger v) calls = (rs, m) ->
  Forall2 (fun c r => calm k w (c_conf c) (c_doc c) (c_spare c) \/ exists n, r = Ok n) calls rs ->
  exists m', append_each k w' (new_merger v) calls' = (rs, m') /\
    exists a b, msim a b /\ (a = m \/ (raw v m /\ calls = [] /\ exists u, initMerger w g m = (Ok u, a))) /\
      Finish k w g m = Finish k w g a /\ Finish k w' g' m' = Finish k w' g' b.
Proof.
  intros Hv F Rg St Tg Ug Ug' A G. pose proof Rg as (Et & Ec & _). pose proof (raw_new v) as Rn.
  destruct calls as [|c calls]; inversion F as [|? c' ? l' Rc F']; subst.
  - cbn [append_each] in *. injection A as <- <-. exists (new_merger v). split; [reflexivity|].
    destruct (init_succeeds w g v _ Hv Rn Tg Ug) as (ma & Ea). destruct (init_succeeds w' g' v _ Hv Rn ltac:(now rewrite <- Et) Ug') as (mb & Eb).
    exists ma, mb. split; [eapply fresh_size; eauto|]. split; [right; eauto|].
    rewrite (finish_init_any k w g _ _ ma Ea) by (eapply init_inited; eauto). rewrite (finish_init_any k w' g' _ _ mb Eb) by (eapply init_inited; eauto). auto.
  - destruct (St c ltac:(left; now left)) as [T1 U1]. destruct (St c' ltac:(right; now left)) as [T2 U2].
    destruct (init_succeeds w (c_conf c) v _ Hv Rn T1 U1) as (ma & Ea). destruct (init_succeeds w' (c_conf c') v _ Hv Rn T2 U2) as (mb & Eb).
    assert (Em : append_each k w (new_merger v) (c :: calls) = append_each k w ma (c :: calls)).
    { cbn [append_each]. now rewrite (append_init_any k w _ _ _ ma (c_doc c) (c_spare c) Ea) by (eapply init_inited; eauto). }
    assert (Em' : append_each k w' (new_merger v) (c' :: l') = append_each k w' mb (c' :: l')).
    { cbn [append_each]. now rewrite (append_init_any k w' _ _ _ mb (c_doc c') (c_spare c') Eb) by (eapply init_inited; eauto). }
    rewrite Em in A. rewrite Em'. pose proof (proj1 Rc) as (Tc & _).
    destruct (each_size _ _ _ _ _ _ F (fresh_size _ _ _ _ _ _ _ _ Hv Rn Tc Ea Eb) A G) as (b' & E & S).
    exists b'. split; [exact E|]. exists m, b'. auto.
Qed.

Theorem any_size v calls calls' rs m g g' : (v = 0 \/ v = 2 \/ v = 3)%N -> Forall2 resized_call calls calls' ->
  resized g g' -> (forall c, In c calls \/ In c calls' -> (g_top (c_conf c) = 0 \/ g_top (c_conf c) = 1)%N /\ usable (c_conf c)) ->
  (g_top g = 0 \/ g_top g = 1)%N -> usable g -> usable g' -> g_comp g = None ->
  append_each k w (new_merger v) calls = (rs, m) ->
  Forall2 (fun c r => calm k w (c_conf c) (c_doc c) (c_spare c) \/ exists n, r = Ok n) calls rs ->
  exists m', append_each k w' (new_merger v) calls' = (rs, m') /\ fst (Finish k w g m) = fst (Finish k w' g' m').
Proof.
  intros Hv F Rg St Tg Ug Ug' Hc A G. pose proof Rg as (_ & Ec & _).
  destruct (any_states _ _ _ _ _ _ _ Hv F Rg St Tg Ug Ug' A G) as (m' & E & a & b & S & _ & Fa & Fb).
  exists m'. split; [exact E|]. rewrite Fa, Fb. apply finish_size; [exact S|exact Hc|congruence].
Qed.

(** ** Finish with compression *)
Lemma finish_size_comp top ver sum g g' g0 a b c out a' out' b' out0 a0 : msim a b -> ready top ver sum a -> m_finished a = false ->
  (0 <= sum < 34359738368)%Z -> (ver = 2 \/ ver = 3)%N -> resized g g' -> g_comp g = Some c ->
  g_comp g0 = None -> Finish k w g0 a = (Ok out0, a0) ->
  (forall z, compress k c (skipn 6 out0) = Ok z -> length z <= length (skipn 6 out0) \/ c = CSnappy true) ->
  Finish k w g a = (Ok out, a') -> Finish k w' g' b = (Ok out', b') -> out = out'.
Proof.
  intros (O1 & O2 & L & C & I1 & I2 & E1 & E2 & E3 & E4 & E5 & E6 & E7) R Fa Hs Hv (_ & Ec & Eh & _) Hc G0 F0 Lz H H'.
  pose proof (same_len _ _ _ _ O1 O2 C) as Ll.
  unfold Finish in F0, H, H'. rewrite (init_ready w _ _ _ _ _ R), Fa in F0. rewrite (init_ready w _ _ _ _ _ R), Fa in H. unfold initMerger in H'. rewrite I2, <- E7, Fa in H'.
  pose proof (put_ready _ _ _ _ R Hs Hv) as (mem & rest & Pu & O & Cm & _). rewrite Pu, G0 in F0. rewrite Pu, Hc in H.
  injection F0 as F0 _. cbn [set_finished m_mem m_buf] in H, F0.
  assert (Pb : exists mem', put_uvarint (m_mem b) (m_buf b) (m_lenOffset b) (m_length b) = Ok mem' /\
    slice_ok mem' (m_buf b) /\ contents mem' (m_buf b) = contents mem (m_buf a)).
  { clear - Pu O1 O2 L Ll C E4 E5. unfold put_uvarint in *. rewrite <- E4, <- E5, <- Ll. set (v := varint _) in *. clearbody v.
    destruct (Nat.leb_spec (m_lenOffset a + length v) (sl_len (m_buf a))) as [Lb|]; [|discriminate]. injection Pu as <-.
    eexists. split; [reflexivity|]. rewrite !put_contents by (assumption || lia). split; [|now rewrite C].
    destruct O2 as [O2 O3]. split; [exact O2|]. destruct O3 as [O3|O3]; [now left|right].
    rewrite array_upd_same by (apply array_long; lia). rewrite overwrite_length by lia. exact O3. }
  destruct Pb as (mem' & Pb & O' & C'). rewrite Pb, <- Ec, Hc, <- Eh in H'. cbn [set_finished m_mem m_buf] in H'. rewrite <- Ll in H'.
  set (body := opening top ++ varint (Z.to_N sum) ++ rest) in *.
  assert (Sk : skipn 6 out0 = body).
  { rewrite <- F0, Cm. destruct Hv as [->| ->]; reflexivity. }
  rewrite Sk in Lz.
  destruct (_ || _)%Z; [|injection H as <- _; injection H' as <- _; now rewrite C'].
  assert (Nn : forall g m r, finish_comp k g m c <> (Ok None, r)).
  { clear. intros g m r Fc. unfold finish_comp in Fc. destruct (reslice _ _ _); [|discriminate].
    destruct (compress_at _ _ _ _) as [[]| | | |]; try discriminate. destruct (reslice _ _ _); [|discriminate].
    destruct c as [[]| |]; try discriminate. destruct (_ <? _)%N; discriminate. }
  destruct (finish_comp k g (set_finished a mem) c) as [[[o|]|? |? | |] m2] eqn:Fc; try discriminate; [|now elim (Nn _ _ _ Fc)].
  destruct (finish_comp k g' (set_finished b mem') c) as [[[o'|]|? |? | |] m3] eqn:Fd; try discriminate; [|now elim (Nn _ _ _ Fd)].
  cbn [bind] in H, H'. injection H as <- _. injection H' as <- _.
  destruct (finish_comp_result k g (set_finished a mem) c ver body o m2) as [_ (z & Z1 & Z2)];
    [exact O|apply R|apply R|exact Hv|exact Cm|exact Fc|].
  destruct (finish_comp_result k g' (set_finished b mem') c ver body o' m3) as [_ (z' & Z1' & Z2')];
    [exact O'|cbn; rewrite <- E6; apply R|cbn; rewrite <- E3; apply R|exact Hv|cbn; rewrite C'; exact Cm|exact Fd|].
  rewrite Z1 in Z1'. injection Z1' as <-. rewrite Z2, Z2' by (now apply Lz). reflexivity.
Qed.
End Size.
