(** Whether Append accepts a document, and what it returns, does not depend on the buffer, the
    tables and DedupeStrings. *)
From Verif Require Import Base BaseFacts Varint Tags Codecs Compress Header GoMem GoSlice
  Merge MergeRun MergeSafe MergeProps MergeSim MergeApi SpecSize.

(** related results, unless one of the two is a crash *)
Definition agree {A B} (P : A -> B -> Prop) (x : res A) (y : res B) : Prop :=
  x = Crash \/ y = Crash \/
  match x, y with
  | Ok a, Ok b => P a b | Err e, Err e' => e = e' | Panic e, Panic e' => e = e' | NoFuel, NoFuel => True
  | _, _ => False
  end.

Lemma agree_ok {A B} (P : A -> B -> Prop) a b : P a b -> agree P (Ok a) (Ok b).
Proof. intros H. (right; right; easy). Qed.
Lemma agree_bind {A B C D} (P : A -> B -> Prop) (Q : C -> D -> Prop) x y f g :
  agree P x y -> (forall a b, P a b -> agree Q (f a) (g b)) -> agree Q (bind x f) (bind y g).
Proof.
  intros [->|[->|H]] K; [now left|right; left; reflexivity|].
  destruct x, y; cbn [bind] in *; try contradiction; [now apply K|subst; (right; right; easy)|subst; (right; right; easy)|(right; right; easy)].
Qed.
Lemma agree_same {A B C} (Q : B -> C -> Prop) (x : res A) f g : (forall a, agree Q (f a) (g a)) -> agree Q (bind x f) (bind x g).
Proof. intros K. destruct x; cbn [bind]; [apply K|..]; first [now left|right; right; easy]. Qed.
Lemma agree_left {A B C} (Q : B -> C -> Prop) (x : res A) f y : (forall e, x <> Err e) -> (forall e, x <> Panic e) -> x <> NoFuel ->
  (forall a, agree Q (f a) y) -> agree Q (bind x f) y.
Proof. intros N1 N2 N3 K. destruct x; cbn [bind]; try congruence; [apply K|now left]. Qed.
Lemma agree_right {A B C} (Q : C -> B -> Prop) (x : res A) f y : (forall e, x <> Err e) -> (forall e, x <> Panic e) -> x <> NoFuel ->
  (forall a, agree Q y (f a)) -> agree Q y (bind x f).
Proof. intros N1 N2 N3 K. destruct x; cbn [bind]; try congruence; [apply K|right; left; reflexivity]. Qed.

(** the same tags have been met *)
Definition tsame (t t' : list (nat * option nat)) : Prop := Forall2 (fun x y => fst x = fst y /\ (snd x = None <-> snd y = None)) t t'.
Lemma tsame_find t t' n : tsame t t' -> (tfind n t = None <-> tfind n t' = None).
Proof.
  induction 1 as [|[i v] [j u] t t' [E1 E2] F IH]; [reflexivity|]. cbn [fst snd] in E1, E2. subst j. cbn [tfind].
  destruct (Nat.eqb i n); [exact E2|exact IH].
Qed.

Definition esame (f f' : effect) : Prop := f_adv f = f_adv f' /\ f_push f = f_push f' /\ f_fake f = f_fake f'.

Lemma varint_crash b n : (forall e, tagVarint b n <> Err e) /\ (forall e, tagVarint b n <> Panic e) /\ tagVarint b n <> NoFuel.
Proof. unfold tagVarint. destruct (_ <? _)%Z; repeat split; discriminate. Qed.
Lemma drange_crash d i j : (forall e, drange d i j <> Err e) /\ (forall e, drange d i j <> Panic e) /\ drange d i j <> NoFuel.
Proof. unfold drange. destruct (slice_range _ _ _); repeat split; discriminate. Qed.

Ltac l_varint := apply agree_left; [apply varint_crash|apply varint_crash|apply varint_crash|intros ?].
Ltac r_varint := apply agree_right; [apply varint_crash|apply varint_crash|apply varint_crash|intros ?].
Ltac l_drange := apply agree_left; [apply drange_crash|apply drange_crash|apply drange_crash|intros ?].
Ltac r_drange := apply agree_right; [apply drange_crash|apply drange_crash|apply drange_crash|intros ?].
Ltac fine := apply agree_ok; repeat split.

Lemma tag_judge d s s' o o' t t' i r r' dd dd' b : tsame t t' ->
  agree esame (merge_tag d s o t i r dd b) (merge_tag d s' o' t' i r' dd' b).
Proof.
  intros T. unfold merge_tag. destruct (merge_kind (untrack b)).
  - fine.
  - fine.
  - destruct (varintdecode _); [|right; right; easy]. apply agree_same. intros; fine.
  - apply agree_same. intros; fine.
  - apply agree_same. intros [ln sz]. destruct (_ || _); [(right; right; easy)|]. destruct (Nat.ltb _ _); [(right; right; easy)|].
    apply agree_same. intros x.
    destruct dd; [destruct (assoc _ s); [l_varint|]|]; (destruct dd'; [destruct (assoc _ s'); [r_varint|]|]); fine.
  - destruct (varintdecode _) as [off sz|]; [|right; right; easy].
    destruct (off <? 0)%Z; [(right; right; easy)|]. pose proof (tsame_find _ _ (Z.to_nat off) T) as E.
    destruct (tfind _ t), (tfind _ t'); try (exfalso; destruct E as [E1 E2]; (discriminate (E1 eq_refl) || discriminate (E2 eq_refl))); [|(right; right; easy)].
    l_varint. r_varint. fine.
  - destruct (varintdecode _); [|right; right; easy]. destruct (_ <? 0)%Z; [(right; right; easy)|]. apply agree_same. intros; fine.
  - fine.
  - apply agree_same. intros [o1 s1]. apply agree_same. intros [o2 s2]. apply agree_same. intros; fine.
  - apply agree_same. intros [off cls].
    destruct (assoc cls o); [l_varint|l_drange]; (destruct (assoc cls o'); [r_varint|r_drange]); fine.
  - (right; right; easy).
  - (right; right; easy).
Qed.

Definition jsame (a b : mstate) : Prop :=
  s_idx a = s_idx b /\ s_stack a = s_stack b /\ s_tidx a = s_tidx b /\ tsame (s_ttab a) (s_ttab b).

Lemma step_judge w w' g g' bo bo' d a b : jsame a b ->
  agree (fun x y => match x, y with None, None => True | Some a, Some b => jsame a b | _, _ => False end)
    (merge_step w g bo d a) (merge_step w' g' bo' d b).
Proof.
  intros (E1 & E2 & E3 & T). unfold merge_step. rewrite <- E1, <- E2, <- E3.
  destruct (nth_error (md_buf d) (s_idx a)) as [t|]; [|now apply agree_ok]. destruct (pop_stack (s_stack a)) as [|c rest]; [now apply agree_ok|].
  eapply agree_bind; [apply tag_judge, T|]. intros f f' (F1 & F2 & F3).
  destruct (w_append w _ _ _) as [s1 m1]. destruct (w_append w' _ _ _) as [s2 m2].
  set (x := match f_track f with Some i => _ | None => _ end). set (y := match f_track f' with Some i => _ | None => _ end).
  assert (X : (exists m, x = Ok m) \/ x = Crash).
  { unfold x, set_track. destruct (f_track f); [destruct (Nat.ltb _ _)|]; eauto. }
  assert (Y : (exists m, y = Ok m) \/ y = Crash).
  { unfold y, set_track. destruct (f_track f'); [destruct (Nat.ltb _ _)|]; eauto. }
  destruct X as [[mx ->]| ->]; [|now left]. destruct Y as [[my ->]| ->]; [|right; left; reflexivity]. cbn [bind].
  apply agree_ok. unfold jsame. cbn [s_idx s_stack s_tidx s_ttab]. rewrite F1, F2, F3.
  repeat (split; [reflexivity|]). destruct (match s_tidx a with [] => _ | i :: _ => _ end); [|exact T].
  constructor; [|exact T]. split; [reflexivity|]. cbn. split; discriminate.
Qed.

Lemma loop_judge w w' g g' bo bo' d : forall fuel a b, jsame a b ->
  agree (fun _ _ => True) (fst (merge_loop w fuel g bo d a)) (fst (merge_loop w' fuel g' bo' d b)).
Proof.
  induction fuel as [|fuel IH]; intros a b S; rewrite !loop_unfold; destruct (step_judge w w' g g' bo bo' d a b S) as [->|[->|H]];
    try (now left); try (right; left; reflexivity);
    destruct (merge_step w g bo d a) as [[a'|]|? |? | |], (merge_step w' g' bo' d b) as [[b'|]|? |? | |]; try contradiction;
    try (subst; right; right; easy).
  apply IH, H.
Qed.

Lemma tsame_refl t : tsame t t.
Proof. induction t; constructor; [split; reflexivity|assumption]. Qed.

Theorem append_judge k w w' g g' m m' doc spare : w_spare w = w_spare w' -> g_top g = g_top g' -> g_flat g = g_flat g' ->
  m_inited m = true -> m_inited m' = true -> m_finished m = false -> m_finished m' = false ->
  agree eq (fst (Append k w g m doc spare)) (fst (Append k w' g' m' doc spare)).
Proof.
  intros Hw Et Ef I1 I2 F1 F2. unfold Append, initMerger. rewrite I1, I2, F1, F2.
  replace (merger_doc k w' doc spare) with (merger_doc k w doc spare) by (unfold merger_doc; now rewrite Hw).
  destruct (bind (merger_doc k w doc spare) _) as [[d tracked]|? |? | |]; cbn [bind fst]; try (right; right; easy); [|now left].
  destruct (w_append w _ _ _) as [s1 m1]. destruct (w_append w' _ _ _) as [s2 m2].
  unfold mergeItems. replace (expectedElements g' (md_buf d)) with (expectedElements g (md_buf d)) by (unfold expectedElements; now rewrite Et, Ef).
  destruct (expectedElements g (md_buf d)) as [[n skip]|? |? | |]; cbn [bind fst]; try (right; right; easy); [|now left].
  destruct (_ || _)%Z; [right; right; easy|].
  cbn [with_buf m_inited m_finished m_version m_bodyOffset m_lenOffset m_length m_mem m_buf m_str m_obj].
  match goal with |- context [merge_loop w ?f g ?bo d ?a] => match goal with |- context [merge_loop w' f g' ?bo' d ?b] =>
    assert (J : jsame a b) by (unfold jsame; cbn; repeat (split; [reflexivity|]); apply tsame_refl);
    pose proof (loop_judge w w' g g' bo bo' d f a b J) as K;
    destruct (merge_loop w f g bo d a) as [r1 f1]; destruct (merge_loop w' f g' bo' d b) as [r2 f2] end end.
  cbn [fst] in K. destruct K as [->|[->|K]]; [now left|right; left; reflexivity|].
  destruct r1, r2; try contradiction; cbn [bind fst m_length]; try (subst; right; right; easy).
  right; right. now rewrite !wrap64_diff.
Qed.
