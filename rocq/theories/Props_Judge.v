(** C75: what Append answers depends on the document, TopLevelElement and KeepFlat alone.

    [append_each], [append_all] (Merge.v): a new Merger given documents, each accepted or not, or
    all accepted; [usable] (SpecSize.v): values of ExpectedSize with which a Merger can start;
    [hazard], [body_taken] (SpecCut.v): what Append may panic on (C33), and the body of a
    document.  [mworld] (Merge.v): the capacities that append chooses, and what lies beyond a
    decompressed document. *)
From Verif Require Import Base BaseFacts Tags Codecs Encode Compress Header GoMem Spec SpecDoc GoSlice
  SpecShape SpecAccept SpecTaken SpecCut Merge SpecMerge MergeRun MergeProps MergeSim MergeFinish MergeApi SpecSize JudgeFacts
  Cases Props_Merge.

(** C75 as one would state it: two Mergers, with any documents given to them before, successfully
    or not, answer alike. *)
Definition same_answer : Prop := forall k w v v' top before before' rs rs' m m' g g' doc spare,
  (v = 0 \/ v = 2 \/ v = 3)%N -> (v' = 0 \/ v' = 2 \/ v' = 3)%N -> (top = 0 \/ top = 1)%N ->
  Forall (fun c => g_top (c_conf c) = top) before -> Forall (fun c => g_top (c_conf c) = top) before' ->
  append_each k w (new_merger v) before = (rs, m) -> append_each k w (new_merger v') before' = (rs', m') ->
  g_top g = top -> g_top g' = top -> g_flat g = g_flat g' -> usable g -> usable g' ->
  fst (Append k w g m doc spare) = fst (Append k w g' m' doc spare).

Theorem C75_answer_refuted : ~ same_answer.
Proof.
  intros H.
  destruct C33_after_failure_refuted as (k & w & m & bad & good & e & m1 & A & B & _ & G1 & G2).
  cbn [append_all] in A. injection A as <-.
  specialize (H k w 3%N 3%N 0%N [] [app bad] [] [Err e] (new_merger 3) m1 g0 g0 good [] ltac:(auto) ltac:(auto) ltac:(auto)
    ltac:(constructor) ltac:(repeat constructor) eq_refl).
  cbn [append_each app c_conf c_doc c_spare] in H. rewrite B in H.
  specialize (H eq_refl eq_refl eq_refl eq_refl ltac:(now left) ltac:(now left)). congruence.
Qed.
Print Assumptions C75_answer_refuted.

(** Unless one of them panics, two Mergers of any versions return the same count or the same error
    for a document, whatever they were given before, with any other settings, and however
    their buffers grow. *)
Theorem C75_answer_partial : forall k w w' v v' top before before' rs rs' m m' g g' doc spare,
  w_spare w = w_spare w' -> (v = 0 \/ v = 2 \/ v = 3)%N -> (v' = 0 \/ v' = 2 \/ v' = 3)%N -> (top = 0 \/ top = 1)%N ->
  Forall (fun c => g_top (c_conf c) = top) before -> Forall (fun c => g_top (c_conf c) = top) before' ->
  append_each k w (new_merger v) before = (rs, m) -> append_each k w' (new_merger v') before' = (rs', m') ->
  g_top g = top -> g_top g' = top -> g_flat g = g_flat g' -> usable g -> usable g' ->
  fst (Append k w g m doc spare) <> Crash -> fst (Append k w' g' m' doc spare) <> Crash ->
  fst (Append k w g m doc spare) = fst (Append k w' g' m' doc spare).
Proof.
  intros k w w' v v' top before before' rs rs' m m' g g' doc spare Hw Hv Hv' Ht F F' A A' Tg Tg' Ef Ug Ug'.
  assert (K : forall w v before rs m g, (v = 0 \/ v = 2 \/ v = 3)%N -> Forall (fun c => g_top (c_conf c) = top) before ->
    append_each k w (new_merger v) before = (rs, m) -> g_top g = top -> usable g ->
    exists a, m_inited a = true /\ m_finished a = false /\ Append k w g m doc spare = Append k w g a doc spare).
  { clear - Ht. intros w v before rs m g Hv F A Tg Ug. destruct (each_new k w top v before rs m Hv F A) as ((Fi & [[R _]|R]) & _).
    - destruct (init_succeeds w g v m Hv R ltac:(now rewrite Tg) Ug) as (a & E).
      pose proof (init_raw w g v m _ a Hv R E) as [Ra Fa]. exists a. split; [apply Ra|]. split; [exact Fa|].
      eapply append_init_any; [exact E|apply Ra].
    - exists m. split; [apply R|]. auto. }
  destruct (K w v before rs m g Hv F A Tg Ug) as (a & I1 & F1 & E1).
  destruct (K w' v' before' rs' m' g' Hv' F' A' Tg' Ug') as (b & I2 & F2 & E2). rewrite E1, E2. intros N1 N2.
  destruct (append_judge k w w' g g' a b doc spare Hw ltac:(congruence) Ef I1 I2 F1 F2) as [C|[C|H]]; [contradiction|contradiction|].
  destruct (fst (Append k w g a doc spare)), (fst (Append k w' g' b doc spare)); try contradiction; congruence.
Qed.
Print Assumptions C75_answer_partial.

(** Without a proviso, after calls that succeeded, for documents without the hazards of C33. *)
Theorem C75_after_success : forall k w w' v v' top before before' m m' g g' doc spare,
  w_spare w = w_spare w' -> (v = 0 \/ v = 2 \/ v = 3)%N -> (v' = 0 \/ v' = 2 \/ v' = 3)%N -> (top = 0 \/ top = 1)%N ->
  Forall (fun c => g_top (c_conf c) = top) before -> Forall (fun c => g_top (c_conf c) = top) before' ->
  append_all k w (new_merger v) before = Some m -> append_all k w' (new_merger v') before' = Some m' ->
  g_top g = top -> g_top g' = top -> g_flat g = g_flat g' -> usable g -> usable g' ->
  (Z.of_nat (length doc) < two63)%Z -> ~ hazard k (g_flat g) top doc ->
  (forall body, body_taken k doc body ->
     N.of_nat (sl_len (m_buf m) + 11 * length body) < 9223372036854775000 /\
     N.of_nat (sl_len (m_buf m') + 11 * length body) < 9223372036854775000)%N ->
  fst (Append k w g m doc spare) = fst (Append k w' g' m' doc spare).
Proof.
  intros k w w' v v' top before before' m m' g g' doc spare Hw Hv Hv' Ht F F' A A' Tg Tg' Ef Ug Ug' Ld Hz Sz.
  assert (K : forall w before a m, append_all k w a before = Some m -> exists rs, append_each k w a before = (rs, m)).
  { clear. intros w. induction before as [|c l IH]; intros a m A; cbn [append_all append_each] in *; [injection A as <-; eauto|].
    destruct (Append k w (c_conf c) a (c_doc c) (c_spare c)) as [[n|? |? | |] a1]; try discriminate.
    destruct (IH _ _ A) as (rs & ->). eauto. }
  destruct (K _ _ _ _ A) as (rs & E). destruct (K _ _ _ _ A') as (rs' & E').
  apply (C75_answer_partial k w w' v v' top before before' rs rs' m m' g g' doc spare); try assumption.
  - destruct (C33_append_safe_partial k w v before m g doc Hv A Ld ltac:(now rewrite Tg) Ug ltac:(intros b B; apply (Sz b B)) spare) as [S _].
    intros C. rewrite C in S. exact S.
  - destruct (C33_append_safe_partial k w' v' before' m' g' doc Hv' A' Ld ltac:(now rewrite Tg', <- Ef) Ug' ltac:(intros b B; apply (Sz b B)) spare) as [S _].
    intros C. rewrite C in S. exact S.
Qed.
Print Assumptions C75_after_success.

(** A hash given to a new Merger, and to one of version 2 with DedupeStrings that has its key
    already and has rejected a document; a rejected document likewise. *)
Example C75_case :
  let gd := mkMConfig 0 None 0 true false 700 in
  let bad := with3 [x2b; x02; x62; x61; x61; x2f; x04] in
  let m' := snd (append_each k0 w0 (new_merger 2) [app (with3 (hash1 x05)); app bad]) in
  fst (Append k0 w0 g0 (new_merger 3) (with3 (hash1 x06)) []) = Ok 1%Z /\
  fst (Append k0 w0 gd m' (with3 (hash1 x06)) []) = Ok 1%Z /\
  fst (Append k0 w0 g0 (new_merger 3) bad []) = Err EBadTarget /\ fst (Append k0 w0 gd m' bad []) = Err EBadTarget.
Proof. repeat split; vm_compute; reflexivity. Qed.
