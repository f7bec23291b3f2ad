(** C74: what ExpectedSize and the growth of slices change in a Merger's results.

    [resized], [resized_call], [usable] (SpecSize.v): settings and calls that differ in ExpectedSize
    only; values of ExpectedSize with which a Merger can start; [append_each] (Merge.v): a new
    Merger given documents, each accepted or not; [refers] (SpecCut.v): REFP or ALIAS tags are
    read; [sum_of]: Props_Merge.v.  [mworld] (Merge.v): the capacities that append chooses, and what lies beyond a
    decompressed document. *)
From Verif Require Import Base BaseFacts Tags Codecs Encode Compress Header GoMem Spec SpecDoc GoSlice
  SpecShape SpecAccept SpecTaken SpecCut Merge SpecMerge MergeRun MergeProps MergeSim MergeFinish MergeApi SpecSize SizeFacts
  Cases Props_Merge.

(** C74 as one would state it. *)
Definition expected_size_is_a_hint : Prop := forall k w v top calls calls' g g',
  (v = 0 \/ v = 2 \/ v = 3)%N -> (top = 0 \/ top = 1)%N ->
  Forall2 resized_call calls calls' -> resized g g' -> g_top g = top -> Forall (fun c => g_top (c_conf c) = top) calls ->
  (forall c, In c calls \/ In c calls' -> usable (c_conf c)) -> usable g -> usable g' -> g_comp g = None ->
  let '(rs, m) := append_each k w (new_merger v) calls in
  let '(rs', m') := append_each k w (new_merger v) calls' in
  rs = rs' /\ fst (Finish k w g m) = fst (Finish k w g' m').

Definition tight : mworld := mkMWorld (fun _ n => n) (fun _ => []).
Definition dd (n : nat) : mconfig := mkMConfig 0 None 0 true false n.
Definition dcall (n : nat) (b : bytes) : call := mkCall (dd n) b [].
(** a string of 150 bytes and "aaa"; then "aaa" four more times, a reference to it, and a COPY of
    something that is no value *)
Definition first_doc : bytes := with3 ([x2b; x02; x26; x96; x01] ++ repeat x62 150 ++ [x63; x61; x61; x61]).
Definition second_doc : bytes := with3 [x2b; x07; x63; x61; x61; x61; x2f; x03; x2f; x03; x2f; x03; x2f; x03; x29; x03; x2f; x04].


(** An Append that fails after a REFP: with room for the output the wrong track flag (C31) is left in
    the string of the first document; without, in an abandoned copy of the buffer. *)
Theorem C74_size_refuted : ~ expected_size_is_a_hint.
Proof.
  intros H.
  specialize (H k0 tight 3%N 0%N [dcall 0 first_doc; dcall 0 second_doc] [dcall 1000 first_doc; dcall 0 second_doc] (dd 0) (dd 0)).
  assert (U : forall c, In c [dcall 0 first_doc; dcall 0 second_doc] \/ In c [dcall 1000 first_doc; dcall 0 second_doc] -> usable (c_conf c)).
  { intros c [[<-|[<-|[]]]|[<-|[<-|[]]]]; unfold usable; cbn [c_conf dcall dd g_expected]; lia. }
  specialize (H ltac:(auto) ltac:(auto)).
  assert (K : forall n b, resized_call (dcall 0 b) (dcall n b)) by (intros n b; repeat split).
  specialize (H ltac:(repeat constructor; apply K) ltac:(repeat split) ltac:(reflexivity) ltac:(repeat constructor) U
    ltac:(now left) ltac:(now left) ltac:(reflexivity)).
  destruct (append_each k0 tight (new_merger 3) [dcall 0 first_doc; dcall 0 second_doc]) as [rs m] eqn:E1.
  destruct (append_each k0 tight (new_merger 3) [dcall 1000 first_doc; dcall 0 second_doc]) as [rs' m'] eqn:E2.
  destruct H as [_ H]. vm_compute in E1, E2. injection E1 as _ <-. injection E2 as _ <-. vm_compute in H. discriminate H.
Qed.
Print Assumptions C74_size_refuted.

(** Whatever ExpectedSize is, and however append grows slices, the calls return the same, and
    Finish the same document.  Missing: rejected documents in which REFP or ALIAS tags are read
    before the error (refuted above); Finish with compression, which needs capacity (C32; see
    below). *)
Theorem C74_size_partial : forall k w w' v calls calls' rs m g g',
  w_spare w = w_spare w' -> (v = 0 \/ v = 2 \/ v = 3)%N -> Forall2 resized_call calls calls' -> resized g g' ->
  (forall c, In c calls \/ In c calls' -> (g_top (c_conf c) = 0 \/ g_top (c_conf c) = 1)%N /\ usable (c_conf c)) ->
  (g_top g = 0 \/ g_top g = 1)%N -> usable g -> usable g' -> g_comp g = None ->
  append_each k w (new_merger v) calls = (rs, m) ->
  Forall2 (fun c r => (exists n, r = Ok n) \/
    ((Z.of_nat (length (c_doc c)) < two63)%Z /\ ~ refers k (g_flat (c_conf c)) (g_top (c_conf c)) (c_doc c))) calls rs ->
  exists m', append_each k w' (new_merger v) calls' = (rs, m') /\ fst (Finish k w g m) = fst (Finish k w' g' m').
Proof.
  intros k w w' v calls calls' rs m g g' Hw Hv F Rg St Tg Ug Ug' Hc A G.
  apply (any_size k w w' Hw v calls calls' rs m g g'); auto.
  clear - G. induction G as [|c r cs rs [S|[L N]] G IH]; constructor; auto. left. now apply quiet_calm.
Qed.
Print Assumptions C74_size_partial.

(** With compression the same document is returned if one is, provided the compressor does not
    make the body longer (where it does, C32 is refuted), or is Snappy. *)
Theorem C74_compressed_partial : forall k w w' v top calls calls' rs m rs' m' g g' c out0 out out' s0 s1 s2,
  w_spare w = w_spare w' -> (v = 0 \/ v = 2 \/ v = 3)%N -> (top = 0 \/ top = 1)%N ->
  Forall2 resized_call calls calls' -> resized g g' ->
  (forall c, In c calls \/ In c calls' -> g_top (c_conf c) = top /\ usable (c_conf c)) ->
  g_top g = top -> usable g -> usable g' -> g_comp g = Some c ->
  append_each k w (new_merger v) calls = (rs, m) -> append_each k w' (new_merger v) calls' = (rs', m') ->
  Forall2 (fun c r => (exists n, r = Ok n) \/
    ((Z.of_nat (length (c_doc c)) < two63)%Z /\ ~ refers k (g_flat (c_conf c)) (g_top (c_conf c)) (c_doc c))) calls rs ->
  (sum_of rs < 34359738368)%Z ->
  Finish k w (mkMConfig (g_top g) None (g_threshold g) (g_dedupe g) (g_flat g) (g_expected g)) m = (Ok out0, s0) ->
  (forall z, compress k c (skipn 6 out0) = Ok z -> length z <= length (skipn 6 out0) \/ c = CSnappy true) ->
  Finish k w g m = (Ok out, s1) -> Finish k w' g' m' = (Ok out', s2) -> rs = rs' /\ out = out'.
Proof.
  intros k w w' v top calls calls' rs m rs' m' g g' c out0 out out' s0 s1 s2 Hw Hv Ht F Rg St Tg Ug Ug' Hc A A' G Hs F0 Lz H H'.
  assert (G' : Forall2 (fun c r => calm k w (c_conf c) (c_doc c) (c_spare c) \/ exists n, r = Ok n) calls rs).
  { clear - G. induction G as [|c r cs rs [S|[L N]] G IH]; constructor; auto. left. now apply quiet_calm. }
  assert (St' : forall c, In c calls \/ In c calls' -> (g_top (c_conf c) = 0 \/ g_top (c_conf c) = 1)%N /\ usable (c_conf c)).
  { intros x Hx. destruct (St x Hx) as [-> U]. auto. }
  destruct (any_states k w w' Hw v calls calls' rs m g g' Hv F Rg St' ltac:(now rewrite Tg) Ug Ug' A G')
    as (m2 & E & a & b & S & Ea & Fa & Fb).
  rewrite A' in E. injection E as -> ->. split; [reflexivity|]. rewrite Fa in H. rewrite Fb in H'.
  rewrite sum_total in Hs. destruct (each_new k w top v calls rs m Hv) as ((Fi & Hi) & Pn & _); [|exact A|].
  { apply Forall_forall. intros x Hx. now apply St; left. }
  set (g0' := mkMConfig _ _ _ _ _ _) in F0.
  assert (Ra : ready top (out_version v) (total rs) a /\ m_finished a = false /\ Finish k w g0' a = (Ok out0, s0)).
  { destruct Ea as [->|(R & -> & u & Ei)].
    - destruct Hi as [[(R & _) _]|R]; [exfalso; destruct S as (_ & _ & _ & _ & I1 & _); congruence|auto].
    - cbn [append_each] in A. injection A as <- <-. destruct (init_raw w g v _ _ _ Hv R Ei) as [R' F'].
      rewrite Tg in R'. split; [exact R'|]. split; [exact F'|]. rewrite <- F0. symmetry.
      apply (finish_init_any k w g0' _ u a); [exact Ei|apply R']. }
  destruct Ra as (Ra & Fna & Fa0).
  assert (Hv' : (out_version v = 2 \/ out_version v = 3)%N) by (unfold out_version; destruct Hv as [->|[->| ->]]; cbn; auto).
  exact (finish_size_comp k w w' top _ _ g g' g0' a b c out s1 out' s2 out0 s0 S Ra Fna ltac:(lia) Hv' Rg Hc eq_refl Fa0 Lz H H').
Qed.
Print Assumptions C74_compressed_partial.

(** Three documents, the second rejected: no capacity asked for and none to spare, or plenty. *)
Example C74_case :
  let bad := [x2b; x02; x63; x2a; x29; x2c; x2f; x04] in
  let calls n := [mkCall (mg None false n) (with3 [x05]) []; app (with3 bad); app (with3 (hash1 x06))] in
  fst (append_each k0 tight (new_merger 3) (calls 0)) = [Ok 1%Z; Err EBadTarget; Ok 1%Z] /\
  ~ refers k0 false 0 (with3 bad) /\ Forall2 resized_call (calls 0) (calls 500) /\
  w_spare tight = w_spare w0 /\
  fst (Finish k0 tight g0 (snd (append_each k0 tight (new_merger 3) (calls 0)))) =
    fst (Finish k0 w0 g0 (snd (append_each k0 w0 (new_merger 3) (calls 500)))).
Proof.
  split; [vm_compute; reflexivity|]. split; [exact (proj1 (proj2 C30_case))|].
  split; [repeat constructor|]. split; [reflexivity|vm_compute; reflexivity].
Qed.

(** compressed with Snappy, with capacities 500 and 900 asked for *)
Example C74_compressed_case :
  let calls n := [mkCall (mg (Some (CSnappy true)) false n) (with3 [x05]) []] in
  let fin w n := fst (Finish k0 w (mg (Some (CSnappy true)) false 0) (snd (append_each k0 w (new_merger 3) (calls n)))) in
  Forall2 resized_call (calls 500) (calls 900) /\ fin tight 500 = fin w0 900 /\ exists out, fin w0 900 = Ok out /\ nth 4 out x00 = x23.
Proof. split; [repeat constructor|]. split; [vm_compute; reflexivity|]. eexists. split; [vm_compute; reflexivity|reflexivity]. Qed.
