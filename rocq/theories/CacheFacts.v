(** Proofs about the struct tag cache. *)
From Verif Require Import Base GoMem TagsCache SpecValue JsonFacts Cache SpecCache.

Section D.
Variable decl : nat -> option (list fdecl).

Definition entry_ok (e : nat * list (bytes * nat)) : Prop :=
  exists fs, decl (fst e) = Some fs /\ snd e = tags_of fs.

Lemma tlookup_In m t x : tlookup m t = Some x -> In (t, x) m.
Proof.
  induction m as [|(t', y) m IH]; cbn; [discriminate|].
  destruct (t =? t') eqn:E; [|auto].
  intros [= ->]. apply Nat.eqb_eq in E. subst. auto.
Qed.

Definition good (c : cache) : Prop := match cmap c with None => True | Some m => Forall entry_ok m end.

Lemma Get_good c t : good c -> good (snd (Get decl c t)) /\
  fst (Get decl c t) = match decl t with Some fs => tags_of fs | None => [] end.
Proof.
  intros G. unfold Get. destruct (decl t) as [fs|] eqn:E; [|auto].
  set (m := match cmap c with None => [] | Some m => m end).
  assert (Gm : Forall entry_ok m) by (unfold m, good in *; destruct (cmap c); auto).
  destruct (tlookup m t) as [x|] eqn:L; cbn.
  - split; [exact Gm|]. apply tlookup_In in L.
    rewrite Forall_forall in Gm. destruct (Gm _ L) as (fs' & D & X). cbn in *. congruence.
  - split; [|reflexivity]. constructor; [|exact Gm]. exists fs. auto.
Qed.

Lemma after_good hist : forall c, good c -> good (after decl hist c).
Proof.
  induction hist as [|t hist IH]; intros c G; cbn [after]; [exact G|].
  apply IH. apply Get_good. exact G.
Qed.

Theorem get_right hist t : right_table decl t (fst (Get decl (after decl hist zero_cache) t)).
Proof.
  assert (G : good (after decl hist zero_cache)) by (apply after_good; exact I).
  destruct (Get_good _ t G) as [_ E]. rewrite E. unfold right_table.
  destruct (decl t); [apply tags_of_table|reflexivity].
Qed.

(** looked-up types stay in the cache *)
Lemma Get_in c t : decl t <> None ->
  exists m x, cmap (snd (Get decl c t)) = Some m /\ tlookup m t = Some x.
Proof.
  intros N. unfold Get. destruct (decl t) as [fs|]; [|congruence].
  destruct (tlookup _ t) as [x|] eqn:L; cbn; eauto.
  do 2 eexists. split; [reflexivity|]. cbn. rewrite Nat.eqb_refl. reflexivity.
Qed.

Lemma Get_keeps c t u m x : cmap c = Some m -> tlookup m u = Some x ->
  exists m' x', cmap (snd (Get decl c t)) = Some m' /\ tlookup m' u = Some x'.
Proof.
  intros E L. unfold Get. destruct (decl t) as [fs|]; [|eauto].
  rewrite E. destruct (tlookup m t) eqn:L2; cbn; eauto.
  destruct (u =? t) eqn:Q; do 2 eexists; (split; [reflexivity|]); cbn; rewrite Q; eauto.
Qed.

Lemma after_keeps hist : forall c u m x, cmap c = Some m -> tlookup m u = Some x ->
  exists m' x', cmap (after decl hist c) = Some m' /\ tlookup m' u = Some x'.
Proof.
  induction hist as [|t hist IH]; intros c u m x E L; cbn [after]; [eauto|].
  destruct (Get_keeps c t u m x E L) as (m' & x' & E' & L'). eapply IH; eauto.
Qed.

Lemma after_in hist : forall c t, In t hist -> decl t <> None ->
  exists m x, cmap (after decl hist c) = Some m /\ tlookup m t = Some x.
Proof.
  induction hist as [|u hist IH]; intros c t J N; [destruct J|]. cbn [after]. destruct J as [<-|J].
  - destruct (Get_in c u N) as (m & x & E & L). eapply after_keeps; eauto.
  - eapply IH; eauto.
Qed.

(** * Interleavings *)

Definition gor_ok (g : gor) : Prop :=
  Forall (fun e => snd e = match decl (fst e) with Some fs => tags_of fs | None => [] end) (got g) /\
  match at_ g with
  | Idle => True
  | AtMake t | AtLookup t => decl t <> None
  | AtStore t m => exists fs, decl t = Some fs /\ m = tags_of fs
  end.

Definition shared_ok (s : shared) : Prop := Forall (Forall entry_ok) (maps s).

Lemma nth_ok s i : shared_ok s -> Forall entry_ok (nth i (maps s) []).
Proof.
  intros H. destruct (nth_in_or_default i (maps s) []) as [I|E].
  - unfold shared_ok in H. rewrite Forall_forall in H. auto.
  - rewrite E. constructor.
Qed.

Lemma Forall_put A (P : A -> Prop) l i x : Forall P l -> P x -> Forall P (firstn i l ++ x :: skipn (S i) l).
Proof.
  intros H X. apply Forall_app. split; [|constructor; [exact X|]].
  - rewrite Forall_forall in *. intros y I. apply H. rewrite <- (firstn_skipn i l). apply in_or_app. auto.
  - rewrite Forall_forall in *. intros y I. apply H. rewrite <- (firstn_skipn (S i) l). apply in_or_app. auto.
Qed.

Lemma gstep_ok g s g' s' a : gstep decl g s = Some (g', s', a) -> gor_ok g -> shared_ok s ->
  gor_ok g' /\ shared_ok s'.
Proof.
  unfold gstep, gor_ok. intros E [Gg Ga] Sh.
  destruct (at_ g) as [|t|t|t m] eqn:A.
  - destruct (todo g) as [|t rest]; [discriminate|].
    destruct (decl t) as [fs|] eqn:D.
    + destruct (field s); injection E as <- <- <-; cbn; repeat split; auto; congruence.
    + injection E as <- <- <-. cbn. repeat split; auto. constructor; [|exact Gg]. cbn. rewrite D. reflexivity.
  - injection E as <- <- <-. cbn. repeat split; auto.
    unfold shared_ok in *. cbn. apply Forall_app. split; auto.
  - destruct (field s) as [i|]; [|discriminate].
    destruct (tlookup _ t) as [x|] eqn:L; injection E as <- <- <-; cbn; repeat split; auto.
    + constructor; [|exact Gg]. cbn. apply tlookup_In in L.
      pose proof (nth_ok s i Sh) as F. rewrite Forall_forall in F.
      destruct (F _ L) as (fs & D & X). cbn in *. rewrite D. exact X.
    + destruct (decl t) as [fs|]; [eauto|congruence].
  - destruct (field s) as [i|]; [|discriminate].
    destruct Ga as (fs & D & ->).
    injection E as <- <- <-. cbn. repeat split; auto.
    + constructor; [|exact Gg]. cbn. rewrite D. reflexivity.
    + unfold shared_ok in *. cbn [maps]. apply Forall_put; [exact Sh|].
      constructor; [exists fs; auto|]. apply nth_ok. exact Sh.
Qed.

Lemma nth_error_Forall A (P : A -> Prop) l i x : Forall P l -> nth_error l i = Some x -> P x.
Proof. rewrite Forall_forall. intros H E. apply H. eapply nth_error_In; eauto. Qed.

Lemma run_ok sched : forall gs s gs' s' tr, run_all decl sched gs s = (gs', s', tr) ->
  Forall gor_ok gs -> shared_ok s -> Forall gor_ok gs' /\ shared_ok s'.
Proof.
  induction sched as [|i sched IH]; intros gs s gs' s' tr E Hg Hs; cbn [run_all] in E.
  - injection E as <- <- <-. auto.
  - destruct (nth_error gs i) as [g|] eqn:N; [|eauto].
    destruct (gstep decl g s) as [[[g1 s1] a]|] eqn:St; [|eauto].
    destruct (run_all decl sched _ s1) as [[gs2 s2] tr2] eqn:R.
    injection E as <- <- <-.
    destruct (gstep_ok _ _ _ _ _ St (nth_error_Forall _ _ _ _ _ Hg N) Hs) as [A B].
    apply (IH _ _ _ _ _ R); [apply Forall_put; auto|auto].
Qed.

Lemma start_ok progs : Forall gor_ok (start progs).
Proof. unfold start. apply Forall_map. apply Forall_forall. intros p _. repeat split; constructor. Qed.

Lemma as_shared_ok c : good c -> shared_ok (as_shared c).
Proof. unfold good, as_shared, shared_ok. destruct (cmap c); cbn; auto. Qed.

Theorem interleaved_right hist progs sched gs s tr :
  run_all decl sched (start progs) (as_shared (after decl hist zero_cache)) = (gs, s, tr) ->
  forall g t x, In g gs -> In (t, x) (got g) -> right_table decl t x.
Proof.
  intros E g t x Ig Ix.
  destruct (run_ok _ _ _ _ _ _ E (start_ok progs)) as [A _].
  { apply as_shared_ok, after_good. exact I. }
  rewrite Forall_forall in A. destruct (A g Ig) as [F _].
  rewrite Forall_forall in F. specialize (F _ Ix). cbn in F. subst x.
  unfold right_table. destruct (decl t); [apply tags_of_table|reflexivity].
Qed.

(** * Warm caches are only read *)

Definition warm (s : shared) (t : nat) : Prop :=
  decl t <> None -> exists i x, field s = Some i /\ tlookup (nth i (maps s) []) t = Some x.

Definition gor_warm (s : shared) (g : gor) : Prop :=
  Forall (warm s) (todo g) /\
  match at_ g with Idle => True | AtLookup t => decl t <> None /\ warm s t | _ => False end.

Definition is_read (a : access) : Prop := match a with Rd _ => True | Wr _ => False end.

Lemma gstep_warm g s g' s' a : gstep decl g s = Some (g', s', a) -> gor_warm s g ->
  s' = s /\ gor_warm s g' /\ Forall is_read a.
Proof.
  unfold gstep, gor_warm. intros E [W P].
  destruct (at_ g) as [|t|t|t m]; [| contradiction | | contradiction].
  - destruct (todo g) as [|t rest]; [discriminate|]. inversion_clear W as [|? ? Wt Wr].
    destruct (decl t) as [fs|] eqn:D.
    + destruct (Wt ltac:(congruence)) as (i & x & F & L). rewrite F in E.
      injection E as <- <- <-. cbn. repeat split; auto; try congruence; repeat constructor.
    + injection E as <- <- <-. cbn. repeat split; auto.
  - destruct P as [D Wt]. destruct (Wt D) as (i & x & F & L). rewrite F, L in E.
    injection E as <- <- <-. cbn. repeat split; auto. repeat constructor.
Qed.

Lemma run_warm sched : forall gs s gs' s' tr, run_all decl sched gs s = (gs', s', tr) ->
  Forall (gor_warm s) gs -> s' = s /\ Forall (fun e => is_read (snd e)) tr.
Proof.
  induction sched as [|i sched IH]; intros gs s gs' s' tr E Hg; cbn [run_all] in E.
  - injection E as <- <- <-. auto.
  - destruct (nth_error gs i) as [g|] eqn:N; [|eauto].
    destruct (gstep decl g s) as [[[g1 s1] a]|] eqn:St; [|eauto].
    destruct (run_all decl sched _ s1) as [[gs2 s2] tr2] eqn:R.
    injection E as <- <- <-.
    destruct (gstep_warm _ _ _ _ _ St (nth_error_Forall _ _ _ _ _ Hg N)) as (-> & A & B).
    destruct (IH _ _ _ _ _ R) as [-> C]; [apply Forall_put; auto|].
    split; [reflexivity|]. apply Forall_app. split; [|exact C].
    apply Forall_map. exact B.
Qed.

Lemma start_warm hist progs :
  (forall p t, In p progs -> In t p -> decl t <> None -> In t hist) ->
  Forall (gor_warm (as_shared (after decl hist zero_cache))) (start progs).
Proof.
  intros H. unfold start. apply Forall_map. apply Forall_forall. intros p Ip. split; cbn; [|exact I].
  apply Forall_forall. intros t It D.
  destruct (after_in hist zero_cache t (H p t Ip It D) D) as (m & x & E & L).
  exists 0, x. unfold as_shared. rewrite E. cbn. auto.
Qed.

Theorem warm_no_race hist progs sched gs s tr :
  (forall p t, In p progs -> In t p -> decl t <> None -> In t hist) ->
  run_all decl sched (start progs) (as_shared (after decl hist zero_cache)) = (gs, s, tr) ->
  ~ race tr /\ s = as_shared (after decl hist zero_cache).
Proof.
  intros H E. destruct (run_warm _ _ _ _ _ _ E (start_warm hist progs H)) as [-> R].
  split; [|reflexivity]. intros (x & y & Ix & Iy & N & C).
  rewrite Forall_forall in R. pose proof (R _ Ix). pose proof (R _ Iy).
  destruct x as [? [|]], y as [? [|]]; cbn in *; contradiction.
Qed.

(** * A cold type races *)

(** the types of a history are the only ones in the cache *)
Lemma after_only hist : forall c t,
  (forall m, cmap c = Some m -> tlookup m t = None) -> ~ In t hist ->
  forall m, cmap (after decl hist c) = Some m -> tlookup m t = None.
Proof.
  induction hist as [|u hist IH]; intros c t H N m E; cbn [after] in E; [auto|].
  refine (IH _ t _ (fun i => N (or_intror i)) m E). clear E m.
  intros m E. unfold Get in E. destruct (decl u) as [fs|]; [|auto].
  assert (L : tlookup match cmap c with None => [] | Some m => m end t = None)
    by (destruct (cmap c); auto).
  destruct (tlookup _ u); cbn in E; injection E as <-; [exact L|].
  cbn. destruct (t =? u) eqn:Q; [|exact L].
  apply Nat.eqb_eq in Q. subst. destruct N. cbn. auto.
Qed.

Theorem cold_race hist t p q : decl t <> None -> ~ In t hist ->
  exists sched gs s tr,
    run_all decl sched (start [t :: p; t :: q]) (as_shared (after decl hist zero_cache)) = (gs, s, tr) /\
    race tr.
Proof.
  intros D N. destruct (decl t) as [fs|] eqn:E; [|congruence].
  set (c := after decl hist zero_cache).
  assert (L : forall m, cmap c = Some m -> tlookup m t = None).
  { apply (after_only hist zero_cache t); [discriminate|exact N]. }
  unfold as_shared. destruct (cmap c) as [m|].
  - (* both look it up, then both store *)
    specialize (L m eq_refl).
    exists [0; 1; 0; 1; 0; 1]. do 3 eexists. split.
    { cbn [run_all start map nth_error gstep todo at_ got field maps firstn skipn app].
      rewrite E. cbn [run_all start map nth_error gstep todo at_ got field maps firstn skipn app].
      rewrite E. cbn [run_all start map nth_error gstep todo at_ got field maps firstn skipn app nth].
      rewrite L. cbn [run_all start map nth_error gstep todo at_ got field maps firstn skipn app nth].
      rewrite L. cbn [run_all start map nth_error gstep todo at_ got field maps firstn skipn app nth].
      reflexivity. }
    exists (0, Wr (PMap 0)), (1, Wr (PMap 0)). cbn. repeat split; auto 20; cbn; congruence.
  - (* both make the map *)
    exists [0; 1; 0; 1]. do 3 eexists. split.
    { cbn [run_all start map nth_error gstep todo at_ got field maps firstn skipn app].
      rewrite E. cbn [run_all start map nth_error gstep todo at_ got field maps firstn skipn app].
      reflexivity. }
    exists (0, Wr PField), (1, Wr PField). cbn. repeat split; auto 20; cbn; congruence.
Qed.
End D.
