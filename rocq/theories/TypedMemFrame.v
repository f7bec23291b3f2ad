(** Unmarshal changes nothing but what is within reach of the variable. *)
From Verif Require Import Base BaseFacts Varint Tags GoMem GoTypes TagsCache Codecs Compress Header Decode Document
  Typed TypedMem SpecMem TypedMemFacts.
From Coq Require Import ZifyBool ZifyNat ZifyN.

Section Frame.
Variable mem0 : memory.
Variable root : mloc.

Definition ours (l : mloc) : Prop := reach mem0 root l \/ length mem0 <= l.
Definition vours (x : mval) : Prop := forall l, refers x l -> ours l.
Definition clos (mem : memory) : Prop :=
  forall l cell, ours l -> nth_error mem l = Some cell -> forall l', cell_refers cell l' -> ours l'.
Definition Inv (s : mstate) : Prop :=
  length mem0 <= length (m_mem s) /\
  (forall l, l < length mem0 -> ~ reach mem0 root l -> nth_error (m_mem s) l = nth_error mem0 l) /\
  clos (m_mem s) /\ Forall (fun t => ours (fst (tr_ref (snd t)))) (m_refs s).

Lemma clos0 : clos mem0.
Proof.
  intros l cell [R|L] E l' C; [left; eapply reach_step; eassumption|].
  assert (l < length mem0) by (apply nth_error_Some; congruence). lia.
Qed.

(** [pres m Q]: [m] keeps the invariant, and what it returns satisfies [Q] *)
Definition pres {A} (m : TM A) (Q : A -> Prop) : Prop := forall s, Inv s ->
  Inv (snd (m s)) /\ forall a, fst (m s) = Ok a -> Q a.
Lemma pres_bind A B (m : TM A) (k : A -> TM B) P Q : pres m P -> (forall a, P a -> pres (k a) Q) -> pres (tbind m k) Q.
Proof.
  intros H K s I. specialize (H s I). unfold tbind. destruct (m s) as [[a|e|e| |] s'];
    try (split; [exact (proj1 H)|discriminate]). destruct H as [I' H]. exact (K a (H a eq_refl) s' I').
Qed.
Lemma pres_mono A (m : TM A) (P Q : A -> Prop) : pres m P -> (forall a, P a -> Q a) -> pres m Q.
Proof. intros H K s I. destruct (H s I). auto. Qed.
Lemma pres_ret A (a : A) (Q : A -> Prop) : Q a -> pres (tret a) Q.
Proof. intros H s I. split; [exact I|]. intros b E. injection E as <-. exact H. Qed.
Lemma pres_fail A e (Q : A -> Prop) : pres (tfail e) Q.
Proof. intros s I. split; [exact I|]. discriminate. Qed.
Lemma pres_panic A e (Q : A -> Prop) : pres (tpanic e) Q.
Proof. intros s I. split; [exact I|]. discriminate. Qed.
Lemma pres_lift A (m : M A) : pres (lift_ m) (fun _ => True).
Proof. intros s I. unfold lift_. destruct (m (m_d s)) as [r d]. split; [exact I|auto]. Qed.
Lemma pres_mem : pres get_mem clos.
Proof. intros s I. split; [exact I|]. intros a E. injection E as <-. apply I. Qed.

Lemma pres_cell l x : ours l -> (forall l', cell_refers x l' -> ours l') -> pres (set_cell l x) (fun _ => True).
Proof.
  intros O C s (L & K & Cl & R). split; [|auto]. cbn. split; [cbn; now rewrite upd_length|]. cbn. split; [|split; [|exact R]].
  - intros l1 L1 N. rewrite nth_error_upd_other; [auto|]. intros ->. destruct O as [O|O]; [auto|lia].
  - intros l1 cell O1 E l' H. destruct (Nat.eq_dec l1 l) as [->|N].
    + assert (l < length (m_mem s)) by (rewrite <- (upd_length _ (m_mem s) l x); apply nth_error_Some; congruence).
      rewrite nth_error_upd_same in E by assumption. injection E as <-. auto.
    + rewrite nth_error_upd_other in E by auto. eapply Cl; eassumption.
Qed.
Lemma inv_new s x : Inv s -> (forall l', cell_refers x l' -> ours l') ->
  Inv (mkM (m_d s) (m_mem s ++ [x]) (m_refs s)) /\ ours (length (m_mem s)).
Proof.
  intros (L & K & Cl & R) C. split; [|right; exact L]. split; [cbn; rewrite app_length; lia|]. cbn. split; [|split; [|exact R]].
  - intros l1 L1 N. rewrite nth_error_app1 by lia. auto.
  - intros l1 cell O1 E l' H. destruct (Nat.lt_ge_cases l1 (length (m_mem s))) as [M|M].
    + rewrite nth_error_app1 in E by exact M. eapply Cl; eassumption.
    + rewrite nth_error_app2 in E by exact M. destruct (l1 - length (m_mem s)) as [|[|]]; cbn in E; try discriminate.
      injection E as <-. auto.
Qed.
Lemma pres_new x : (forall l', cell_refers x l' -> ours l') -> pres (new_cell x) ours.
Proof.
  intros C s I. destruct (inv_new s x I C) as [I' O]. split; [exact I'|]. intros a E. injection E as <-. exact O.
Qed.
Lemma new_val x : vours x -> pres (new_cell (MCell x)) ours.
Proof. intros V. apply pres_new. intros l' H. inversion H; subst. auto. Qed.

(** values *)
Lemma vours_zero ty : vours (mzero ty).
Proof.
  intros l H. induction ty; cbn in H; inversion H; subst; try discriminate; [|contradiction].
  match goal with K : In _ (repeat _ _) |- _ => apply repeat_spec in K; subst end. auto.
Qed.
Lemma mzero_none ty l : ~ refers (mzero ty) l.
Proof.
  induction ty; cbn; intros H; inversion H; subst; [|contradiction].
  match goal with K : In _ (repeat _ _) |- _ => apply repeat_spec in K; subst end. auto.
Qed.
Lemma vours_arr ms : (forall m, In m ms -> vours m) -> vours (MArr ms).
Proof. intros H l R. inversion R; subst. eapply H; eassumption. Qed.
Lemma arr_vours ms m : vours (MArr ms) -> In m ms -> vours m.
Proof. intros H I l R. apply H. econstructor; eassumption. Qed.
Lemma vours_empty : vours (MStruct []).
Proof. intros l H. inversion H; subst. contradiction. Qed.
Variable v : goenv.
Lemma vours_field id i fs : vours (MStruct fs) -> vours (msfield v id i fs).
Proof.
  intros H. unfold msfield. destruct (assoc_nat i fs) as [x|] eqn:E.
  - assert (exists j, In (j, x) fs) as [j J].
    { clear - E. induction fs as [|[j y] fs IH]; cbn in E; [discriminate|].
      destruct (Nat.eqb j i); [injection E as <-; exists j; left; reflexivity|]. destruct (IH E) as [j' J]. exists j'. right. exact J. }
    intros l R. apply H. econstructor; eassumption.
  - destruct (nth_error _ i) as [[f t]|]; [apply vours_zero|apply vours_empty].
Qed.
Lemma vours_getp p : forall x, vours x -> vours (getp v p x).
Proof.
  induction p as [|[id i|i] p IH]; intros x V; cbn; [exact V| |].
  - destruct x; try apply vours_empty. apply IH. now apply vours_field.
  - destruct x; try apply vours_empty. apply IH. destruct (nth_in_or_default i l (MStruct [])) as [J|E].
    + eapply arr_vours; eassumption.
    + rewrite E. apply vours_empty.
Qed.
Lemma in_upd A (l : list A) i x y : In y (upd l i x) -> y = x \/ In y l.
Proof.
  revert i. induction l as [|a l IH]; intros [|i]; cbn; auto; intros [->|H]; auto. destruct (IH i H); auto.
Qed.
Lemma in_fput fs i x j y : In (j, y) (fput fs i x) -> y = x \/ In (j, y) fs.
Proof.
  induction fs as [|[k z] fs IH]; cbn; [intros [E|[]]; injection E as <- <-; auto|].
  destruct (Nat.eqb k i); cbn; intros [E|H]; auto; [injection E as <- <-; auto|]. destruct (IH H); auto.
Qed.
Lemma vours_putp p : forall x y, vours x -> vours y -> vours (putp v p x y).
Proof.
  induction p as [|[id i|i] p IH]; intros x y V W; cbn; [exact W| |].
  - destruct x; try exact V. intros l R. inversion R as [| | | |fs' j m l' J Rm]; subst.
    apply in_fput in J as [->|J]; [|apply V; econstructor; eassumption].
    revert Rm. apply IH; [now apply vours_field|exact W].
  - destruct x; try exact V. intros l' R. inversion R as [| | |ms' m l2 J Rm|]; subst.
    apply in_upd in J as [->|J]; [|apply V; econstructor; eassumption].
    revert Rm. apply IH; [|exact W]. destruct (nth_in_or_default i l (MStruct [])) as [J|E].
    + eapply arr_vours; eassumption.
    + rewrite E. apply vours_empty.
Qed.
Lemma vours_mvar mem l : clos mem -> ours l -> vours (mvar mem l).
Proof.
  intros C O. unfold mvar. destruct (nth_error mem l) as [[x|es]|] eqn:E; try apply vours_empty.
  intros l' R. eapply C; [exact O|exact E|now constructor].
Qed.
Lemma vours_rd mem r : clos mem -> ours (fst r) -> vours (rd v mem r).
Proof. intros C O. apply vours_getp. now apply vours_mvar. Qed.
Lemma ours_slice l : vours (MSlice (Some l)) -> ours l. Proof. intros H. apply H. constructor. Qed.
Lemma ours_map l : vours (MMap (Some l)) -> ours l. Proof. intros H. apply H. constructor. Qed.
Lemma ours_ptr l : vours (MPtr (Some l)) -> ours l. Proof. intros H. apply H. constructor. Qed.
Lemma slice_ours l : ours l -> vours (MSlice (Some l)). Proof. intros H l' R. inversion R; now subst. Qed.
Lemma map_ours l : ours l -> vours (MMap (Some l)). Proof. intros H l' R. inversion R; now subst. Qed.
Lemma ptr_ours l : ours l -> vours (MPtr (Some l)). Proof. intros H l' R. inversion R; now subst. Qed.
Lemma bytes_ours val : vours (MArr (map byte_mval val)).
Proof. apply vours_arr. intros m J. apply in_map_iff in J as (b & <- & _). intros l R. inversion R. Qed.
Lemma mentry_ours mem l key x : clos mem -> ours l -> mget (mentries mem l) key = Some x -> vours x.
Proof.
  intros C O G. unfold mentries in G. destruct (nth_error mem l) as [[y|es]|] eqn:E; try discriminate.
  assert (exists k, In (k, x) es) as [k J].
  { clear - G. induction es as [|[k y] es IH]; cbn in G; [discriminate|].
    destruct (bytes_eqb k key); [injection G as <-; exists k; left; reflexivity|]. destruct (IH G) as [j' J]. exists j'. right. exact J. }
  intros l' R. eapply C; [exact O|exact E|]. econstructor; eassumption.
Qed.
Lemma mput_ours mem l key x : clos mem -> ours l -> vours x ->
  forall l', cell_refers (MEntries (mput (mentries mem l) key x)) l' -> ours l'.
Proof.
  intros C O V l' H. inversion H as [|es k y l2 J R]; subst.
  assert (P : forall es, In (k, y) (mput es key x) -> y = x \/ In (k, y) es).
  { induction es as [|[k1 y1] es IH]; cbn; [intros [E|[]]; injection E as <- <-; auto|].
    destruct (bytes_eqb k1 key); cbn; intros [E|K]; auto; [injection E as <- <-; auto|]. destruct (IH K); auto. }
  destruct (P _ J) as [->|J']; [auto|].
  unfold mentries in J'. destruct (nth_error mem l) as [[z|es]|] eqn:E; try contradiction.
  eapply C; [exact O|exact E|]. econstructor; eassumption.
Qed.

(** the steps *)
Lemma pres_read r : ours (fst r) -> pres (read v r) vours.
Proof. intros O. eapply pres_bind; [apply pres_mem|]. intros mem C. apply pres_ret. now apply vours_rd. Qed.
Lemma pres_write r x : ours (fst r) -> vours x -> pres (write v r x) (fun _ => True).
Proof.
  intros O V. eapply pres_bind; [apply pres_mem|]. intros mem C. apply pres_cell; [exact O|].
  intros l H. inversion H as [y l2 R|]; subst. revert R. apply vours_putp; [now apply vours_mvar|exact V].
Qed.
Lemma pres_check md : pres (mcheck md) (fun _ => True).
Proof. destruct md; [apply pres_ret; auto|apply pres_panic|apply pres_panic]. Qed.
Lemma pres_mset md r x : ours (fst r) -> vours x -> pres (mset v md r x) (fun _ => True).
Proof. intros O V. eapply pres_bind; [apply pres_check|]. intros _ _. now apply pres_write. Qed.
Ltac flat := intros ? HH; inversion HH.
Lemma pres_setInt ty md r i : ours (fst r) -> pres (msetInt v ty md r i) (fun _ => True).
Proof. intros O. destruct ty; cbn; try apply pres_panic. apply pres_mset; [exact O|flat]. Qed.
Lemma pres_setFloat ty md r i : ours (fst r) -> pres (msetFloat v ty md r i) (fun _ => True).
Proof. intros O. destruct ty; cbn; try apply pres_panic; (apply pres_mset; [exact O|flat]). Qed.
Lemma pres_setBool ty md r i : ours (fst r) -> pres (msetBool v ty md r i) (fun _ => True).
Proof. intros O. destruct ty; cbn; try apply pres_panic; (apply pres_mset; [exact O|flat]). Qed.
Lemma pres_setString ty md r i : ours (fst r) -> pres (msetString v ty md r i) (fun _ => True).
Proof. intros O. destruct ty; cbn; try apply pres_panic; (apply pres_mset; [exact O|flat]). Qed.
Lemma pres_iface ty md r i : ours (fst r) -> pres (mset_iface v ty md r i) (fun _ => True).
Proof. intros O. destruct ty; cbn; try apply pres_panic; (apply pres_mset; [exact O|flat]). Qed.
Lemma copy_ours dst val : vours (MArr dst) -> vours (MArr (mcopy_over dst val)).
Proof.
  intros V. apply vours_arr. intros m J. unfold mcopy_over in J. apply in_app_or in J as [J|J].
  - apply (arr_vours (map byte_mval val) m (bytes_ours val)).
    rewrite <- (firstn_skipn (length dst) (map byte_mval val)). apply in_or_app. auto.
  - apply (arr_vours dst m V). rewrite <- (firstn_skipn (length val) dst). apply in_or_app. auto.
Qed.
Ltac pb := eapply pres_bind; [solve [apply pres_lift|apply pres_check|apply pres_mem|now apply pres_read]|intros].
Lemma pres_setBinary ty md r val : ours (fst r) -> pres (msetBinary v ty md r val) (fun _ => True).
Proof.
  intros O. unfold msetBinary. eapply pres_bind; [now apply pres_read|]. intros cur Vc.
  assert (T : pres (mset v md r (MStr val)) (fun _ => True)) by (apply pres_mset; [exact O|flat]).
  destruct ty; try apply pres_panic; try exact T; destruct ty; try apply pres_panic; destruct k; try apply pres_panic;
    destruct cur; try apply pres_panic.
  - destruct o as [l|].
    + pb. pb. destruct (mvar a0 l) eqn:E; try apply pres_panic. pose proof (ours_slice _ Vc) as Ol. apply pres_cell; [exact Ol|].
      intros l' H'. inversion H' as [y l2 R|]; subst. revert R. apply copy_ours. rewrite <- E. now apply vours_mvar.
    + pb. pb. eapply pres_bind; [apply new_val, bytes_ours|]. intros l Ol. apply pres_write; [exact O|now apply slice_ours].
  - apply pres_mset; [exact O|now apply copy_ours].
Qed.

(** making new cells for a tree *)
Definition Imem (mem : memory) : Prop := Inv (mkM (mkDState [] [] 0 []) mem []).
Lemma imem s : Inv s -> Imem (m_mem s).
Proof. intros (A & B & C & _). repeat split; auto. constructor. Qed.
Lemma imem_set s mem : Inv s -> Imem mem -> Inv (mkM (m_d s) mem (m_refs s)).
Proof. intros (_ & _ & _ & R) (A & B & C & _). repeat split; auto. Qed.
Lemma imem_new mem x : Imem mem -> (forall l', cell_refers x l' -> ours l') -> Imem (mem ++ [x]) /\ ours (length mem).
Proof. intros I C. exact (inv_new _ x I C). Qed.
Lemma build_ours : forall x mem, Imem mem -> vours (fst (build x mem)) /\ Imem (snd (build x mem)).
Proof.
  fix IH 1. intros x mem I. destruct x as [| | | | | |o|l|o|o|l]; cbn [build]; try (split; [flat|exact I]).
  - destruct o as [l|]; [|split; [flat|exact I]].
    match goal with |- context [(?g l mem)] => assert (L : forall mem, Imem mem -> vours (MArr (fst (g l mem))) /\ Imem (snd (g l mem))) end.
    { clear mem I. induction l as [|y l IHl]; intros mem I; [split; [apply vours_arr; contradiction|exact I]|].
      destruct (IH y mem I) as [V1 I1]. destruct (build y mem) as [m mem1]. destruct (IHl mem1 I1) as [V2 I2].
      match goal with |- context [(?g l mem1)] => destruct (g l mem1) as [ms mem2] end. split; [|exact I2].
      apply vours_arr. intros m' [<-|J]; [exact V1|now apply (arr_vours ms)]. }
    destruct (L mem I) as [V1 I1].
    match goal with |- context [(?g l mem)] => destruct (g l mem) as [ms mem2] end. cbn in V1, I1.
    destruct (imem_new mem2 (MCell (MArr ms)) I1) as [I2 O2].
    { intros l' R. inversion R; subst; auto. }
    split; [now apply slice_ours|exact I2].
  - match goal with |- context [(?g l mem)] => assert (L : forall mem, Imem mem -> vours (MArr (fst (g l mem))) /\ Imem (snd (g l mem))) end.
    { clear mem I. induction l as [|y l IHl]; intros mem I; [split; [apply vours_arr; contradiction|exact I]|].
      destruct (IH y mem I) as [V1 I1]. destruct (build y mem) as [m mem1]. destruct (IHl mem1 I1) as [V2 I2].
      match goal with |- context [(?g l mem1)] => destruct (g l mem1) as [ms mem2] end. split; [|exact I2].
      apply vours_arr. intros m' [<-|J]; [exact V1|now apply (arr_vours ms)]. }
    destruct (L mem I) as [V1 I1].
    match goal with |- context [(?g l mem)] => destruct (g l mem) as [ms mem2] end. split; assumption.
  - destruct o as [l|]; [|split; [flat|exact I]].
    match goal with |- context [(?g l mem)] => assert (L : forall mem, Imem mem ->
      (forall l', cell_refers (MEntries (fst (g l mem))) l' -> ours l') /\ Imem (snd (g l mem))) end.
    { clear mem I. induction l as [|[k y] l IHl]; intros mem I; [split; [intros l' R; inversion R; contradiction|exact I]|].
      destruct (IH y mem I) as [V1 I1]. destruct (build y mem) as [m mem1]. destruct (IHl mem1 I1) as [V2 I2].
      match goal with |- context [(?g l mem1)] => destruct (g l mem1) as [ms mem2] end. split; [|exact I2].
      cbn in V2. intros l' R. inversion R as [|es k1 x1 l1 J1 R1]; subst. destruct J1 as [E|J1]; [injection E as <- <-; now apply V1|].
      apply V2. econstructor; eassumption. }
    destruct (L mem I) as [V1 I1].
    match goal with |- context [(?g l mem)] => destruct (g l mem) as [ms mem2] end. cbn in V1, I1.
    destruct (imem_new mem2 (MEntries ms) I1 V1) as [I2 O2]. split; [now apply map_ours|exact I2].
  - destruct o as [y|]; [|split; [flat|exact I]].
    destruct (IH y mem I) as [V1 I1]. destruct (build y mem) as [m mem1]. cbn in V1, I1.
    destruct (imem_new mem1 (MCell m) I1) as [I2 O2].
    { intros l' R. inversion R; subst; auto. }
    split; [now apply ptr_ours|exact I2].
  - match goal with |- context [(?g l mem)] => assert (L : forall mem, Imem mem -> vours (MStruct (fst (g l mem))) /\ Imem (snd (g l mem))) end.
    { clear mem I. induction l as [|[k y] l IHl]; intros mem I; [split; [apply vours_empty|exact I]|].
      destruct (IH y mem I) as [V1 I1]. destruct (build y mem) as [m mem1]. destruct (IHl mem1 I1) as [V2 I2].
      match goal with |- context [(?g l mem1)] => destruct (g l mem1) as [ms mem2] end. split; [|exact I2].
      cbn in V2. intros l' R. inversion R as [| | | |fs k1 x1 l1 J1 R1]; subst. destruct J1 as [E|J1]; [injection E as <- <-; now apply V1|].
      apply V2. econstructor; eassumption. }
    destruct (L mem I) as [V1 I1].
    match goal with |- context [(?g l mem)] => destruct (g l mem) as [ms mem2] end. split; assumption.
Qed.

Lemma pres_set_gval ty md r x : ours (fst r) -> pres (set_gval v ty md r x) (fun _ => True).
Proof.
  intros O. eapply pres_bind; [apply pres_check|]. intros _ _ s I.
  destruct (of_gval _ ty x) as [y|]; [|split; [exact I|discriminate]].
  destruct (build_ours y (m_mem s) (imem s I)) as [V I2]. destruct (build y (m_mem s)) as [m mem].
  apply (pres_write r m O V). now apply imem_set.
Qed.

Variable c : dconfig.
Lemma pres_ref_iface ty md r x b : ours (fst r) -> pres (ref_iface c v ty md r x b) (fun _ => True).
Proof.
  intros O. unfold ref_iface. destruct x; try apply pres_panic; destruct (b && d_noref c)%bool;
    try apply pres_panic; try now apply pres_set_gval.
  destruct toIface; pb; [destruct ty; try apply pres_panic; (apply pres_mset; [exact O|flat])|now apply pres_set_gval].
Qed.
Lemma pres_get_ref l : pres (get_ref l) (fun o => match o with Some t => ours (fst (tr_ref t)) | None => True end).
Proof.
  intros s I. split; [exact I|]. intros a E. injection E as <-. destruct I as (_ & _ & _ & R).
  destruct (assoc_nat l (m_refs s)) as [t|] eqn:E; [|exact Logic.I].
  induction (m_refs s) as [|[k y] fs IH]; [discriminate|]. cbn in E. inversion R; subst.
  destruct (Nat.eqb k l); [injection E as <-; assumption|auto].
Qed.
Lemma pres_track idx r ty md : ours (fst r) -> pres (mtrack idx r ty md) (fun _ => True).
Proof.
  intros O. unfold mtrack. pb. pb. intros s (A & B & C & R). split; [|auto]. repeat split; auto. constructor; auto.
Qed.
Variable by_ : bytes.
Lemma pres_refp ty md r idx b : ours (fst r) -> pres (mdecodeRefp c v by_ ty md r idx b) (fun _ => True).
Proof.
  intros O. unfold mdecodeRefp. pb. destruct a as [offs sz].
  match goal with |- pres (if ?x then _ else _) _ => destruct x end; [apply pres_fail|]. pb. destruct a as [l|]; [|apply pres_fail].
  eapply pres_bind; [apply pres_get_ref|]. intros [t|] Ht.
  - eapply pres_bind; [now apply pres_read|]. intros x Vx.
    assert (G : forall m : TM unit, pres m (fun _ => True) -> forall i : nat, pres (tbind m (fun _ => tret i)) (fun _ => True)).
    { intros m H' i. eapply pres_bind; [exact H'|]. intros. now apply pres_ret. }
    assert (D : pres (if gtype_eqb (tr_ty t) ty then do! _ := mset v md r x in tret (idx + sz)
                  else match ty with
                       | TyIface => do! _ := mset v md r (MIface GOpaque) in tret (idx + sz)
                       | _ => tpanic EReflect
                       end) (fun _ => True)).
    { destruct (gtype_eqb _ _); [apply G, pres_mset; auto|]. destruct ty; try apply pres_panic. apply G, pres_mset; [exact O|flat]. }
    destruct (tr_md t); try apply pres_panic; destruct (tr_ty t); try exact D; destruct g; try exact D;
      destruct x as [| | | | | | | | |o|]; try exact D; destruct o as [l0|]; try exact D; (pb; destruct (mvar a l0); try apply pres_panic; apply G; now apply pres_ref_iface).
  - pb. eapply pres_bind; [now apply pres_ref_iface|]. intros. now apply pres_ret.
Qed.

Section Body.
Variable ibuf : loc.
Variable ishift : nat.
Variable rec : gtype -> mref -> amode -> nat -> TM nat.
Variable urec : nat -> loc -> M nat.
Hypothesis rec_ok : forall ty r md idx, ours (fst r) -> pres (rec ty r md idx) (fun _ => True).
Lemma pres_index r i : ours (fst r) -> pres (index_ref v r i) (fun r => ours (fst r)).
Proof.
  intros O. unfold index_ref. eapply pres_bind; [apply pres_mem|]. intros mem C.
  pose proof (vours_rd mem r C O) as V. destruct (rd v mem r) as [| | | | | |[l|]|ms| | |]; try apply pres_panic.
  - apply ours_slice in V. destruct (mvar mem l); try apply pres_panic. destruct (Nat.ltb _ _); [now apply pres_ret|apply pres_panic].
  - destruct (Nat.ltb _ _); [now apply pres_ret|apply pres_panic].
Qed.
Lemma pres_array_loop n t md r : ours (fst r) -> forall i ln idx, pres (marray_loop v rec urec n t md r i ln idx) (fun _ => True).
Proof.
  intros O. induction n as [|n IH]; intros i ln idx; cbn [marray_loop]; [now apply pres_ret|].
  eapply pres_bind; [|intros; apply IH]. destruct (Nat.ltb i ln); [|apply pres_lift].
  eapply pres_bind; [now apply pres_index|]. intros e Oe. now apply rec_ok.
Qed.
Lemma pres_array idx ln ty r md : ours (fst r) -> pres (mdecodeArray v by_ rec urec idx ln ty r md) (fun _ => True).
Proof.
  intros O. unfold mdecodeArray.
  match goal with |- pres (if ?x then _ else _) _ => destruct x end; [apply pres_fail|].
  match goal with |- pres (if ?x then _ else _) _ => destruct x end; [apply pres_fail|].
  assert (Mk : forall t, pres (do! _ := mcheck md in
      do! _ := lift_ (log_make (Z.to_nat ln) (length by_ - idx)) in
      do! l := new_cell (MCell (MArr (repeat (mzero t) (Z.to_nat ln)))) in
      do! _ := write v r (MSlice (Some l)) in
      marray_loop v rec urec (Z.to_nat ln) t Settable r 0 (Z.to_nat ln) idx) (fun _ => True)).
  { intros t. pb. pb. eapply pres_bind; [apply new_val, vours_arr; intros m J; apply repeat_spec in J as ->; apply vours_zero|].
    intros l Ol. eapply pres_bind; [apply pres_write; [exact O|now apply slice_ours]|]. intros. now apply pres_array_loop. }
  pb. cbv zeta. destruct ty; try apply pres_fail; destruct (rd v a r) as [| | | | | |[l|]|ms| | |]; try apply pres_fail; try apply Mk.
  - destruct (mvar a l); try apply pres_fail. destruct l0; [apply Mk|now apply pres_array_loop].
  - now apply pres_array_loop.
Qed.
Lemma pres_map_loop n t md r : ours (fst r) -> forall idx, pres (mmap_loop v by_ rec n t md r idx) (fun _ => True).
Proof.
  intros O. induction n as [|n IH]; intros idx; cbn [mmap_loop]; [now apply pres_ret|].
  pb. destruct a as [kw i]. eapply pres_bind; [apply pres_mem|]. intros mem C.
  eapply pres_bind; [|intros; apply IH].
  assert (N : pres (do! e := new_cell (MCell (mzero t)) in
            do! idx := rec t (e, []) Settable i in
            match md with
            | RO => tpanic EReflect
            | _ =>
                do! mem := get_mem in
                match rd v mem r with
                | MMap (Some l) =>
                    do! _ := set_cell l (MEntries (mput (mentries mem l) (win_bytes by_ kw) (mvar mem e))) in tret idx
                | _ => tpanic EReflect
                end
            end) (fun _ => True)).
  { eapply pres_bind; [apply new_val, vours_zero|]. intros e Oe. eapply pres_bind; [now apply rec_ok|]. intros j _.
    destruct md; try apply pres_panic; (eapply pres_bind; [apply pres_mem|]; intros mem2 C2; pose proof (vours_rd mem2 r C2 O) as V;
      destruct (rd v mem2 r) as [| | | | | | | |[l|]| |]; try apply pres_panic; apply ours_map in V;
      eapply pres_bind; [apply pres_cell; [exact V|apply mput_ours; auto; now apply vours_mvar]|intros; now apply pres_ret]). }
  pose proof (vours_rd mem r C O) as V. destruct (rd v mem r) as [| | | | | | | |[l|]| |]; try exact N. apply ours_map in V.
  destruct (mget _ _) as [x|] eqn:G; [|exact N].
  eapply pres_bind; [apply new_val; eapply mentry_ours; eassumption|]. intros e Oe. now apply rec_ok.
Qed.
Lemma pres_struct_loop n id md r : ours (fst r) -> forall idx, pres (mstruct_loop v by_ rec urec n id md r idx) (fun _ => True).
Proof.
  intros O. induction n as [|n IH]; intros idx; cbn [mstruct_loop]; [now apply pres_ret|].
  pb. destruct a as [kw i]. eapply pres_bind; [|intros; apply IH].
  destruct (find_field _ _ _) as [[j [f t]]|]; [now apply rec_ok|apply pres_lift].
Qed.
Lemma pres_hash ty : forall idx ln r md, ours (fst r) -> pres (mdecodeHash v by_ rec urec ty idx ln r md) (fun _ => True).
Proof.
  induction ty; intros idx ln r md O; cbn [mdecodeHash];
  (match goal with |- pres (if ?x then _ else _) _ => destruct x end; [apply pres_fail|]);
  (match goal with |- pres (if ?x then _ else _) _ => destruct x end; [apply pres_fail|]);
  (eapply pres_bind; [now apply pres_read|]); intros cur V; try apply pres_fail.
  - destruct cur as [| | | | | | | |o| |]; try apply pres_fail.
    eapply pres_bind with (P := fun _ => True); [|intros; now apply pres_map_loop]. destruct o; [now apply pres_ret|]. pb.
    eapply pres_bind; [apply pres_new; intros l' R; inversion R; contradiction|]. intros l Ol.
    apply pres_write; [exact O|now apply map_ours].
  - destruct cur as [| | | | | | | | |o|]; try apply pres_fail.
    eapply pres_bind with (P := ours); [|intros l Ol; apply IHty; exact Ol]. destruct o; [apply pres_ret, ours_ptr, V|]. pb.
    eapply pres_bind; [apply new_val, vours_zero|]. intros l Ol.
    eapply pres_bind; [apply pres_write; [exact O|now apply ptr_ours]|]. intros. now apply pres_ret.
  - destruct cur; try apply pres_fail. now apply pres_struct_loop.
Qed.
Lemma pres_freeze ty r md idx b : ours (fst r) -> pres (mdecodeFreeze c v by_ urec ty r md idx b) (fun _ => True).
Proof.
  intros O. unfold mdecodeFreeze. pb. destruct a as [cls i]. destruct (Nat.leb _ _); [apply pres_fail|].
  destruct (nth_error by_ i), (nth_error by_ (i + 1)); try apply pres_lift.
  match goal with |- pres (if ?x then _ else _) _ => destruct x end; [apply pres_fail|].
  pb. pb. pb. destruct a1; try apply pres_fail.
  match goal with |- pres (if ?x then _ else _) _ => destruct x end; [apply pres_fail|].
  pb. destruct a1; try apply pres_fail. destruct (d_perl c).
  { pb. eapply pres_bind; [now apply pres_iface|]. intros. now apply pres_ret. }
  eapply pres_bind; [now apply pres_read|]. intros cur V.
  assert (F : pres (do! _ := mcheck md in tfail (A := nat) ECannotUnpack) (fun _ => True)) by (pb; apply pres_fail).
  destruct ty as [| | | | | |t|n1 t|t|t|id]; try exact F.
  - destruct cur as [| | | | |g| | | | |]; try exact F. destruct g; try exact F.
    assert (W : pres (fun s => if d_unmarshal c t (hview (d_heap (m_d s)) v0)
                          then (do! _ := write v r (MIface (GUserP t v0)) in tret a0) s
                          else (Err EUser, s)) (fun _ => True)).
    { intros s I. destruct (d_unmarshal _ _ _); [|split; [exact I|discriminate]].
      apply (pres_bind _ _ _ (fun _ => tret a0) _ (fun _ => True) (pres_write r (MIface (GUserP t v0)) O ltac:(flat))); [|exact I].
      intros. now apply pres_ret. }
    destruct md; try apply pres_panic; exact W.
  - destruct t as [kk| | | | | | | | | |]; try exact F; destruct kk; try exact F. destruct cur as [| | | | | |o| | | |]; try exact F. destruct o; try exact F. pb. intros s I.
    refine (pres_bind _ _ _ (fun l => do! _ := write v r (MSlice (Some l)) in tret a0) _ _ (new_val _ (bytes_ours _)) _ s I).
    intros l Ol. eapply pres_bind; [apply pres_write; [exact O|now apply slice_ours]|]. intros. now apply pres_ret.
  - destruct cur as [| | | | | | | | |o|]; try exact F. destruct o; try exact F. pb. eapply pres_bind; [apply new_val, vours_zero|]. intros l Ol.
    eapply pres_bind; [apply pres_write; [exact O|now apply ptr_ours]|]. intros. apply pres_fail.
Qed.
Lemma pres_then A (m : TM A) (i : nat) (P : A -> Prop) : pres m P -> pres (tbind m (fun _ => tret i)) (fun _ => True).
Proof. intros H. eapply pres_bind; [exact H|]. intros. now apply pres_ret. Qed.
Lemma pres_tag k ty r md idx : ours (fst r) -> pres (mdecode_tag c v by_ ibuf ishift rec urec k ty r md idx) (fun _ => True).
Proof.
  intros O.
  assert (T : forall A (m : TM A) P i, pres m P -> pres (tbind m (fun _ => tret i)) (fun _ => True)) by (intros; eapply pres_then; eassumption).
  assert (Und : forall kk, pres (if d_perl c then
        do! x := lift_ (match kk with
                        | TCanonUndef => ret GCanonUndef
                        | _ => let! l := alloc (CV (GUndefV false)) in ret (GPtr false l)
                        end) in
        do! _ := mset_iface v ty md r x in tret idx
      else
        match ty with
        | TyPtr _ | TyMap _ | TySlice _ => do! _ := mset v md r (mzero ty) in tret idx
        | _ => tret idx
        end) (fun _ => True)).
  { intros kk. destruct (d_perl c); [pb; eapply T, pres_iface; exact O|].
    destruct ty; try (now apply pres_ret); eapply T, pres_mset; try exact O; apply vours_zero. }
  destruct k; cbn [mdecode_tag]; try exact (Und TUndef); try exact (Und TCanonUndef); try apply pres_fail;
    try (now apply pres_hash); try (now apply pres_array); try (now apply pres_freeze); try (now apply pres_refp);
    try (now apply rec_ok);
    try (eapply T; solve [now apply pres_setInt|now apply pres_setBool]).
  all: try solve [pb; try (destruct a as [i sz]); try (pb; destruct a as [i2 sz2]);
         solve [eapply T; solve [now apply pres_setInt|now apply pres_setFloat|now apply pres_setBinary|now apply pres_setString]
               |now apply pres_hash|now apply pres_array]].
  - pb. destruct (Nat.ltb 0 a); [apply pres_fail|]. pb. destruct a0 as [offs sz].
    match goal with |- pres (if ?x then _ else _) _ => destruct x end; [apply pres_fail|]. pb.
    eapply (T _ _ (fun _ => True)). intros s I. destruct (rec_ok ty r md (Z.to_nat offs) O s I) as [I' _].
    destruct (rec ty r md (Z.to_nat offs) s) as [[i|e|e| |] s']; (split; [exact I'|auto]).
  - destruct (d_perl c); [|now apply rec_ok]. pb. eapply pres_bind; [now apply pres_iface|]. intros. apply pres_lift.
  - pb. pb. pb. eapply T. now apply pres_iface.
  - pb. destruct a as [cls i]. destruct (d_perl c); [|now apply rec_ok]. pb. eapply pres_bind; [now apply pres_iface|]. intros. apply pres_lift.
  - pb. destruct a as [cls i]. destruct (d_perl c); [|now apply rec_ok]. pb. eapply pres_bind; [now apply pres_iface|]. intros. apply pres_lift.
Qed.
Lemma pres_body ty r md idx : ours (fst r) -> pres (mdecode_body c v by_ ibuf ishift rec urec ty r md idx) (fun _ => True).
Proof.
  intros O. unfold mdecode_body. destruct (Nat.leb _ _); [apply pres_fail|].
  eapply pres_bind; [now apply pres_read|]. intros cur V.
  assert (G : pres match skip_pads (skipn idx by_) idx with
      | None => tfail ETruncated
      | Some (tagb, idx) =>
          do! _ := (if tracked_bit tagb then mtrack idx r ty md else tret tt) in
          mdecode_tag c v by_ ibuf ishift rec urec (tag_kind (untrack tagb)) ty r md (S idx)
      end (fun _ => True)).
  { destruct (skip_pads _ _) as [[tagb i]|]; [|apply pres_fail].
    eapply pres_bind with (P := fun _ => True); [|intros; now apply pres_tag].
    destruct (tracked_bit tagb); [now apply pres_track|now apply pres_ret]. }
  destruct ty; try exact G. destruct cur as [| | | | |g| | | | |]; try exact G. destruct g; try exact G.
  pb. pb. pb. destruct a1; try (now apply pres_ret); (eapply pres_then, pres_mset; [exact O|flat]).
Qed.
End Body.
Lemma pres_decode ibuf ishift fuel : forall ty r md idx, ours (fst r) -> pres (mdecode c v by_ ibuf ishift fuel ty r md idx) (fun _ => True).
Proof.
  induction fuel as [|f IH]; intros ty r md idx O; [intros s I; split; [exact I|discriminate]|].
  cbn [mdecode]. apply pres_body; auto.
Qed.
End Frame.

Section Top.
Variable k : codecs.
Variable c : dconfig.
Variable v : goenv.
Variable mem0 : memory.
Variable root : mloc.
Ltac pb := eapply pres_bind; [solve [apply pres_lift]|intros].
Lemma pres_mbody b ib h dec bs ty r : ours mem0 root (fst r) ->
  pres mem0 root (unmarshal_mbody k c v b ib h dec bs ty r) (fun _ => True).
Proof.
  intros O. unfold unmarshal_mbody. eapply pres_bind with (P := fun _ => True).
  { destruct dec; [|now apply pres_ret]. destruct (slice_from b bs); [|apply pres_lift]. pb. pb. now apply pres_ret. }
  intros [nb l] _. pb.
  assert (D : forall x ibuf sh ty i, pres mem0 root (do! _ := mdecode c v x ibuf sh (decode_fuel x) ty r Settable i in tret tt) (fun _ => True)).
  { intros. eapply pres_bind; [now apply pres_decode|]. intros. now apply pres_ret. }
  destruct (N.eqb _ _); [apply D|]. destruct (Nat.eqb bs 0); [apply pres_lift|]. destruct (slice_from nb (bs - 1)); [apply D|apply pres_lift].
Qed.
Lemma pres_raw b ib ty r : ours mem0 root (fst r) -> pres mem0 root (unmarshal_mem_raw k c v b ib ty r) (fun _ => True).
Proof.
  intros O. unfold unmarshal_mem_raw. pb. pb. cbv zeta.
  match goal with |- pres _ _ (if ?x then _ else _) _ => destruct x end; [apply pres_fail|]. now apply pres_mbody.
Qed.
End Top.

Theorem unmarshal_mem_frame k c v h mem b ib ty l p :
  let mem' := snd (unmarshal_mem k c v h mem b ib ty (l, p)) in
  length mem <= length mem' /\
  (forall l', l' < length mem -> ~ reach mem l l' -> nth_error mem' l' = nth_error mem l') /\
  (forall l', reach mem' l l' -> reach mem l l' \/ length mem <= l').
Proof.
  unfold unmarshal_mem.
  pose proof (pres_raw k c v mem l b ib ty (l, p) (or_introl (reach_refl mem l)) (mkM (mkDState h [] 0 []) mem [])) as H.
  destruct (unmarshal_mem_raw k c v b ib ty (l, p) _) as [o s]. cbn [snd]. destruct H as [(L & K & C & _) _].
  { repeat split; [cbn; lia|apply clos0|constructor]. }
  split; [exact L|]. split; [exact K|].
  intros l' R. induction R as [|l1 cell l2 R IH E Cr]; [left; constructor|]. exact (C l1 cell IH E l2 Cr).
Qed.
