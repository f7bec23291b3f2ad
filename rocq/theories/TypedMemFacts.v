(** Parts of variables in memory (TypedMem.v), and how they relate to trees (SpecMem.v). *)
From Verif Require Import Base BaseFacts Varint Tags GoMem GoTypes TagsCache Codecs Compress Header Decode Document
  Typed TypedMem SpecMem.
From Coq Require Import ZifyBool ZifyNat ZifyN.

Section Paths.
Variable v : goenv.
Notation msfield := (msfield v).
Notation getp := (getp v).
Notation putp := (putp v).

Fixpoint vpath (p : list step) (x : mval) : Prop :=
  match p, x with
  | [], _ => True
  | SElem i :: p', MArr l => i < length l /\ vpath p' (nth i l (MStruct []))
  | SField id i :: p', MStruct fs => vpath p' (msfield id i fs)
  | _, _ => False
  end.

Lemma assoc_fput fs i x j : assoc_nat j (fput fs i x) = if Nat.eqb i j then Some x else assoc_nat j fs.
Proof.
  induction fs as [|[k y] fs IH]; cbn; [now destruct (Nat.eqb i j)|].
  destruct (Nat.eqb_spec k i) as [->|N]; cbn; [now destruct (Nat.eqb_spec i j)|].
  rewrite IH. destruct (Nat.eqb_spec k j), (Nat.eqb_spec i j); try reflexivity. congruence.
Qed.
Lemma fput_fput fs i x y : fput (fput fs i x) i y = fput fs i y.
Proof.
  induction fs as [|[k z] fs IH]; cbn; [now rewrite Nat.eqb_refl|].
  destruct (Nat.eqb k i) eqn:E; cbn; rewrite E; [reflexivity|]. now rewrite IH.
Qed.
Lemma msfield_fput id i fs x j : msfield id j (fput fs i x) = if Nat.eqb i j then x else msfield id j fs.
Proof. unfold TypedMem.msfield. rewrite assoc_fput. now destruct (Nat.eqb i j). Qed.

Lemma nth_upd A (l : list A) i x d : i < length l -> nth i (upd l i x) d = x.
Proof. revert i. induction l; intros [|i] H; cbn in *; try lia; auto. apply IHl. lia. Qed.
Lemma upd_upd A (l : list A) i x y : upd (upd l i x) i y = upd l i y.
Proof. revert i. induction l; intros [|i]; cbn; auto. now rewrite IHl. Qed.
Lemma upd_len A (l : list A) i x : length (upd l i x) = length l.
Proof. revert i. induction l; intros [|i]; cbn; auto. Qed.

Lemma getp_putp p : forall x y, vpath p x -> getp p (putp p x y) = y.
Proof.
  induction p as [|[id i|i] p IH]; intros x y H; [reflexivity| |]; destruct x; cbn in H |- *; try contradiction.
  - rewrite msfield_fput, Nat.eqb_refl. auto.
  - destruct H. rewrite nth_upd; auto.
Qed.
Lemma putp_putp p : forall x y z, vpath p x -> putp p (putp p x y) z = putp p x z.
Proof.
  induction p as [|[id i|i] p IH]; intros x y z H; [reflexivity| |]; destruct x; cbn in H |- *; try contradiction.
  - rewrite msfield_fput, Nat.eqb_refl, fput_fput, IH; auto.
  - destruct H. rewrite nth_upd, upd_upd, IH; auto.
Qed.
Lemma vpath_putp p : forall x y, vpath p x -> vpath p (putp p x y).
Proof.
  induction p as [|[id i|i] p IH]; intros x y H; [exact Logic.I| |]; destruct x; cbn in H |- *; try contradiction.
  - rewrite msfield_fput, Nat.eqb_refl. auto.
  - destruct H. rewrite nth_upd, upd_len; auto.
Qed.
Lemma vpath_app p q : forall x, vpath (p ++ q) x <-> vpath p x /\ vpath q (getp p x).
Proof.
  induction p as [|[id i|i] p IH]; intros x; cbn; [intuition|destruct x; try (intuition; fail)|destruct x; try (intuition; fail)].
  - apply IH.
  - rewrite IH. intuition.
Qed.
Lemma getp_app p q : forall x, vpath p x -> getp (p ++ q) x = getp q (getp p x).
Proof.
  induction p as [|[id i|i] p IH]; intros x H; [reflexivity| |]; destruct x; cbn in H |- *; try contradiction; intuition.
Qed.
Lemma putp_app p q : forall x y, vpath p x -> putp (p ++ q) x y = putp p x (putp q (getp p x) y).
Proof.
  induction p as [|[id i|i] p IH]; intros x y H; [reflexivity| |]; destruct x; cbn in H |- *; try contradiction.
  - rewrite IH; auto.
  - rewrite IH; intuition.
Qed.
End Paths.

Scheme at_m := Minimality for at_ Sort Prop
with ats_m := Minimality for ats Sort Prop
with atf_m := Minimality for atf Sort Prop.
Combined Scheme at_mut from at_m, ats_m, atf_m.

Section Frames.
Variable v : goenv.
Notation at_ := (at_ v).
Notation ats := (ats v).
Notation atf := (atf v).

Lemma sfield_assoc id i fs : sfield v id i fs = match assoc_nat i fs with
  | Some x => x
  | None => match nth_error (st_fields (decls v id)) i with Some (_, t) => zero t | None => VStruct [] end end.
Proof.
  unfold sfield. induction fs as [|[j x] fs IH]; [reflexivity|]. cbn. destruct (Nat.eqb j i); [reflexivity|exact IH].
Qed.

Definition same_on (mem mem' : memory) (F : list mloc) := forall l, In l F -> nth_error mem' l = nth_error mem l.

Lemma at_frame_mut mem mem' :
  (forall ty m x F, at_ mem ty m x F -> same_on mem mem' F -> at_ mem' ty m x F) /\
  (forall ts ms xs F, ats mem ts ms xs F -> same_on mem mem' F -> ats mem' ts ms xs F) /\
  (forall id ms fs is F, atf mem id ms fs is F -> same_on mem mem' F -> atf mem' id ms fs is F).
Proof.
  apply at_mut; intros; try (econstructor; eauto; fail).
  - econstructor; [rewrite H2; [eassumption|now left]|]. apply H1. intros k K. apply H2. now right.
  - econstructor; [rewrite H3; [eassumption|now left]|assumption|]. apply H2. intros k K. apply H3. now right.
  - econstructor; [rewrite H2; [eassumption|now left]|]. apply H1. intros k K. apply H2. now right.
  - econstructor; [apply H0|apply H2]; intros k K; apply H3, in_or_app; auto.
  - econstructor; [eassumption|apply H1|apply H3]; intros k K; apply H4, in_or_app; auto.
Qed.
Lemma at_frame mem mem' ty m x F : at_ mem ty m x F -> same_on mem mem' F -> at_ mem' ty m x F.
Proof. apply at_frame_mut. Qed.
Lemma ats_frame mem mem' ty m x F : ats mem ty m x F -> same_on mem mem' F -> ats mem' ty m x F.
Proof. apply at_frame_mut. Qed.
Lemma atf_frame mem mem' id m x is F : atf mem id m x is F -> same_on mem mem' F -> atf mem' id m x is F.
Proof. apply at_frame_mut. Qed.

Lemma at_in_mut mem :
  (forall ty m x F, at_ mem ty m x F -> forall l, In l F -> l < length mem) /\
  (forall ts ms xs F, ats mem ts ms xs F -> forall l, In l F -> l < length mem) /\
  (forall id ms fs is F, atf mem id ms fs is F -> forall l, In l F -> l < length mem).
Proof.
  apply at_mut; intros;
    match goal with
    | K : In _ [] |- _ => destruct K
    | K : In _ (_ ++ _) |- _ => apply in_app_or in K as [K|K]; eauto
    | K : In _ (_ :: _) |- _ => destruct K as [<-|K]; [apply nth_error_Some; congruence|eauto]
    | _ => eauto
    end.
Qed.
Lemma at_in mem ty m x F l : at_ mem ty m x F -> In l F -> l < length mem.
Proof. destruct (at_in_mut mem) as (H1 & H2 & H3). eauto. Qed.
Lemma ats_in mem ty m x F l : ats mem ty m x F -> In l F -> l < length mem.
Proof. destruct (at_in_mut mem) as (H1 & H2 & H3). eauto. Qed.
Lemma atf_in mem id m x is F l : atf mem id m x is F -> In l F -> l < length mem.
Proof. destruct (at_in_mut mem) as (H1 & H2 & H3). eauto. Qed.

Lemma atf_empty mem id is : atf mem id [] [] is [].
Proof. induction is; [constructor|]. apply atf_zero; auto. Qed.
Lemma at_zero mem ty : at_ mem ty (mzero ty) (zero ty) [].
Proof.
  induction ty; try constructor.
  - rewrite repeat_length. induction n; cbn; [constructor|]. change (@nil mloc) with (@nil mloc ++ []). constructor; auto.
  - apply atf_empty.
Qed.
Lemma ats_zero mem t n : ats mem (repeat t n) (repeat (mzero t) n) (repeat (zero t) n) [].
Proof. induction n; cbn; [constructor|]. change (@nil mloc) with (@nil mloc ++ []). constructor; auto using at_zero. Qed.

Lemma ats_split mem i : forall ts ms xs F, ats mem ts ms xs F -> i < length ms -> exists t m x F1 Fi F2,
  nth_error ts i = Some t /\ nth_error ms i = Some m /\ nth_error xs i = Some x /\ F = F1 ++ Fi ++ F2 /\
  at_ mem t m x Fi /\ ats mem (firstn i ts) (firstn i ms) (firstn i xs) F1 /\
  ats mem (skipn (S i) ts) (skipn (S i) ms) (skipn (S i) xs) F2.
Proof.
  induction i as [|i IH]; intros ts ms xs F A L; destruct A as [|t ts m ms x xs F G A As]; try (cbn in L; lia).
  - exists t, m, x, [], F, G. cbn. repeat split; auto. constructor.
  - destruct (IH _ _ _ _ As) as (t' & m' & x' & F1 & Fi & F2 & E1 & E2 & E3 & -> & B & C & D); [cbn in L; lia|].
    exists t', m', x', (F ++ F1), Fi, F2. cbn. repeat split; auto. { now rewrite <- app_assoc. } now constructor.
Qed.
Lemma ats_app mem ts ms xs F ts' ms' xs' F' : ats mem ts ms xs F -> ats mem ts' ms' xs' F' ->
  ats mem (ts ++ ts') (ms ++ ms') (xs ++ xs') (F ++ F').
Proof. induction 1; intros; [assumption|]. cbn. rewrite <- app_assoc. constructor; auto. Qed.
Lemma ats_lengths mem ts ms xs F : ats mem ts ms xs F -> length ts = length ms /\ length xs = length ms.
Proof. induction 1; cbn; lia. Qed.

Lemma atf_split mem id ms fs i : forall is F, atf mem id ms fs is F -> In i is -> NoDup is ->
  i < length (st_fields (decls v id)) -> exists f t F1 Fi F2 is1 is2,
  nth_error (st_fields (decls v id)) i = Some (f, t) /\ is = is1 ++ i :: is2 /\ F = F1 ++ Fi ++ F2 /\
  at_ mem t (msfield v id i ms) (sfield v id i fs) Fi /\ atf mem id ms fs is1 F1 /\ atf mem id ms fs is2 F2.
Proof.
  induction 1 as [id ms fs|id ms fs j is F A B Rest IH|id ms fs j is f t F G E A Rest IH]; intros I N L; [contradiction| |].
  - destruct I as [->|I].
    + destruct (nth_error (st_fields (decls v id)) i) as [[f t]|] eqn:E; [|apply nth_error_None in E; lia].
      exists f, t, [], [], F, [], is. cbn. repeat split; auto; [|constructor].
      rewrite sfield_assoc, B, E. unfold msfield. rewrite A, E. apply at_zero.
    + inversion N; subst. destruct IH as (f & t & F1 & Fi & F2 & is1 & is2 & E1 & -> & -> & X & Y & Z); auto.
      exists f, t, F1, Fi, F2, (j :: is1), is2. repeat split; auto. now apply atf_zero.
  - destruct I as [->|I].
    + exists f, t, [], F, G, [], is. cbn. repeat split; auto. constructor.
    + inversion N; subst. destruct IH as (f' & t' & F1 & Fi & F2 & is1 & is2 & E1 & -> & -> & X & Y & Z); auto.
      exists f', t', (F ++ F1), Fi, F2, (j :: is1), is2. repeat split; auto. { now rewrite <- app_assoc. }
      eapply atf_cons; eauto.
Qed.
Lemma atf_app mem id ms fs is F is' F' : atf mem id ms fs is F -> atf mem id ms fs is' F' -> atf mem id ms fs (is ++ is') (F ++ F').
Proof.
  induction 1; intros; [assumption| |]; cbn.
  - apply atf_zero; auto.
  - rewrite <- app_assoc. eapply atf_cons; eauto.
Qed.
(** setting another field *)
Lemma atf_put mem id ms fs is F i x ms' : atf mem id ms fs is F -> ~ In i is ->
  (forall j, j <> i -> assoc_nat j ms' = assoc_nat j ms) -> atf mem id ms' ((i, x) :: fs) is F.
Proof.
  intros A N P. induction A as [id ms fs|id ms fs j is F A B Rest IH|id ms fs j is f t F G E A Rest IH]; [constructor| |].
  - assert (j <> i) by (intros ->; apply N; now left). apply atf_zero; [now rewrite P| |apply IH; auto; intros K; apply N; now right].
    cbn. destruct (Nat.eqb_spec i j); [congruence|assumption].
  - assert (j <> i) by (intros ->; apply N; now left).
    eapply atf_cons; [eassumption| |apply IH; auto; intros K; apply N; now right].
    rewrite sfield_assoc in *. cbn. destruct (Nat.eqb_spec i j); [congruence|]. unfold msfield in *. now rewrite P.
Qed.
End Frames.

(** * Variables before and after *)
Section Vars.
Variable v : goenv.
Notation at_ := (at_ v).
Notation ats := (ats v).
Notation atf := (atf v).
Notation rd := (rd v).
Notation putp := (putp v).
Notation getp := (getp v).
Notation vpath := (vpath v).

Definition vref (mem : memory) (r : mref) : Prop :=
  exists X, nth_error mem (fst r) = Some (MCell X) /\ vpath (snd r) X.

Definition pre (mem : memory) (r : mref) (ty : gtype) (x : tval) (F : list mloc) : Prop :=
  vref mem r /\ at_ mem ty (rd mem r) x F /\ NoDup (fst r :: F).

Definition chg (mem : memory) (r : mref) (F : list mloc) (mem' : memory) : Prop :=
  length mem <= length mem' /\
  (forall l, l < length mem -> l <> fst r -> ~ In l F -> nth_error mem' l = nth_error mem l) /\
  (exists X X', nth_error mem (fst r) = Some (MCell X) /\ nth_error mem' (fst r) = Some (MCell X') /\
     (X' = X \/ exists y, X' = putp (snd r) X y)).

Definition post (mem : memory) (r : mref) (ty : gtype) (md : amode) (F : list mloc) (x : tval) (mem' : memory) : Prop :=
  chg mem r F mem' /\ (md <> Settable -> nth_error mem' (fst r) = nth_error mem (fst r)) /\
  exists F', at_ mem' ty (rd mem' r) x F' /\ NoDup (fst r :: F') /\ (forall l, In l F' -> In l F \/ length mem <= l).

Lemma vref_in mem r : vref mem r -> fst r < length mem.
Proof. intros (X & E & _). apply nth_error_Some. congruence. Qed.
Lemma mvar_is mem l X : nth_error mem l = Some (MCell X) -> mvar mem l = X.
Proof. unfold mvar. now intros ->. Qed.
Lemma chg_vref mem r F mem' : vref mem r -> chg mem r F mem' -> vref mem' r.
Proof.
  intros (X & E & V) (_ & _ & X0 & X' & E0 & E' & C). rewrite E in E0. injection E0 as <-.
  exists X'. split; [exact E'|]. destruct C as [->|(y & ->)]; [exact V|now apply vpath_putp].
Qed.
Lemma chg_refl mem r F : vref mem r -> chg mem r F mem.
Proof. intros (X & E & V). split; [lia|]. split; [auto|]. exists X, X. auto. Qed.
Lemma chg_trans mem r F mem1 F1 mem2 : vref mem r -> chg mem r F mem1 -> (forall l, In l F1 -> In l F \/ length mem <= l) ->
  chg mem1 r F1 mem2 -> chg mem r F mem2.
Proof.
  intros (X & E & V) (L & K & X0 & X1 & E0 & E1 & C1) Sub (L' & K' & X1' & X2 & E1' & E2 & C2).
  rewrite E in E0. injection E0 as <-. rewrite E1 in E1'. injection E1' as <-.
  split; [lia|]. split.
  - intros l Ll N Nf. rewrite K', K; auto; [lia|]. intros I. destruct (Sub _ I); [auto|lia].
  - exists X, X2. split; [auto|]. split; [auto|]. destruct C2 as [->|(y & ->)]; [auto|].
    right. exists y. destruct C1 as [->|(z & ->)]; [reflexivity|]. now apply putp_putp.
Qed.
Lemma post_refl mem r ty md x F : pre mem r ty x F -> post mem r ty md F x mem.
Proof. intros (V & A & N). split; [now apply chg_refl|]. split; [auto|]. exists F. auto. Qed.
Lemma post_pre mem r ty md F x mem' : vref mem r -> post mem r ty md F x mem' -> exists F', pre mem' r ty x F' /\
  (forall l, In l F' -> In l F \/ length mem <= l).
Proof. intros V (C & _ & F' & A & N & S). exists F'. split; [|exact S]. split; [now apply (chg_vref mem r F)|]. auto. Qed.
Lemma post_trans mem r ty ty' md F x mem1 F1 y mem2 : vref mem r -> chg mem r F mem1 ->
  (md <> Settable -> nth_error mem1 (fst r) = nth_error mem (fst r)) ->
  (forall l, In l F1 -> In l F \/ length mem <= l) -> post mem1 r ty' md F1 y mem2 -> ty = ty' -> x = y ->
  post mem r ty md F x mem2.
Proof.
  intros V C M S (C2 & M2 & F' & A & N & S') -> ->. split; [now apply (chg_trans mem r F mem1 F1)|].
  split; [intros H; rewrite M2, M; auto|]. exists F'. split; [auto|]. split; [auto|].
  intros l I. destruct (S' l I) as [J|J]; [auto|]. destruct C as (L & _). right. lia.
Qed.

(** writing *)
Definition after_write (mem : memory) (r : mref) (y : mval) : memory :=
  upd mem (fst r) (MCell (putp (snd r) (mvar mem (fst r)) y)).
Lemma write_eq r y s : write v r y s = (Ok tt, mkM (m_d s) (after_write (m_mem s) r y) (m_refs s)).
Proof. reflexivity. Qed.
Lemma rd_after mem r y : vref mem r -> rd (after_write mem r y) r = y.
Proof.
  intros (X & E & V). unfold TypedMem.rd, after_write. rewrite (mvar_is mem _ X E).
  rewrite (mvar_is _ _ (putp (snd r) X y)); [now apply getp_putp|].
  apply nth_error_upd_same. apply nth_error_Some. congruence.
Qed.
Lemma chg_write mem r F y : vref mem r -> chg mem r F (after_write mem r y).
Proof.
  intros (X & E & V). assert (L : fst r < length mem) by (apply nth_error_Some; congruence).
  unfold after_write. rewrite (mvar_is mem _ X E). split; [rewrite upd_length; lia|]. split.
  - intros l _ N _. apply nth_error_upd_other. congruence.
  - exists X, (putp (snd r) X y). split; [auto|]. split; [now apply nth_error_upd_same|]. right. eauto.
Qed.
Lemma after_other mem r y l : l <> fst r -> nth_error (after_write mem r y) l = nth_error mem l.
Proof. intros N. unfold after_write. apply nth_error_upd_other. congruence. Qed.

(** new cells *)
Lemma chg_new mem r F c : vref mem r -> chg mem r F (mem ++ [c]).
Proof.
  intros (X & E & V). split; [rewrite app_length; lia|]. split.
  - intros l Ll _ _. now rewrite nth_error_app1.
  - exists X, X. split; [auto|]. split; [|auto]. rewrite nth_error_app1; [auto|apply nth_error_Some; congruence].
Qed.
Lemma vref_new mem r c : vref mem r -> vref (mem ++ [c]) r.
Proof. intros V. exact (chg_vref mem r [] _ V (chg_new mem r [] c V)). Qed.
Lemma rd_new mem r c : vref mem r -> rd (mem ++ [c]) r = rd mem r.
Proof.
  intros (X & E & V). unfold TypedMem.rd. rewrite (mvar_is mem _ X E). rewrite (mvar_is _ _ X); [reflexivity|].
  rewrite nth_error_app1; [auto|apply nth_error_Some; congruence].
Qed.

(** storing a value with new cells [G] *)
Lemma post_store mem r ty md F x y mem1 G : vref mem r -> chg mem r F mem1 -> md = Settable ->
  (forall l, In l G -> In l F \/ length mem <= l) -> NoDup (fst r :: G) ->
  at_ mem1 ty y x G -> post mem r ty md F x (after_write mem1 r y).
Proof.
  intros V C -> S N A. pose proof (chg_vref _ _ _ _ V C) as V1.
  split; [apply (chg_trans mem r F mem1 F _ V C); [auto|now apply chg_write]|]. split; [congruence|].
  exists G. rewrite rd_after by assumption. split; [|auto]. apply (at_frame v mem1); [exact A|].
  intros l I. apply after_other. inversion N; congruence.
Qed.

(** * Simulation *)
Definition sim {A B} (mt : M A) (mm : TM B) (s : mstate) (P : A -> B -> memory -> Prop) : Prop :=
  match mt (m_d s) with
  | (Ok a, d) => exists b mem refs, mm s = (Ok b, mkM d mem refs) /\ P a b mem
  | (Err e, d) => exists mem refs, mm s = (Err e, mkM d mem refs)
  | (Panic e, d) => exists mem refs, mm s = (Panic e, mkM d mem refs)
  | (Crash, d) => exists mem refs, mm s = (Crash, mkM d mem refs)
  | (NoFuel, _) => True
  end.

Lemma sim_bind A B A' B' (mt : M A) (mm : TM B) (k : A -> M A') (k' : B -> TM B') s P Q :
  sim mt mm s P -> (forall a b d mem refs, P a b mem -> sim (k a) (k' b) (mkM d mem refs) Q) ->
  sim (mbind mt k) (tbind mm k') s Q.
Proof.
  unfold sim, mbind, tbind. intros H K. destruct (mt (m_d s)) as [[a|e|e| |] d].
  - destruct H as (b & mem & refs & -> & H). specialize (K a b d mem refs H). exact K.
  - destruct H as (mem & refs & ->). eauto.
  - destruct H as (mem & refs & ->). eauto.
  - destruct H as (mem & refs & ->). eauto.
  - exact Logic.I.
Qed.
Lemma sim_lift A (m : M A) s : sim m (lift_ m) s (fun a b mem => a = b /\ mem = m_mem s).
Proof. unfold sim, lift_. destruct (m (m_d s)) as [[a|e|e| |] d]; eauto 8. Qed.
Lemma sim_lift_bind A A' B' (m : M A) (k : A -> M A') (k' : A -> TM B') s Q :
  (forall a d refs, sim (k a) (k' a) (mkM d (m_mem s) refs) Q) -> sim (mbind m k) (tbind (lift_ m) k') s Q.
Proof. intros H. eapply sim_bind; [apply sim_lift|]. intros a b d mem refs [<- ->]. apply H. Qed.
Lemma sim_ret A B (a : A) (b : B) s (P : A -> B -> memory -> Prop) : P a b (m_mem s) -> sim (ret a) (tret b) s P.
Proof. destruct s. unfold sim, ret, tret. cbn. eauto 6. Qed.
Lemma sim_fail A B e s (P : A -> B -> memory -> Prop) : sim (fail e) (tfail e) s P.
Proof. destruct s. unfold sim, fail, tfail. cbn. eauto. Qed.
Lemma sim_panic A B e s (P : A -> B -> memory -> Prop) : sim (panic e) (tpanic e) s P.
Proof. destruct s. unfold sim, panic, tpanic. cbn. eauto. Qed.
Lemma sim_crash A B s (P : A -> B -> memory -> Prop) : sim (A := A) (B := B) crash (lift_ crash) s P.
Proof. destruct s. unfold sim, crash, lift_. cbn. eauto. Qed.
Lemma sim_mono A B (mt : M A) (mm : TM B) s (P Q : A -> B -> memory -> Prop) : sim mt mm s P ->
  (forall a b mem, P a b mem -> Q a b mem) -> sim mt mm s Q.
Proof.
  unfold sim. intros H K. destruct (mt (m_d s)) as [[a|e|e| |] d]; auto. destruct H as (b & mem & refs & E & H). eauto 6.
Qed.
(** steps of the memory model only *)
Lemma sim_skip A B B' (mt : M A) (mm : TM B) (k : B -> TM B') s s' b P : mm s = (Ok b, s') -> m_d s' = m_d s ->
  sim mt (k b) s' P -> sim mt (tbind mm k) s P.
Proof. unfold sim, tbind. intros -> <-. auto. Qed.

Lemma sim_set A' B' md y x (k : tval -> M A') (k' : unit -> TM B') s r ty F G mem1 Q :
  vref (m_mem s) r -> m_mem s = mem1 ->
  (forall l, In l G -> In l F) -> NoDup (fst r :: G) -> at_ mem1 ty y x G ->
  (forall d mem refs, post mem1 r ty md F x mem -> sim (k x) (k' tt) (mkM d mem refs) Q) ->
  sim (mbind (Typed.set md x) k) (tbind (mset v md r y) k') s Q.
Proof.
  intros V <- S N A K. destruct s as [d mem refs]. cbn [m_mem] in *.
  destruct md; unfold sim, mbind, Typed.set, panic, tbind, mset, mcheck, tpanic; cbn; [|eauto|eauto].
  unfold ret. cbn. apply (K d _ refs). now apply (post_store mem r ty Settable F x y mem G V (chg_refl mem r F V)); auto.
Qed.
End Vars.

(** * Parts of variables *)
Section Parts.
Variable v : goenv.
Notation at_ := (at_ v).
Notation ats := (ats v).
Notation atf := (atf v).
Notation rd := (rd v).
Notation putp := (putp v).
Notation getp := (getp v).
Notation vpath := (vpath v).
Notation vref := (vref v).
Notation chg := (chg v).
Notation pre := (pre v).
Notation post := (post v).

Lemma vref_inside mem r st : vref mem r -> (vref mem (inside r st) <-> vpath [st] (rd mem r)).
Proof.
  intros (X & E & V). unfold TypedMem.rd. rewrite (mvar_is _ _ _ E). split.
  - intros (X' & E' & V'). cbn in E', V'. rewrite E in E'. injection E' as <-. now apply vpath_app in V'.
  - intros H. exists X. split; [exact E|]. cbn. now apply vpath_app.
Qed.
Lemma rd_inside mem r st : vref mem r -> rd mem (inside r st) = getp [st] (rd mem r).
Proof. intros (X & E & V). unfold TypedMem.rd. cbn [inside fst snd]. rewrite (mvar_is _ _ _ E). now rewrite getp_app. Qed.

Lemma chg_inside mem r st F Fi mem' : vref mem r -> chg mem (inside r st) Fi mem' -> incl Fi F -> chg mem r F mem'.
Proof.
  intros (X & E & V) (L & K & X0 & X' & E0 & E' & C) I. cbn [inside fst snd] in *.
  rewrite E in E0. injection E0 as <-. split; [exact L|]. split; [auto|]. exists X, X'. split; [auto|]. split; [auto|].
  destruct C as [->|(y & ->)]; [auto|]. right. rewrite putp_app by assumption. eauto.
Qed.
Lemma rd_part mem r st Fi mem' : vref mem r -> chg mem (inside r st) Fi mem' ->
  rd mem' r = rd mem r \/ exists y, rd mem' r = putp [st] (rd mem r) y.
Proof.
  intros (X & E & V) (L & K & X0 & X' & E0 & E' & C). cbn [inside fst snd] in *.
  rewrite E in E0. injection E0 as <-. unfold TypedMem.rd. rewrite (mvar_is _ _ _ E), (mvar_is _ _ _ E').
  destruct C as [->|(y & ->)]; [auto|]. right. exists y. rewrite putp_app by assumption. now apply getp_putp.
Qed.

(** changes behind a pointer, slice or map of the variable *)
Lemma chg_through mem r F l G mem' : vref mem r -> l <> fst r -> ~ In (fst r) G -> In l F -> incl G F ->
  chg mem (l, []) G mem' -> chg mem r F mem' /\ nth_error mem' (fst r) = nth_error mem (fst r) /\ rd mem' r = rd mem r.
Proof.
  intros V N Ng Il Ig (L & K & _). pose proof (vref_in v _ _ V) as Lr. destruct V as (X & E & V).
  assert (Er : nth_error mem' (fst r) = Some (MCell X)) by (rewrite K; auto). split; [|split].
  - split; [exact L|]. split.
    + intros k Lk Nk Nf. apply K; [auto| |]; [intros ->; cbn in Nf; auto|]. intros J. auto.
    + exists X, X. auto.
  - congruence.
  - unfold TypedMem.rd. now rewrite (mvar_is _ _ _ E), (mvar_is _ _ _ Er).
Qed.
Lemma chg_mono mem r F G mem' : incl F G -> chg mem r F mem' -> chg mem r G mem'.
Proof. intros I (L & K & X). split; [auto|]. split; [|auto]. intros l Ll N Ng. apply K; auto. Qed.

Lemma NoDup_tail {A} (l l' : list A) : NoDup (l ++ l') -> NoDup l'.
Proof. induction l; [auto|]. cbn. inversion 1; auto. Qed.
Lemma NoDup_mid {A} (F1 Fi F2 Fi' : list A) (P : A -> Prop) : NoDup (F1 ++ Fi ++ F2) -> NoDup Fi' ->
  (forall l, In l Fi' -> In l Fi \/ P l) -> (forall l, In l (F1 ++ Fi ++ F2) -> ~ P l) -> NoDup (F1 ++ Fi' ++ F2).
Proof.
  intros N Ni S H.
  assert (D1 : forall l, In l F1 -> ~ In l (Fi' ++ F2)).
  { intros l I J. apply in_app_or in J as [J|J].
    - destruct (S l J) as [K|K]; [|apply (H l); auto; apply in_or_app; auto].
      clear - N I K. induction F1; [contradiction|]. cbn in N. inversion N; subst. destruct I as [->|I]; [|auto].
      apply H1. apply in_or_app. right. apply in_or_app. auto.
    - clear - N I J. induction F1; [contradiction|]. cbn in N. inversion N; subst. destruct I as [->|I]; [|auto].
      apply H1. apply in_or_app. right. apply in_or_app. auto. }
  assert (D2 : forall l, In l Fi' -> ~ In l F2).
  { intros l I J. destruct (S l I) as [K|K].
    - apply NoDup_tail in N. clear - N J K. induction Fi; [contradiction|]. cbn in N. inversion N; subst.
      destruct K as [->|K]; [|auto]. apply H1. apply in_or_app. auto.
    - apply (H l); auto. apply in_or_app. right. apply in_or_app. auto. }
  assert (N1 : NoDup F1) by (clear - N; induction F1; [constructor|]; cbn in N; inversion N; subst; constructor; auto;
    intros I; apply H1, in_or_app; auto).
  assert (N2 : NoDup F2) by (apply NoDup_tail in N; now apply NoDup_tail in N).
  assert (Ap : forall (X Y : list A), NoDup X -> NoDup Y -> (forall l, In l X -> ~ In l Y) -> NoDup (X ++ Y)).
  { clear. induction X; intros Y Hx Hy Hd; [assumption|]. cbn. inversion Hx; subst. constructor; [|apply IHX; auto; intros; apply Hd; now right].
    intros I. apply in_app_or in I as [I|I]; [auto|]. apply (Hd a); [now left|assumption]. }
  apply Ap; auto.
Qed.

(** an element of an array is read *)
Lemma elem_done mem R t md ms xs F i x mem1 : vref mem R -> rd mem R = MArr ms -> i < length ms ->
  ats mem (repeat t (length ms)) ms xs F -> NoDup (fst R :: F) -> forall m xi F1 Fi F2,
  F = F1 ++ Fi ++ F2 -> nth_error ms i = Some m -> nth_error xs i = Some xi ->
  ats mem (firstn i (repeat t (length ms))) (firstn i ms) (firstn i xs) F1 ->
  ats mem (skipn (S i) (repeat t (length ms))) (skipn (S i) ms) (skipn (S i) xs) F2 ->
  post mem (inside R (SElem i)) t md Fi x mem1 ->
  exists ms1 F', chg mem R F mem1 /\ (md <> Settable -> nth_error mem1 (fst R) = nth_error mem (fst R)) /\
    rd mem1 R = MArr ms1 /\ length ms1 = length ms /\
    ats mem1 (repeat t (length ms)) ms1 (firstn i xs ++ x :: skipn (S i) xs) F' /\ NoDup (fst R :: F') /\
    (forall l, In l F' -> In l F \/ length mem <= l).
Proof.
  intros V Er Li A N m xi F1 Fi F2 -> Em Ex A1 A2 (C & Mo & Fi' & Ai & Ni & Si).
  assert (Inc : incl Fi (F1 ++ Fi ++ F2)) by (intros l I; apply in_or_app; right; apply in_or_app; auto).
  pose proof (chg_inside _ _ _ (F1 ++ Fi ++ F2) _ _ V C Inc) as C1.
  pose proof (chg_vref v _ _ _ _ V C1) as V1.
  assert (Er1 : exists ms1, rd mem1 R = MArr ms1 /\ length ms1 = length ms /\ (ms1 = ms \/ exists y, ms1 = upd ms i y)).
  { destruct (rd_part _ _ _ _ _ V C) as [E|(y & E)]; rewrite Er in E; [exists ms; auto|].
    cbn in E. eexists. split; [exact E|]. split; [apply upd_length|]. right. eauto. }
  destruct Er1 as (ms1 & Er1 & L1 & U).
  assert (Ini : forall l, In l (F1 ++ Fi ++ F2) -> l < length mem).
  { intros l I. exact (ats_in v _ _ _ _ _ _ A I). }
  assert (Keep : forall l, In l F1 \/ In l F2 -> nth_error mem1 l = nth_error mem l).
  { intros l I. destruct C as (_ & K & _). apply K.
    - apply Ini. apply in_or_app. destruct I; [auto|right; apply in_or_app; auto].
    - cbn. intros ->. inversion N; subst. apply H1. apply in_or_app. destruct I; [auto|right; apply in_or_app; auto].
    - intros J. inversion N as [|? ? _ N2]; subst. clear - N2 I J. induction F1.
      + destruct I as [[]|I]. cbn in N2. induction Fi; [contradiction|]. cbn in N2. inversion N2; subst.
        destruct J as [->|J]; [apply H1, in_or_app; auto|auto].
      + cbn in N2. inversion N2; subst. destruct I as [[->|I]|I]; [|apply IHF1; auto|apply IHF1; auto].
        apply H1. apply in_or_app. right. apply in_or_app. auto. }
  exists ms1, (F1 ++ Fi' ++ F2). split; [exact C1|]. split; [exact Mo|]. split; [exact Er1|]. split; [exact L1|].
  assert (Lt : length (repeat t (length ms)) = length ms) by apply repeat_length.
  split; [|split].
  - rewrite rd_inside in Ai by assumption. rewrite Er1 in Ai. cbn in Ai.
    assert (Sp : ms1 = firstn i ms ++ nth i ms1 (MStruct []) :: skipn (S i) ms).
    { destruct U as [->|(y & ->)].
      - rewrite <- (firstn_skipn i ms) at 1. f_equal. clear - Li. revert i Li.
        induction ms; intros [|i] L; cbn in *; try lia; [reflexivity|apply IHms; lia].
      - rewrite nth_upd by assumption. clear - Li. revert i Li.
        induction ms; intros [|i] L; cbn in *; try lia; [reflexivity|]. f_equal. apply IHms. lia. }
    rewrite Sp. rewrite (app_assoc F1). 
    replace (repeat t (length ms)) with (firstn i (repeat t (length ms)) ++ [t] ++ skipn (S i) (repeat t (length ms))).
    2:{ clear - Li. rewrite <- (firstn_skipn i (repeat t (length ms))) at 3. f_equal. remember (length ms) as n. clear Heqn ms.
        revert i Li. induction n; intros [|i] L; cbn in *; try lia; [reflexivity|apply IHn; lia]. }
    rewrite <- app_assoc. apply ats_app; [eapply ats_frame; [exact A1|intros l I; auto]|].
    cbn [app]. apply ats_cons; [exact Ai|]. eapply ats_frame; [exact A2|intros l I; auto].
  - inversion N; subst. inversion Ni; subst. constructor.
    + intros I. cbn in *. apply in_app_or in I as [I|I]; [apply H1, in_or_app; auto|].
      apply in_app_or in I as [I|I]; [auto|]. apply H1, in_or_app. right. apply in_or_app. auto.
    + apply (NoDup_mid F1 Fi F2 Fi' (fun l => length mem <= l)); auto. intros l I L. specialize (Ini l I). lia.
  - intros l I. apply in_app_or in I as [I|I]; [left; apply in_or_app; auto|].
    apply in_app_or in I as [I|I]; [|left; apply in_or_app; right; apply in_or_app; auto].
    destruct (Si l I); [left; apply in_or_app; right; apply in_or_app; auto|auto].
Qed.

(** a field of a struct is read *)
Lemma field_done mem r id md md' ms fs F i t x mem1 : vref mem r -> rd mem r = MStruct ms ->
  atf mem id ms fs (seq 0 (length (st_fields (decls v id)))) F -> NoDup (fst r :: F) ->
  forall f F1 Fi F2 is1 is2, seq 0 (length (st_fields (decls v id))) = is1 ++ i :: is2 ->
  nth_error (st_fields (decls v id)) i = Some (f, t) ->
  F = F1 ++ Fi ++ F2 -> atf mem id ms fs is1 F1 -> atf mem id ms fs is2 F2 -> (md <> Settable -> md' <> Settable) ->
  post mem (inside r (SField id i)) t md' Fi x mem1 ->
  post mem r (TyStruct id) md F (VStruct ((i, x) :: fs)) mem1.
Proof.
  intros V Er A N f F1 Fi F2 is1 is2 Eis Ei -> A1 A2 Hm (C & Mo & Fi' & Ai & Ni & Si).
  assert (Inc : incl Fi (F1 ++ Fi ++ F2)) by (intros l I; apply in_or_app; right; apply in_or_app; auto).
  pose proof (chg_inside _ _ _ (F1 ++ Fi ++ F2) _ _ V C Inc) as C1.
  pose proof (chg_vref v _ _ _ _ V C1) as V1.
  assert (Er1 : exists ms1, rd mem1 r = MStruct ms1 /\ (forall j, j <> i -> assoc_nat j ms1 = assoc_nat j ms)).
  { destruct (rd_part _ _ _ _ _ V C) as [E|(y & E)]; rewrite Er in E; [exists ms; auto|].
    cbn in E. eexists. split; [exact E|]. intros j Nj. rewrite assoc_fput. destruct (Nat.eqb_spec i j); congruence. }
  destruct Er1 as (ms1 & Er1 & U).
  assert (Ini : forall l, In l (F1 ++ Fi ++ F2) -> l < length mem).
  { intros l I. exact (atf_in v _ _ _ _ _ _ _ A I). }
  assert (Keep : forall l, In l F1 \/ In l F2 -> nth_error mem1 l = nth_error mem l).
  { intros l I. destruct C as (_ & K & _). apply K.
    - apply Ini. apply in_or_app. destruct I; [auto|right; apply in_or_app; auto].
    - cbn. intros ->. inversion N; subst. apply H1. apply in_or_app. destruct I; [auto|right; apply in_or_app; auto].
    - intros J. inversion N as [|? ? _ N2]; subst. clear - N2 I J. induction F1.
      + destruct I as [[]|I]. cbn in N2. induction Fi; [contradiction|]. cbn in N2. inversion N2; subst.
        destruct J as [->|J]; [apply H1, in_or_app; auto|auto].
      + cbn in N2. inversion N2; subst. destruct I as [[->|I]|I]; [|apply IHF1; auto|apply IHF1; auto].
        apply H1. apply in_or_app. right. apply in_or_app. auto. }
  split; [exact C1|]. split; [intros H; apply Mo; auto|].
  assert (Nis : NoDup (is1 ++ i :: is2)) by (rewrite <- Eis; apply seq_NoDup).
  apply NoDup_remove_2 in Nis.
  exists (F1 ++ Fi' ++ F2). split; [|split].
  - rewrite Er1. constructor. rewrite Eis. rewrite rd_inside in Ai by assumption. rewrite Er1 in Ai. cbn in Ai.
    apply atf_app.
    + apply (atf_put v mem1 id ms fs is1 F1); [eapply atf_frame; [exact A1|intros l I; auto]| |exact U].
      intros I. apply Nis. apply in_or_app. auto.
    + eapply atf_cons; [exact Ei| |].
      * rewrite sfield_assoc. cbn. rewrite Nat.eqb_refl. exact Ai.
      * apply (atf_put v mem1 id ms fs is2 F2); [eapply atf_frame; [exact A2|intros l I; auto]| |exact U].
        intros I. apply Nis. apply in_or_app. auto.
  - inversion N; subst. inversion Ni; subst. constructor.
    + intros I. cbn in *. apply in_app_or in I as [I|I]; [apply H1, in_or_app; auto|].
      apply in_app_or in I as [I|I]; [auto|]. apply H1, in_or_app. right. apply in_or_app. auto.
    + apply (NoDup_mid F1 Fi F2 Fi' (fun l => length mem <= l)); auto. intros l I L. specialize (Ini l I). lia.
  - intros l I. apply in_app_or in I as [I|I]; [left; apply in_or_app; auto|].
    apply in_app_or in I as [I|I]; [|left; apply in_or_app; right; apply in_or_app; auto].
    destruct (Si l I); [left; apply in_or_app; right; apply in_or_app; auto|auto].
Qed.

Lemma part_pre mem R st t x F Fi : vref mem R -> vpath [st] (rd mem R) -> at_ mem t (getp [st] (rd mem R)) x Fi ->
  NoDup (fst R :: F) -> forall F1 F2, F = F1 ++ Fi ++ F2 -> pre mem (inside R st) t x Fi.
Proof.
  intros V Vp A N F1 F2 ->. split; [now apply vref_inside|]. split; [now rewrite rd_inside|].
  inversion N; subst. cbn. constructor.
  - intros I. apply H1, in_or_app. right. apply in_or_app. auto.
  - apply NoDup_tail in H2. clear - H2. induction Fi; [constructor|]. cbn in H2. inversion H2; subst. constructor; auto.
    intros I. apply H1, in_or_app. auto.
Qed.
End Parts.
