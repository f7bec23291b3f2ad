(** Documents with sharing and cycles (SpecCycle.v) read into variables of Go types. *)
From Verif Require Import Base BaseFacts SpecVarint Varint VarintFacts Tags GoMem GoTypes TagsCache Codecs Compress Header Decode Document
  Spec SpecValue SpecDoc SpecShare SpecCycle SpecTyped DecodeSafe DecodeSpec MergeFacts ShareDecode CycleDecode Typed TypedSpec
  JsonFacts TypedMem SpecMem TypedMemFacts TypedMemTree SpecTypedGraph.
From Coq Require Import ZifyBool ZifyNat ZifyN.

Scheme tshown_m := Minimality for tshown Sort Prop
with tshowns_m := Minimality for tshowns Sort Prop
with tshownf_m := Minimality for tshownf Sort Prop.
Combined Scheme tshown_mut from tshown_m, tshowns_m, tshownf_m.

Lemma tshown_stable_mut v mem mem' (L L' : nat -> gtype -> mval -> Prop) : (forall i ty m, L i ty m -> L' i ty m) ->
  (forall ty m x F, tshown v mem L ty m x F ->
     (forall l, In l F -> nth_error mem' l = nth_error mem l) -> tshown v mem' L' ty m x F) /\
  (forall t ms xs F, tshowns v mem L t ms xs F ->
     (forall l, In l F -> nth_error mem' l = nth_error mem l) -> tshowns v mem' L' t ms xs F) /\
  (forall id fs kxs F, tshownf v mem L id fs kxs F ->
     (forall l, In l F -> nth_error mem' l = nth_error mem l) -> tshownf v mem' L' id fs kxs F).
Proof.
  intros KL. apply tshown_mut; intros; try (econstructor; eauto; fail).
  - eapply tn_leaf; [eassumption|eassumption|]. eapply at_frame; [eassumption|]. auto.
  - eapply tn_slice; [rewrite H2 by (now left); eassumption|]. auto with datatypes.
  - eapply tn_map; [rewrite H3 by (now left); eassumption|eassumption|]. auto with datatypes.
  - eapply tn_ptr; [rewrite H2 by (now left); eassumption|]. auto with datatypes.
  - constructor; auto with datatypes.
  - econstructor; eauto with datatypes.
Qed.

(** the same with cells from [a] on, all different *)
Definition sh v a mem L ty m x := exists F, tshown v mem L ty m x F /\ NoDup F /\ forall l, In l F -> a <= l < length mem.
Definition shs v a mem L t ms xs := exists F, tshowns v mem L t ms xs F /\ NoDup F /\ forall l, In l F -> a <= l < length mem.
Definition shf v a mem L id fs kxs := exists F, tshownf v mem L id fs kxs F /\ NoDup F /\ forall l, In l F -> a <= l < length mem.

Section Sh.
Variable v : goenv.
Variables a a' : nat.
Variables mem mem' : memory.
Variables L L' : nat -> gtype -> mval -> Prop.
Hypothesis HL : forall i ty m, L i ty m -> L' i ty m.
Hypothesis Ha : a' <= a.
Hypothesis Hl : length mem <= length mem'.
Hypothesis Hk : forall l, a <= l -> l < length mem -> nth_error mem' l = nth_error mem l.

Lemma tshown_stable ty m x : sh v a mem L ty m x -> sh v a' mem' L' ty m x.
Proof.
  intros (F & V & N & B). exists F. split; [|split; [exact N|intros l J; specialize (B l J); lia]].
  apply (proj1 (tshown_stable_mut v mem mem' L L' HL) _ _ _ _ V). intros l J. specialize (B l J). apply Hk; lia.
Qed.
Lemma tshowns_stable ty m x : shs v a mem L ty m x -> shs v a' mem' L' ty m x.
Proof.
  intros (F & V & N & B). exists F. split; [|split; [exact N|intros l J; specialize (B l J); lia]].
  apply (proj1 (proj2 (tshown_stable_mut v mem mem' L L' HL)) _ _ _ _ V). intros l J. specialize (B l J). apply Hk; lia.
Qed.
Lemma tshownf_stable ty m x : shf v a mem L ty m x -> shf v a' mem' L' ty m x.
Proof.
  intros (F & V & N & B). exists F. split; [|split; [exact N|intros l J; specialize (B l J); lia]].
  apply (proj2 (proj2 (tshown_stable_mut v mem mem' L L' HL)) _ _ _ _ V). intros l J. specialize (B l J). apply Hk; lia.
Qed.
End Sh.

Lemma NoDup_apart (F G : list nat) b : NoDup F -> NoDup G -> (forall l, In l F -> l < b) -> (forall l, In l G -> b <= l) -> NoDup (F ++ G).
Proof.
  intros NF NG HF HG. induction F as [|l F IH]; [exact NG|]. cbn. inversion NF; subst. constructor.
  - intros J. apply in_app_or in J as [J|J]; [contradiction|]. apply HG in J. specialize (HF l (or_introl eq_refl)). lia.
  - apply IH; [assumption|]. intros l' J. apply HF. now right.
Qed.

Section Sh2.
Variable v : goenv.
Variable a : nat.
Variable mem : memory.
Variable L : nat -> gtype -> mval -> Prop.
Notation sh_ := (sh v a mem L).
Lemma sh_leaf ty m d x F : ty <> TyIface -> into v (fun _ _ => True) ty (GoTypes.zero ty) d x -> at_ v mem ty m x F ->
  NoDup F -> (forall l, In l F -> a <= l) -> sh_ ty m (NLeaf d).
Proof.
  intros N I A Nd B. exists F. split; [eapply tn_leaf; eassumption|]. split; [exact Nd|]. intros l J. split; [auto|].
  eapply at_in; eassumption.
Qed.
Lemma sh_slice t l ms xs : a <= l -> nth_error mem l = Some (MCell (MArr ms)) -> shs v (S l) mem L t ms xs ->
  sh_ (TySlice t) (MSlice (Some l)) (NArr xs).
Proof.
  intros B E (F & V & N & B'). assert (l < length mem) by (apply nth_error_Some; congruence).
  exists (l :: F). split; [now apply (tn_slice _ _ _ _ _ ms)|]. split; [constructor; [intros J; apply B' in J; lia|exact N]|].
  intros l' [<-|J]; [lia|]. apply B' in J. lia.
Qed.
Lemma sh_array n t ms xs : shs v a mem L t ms xs -> sh_ (TyArr n t) (MArr ms) (NArr xs).
Proof. intros (F & V & N). exists F. split; [now apply tn_array|exact N]. Qed.
Lemma sh_map t l es kxs : a <= l -> nth_error mem l = Some (MEntries es) -> map fst es = map fst kxs ->
  shs v (S l) mem L t (map snd es) (map snd kxs) -> sh_ (TyMap t) (MMap (Some l)) (NHash kxs).
Proof.
  intros B E K (F & V & N & B'). assert (l < length mem) by (apply nth_error_Some; congruence).
  exists (l :: F). split; [now apply (tn_map _ _ _ _ _ es)|]. split; [constructor; [intros J; apply B' in J; lia|exact N]|].
  intros l' [<-|J]; [lia|]. apply B' in J. lia.
Qed.
Lemma sh_ptr t l m kxs : a <= l -> nth_error mem l = Some (MCell m) -> sh v (S l) mem L t m (NHash kxs) ->
  sh_ (TyPtr t) (MPtr (Some l)) (NHash kxs).
Proof.
  intros B E (F & V & N & B'). assert (l < length mem) by (apply nth_error_Some; congruence).
  exists (l :: F). split; [now apply (tn_ptr _ _ _ _ _ m)|]. split; [constructor; [intros J; apply B' in J; lia|exact N]|].
  intros l' [<-|J]; [lia|]. apply B' in J. lia.
Qed.
Lemma sh_struct id fs kxs : shf v a mem L id fs kxs ->
  (forall i f t, nth_error (st_fields (decls v id)) i = Some (f, t) ->
     (forall k x, In (k, x) kxs -> ~ names v id k i) -> msfield v id i fs = mzero t) ->
  sh_ (TyStruct id) (MStruct fs) (NHash kxs).
Proof. intros (F & V & N) H. exists F. split; [now apply tn_struct|exact N]. Qed.
Lemma sh_ref ty m x : sh_ ty m x -> sh_ ty m (NRef x).
Proof. intros (F & V & N). exists F. split; [now apply tn_ref|exact N]. Qed.
Lemma sh_weak ty m x : sh_ ty m x -> sh_ ty m (NWeak x).
Proof. intros (F & V & N). exists F. split; [now apply tn_weak|exact N]. Qed.
Lemma sh_obj ty m cls x : sh_ ty m x -> sh_ ty m (NObj cls x).
Proof. intros (F & V & N). exists F. split; [now apply tn_obj|exact N]. Qed.
Lemma sh_copy ty m x : sh_ ty m x -> sh_ ty m (NCopy x).
Proof. intros (F & V & N). exists F. split; [now apply tn_copy|exact N]. Qed.
Lemma sh_at ty m i x : L i ty m -> sh_ ty m x -> sh_ ty m (NAt i x).
Proof. intros H (F & V & N). exists F. split; [now apply tn_at|exact N]. Qed.
Lemma sh_back ty m i : L i ty m -> sh_ ty m (NBack i).
Proof. intros H. exists []. split; [now apply tn_back|]. split; [constructor|intros l []]. Qed.
Lemma sh_same ty m i : L i ty m -> sh_ ty m (NSame i).
Proof. intros H. exists []. split; [now apply tn_same|]. split; [constructor|intros l []]. Qed.
Lemma shs_nil t : shs v a mem L t [] [].
Proof. exists []. split; [constructor|]. split; [constructor|intros l []]. Qed.
Lemma shf_nil id fs : shf v a mem L id fs [].
Proof. exists []. split; [constructor|]. split; [constructor|intros l []]. Qed.
End Sh2.

Section Sh3.
Variable v : goenv.
Variables a b : nat.
Variables mem mem' : memory.
Variables L L' : nat -> gtype -> mval -> Prop.
Hypothesis HL : forall i ty m, L i ty m -> L' i ty m.
Hypothesis Ha : a <= b.
Hypothesis Hb : length mem <= b.
Hypothesis Hl : length mem <= length mem'.
Hypothesis Hk : forall l, a <= l -> l < length mem -> nth_error mem' l = nth_error mem l.
Lemma shs_cons t m ms x xs : sh v a mem L t m x -> shs v b mem' L' t ms xs -> shs v a mem' L' t (m :: ms) (x :: xs).
Proof.
  intros (F & V & N & B) (G & W & M & B'). exists (F ++ G). split; [|split].
  - constructor; [|exact W]. apply (proj1 (tshown_stable_mut v mem mem' L L' HL) _ _ _ _ V). intros l J. specialize (B l J). apply Hk; lia.
  - apply NoDup_apart with b; auto; intros l J; [apply B in J|apply B' in J]; lia.
  - intros l J. apply in_app_or in J as [J|J]; [apply B in J|apply B' in J]; lia.
Qed.
Lemma shf_cons id fs k x kxs i f t : names v id k i -> nth_error (st_fields (decls v id)) i = Some (f, t) ->
  sh v a mem L t (msfield v id i fs) x -> shf v b mem' L' id fs kxs -> shf v a mem' L' id fs ((k, x) :: kxs).
Proof.
  intros Nm Et (F & V & N & B) (G & W & M & B'). exists (F ++ G). split; [|split].
  - eapply tnf_cons; [exact Nm|exact Et| |exact W]. apply (proj1 (tshown_stable_mut v mem mem' L L' HL) _ _ _ _ V). intros l J. specialize (B l J). apply Hk; lia.
  - apply NoDup_apart with b; auto; intros l J; [apply B in J|apply B' in J]; lia.
  - intros l J. apply in_app_or in J as [J|J]; [apply B in J|apply B' in J]; lia.
Qed.
End Sh3.

Lemma tfit_not_iface v T B S ty x : tfit v T B S ty x -> ty <> TyIface.
Proof. induction 1; try discriminate; assumption. Qed.

(** * Variables that do not overlap *)
Fixpoint diverge (p q : list step) : Prop :=
  match p, q with
  | SField id i :: p', SField id' j :: q' => i <> j \/ (id = id' /\ i = j /\ diverge p' q')
  | SElem i :: p', SElem j :: q' => i <> j \/ (i = j /\ diverge p' q')
  | _, _ => False
  end.
Definition apart (r r' : mref) : Prop := fst r <> fst r' \/ diverge (snd r) (snd r').

Section Paths.
Variable v : goenv.
Lemma nth_upd_other A (l : list A) i j x d : i <> j -> nth j (upd l i x) d = nth j l d.
Proof. revert i j. induction l; intros [|i] [|j] N; cbn; auto; congruence. Qed.
Lemma getp_diverge p : forall q X y, diverge q p -> vpath v q X -> getp v q (putp v p X y) = getp v q X /\ vpath v q (putp v p X y).
Proof.
  induction p as [|[id i|i] p IH]; intros [|[id' j|j] q] X y D V; cbn in D; try contradiction;
    destruct X; cbn in V |- *; try contradiction.
  - rewrite msfield_fput. destruct (Nat.eqb_spec i j) as [->|N]; [|auto].
    destruct D as [D|(<- & _ & D)]; [congruence|]. apply IH; auto.
  - rewrite upd_len. destruct (Nat.eq_dec i j) as [->|N].
    + destruct D as [D|(_ & D)]; [congruence|]. rewrite nth_upd by intuition. destruct (IH q (nth j l (MStruct [])) y D); intuition.
    + rewrite nth_upd_other by auto. intuition.
Qed.
Lemma diverge_app p q r : diverge p q -> diverge p (q ++ r).
Proof.
  revert q. induction p as [|[id i|i] p IH]; intros [|[id' j|j] q]; cbn; try tauto; intuition.
Qed.
Lemma apart_inside r r' st : apart r r' -> apart r (inside r' st).
Proof. intros [H|H]; [now left|]. right. cbn. now apply diverge_app. Qed.
Lemma diverge_fork p q q' a b : diverge [a] [b] -> diverge (p ++ a :: q) (p ++ b :: q').
Proof.
  intros H. induction p as [|[id i|i] p IH]; cbn; auto. destruct a, b; cbn in H |- *; intuition.
Qed.

(** what changes inside [r] does not show in what is apart from it *)
Lemma rd_apart mem r mem' r' : chg v mem r [] mem' -> vref v mem r' -> apart r' r ->
  rd v mem' r' = rd v mem r' /\ vref v mem' r'.
Proof.
  intros (_ & K & X0 & X1 & E0 & E1 & C) (X & E & V) A. unfold rd, vref, mvar in *.
  destruct (Nat.eq_dec (fst r') (fst r)) as [Eq|N].
  - destruct A as [A|A]; [congruence|]. rewrite Eq in *. rewrite E in E0. injection E0 as <-. rewrite E, E1.
    destruct C as [->|(y & ->)]; [split; [reflexivity|eauto]|].
    destruct (getp_diverge (snd r) (snd r') X y A V) as [G G']. split; [exact G|eauto].
  - assert (fst r' < length mem) by (apply nth_error_Some; congruence).
    rewrite (K (fst r')) by (auto; lia). rewrite E. split; [reflexivity|eauto].
Qed.
End Paths.

(** [r'] is a part of [r] *)
Definition around (r r' : mref) : Prop := fst r' = fst r /\ exists q, snd r' = snd r ++ q.
Lemma vref_kept v mem r mem' r' : chg v mem r [] mem' -> vref v mem r' -> apart r' r \/ around r' r -> vref v mem' r'.
Proof.
  intros C V [A|(E & q & Q)]; [apply (rd_apart v _ _ _ _ C V A)|].
  destruct C as (_ & _ & X0 & X1 & E0 & E1 & C). destruct V as (X & E2 & V). rewrite E in *. rewrite E2 in E0. injection E0 as <-.
  exists X1. split; [exact E1|]. destruct C as [->|(y & ->)]; [exact V|]. rewrite Q, putp_app by exact V. now apply vpath_putp.
Qed.

Section TG.
Variable c : dconfig.
Variable v : goenv.
Variable by_ : bytes.
Variable ibuf : loc.
Variable ishift : nat.
Variable buf : bytes.
Variable start : nat.
Variable T : nat -> gtype.
Hypothesis Hlen : (Z.of_nat (length by_) < two63)%Z.
Hypothesis Hbuf : Spec.at_ buf ishift by_.
Hypothesis Hp : d_perl c = false.

Notation len := (length by_).
Notation g := (go_dialect c start).
Notation mdec := (mdecode c v by_ ibuf ishift).
Notation udec := (decode c by_ ibuf ishift).
Notation fit := (tfit v T).

(** the variable into which the marked item number [i] is read *)
Definition ref_at (s : mstate) (i : nat) : option tref := nth_error (rev (map snd (m_refs s))) i.

Definition inv (E : list nat) (s : mstate) : Prop :=
  DecodeSpec.inv ibuf buf (m_d s) /\
  map fst (d_tracked (m_d s)) = E /\ map snd (d_tracked (m_d s)) = map fst (m_refs s) /\
  NoDup (map fst (m_refs s)) /\ (forall l, In l (map fst (m_refs s)) -> l < length (d_heap (m_d s))) /\
  (forall i t, ref_at s i = Some t -> tr_ty t = T i /\ tr_md t = Settable /\ vref v (m_mem s) (tr_ref t)).

Definition val (W : list nat) (s : mstate) (i : nat) (ty : gtype) (m : mval) : Prop :=
  ~ In i W /\ exists t, ref_at s i = Some t /\ tr_ty t = ty /\ rd v (m_mem s) (tr_ref t) = m.

Lemma inv_length E s : inv E s -> length (m_refs s) = length E.
Proof.
  intros (_ & I2 & I3 & _). apply (f_equal (@length _)) in I2, I3. rewrite !map_length in *. lia.
Qed.
Lemma ref_old s Y s' i t : m_refs s' = Y ++ m_refs s -> ref_at s i = Some t -> ref_at s' i = Some t.
Proof.
  unfold ref_at. intros -> H. rewrite map_app, rev_app_distr. rewrite nth_error_app1; [exact H|].
  apply nth_error_Some. congruence.
Qed.
Lemma ref_inv s Y s' i t : m_refs s' = Y ++ m_refs s -> ref_at s' i = Some t -> ref_at s i = Some t \/ In t (map snd Y).
Proof.
  unfold ref_at. intros -> H. rewrite map_app, rev_app_distr in H.
  destruct (Nat.lt_ge_cases i (length (rev (map snd (m_refs s))))) as [L|L].
  - rewrite nth_error_app1 in H by exact L. auto.
  - rewrite nth_error_app2 in H by exact L. apply nth_error_In in H. rewrite <- in_rev in H. auto.
Qed.
Lemma ref_last s l t rs : m_refs s = (l, t) :: rs -> ref_at s (length rs) = Some t.
Proof.
  unfold ref_at. intros ->. cbn. rewrite nth_error_app2; rewrite rev_length, map_length; [|lia]. now rewrite Nat.sub_diag.
Qed.
Lemma ref_lt E s i t : inv E s -> ref_at s i = Some t -> i < length E.
Proof.
  intros I H. rewrite <- (inv_length E s I). unfold ref_at in H. assert (i < length (rev (map snd (m_refs s)))) by (apply nth_error_Some; congruence).
  rewrite rev_length, map_length in *. lia.
Qed.
Lemma val_fewer W W' s i ty m : incl W' W -> val W s i ty m -> val W' s i ty m.
Proof. intros I (N & t & H). split; [auto|eauto]. Qed.

(** a reference back finds its variable *)
Lemma ref_found E s n i : inv E s -> number E n = Some i ->
  exists l t, assoc_nat n (d_tracked (m_d s)) = Some l /\ assoc_nat l (m_refs s) = Some t /\ ref_at s i = Some t.
Proof.
  intros (_ & I2 & I3 & I4 & _) N. unfold ref_at. revert E I2 N I3 I4. generalize (d_tracked (m_d s)) as D. generalize (m_refs s) as R.
  induction R as [|[l t] R IH]; intros [|[n' l'] D] E I2 N I3 I4; cbn in I2, I3; try discriminate; subst E; [discriminate|].
  cbn in N. injection I3 as -> I3. cbn in I4. inversion I4 as [|? ? Ni Nd]; subst.
  assert (Ln : length (map fst D) = length R) by (apply (f_equal (@length _)) in I3; rewrite !map_length in *; exact I3).
  cbn [assoc_nat map snd rev]. destruct (Nat.eqb_spec n' n) as [->|Ne].
  - injection N as <-. exists l, t. rewrite Nat.eqb_refl. split; [reflexivity|]. split; [reflexivity|].
    assert (Lr : length (rev (map snd R)) = length R) by now rewrite rev_length, map_length.
    rewrite nth_error_app2; rewrite Lr; [|lia]. replace (length (map fst D) - length R) with 0 by lia. reflexivity.
  - destruct (IH D _ eq_refl N I3 Nd) as (l1 & t1 & A1 & A2 & A3). exists l1, t1. split; [exact A1|]. split.
    + destruct (Nat.eqb_spec l l1) as [->|]; [|exact A2]. exfalso. apply Ni. rewrite <- I3.
      clear - A1. induction D as [|[a b] D IH]; [discriminate|]. cbn in A1 |- *. destruct (Nat.eqb a n); [left; congruence|right; auto].
    + rewrite nth_error_app1; [exact A3|]. apply nth_error_Some. congruence.
Qed.

(** where the marked items inside the item read into [r] are *)
Definition within (mem : memory) (r r' : mref) : Prop :=
  length mem <= fst r' \/ (fst r' = fst r /\ exists q, snd r' = snd r ++ q).

Definition after (E : list nat) (r : mref) (s : mstate) (X : list nat) (s' : mstate) : Prop :=
  (forall W, frm W (m_d s) (m_d s')) /\ chg v (m_mem s) r [] (m_mem s') /\
  (exists Y, m_refs s' = Y ++ m_refs s /\ forall t, In t (map snd Y) -> within (m_mem s) r (tr_ref t)) /\
  inv (X ++ E) s'.

(** [W]: the items that wait *)
Definition ready (E : list nat) (W : list nat) (r : mref) (ty : gtype) (s : mstate) : Prop :=
  inv E s /\ vref v (m_mem s) r /\ rd v (m_mem s) r = mzero ty /\ (forall i, In i W -> i < length E) /\
  (forall i t, ref_at s i = Some t -> apart (tr_ref t) r \/ (In i W /\ around (tr_ref t) r)).

Lemma ready_apart E W r ty s i t : ready E W r ty s -> ref_at s i = Some t -> ~ In i W -> apart (tr_ref t) r.
Proof. intros (_ & _ & _ & _ & A) R N. destruct (A i t R) as [H|[J _]]; [exact H|contradiction]. Qed.
Lemma after_val E W r ty s X s' i t m : ready E W r ty s -> after E r s X s' -> val W s i t m -> val W s' i t m.
Proof.
  intros Rd (_ & C & (Y & EY & _) & _) (N & tr & R & Et & Em). pose proof Rd as (I & _). split; [exact N|].
  exists tr. split; [eapply ref_old; eassumption|]. split; [exact Et|].
  destruct I as (_ & _ & _ & _ & _ & I). destruct (I i tr R) as (_ & _ & V).
  rewrite (proj1 (rd_apart v _ _ _ _ C V (ready_apart _ _ _ _ _ _ _ Rd R N))). exact Em.
Qed.
Lemma within_trans mem r mem1 r1 r2 : length mem <= length mem1 -> within mem r r1 -> within mem1 r1 r2 -> within mem r r2.
Proof.
  intros L [H|(H & q & Q)] [H'|(H' & q' & Q')].
  - left. lia.
  - left. lia.
  - left. lia.
  - right. split; [congruence|]. exists (q ++ q'). rewrite Q', Q, app_assoc. reflexivity.
Qed.
Lemma within_inside mem r st : within mem r (inside r st).
Proof. right. split; [reflexivity|]. exists [st]. reflexivity. Qed.

Definition decoded (m : TM nat) (E W : list nat) (r : mref) (ty : gtype) (s : mstate) (x : node) (p' : nat) (X : list nat) : Prop :=
  exists s', m s = (Ok p', s') /\ after E r s X s' /\
    sh v (length (m_mem s)) (m_mem s') (val W s') ty (rd v (m_mem s') r) x.

Definition Pitem (E : list nat) (m : cmode) (p : nat) (x : node) (p' : nat) (X : list nat) : Prop :=
  p < p' /\ p' <= len /\
  forall fuel ty r B S s, fit B S ty x -> mode_ok m (m_d s) -> Datatypes.S (need by_ p (d_copy (m_d s))) <= fuel ->
    ready E (B ++ S) r ty s -> decoded (mdec fuel ty r Settable p) E S r ty s x p' X.

Definition Ptag (E : list nat) (m : cmode) (q : nat) (t : N) (x : node) (p' : nat) (X : list nat) : Prop :=
  S q <= p' /\ p' <= len /\
  forall f ty r B S0 s, fit B S0 ty x -> mode_ok m (m_d s) -> S (need by_ (S q) (d_copy (m_d s))) <= f ->
     (d_copy (m_d s) = 0 -> len + 2 <= f) -> ready E (B ++ S0) r ty s ->
     decoded (mdecode_tag c v by_ ibuf ishift (mdec f) (udec f) (tag_kind t) ty r Settable (S q)) E S0 r ty s x p' X.

Definition Pbody (E : list nat) (m : cmode) (q : nat) (t : N) (x : node) (p' : nat) (X : list nat) : Prop :=
  tag_at by_ q q t ->
  (forall E0, E = q :: E0 -> marked by_ q -> Pitem E0 m q (NAt (length E0) x) p' (X ++ [q])) /\
  (~ marked by_ q -> Pitem E m q x p' X).

Lemma body_mem ty r md idx s : ty <> TyIface -> forall rec urec,
  mdecode_body c v by_ ibuf ishift rec urec ty r md idx s =
  (if Nat.leb len idx then tfail ETruncated else
   match skip_pads (skipn idx by_) idx with
      | None => tfail ETruncated
      | Some (tagb, idx) =>
          do! _ := (if tracked_bit tagb then mtrack idx r ty md else tret tt) in
          mdecode_tag c v by_ ibuf ishift rec urec (tag_kind (untrack tagb)) ty r md (S idx)
      end) s.
Proof.
  intros N rec urec. unfold mdecode_body. destruct (Nat.leb len idx); [reflexivity|]. unfold read, get_mem, tret, tbind at 1 2.
  destruct ty; try reflexivity. congruence.
Qed.

Lemma after_mark E0 q l r ty s X s1 s' :
  s1 = mkM (mkDState (d_heap (m_d s) ++ [CV GOpaque]) ((q, l) :: d_tracked (m_d s)) (d_copy (m_d s)) (d_made (m_d s)))
       (m_mem s) ((l, mkTref r ty Settable) :: m_refs s) ->
  after (q :: E0) r s1 X s' -> after E0 r s (X ++ [q]) s'.
Proof.
  intros -> (A1 & A2 & (Y & A3 & A4) & A5). split; [|split; [exact A2|split]].
  - intros W. destruct (A1 W) as (F1 & F2 & F3). cbn in F1, F2, F3. rewrite app_length in *. split; [lia|]. split; [|exact F3].
    intros l' L' N'. rewrite F2 by (auto; cbn; lia). now rewrite nth_error_app1.
  - cbn in A3. exists (Y ++ [(l, mkTref r ty Settable)]). split; [rewrite A3, <- app_assoc; reflexivity|].
    intros t J. rewrite map_app in J. apply in_app_or in J as [J|[<-|[]]]; [auto|]. right. split; [reflexivity|]. exists []. now rewrite app_nil_r.
  - rewrite <- app_assoc. exact A5.
Qed.

Lemma tag_reduce E m q t x p' X : Ptag E m q t x p' X -> Pbody E m q t x p' X.
Proof.
  intros (L1 & L2 & HB) Ht.
  destruct (tag_skip _ _ _ _ Ht) as (b & E1 & E2 & L3 & L4 & Eb).
  split.
  - intros E0 -> Mk. assert (TB : tracked_bit b = true) by now apply (marked_bit by_ q b).
    split; [lia|split; [exact L2|]]. intros fuel ty r B S0 s Fx Hm Hf (Ri & Rv & Rz & Rw & Ra).
    destruct fuel as [|f]; [lia|]. pose proof (tfit_not_iface _ _ _ _ _ _ Fx) as Nt.
    inversion Fx as [| | | | | | | | | |B' S' ty' i x' Ti Fx'| |]; subst. 
    pose proof Ri as (I1 & I2 & I3 & I4 & I5 & I6). pose proof (inv_length _ _ Ri) as Le.
    set (l := length (d_heap (m_d s))).
    set (s1 := mkM (mkDState (d_heap (m_d s) ++ [CV GOpaque]) ((q, l) :: d_tracked (m_d s)) (d_copy (m_d s)) (d_made (m_d s)))
       (m_mem s) ((l, mkTref r (T (length E0)) Settable) :: m_refs s)).
    assert (Inv1 : inv (q :: E0) s1).
    { split; [|split; [cbn; now rewrite I2|split; [cbn; now rewrite I3|split; [|split]]]].
      - eapply go_inv; [|exact I1]. intros W. exact (frm_alloc by_ 0 W (m_d s) [CV GOpaque]).
      - cbn. constructor; [|exact I4]. intros J. apply I5 in J. unfold l in J. lia.
      - cbn. rewrite app_length. intros l' [<-|J]; [unfold l; cbn; lia|]. apply I5 in J. lia.
      - intros i tr H. assert (Lt : i < S (length E0)).
        { unfold ref_at in H. cbn in H. assert (i < length (rev (map snd (m_refs s)) ++ [mkTref r (T (length E0)) Settable])) by (apply nth_error_Some; congruence).
          rewrite app_length, rev_length, map_length in *. cbn in *. lia. }
        destruct (Nat.eq_dec i (length E0)) as [->|Ni].
        + rewrite <- Le in H at 1. pose proof (ref_last s1 l _ (m_refs s) eq_refl) as H'. rewrite H in H'. injection H' as ->. auto.
        + apply I6. unfold ref_at in *. cbn in H. rewrite nth_error_app1 in H; [exact H|]. rewrite rev_length, map_length. lia. }
    destruct (HB f (T (length E0)) r (length E0 :: B) S0 s1) as (s' & R & A & V); auto.
    + cbn [m_d s1 d_copy]. unfold need in *. destruct (d_copy (m_d s)); lia.
    + cbn [m_d s1 d_copy]. intros C0. unfold need in Hf. rewrite C0 in Hf. lia.
    + split; [exact Inv1|]. split; [exact Rv|]. split; [exact Rz|]. split.
      * cbn. intros i [<-|J]; [lia|]. apply Rw in J. lia.
      * intros i tr H.
        destruct (Nat.eq_dec i (length E0)) as [->|Ni].
        { right. split; [now left|]. rewrite <- Le in H at 1. pose proof (ref_last s1 l _ (m_refs s) eq_refl) as H'. rewrite H in H'. injection H' as ->.
          split; [reflexivity|]. exists []. cbn. now rewrite app_nil_r. }
        assert (H0 : ref_at s i = Some tr); [|destruct (Ra i tr H0) as [Q|[J Q]]; [now left|right; split; [now right|exact Q]]].
        pose proof (ref_lt _ _ _ _ Inv1 H) as Lt. cbn in Lt. unfold ref_at in *. cbn in H. rewrite nth_error_app1 in H; [exact H|]. rewrite rev_length, map_length. lia.
    + exists s'. split; [|split].
      * cbn [mdecode]. rewrite body_mem by exact Nt. destruct (Nat.leb_spec len q); [lia|]. rewrite E1, TB.
        unfold mtrack, tbind at 1 2 3. exact R.
      * eapply after_mark; [reflexivity|exact A].
      * apply sh_at; [|exact V]. split; [intros J; specialize (Rw (length E0) (in_or_app _ _ _ (or_intror J))); lia|].
        exists (mkTref r (T (length E0)) Settable). destruct A as (_ & _ & (Y & A3 & _) & _). split; [|auto].
        eapply ref_old; [exact A3|]. rewrite <- Le at 1. apply (ref_last s1 l _ (m_refs s) eq_refl).
  - intros Mk. assert (TB : tracked_bit b = false).
    { destruct (tracked_bit b) eqn:TB; [|reflexivity]. exfalso. apply Mk. now apply (marked_bit by_ q b). }
    split; [lia|split; [exact L2|]]. intros fuel ty r B S0 s Fx Hm Hf Rd.
    destruct fuel as [|f]; [lia|]. pose proof (tfit_not_iface _ _ _ _ _ _ Fx) as Nt.
    destruct (HB f ty r B S0 s) as (s' & R & A); auto.
    + unfold need in *. destruct (d_copy (m_d s)); lia.
    + intros C0. unfold need in Hf. rewrite C0 in Hf. lia.
    + exists s'. split; [|exact A]. cbn [mdecode]. rewrite body_mem by exact Nt. destruct (Nat.leb_spec len q); [lia|]. rewrite E1, E2, TB. exact R.
Qed.

Lemma Pbody_at E m q t x p' X : (tag_at by_ q q t -> Ptag E m q t x p' X) -> Pbody E m q t x p' X.
Proof. intros H Ht. exact (tag_reduce _ _ _ _ _ _ _ (H Ht) Ht). Qed.

Lemma Pitem_pad E m p q t x p' X : tag_at by_ p q t -> Pitem E m q x p' X -> Pitem E m p x p' X.
Proof.
  intros Ht (L1 & L2 & H).
  destruct (tag_skip _ _ _ _ Ht) as (b & E1 & E2 & L3 & L4 & Eb).
  destruct (tag_skip _ _ _ _ (tag_here by_ _ _ _ Ht)) as (b' & E1' & E2' & _ & _ & Eb').
  assert (b' = b) by congruence. subst b'.
  split; [lia|split; [exact L2|]]. intros fuel ty r B S0 s Fx Hm Hf Rd.
  destruct (H fuel ty r B S0 s) as (s' & R & X1); auto.
  { pose proof (need_mono by_ p q (d_copy (m_d s)) (need by_ p (d_copy (m_d s))) (le_n _) L3). lia. }
  exists s'. split; [|exact X1]. pose proof (tfit_not_iface _ _ _ _ _ _ Fx) as Nt.
  destruct fuel as [|f]; [lia|]. cbn [mdecode] in *. rewrite body_mem in * by exact Nt.
  destruct (Nat.leb_spec len p); [lia|]. destruct (Nat.leb_spec len q); [lia|].
  rewrite E1. rewrite E1' in R. exact R.
Qed.

(** ** Items without other items inside *)
Definition mkeeps {A} (m : TM A) : Prop := forall s a s', m s = (Ok a, s') ->
  d_tracked (m_d s') = d_tracked (m_d s) /\ d_heap (m_d s') = d_heap (m_d s) /\ m_refs s' = m_refs s.
Definition still {A} (m : M A) : Prop := forall s a s', m s = (Ok a, s') ->
  d_tracked s' = d_tracked s /\ d_heap s' = d_heap s.
Lemma still_varint i : still (varint_at by_ i).
Proof.
  unfold varint_at. intros s a s'. destruct (slice_from by_ i); [|discriminate].
  destruct (varintdecode _) as [[]|]; try discriminate; intros [= _ <-]; auto.
Qed.
Lemma still_fixed i k : still (fixed_at by_ i k).
Proof.
  unfold fixed_at. intros s a s'. destruct (Nat.leb _ _); [discriminate|].
  destruct (slice_range _ _ _); [|discriminate]. intros [= _ <-]; auto.
Qed.
Lemma still_binary i n : still (binary_at by_ i n).
Proof.
  unfold binary_at. intros s a s'. destruct (_ || _); [discriminate|]. destruct (_ <? _)%Z; [discriminate|].
  destruct (slice_range _ _ _); [|discriminate]. intros [= _ <-]; auto.
Qed.
Lemma still_log n k : still (log_make n k).
Proof. intros s a s' [= _ <-]. auto. Qed.
Lemma mkeeps_ret A (a : A) : mkeeps (tret a).
Proof. intros s b s' [= _ <-]. auto. Qed.
Lemma mkeeps_bind A B (m : TM A) (k : A -> TM B) : mkeeps m -> (forall a, mkeeps (k a)) -> mkeeps (tbind m k).
Proof.
  intros Hm Hk s b s'. unfold tbind. destruct (m s) as [[a|e|e| |] s1] eqn:E; try discriminate. intros E'.
  apply Hm in E. apply Hk in E'. intuition congruence.
Qed.
Lemma mkeeps_lift A (m : M A) : still m -> mkeeps (lift_ m).
Proof.
  intros K s a s'. unfold lift_. destruct (m (m_d s)) as [r d] eqn:E. intros [= -> <-]. apply K in E. intuition.
Qed.
Lemma mkeeps_panic A e : mkeeps (@tpanic A e).
Proof. intros s a s' [=]. Qed.
Lemma mkeeps_mset md r x : mkeeps (mset v md r x).
Proof.
  unfold mset, mcheck. apply mkeeps_bind; [destruct md; apply mkeeps_ret || apply mkeeps_panic|].
  intros _ s a s' [= _ <-]. auto.
Qed.
Lemma mkeeps_setret md r x (j : nat) : mkeeps (do! _ := mset v md r x in tret j).
Proof. apply mkeeps_bind; [apply mkeeps_mset|]. intros _. apply mkeeps_ret. Qed.
Lemma mkeeps_int ty md r z (j : nat) : mkeeps (do! _ := msetInt v ty md r z in tret j).
Proof. destruct ty; try (apply mkeeps_bind; [apply mkeeps_panic|intros _; apply mkeeps_ret]). apply mkeeps_setret. Qed.
Lemma mkeeps_float ty md r z (j : nat) : mkeeps (do! _ := msetFloat v ty md r z in tret j).
Proof. destruct ty; try (apply mkeeps_bind; [apply mkeeps_panic|intros _; apply mkeeps_ret]); apply mkeeps_setret. Qed.
Lemma mkeeps_bool ty md r z (j : nat) : mkeeps (do! _ := msetBool v ty md r z in tret j).
Proof. destruct ty; try (apply mkeeps_bind; [apply mkeeps_panic|intros _; apply mkeeps_ret]); apply mkeeps_setret. Qed.
Lemma mkeeps_string ty md r z (j : nat) : mkeeps (do! _ := msetString v ty md r z in tret j).
Proof. destruct ty; try (apply mkeeps_bind; [apply mkeeps_panic|intros _; apply mkeeps_ret]); apply mkeeps_setret. Qed.
Lemma mkeeps_iface ty md r z (j : nat) : mkeeps (do! _ := mset_iface v ty md r z in tret j).
Proof. destruct ty; try (apply mkeeps_bind; [apply mkeeps_panic|intros _; apply mkeeps_ret]); apply mkeeps_setret. Qed.
Lemma mkeeps_check md : mkeeps (mcheck md).
Proof. destruct md; apply mkeeps_ret || apply mkeeps_panic. Qed.
Lemma mkeeps_cell x : mkeeps (new_cell x).
Proof. intros s a s' [= _ <-]. auto. Qed.
Lemma mkeeps_write r x : mkeeps (write v r x).
Proof. intros s a s' [= _ <-]. auto. Qed.
Lemma mkeeps_set_cell r x : mkeeps (set_cell r x).
Proof. intros s a s' [= _ <-]. auto. Qed.
Lemma mkeeps_mem : mkeeps get_mem.
Proof. intros s a s' [= _ <-]. auto. Qed.
Lemma mkeeps_binary ty md r z (j : nat) : mkeeps (do! _ := msetBinary v ty md r z in tret j).
Proof.
  apply mkeeps_bind; [|intros _; apply mkeeps_ret]. unfold msetBinary, read.
  apply mkeeps_bind; [apply mkeeps_bind; [apply mkeeps_mem|intros; apply mkeeps_ret]|]. intros cur.
  destruct ty as [| | | | | |t|k t| | |]; try apply mkeeps_panic.
  - destruct cur; apply mkeeps_mset.
  - destruct t as [k| | | | | | | | | |]; try apply mkeeps_panic.
    destruct k; try apply mkeeps_panic. destruct cur as [| | | | | |o| | | |]; try apply mkeeps_panic. destruct o as [l|].
    + apply mkeeps_bind; [apply mkeeps_check|]. intros _. apply mkeeps_bind; [apply mkeeps_mem|]. intros mem.
      destruct (mvar mem l); try apply mkeeps_panic. apply mkeeps_set_cell.
    + apply mkeeps_bind; [apply mkeeps_lift, still_log|]. intros _. apply mkeeps_bind; [apply mkeeps_check|]. intros _.
      apply mkeeps_bind; [apply mkeeps_cell|]. intros l. apply mkeeps_write.
  - destruct t as [k'| | | | | | | | | |]; try apply mkeeps_panic.
    destruct k'; try apply mkeeps_panic. destruct cur; try apply mkeeps_panic. apply mkeeps_mset.
Qed.

Lemma plain_kept rec urec i ty r md t : ty <> TyIface -> plain_tag t ->
  mkeeps (mdecode_tag c v by_ ibuf ishift rec urec (tag_kind t) ty r md i).
Proof.
  intros Nt Pt. unfold plain_tag in Pt.
  destruct (N.ltb_spec t 32) as [L|L].
  { rewrite (tk_small by_) by exact L. apply mkeeps_int. }
  destruct (N.leb_spec 96 t) as [L2|L2].
  { rewrite (tk_short by_) by lia. cbn [mdecode_tag]. apply mkeeps_bind; [apply mkeeps_lift, still_binary|].
    intros [w j]. apply mkeeps_binary. }
  assert (Q : (t = 32 \/ t = 33 \/ t = 34 \/ t = 35 \/ t = 37 \/ t = 38 \/ t = 39 \/ t = 49 \/ t = 57 \/ t = 58 \/ t = 59)%N) by lia.
  clear Pt L L2.
  decompose [or] Q; subst t;
    match goal with |- context [tag_kind ?n] => let k := eval vm_compute in (tag_kind n) in change (tag_kind n) with k end;
    cbn [mdecode_tag]; try apply mkeeps_bool.
  - apply mkeeps_bind; [apply mkeeps_lift, still_varint|]. intros [w sz]. apply mkeeps_int.
  - apply mkeeps_bind; [apply mkeeps_lift, still_varint|]. intros [w sz]. apply mkeeps_int.
  - apply mkeeps_bind; [apply mkeeps_lift, still_fixed|]. intros w. apply mkeeps_float.
  - apply mkeeps_bind; [apply mkeeps_lift, still_fixed|]. intros w. apply mkeeps_float.
  - rewrite Hp. destruct ty; apply mkeeps_ret || apply mkeeps_setret.
  - apply mkeeps_bind; [apply mkeeps_lift, still_varint|]. intros [w sz].
    apply mkeeps_bind; [apply mkeeps_lift, still_binary|]. intros [w' j]. apply mkeeps_binary.
  - apply mkeeps_bind; [apply mkeeps_lift, still_varint|]. intros [w sz].
    apply mkeeps_bind; [apply mkeeps_lift, still_binary|]. intros [w' j]. apply mkeeps_string.
  - intros s a s'. unfold mset_iface, tbind, tpanic, lift_. cbn. destruct (decodeRegexp _ _ _ _ _ _) as [[]]; try discriminate.
    destruct ty; try discriminate. congruence.
  - rewrite Hp. destruct ty; apply mkeeps_ret || apply mkeeps_setret.
Qed.

Lemma after_intro E W r ty s s' (tb : bool) q l : ready E W r ty s -> (forall W, frm W (m_d s) (m_d s')) ->
  chg v (m_mem s) r [] (m_mem s') -> l = length (d_heap (m_d s)) ->
  d_tracked (m_d s') = (if tb then [(q, l)] else []) ++ d_tracked (m_d s) ->
  m_refs s' = (if tb then [(l, mkTref r ty Settable)] else []) ++ m_refs s ->
  (tb = true -> l < length (d_heap (m_d s'))) -> (tb = true -> T (length E) = ty) ->
  after E r s (if tb then [q] else []) s'.
Proof.
  intros (Ri & Rv & Rz & Rw & Ra) F C -> K1 K2 K3 TT. set (l := length (d_heap (m_d s))) in *.
  pose proof Ri as (I1 & I2 & I3 & I4 & I5 & I6). pose proof (inv_length _ _ Ri) as Le.
  assert (V : vref v (m_mem s') r) by (eapply chg_vref; eassumption).
  split; [exact F|]. split; [exact C|]. split.
  - eexists. split; [exact K2|]. intros t J. destruct tb; [|destruct J]. destruct J as [<-|[]]. right. split; [reflexivity|].
    exists []. cbn. now rewrite app_nil_r.
  - split; [eapply go_inv; eassumption|].
    assert (M1 : map fst (m_refs s') = (if tb then [l] else []) ++ map fst (m_refs s)) by (rewrite K2; destruct tb; reflexivity).
    split; [rewrite K1, <- I2; destruct tb; reflexivity|].
    split; [rewrite K1, M1, <- I3; destruct tb; reflexivity|]. rewrite M1. split; [|split].
    + destruct tb; cbn; [|exact I4]. constructor; [|exact I4]. intros J. apply I5 in J. unfold l in J. lia.
    + intros l' J. pose proof (frm_len _ _ _ (F (fun _ => False))). apply in_app_or in J as [J|J].
      * destruct tb; [|destruct J]. destruct J as [<-|[]]. now apply K3.
      * apply I5 in J. lia.
    + assert (Old : forall i t, ref_at s i = Some t -> tr_ty t = T i /\ tr_md t = Settable /\ vref v (m_mem s') (tr_ref t)).
      { intros i t J. destruct (I6 i t J) as (J1 & J2 & J3). split; [exact J1|]. split; [exact J2|].
        apply (vref_kept v _ _ _ _ C J3). destruct (Ra i t J) as [A|[_ A]]; auto. }
      intros i t J. destruct tb; cbn in K2; [|apply Old; unfold ref_at in *; rewrite K2 in J; exact J].
      destruct (Nat.lt_ge_cases i (length (m_refs s))) as [Lt|Ge].
      * apply Old. unfold ref_at in *. rewrite K2 in J. cbn in J. rewrite nth_error_app1 in J; [exact J|]. now rewrite rev_length, map_length.
      * pose proof (ref_last _ _ _ _ K2) as J'. assert (i < S (length (m_refs s))).
        { unfold ref_at in J. assert (Li : i < length (rev (map snd (m_refs s')))) by (apply nth_error_Some; congruence).
          rewrite rev_length, map_length, K2 in Li. exact Li. }
        assert (i = length (m_refs s)) by lia. subst i. rewrite J in J'. injection J' as ->. cbn. rewrite Le. rewrite TT by reflexivity. auto.
Qed.

Lemma Pbody_plain E m q t d p' : plain_tag t -> item g by_ m q d p' -> Pbody E m q t (NLeaf d) p' [].
Proof.
  intros Pt It Ht.
  destruct (proj1 (tdecode_implements_into c v by_ ibuf ishift buf start Hlen Hbuf Hp) _ _ _ _ It) as (L1 & L2 & H).
  destruct (tag_skip _ _ _ _ Ht) as (b & E1 & E2 & L3 & L4 & Eb).
  assert (Main : forall fuel ty r B S0 s E0 Y, fit B S0 ty (NLeaf d) -> mode_ok m (m_d s) ->
    S (need by_ q (d_copy (m_d s))) <= fuel -> ready E0 (B ++ S0) r ty s ->
    Y = (if tracked_bit b then [(length (d_heap (m_d s)), mkTref r ty Settable)] else []) ->
    (tracked_bit b = true -> T (length E0) = ty) ->
    exists s', mdec fuel ty r Settable q s = (Ok p', s') /\ after E0 r s (if tracked_bit b then [q] else []) s' /\
      m_refs s' = Y ++ m_refs s /\
      (forall L, sh v (length (m_mem s)) (m_mem s') L ty (rd v (m_mem s') r) (NLeaf d))).
  { intros fuel ty r B S0 s E0 Y Fx Hm Hf (Ri & Rv & Rz & Rw & Ra) EY TT.
    inversion Fx as [B' S' ty' d' x0 Nt HI| | | | | | | | | | | |]; subst B' S' ty' d'.
    pose proof Ri as (I1 & I2 & I3 & I4 & I5 & I6). pose proof (inv_length _ _ Ri) as Le.
    destruct (H fuel ty (GoTypes.zero ty) (m_d s) x0 Hm Hf I1 HI) as (d' & x & R & F & HX).
    pose proof (tdecode_mem c v by_ ibuf ishift fuel ty r Settable q (GoTypes.zero ty) [] s) as Si.
    unfold sim in Si. unfold runs in R. rewrite R in Si.
    destruct Si as (b' & mem' & refs' & R' & P1 & C & _ & F' & A & Nd & N).
    { split; [exact Rv|]. split; [rewrite Rz; apply at_zero|]. constructor; [auto|constructor]. }
    cbn in P1. subst b'.
    assert (K : d_tracked d' = (if tracked_bit b then [(q, length (d_heap (m_d s)))] else []) ++ d_tracked (m_d s) /\
                refs' = Y ++ m_refs s /\ (tracked_bit b = true -> length (d_heap (m_d s)) < length (d_heap d'))).
    { clear R. destruct fuel as [|f]; [lia|]. cbn [mdecode] in R'. rewrite body_mem in R' by exact Nt.
      destruct (Nat.leb_spec len q); [lia|]. rewrite E1, E2 in R'. subst Y. destruct (tracked_bit b).
      - unfold tbind at 1 in R'. unfold mtrack, lift_, alloc, track, tbind in R'. cbn [m_d m_mem m_refs d_heap d_tracked d_copy d_made] in R'.
        pose proof R' as K. apply plain_kept in K; [|exact Nt|exact Pt]. cbn in K. destruct K as (K1 & K3 & K2). split; [exact K1|]. split; [exact K2|].
        intros _. rewrite K3, app_length. cbn. lia.
      - apply plain_kept in R'; [|exact Nt|exact Pt]. cbn in R'. intuition congruence. }
    destruct K as (K1 & K2 & K3). exists (mkM d' mem' refs'). split; [exact R'|]. cbn [m_d m_mem m_refs].
    split; [|split; [exact K2|]].
    - eapply (after_intro E0 (B ++ S0) r ty s (mkM d' mem' refs') (tracked_bit b) q); try eassumption; [split; auto|reflexivity|subst Y; exact K2].
    - intros L. eapply sh_leaf; [exact Nt| |exact A| |]; [eapply into_mono; [|exact HX]; auto|now inversion Nd|]. intros l J. destruct (N l J) as [[]|J']; exact J'. }
  split.
  - intros E0 -> Mk. assert (TB : tracked_bit b = true) by now apply (marked_bit by_ q b).
    split; [lia|split; [exact L2|]]. intros fuel ty r B S0 s Fx Hm Hf Rd.
    inversion Fx as [| | | | | | | | | |B' S' ty' i x' Ti Fx'| |]; subst B' S' ty' i x'.
    assert (Fl : fit B S0 ty (NLeaf d)) by (inversion Fx'; subst; econstructor; eassumption).
    destruct (Main fuel ty r B S0 s E0 _ Fl Hm Hf Rd eq_refl (fun _ => Ti)) as (s' & R & A & K & V).
    rewrite TB in *.
    exists s'. split; [exact R|]. split; [exact A|]. apply sh_at; [|apply V].
    destruct Rd as (Ri & _ & _ & Rw & _). split; [intros J; specialize (Rw (length E0) (in_or_app _ _ _ (or_intror J))); lia|].
    exists (mkTref r ty Settable). split; [|auto]. rewrite <- (inv_length _ _ Ri). eapply ref_last. exact K.
  - intros Mk. assert (TB : tracked_bit b = false).
    { destruct (tracked_bit b) eqn:TB; [|reflexivity]. exfalso. apply Mk. now apply (marked_bit by_ q b). }
    split; [lia|split; [exact L2|]]. intros fuel ty r B S0 s Fx Hm Hf Rd.
    destruct (Main fuel ty r B S0 s E _ Fx Hm Hf Rd eq_refl) as (s' & R & A & K & V); [congruence|].
    rewrite TB in *. exists s'. split; [exact R|]. split; [exact A|apply V].
Qed.

(** ** Items behind references *)
Lemma mfit_inv B S ty x : fit B S ty x ->
  match x with
  | NRef y | NWeak y | NObj _ y | NCopy y => fit B S ty y
  | NBack i | NSame i => T i = ty /\ ty <> TyIface /\ ty <> TyPtr TyIface /\ ~ In i (B ++ S)
  | NFreeze _ _ _ => False
  | _ => True
  end.
Proof. destruct 1; auto. Qed.

Lemma tbind_run A B (m : M A) (k : A -> TM B) s a : runs m (m_d s) a (m_d s) -> (tbind (lift_ m) k) s = k a s.
Proof. intros R. unfold tbind, lift_. unfold runs in R. rewrite R. destruct s; reflexivity. Qed.

Lemma Ptag_refn E m q x p' X : Pitem E m (S q) x p' X -> Ptag E m q 40 (NRef x) p' X.
Proof.
  intros (P1 & P2 & PI). split; [lia|split; [exact P2|]].
  intros f ty r B S0 s Fx Hm Hf Hf0 Rd. change (tag_kind 40) with TRefn. cbn [mdecode_tag].
  destruct (PI f ty r B S0 s (mfit_inv _ _ _ _ Fx) Hm Hf Rd) as (s' & R & A & V).
  exists s'. split; [exact R|]. split; [exact A|]. now apply sh_ref.
Qed.
Lemma Ptag_weaken E m q x p' X : Pitem E m (S q) x p' X -> Ptag E m q 48 (NWeak x) p' X.
Proof.
  intros (P1 & P2 & PI). split; [lia|split; [exact P2|]].
  intros f ty r B S0 s Fx Hm Hf Hf0 Rd. change (tag_kind 48) with TWeaken. cbn [mdecode_tag]. rewrite Hp.
  destruct (PI f ty r B S0 s (mfit_inv _ _ _ _ Fx) Hm Hf Rd) as (s' & R & A & V).
  exists s'. split; [exact R|]. split; [exact A|]. now apply sh_weak.
Qed.

Lemma object_decoded E m r0 x p' X f ty r B S0 s (isV : bool) q cls : Pitem E m r0 x p' X -> fit B S0 ty (NObj cls x) ->
  (forall d, d_copy d = d_copy (m_d s) -> runs (class_name by_ q isV) d (cls, r0) d) -> q <= r0 ->
  mode_ok m (m_d s) -> S (need by_ q (d_copy (m_d s))) <= f -> ready E (B ++ S0) r ty s ->
  decoded (mdecode_tag c v by_ ibuf ishift (mdec f) (udec f) (if isV then TObjectV else TObject) ty r Settable q)
    E S0 r ty s (NObj cls x) p' X.
Proof.
  intros (P1 & P2 & PI) Fx R L Hm Hf Rd.
  destruct (PI f ty r B S0 s (mfit_inv _ _ _ _ Fx) Hm) as (s' & R' & A & V); [|exact Rd|].
  { pose proof (need_mono by_ q r0 (d_copy (m_d s)) (need by_ q (d_copy (m_d s))) (le_n _) L). lia. }
  exists s'. split; [|split; [exact A|now apply sh_obj]].
  replace (mdecode_tag c v by_ ibuf ishift (mdec f) (udec f) (if isV then TObjectV else TObject) ty r Settable q)
    with (do! (cls, idx) := lift_ (class_name by_ q isV) in if d_perl c then
        do! l := lift_ (alloc (CV GNil)) in
        do! _ := mset_iface v ty Settable r (GObjP cls l) in
        lift_ (udec f idx l)
      else mdec f ty r Settable idx) by (destruct isV; reflexivity).
  rewrite (tbind_run _ _ _ _ s _ (R (m_d s) eq_refl)). rewrite Hp. exact R'.
Qed.

Lemma Ptag_copy E q n r0 x e X : tag_at by_ q q 47 -> vint by_ (S q) n r0 -> N.to_nat n < q ->
  Pitem E (g_nest g) (N.to_nat n) x e X -> Ptag E CAny q 47 (NCopy x) r0 X.
Proof.
  intros Ht Hv Hlt (P1 & P2 & PI).
  pose proof (tag_skip _ _ _ _ Ht) as (_ & _ & _ & _ & L & _).
  destruct (vint_at _ Hlen _ _ _ (mkDState [] [] 0 []) Hv) as (_ & L1 & L2 & _).
  split; [lia|split; [lia|]].
  intros f ty r B S0 s Fx Hm Hf Hf0 Rd. change (tag_kind 47) with TCopy. cbn [mdecode_tag].
  cbn in Hm. destruct (vint_at _ Hlen _ _ _ (m_d s) Hv) as (V & _).
  set (s1 := mkM (mkDState (d_heap (m_d s)) (d_tracked (m_d s)) 1 (d_made (m_d s))) (m_mem s) (m_refs s)).
  destruct (PI f ty r B S0 s1 (mfit_inv _ _ _ _ Fx)) as (s2 & R & A & Vr).
  { exact Logic.I. }
  { unfold need. cbn. specialize (Hf0 Hm). lia. }
  { exact Rd. }
  exists (mkM (mkDState (d_heap (m_d s2)) (d_tracked (m_d s2)) (pred (d_copy (m_d s2))) (d_made (m_d s2))) (m_mem s2) (m_refs s2)).
  split; [|split; [|apply sh_copy; exact Vr]].
  + unfold tbind at 1. unfold lift_ at 1. cbn [get_copy]. rewrite Hm. cbn [Nat.ltb Nat.leb].
    unfold tbind at 1. unfold lift_ at 1. cbn [m_d]. unfold runs in V. rewrite V. rewrite to_int_small by lia.
    destruct ((Z.of_N n <? 0) || (Z.of_nat (S q) <=? Z.of_N n))%Z eqn:Bd; [lia|].
    unfold tbind at 1. unfold lift_ at 1. cbn [set_copy m_d m_mem m_refs]. fold s1. unfold tbind at 1.
    replace (Z.to_nat (Z.of_N n)) with (N.to_nat n) by lia.
    change (mkM (mkDState (d_heap (m_d s)) (d_tracked (m_d s)) 1 (d_made (m_d s))) (m_mem s) (m_refs s)) with s1.
    rewrite R. unfold tret. now replace (S q + (r0 - S q)) with r0 by lia.
  + destruct A as (F & C & D & I). split; [|split; [exact C|split; [exact D|]]].
    * intros W. destruct (F W) as (F1 & F2 & F3). split; [exact F1|split; [exact F2|]]. cbn. rewrite F3. cbn. now rewrite Hm.
    * exact I.
Qed.

Lemma gtype_eqb_refl ty : gtype_eqb ty ty = true.
Proof. induction ty; cbn; auto; [destruct k; reflexivity| |]; now rewrite Nat.eqb_refl. Qed.

(** ** References to items met before *)
Lemma back_decoded E m q n r0 i isP f ty r B S0 s x : vint by_ (S q) n r0 -> N.to_nat n < q -> q < len ->
  number E (N.to_nat n) = Some i -> T i = ty -> ty <> TyIface -> ty <> TyPtr TyIface -> ~ In i (B ++ S0) ->
  mode_ok m (m_d s) -> ready E (B ++ S0) r ty s ->
  (forall P mem L m, (L i ty m : Prop) -> sh v P mem L ty m x) ->
  decoded (mdecode_tag c v by_ ibuf ishift (mdec f) (udec f) (if isP : bool then TRefp else TAlias) ty r Settable (S q))
    E S0 r ty s x r0 [].
Proof.
  intros Hv Hlt L Nm Ti N1 N2 Ni Hm Rd HX. pose proof Rd as (Ri & Rv & Rz & Rw & Ra).
  destruct (ref_found E s (N.to_nat n) i Ri Nm) as (l & t & A1 & A2 & A3).
  pose proof Ri as (I1 & I2 & I3 & I4 & I5 & I6). destruct (I6 i t A3) as (J1 & J2 & J3).
  pose proof (ready_apart _ _ _ _ _ _ _ Rd A3 Ni) as Ap.
  destruct (vint_at _ Hlen _ _ _ (m_d s) Hv) as (V & L1 & L2 & _).
  set (y := rd v (m_mem s) (tr_ref t)).
  exists (mkM (m_d s) (after_write v (m_mem s) r y) (m_refs s)). cbn [m_d m_mem m_refs].
  pose proof (chg_write v (m_mem s) r [] y Rv) as C.
  split; [|split].
  - replace (mdecode_tag c v by_ ibuf ishift (mdec f) (udec f) (if isP then TRefp else TAlias) ty r Settable (S q))
      with (mdecodeRefp c v by_ ty Settable r (S q) isP) by (destruct isP; reflexivity).
    unfold mdecodeRefp. rewrite (tbind_run _ _ _ _ s _ V).
    replace (S q + (r0 - S q)) with r0 by lia. rewrite to_int_small by lia.
    destruct ((Z.of_N n <? 0) || (Z.of_nat r0 <=? Z.of_N n))%Z eqn:Bd; [lia|].
    replace (Z.to_nat (Z.of_N n)) with (N.to_nat n) by lia.
    rewrite (tbind_run _ _ _ _ s (Some l)) by (unfold runs, get_tracked; now rewrite A1).
    unfold tbind at 1, get_ref. rewrite A2. unfold tbind at 1, read, tbind at 1, get_mem, tret at 1. fold y. rewrite J2.
    assert (Q : (if gtype_eqb (tr_ty t) ty then do! _ := mset v Settable r y in tret r0
                 else match ty with TyIface => do! _ := mset v Settable r (MIface GOpaque) in tret r0 | _ => tpanic EReflect end) s
                = (Ok r0, mkM (m_d s) (after_write v (m_mem s) r y) (m_refs s))).
    { rewrite J1, Ti, gtype_eqb_refl. unfold mset, mcheck, tbind, tret at 1. rewrite write_eq. reflexivity. }
    destruct (tr_ty t) as [| | | | | | | | |t0|] eqn:Et; try exact Q.
    destruct t0; try exact Q. exfalso. apply N2. congruence.
  - apply (after_intro E (B ++ S0) r ty s _ false 0 (length (d_heap (m_d s)))); auto; try discriminate.
    intros W. apply frm_refl.
  - apply HX. split; [intros J; apply Ni, in_or_app; now right|]. exists t. split; [exact A3|]. split; [congruence|].
    cbn [m_mem]. rewrite (proj1 (rd_apart v _ _ _ _ C J3 Ap)). fold y. symmetry. now apply rd_after.
Qed.
Lemma Ptag_refp E m q n r0 i : tag_at by_ q q 41 -> vint by_ (S q) n r0 -> N.to_nat n < q ->
  number E (N.to_nat n) = Some i -> Ptag E m q 41 (NBack i) r0 [].
Proof.
  intros Ht Hv Hlt Nm. pose proof (tag_skip _ _ _ _ Ht) as (_ & _ & _ & _ & L & _).
  destruct (vint_at _ Hlen _ _ _ (mkDState [] [] 0 []) Hv) as (_ & L1 & L2 & _).
  split; [lia|split; [lia|]]. intros f ty r B S0 s Fx Hm Hf Hf0 Rd. change (tag_kind 41) with (if true then TRefp else TAlias).
  destruct (mfit_inv _ _ _ _ Fx) as (F1 & F2 & F3 & F4).
  eapply (back_decoded E m q n r0 i true); eauto. intros. now apply sh_back.
Qed.
Lemma Ptag_alias E m q n r0 i : tag_at by_ q q 46 -> vint by_ (S q) n r0 -> N.to_nat n < q ->
  number E (N.to_nat n) = Some i -> Ptag E m q 46 (NSame i) r0 [].
Proof.
  intros Ht Hv Hlt Nm. pose proof (tag_skip _ _ _ _ Ht) as (_ & _ & _ & _ & L & _).
  destruct (vint_at _ Hlen _ _ _ (mkDState [] [] 0 []) Hv) as (_ & L1 & L2 & _).
  split; [lia|split; [lia|]]. intros f ty r B S0 s Fx Hm Hf Hf0 Rd. change (tag_kind 46) with (if false then TRefp else TAlias).
  destruct (mfit_inv _ _ _ _ Fx) as (F1 & F2 & F3 & F4).
  eapply (back_decoded E m q n r0 i false); eauto. intros. now apply sh_same.
Qed.

(** ** Arrays *)
Lemma after_inside E R st s X s' : vref v (m_mem s) R -> after E (inside R st) s X s' -> after E R s X s'.
Proof.
  intros V (F & C & (Y & K & N) & I). split; [exact F|]. split; [eapply chg_inside; [exact V|exact C|apply incl_refl]|].
  split; [|exact I]. exists Y. split; [exact K|]. intros t J. destruct (N t J) as [H|(H & q & Q)]; [now left|]. right.
  split; [exact H|]. exists (st :: q). rewrite Q. cbn. now rewrite <- app_assoc.
Qed.
Lemma after_trans E r s X s1 Y s2 : vref v (m_mem s) r -> after E r s X s1 -> after (X ++ E) r s1 Y s2 -> after E r s (Y ++ X) s2.
Proof.
  intros V (F & C & (Z & K & N) & I) (F' & C' & (Z' & K' & N') & I').
  split; [now apply (go_trans (m_d s) (m_d s1))|]. split; [eapply chg_trans; [exact V|exact C| |exact C']; intros l []|].
  split; [|rewrite <- app_assoc; exact I']. exists (Z' ++ Z). split; [rewrite K', K, app_assoc; reflexivity|].
  intros t J. rewrite map_app in J. apply in_app_or in J as [J|J]; [|auto].
  destruct (N' t J) as [H|H]; [left; pose proof (proj1 C); lia|now right].
Qed.

(** where the elements of the array that [r] holds are *)
Definition base (mem : memory) (r R : mref) : Prop :=
  r = R \/ (snd R = [] /\ vref v mem r /\ rd v mem r = MSlice (Some (fst R)) /\ fst r <> fst R).
Lemma base_kept mem r R mem' : base mem r R -> chg v mem R [] mem' -> base mem' r R.
Proof.
  intros [->|(H1 & H2 & H3 & H4)] C; [now left|]. right.
  destruct (rd_apart v _ _ _ _ C H2 (or_introl H4)) as [G G']. rewrite G. auto.
Qed.
Lemma index_base r R i s ms : base (m_mem s) r R -> vref v (m_mem s) R -> rd v (m_mem s) R = MArr ms -> i < length ms ->
  index_ref v r i s = (Ok (inside R (SElem i)), s).
Proof.
  intros B V Rd L. unfold index_ref, tbind, get_mem. destruct (Nat.ltb_spec i (length ms)) as [_|]; [|lia].
  assert (Lb : Nat.ltb i (length ms) = true) by (destruct (Nat.ltb_spec i (length ms)); [reflexivity|lia]).
  destruct B as [->|(H1 & H2 & H3 & H4)].
  - rewrite Rd, Lb. reflexivity.
  - rewrite H3. unfold rd in Rd. rewrite H1 in Rd. cbn in Rd. rewrite Rd, Lb. destruct R as [l p]. cbn in H1. subst p. reflexivity.
Qed.

Definition Pitems (E : list nat) (m : cmode) (p : nat) (xs : list node) (p' : nat) (X : list nat) : Prop :=
  p + length xs <= p' /\ (p <= len -> p' <= len) /\
  forall fuel t r R i n S s ms0, (forall x, In x xs -> fit [] S t x) -> mode_ok m (m_d s) ->
    Datatypes.S (need by_ p (d_copy (m_d s))) <= fuel ->
    inv E s -> vref v (m_mem s) R -> rd v (m_mem s) R = MArr ms0 -> length ms0 = n -> n = i + length xs ->
    (forall j, i <= j < n -> nth j ms0 (MStruct []) = mzero t) -> (forall k, In k S -> k < length E) ->
    (forall k tr, ref_at s k = Some tr -> apart (tr_ref tr) R \/ (In k S /\ around (tr_ref tr) R) \/
       (exists j q, j < i /\ fst (tr_ref tr) = fst R /\ snd (tr_ref tr) = snd R ++ SElem j :: q)) ->
    base (m_mem s) r R ->
    exists s', marray_loop v (mdec fuel) (udec fuel) (length xs) t Settable r i n p s = (Ok p', s') /\ after E R s X s' /\
      (forall k ty w, val S s k ty w -> val S s' k ty w) /\
      exists ms, rd v (m_mem s') R = MArr (firstn i ms0 ++ ms) /\
        shs v (length (m_mem s)) (m_mem s') (val S s') t ms xs.

Lemma after_refl E r s : inv E s -> vref v (m_mem s) r -> after E r s [] s.
Proof.
  intros I V. split; [intros W; apply frm_refl|]. split; [now apply chg_refl|]. split; [|exact I].
  exists []. split; [reflexivity|intros t []].
Qed.

Lemma Pitems_nil E m p : Pitems E m p [] p [].
Proof.
  split; [cbn; lia|split; [auto|]]. intros fuel t r R i n S0 s ms0 _ Hm Hf Hi Hv Hr Hl Hn Hz Hs Ha Hb.
  exists s. split; [reflexivity|]. split; [now apply after_refl|]. split; [auto|]. exists []. split; [|apply shs_nil].
  rewrite app_nil_r, firstn_all2; [exact Hr|cbn in Hn; lia].
Qed.

Lemma firstn_upd A (l : list A) i x : i < length l -> firstn (S i) (upd l i x) = firstn i l ++ [x].
Proof. revert i. induction l as [|a l IH]; intros [|i] H; cbn in *; try lia; [reflexivity|]. f_equal. apply IH. lia. Qed.

Lemma Pitems_cons E m p x r X xs p' Y : Pitem E m p x r X -> Pitems (X ++ E) m r xs p' Y ->
  Pitems E m p (x :: xs) p' (Y ++ X).
Proof.
  intros (P1 & P2 & PI) (Q1 & Q2 & QI). specialize (Q2 P2).
  split; [cbn; lia|split; [auto|]]. intros fuel t r0 R i n S0 s ms0 Fx Hm Hf Hi Hv Hr Hl Hn Hz Hs Ha Hb.
  cbn [length] in Hn. set (e := inside R (SElem i)).
  assert (Ve : vref v (m_mem s) e).
  { apply vref_inside; [exact Hv|]. rewrite Hr. cbn. split; [lia|exact Logic.I]. }
  assert (Ze : rd v (m_mem s) e = mzero t).
  { unfold e. rewrite rd_inside by exact Hv. rewrite Hr. cbn. apply Hz. lia. }
  assert (Rd : ready E ([] ++ S0) e t s).
  { split; [exact Hi|]. split; [exact Ve|]. split; [exact Ze|]. split; [exact Hs|].
    intros k tr K. destruct (Ha k tr K) as [H|[(H & H' & q & Q)|(j & q & Lj & H1 & H2)]].
    - left. now apply apart_inside.
    - right. split; [exact H|]. split; [exact H'|]. exists (q ++ [SElem i]). cbn. rewrite Q, app_assoc. reflexivity.
    - left. right. rewrite H2. cbn. apply diverge_fork. cbn. lia. }
  destruct (PI fuel t e [] S0 s) as (s1 & R1 & A1 & V1); auto.
  { apply Fx. now left. }
  pose proof A1 as (F1 & C1 & (Y1 & K1 & N1) & I1).
  pose proof (chg_inside v _ _ _ [] [] _ Hv C1 (incl_refl _)) as C1R.
  pose proof (vref_in v _ _ Hv) as LR.
  assert (Hr1 : exists y, rd v (m_mem s1) R = MArr (upd ms0 i y)).
  { destruct (rd_part v _ _ _ _ _ Hv C1) as [H|(y & H)].
    - exists (mzero t). rewrite H, Hr. f_equal. apply (nth_ext _ _ (MStruct []) (MStruct [])); [now rewrite upd_len|].
      intros k Lk. destruct (Nat.eq_dec i k) as [->|Nk]; [rewrite nth_upd by lia; apply Hz; lia|now rewrite nth_upd_other].
    - exists y. rewrite H, Hr. reflexivity. }
  destruct Hr1 as (y & Hr1).
  assert (V1R : vref v (m_mem s1) R) by (eapply chg_vref; eassumption).
  assert (Ey : rd v (m_mem s1) e = y).
  { unfold e. rewrite rd_inside by exact V1R. rewrite Hr1. cbn. apply nth_upd. lia. }
  rewrite Ey in V1.
  destruct (QI fuel t r0 R (S i) n S0 s1 (upd ms0 i y)) as (s2 & R2 & A2 & K2 & ms & E2 & V2); auto.
  - intros z Hz'. apply Fx. now right.
  - eapply go_mode; eassumption.
  - eapply (go_need c); [exact F1|exact Hf|lia].
  - rewrite upd_len. exact Hl.
  - lia.
  - intros j Lj. rewrite nth_upd_other by lia. apply Hz. lia.
  - intros k Hk. rewrite app_length. specialize (Hs k Hk). lia.
  - intros k tr K. destruct (ref_inv _ _ _ _ _ K1 K) as [Ko|Kn].
    + destruct (Ha k tr Ko) as [H|[H|(j & q & Lj & H)]]; auto. right; right. exists j, q. split; [lia|exact H].
    + destruct (N1 tr Kn) as [H|(H & q & Q)].
      * left. left. lia.
      * right; right. exists i, q. split; [lia|]. split; [exact H|]. rewrite Q. cbn. now rewrite <- app_assoc.
  - eapply base_kept; eassumption.
  - exists s2. split; [|split; [|split]].
    + cbn [length marray_loop]. destruct (Nat.ltb_spec i n); [|lia]. unfold tbind at 1 2.
      rewrite (index_base r0 R i s ms0 Hb Hv Hr) by lia. fold e. rewrite R1. exact R2.
    + eapply after_trans; [exact Hv| |exact A2]. now apply after_inside with (st := SElem i).
    + intros k ty w H. apply K2. eapply after_val; [exact Rd|exact A1|exact H].
    + exists (y :: ms). split; [rewrite E2, firstn_upd by lia; rewrite <- app_assoc; reflexivity|].
      pose proof A2 as (_ & C2 & _). destruct C1R as (L1 & _). destruct C2 as (L2 & C2 & _).
      eapply shs_cons; [exact K2|exact L1|apply le_n|exact L2| |exact V1|exact V2]. intros l Hl1 Hl2. apply C2; [exact Hl2|lia|auto].
Qed.

Lemma new_write mem r c0 y : vref v mem r ->
  let mem2 := after_write v (mem ++ [c0]) r y in
  chg v mem r [] mem2 /\ nth_error mem2 (length mem) = Some c0 /\ rd v mem2 r = y /\ vref v mem2 r /\ length mem2 = S (length mem).
Proof.
  intros V mem2. pose proof (vref_in v _ _ V) as L. pose proof (vref_new v _ _ c0 V) as V1.
  pose proof (chg_new v mem r [] c0 V) as C1. pose proof (chg_write v _ r [] y V1) as C2.
  assert (C : chg v mem r [] mem2) by (eapply chg_trans; [exact V|exact C1| |exact C2]; intros l []).
  split; [exact C|]. split; [|split; [now apply rd_after|split; [eapply chg_vref; eassumption|]]].
  - unfold mem2. rewrite after_other by lia. rewrite nth_error_app2, Nat.sub_diag by lia. reflexivity.
  - unfold mem2, after_write. rewrite upd_len, app_length. cbn. lia.
Qed.
Lemma after_fresh E r s s2 (R : mref) X s' : vref v (m_mem s) r -> after E r s [] s2 -> length (m_mem s) <= fst R ->
  after E R s2 X s' -> after E r s X s' /\ rd v (m_mem s') r = rd v (m_mem s2) r.
Proof.
  intros V (F1 & C1 & (Y1 & K1 & N1) & I1) LR (F2 & C2 & (Y2 & K2 & N2) & I2). pose proof (vref_in v _ _ V) as Lr.
  pose proof (chg_vref v _ _ _ _ V C1) as V2.
  destruct (rd_apart v _ _ _ r C2 V2) as [G G']; [left; lia|]. split; [|exact G].
  split; [now apply (go_trans (m_d s) (m_d s2))|]. split; [|split; [|exact I2]].
  - destruct C1 as (L1 & K & X0 & X1 & E0 & E1 & D). destruct C2 as (L2 & K' & _). split; [lia|]. split.
    + intros l Ll N _. rewrite K' by (auto; lia). now apply K.
    + exists X0, X1. split; [exact E0|]. split; [|exact D]. rewrite K' by (auto; lia). exact E1.
  - exists (Y2 ++ Y1). split; [rewrite K2, K1, app_assoc; reflexivity|]. intros t J. rewrite map_app in J.
    apply in_app_or in J as [J|J]; [|auto]. pose proof (proj1 C1). left. destruct (N2 t J) as [H'|[H' _]]; lia.
Qed.
Lemma rd_cell mem l x : vref v mem (l, []) -> rd v mem (l, []) = x -> nth_error mem l = Some (MCell x).
Proof. intros (X & E & _) R. unfold rd, mvar in R. cbn in *. rewrite E in R. congruence. Qed.

Lemma nth_repeat_lt A (a d : A) n j : j < n -> nth j (repeat a n) d = a.
Proof. revert j. induction n; intros [|j] H; cbn; try lia; auto. apply IHn. lia. Qed.

Lemma array_decoded E m p xs p' X f ty r B S0 s : Pitems E m p xs p' X -> p <= len ->
  (Z.of_nat (length xs) <= 2147483647)%Z -> fit B S0 ty (NArr xs) -> mode_ok m (m_d s) ->
  S (need by_ p (d_copy (m_d s))) <= f -> ready E (B ++ S0) r ty s ->
  decoded (mdecodeArray v by_ (mdec f) (udec f) p (Z.of_nat (length xs)) ty r Settable) E S0 r ty s (NArr xs) p' X.
Proof.
  intros (P1 & P2 & PI) Lp Hl Fx Hm Hf Rd. specialize (P2 Lp). pose proof Rd as (Ri & Rv & Rz & Rw & Ra).
  pose proof (vref_in v _ _ Rv) as Lr.
  assert (B1 : ((Z.of_nat (length xs) <? 0) || (maxInt32 <? Z.of_nat (length xs)))%Z = false) by (unfold maxInt32; lia).
  assert (B2 : (blen by_ <? Z.of_nat p + Z.of_nat (length xs))%Z = false) by (unfold blen; lia).
  inversion Fx as [|B' S' t xs' Fs| B' S' n t xs' Ln Fs| | | | | | | | | |]; subst.
  - (* slice *)
    set (n := length xs) in *. set (l := length (m_mem s)).
    destruct (new_write (m_mem s) r (MCell (MArr (repeat (mzero t) n))) (MSlice (Some l)) Rv) as (C & Hc & Hr & Hv & Hlen2).
    set (mem2 := after_write v (m_mem s ++ [MCell (MArr (repeat (mzero t) n))]) r (MSlice (Some l))) in *.
    set (s2 := mkM (mkDState (d_heap (m_d s)) (d_tracked (m_d s)) (d_copy (m_d s)) ((n, len - p) :: d_made (m_d s))) mem2 (m_refs s)).
    assert (A : after E r s [] s2).
    { apply (after_intro E (B ++ S0) r (TySlice t) s s2 false 0 (length (d_heap (m_d s)))); auto; try discriminate.
      intros W. repeat split; cbn; auto. }
    assert (Vl : vref v mem2 (l, [])) by (eexists; split; [exact Hc|exact Logic.I]).
    assert (Rl : rd v mem2 (l, []) = MArr (repeat (mzero t) n)) by (unfold rd, mvar; cbn; unfold l; rewrite Hc; reflexivity).
    pose proof A as (FA & _ & _ & IA).
    destruct (PI f t r (l, []) 0 n S0 s2 (repeat (mzero t) n)) as (s3 & R3 & A3 & K3 & ms & E3 & V3); auto.
    + apply repeat_length.
    + intros j Lj. apply nth_repeat_lt. lia.
    + intros k J. apply Rw, in_or_app. now right.
    + intros k tr K. left. left. cbn. destruct Ri as (_ & _ & _ & _ & _ & I6). destruct (I6 k tr K) as (_ & _ & V).
      apply vref_in in V. unfold l. lia.
    + right. split; [reflexivity|]. split; [exact Hv|]. split; [exact Hr|]. cbn. unfold l. lia.
    + destruct (after_fresh E r s s2 (l, []) X s3 Rv A ltac:(cbn; lia) A3) as [A4 G4].
      exists s3. split; [|split; [exact A4|]].
      * unfold mdecodeArray. rewrite B1, B2. unfold tbind at 1, get_mem. rewrite Rz. cbn [mzero].
        cbn [mcheck]. unfold tbind at 1, tret at 1. unfold tbind at 1, lift_ at 1, log_make. cbn [m_d m_mem m_refs].
        unfold tbind at 1, new_cell at 1. cbn [m_d m_mem m_refs]. unfold tbind at 1. rewrite write_eq. cbn [m_d m_mem m_refs].
        rewrite Nat2Z.id. fold n l mem2. exact R3.
      * rewrite G4. cbn [m_mem s2]. fold mem2. rewrite Hr. cbn in E3.
        eapply sh_slice; [unfold l; lia| |].
        -- apply rd_cell; [|exact E3]. eapply chg_vref; [exact Vl|apply A3].
        -- cbn [m_mem s2] in V3. rewrite Hlen2 in V3. exact V3.
  - (* array *)
    assert (HW : forall i ty w s0, val (B ++ S0) s0 i ty w -> val S0 s0 i ty w).
    { intros i ty w s0. apply val_fewer, incl_appr, incl_refl. }
    destruct (PI f t r r 0 (length xs) (B ++ S0) s (repeat (mzero t) (length xs))) as (s3 & R3 & A3 & K3 & ms & E3 & V3); auto.
    + apply repeat_length.
    + intros j Lj. apply nth_repeat_lt. lia.
    + intros k tr K. destruct (Ra k tr K); auto.
    + now left.
    + exists s3. split; [|split; [exact A3|]].
      * unfold mdecodeArray. rewrite B1, B2. unfold tbind at 1, get_mem. rewrite Rz. cbn [mzero]. rewrite Nat2Z.id, repeat_length. exact R3.
      * rewrite E3. cbn [firstn app]. apply sh_array. eapply tshowns_stable; [apply (fun i ty w => HW i ty w s3)|apply le_n|apply le_n| |exact V3]. auto.
Qed.

Lemma decoded_bind A (m : M A) (k : A -> TM nat) s a E S r ty x i X :
  runs m (m_d s) a (m_d s) -> decoded (k a) E S r ty s x i X -> decoded (tbind (lift_ m) k) E S r ty s x i X.
Proof. intros R (s' & R' & H). exists s'. split; [|exact H]. now rewrite (tbind_run _ _ _ _ s a R). Qed.

Lemma need_le p p' s f : S (need by_ p (d_copy (m_d s))) <= f -> p <= p' -> S (need by_ p' (d_copy (m_d s))) <= f.
Proof. intros H L. pose proof (need_mono by_ p p' (d_copy (m_d s)) (need by_ p (d_copy (m_d s))) (le_n _) L). lia. Qed.

Lemma Ptag_array E m q n r0 xs p' X : vint by_ (S q) n r0 ->
  (n <= 2147483647)%N -> N.of_nat (length xs) = n -> Pitems E m r0 xs p' X -> Ptag E m q 43 (NArr xs) p' X.
Proof.
  intros Hv Hn En PP. pose proof PP as (P1 & P2 & _).
  destruct (vint_at _ Hlen _ _ _ (mkDState [] [] 0 []) Hv) as (_ & L1 & L2 & L3). specialize (P2 L2).
  split; [lia|split; [exact P2|]].
  intros f ty r B S0 s Fx Hm Hf Hf0 Rd. change (tag_kind 43) with TArray. cbn [mdecode_tag].
  destruct (vint_at _ Hlen _ _ _ (m_d s) Hv) as (V & _).
  eapply decoded_bind; [exact V|]. cbn [fst snd].
  replace (S q + (r0 - S q)) with r0 by lia.
  rewrite to_int_small by (unfold two63; lia).
  replace (Z.of_N n) with (Z.of_nat (length xs)) by lia.
  eapply array_decoded; eauto; try lia. eapply need_le; [exact Hf|lia].
Qed.
Lemma Ptag_arrayref E m q t xs p' X : tag_at by_ q q t -> (64 <= t < 80)%N ->
  N.of_nat (length xs) = (t - 64)%N -> Pitems E m (S q) xs p' X -> Ptag E m q t (NRef (NArr xs)) p' X.
Proof.
  intros Ht Hr En PP. pose proof PP as (P1 & P2 & _).
  destruct (tag_skip _ _ _ _ Ht) as (b & _ & _ & L3 & L4 & _).
  specialize (P2 L4). split; [lia|split; [exact P2|]].
  intros f ty r B S0 s Fx Hm Hf Hf0 Rd. rewrite (tk_arrayref by_) by assumption. cbn [mdecode_tag].
  replace (N.to_nat (t - 64)) with (length xs) by lia.
  destruct (array_decoded E m (S q) xs p' X f ty r B S0 s) as (s' & R & A & V); auto; try lia; [apply (mfit_inv _ _ _ _ Fx)|].
  exists s'. split; [exact R|]. split; [exact A|now apply sh_ref].
Qed.

(** ** Maps and structs *)
(** the entries of a map are not variables: what changes is the map *)
Definition afterm (E : list nat) (ml : mloc) (s : mstate) (X : list nat) (s' : mstate) : Prop :=
  (forall W, frm W (m_d s) (m_d s')) /\ length (m_mem s) <= length (m_mem s') /\
  (forall l, l < length (m_mem s) -> l <> ml -> nth_error (m_mem s') l = nth_error (m_mem s) l) /\
  (exists Y, m_refs s' = Y ++ m_refs s /\ forall t, In t (map snd Y) -> length (m_mem s) <= fst (tr_ref t)) /\
  inv (X ++ E) s'.
Lemma rd_cell_same mem mem' r : vref v mem r -> nth_error mem' (fst r) = nth_error mem (fst r) ->
  rd v mem' r = rd v mem r /\ vref v mem' r.
Proof.
  intros (X & E & V) Q. unfold rd, vref, mvar. rewrite Q, E. split; [reflexivity|eauto].
Qed.
Lemma afterm_val E ml es W s X s' i t m : inv E s -> nth_error (m_mem s) ml = Some (MEntries es) -> afterm E ml s X s' ->
  val W s i t m -> val W s' i t m.
Proof.
  intros (_ & _ & _ & _ & _ & I) Hm (_ & _ & C & (Y & EY & _) & _) (N & tr & R & Et & Em). split; [exact N|].
  exists tr. split; [eapply ref_old; eassumption|]. split; [exact Et|].
  destruct (I i tr R) as (_ & _ & V).
  assert (Nl : fst (tr_ref tr) <> ml) by (intros Q; destruct V as (Z & EZ & _); rewrite Q in EZ; congruence).
  rewrite (proj1 (rd_cell_same _ _ _ V (C _ (vref_in v _ _ V) Nl))). exact Em.
Qed.
Lemma afterm_trans E ml s X s1 Y s2 : afterm E ml s X s1 -> afterm (X ++ E) ml s1 Y s2 -> afterm E ml s (Y ++ X) s2.
Proof.
  intros (F & L & C & (Z & K & N) & I) (F' & L' & C' & (Z' & K' & N') & I').
  split; [now apply (go_trans (m_d s) (m_d s1))|]. split; [lia|]. split; [intros l Ll Nl; rewrite C' by (auto; lia); auto|].
  split; [|rewrite <- app_assoc; exact I']. exists (Z' ++ Z). split; [rewrite K', K, app_assoc; reflexivity|].
  intros t J. rewrite map_app in J. apply in_app_or in J as [J|J]; [|auto]. apply N' in J. lia.
Qed.

Definition Ppairs (E : list nat) (m : cmode) (p : nat) (kxs : list (bytes * node)) (p' : nat) (X : list nat) : Prop :=
  p + 2 * length kxs <= p' /\ (p <= len -> p' <= len) /\
  (forall fuel t r ml S s es, (forall k x, In (k, x) kxs -> fit [] S t x) -> mode_ok m (m_d s) ->
    Datatypes.S (need by_ p (d_copy (m_d s))) <= fuel -> inv E s ->
    nth_error (m_mem s) ml = Some (MEntries es) -> vref v (m_mem s) r -> rd v (m_mem s) r = MMap (Some ml) ->
    NoDup (map fst es ++ map fst kxs) -> (forall k, In k S -> k < length E) ->
    exists s' es', mmap_loop v by_ (mdec fuel) (length kxs) t Settable r p s = (Ok p', s') /\ afterm E ml s X s' /\
      nth_error (m_mem s') ml = Some (MEntries (es ++ es')) /\ map fst es' = map fst kxs /\
      shs v (length (m_mem s)) (m_mem s') (val S s') t (map snd es') (map snd kxs)) /\
  (forall fuel id r S s fs is, length is = length kxs -> NoDup is ->
    (forall k x i, In ((k, x), i) (combine kxs is) -> exists f t, names v id k i /\
       nth_error (st_fields (decls v id)) i = Some (f, t) /\ f_exported f = true /\ fit [] S t x) ->
    mode_ok m (m_d s) -> Datatypes.S (need by_ p (d_copy (m_d s))) <= fuel -> inv E s ->
    vref v (m_mem s) r -> rd v (m_mem s) r = MStruct fs ->
    (forall i f t, In i is -> nth_error (st_fields (decls v id)) i = Some (f, t) -> msfield v id i fs = mzero t) ->
    (forall k, In k S -> k < length E) ->
    (forall k tr, ref_at s k = Some tr -> apart (tr_ref tr) r \/ (In k S /\ around (tr_ref tr) r) \/
       (exists j q, ~ In j is /\ fst (tr_ref tr) = fst r /\ snd (tr_ref tr) = snd r ++ SField id j :: q)) ->
    exists s' fs', mstruct_loop v by_ (mdec fuel) (udec fuel) (length kxs) id Settable r p s = (Ok p', s') /\ after E r s X s' /\
      (forall k ty w, val S s k ty w -> val S s' k ty w) /\
      rd v (m_mem s') r = MStruct fs' /\ (forall j, ~ In j is -> msfield v id j fs' = msfield v id j fs) /\
      shf v (length (m_mem s)) (m_mem s') (val S s') id fs' kxs).

Lemma Ppairs_nil E m p : Ppairs E m p [] p [].
Proof.
  split; [cbn; lia|split; [auto|]]. split.
  - intros fuel t r ml S0 s es _ Hm Hf Hi He Hv Hr Hd Hs. exists s, []. split; [reflexivity|]. split; [|split; [now rewrite app_nil_r|]].
    + split; [intros W; apply frm_refl|]. split; [lia|]. split; [auto|]. split; [|exact Hi]. exists []. split; [reflexivity|intros t0 []].
    + split; [reflexivity|apply shs_nil].
  - intros fuel id r S0 s fs is _ _ _ Hm Hf Hi Hv Hr _ _ _. exists s, fs. split; [reflexivity|]. split; [now apply after_refl|].
    split; [auto|]. split; [exact Hr|]. split; [auto|apply shf_nil].
Qed.

Lemma Ppairs_cons E m p k r x r' X kxs p' Y :
  stringish g by_ (copy_ok m) p k r -> Pitem E m r x r' X -> Ppairs (X ++ E) m r' kxs p' Y ->
  Ppairs E m p ((k, x) :: kxs) p' (Y ++ X).
Proof.
  intros Hk (P1 & P2 & PI) (Q1 & Q2 & QM & QS). specialize (Q2 P2).
  destruct (stringish_runs c by_ start Hlen _ _ _ _ (mkDState [] [] 0 []) Hk) as (_ & _ & _ & _ & _ & L1 & L2); [reflexivity|].
  split; [cbn; lia|split; [auto|]]. split.
  - (* map *)
    intros fuel t r0 ml S0 s es Fx Hm Hf Hi He Hv Hr Hd Hs.
    destruct (stringish_runs c by_ start Hlen _ _ _ _ (m_d s) Hk (mode_copy _ _ Hm)) as (w & Rk & Ew & _ & _ & _ & _).
    set (e := length (m_mem s)). set (s0 := mkM (m_d s) (m_mem s ++ [MCell (mzero t)]) (m_refs s)).
    assert (Lml : ml < length (m_mem s)) by (apply nth_error_Some; congruence).
    pose proof (vref_in v _ _ Hv) as Lr.
    assert (Nr : fst r0 <> ml) by (intros Q; destruct Hv as (Z & EZ & _); rewrite Q in EZ; congruence).
    pose proof Hi as (I1 & I2 & I3 & I4 & I5 & I6).
    assert (Hi0 : inv E s0).
    { repeat (split; [assumption|]). intros i tr J. destruct (I6 i tr J) as (J1 & J2 & J3). repeat (split; [assumption|]). now apply vref_new. }
    assert (Ce : nth_error (m_mem s0) e = Some (MCell (mzero t))).
    { cbn. rewrite nth_error_app2; unfold e; [now rewrite Nat.sub_diag|lia]. }
    assert (Ve : vref v (m_mem s0) (e, [])) by (eexists; split; [exact Ce|exact Logic.I]).
    assert (Rd : ready E ([] ++ S0) (e, []) t s0).
    { split; [exact Hi0|]. split; [exact Ve|]. split; [unfold rd, mvar; cbn [fst snd getp]; now rewrite Ce|]. split; [exact Hs|].
      intros i tr J. left. left. cbn. destruct (I6 i tr J) as (_ & _ & J3). apply vref_in in J3. unfold e. lia. }
    destruct (PI fuel t (e, []) [] S0 s0) as (s1 & R1 & A1 & V1); auto.
    { eapply Fx. now left. }
    { eapply need_le; [exact Hf|lia]. }
    pose proof A1 as (F1 & C1 & (Y1 & K1 & N1) & IN1). pose proof C1 as (LC1 & CC1 & _).
    assert (Len0 : length (m_mem s0) = S e) by (cbn; rewrite app_length; cbn; unfold e; lia).
    assert (Old : forall l, l < length (m_mem s) -> nth_error (m_mem s1) l = nth_error (m_mem s) l).
    { intros l Ll. rewrite CC1; [cbn; apply nth_error_app1; exact Ll|lia|cbn; unfold e; lia|auto]. }
    assert (Ce1 : exists y, nth_error (m_mem s1) e = Some (MCell y) /\ rd v (m_mem s1) (e, []) = y).
    { destruct C1 as (_ & _ & X0 & y & _ & H & _). cbn in H. exists y. split; [exact H|]. unfold rd, mvar. cbn. now rewrite H. }
    destruct Ce1 as (y & Ce1 & Ey). rewrite Ey in V1.
    assert (Hn : mget es k = None).
    { apply JsonFacts.mget_None. intros J. cbn in Hd. apply NoDup_remove_2 in Hd. apply Hd. apply in_or_app. now left. }
    set (s2 := mkM (m_d s1) (upd (m_mem s1) ml (MEntries (es ++ [(k, y)]))) (m_refs s1)).
    assert (Lml1 : ml < length (m_mem s1)) by lia.
    assert (Up : forall l, l <> ml -> nth_error (m_mem s2) l = nth_error (m_mem s1) l).
    { intros l N. cbn. apply nth_error_upd_other. auto. }
    assert (Nml : forall tr, vref v (m_mem s1) tr -> fst tr <> ml).
    { intros tr (Z & EZ & _) Q. rewrite Q, (Old ml Lml) in EZ. congruence. }
    assert (Vk : forall tr, vref v (m_mem s1) tr -> rd v (m_mem s2) tr = rd v (m_mem s1) tr /\ vref v (m_mem s2) tr).
    { intros tr V. apply rd_cell_same; [exact V|]. apply Up. now apply Nml. }
    assert (IN2 : inv (X ++ E) s2).
    { destruct IN1 as (J1 & J2 & J3 & J4 & J5 & J6). repeat (split; [assumption|]). intros i tr J. destruct (J6 i tr J) as (M1 & M2 & M3).
      repeat (split; [assumption|]). apply Vk, M3. }
    assert (VK : forall W i ty u, val W s1 i ty u -> val W s2 i ty u).
    { intros W i ty u (N & tr & J & Et & Eu). split; [exact N|]. exists tr. split; [exact J|]. split; [exact Et|].
      destruct IN1 as (_ & _ & _ & _ & _ & J6). destruct (J6 i tr J) as (_ & _ & M3). rewrite (proj1 (Vk _ M3)). exact Eu. }
    assert (Am : afterm E ml s X s2).
    { split; [exact F1|]. split; [cbn; rewrite upd_len; lia|]. split; [intros l Ll Nl; rewrite Up by exact Nl; auto|].
      split; [|exact IN2]. exists Y1. split; [exact K1|]. intros tr J. destruct (N1 tr J) as [H|[H _]]; [lia|]. cbn in H. unfold e in H. lia. }
    assert (Len2 : length (m_mem s2) = length (m_mem s1)) by (cbn; apply upd_len).
    destruct (QM fuel t r0 ml S0 s2 (es ++ [(k, y)])) as (s3 & es' & R3 & A3 & C3 & M3 & V3).
    + intros k' z J. eapply Fx. right. exact J.
    + eapply go_mode; [exact F1|exact Hm].
    + eapply (go_need c); [exact F1|exact Hf|lia].
    + exact IN2.
    + cbn. now apply nth_error_upd_same.
    + apply (rd_cell_same (m_mem s)); [exact Hv|]. rewrite Up by exact Nr. apply Old. exact Lr.
    + rewrite <- Hr. apply rd_cell_same; [exact Hv|]. rewrite Up by exact Nr. apply Old. exact Lr.
    + rewrite map_app, <- app_assoc. exact Hd.
    + intros j J. rewrite app_length. specialize (Hs j J). lia.
    + exists s3, ((k, y) :: es'). split; [|split; [now apply afterm_trans with (s1 := s2)|split; [rewrite C3, <- app_assoc; reflexivity|split; [cbn; now rewrite M3|]]]].
      * cbn [length mmap_loop]. rewrite (tbind_run _ _ _ _ s _ Rk). rewrite Ew. unfold tbind at 1, get_mem. rewrite Hr.
        unfold mentries at 1. rewrite He, Hn. unfold tbind at 1 2, new_cell. fold s0. fold e.
        unfold tbind.
        match goal with |- context [mdecode c v by_ ibuf ishift fuel t ?rr Settable r s0] => change (mdecode c v by_ ibuf ishift fuel t rr Settable r s0) with (mdec fuel t (e, []) Settable r s0) end.
        rewrite R1.
        rewrite <- (proj1 (rd_cell_same _ (m_mem s1) _ Hv (Old _ Lr))) in Hr. rewrite Hr.
        unfold mentries. rewrite (Old ml Lml), He. rewrite (mput_new _ _ _ _ Hn).
        unfold set_cell, tret. rewrite (mvar_is _ _ _ Ce1). exact R3.
      * cbn [map snd]. pose proof A3 as (_ & L3 & O3 & _).
        eapply tshowns_stable; [intros i ty u J; exact J| |apply le_n|reflexivity|]; [|
        eapply shs_cons; [intros i ty u J; apply (afterm_val _ _ _ _ _ _ _ _ _ _ IN2 (nth_error_upd_same _ _ _ _ Lml1) A3), VK, J| | | | |exact V1|exact V3]].
        all: try lia. intros l Hl1 Hl2. rewrite O3 by lia. apply Up. lia.
  - (* struct *)
    intros fuel id r0 S0 s fs is Li Nd Fx Hm Hf Hi Hv Hr Hz Hs Ha.
    destruct (stringish_runs c by_ start Hlen _ _ _ _ (m_d s) Hk (mode_copy _ _ Hm)) as (w & Rk & Ew & _ & _ & _ & _).
    destruct is as [|i is]; [discriminate|]. apply NoDup_cons_iff in Nd as [Ni Nd'].
    destruct (Fx k x i (or_introl eq_refl)) as (fd & t & Nm & Et & Ex & Ft).
    set (e := inside r0 (SField id i)).
    assert (Ve : vref v (m_mem s) e).
    { apply vref_inside; [exact Hv|]. rewrite Hr. exact Logic.I. }
    assert (Ze : rd v (m_mem s) e = mzero t).
    { unfold e. rewrite rd_inside by exact Hv. rewrite Hr. cbn. apply (Hz i fd t); [now left|exact Et]. }
    assert (Rd : ready E ([] ++ S0) e t s).
    { split; [exact Hi|]. split; [exact Ve|]. split; [exact Ze|]. split; [exact Hs|].
      intros j tr K. destruct (Ha j tr K) as [H|[(H & H' & q & Q)|(j' & q & Lj & H1 & H2)]].
      - left. now apply apart_inside.
      - right. split; [exact H|]. split; [exact H'|]. exists (q ++ [SField id i]). cbn. rewrite Q, app_assoc. reflexivity.
      - left. right. rewrite H2. cbn. apply diverge_fork. cbn. left. intros ->. apply Lj. now left. }
    destruct (PI fuel t e [] S0 s) as (s1 & R1 & A1 & V1); auto.
    { eapply need_le; [exact Hf|lia]. }
    pose proof A1 as (F1 & C1 & (Y1 & K1 & N1) & I1).
    pose proof (chg_inside v _ _ _ [] [] _ Hv C1 (incl_refl _)) as C1R.
    pose proof (vref_in v _ _ Hv) as LR.
    assert (V1R : vref v (m_mem s1) r0) by (eapply chg_vref; eassumption).
    assert (Hr1 : exists fs1, rd v (m_mem s1) r0 = MStruct fs1 /\ forall j, j <> i -> msfield v id j fs1 = msfield v id j fs).
    { destruct (rd_part v _ _ _ _ _ Hv C1) as [H|(y & H)].
      - exists fs. rewrite H, Hr. auto.
      - exists (fput fs i y). rewrite H, Hr. split; [reflexivity|]. intros j Nj. rewrite msfield_fput. destruct (Nat.eqb_spec i j); [congruence|reflexivity]. }
    destruct Hr1 as (fs1 & Hr1 & Hf1).
    assert (Ey : rd v (m_mem s1) e = msfield v id i fs1).
    { unfold e. rewrite rd_inside by exact V1R. rewrite Hr1. reflexivity. }
    rewrite Ey in V1.
    destruct (QS fuel id r0 S0 s1 fs1 is) as (s2 & fs2 & R2 & A2 & K2 & E2 & O2 & V2); auto.
    + intros k' x' i' J. apply (Fx k' x' i'). now right.
    + eapply go_mode; eassumption.
    + eapply (go_need c); [exact F1|exact Hf|lia].
    + intros j f' t' J Ej. rewrite Hf1 by (intros ->; contradiction). apply (Hz j f' t'); [now right|exact Ej].
    + intros j J. rewrite app_length. specialize (Hs j J). lia.
    + intros j tr K. destruct (ref_inv _ _ _ _ _ K1 K) as [Ko|Kn].
      * destruct (Ha j tr Ko) as [H|[H|(j' & q & Lj & H)]]; auto. right; right. exists j', q. split; [|exact H]. intros J. apply Lj. now right.
      * destruct (N1 tr Kn) as [H|(H & q & Q)].
        -- left. left. lia.
        -- right; right. exists i, q. split; [exact Ni|]. split; [exact H|]. rewrite Q. cbn. now rewrite <- app_assoc.
    + exists s2, fs2. split; [|split; [|split; [|split; [exact E2|split]]]].
      * cbn [length mstruct_loop]. rewrite (tbind_run _ _ _ _ s _ Rk). rewrite Ew, (find_hit v id k i fd t Nm Et).
        unfold md_field. rewrite Ex. unfold tbind at 1. fold e. rewrite R1. exact R2.
      * eapply after_trans; [exact Hv| |exact A2]. now apply after_inside with (st := SField id i).
      * intros j ty u H. apply K2. eapply after_val; [exact Rd|exact A1|exact H].
      * intros j J. rewrite O2 by (intros J'; apply J; now right). apply Hf1. intros ->. apply J. now left.
      * pose proof A2 as (_ & C2 & _). destruct C1R as (LC1 & _). destruct C2 as (LC2 & C2 & _).
        rewrite <- (O2 i Ni) in V1.
        eapply shf_cons; [exact K2|exact LC1|apply le_n|exact LC2| |exact Nm|exact Et|exact V1|exact V2]. intros l Hl1 Hl2. apply C2; [exact Hl2|lia|auto].
Qed.

Lemma after_fresh_m E r s s2 (ml : mloc) X s' : vref v (m_mem s) r -> after E r s [] s2 -> length (m_mem s) <= ml ->
  afterm E ml s2 X s' -> after E r s X s' /\ rd v (m_mem s') r = rd v (m_mem s2) r.
Proof.
  intros V (F1 & C1 & (Y1 & K1 & N1) & I1) LR (F2 & L2 & K' & (Y2 & K2 & N2) & I2). pose proof (vref_in v _ _ V) as Lr.
  pose proof (chg_vref v _ _ _ _ V C1) as V2. pose proof (proj1 C1) as LL.
  destruct (rd_cell_same _ (m_mem s') r V2) as [G G']; [apply K'; lia|]. split; [|exact G].
  split; [now apply (go_trans (m_d s) (m_d s2))|]. split; [|split; [|exact I2]].
  - destruct C1 as (L1 & K & X0 & X1 & E0 & E1 & D). split; [lia|]. split.
    + intros l Ll N _. rewrite K' by lia. now apply K.
    + exists X0, X1. split; [exact E0|]. split; [|exact D]. rewrite K' by lia. exact E1.
  - exists (Y2 ++ Y1). split; [rewrite K2, K1, app_assoc; reflexivity|]. intros t J. rewrite map_app in J.
    apply in_app_or in J as [J|J]; [|auto]. left. apply N2 in J. lia.
Qed.

Lemma in_combine_l2 A B (l : list A) : forall (l' : list B) b, length l' = length l -> In b l' -> exists a, In (a, b) (combine l l').
Proof.
  induction l as [|a l IH]; intros [|b' l'] b L J; cbn in *; try discriminate; [contradiction|].
  destruct J as [->|J]; [exists a; now left|]. destruct (IH l' b) as (a' & H); [lia|exact J|]. exists a'. now right.
Qed.

Lemma hash_decoded E m p kxs p' X f : Ppairs E m p kxs p' X -> p <= len -> (Z.of_nat (length kxs) <= 2147483647)%Z ->
  forall ty r B S0 s, fit B S0 ty (NHash kxs) -> mode_ok m (m_d s) ->
  S (need by_ p (d_copy (m_d s))) <= f -> ready E (B ++ S0) r ty s ->
  decoded (mdecodeHash v by_ (mdec f) (udec f) ty p (Z.of_nat (length kxs)) r Settable) E S0 r ty s (NHash kxs) p' X.
Proof.
  intros (P1 & P2 & QM & QS) Lp Hl. specialize (P2 Lp).
  assert (B1 : ((Z.of_nat (length kxs) <? 0) || (maxInt32 <? Z.of_nat (length kxs)))%Z = false) by (unfold maxInt32; lia).
  assert (B2 : (blen by_ <? Z.of_nat p + 2 * Z.of_nat (length kxs))%Z = false) by (unfold blen; lia).
  induction ty as [| | | | | | | |t _|t IH|id]; intros r B S0 s Fx Hm Hf Rd; try (inversion Fx; fail);
    pose proof Rd as (Ri & Rv & Rz & Rw & Ra); pose proof (vref_in v _ _ Rv) as Lr;
    assert (Rs : forall k, In k S0 -> k < length E) by (intros k J; apply Rw, in_or_app; now right);
    pose proof Ri as (_ & _ & _ & _ & _ & I6).
  - (* map *)
    inversion Fx as [| | |B' S' t' kxs' Nd Fs| | | | | | | | |]; subst.
    set (l := length (m_mem s)).
    destruct (new_write (m_mem s) r (MEntries []) (MMap (Some l)) Rv) as (C & Hc & Hr & Hv & Hlen2).
    set (mem2 := after_write v (m_mem s ++ [MEntries []]) r (MMap (Some l))) in *.
    set (s2 := mkM (m_d s) mem2 (m_refs s)).
    assert (A : after E r s [] s2).
    { apply (after_intro E (B ++ S0) r (TyMap t) s s2 false 0 (length (d_heap (m_d s)))); auto; try discriminate.
      intros W. apply frm_refl. }
    destruct (QM f t r l S0 s2 []) as (s3 & es & R3 & A3 & C3 & M3 & V3); auto; [apply A|].
    destruct (after_fresh_m E r s s2 l X s3 Rv A (le_n _) A3) as [A4 G4].
    exists s3. split; [|split; [exact A4|]].
    + cbn [mdecodeHash]. rewrite B1, B2. unfold tbind at 1, read, tbind at 1, get_mem, tret at 1. rewrite Rz. cbn [mzero].
      unfold tbind, mcheck, tret, new_cell. rewrite write_eq. cbn [m_d m_mem m_refs]. rewrite Nat2Z.id. exact R3.
    + rewrite G4. cbn [m_mem s2]. rewrite Hr. eapply sh_map; [unfold l; lia|exact C3|exact M3|].
      cbn [m_mem s2] in V3. rewrite Hlen2 in V3. exact V3.
  - (* pointer *)
    inversion Fx as [| | | |B' S' t' kxs' Hh Fs| | | | | | | |]; subst.
    set (l := length (m_mem s)).
    destruct (new_write (m_mem s) r (MCell (mzero t)) (MPtr (Some l)) Rv) as (C & Hc & Hr & Hv & Hlen2).
    set (mem2 := after_write v (m_mem s ++ [MCell (mzero t)]) r (MPtr (Some l))) in *.
    set (s2 := mkM (m_d s) mem2 (m_refs s)).
    assert (A : after E r s [] s2).
    { apply (after_intro E (B ++ S0) r (TyPtr t) s s2 false 0 (length (d_heap (m_d s)))); auto; try discriminate.
      intros W. apply frm_refl. }
    assert (Vl : vref v mem2 (l, [])) by (eexists; split; [exact Hc|exact Logic.I]).
    assert (Rl : rd v mem2 (l, []) = mzero t) by (unfold rd, mvar; cbn; unfold l; rewrite Hc; reflexivity).
    destruct (IH (l, []) [] S0 s2 Fs) as (s3 & R3 & A3 & V3); auto.
    { split; [apply A|]. split; [exact Vl|]. split; [exact Rl|]. split; [exact Rs|].
      intros k tr K. left. left. cbn. destruct (I6 k tr K) as (_ & _ & V). apply vref_in in V. unfold l. lia. }
    destruct (after_fresh E r s s2 (l, []) X s3 Rv A (le_n _) A3) as [A4 G4].
    exists s3. split; [|split; [exact A4|]].
    + cbn [mdecodeHash]. rewrite B1, B2. unfold tbind at 1, read, tbind at 1, get_mem, tret at 1. rewrite Rz. cbn [mzero].
      unfold tbind, mcheck, tret, new_cell. rewrite write_eq. cbn [m_d m_mem m_refs md_elem]. exact R3.
    + rewrite G4. cbn [m_mem s2]. rewrite Hr.
      eapply sh_ptr; [unfold l; lia|apply rd_cell; [eapply chg_vref; [exact Vl|apply A3]|reflexivity]|].
      cbn [m_mem s2] in V3. rewrite Hlen2 in V3. exact V3.
  - (* struct *)
    inversion Fx as [| | | | |B' S' id' kxs' is Li Nd Fs| | | | | | |]; subst.
    assert (HW : forall i ty w s0, val (B ++ S0) s0 i ty w -> val S0 s0 i ty w).
    { intros i ty w s0. apply val_fewer, incl_appr, incl_refl. }
    destruct (QS f id r (B ++ S0) s [] is) as (s3 & fs & R3 & A3 & K3 & E3 & O3 & V3); auto.
    + intros i fd t _ Et. unfold msfield. cbn. now rewrite Et.
    + intros k tr K. destruct (Ra k tr K); auto.
    + exists s3. split; [|split; [exact A3|]].
      * cbn [mdecodeHash]. rewrite B1, B2. unfold tbind at 1, read, tbind at 1, get_mem, tret at 1. rewrite Rz. cbn [mzero]. rewrite Nat2Z.id. exact R3.
      * rewrite E3. apply sh_struct.
        -- eapply tshownf_stable; [apply (fun i ty w => HW i ty w s3)|apply le_n|apply le_n| |exact V3]. auto.
        -- intros i fd t Et Nk. rewrite O3.
           ++ unfold msfield. cbn. now rewrite Et.
           ++ intros J. destruct (in_combine_l2 _ _ kxs is i Li J) as ([k x] & J'). destruct (Fs k x i J') as (fd' & t' & Nm & _).
              apply in_combine_l in J'. exact (Nk k x J' Nm).
Qed.

Lemma Ptag_hash E m q n r0 kxs p' X : vint by_ (S q) n r0 ->
  (n <= 2147483647)%N -> N.of_nat (length kxs) = n -> Ppairs E m r0 kxs p' X -> Ptag E m q 42 (NHash kxs) p' X.
Proof.
  intros Hv Hn En PP. pose proof PP as (P1 & P2 & _).
  destruct (vint_at _ Hlen _ _ _ (mkDState [] [] 0 []) Hv) as (_ & L1 & L2 & L3). specialize (P2 L2).
  split; [lia|split; [exact P2|]].
  intros f ty r B S0 s Fx Hm Hf Hf0 Rd. change (tag_kind 42) with THash. cbn [mdecode_tag].
  destruct (vint_at _ Hlen _ _ _ (m_d s) Hv) as (V & _).
  eapply decoded_bind; [exact V|]. cbn [fst snd].
  replace (S q + (r0 - S q)) with r0 by lia.
  rewrite to_int_small by (unfold two63; lia).
  replace (Z.of_N n) with (Z.of_nat (length kxs)) by lia.
  eapply hash_decoded; eauto; try lia. eapply need_le; [exact Hf|lia].
Qed.
Lemma Ptag_hashref E m q t kxs p' X : tag_at by_ q q t -> (80 <= t < 96)%N ->
  N.of_nat (length kxs) = (t - 80)%N -> Ppairs E m (S q) kxs p' X -> Ptag E m q t (NRef (NHash kxs)) p' X.
Proof.
  intros Ht Hr En PP. pose proof PP as (P1 & P2 & _).
  destruct (tag_skip _ _ _ _ Ht) as (b & _ & _ & L3 & L4 & _).
  specialize (P2 L4). split; [lia|split; [exact P2|]].
  intros f ty r B S0 s Fx Hm Hf Hf0 Rd. rewrite (tk_hashref by_) by assumption. cbn [mdecode_tag].
  replace (N.to_nat (t - 80)) with (length kxs) by lia.
  destruct (hash_decoded E m (S q) kxs p' X f PP L4 ltac:(lia) ty r B S0 s) as (s' & R & A & V); auto; [apply (mfit_inv _ _ _ _ Fx)|].
  exists s'. split; [exact R|]. split; [exact A|now apply sh_ref].
Qed.

Theorem tdecode_implements_nodes :
  (forall E m p x p' X, gitem g by_ E m p x p' X -> Pitem E m p x p' X) /\
  (forall E m q t x p' X, gbody g by_ E m q t x p' X -> Pbody E m q t x p' X) /\
  (forall E m p xs p' X, gitems g by_ E m p xs p' X -> Pitems E m p xs p' X) /\
  (forall E m p kxs p' X, gpairs g by_ E m p kxs p' X -> Ppairs E m p kxs p' X).
Proof.
  apply (nodes_ind g by_ (fun E m p x p' X _ => Pitem E m p x p' X)
    (fun E m q t x p' X _ => Pbody E m q t x p' X)
    (fun E m p xs p' X _ => Pitems E m p xs p' X) (fun E m p kxs p' X _ => Ppairs E m p kxs p' X)).
  - intros E m p q t x p' X Ht Mk _ H. eapply Pitem_pad; [exact Ht|].
    apply (proj1 (H (tag_here by_ _ _ _ Ht)) E eq_refl Mk).
  - intros E m p q t x p' X Ht Mk _ H. eapply Pitem_pad; [exact Ht|].
    apply (proj2 (H (tag_here by_ _ _ _ Ht)) Mk).
  - intros. now apply Pbody_plain.
  - intros. now apply tag_reduce, Ptag_refn.
  - intros. now apply tag_reduce, Ptag_weaken.
  - intros. eapply tag_reduce, Ptag_array; eauto.
  - intros. apply Pbody_at. intros Ht. eapply Ptag_arrayref; eauto.
  - intros. eapply tag_reduce, Ptag_hash; eauto.
  - intros. apply Pbody_at. intros Ht. eapply Ptag_hashref; eauto.
  - (* object *)
    intros E m q cls r0 x p' X Hs _ PP. pose proof PP as (P1 & P2 & _).
    destruct (stringish_runs c by_ start Hlen _ _ _ _ (mkDState [] [] 0 []) Hs) as (_ & _ & _ & _ & _ & L1 & L2); [reflexivity|].
    apply tag_reduce. split; [lia|split; [lia|]].
    intros f ty r B S0 s Fx Hm Hf Hf0 Rd. change (tag_kind 44) with (if false then TObjectV else TObject).
    eapply (object_decoded E m r0 x p' X f ty r B S0 s false); eauto; [|lia].
    intros d Hd. eapply (class_lit c by_ start Hlen); eauto. rewrite Hd. now apply mode_copy.
  - (* objectv *)
    intros E m q n r0 u cls e x p' X Hv Hlt Hst Hs _ PP. apply Pbody_at. intros Ht. pose proof PP as (P1 & P2 & _).
    pose proof (tag_skip _ _ _ _ Ht) as (_ & _ & _ & _ & L & _).
    destruct (vint_at _ Hlen _ _ _ (mkDState [] [] 0 []) Hv) as (_ & L1 & L2 & _).
    split; [lia|split; [lia|]].
    intros f ty r B S0 s Fx Hm Hf Hf0 Rd. change (tag_kind 45) with (if true then TObjectV else TObject).
    eapply (object_decoded E m r0 x p' X f ty r B S0 s true); eauto; [|lia].
    intros d Hd. eapply (class_off c by_ start Hlen); eauto.
  - (* freeze *)
    intros E m q cls r0 str y p' X Hs Ha _ PP Hy Hz. pose proof PP as (P1 & P2 & _).
    destruct (stringish_runs c by_ start Hlen _ _ _ _ (mkDState [] [] 0 []) Hs) as (_ & _ & _ & _ & _ & L1 & L2); [reflexivity|].
    apply tag_reduce. split; [lia|split; [lia|]]. intros f ty r B S0 s Fx. destruct (mfit_inv _ _ _ _ Fx).
  - (* freezev *)
    intros E m q o r0 u cls e str y p' X Hv Hlt Hst Hs Ha _ PP Hy Hz. apply Pbody_at. intros Ht.
    pose proof PP as (P1 & P2 & _).
    pose proof (tag_skip _ _ _ _ Ht) as (_ & _ & _ & _ & L & _).
    destruct (vint_at _ Hlen _ _ _ (mkDState [] [] 0 []) Hv) as (_ & L1 & L2 & _).
    split; [lia|split; [lia|]]. intros f ty r B S0 s Fx. destruct (mfit_inv _ _ _ _ Fx).
  - intros E q n r x e X Hv Hlt Hst _ PP. apply Pbody_at. intros Ht. eapply Ptag_copy; eauto.
  - intros E m q n r i Hv Hlt Nm. apply Pbody_at. intros Ht. eapply Ptag_refp; eauto.
  - intros E m q n r i Hv Hlt Nm. apply Pbody_at. intros Ht. eapply Ptag_alias; eauto.
  - intros. apply Pitems_nil.
  - intros. eapply Pitems_cons; eauto.
  - intros. apply Ppairs_nil.
  - intros. eapply Ppairs_cons; eauto.
Qed.
End TG.
