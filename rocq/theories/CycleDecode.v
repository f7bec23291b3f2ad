(** The decoder implements the wire format with references between items, cycles included. *)
From Verif Require Import Base BaseFacts SpecVarint Varint VarintFacts Tags GoMem Decode DecodeSafe
  Spec SpecShare SpecCycle DecodeSpec MergeFacts ShareDecode.
From Coq Require Import ZifyBool ZifyNat ZifyN.
Ltac Zify.zify_post_hook ::= Z.div_mod_to_equations.

Scheme gitem_ind4 := Induction for gitem Sort Prop
  with gbody_ind4 := Induction for gbody Sort Prop
  with gitems_ind4 := Induction for gitems Sort Prop
  with gpairs_ind4 := Induction for gpairs Sort Prop.
Combined Scheme nodes_ind from gitem_ind4, gbody_ind4, gitems_ind4, gpairs_ind4.

Scheme shown_ind3 := Induction for shown Sort Prop
  with showns_ind3 := Induction for showns Sort Prop
  with shownm_ind3 := Induction for shownm Sort Prop.
Combined Scheme shown_mut_ind from shown_ind3, showns_ind3, shownm_ind3.

Lemma shown_stable perl noref reg (P P' : loc -> Prop) h h' (L L' : nat -> gval -> Prop) :
  (forall l, P l -> P' l /\ nth_error h' l = nth_error h l) -> (forall i v, L i v -> L' i v) ->
  (forall v x, shown perl noref reg P h L v x -> shown perl noref reg P' h' L' v x) /\
  (forall l xs, showns perl noref reg P h L l xs -> showns perl noref reg P' h' L' l xs) /\
  (forall m kxs, shownm perl noref reg P h L m kxs -> shownm perl noref reg P' h' L' m kxs).
Proof.
  intros H HL.
  assert (E : forall l x, P l -> nth_error h l = x -> nth_error h' l = x).
  { intros l x Pl <-. now apply H. }
  assert (I : forall l, P l -> P' l) by (intros; now apply H).
  assert (R : forall v d, repr perl reg P h v d -> repr perl reg P' h' v d).
  { intros v d. now apply repr_stable. }
  apply shown_mut_ind; intros; subst; try (econstructor; eauto; fail).
Qed.

(** * Numbered items *)
Definition nth_of (T : list (nat * loc)) (i : nat) : option loc := nth_error (rev (map snd T)) i.

Lemma nth_of_lt T i l : nth_of T i = Some l -> i < length T.
Proof. intros H. apply nth_error_Some_lt in H. now rewrite rev_length, map_length in H. Qed.
Lemma nth_of_app Y T i : i < length T -> nth_of (Y ++ T) i = nth_of T i.
Proof.
  intros H. unfold nth_of. rewrite map_app, rev_app_distr. apply nth_error_app1. now rewrite rev_length, map_length.
Qed.
Lemma nth_of_old Y T i l : nth_of T i = Some l -> nth_of (Y ++ T) i = Some l.
Proof. intros H. rewrite nth_of_app; [exact H|now apply nth_of_lt in H]. Qed.
Lemma nth_of_inv Y T i l : nth_of (Y ++ T) i = Some l -> nth_of T i = Some l \/ In l (map snd Y).
Proof.
  intros H. destruct (le_lt_dec (length T) i) as [G|G].
  - right. unfold nth_of in H. rewrite map_app, rev_app_distr, nth_error_app2 in H by now rewrite rev_length, map_length.
    apply nth_error_In in H. now rewrite <- in_rev in H.
  - left. now rewrite nth_of_app in H.
Qed.
Lemma nth_of_last q l T : nth_of ((q, l) :: T) (length T) = Some l.
Proof.
  unfold nth_of. cbn [map snd rev]. rewrite nth_error_app2; rewrite rev_length, map_length; [|lia].
  now rewrite Nat.sub_diag.
Qed.
Lemma nth_of_cons q l T i l' : nth_of ((q, l) :: T) i = Some l' -> i = length T /\ l' = l \/ nth_of T i = Some l'.
Proof.
  intros H. destruct (Nat.eq_dec i (length T)) as [->|N].
  - rewrite nth_of_last in H. injection H as ->. auto.
  - right. pose proof (nth_of_lt _ _ _ H) as G. cbn [length] in G.
    change ((q, l) :: T) with ([(q, l)] ++ T) in H. rewrite nth_of_app in H by lia. exact H.
Qed.
Lemma number_nth T n i : number (map fst T) n = Some i ->
  exists l, assoc_nat n T = Some l /\ nth_of T i = Some l.
Proof.
  induction T as [|[q l] T IH]; cbn [map fst number assoc_nat]; [discriminate|].
  destruct (Nat.eqb_spec q n) as [->|N].
  - intros [= <-]. exists l. split; [reflexivity|]. rewrite map_length. apply nth_of_last.
  - intros H. destruct (IH H) as (l' & A & B). exists l'. split; [exact A|].
    now apply (nth_of_old [(q, l)]).
Qed.

(** fewer items waited for *)
Lemma fine_fewer perl Z : forall x t B S B' S', incl B' B -> incl S' S ->
  fine_node perl Z t B S x -> fine_node perl Z t B' S' x.
Proof.
  destruct perl;
  (fix IH 1; intros x t B S B' S' HB HS; assert (HO : incl (B' ++ S') (B ++ S))
     by (intros i I; apply in_or_app; apply in_app_or in I as [I|I]; auto);
   assert (H0 : incl (@nil nat) []) by (intros i []);
   destruct x as [d|l|l|x|x|cls x|cls str x|x|i x|i|i]; cbn [fine_node];
   [ auto
   | induction l as [|y l IHl]; [auto|]; intros [H1 H2]; split; [eapply IH; [exact H0|exact HS|exact H1]|exact (IHl H2)]
   | induction l as [|[k y] l IHl]; [auto|]; intros [H1 H2]; split; [eapply IH; [exact H0|exact HS|exact H1]|exact (IHl H2)]
   | destruct t; apply IH; auto
   | apply IH; auto
   | apply IH; auto
   | apply IH; auto
   | apply IH; auto
   | intros [H1 H2]; split; [exact H1|]; eapply IH; [|exact HS|exact H2]; intros j [->|J]; [now left|right; auto]
   | intros [H1 H2]; split; [|exact H2]; intros I; apply H1; auto
   | intros H1 I; apply H1; auto ]).
Qed.

Section CD.
Variable c : dconfig.
Variable by_ : bytes.
Variable ibuf : loc.
Variable ishift : nat.
Variable buf : bytes.
Variable start : nat.
Variable Z : nat -> Prop.
Hypothesis Hlen : (Z.of_nat (length by_) < two63)%Z.
Hypothesis Hbuf : at_ buf ishift by_.

Notation len := (length by_).
Notation g := (go_dialect c start).
Notation dec := (decode c by_ ibuf ishift).
Notation nilx := (nil_node (d_perl c) Z).
Notation finex := (fine_node (d_perl c) Z).
Notation tl s := (nth_of (d_tracked s)).
Notation hl s := (length (d_heap s)).

(** the value of the marked item number [i], once its variable is written *)
Definition val (C : loc -> Prop) (s : dstate) (i : nat) (v : gval) : Prop :=
  exists l, tl s i = Some l /\ C l /\ nth_error (d_heap s) l = Some (CV v).

Notation sh C s := (shown (d_perl c) (d_noref c) (reg_of c) C (d_heap s) (val C s)).
Notation shs C s := (showns (d_perl c) (d_noref c) (reg_of c) C (d_heap s) (val C s)).
Notation shm C s := (shownm (d_perl c) (d_noref c) (reg_of c) C (d_heap s) (val C s)).

Definition inv (E : list nat) (C : loc -> Prop) (s : dstate) : Prop :=
  nth_error (d_heap s) ibuf = Some (CBuf buf) /\ C ibuf /\ (forall l, C l -> l < hl s) /\
  map fst (d_tracked s) = E /\ (forall i l, tl s i = Some l -> l < hl s) /\
  (forall i l, tl s i = Some l -> C l -> exists v, nth_error (d_heap s) l = Some (CV v) /\ (v = GNil -> Z i)).

(** the items of [B] are the ones waiting for [ptr] *)
Definition waiting (B : list nat) (ptr : loc) (s : dstate) : Prop :=
  forall i, In i B <-> tl s i = Some ptr.
Definition opened (C : loc -> Prop) (s : dstate) (O : list nat) : Prop :=
  forall i l, tl s i = Some l -> C l \/ In i O.

(** from [s] to [s'] *)
Definition after (Wf Wc : loc -> Prop) (E : list nat) (C : loc -> Prop) (O : list nat) (s : dstate)
  (C' : loc -> Prop) (s' : dstate) (X : list nat) : Prop :=
  frm Wf s s' /\ kept C C' (d_heap s) (d_heap s') /\ (forall l, C' l -> C l \/ Wc l \/ hl s <= l) /\
  (exists Y, d_tracked s' = Y ++ d_tracked s /\ forall l, In l (map snd Y) -> Wc l \/ hl s <= l) /\
  inv (X ++ E) C' s' /\ opened C' s' O.

Lemma after_val Wf Wc E C O s C' s' X i v : after Wf Wc E C O s C' s' X -> val C s i v -> val C' s' i v.
Proof.
  intros (_ & K & _ & (Y & T & _) & _) (l & A & Cl & D). destruct (K l Cl) as [Cl' D'].
  exists l. split; [rewrite T; now apply nth_of_old|]. split; [exact Cl'|congruence].
Qed.
Lemma after_sh Wf Wc E C O s C' s' X v x : after Wf Wc E C O s C' s' X -> sh C s v x -> sh C' s' v x.
Proof.
  intros A. apply (shown_stable (d_perl c) (d_noref c) (reg_of c) C C' (d_heap s) (d_heap s') (val C s) (val C' s')).
  - apply A.
  - intros i w. eapply after_val; eauto.
Qed.
Lemma after_shm Wf Wc E C O s C' s' X m kxs : after Wf Wc E C O s C' s' X -> shm C s m kxs -> shm C' s' m kxs.
Proof.
  intros A. apply (shown_stable (d_perl c) (d_noref c) (reg_of c) C C' (d_heap s) (d_heap s') (val C s) (val C' s')).
  - apply A.
  - intros i w. eapply after_val; eauto.
Qed.

Lemma after_trans Wf Wc Wf' Wc' E C O O' s C1 s1 X1 C2 s2 X2 :
  after Wf Wc E C O s C1 s1 X1 -> after Wf' Wc' (X1 ++ E) C1 O' s1 C2 s2 X2 ->
  (forall l, Wf' l -> l < hl s -> Wf l) -> (forall l, Wc' l -> l < hl s -> Wc l) ->
  after Wf Wc E C O' s C2 s2 (X2 ++ X1).
Proof.
  intros (F1 & K1 & D1 & (Y1 & T1 & N1) & I1 & O1) (F2 & K2 & D2 & (Y2 & T2 & N2) & I2 & O2) Hf Hc.
  pose proof (frm_len _ _ _ F1) as L1.
  assert (Hc' : forall l, Wc' l -> Wc l \/ hl s <= l).
  { intros l H. destruct (le_lt_dec (hl s) l); auto. }
  split; [eapply (frm_comp by_ 0); eauto|].
  split. { intros l H. destruct (K1 l H) as [H1 E1]. destruct (K2 l H1) as [H2 E2]. split; congruence. }
  split. { intros l H. destruct (D2 l H) as [H1|[H1|H1]]; auto. right; right; lia. }
  split. { exists (Y2 ++ Y1). split; [rewrite T2, T1; apply app_assoc|]. intros l H. rewrite map_app in H.
    apply in_app_or in H as [H|H]; [|auto]. destruct (N2 l H); auto. right; lia. }
  rewrite <- app_assoc. auto.
Qed.

(** only cells outside [C] and the items waiting are touched *)
Lemma after_same (Wf Wc : loc -> Prop) E C O s s' : inv E C s -> opened C s O -> frm Wf s s' -> (forall l, C l -> ~ Wf l) ->
  d_tracked s' = d_tracked s -> after Wf Wc E C O s C s' [].
Proof.
  intros (I1 & I2 & I3 & I4 & I5 & I6) Op F N T.
  pose proof (frm_len _ _ _ F) as L.
  assert (K : forall l, C l -> nth_error (d_heap s') l = nth_error (d_heap s) l).
  { intros l H. destruct F as (_ & F & _). apply F; auto. }
  split; [exact F|]. split; [intros l H; auto|]. split; [auto|].
  split; [exists []; split; [exact T|intros l []]|]. cbn [app].
  split; [|unfold opened; now rewrite T].
  unfold inv. rewrite T. split; [now rewrite K|]. split; [exact I2|]. split; [intros l H; apply I3 in H; lia|].
  split; [exact I4|]. split; [intros i l H; apply I5 in H; lia|].
  intros i l H Cl. rewrite K by exact Cl. eauto.
Qed.
(** a finished cell, not waited for *)
Lemma after_more (Wf Wc : loc -> Prop) E C O s C1 s1 X (D : loc -> Prop) : after Wf Wc E C O s C1 s1 X ->
  (forall l, D l -> Wc l \/ hl s <= l) -> (forall l, D l -> l < hl s1) -> (forall i l, tl s1 i = Some l -> D l -> C1 l) ->
  after Wf Wc E C O s (fun l => C1 l \/ D l) s1 X.
Proof.
  intros (F & K & Dl & T & (I1 & I2 & I3 & I4 & I5 & I6) & Op) D1 D2 D3.
  split; [exact F|]. split; [intros l H; destruct (K l H); auto|]. split; [intros l [H|H]; auto|].
  split; [exact T|]. split.
  - split; [exact I1|]. split; [now left|]. split; [intros l [H|H]; auto|]. split; [exact I4|]. split; [exact I5|].
    intros i l H [Cl|Dx]; [eauto|]. eapply I6; eauto.
  - intros i l H. destruct (Op i l H); auto.
Qed.

(** the variable waited for is written *)
Lemma settle E C B S s s2 ptr v : inv E C s -> opened C s (B ++ S) -> waiting B ptr s -> ~ C ptr -> ptr < hl s ->
  frm (eq ptr) s s2 -> d_tracked s2 = d_tracked s -> nth_error (d_heap s2) ptr = Some (CV v) ->
  (v = GNil -> forall i, In i B -> Z i) ->
  after (eq ptr) (eq ptr) E C S s (fun l => C l \/ l = ptr) s2 [].
Proof.
  intros (I1 & I2 & I3 & I4 & I5 & I6) Op Wt Nc Lp F T Hv Hz.
  pose proof (frm_len _ _ _ F) as L.
  assert (K : forall l, C l -> nth_error (d_heap s2) l = nth_error (d_heap s) l).
  { intros l H. destruct F as (_ & F & _). apply F; auto. intros <-. contradiction. }
  split; [exact F|]. split; [intros l H; auto|]. split; [intros l [H|H]; auto|].
  split; [exists []; split; [exact T|intros l []]|]. cbn [app]. split.
  - unfold inv. rewrite T. split; [now rewrite K|]. split; [now left|].
    split; [intros l [H| ->]; [apply I3 in H|]; lia|].
    split; [exact I4|]. split; [intros i l H; apply I5 in H; lia|].
    intros i l H [Cl| ->]; [rewrite K by exact Cl; eauto|].
    exists v. split; [exact Hv|]. intros E0. apply Hz; [exact E0|]. now apply Wt.
  - intros i l H. rewrite T in H. destruct (Op i l H) as [Cl|J]; [auto|].
    apply in_app_or in J as [J|J]; [|auto]. apply Wt in J. left; right. congruence.
Qed.

(** a value that is nil *)
Lemma shown_nil E C s v x t B S : inv E C s -> finex t B S x -> sh C s v x -> v = GNil -> nilx x.
Proof.
  intros I. revert t B S v. induction x; intros t B S v Fx H ->; inversion H; subst; cbn [nil_node] in *.
  - split; [|destruct (d_perl c) eqn:Pl; [exfalso; match goal with R : repr _ _ _ _ _ _ |- _ => exact (repr_not_nil _ _ _ _ _ R eq_refl) end|]].
    + destruct (d_perl c) eqn:Pl; [|reflexivity]. exfalso. match goal with R : repr _ _ _ _ _ _ |- _ => exact (repr_not_nil _ _ _ _ _ R eq_refl) end.
    + match goal with R : repr _ _ _ _ _ _ |- _ => exact (repr_nil_nilish _ _ _ _ _ R eq_refl) end.
  - match goal with Q : d_perl c = false |- _ => split; [exact Q|]; refine (IHx false B _ GNil _ _ eq_refl); [cbn [fine_node] in Fx; rewrite Q in Fx |- *; exact Fx|assumption] end.
  - match goal with Q : d_perl c = false |- _ => split; [exact Q|]; refine (IHx false B _ GNil _ _ eq_refl); [cbn [fine_node] in Fx; rewrite Q in Fx |- *; exact Fx|assumption] end.
  - match goal with Q : d_perl c = false |- _ => split; [exact Q|]; refine (IHx false [] _ GNil _ _ eq_refl); [cbn [fine_node] in Fx; rewrite Q in Fx |- *; exact Fx|assumption] end.
  - match goal with R : repr _ _ _ _ _ _ |- _ => inversion R end.
  - cbn [fine_node] in Fx. eapply IHx; eauto.
  - cbn [fine_node] in Fx. destruct Fx. eapply IHx; eauto.
  - cbn [fine_node] in Fx. destruct Fx as [_ Nz]. apply Nz.
    match goal with V : val _ _ _ _ |- _ => destruct V as (l & A & Cl & D) end.
    destruct I as (_ & _ & _ & _ & _ & I6). destruct (I6 _ _ A Cl) as (w & Dw & Q). apply Q. congruence.
  - match goal with V : val _ _ _ _ |- _ => destruct V as (l & A & Cl & D) end.
    destruct I as (_ & _ & _ & _ & _ & I6). destruct (I6 _ _ A Cl) as (w & Dw & Q). apply Q. congruence.
Qed.

(** the outcome of decoding one item into ptr *)
Definition decoded (m : M nat) (ptr : loc) (E : list nat) (C : loc -> Prop) (S : list nat) (s : dstate)
  (x : node) (p' : nat) (X : list nat) : Prop :=
  exists s' v C', runs m s p' s' /\ after (eq ptr) (eq ptr) E C S s C' s' X /\ C' ptr /\
    nth_error (d_heap s') ptr = Some (CV v) /\ sh C' s' v x.

(** the state in which an item is read into ptr *)
Definition ready (E : list nat) (C : loc -> Prop) (B S : list nat) (ptr : loc) (x : node) (s : dstate) : Prop :=
  (nilx x -> forall i, In i B -> Z i) /\ nilcell s ptr /\ ~ C ptr /\ inv E C s /\ waiting B ptr s /\
  opened C s (B ++ S).

Definition Pitem (E : list nat) (m : cmode) (p : nat) (x : node) (p' : nat) (X : list nat) : Prop :=
  p < p' /\ p' <= len /\
  forall fuel ptr B S C s, finex false B S x -> mode_ok m s -> need by_ p (d_copy s) <= fuel ->
    ready E C B S ptr x s -> decoded (dec fuel p ptr) ptr E C S s x p' X.

Definition Ptag (E : list nat) (m : cmode) (q : nat) (t : N) (x : node) (p' : nat) (X : list nat) : Prop :=
  S q <= p' /\ p' <= len /\
  forall f ptr B S0 C s trk, finex trk B S0 x -> mode_ok m s -> need by_ (S q) (d_copy s) <= f ->
     (d_copy s = 0 -> len + 1 <= f) -> ready E C B S0 ptr x s ->
     decoded (decode_tag c by_ ibuf ishift (dec f) (tag_kind t) trk (S q) ptr) ptr E C S0 s x p' X.

Definition Pbody (E : list nat) (m : cmode) (q : nat) (t : N) (x : node) (p' : nat) (X : list nat) : Prop :=
  tag_at by_ q q t ->
  (forall E0, E = q :: E0 -> marked by_ q -> Pitem E0 m q (NAt (length E0) x) p' (X ++ [q])) /\
  (~ marked by_ q -> Pitem E m q x p' X).

Definition Pitems (E : list nat) (m : cmode) (p : nat) (xs : list node) (p' : nat) (X : list nat) : Prop :=
  p + length xs <= p' /\ (p <= len -> p' <= len) /\
  forall fuel base S C s, (forall x, In x xs -> finex false [] S x) -> mode_ok m s ->
    need by_ p (d_copy s) <= fuel -> inv E C s -> opened C s S ->
    (forall i, i < length xs -> nilcell s (base + i) /\ ~ C (base + i) /\ forall j, tl s j <> Some (base + i)) ->
    exists s' C', runs (array_loop (dec fuel) (length xs) base p) s p' s' /\
      after (fun l => base <= l < base + length xs) (fun l => base <= l < base + length xs) E C S s C' s' X /\
      shs C' s' base xs.

Definition Ppairs (E : list nat) (m : cmode) (p : nat) (kxs : list (bytes * node)) (p' : nat) (X : list nat) : Prop :=
  p + 2 * length kxs <= p' /\ (p <= len -> p' <= len) /\
  forall fuel ml S C s m0 kxs0, (forall k x, In (k, x) kxs -> finex false [] S x) -> mode_ok m s ->
    need by_ p (d_copy s) <= fuel -> inv E C s -> opened C s S ->
    ~ C ml -> nth_error (d_heap s) ml = Some (CMap m0) -> shm C s m0 kxs0 ->
    exists s' m1 C', runs (hash_loop by_ (dec fuel) (length kxs) ml p) s p' s' /\
      after (eq ml) (fun _ => False) E C S s C' s' X /\
      nth_error (d_heap s') ml = Some (CMap m1) /\ shm C' s' m1 (kxs0 ++ kxs).

Lemma tag_reduce E m q t x p' X : Ptag E m q t x p' X -> Pbody E m q t x p' X.
Proof.
  intros (L1 & L2 & HB) Ht.
  destruct (tag_skip _ _ _ _ Ht) as (b & E1 & E2 & L3 & L4 & Eb).
  assert (Run : forall f ptr s r s', runs (decode_tag c by_ ibuf ishift (dec f) (tag_kind t) (tracked_bit b) (S q) ptr)
      (if tracked_bit b then mkDState (d_heap s) ((q, ptr) :: d_tracked s) (d_copy s) (d_made s) else s) r s' ->
      runs (dec (S f) q ptr) s r s').
  { intros f ptr s r s' R. unfold runs in *. cbn [decode]. unfold decode_body.
    destruct (Nat.leb_spec len q); [lia|]. rewrite E1, E2. unfold mbind at 1.
    destruct (tracked_bit b) eqn:TB; cbn [track ret]; exact R. }
  split.
  - intros E0 -> Mk. assert (TB : tracked_bit b = true) by now apply (marked_bit by_ q b).
    split; [lia|split; [exact L2|]]. intros fuel ptr B S0 C s Fx Hm Hf (Rz & Rn & Rc & Ri & Rw & Ro).
    destruct fuel as [|f]; [unfold need in Hf; destruct (d_copy s); lia|].
    cbn [fine_node] in Fx. destruct Fx as [Fz Fx].
    set (s1 := mkDState (d_heap s) ((q, ptr) :: d_tracked s) (d_copy s) (d_made s)).
    pose proof (nil_lt _ _ Rn) as Lp. pose proof Ri as (I1 & I2 & I3 & I4 & I5 & I6).
    assert (Le : length E0 = length (d_tracked s)) by (rewrite <- I4; apply map_length).
    destruct (HB f ptr (length E0 :: B) S0 C s1 true) as (s' & v & C' & R & A & Cp & Hv & V); auto.
    + cbn [d_copy s1]. unfold need in *. destruct (d_copy s); lia.
    + cbn [d_copy s1]. intros C0. unfold need in Hf. rewrite C0 in Hf. lia.
    + split; [|split; [exact Rn|split; [exact Rc|split; [|split]]]].
      * intros Nx i [<-|J]; [now apply Fz|]. apply Rz; [exact Nx|exact J].
      * split; [exact I1|]. split; [exact I2|]. split; [exact I3|]. split; [cbn; now rewrite I4|].
        split.
        -- intros i l H. apply nth_of_cons in H as [[_ ->]|H]; [exact Lp|]. now apply (I5 i).
        -- intros i l H Cl. apply nth_of_cons in H as [[_ ->]|H]; [contradiction|]. now apply I6.
      * intros i. split.
        -- intros [<-|J]; [rewrite Le; apply nth_of_last|]. apply Rw in J. now apply (nth_of_old [(q, ptr)]).
        -- intros H. apply nth_of_cons in H as [[-> _]|H]; [left; auto|]. right. now apply Rw.
      * intros i l H. apply nth_of_cons in H as [[-> _]|H]; [right; left; auto|].
        destruct (Ro i l H); [auto|]. right. right. assumption.
    + exists s', v, C'. split; [apply Run; rewrite TB; exact R|].
      destruct A as (F & K & D & (Y & T & N) & I & O). cbn [d_tracked s1] in T.
      split; [|split; [exact Cp|split; [exact Hv|]]].
      * split; [exact F|]. split; [exact K|]. split; [exact D|]. split; [|split; [|exact O]].
        -- exists (Y ++ [(q, ptr)]). split; [rewrite T, <- app_assoc; reflexivity|].
           intros l H. rewrite map_app in H. apply in_app_or in H as [H|[<-|[]]]; auto.
        -- rewrite <- app_assoc. exact I.
      * apply sh_at; [|exact V]. exists ptr. split; [|split; [exact Cp|exact Hv]].
        rewrite T. apply nth_of_old. rewrite Le. apply nth_of_last.
  - intros Mk. assert (TB : tracked_bit b = false).
    { destruct (tracked_bit b) eqn:TB; [|reflexivity]. exfalso. apply Mk. now apply (marked_bit by_ q b). }
    split; [lia|split; [exact L2|]]. intros fuel ptr B S0 C s Fx Hm Hf Rd.
    destruct fuel as [|f]; [unfold need in Hf; destruct (d_copy s); lia|].
    destruct (HB f ptr B S0 C s false) as (s' & v & C' & R & A); auto.
    + unfold need in *. destruct (d_copy s); lia.
    + intros C0. unfold need in Hf. rewrite C0 in Hf. lia.
    + exists s', v, C'. split; [apply Run; rewrite TB; exact R|exact A].
Qed.

Lemma Pbody_at E m q t x p' X : (tag_at by_ q q t -> Ptag E m q t x p' X) -> Pbody E m q t x p' X.
Proof. intros H Ht. exact (tag_reduce _ _ _ _ _ _ _ (H Ht) Ht). Qed.

Lemma Pitem_pad E m p q t x p' X : tag_at by_ p q t -> Pitem E m q x p' X -> Pitem E m p x p' X.
Proof.
  intros Ht (L1 & L2 & H).
  destruct (tag_skip _ _ _ _ Ht) as (b & E1 & E2 & L3 & L4 & Eb).
  destruct (tag_skip _ _ _ _ (tag_here by_ _ _ _ Ht)) as (b' & E1' & E2' & _ & _ & Eb').
  assert (b' = b) by congruence. subst b'.
  split; [lia|split; [exact L2|]]. intros fuel ptr B S0 C s Fx Hm Hf Rd.
  destruct (H fuel ptr B S0 C s) as (s' & v & C' & R & X1); auto.
  { eapply need_mono; eauto. }
  exists s', v, C'. split; [|exact X1].
  destruct fuel as [|f]; [discriminate|]. unfold runs in *. cbn [decode] in *. unfold decode_body in *.
  destruct (Nat.leb_spec len p); [lia|]. destruct (Nat.leb_spec len q); [lia|].
  rewrite E1. rewrite E1' in R. exact R.
Qed.

(** ** Items without other items inside *)
Lemma Pbody_plain E m q t d p' : plain_tag t -> item g by_ m q d p' -> Pbody E m q t (NLeaf d) p' [].
Proof.
  intros Pt It Ht.
  destruct (proj1 (decode_implements_grammar c by_ ibuf ishift buf start Hlen Hbuf) _ _ _ _ It) as (L1 & L2 & H).
  destruct (tag_skip _ _ _ _ Ht) as (b & E1 & E2 & L3 & L4 & Eb).
  assert (Main : forall fuel ptr B S0 C s Y E0, mode_ok m s -> need by_ q (d_copy s) <= fuel ->
    ready E0 C B S0 ptr (NLeaf d) s -> Y = (if tracked_bit b then [(q, ptr)] else []) ->
    (nilx (NLeaf d) -> tracked_bit b = true -> Z (length E0)) ->
    exists s' v C', runs (dec fuel q ptr) s p' s' /\ after (eq ptr) (eq ptr) E0 C S0 s C' s' (map fst Y) /\ C' ptr /\
      nth_error (d_heap s') ptr = Some (CV v) /\ sh C' s' v (NLeaf d) /\ d_tracked s' = Y ++ d_tracked s).
  { intros fuel ptr B S0 C s Y E0 Hm Hf (Rz & Rn & Rc & Ri & Rw & Ro) EY Zn.
    pose proof Ri as (I1 & I2 & I3 & I4 & I5 & I6).
    destruct (H fuel ptr s) as (s' & v & R & F & Hv & V); auto.
    assert (T : d_tracked s' = Y ++ d_tracked s).
    { subst Y. destruct fuel as [|f]; [discriminate|]. unfold runs in R. cbn [decode] in R. unfold decode_body in R.
      destruct (Nat.leb_spec len q); [lia|]. rewrite E1, E2 in R. unfold mbind at 1 in R.
      destruct (tracked_bit b); cbn [track ret] in R; apply (plain_tracked c by_ ibuf ishift _ _ _ _ _ _ _ _ Pt) in R; exact R. }
    pose proof (nth_error_Some_lt _ _ _ _ Hv) as Lp. pose proof (frm_len _ _ _ F) as Lf. pose proof (nil_lt _ _ Rn) as Lp0.
    set (C' := fun l => C l \/ l = ptr \/ hl s <= l < hl s').
    assert (K : kept C C' (d_heap s) (d_heap s')).
    { intros l Hl. split; [now left|]. destruct F as (_ & F & _). apply F; [now apply I3|]. intros <-. contradiction. }
    assert (V' : repr (d_perl c) (reg_of c) C' (d_heap s') v d).
    { eapply repr_stable; [|exact V]. intros l [->|Hl]; split; auto; [now left|right; now right]. }
    assert (Zv : v = GNil -> nilx (NLeaf d)).
    { intros ->. cbn [nil_node]. destruct (d_perl c) eqn:Pl; [exfalso; exact (repr_not_nil _ _ _ _ _ V' eq_refl)|].
      split; [reflexivity|exact (repr_nil_nilish _ _ _ _ _ V' eq_refl)]. }
    assert (Ys : forall l, In l (map snd Y) -> l = ptr).
    { subst Y. destruct (tracked_bit b); cbn; [intros l [<-|[]]; reflexivity|intros l []]. }
    assert (Tl : forall i l, tl s' i = Some l -> tl s i = Some l \/ l = ptr /\ (tl s i = Some ptr \/ i = length E0 /\ tracked_bit b = true)).
    { intros i l Hi. rewrite T in Hi. subst Y. destruct (tracked_bit b); cbn [app] in Hi; [|auto].
      apply nth_of_cons in Hi as [[-> ->]|Hi]; [|auto]. right. split; [reflexivity|]. right. split; [|reflexivity].
      rewrite <- I4. now rewrite map_length. }
    exists s', v, C'. split; [exact R|]. split; [|split; [right; now left|split; [exact Hv|split; [now apply sh_leaf|exact T]]]].
    split; [exact F|]. split; [exact K|]. split; [intros l [Hl|[->|Hl]]; auto; right; right; lia|].
    split; [exists Y; split; [exact T|intros l Hl; left; symmetry; auto]|]. split.
    - split; [now rewrite (proj2 (K _ I2))|]. split; [now left|].
      split; [intros l [Hl|[->|Hl]]; [apply I3 in Hl; lia|exact Lp|lia]|].
      split; [rewrite T, map_app, I4; reflexivity|].
      split. { intros i l Hi. destruct (Tl i l Hi) as [Hl|[-> _]]; [apply I5 in Hl; lia|exact Lp]. }
      intros i l Hi Cl.
      assert (Hp : l = ptr -> exists v0, nth_error (d_heap s') l = Some (CV v0) /\ (v0 = GNil -> Z i)).
      { intros ->. exists v. split; [exact Hv|]. intros E0'. specialize (Zv E0').
        destruct (Tl i ptr Hi) as [Hl|[_ [Hl|[-> Tb]]]]; [apply Rz; [exact Zv|now apply Rw]..|auto]. }
      destruct (Tl i l Hi) as [Hl|[Hl _]]; [|auto].
      destruct Cl as [Cl|[Cl|Cl]]; [|auto|apply I5 in Hl; lia].
      rewrite (proj2 (K l Cl)). eauto.
    - intros i l Hi. destruct (Tl i l Hi) as [Hl|[-> _]]; [|left; right; now left].
      destruct (Ro i l Hl) as [Cl|J]; [left; now left|]. apply in_app_or in J as [J|J]; [|auto].
      apply Rw in J. left; right; left. congruence. }
  split.
  - intros E0 EE Mk. assert (TB : tracked_bit b = true) by now apply (marked_bit by_ q b).
    split; [lia|split; [exact L2|]]. intros fuel ptr B S0 C s Fx Hm Hf Rd.
    cbn [fine_node] in Fx. destruct Fx as [Fz _].
    pose proof Rd as (Rz & Rn & Rc & Ri & Rw & Ro).
    destruct (Main fuel ptr B S0 C s (if tracked_bit b then [(q, ptr)] else []) E0 Hm Hf Rd eq_refl)
      as (s' & v & C' & R & A & Cp & Hv & V & T); [auto|].
    rewrite TB in A, T. exists s', v, C'. split; [exact R|]. split; [exact A|]. split; [exact Cp|]. split; [exact Hv|].
    apply sh_at; [|exact V]. exists ptr. split; [|auto]. rewrite T.
    destruct Ri as (_ & _ & _ & I4 & _). rewrite <- I4, map_length. apply nth_of_last.
  - intros Mk. assert (TB : tracked_bit b = false).
    { destruct (tracked_bit b) eqn:TB; [|reflexivity]. exfalso. apply Mk. now apply (marked_bit by_ q b). }
    split; [lia|split; [exact L2|]]. intros fuel ptr B S0 C s Fx Hm Hf Rd.
    destruct (Main fuel ptr B S0 C s (if tracked_bit b then [(q, ptr)] else []) E Hm Hf Rd eq_refl) as (s' & v & C' & R & A & Cp & Hv & V & T).
    { intros _ X. congruence. }
    rewrite TB in A. exists s', v, C'. auto.
Qed.

(** ** Items behind references *)
Lemma decoded_bind A (m : M A) (k : A -> M nat) s a ptr E C S x i X :
  runs m s a s -> decoded (k a) ptr E C S s x i X -> decoded (mbind m k) ptr E C S s x i X.
Proof.
  intros R (s' & v & C' & R2 & H). exists s', v, C'. split; [|exact H]. eapply runs_bind; eauto.
Qed.

(** an item in a new cell *)
Lemma rec_fresh E m p x p' X f C S s : Pitem E m p x p' X -> finex false [] S x -> mode_ok m s ->
  need by_ p (d_copy s) <= f -> inv E C s -> opened C s S ->
  exists s' v C', runs (let! l := alloc (CV GNil) in dec f p l) s p' s' /\
    after (fun _ => False) (fun _ => False) E C S s C' s' X /\ C' (hl s) /\
    nth_error (d_heap s') (hl s) = Some (CV v) /\ sh C' s' v x.
Proof.
  intros (P1 & P2 & PI) Fx Hm Hf Hi Ho. pose proof Hi as (I1 & I2 & I3 & I4 & I5 & I6).
  set (s1 := with_heap s (d_heap s ++ [CV GNil])).
  assert (F1 : forall W, frm W s s1) by (intros; apply (frm_alloc by_ 0)).
  assert (L1 : hl s1 = Datatypes.S (hl s)) by (cbn; rewrite app_length; cbn; lia).
  assert (A1 : after (fun _ => False) (fun _ => False) E C S s C s1 []).
  { apply after_same; auto. }
  destruct (PI f (hl s) [] S C s1) as (s2 & v & C' & R & A & Cp & Hv & V); auto.
  { split; [intros _ i []|]. split; [unfold nilcell, s1; cbn; rewrite nth_error_app2, Nat.sub_diag by lia; reflexivity|].
    split; [intros Hc; specialize (I3 _ Hc); lia|]. destruct A1 as (_ & _ & _ & _ & A1 & A2). split; [exact A1|].
    split; [|exact A2]. intros i. split; [intros []|]. intros H. apply (I5 i) in H. lia. }
  exists s2, v, C'. split; [eapply runs_bind; [reflexivity|exact R]|]. split; [|auto].
  rewrite <- (app_nil_r X). eapply after_trans; [exact A1|exact A|intros; lia|intros; lia].
Qed.

(** the value of ptr is written at the end *)
Lemma write_last (m : M nat) ptr E C B S s C1 s1 v x i X (W : loc -> Prop) :
  ready E C B S ptr x s -> finex false B S x \/ v <> GNil -> (forall l, W l -> l = ptr) ->
  after W (fun _ => False) E C (B ++ S) s C1 s1 X -> sh C1 s1 v x ->
  m s = (set_var ptr v ;; ret i) s1 -> decoded m ptr E C S s x i X.
Proof.
  intros (Rz & Rn & Rc & Ri & Rw & Ro) Fx HW A V Em. pose proof (nil_lt _ _ Rn) as Lp.
  pose proof Ri as (I1 & I2 & I3 & I4 & I5 & I6).
  pose proof A as (F & K & D & (Y & T & N) & I & O). pose proof (frm_len _ _ _ F) as L.
  set (s2 := with_heap s1 (upd (d_heap s1) ptr (CV v))).
  assert (Nc : ~ C1 ptr). { intros H. destruct (D _ H) as [H1|[H1|H1]]; [contradiction|contradiction|lia]. }
  assert (W1 : waiting B ptr s1).
  { intros j. rewrite T. split.
    - intros J. apply nth_of_old. now apply Rw.
    - intros J. apply nth_of_inv in J as [J|J]; [now apply Rw|]. apply N in J as [[]|J]. lia. }
  assert (A2 : after (eq ptr) (eq ptr) (X ++ E) C1 S s1 (fun l => C1 l \/ l = ptr) s2 []).
  { apply (settle (X ++ E) C1 B S s1 s2 ptr v); auto; try lia.
    - apply (frm_set by_).
    - apply set_same. lia.
    - intros ->. apply Rz. destruct Fx as [Fx|Fx]; [|contradiction]. eapply shown_nil; [exact I|exact Fx|exact V|reflexivity]. }
  assert (A0 : after (eq ptr) (eq ptr) E C (B ++ S) s C1 s1 X).
  { destruct A as (F' & A). split.
    - eapply (frm_comp by_ 0 _ _ s s s1); [apply frm_refl|exact F'|]. intros l H _. symmetry. auto.
    - destruct A as (A1 & A3 & (Y' & T' & N') & A4). split; [exact A1|]. split; [intros l Hl; destruct (A3 l Hl) as [?|[[]|?]]; auto|].
      split; [|exact A4]. exists Y'. split; [exact T'|]. intros l Hl. destruct (N' l Hl) as [[]|?]. auto. }
  exists s2, v, (fun l => C1 l \/ l = ptr). split; [exact Em|].
  split; [change X with ([] ++ X); eapply after_trans; eauto|].
  split; [now right|]. split; [apply set_same; lia|]. eapply after_sh; [exact A2|exact V].
Qed.

(** an item behind a new cell to which ptr already points for good *)
Lemma rec_under E m p x y p' X f ptr B S C s (mk : loc -> gval) : Pitem E m p x p' X -> finex false [] S x ->
  mode_ok m s -> need by_ p (d_copy s) <= f -> ready E C B S ptr y s -> (forall l, mk l <> GNil) ->
  (forall (C : loc -> Prop) s l v, C l -> nth_error (d_heap s) l = Some (CV v) -> sh C s v x -> sh C s (mk l) y) ->
  decoded (let! l := alloc (CV GNil) in (set_var ptr (mk l) ;; dec f p l)) ptr E C S s y p' X.
Proof.
  intros (P1 & P2 & PI) Fx Hm Hf (Rz & Rn & Rc & Ri & Rw & Ro) Hk Hy.
  pose proof (nil_lt _ _ Rn) as Lp. pose proof Ri as (I1 & I2 & I3 & I4 & I5 & I6).
  set (s1 := with_heap s (d_heap s ++ [CV GNil])).
  set (s2 := with_heap s1 (upd (d_heap s1) ptr (CV (mk (hl s))))).
  assert (F1 : frm (eq ptr) s s2).
  { eapply (frm_comp by_ 0); [apply (frm_alloc by_ 0)|apply (frm_set by_)|auto]. }
  assert (L1 : hl s1 = Datatypes.S (hl s)) by (unfold s1; cbn; rewrite app_length; cbn; lia).
  assert (L2 : hl s2 = Datatypes.S (hl s)) by (unfold s2; cbn [d_heap with_heap]; rewrite upd_length; exact L1).
  assert (Hp : nth_error (d_heap s2) ptr = Some (CV (mk (hl s)))) by (apply set_same; lia).
  assert (A1 : after (eq ptr) (eq ptr) E C S s (fun l => C l \/ l = ptr) s2 []).
  { apply (settle E C B S s s2 ptr (mk (hl s))); auto. intros H. now apply Hk in H. }
  destruct (PI f (hl s) [] S (fun l => C l \/ l = ptr) s2) as (s3 & v & C' & R & A & Cp & Hv & V); auto.
  { split; [intros _ i []|]. split.
    { unfold nilcell, s2. cbn [d_heap with_heap]. rewrite nth_error_upd_other by lia.
      unfold s1. cbn. rewrite nth_error_app2, Nat.sub_diag by lia. reflexivity. }
    split; [intros [Hc|Hc]; [specialize (I3 _ Hc)|]; lia|]. destruct A1 as (_ & _ & _ & _ & A1 & A2). split; [exact A1|].
    split; [|exact A2]. intros i. split; [intros []|]. intros H. apply (I5 i) in H. lia. }
  exists s3, (mk (hl s)), C'. split; [eapply runs_bind; [reflexivity|]; eapply runs_bind; [reflexivity|exact R]|].
  assert (A3 : after (eq ptr) (eq ptr) E C S s C' s3 X).
  { rewrite <- (app_nil_r X). eapply after_trans; [exact A1|exact A|intros; lia|intros; lia]. }
  split; [exact A3|]. destruct A as (F & K & _). split; [apply (K ptr); now right|].
  split; [rewrite (proj2 (K ptr ltac:(now right))); exact Hp|]. eapply Hy; eauto.
Qed.

(** the same when the value of ptr is not final *)
Lemma rec_temp E m p x p' X f ptr C O s (mk : loc -> gval) : Pitem E m p x p' X -> finex false [] O x ->
  mode_ok m s -> need by_ p (d_copy s) <= f -> ptr < hl s -> ~ C ptr -> inv E C s -> opened C s O ->
  exists s' v C', runs (let! l := alloc (CV GNil) in (set_var ptr (mk l) ;; dec f p l)) s p' s' /\
    after (eq ptr) (fun _ => False) E C O s C' s' X /\ C' (hl s) /\
    nth_error (d_heap s') (hl s) = Some (CV v) /\ sh C' s' v x.
Proof.
  intros (P1 & P2 & PI) Fx Hm Hf Lp Nc Ri Ro. pose proof Ri as (I1 & I2 & I3 & I4 & I5 & I6).
  set (s1 := with_heap s (d_heap s ++ [CV GNil])).
  set (s2 := with_heap s1 (upd (d_heap s1) ptr (CV (mk (hl s))))).
  assert (F1 : frm (eq ptr) s s2).
  { eapply (frm_comp by_ 0); [apply (frm_alloc by_ 0)|apply (frm_set by_)|auto]. }
  assert (L1 : hl s1 = S (hl s)) by (unfold s1; cbn; rewrite app_length; cbn; lia).
  assert (L2 : hl s2 = S (hl s)) by (unfold s2; cbn [d_heap with_heap]; rewrite upd_length; exact L1).
  assert (A1 : after (eq ptr) (fun _ => False) E C O s C s2 []).
  { apply after_same; auto. intros l H <-. contradiction. }
  destruct (PI f (hl s) [] O C s2) as (s3 & v & C' & R & A & Cp & Hv & V); auto.
  { split; [intros _ i []|]. split.
    { unfold nilcell, s2. cbn [d_heap with_heap]. rewrite nth_error_upd_other by lia.
      unfold s1. cbn. rewrite nth_error_app2, Nat.sub_diag by lia. reflexivity. }
    split; [intros Hc; specialize (I3 _ Hc); lia|]. destruct A1 as (_ & _ & _ & _ & A1 & A2). split; [exact A1|].
    split; [|exact A2]. intros i. split; [intros []|]. intros H. apply (I5 i) in H. lia. }
  exists s3, v, C'. split; [eapply runs_bind; [reflexivity|]; eapply runs_bind; [reflexivity|exact R]|].
  split; [|auto]. rewrite <- (app_nil_r X). eapply after_trans; [exact A1|exact A|intros; lia|intros; lia].
Qed.

(** a new cell at the end *)
Lemma alloc_after (Wf Wc : loc -> Prop) E C O s C1 s1 X w : after Wf Wc E C O s C1 s1 X ->
  after Wf Wc E C O s (fun l => C1 l \/ l = hl s1) (with_heap s1 (d_heap s1 ++ [CV w])) X.
Proof.
  intros A. pose proof A as (F & K & D & (Y & T & N) & I & O1). pose proof I as (I1 & I2 & I3 & I4 & I5 & I6).
  set (s2 := with_heap s1 (d_heap s1 ++ [CV w])).
  assert (L2 : hl s2 = S (hl s1)) by (unfold s2; cbn; rewrite app_length; cbn; lia).
  assert (A1 : after (fun _ => False) (fun _ => False) (X ++ E) C1 O s1 C1 s2 []).
  { apply after_same; auto. apply (frm_alloc by_ 0). }
  pose proof (frm_len _ _ _ F) as Lf.
  assert (A2 : after Wf Wc E C O s C1 s2 X).
  { change X with ([] ++ X). eapply after_trans; [exact A|exact A1|intros; contradiction|intros; contradiction]. }
  apply (after_more _ _ _ _ _ _ _ _ _ (fun l => l = hl s1)); auto.
  - intros l ->. right. exact Lf.
  - intros l ->. lia.
  - intros i l H ->. apply I5 in H. lia.
Qed.

Lemma not_nil_perl E C s v x t B S : d_perl c = true -> inv E C s -> finex t B S x -> sh C s v x -> ~ nilx x -> v <> GNil.
Proof. intros _ I Fx V N ->. apply N. eapply shown_nil; eauto. Qed.

(** with PerlCompat a REFN needs a value *)
Lemma Ptag_refn E m q x p' X : (d_perl c = true -> forall i, ~ Z i) -> Pitem E m (S q) x p' X -> Ptag E m q 40 (NRef x) p' X.
Proof.
  intros Zp PP. pose proof PP as (P1 & P2 & PI). split; [lia|split; [exact P2|]].
  intros f ptr B S0 C s trk Fx Hm Hf Hf0 Rd. change (tag_kind 40) with TRefn. cbn [decode_tag].
  pose proof Rd as (Rz & Rn & Rc & Ri & Rw & Ro). pose proof (nil_lt _ _ Rn) as Lp.
  destruct (d_perl c) eqn:Pl.
  - cbn [fine_node] in Fx; try rewrite Pl in Fx. destruct trk.
    + destruct (rec_under E m (S q) x (NRef x) p' X f ptr B S0 C s (GPtr true)) as (s' & v & C' & R & H); auto; try (intros; discriminate).
      { now rewrite Pl. }
      { intros C1 s1 l v Cl Hl V. eapply sh_ref_perl; eauto. }
      exists s', v, C'. split; [|exact H]. unfold runs in *.
      rewrite (under_bind _ _ _ (fun l => dec f (S q) l) (fun idx l => ret idx) _ _ _ R). reflexivity.
    + destruct (rec_temp E m (S q) x p' X f ptr C (B ++ S0) s (GPtr true)) as (s' & v & C' & R & A & Cl & Hl & V); auto.
      { now rewrite Pl. }
      assert (Np : v <> GNil).
      { intros ->. assert (Nx : nilx x).
        { eapply shown_nil; [apply A|rewrite Pl; exact Fx|exact V|reflexivity]. }
        revert Nx. clear - Zp Pl. rewrite Pl. induction x; cbn [nil_node]; try tauto; try (intros [Q _]; discriminate).
        apply Zp. reflexivity. }
      eapply (write_last _ ptr E C B S0 s (fun l => C' l \/ l = hl s') (with_heap s' (d_heap s' ++ [CV v]))
        (GPtr false (hl s')) _ _ _ (eq ptr)); [exact Rd|right; discriminate|auto|apply alloc_after; exact A| |].
      * eapply sh_ref_perl; [exact Pl|now right| |].
        -- cbn. rewrite nth_error_app2, Nat.sub_diag by lia. reflexivity.
        -- eapply (after_sh _ _ _ _ (B ++ S0) s'); [|exact V].
           eapply (alloc_after (fun _ => False) (fun _ => False) (X ++ E) C' (B ++ S0) s' C' s' []).
           apply after_same; auto; [apply A|apply A|apply frm_refl].
      * rewrite (under_bind _ _ _ _ _ _ _ _ R). unfold mbind at 1. cbn [get_var].
        rewrite (hget_cell _ _ _ Hl). destruct v; try contradiction; reflexivity.
  - cbn [fine_node] in Fx; try rewrite Pl in Fx.
    destruct (PI f ptr B S0 C s) as (s' & v & C' & R & A & Cp & Hv & V); auto.
    { split; [|tauto]. intros Nx. apply Rz. cbn [nil_node]. rewrite Pl in Nx. auto. }
    exists s', v, C'. repeat (split; [assumption|]). now apply sh_ref.
Qed.

Lemma Ptag_weaken E m q x p' X : Pitem E m (S q) x p' X -> Ptag E m q 48 (NWeak x) p' X.
Proof.
  intros PP. pose proof PP as (P1 & P2 & PI). split; [lia|split; [exact P2|]].
  intros f ptr B S0 C s trk Fx Hm Hf Hf0 Rd. change (tag_kind 48) with TWeaken. cbn [decode_tag].
  pose proof Rd as (Rz & Rn & Rc & Ri & Rw & Ro).
  destruct (d_perl c) eqn:Pl; cbn [fine_node] in Fx; try rewrite Pl in Fx.
  - apply (rec_under E m (S q) x (NWeak x) p' X f ptr B S0 C s GWeakP); auto; try (intros; discriminate).
    { now rewrite Pl. }
    intros C1 s1 l v Cl Hl V. eapply sh_weak_perl; eauto.
  - destruct (PI f ptr B S0 C s) as (s' & v & C' & R & A & Cp & Hv & V); auto.
    { split; [|tauto]. intros Nx. apply Rz. cbn [nil_node]. rewrite Pl in Nx. auto. }
    exists s', v, C'. repeat (split; [assumption|]). now apply sh_weak.
Qed.

Lemma fine_arr t B S xs : finex t B S (NArr xs) -> forall x, In x xs -> finex false [] S x.
Proof.
  cbn [fine_node]. induction xs as [|y xs IH]; intros H x I; [destruct I|]. destruct I as [<-|I]; [apply H|]. apply IH; [apply H|exact I].
Qed.
Lemma fine_hash t B S kxs : finex t B S (NHash kxs) -> forall k x, In (k, x) kxs -> finex false [] S x.
Proof.
  cbn [fine_node]. induction kxs as [|[k' y] kxs IH]; intros H k x I; [destruct I|]. destruct I as [Q|I]; [|eapply IH; [apply H|exact I]].
  injection Q as -> ->. apply H.
Qed.

(** ** Containers *)
Lemma array_decoded E m p xs p' X f ptr B S0 C s (isRef : bool) :
  Pitems E m p xs p' X -> p <= len -> (Z.of_nat (length xs) <= 2147483647)%Z ->
  (forall x, In x xs -> finex false [] S0 x) ->
  mode_ok m s -> need by_ p (d_copy s) <= f ->
  ready E C B S0 ptr (if isRef then NRef (NArr xs) else NArr xs) s ->
  (isRef = true -> d_perl c = true) ->
  decoded (decodeArray by_ (dec f) p (Z.of_nat (length xs)) ptr isRef)
          ptr E C S0 s (if isRef then NRef (NArr xs) else NArr xs) p' X.
Proof.
  intros (P1 & P2 & PI) Hp Hl Fx Hm Hf (Rz & Rn & Rc & Ri & Rw & Ro) Hr. specialize (P2 Hp).
  pose proof (nil_lt _ _ Rn) as Lp. pose proof Ri as (I1 & I2 & I3 & I4 & I5 & I6).
  set (n := length xs) in *.
  set (s0 := mkDState (d_heap s) (d_tracked s) (d_copy s) ((n, len - p) :: d_made s)).
  set (base := hl s).
  assert (Eb : base = hl s) by reflexivity.
  set (s1 := with_heap s0 (d_heap s0 ++ repeat (CV GNil) (Nat.max 1 n))).
  assert (L1 : hl s1 = base + Nat.max 1 n).
  { unfold s1. cbn. rewrite app_length, repeat_length. reflexivity. }
  assert (F1 : frm (eq ptr) s s1) by (apply (frm_alloc by_ 0 (eq ptr) s0)).
  assert (N1 : forall i, i < n -> nilcell s1 (base + i)).
  { intros i H. apply (nil_repeat by_ s0 _ n); lia. }
  assert (Pre : exists s2 v, frm (eq ptr) s1 s2 /\ hl s1 <= hl s2 /\
     d_tracked s2 = d_tracked s1 /\
     nth_error (d_heap s2) ptr = Some (CV v) /\ v <> GNil /\
     runs ((if isRef then let! q := alloc (CV (GSlice base n)) in set_var ptr (GPtr false q)
            else set_var ptr (GSlice base n))) s1 tt s2 /\
     (if isRef then v = GPtr false (base + Nat.max 1 n) /\
                    nth_error (d_heap s2) (base + Nat.max 1 n) = Some (CV (GSlice base n))
      else v = GSlice base n)).
  { destruct isRef.
    - set (s2 := with_heap (with_heap s1 (d_heap s1 ++ [CV (GSlice base n)]))
                   (upd (d_heap s1 ++ [CV (GSlice base n)]) ptr (CV (GPtr false (hl s1))))).
      exists s2, (GPtr false (hl s1)).
      assert (F : frm (eq ptr) s1 s2).
      { eapply (frm_comp by_ 0); [apply (frm_alloc by_ 0 _ s1 [CV (GSlice base n)])|apply (frm_set by_)|auto]. }
      split; [exact F|]. split; [apply (frm_len _ _ _ F)|]. split; [reflexivity|]. split; [|split; [discriminate|]].
      + unfold s2. cbn [d_heap with_heap]. apply nth_error_upd_same. rewrite app_length. lia.
      + split; [reflexivity|]. rewrite L1. split; [reflexivity|].
        unfold s2. cbn [d_heap with_heap]. rewrite nth_error_upd_other by lia.
        rewrite nth_error_app2 by lia.
        replace (base + Nat.max 1 n - hl s1) with 0 by lia. reflexivity.
    - set (s2 := with_heap s1 (upd (d_heap s1) ptr (CV (GSlice base n)))).
      exists s2, (GSlice base n).
      assert (F : frm (eq ptr) s1 s2) by apply (frm_set by_).
      split; [exact F|]. split; [apply (frm_len _ _ _ F)|]. split; [reflexivity|]. split; [|split; [discriminate|]].
      + apply set_same. lia.
      + split; reflexivity. }
  destruct Pre as (s2 & v & F2 & L2 & T2 & C2 & Nv & R2 & V2).
  assert (F02 : frm (eq ptr) s s2) by (eapply (frm_comp by_ 0); eauto).
  assert (A02 : after (eq ptr) (eq ptr) E C S0 s (fun l => C l \/ l = ptr) s2 []).
  { apply (settle E C B S0 s s2 ptr v); auto. intros H. contradiction. }
  pose proof A02 as (_ & _ & _ & _ & I02 & O02).
  destruct (PI f base S0 (fun l => C l \/ l = ptr) s2) as (s3 & C3 & R3 & A3 & RP); auto.
  - eapply mode_frm; eauto.
  - rewrite (frm_copy _ _ _ F02). exact Hf.
  - intros i H. split; [eapply frm_cell; [exact F2|now apply N1|lia]|]. split.
    + intros [Hc|Hc]; [specialize (I3 _ Hc)|]; lia.
    + intros j Hj. rewrite T2 in Hj. apply I5 in Hj. lia.
  - assert (A03 : after (eq ptr) (eq ptr) E C S0 s C3 s3 X).
    { rewrite <- (app_nil_r X). eapply after_trans; [exact A02|exact A3| |]; cbn beta; intros l H H'; exfalso; (lia || destruct H). }
    destruct A3 as (F3 & K3 & D3 & (Y3 & T3 & N3) & I3' & O3).
    pose proof (frm_len _ _ _ F3) as L3.
    destruct (K3 ptr ltac:(now right)) as [Cp3 Hp3]. rewrite C2 in Hp3.
    destruct isRef.
    + destruct V2 as [-> V2]. pose proof (nth_error_Some_lt _ _ _ _ V2) as Lq.
      assert (A4 := after_more _ _ _ _ _ _ _ _ _ (fun l => l = base + Nat.max 1 n) A03
        ltac:(intros l ->; right; lia) ltac:(intros l ->; lia)
        ltac:(intros i l H ->; exfalso; rewrite T3 in H; apply nth_of_inv in H as [H|H];
              [rewrite T2 in H; apply I5 in H; lia|apply N3 in H; lia])).
      exists s3, (GPtr false (base + Nat.max 1 n)), (fun l => C3 l \/ l = base + Nat.max 1 n).
      split; [|split; [exact A4|split; [now left|split; [exact Hp3|]]]].
      * unfold decodeArray, blen, maxInt32.
        destruct ((Z.of_nat n <? 0) || (2147483647 <? Z.of_nat n))%Z eqn:Bd; [lia|].
        destruct (Z.of_nat len <? Z.of_nat p + Z.of_nat n)%Z eqn:B2; [lia|].
        rewrite Nat2Z.id.
        eapply runs_bind; [reflexivity|]. fold s0.
        eapply runs_bind; [reflexivity|]. fold s1.
        eapply runs_bind; [exact R2|]. exact R3.
      * eapply sh_ref_perl; [auto|now right| |].
        -- eapply frm_cell; [exact F3|exact V2|]. cbn beta. lia.
        -- apply sh_arr; [reflexivity|].
           eapply (shown_stable _ _ _ C3 _ (d_heap s3) (d_heap s3)); [| |exact RP]; [auto|].
           intros i w (l & Hi & Cl & Hw). exists l. auto.
    + subst v. exists s3, (GSlice base n), C3.
      split; [|split; [exact A03|split; [exact Cp3|split; [exact Hp3|]]]].
      * unfold decodeArray, blen, maxInt32.
        destruct ((Z.of_nat n <? 0) || (2147483647 <? Z.of_nat n))%Z eqn:Bd; [lia|].
        destruct (Z.of_nat len <? Z.of_nat p + Z.of_nat n)%Z eqn:B2; [lia|].
        rewrite Nat2Z.id.
        eapply runs_bind; [reflexivity|]. fold s0.
        eapply runs_bind; [reflexivity|]. fold s1.
        eapply runs_bind; [exact R2|]. exact R3.
      * apply sh_arr; [reflexivity|exact RP].
Qed.

Lemma hash_decoded E m p kxs p' X f ptr B S0 C s (isRef : bool) :
  Ppairs E m p kxs p' X -> p <= len -> (Z.of_nat (length kxs) <= 2147483647)%Z ->
  (forall k x, In (k, x) kxs -> finex false [] S0 x) ->
  mode_ok m s -> need by_ p (d_copy s) <= f ->
  ready E C B S0 ptr (if isRef then NRef (NHash kxs) else NHash kxs) s ->
  (isRef = true -> d_perl c = true) ->
  decoded (decodeHash by_ (dec f) p (Z.of_nat (length kxs)) ptr isRef)
          ptr E C S0 s (if isRef then NRef (NHash kxs) else NHash kxs) p' X.
Proof.
  intros (P1 & P2 & PI) Hp Hl Fx Hm Hf (Rz & Rn & Rc & Ri & Rw & Ro) Hr. specialize (P2 Hp).
  pose proof (nil_lt _ _ Rn) as Lp. pose proof Ri as (I1 & I2 & I3 & I4 & I5 & I6).
  set (n := length kxs) in *.
  set (s0 := mkDState (d_heap s) (d_tracked s) (d_copy s) ((n, len - p) :: d_made s)).
  set (ml := hl s).
  assert (Eb : ml = hl s) by reflexivity.
  set (s1 := with_heap s0 (d_heap s0 ++ [CMap []])).
  assert (L1 : hl s1 = ml + 1).
  { unfold s1. cbn. rewrite app_length. reflexivity. }
  assert (F1 : frm (eq ptr) s s1) by (apply (frm_alloc by_ 0 (eq ptr) s0)).
  assert (N1 : nth_error (d_heap s1) ml = Some (CMap [])).
  { unfold s1, ml. cbn. rewrite nth_error_app2, Nat.sub_diag by lia. reflexivity. }
  assert (Pre : exists s2 v, frm (eq ptr) s1 s2 /\ d_tracked s2 = d_tracked s1 /\
     nth_error (d_heap s2) ptr = Some (CV v) /\ v <> GNil /\
     runs ((if isRef then let! q := alloc (CV (GMap ml)) in set_var ptr (GPtr false q)
            else set_var ptr (GMap ml))) s1 tt s2 /\
     (if isRef then v = GPtr false (ml + 1) /\
                    nth_error (d_heap s2) (ml + 1) = Some (CV (GMap ml))
      else v = GMap ml)).
  { destruct isRef.
    - set (s2 := with_heap (with_heap s1 (d_heap s1 ++ [CV (GMap ml)]))
                   (upd (d_heap s1 ++ [CV (GMap ml)]) ptr (CV (GPtr false (hl s1))))).
      exists s2, (GPtr false (hl s1)).
      assert (F : frm (eq ptr) s1 s2).
      { eapply (frm_comp by_ 0); [apply (frm_alloc by_ 0 _ s1 [CV (GMap ml)])|apply (frm_set by_)|auto]. }
      split; [exact F|]. split; [reflexivity|]. split; [|split; [discriminate|]].
      + unfold s2. cbn [d_heap with_heap]. apply nth_error_upd_same. rewrite app_length. lia.
      + split; [reflexivity|]. rewrite L1. split; [reflexivity|].
        unfold s2. cbn [d_heap with_heap]. rewrite nth_error_upd_other by lia.
        rewrite nth_error_app2 by lia.
        replace (ml + 1 - hl s1) with 0 by lia. reflexivity.
    - set (s2 := with_heap s1 (upd (d_heap s1) ptr (CV (GMap ml)))).
      exists s2, (GMap ml).
      assert (F : frm (eq ptr) s1 s2) by apply (frm_set by_).
      split; [exact F|]. split; [reflexivity|]. split; [|split; [discriminate|]].
      + apply set_same. lia.
      + split; reflexivity. }
  destruct Pre as (s2 & v & F2 & T2 & C2 & Nv & R2 & V2).
  assert (F02 : frm (eq ptr) s s2) by (eapply (frm_comp by_ 0); eauto).
  pose proof (frm_len _ _ _ F2) as L2.
  assert (A02 : after (eq ptr) (eq ptr) E C S0 s (fun l => C l \/ l = ptr) s2 []).
  { apply (settle E C B S0 s s2 ptr v); auto. intros H. contradiction. }
  pose proof A02 as (_ & _ & _ & _ & I02 & O02).
  destruct (PI f ml S0 (fun l => C l \/ l = ptr) s2 [] []) as (s3 & m1 & C3 & R3 & A3 & Cm & RP); auto.
  - eapply mode_frm; eauto.
  - rewrite (frm_copy _ _ _ F02). exact Hf.
  - intros [Hc|Hc]; [specialize (I3 _ Hc)|]; lia.
  - eapply frm_cell; [exact F2|exact N1|lia].
  - constructor.
  - cbn [app] in RP.
    assert (A03 : after (eq ptr) (eq ptr) E C S0 s C3 s3 X).
    { rewrite <- (app_nil_r X). eapply after_trans; [exact A02|exact A3| |]; cbn beta; intros l H H'; exfalso; (lia || destruct H). }
    destruct A3 as (F3 & K3 & D3 & (Y3 & T3 & N3) & I3' & O3).
    pose proof (frm_len _ _ _ F3) as L3.
    destruct (K3 ptr ltac:(now right)) as [Cp3 Hp3]. rewrite C2 in Hp3.
    set (D := fun l : loc => l = ml \/ (isRef = true /\ l = ml + 1)).
    assert (HD : forall l, D l -> ml <= l < hl s3 /\ l < hl s2).
    { intros l [->|[Er ->]]; [lia|]. rewrite Er in V2. destruct V2 as [_ V2].
      apply nth_error_Some_lt in V2. lia. }
    assert (A4 := after_more _ _ _ _ _ _ _ _ _ D A03
        ltac:(intros l Hd; right; apply HD in Hd; lia) ltac:(intros l Hd; apply HD in Hd; lia)
        ltac:(intros i l H Hd; exfalso; apply HD in Hd; rewrite T3 in H; apply nth_of_inv in H as [H|H];
              [rewrite T2 in H; apply I5 in H; lia|apply N3 in H as [[]|H]; lia])).
    exists s3, v, (fun l => C3 l \/ D l). split; [|split; [exact A4|split; [now left|split; [exact Hp3|]]]].
    + unfold decodeHash, blen, maxInt32.
      destruct ((Z.of_nat n <? 0) || (2147483647 <? Z.of_nat n))%Z eqn:Bd; [lia|].
      destruct (Z.of_nat len <? Z.of_nat p + 2 * Z.of_nat n)%Z eqn:B2; [lia|].
      rewrite Nat2Z.id.
      eapply runs_bind; [reflexivity|]. fold s0.
      eapply runs_bind; [reflexivity|]. fold s1.
      eapply runs_bind; [exact R2|]. exact R3.
    + assert (RPa : sh (fun l => C3 l \/ D l) s3 (GMap ml) (NHash kxs)).
      { eapply sh_hash; [right; now left|exact Cm|].
        eapply (shown_stable _ _ _ C3 _ (d_heap s3) (d_heap s3)); [| |exact RP]; [auto|].
        intros i w (l & Hi & Cl & Hw). exists l. auto. }
      destruct isRef.
      * destruct V2 as [-> V2]. eapply sh_ref_perl; [auto| | |exact RPa].
        -- right; right; auto.
        -- eapply frm_cell; [exact F3|exact V2|]. cbn beta. lia.
      * subst v. exact RPa.
Qed.

Lemma Ptag_array E m q n r xs p' X : vint by_ (S q) n r ->
  (n <= 2147483647)%N -> N.of_nat (length xs) = n -> Pitems E m r xs p' X -> Ptag E m q 43 (NArr xs) p' X.
Proof.
  intros Hv Hn En PP. pose proof PP as (P1 & P2 & _).
  destruct (vint_at _ Hlen _ _ _ (mkDState [] [] 0 []) Hv) as (_ & L1 & L2 & L3). specialize (P2 L2).
  split; [lia|split; [exact P2|]].
  intros f ptr B S0 C s trk Fx Hm Hf Hf0 Rd. change (tag_kind 43) with TArray. cbn [decode_tag].
  destruct (vint_at _ Hlen _ _ _ s Hv) as (V & _).
  eapply decoded_bind; [exact V|]. cbn [fst snd].
  replace (S q + (r - S q)) with r by lia.
  rewrite to_int_small by (unfold two63; lia).
  replace (Z.of_N n) with (Z.of_nat (length xs)) by lia.
  apply (array_decoded E m r xs p' X f ptr B S0 C s false); auto; try lia; try discriminate.
  - eapply fine_arr; eauto.
  - eapply need_mono; eauto. lia.
Qed.

Lemma Ptag_hash E m q n r kxs p' X : vint by_ (S q) n r ->
  (n <= 2147483647)%N -> N.of_nat (length kxs) = n -> Ppairs E m r kxs p' X -> Ptag E m q 42 (NHash kxs) p' X.
Proof.
  intros Hv Hn En PP. pose proof PP as (P1 & P2 & _).
  destruct (vint_at _ Hlen _ _ _ (mkDState [] [] 0 []) Hv) as (_ & L1 & L2 & L3). specialize (P2 L2).
  split; [lia|split; [exact P2|]].
  intros f ptr B S0 C s trk Fx Hm Hf Hf0 Rd. change (tag_kind 42) with THash. cbn [decode_tag].
  destruct (vint_at _ Hlen _ _ _ s Hv) as (V & _).
  eapply decoded_bind; [exact V|]. cbn [fst snd].
  replace (S q + (r - S q)) with r by lia.
  rewrite to_int_small by (unfold two63; lia).
  replace (Z.of_N n) with (Z.of_nat (length kxs)) by lia.
  apply (hash_decoded E m r kxs p' X f ptr B S0 C s false); auto; try lia; try discriminate.
  - eapply fine_hash; eauto.
  - eapply need_mono; eauto. lia.
Qed.

(** in the default mode a reference is what it refers to *)
Lemma ready_ref E C B S ptr x s : d_perl c = false -> ready E C B S ptr (NRef x) s -> ready E C B S ptr x s.
Proof. intros Pl (Rz & R). split; [|exact R]. intros Nx. apply Rz. cbn [nil_node]. auto. Qed.
Lemma decoded_ref m ptr E C S s x p' X : d_perl c = false -> decoded m ptr E C S s x p' X ->
  decoded m ptr E C S s (NRef x) p' X.
Proof.
  intros Pl (s' & v & C' & R & A & Cp & Hv & V). exists s', v, C'.
  split; [exact R|]. split; [exact A|]. split; [exact Cp|]. split; [exact Hv|]. now apply sh_ref.
Qed.

(** the same in the Perl-compatible mode *)
Lemma fine_ref_perl t B S x : d_perl c = true -> finex t B S (NRef x) -> finex false [] S x.
Proof.
  intros Pl. cbn [fine_node]. rewrite Pl. apply fine_fewer; [apply incl_refl|].
  destruct t; [apply incl_refl|apply incl_appr, incl_refl].
Qed.
Lemma fine_ref t B S x : d_perl c = false -> finex t B S (NRef x) -> finex false B S x.
Proof. intros Pl. cbn [fine_node]. now rewrite Pl. Qed.

Lemma Ptag_arrayref E m q t xs p' X : tag_at by_ q q t -> (64 <= t < 80)%N ->
  N.of_nat (length xs) = (t - 64)%N -> Pitems E m (S q) xs p' X -> Ptag E m q t (NRef (NArr xs)) p' X.
Proof.
  intros Ht Hr En PP. pose proof PP as (P1 & P2 & _).
  destruct (tag_skip _ _ _ _ Ht) as (b & _ & _ & L3 & L4 & _).
  specialize (P2 L4). split; [lia|split; [exact P2|]].
  intros f ptr B S0 C s trk Fx Hm Hf Hf0 Rd. rewrite (tk_arrayref by_) by assumption. cbn [decode_tag].
  replace (N.to_nat (t - 64)) with (length xs) by lia.
  assert (Dc : d_perl c = true \/ d_perl c = false) by (destruct (d_perl c); auto). destruct Dc as [Pl|Pl]; rewrite Pl.
  - apply (array_decoded E m (S q) xs p' X f ptr B S0 C s true); auto; try lia.
    eapply fine_arr, fine_ref_perl; eauto.
  - apply decoded_ref; [exact Pl|].
    apply (array_decoded E m (S q) xs p' X f ptr B S0 C s false); auto; try lia; try discriminate.
    + eapply fine_arr, fine_ref; eauto.
    + now apply ready_ref.
Qed.

Lemma Ptag_hashref E m q t kxs p' X : tag_at by_ q q t -> (80 <= t < 96)%N ->
  N.of_nat (length kxs) = (t - 80)%N -> Ppairs E m (S q) kxs p' X -> Ptag E m q t (NRef (NHash kxs)) p' X.
Proof.
  intros Ht Hr En PP. pose proof PP as (P1 & P2 & _).
  destruct (tag_skip _ _ _ _ Ht) as (b & _ & _ & L3 & L4 & _).
  specialize (P2 L4). split; [lia|split; [exact P2|]].
  intros f ptr B S0 C s trk Fx Hm Hf Hf0 Rd. rewrite (tk_hashref by_) by assumption. cbn [decode_tag].
  replace (N.to_nat (t - 80)) with (length kxs) by lia.
  assert (Dc : d_perl c = true \/ d_perl c = false) by (destruct (d_perl c); auto). destruct Dc as [Pl|Pl]; rewrite Pl.
  - apply (hash_decoded E m (S q) kxs p' X f ptr B S0 C s true); auto; try lia.
    eapply fine_hash, fine_ref_perl; eauto.
  - apply decoded_ref; [exact Pl|].
    apply (hash_decoded E m (S q) kxs p' X f ptr B S0 C s false); auto; try lia; try discriminate.
    + eapply fine_hash, fine_ref; eauto.
    + now apply ready_ref.
Qed.

Lemma Pitems_nil E m p : Pitems E m p [] p [].
Proof.
  split; [cbn; lia|split; [auto|]]. intros f base S0 C s _ Hm Hf Hi Ho Hn.
  exists s, C. split; [reflexivity|]. split; [|constructor].
  apply after_same; auto; [apply frm_refl|]. cbn. intros; lia.
Qed.

Lemma Pitems_cons E m p x r X xs p' Y : Pitem E m p x r X -> Pitems (X ++ E) m r xs p' Y ->
  Pitems E m p (x :: xs) p' (Y ++ X).
Proof.
  intros (P1 & P2 & PI) (Q1 & Q2 & QI). specialize (Q2 P2).
  split; [cbn; lia|split; [auto|]]. intros f base S0 C s Fx Hm Hf Hi Ho Hn.
  assert (Hn0 : nilcell s base /\ ~ C base /\ forall j, tl s j <> Some base) by (rewrite <- (Nat.add_0_r base); apply Hn; cbn; lia).
  destruct Hn0 as (Hn0 & Nc0 & Nt0).
  destruct (PI f base [] S0 C s) as (s1 & v & C1 & R1 & A1 & Cp1 & H1 & V1); auto.
  { apply Fx. now left. }
  { split; [intros _ i []|]. split; [exact Hn0|]. split; [exact Nc0|]. split; [exact Hi|]. split; [|exact Ho].
    intros i. split; [intros []|]. intros H. now apply Nt0 in H. }
  assert (Lall : forall i, i < length xs -> S base + i < hl s).
  { intros i Hi'. replace (S base + i) with (base + S i) by lia. apply nil_lt, Hn. cbn. lia. }
  pose proof A1 as (F1 & K1 & D1 & (Y1 & T1 & N1) & I1 & O1).
  destruct (QI f (S base) S0 C1 s1) as (s2 & C2 & R2 & A2 & V2); auto.
  - intros y Hy. apply Fx. now right.
  - eapply mode_frm; eauto.
  - rewrite (frm_copy _ _ _ F1). eapply need_mono; eauto. lia.
  - intros i Hi'. destruct (Hn (S i)) as (B1 & B2 & B3); [cbn; lia|]. replace (S base + i) with (base + S i) by lia.
    specialize (Lall _ Hi').
    split; [eapply frm_cell; [exact F1|exact B1|lia]|]. split.
    + intros Hc. destruct (D1 _ Hc) as [?|[?|?]]; [contradiction|lia|lia].
    + intros j Hj. rewrite T1 in Hj. apply nth_of_inv in Hj as [Hj|Hj]; [now apply B3 in Hj|].
      apply N1 in Hj. lia.
  - pose proof (nil_lt _ _ Hn0) as Lb. exists s2, C2. split; [cbn [length array_loop]; eapply runs_bind; eauto|].
    split.
    + eapply after_trans.
      * destruct A1 as (_ & _ & D & (Y' & T' & N') & I' & O').
        split; [|split; [exact K1|split; [|split; [|split; [exact I'|exact O']]]]].
        -- eapply (frm_comp by_ 0) with (W1 := fun l => base <= l < base + length (x :: xs));
             [apply frm_refl|exact F1|]. intros l <- _. cbn. lia.
        -- intros l Hl. destruct (D l Hl) as [?|[<-|?]]; [auto| |auto]. right; left. cbn [length]. lia.
        -- exists Y'. split; [exact T'|]. intros l Hl. destruct (N' l Hl) as [<-|?]; [|auto]. left. cbn [length]. lia.
      * exact A2.
      * cbn. intros l H _. lia.
      * cbn. intros l H _. lia.
    + destruct (proj1 (proj2 A2) base Cp1) as [Cb Eb]. econstructor.
      * exact Cb.
      * rewrite Eb. exact H1.
      * eapply after_sh; [exact A2|exact V1].
      * exact V2.
Qed.

Lemma Ppairs_nil E m p : Ppairs E m p [] p [].
Proof.
  split; [cbn; lia|split; [auto|]]. intros f ml S0 C s m0 kxs0 _ Hm Hf Hi Ho Hml Cm V.
  exists s, m0, C. split; [reflexivity|]. split; [|rewrite app_nil_r; auto].
  apply after_same; auto; [apply frm_refl|]. intros l H <-. contradiction.
Qed.

Lemma Ppairs_cons E m p k r x r' X kxs p' Y :
  stringish g by_ (copy_ok m) p k r -> Pitem E m r x r' X -> Ppairs (X ++ E) m r' kxs p' Y ->
  Ppairs E m p ((k, x) :: kxs) p' (Y ++ X).
Proof.
  intros Hk PP (Q1 & Q2 & QI). pose proof PP as (P1 & P2 & PI). specialize (Q2 P2).
  destruct (stringish_runs c by_ start Hlen _ _ _ _ (mkDState [] [] 0 []) Hk) as (_ & _ & _ & _ & _ & L1 & L2); [reflexivity|].
  split; [cbn; lia|split; [auto|]]. intros f ml S0 C s m0 kxs0 Fx Hm Hf Hi Ho Hml Cm V.
  destruct (stringish_runs c by_ start Hlen _ _ _ _ s Hk (mode_copy _ _ Hm)) as (w & Rk & Ew & _ & _ & _ & _).
  destruct (rec_fresh E m r x r' X f C S0 s PP (Fx _ _ (or_introl eq_refl)) Hm ltac:(eapply need_mono; eauto; lia) Hi Ho)
    as (s1 & v & C1 & R1 & A1 & Cl1 & H1 & V1).
  pose proof (nth_error_Some_lt _ _ _ _ Cm) as Lm.
  pose proof A1 as (F1 & K1 & D1 & (Y1 & T1 & N1) & I1 & O1).
  set (s2 := with_heap s1 (upd (d_heap s1) ml (CMap (mput (hmap (d_heap s1) ml) k v)))).
  assert (F12 : frm (eq ml) s1 s2) by apply (frm_set by_).
  assert (C1m : nth_error (d_heap s1) ml = Some (CMap m0)).
  { eapply frm_cell; [exact F1|exact Cm|auto]. }
  assert (Em : hmap (d_heap s1) ml = m0) by (unfold hmap; now rewrite C1m).
  pose proof (frm_len _ _ _ F12) as L12. pose proof (nth_error_Some_lt _ _ _ _ H1) as L3.
  assert (Nm : ~ C1 ml).
  { intros Hc. destruct (D1 _ Hc) as [?|[[]|?]]; [contradiction|lia]. }
  assert (A12 : after (eq ml) (fun _ => False) (X ++ E) C1 S0 s1 C1 s2 []).
  { apply after_same; auto. intros l H <-. contradiction. }
  assert (A1' : after (eq ml) (fun _ => False) E C S0 s C1 s1 X).
  { destruct A1 as (_ & A1). split; [|exact A1]. eapply (frm_comp by_ 0); [apply frm_refl|exact F1|intros l []]. }
  assert (A02 : after (eq ml) (fun _ => False) E C S0 s C1 s2 X).
  { change X with ([] ++ X). eapply after_trans; [exact A1'|exact A12|auto|auto]. }
  pose proof (proj1 A02) as F02. pose proof A02 as (_ & _ & _ & _ & I02 & O02).
  destruct (QI f ml S0 C1 s2 (mput m0 k v) (kxs0 ++ [(k, x)])) as (s3 & m1 & C3 & R3 & A3 & C3m & V3); auto.
  - intros k' y Hy. apply (Fx k'). now right.
  - eapply mode_frm; eauto.
  - rewrite (frm_copy _ _ _ F02). eapply need_mono; eauto. lia.
  - unfold s2. cbn [d_heap with_heap]. rewrite nth_error_upd_same by lia. now rewrite Em.
  - constructor.
    + eapply after_shm; [exact A02|exact V].
    + eapply after_sh; [exact A12|exact V1].
  - exists s3, m1, C3. split; [|split; [|split; [exact C3m|rewrite <- app_assoc in V3; exact V3]]].
    + cbn [length hash_loop]. eapply runs_bind; [exact Rk|]. cbn [fst snd].
      unfold runs.
      erewrite (fresh_bind (CV GNil) (fun l => dec f r l)
        (fun idx vl => let! v0 := get_var vl in (map_set ml (win_bytes by_ w) v0 ;;
            hash_loop by_ (dec f) (length kxs) ml idx))); [|exact R1].
      eapply runs_bind; [reflexivity|]. rewrite (hget_cell _ _ _ H1), Ew.
      eapply runs_bind; [reflexivity|]. exact R3.
    + eapply after_trans; [exact A02|exact A3|auto|auto].
Qed.

(** ** Objects *)
Lemma object_decoded E m r x p' X f ptr B S0 C s isV q cls t : Pitem E m r x p' X -> finex t B S0 (NObj cls x) ->
  runs (class_name by_ q isV) s (cls, r) s ->
  mode_ok m s -> need by_ r (d_copy s) <= f -> ready E C B S0 ptr (NObj cls x) s ->
  decoded (decodeObject c by_ (dec f) q ptr isV) ptr E C S0 s (NObj cls x) p' X.
Proof.
  intros PP Fx R Hm Hf Rd. pose proof PP as (P1 & P2 & _). pose proof Rd as (Rz & Rn & Rc & Ri & Rw & Ro).
  unfold decodeObject. eapply decoded_bind; [exact R|]. cbn [fst snd].
  assert (Dc : d_perl c = true \/ d_perl c = false) by (destruct (d_perl c); auto). destruct Dc as [Pl|Pl]; rewrite Pl.
  - apply (rec_under E m r x (NObj cls x) p' X f ptr B S0 C s (GObjP cls)); auto; try (intros; discriminate).
    + cbn [fine_node] in Fx. now rewrite Pl in Fx |- *.
    + intros C1 s1 l v Cl Hl V. eapply sh_obj_perl; eauto.
  - unfold decode_via_iface. destruct (Nat.leb_spec len r); [lia|].
    eapply decoded_bind; [reflexivity|]. rewrite (hget_cell _ _ _ Rn).
    assert (Fx' : finex false [] (B ++ S0) x) by (cbn [fine_node] in Fx; now rewrite Pl in Fx |- *).
    destruct (rec_fresh E m r x p' X f C (B ++ S0) s PP Fx' Hm Hf Ri Ro) as (s1 & v & C1 & R1 & A1 & Cl1 & H1 & V1).
    assert (V2 : sh C1 s1 v (NObj cls x)) by now apply sh_obj.
    assert (Ev : (let! l := alloc (CV GNil) in let! idx := dec f r l in let! v := get_var l in
                 match v with GNil => ret idx | _ => set_var ptr v ;; ret idx end) s =
                 (match v with GNil => ret p' | _ => set_var ptr v ;; ret p' end) s1).
    { rewrite (fresh_bind (CV GNil) (fun l => dec f r l)
        (fun idx l => let! v := get_var l in
                      match v with GNil => ret idx | _ => set_var ptr v ;; ret idx end) _ _ _ R1).
      unfold mbind at 1. cbn [get_var]. now rewrite (hget_cell _ _ _ H1). }
    destruct v; try (eapply (write_last _ ptr E C B S0 s C1 s1 _ _ _ _ (fun _ => False)); [exact Rd| |intros ? []|exact A1|exact V2|exact Ev]; right; discriminate).
    (* nil: ptr is not written again *)
    pose proof A1 as (F1 & K1 & D1 & (Y1 & T1 & N1) & I1 & O1). pose proof (nil_lt _ _ Rn) as Lp.
    pose proof (frm_len _ _ _ F1) as Lf.
    assert (Hp : nth_error (d_heap s1) ptr = Some (CV GNil)) by (eapply frm_cell; [exact F1|exact Rn|auto]).
    assert (W1 : waiting B ptr s1).
    { intros j. rewrite T1. split.
      - intros J. apply nth_of_old. now apply Rw.
      - intros J. apply nth_of_inv in J as [J|J]; [now apply Rw|]. apply N1 in J as [[]|J]. lia. }
    assert (Nc1 : ~ C1 ptr). { intros Hc. destruct (D1 _ Hc) as [?|[[]|?]]; [contradiction|lia]. }
    assert (Nx : nilx (NObj cls x)).
    { eapply (shown_nil _ _ _ _ _ t B S0); [exact I1|exact Fx|exact V2|reflexivity]. }
    assert (A2 : after (eq ptr) (eq ptr) (X ++ E) C1 S0 s1 (fun l => C1 l \/ l = ptr) s1 []).
    { apply (settle (X ++ E) C1 B S0 s1 s1 ptr GNil); auto; try lia. apply frm_refl. }
    assert (A0 : after (eq ptr) (eq ptr) E C (B ++ S0) s C1 s1 X).
    { destruct A1 as (F' & A). split.
      - eapply (frm_comp by_ 0 _ _ s s s1); [apply frm_refl|exact F'|]. intros l [].
      - destruct A as (A1 & A3 & (Y' & T' & N') & A4). split; [exact A1|]. split; [intros l Hl; destruct (A3 l Hl) as [?|[[]|?]]; auto|].
        split; [|exact A4]. exists Y'. split; [exact T'|]. intros l Hl. destruct (N' l Hl) as [[]|?]. auto. }
    exists s1, GNil, (fun l => C1 l \/ l = ptr). split; [exact Ev|].
    split; [change X with ([] ++ X); eapply after_trans; eauto|]. split; [now right|]. split; [exact Hp|].
    eapply after_sh; [exact A2|exact V2].
Qed.

Lemma string_node_fine str y t B S : string_node str y -> finex t B S y.
Proof.
  intros H. revert t B S. induction H; intros t B S; cbn [fine_node]; auto. split; [|auto].
  clear IHstring_node. induction H; cbn [nil_node]; [|assumption]. intros [_ Q]. inversion Q.
Qed.
Lemma string_node_shown str y C s v : string_node str y -> sh C s v y -> repr (d_perl c) (reg_of c) C (d_heap s) v (DBin str).
Proof.
  intros H. induction H; intros V; inversion V; subst; auto.
Qed.

Lemma freeze_decoded E m r str y p' X f ptr B S0 C s isV q cls :
  at_ by_ r [x28; x2b] -> Pitem E m r (NRef (NArr [y])) p' X -> string_node str y ->
  g_frz g cls str ->
  runs (class_name by_ q isV) s (cls, r) s ->
  mode_ok m s -> need by_ r (d_copy s) <= f -> ready E C B S0 ptr (NFreeze cls str y) s ->
  decoded (decodeFreeze c by_ (dec f) q ptr isV) ptr E C S0 s (NFreeze cls str y) p' X.
Proof.
  intros Ha PP Hy [Pl Hum] R Hm Hf Rd. pose proof Rd as (Rz & Rn & Rc & Ri & Rw & Ro).
  assert (B0 : nth_error by_ r = Some x28)
    by (rewrite <- (Nat.add_0_r r); eapply (at_nth by_ Hlen); [exact Ha|reflexivity]).
  assert (B1 : nth_error by_ (r + 1) = Some x2b)
    by (eapply (at_nth by_ Hlen); [exact Ha|reflexivity]).
  pose proof (proj1 (at_range by_ _ _ _ Ha)) as La. cbn in La.
  assert (Fx : finex false [] (B ++ S0) (NRef (NArr [y]))).
  { cbn [fine_node]. rewrite Pl. split; [|exact Logic.I]. rewrite <- Pl. now apply (string_node_fine str). }
  destruct (rec_fresh E m r _ p' X f C (B ++ S0) s PP Fx Hm Hf Ri Ro) as (s1 & v & C1 & R1 & A1 & Cl1 & H1 & V1).
  assert (Sg : exists base w, v = GSlice base 1 /\ hget (d_heap s1) base = GBytes w /\ sh C1 s1 (GBytes w) y /\
    C1 (vloc w) /\ hview (d_heap s1) w = str).
  { inversion V1; subst; [|congruence].
    match goal with H : sh _ _ _ (NArr _) |- _ => inversion H; subst end.
    match goal with H : showns _ _ _ _ _ _ _ [y] |- _ => inversion H; subst end.
    match goal with H : sh _ _ ?v0 y |- _ => pose proof (string_node_shown _ _ _ _ _ Hy H) as Q; inversion Q; subst;
      exists base, w; split; [reflexivity|]; split; [now apply hget_cell|]; auto end. }
  destruct Sg as (base & w & -> & Hb & Vy & Pw & Ew).
  assert (Cp : nth_error (d_heap s1) ptr = Some (CV GNil))
    by (eapply frm_cell; [apply A1|exact Rn|auto]).
  assert (Lw : vloc w < hl s1) by (apply A1, Pw).
  unfold decodeFreeze. eapply decoded_bind; [exact R|]. cbn [fst snd].
  destruct (Nat.leb_spec len (r + 1)); [lia|]. rewrite B0, B1.
  change (negb ((b2n x28 =? typeREFN) && (b2n x2b =? typeARRAY))%N) with false. cbv iota.
  destruct (d_um c cls) as [[t|t]|] eqn:U; [|contradiction|].
  - eapply (write_last _ ptr E C B S0 s C1 s1 (GUserP t w) _ _ _ (fun _ => False)); [exact Rd|right; discriminate|intros l []|exact A1| |].
    + eapply sh_freeze; [|exact Vy]. eapply r_user; auto. unfold reg_of. now rewrite U.
    + erewrite (fresh_bind (CV GNil) (fun l => dec f r l)); [|exact R1].
      unfold mbind at 1. cbn [get_var]. rewrite (hget_cell _ _ _ H1).
      cbn [Nat.eqb negb]. unfold mbind at 1. cbn [get_var]. rewrite Hb, Pl.
      unfold mbind at 1. cbn [get_var]. rewrite (hget_cell _ _ _ Cp).
      rewrite Ew, Hum. reflexivity.
  - set (s2 := with_heap s1 (d_heap s1 ++ [CV (GFreezeV cls w)])).
    assert (Ax : after (fun _ => False) (fun _ => False) (X ++ E) C1 (B ++ S0) s1 (fun l => C1 l \/ l = hl s1) s2 []).
    { apply alloc_after. apply after_same; [apply A1|apply A1|apply frm_refl|auto|reflexivity]. }
    eapply (write_last _ ptr E C B S0 s (fun l => C1 l \/ l = hl s1) s2 (GPtr false (hl s1)) _ _ _ (fun _ => False));
      [exact Rd|right; discriminate|intros l []|apply alloc_after; exact A1| |].
    + eapply sh_freeze; [|eapply after_sh; [exact Ax|exact Vy]].
      eapply r_freeze; [exact Pl|now right| |unfold reg_of; now rewrite U|left; exact Pw|].
      * unfold s2. cbn. rewrite nth_error_app2, Nat.sub_diag by lia. reflexivity.
      * rewrite <- Ew. apply hview_same. unfold s2. cbn. now apply nth_error_app1.
    + erewrite (fresh_bind (CV GNil) (fun l => dec f r l)); [|exact R1].
      unfold mbind at 1. cbn [get_var]. rewrite (hget_cell _ _ _ H1).
      cbn [Nat.eqb negb]. unfold mbind at 1. cbn [get_var]. rewrite Hb, Pl.
      unfold mbind at 1. cbn [get_var]. rewrite (hget_cell _ _ _ Cp).
      reflexivity.
Qed.

Lemma Ptag_copy E q n r x e X : tag_at by_ q q 47 -> vint by_ (S q) n r -> N.to_nat n < q ->
  Pitem E (g_nest g) (N.to_nat n) x e X -> Ptag E CAny q 47 (NCopy x) r X.
Proof.
  intros Ht Hv Hlt PP. pose proof PP as (P1 & P2 & PI).
  pose proof (tag_skip _ _ _ _ Ht) as (_ & _ & _ & _ & L & _).
  destruct (vint_at _ Hlen _ _ _ (mkDState [] [] 0 []) Hv) as (_ & L1 & L2 & _).
  split; [lia|split; [lia|]].
  intros f ptr B S0 C s trk Fx Hm Hf Hf0 Rd. change (tag_kind 47) with TCopy. cbn [decode_tag].
  cbn in Hm. destruct (vint_at _ Hlen _ _ _ s Hv) as (V & _).
  set (s1 := mkDState (d_heap s) (d_tracked s) 1 (d_made s)).
  destruct (PI f ptr B S0 C s1) as (s2 & v & C' & R & A & Cp & Hc & Vr); auto.
  { exact Logic.I. }
  { unfold need. cbn. specialize (Hf0 Hm). lia. }
  exists (mkDState (d_heap s2) (d_tracked s2) (pred (d_copy s2)) (d_made s2)), v, C'.
  split; [|split; [|split; [exact Cp|split; [exact Hc|apply sh_copy; exact Vr]]]].
  + unfold runs. unfold mbind at 1. cbn [get_copy]. rewrite Hm. cbn [Nat.ltb Nat.leb].
    unfold mbind at 1. rewrite V. rewrite to_int_small by lia.
    destruct ((Z.of_N n <? 0) || (Z.of_nat (S q) <=? Z.of_N n))%Z eqn:Bd; [lia|].
    unfold mbind at 1. cbn [set_copy]. fold s1. unfold mbind at 1.
    replace (Z.to_nat (Z.of_N n)) with (N.to_nat n) by lia.
    unfold runs in R. rewrite R. unfold ret. now replace (S q + (r - S q)) with r by lia.
  + destruct A as ((F1 & F2 & F3) & A). split; [|exact A]. split; [exact F1|split; [exact F2|]].
    cbn. rewrite F3. cbn. now rewrite Hm.
Qed.

(** ** References to items met before *)
Lemma back_runs isP n r q s l v : vint by_ (S q) n r -> N.to_nat n < q -> q < len ->
  assoc_nat (N.to_nat n) (d_tracked s) = Some l -> nth_error (d_heap s) l = Some (CV v) -> forall ptr,
  decodeREFP_ALIAS c by_ (S q) ptr isP s =
    (if isP then match v with
                 | GNil => panic EReflect
                 | _ => if d_noref c then set_var ptr v ;; ret r
                        else let! l := alloc (CV v) in (set_var ptr (GPtr false l) ;; ret r)
                 end
     else set_var ptr v ;; ret r) s.
Proof.
  intros Hv Lt Lq As Ev ptr.
  destruct (vint_at _ Hlen _ _ _ s Hv) as (V & L1 & L2 & _).
  unfold decodeREFP_ALIAS. rewrite (bind_run _ _ _ _ _ _ _ V).
  replace (S q + (r - S q)) with r by lia.
  rewrite to_int_small by lia.
  destruct ((Z.of_N n <? 0) || (Z.of_nat r <=? Z.of_N n))%Z eqn:Bd; [lia|].
  replace (Z.to_nat (Z.of_N n)) with (N.to_nat n) by lia.
  unfold mbind at 1. cbn [get_tracked]. rewrite As.
  unfold mbind at 1. cbn [get_var]. rewrite (hget_cell _ _ _ Ev).
  destruct isP; [destruct v|]; reflexivity.
Qed.

Lemma back_known E C B S0 ptr x s n i : ready E C B S0 ptr x s -> number E n = Some i -> ~ In i (B ++ S0) ->
  exists l v, assoc_nat n (d_tracked s) = Some l /\ nth_error (d_heap s) l = Some (CV v) /\ val C s i v /\ (v = GNil -> Z i).
Proof.
  intros (Rz & Rn & Rc & Ri & Rw & Ro) Nm Ni. pose proof Ri as (I1 & I2 & I3 & I4 & I5 & I6).
  rewrite <- I4 in Nm. destruct (number_nth _ _ _ Nm) as (l & As & Hl).
  destruct (Ro i l Hl) as [Cl|J]; [|contradiction]. destruct (I6 i l Hl Cl) as (v & Hv & Hz).
  exists l, v. split; [exact As|]. split; [exact Hv|]. split; [|exact Hz]. exists l. auto.
Qed.

Lemma Ptag_refp E m q n r i : tag_at by_ q q 41 -> vint by_ (S q) n r -> N.to_nat n < q ->
  number E (N.to_nat n) = Some i -> Ptag E m q 41 (NBack i) r [].
Proof.
  intros Ht Hv Hlt Nm.
  pose proof (tag_skip _ _ _ _ Ht) as (_ & _ & _ & _ & L & _).
  destruct (vint_at _ Hlen _ _ _ (mkDState [] [] 0 []) Hv) as (_ & L1 & L2 & _).
  split; [lia|split; [lia|]].
  intros f ptr B S0 C s trk Fx Hm Hf Hf0 Rd. change (tag_kind 41) with TRefp. cbn [decode_tag].
  cbn [fine_node] in Fx. destruct Fx as [Ni Nz].
  destruct (back_known _ _ _ _ _ _ _ _ _ Rd Nm Ni) as (l & v & As & Ev & Vl & Hz).
  pose proof Rd as (Rz & Rn & Rc & Ri & Rw & Ro).
  assert (Nn : v <> GNil) by (intros Q; now apply Nz, Hz).
  assert (Run : decodeREFP_ALIAS c by_ (S q) ptr true s =
    (if d_noref c then set_var ptr v ;; ret r
     else let! l := alloc (CV v) in (set_var ptr (GPtr false l) ;; ret r)) s).
  { rewrite (back_runs true n r q s l v Hv Hlt ltac:(lia) As Ev). destruct v; try contradiction; reflexivity. }
  assert (As0 : after (fun _ => False) (fun _ => False) E C (B ++ S0) s C s []).
  { apply after_same; auto. apply frm_refl. }
  destruct (d_noref c) eqn:Nr.
  - eapply (write_last _ ptr E C B S0 s C s v _ _ _ (fun _ => False));
      [exact Rd|right; exact Nn|intros y []|exact As0|now apply sh_back_noref|exact Run].
  - set (s2 := with_heap s (d_heap s ++ [CV v])).
    pose proof (alloc_after _ _ _ _ _ _ _ _ _ v As0) as As2.
    eapply (write_last _ ptr E C B S0 s (fun y => C y \/ y = hl s) s2 (GPtr false (hl s)) _ _ _ (fun _ => False));
      [exact Rd|right; discriminate|intros y []|exact As2| |exact Run].
    eapply sh_back; [exact Nr|now right| |].
    + unfold s2. cbn. rewrite nth_error_app2, Nat.sub_diag by lia. reflexivity.
    + eapply after_val; [exact As2|exact Vl].
Qed.

Lemma Ptag_alias E m q n r i : tag_at by_ q q 46 -> vint by_ (S q) n r -> N.to_nat n < q ->
  number E (N.to_nat n) = Some i -> Ptag E m q 46 (NSame i) r [].
Proof.
  intros Ht Hv Hlt Nm.
  pose proof (tag_skip _ _ _ _ Ht) as (_ & _ & _ & _ & L & _).
  destruct (vint_at _ Hlen _ _ _ (mkDState [] [] 0 []) Hv) as (_ & L1 & L2 & _).
  split; [lia|split; [lia|]].
  intros f ptr B S0 C s trk Fx Hm Hf Hf0 Rd. change (tag_kind 46) with TAlias. cbn [decode_tag].
  cbn [fine_node] in Fx.
  destruct (back_known _ _ _ _ _ _ _ _ _ Rd Nm Fx) as (l & v & As & Ev & Vl & Hz).
  pose proof Rd as (Rz & Rn & Rc & Ri & Rw & Ro).
  eapply (write_last _ ptr E C B S0 s C s v _ _ _ (fun _ => False));
    [exact Rd|left; exact Fx|intros y []| |now apply sh_same|exact (back_runs false n r q s l v Hv Hlt ltac:(lia) As Ev ptr)].
  apply after_same; auto. apply frm_refl.
Qed.

(** ** Every document *)
Theorem decode_implements_nodes : (d_perl c = true -> forall i, ~ Z i) ->
  (forall E m p x p' X, gitem g by_ E m p x p' X -> Pitem E m p x p' X) /\
  (forall E m q t x p' X, gbody g by_ E m q t x p' X -> Pbody E m q t x p' X) /\
  (forall E m p xs p' X, gitems g by_ E m p xs p' X -> Pitems E m p xs p' X) /\
  (forall E m p kxs p' X, gpairs g by_ E m p kxs p' X -> Ppairs E m p kxs p' X).
Proof.
  intros Zp.
  apply (nodes_ind g by_ (fun E m p x p' X _ => Pitem E m p x p' X)
    (fun E m q t x p' X _ => Pbody E m q t x p' X)
    (fun E m p xs p' X _ => Pitems E m p xs p' X) (fun E m p kxs p' X _ => Ppairs E m p kxs p' X)).
  - intros E m p q t x p' X Ht Mk _ H. eapply Pitem_pad; [exact Ht|].
    apply (proj1 (H (tag_here by_ _ _ _ Ht)) E eq_refl Mk).
  - intros E m p q t x p' X Ht Mk _ H. eapply Pitem_pad; [exact Ht|].
    apply (proj2 (H (tag_here by_ _ _ _ Ht)) Mk).
  - intros. now apply Pbody_plain.
  - intros. now apply tag_reduce, Ptag_refn.
  - intros. now apply tag_reduce, Ptag_weaken.
  - intros. eapply tag_reduce, Ptag_array; eauto.
  - intros. apply Pbody_at. intros Ht. eapply Ptag_arrayref; eauto.
  - intros. eapply tag_reduce, Ptag_hash; eauto.
  - intros. apply Pbody_at. intros Ht. eapply Ptag_hashref; eauto.
  - (* object *)
    intros E m q cls r x p' X Hs _ PP. pose proof PP as (P1 & P2 & _).
    destruct (stringish_runs c by_ start Hlen _ _ _ _ (mkDState [] [] 0 []) Hs) as (_ & _ & _ & _ & _ & L1 & L2); [reflexivity|].
    apply tag_reduce. split; [lia|split; [lia|]].
    intros f ptr B S0 C s trk Fx Hm Hf Hf0 Rd. change (tag_kind 44) with TObject. cbn [decode_tag].
    eapply object_decoded; eauto.
    + eapply (class_lit c by_ start Hlen); eauto. now apply mode_copy.
    + eapply need_mono; eauto. lia.
  - (* objectv *)
    intros E m q n r u cls e x p' X Hv Hlt Hst Hs _ PP. apply Pbody_at. intros Ht. pose proof PP as (P1 & P2 & _).
    pose proof (tag_skip _ _ _ _ Ht) as (_ & _ & _ & _ & L & _).
    destruct (vint_at _ Hlen _ _ _ (mkDState [] [] 0 []) Hv) as (_ & L1 & L2 & _).
    split; [lia|split; [lia|]].
    intros f ptr B S0 C s trk Fx Hm Hf Hf0 Rd. change (tag_kind 45) with TObjectV. cbn [decode_tag].
    eapply object_decoded; eauto.
    + eapply (class_off c by_ start Hlen); eauto.
    + eapply need_mono; eauto. lia.
  - (* freeze *)
    intros E m q cls r str y p' X Hs Ha _ PP Hy Hz. pose proof PP as (P1 & P2 & _).
    destruct (stringish_runs c by_ start Hlen _ _ _ _ (mkDState [] [] 0 []) Hs) as (_ & _ & _ & _ & _ & L1 & L2); [reflexivity|].
    apply tag_reduce. split; [lia|split; [lia|]].
    intros f ptr B S0 C s trk Fx Hm Hf Hf0 Rd. change (tag_kind 50) with TFreeze. cbn [decode_tag].
    eapply freeze_decoded; eauto.
    + eapply (class_lit c by_ start Hlen); eauto. now apply mode_copy.
    + eapply need_mono; eauto. lia.
  - (* freezev *)
    intros E m q o r u cls e str y p' X Hv Hlt Hst Hs Ha _ PP Hy Hz. apply Pbody_at. intros Ht.
    pose proof PP as (P1 & P2 & _).
    pose proof (tag_skip _ _ _ _ Ht) as (_ & _ & _ & _ & L & _).
    destruct (vint_at _ Hlen _ _ _ (mkDState [] [] 0 []) Hv) as (_ & L1 & L2 & _).
    split; [lia|split; [lia|]].
    intros f ptr B S0 C s trk Fx Hm Hf Hf0 Rd. change (tag_kind 51) with TFreezeV. cbn [decode_tag].
    eapply freeze_decoded; eauto.
    + eapply (class_off c by_ start Hlen); eauto.
    + eapply need_mono; eauto. lia.
  - intros E q n r x e X Hv Hlt Hst _ PP. apply Pbody_at. intros Ht. eapply Ptag_copy; eauto.
  - intros E m q n r i Hv Hlt Nm. apply Pbody_at. intros Ht. eapply Ptag_refp; eauto.
  - intros E m q n r i Hv Hlt Nm. apply Pbody_at. intros Ht. eapply Ptag_alias; eauto.
  - intros. apply Pitems_nil.
  - intros. eapply Pitems_cons; eauto.
  - intros. apply Ppairs_nil.
  - intros. eapply Ppairs_cons; eauto.
Qed.
End CD.
