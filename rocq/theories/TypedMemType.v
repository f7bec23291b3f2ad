(** Unmarshal keeps the variables in memory within their types, and unexported fields as they are. *)
From Verif Require Import Base BaseFacts Varint Tags GoMem GoTypes TagsCache Codecs Compress Header Decode Document
  Typed TypedMem SpecMem SpecHeader SpecShape SpecMemType JsonFacts ShapeFacts ApiSafe HeaderFacts TypedSafe TypedSpec TypedRound TypedMemFacts TypedMemFrame HeapInts.
From Coq Require Import ZifyBool ZifyNat ZifyN.

Lemma in_fput' fs i x j y : In (j, y) (fput fs i x) -> (j = i /\ y = x) \/ In (j, y) fs.
Proof.
  induction fs as [|[k z] fs IH]; cbn; [intros [E|[]]; injection E; auto|].
  destruct (Nat.eqb_spec k i) as [->|N]; cbn; intros [E|J]; auto; [injection E; auto|]. destruct (IH J); auto.
Qed.
Lemma nth_upd_other {A} i j (l : list A) x d : i <> j -> nth j (upd l i x) d = nth j l d.
Proof. revert i j. induction l; intros [|i] [|j] N; cbn; auto; try congruence. Qed.

Section Values.
Variable v : goenv.
Notation has := (has v).
Notation type_at := (type_at v).
Notation sealed := (sealed v).
Notation erefers := (erefers v).
Notation getp := (getp v).
Notation putp := (putp v).

Lemma has_ext ct e ty x : has ct ty x -> has (ct ++ e) ty x.
Proof.
  assert (E : forall l c, nth_error ct l = Some c -> nth_error (ct ++ e) l = Some c).
  { intros l c H. rewrite nth_error_app1; [exact H|]. apply nth_error_Some. congruence. }
  induction 1; econstructor; eauto.
Qed.
Lemma has_zero ct ty : has ct ty (mzero ty).
Proof.
  induction ty; cbn [mzero]; try (constructor; auto; fail).
  - constructor. destruct k; cbn; lia.
  - constructor. exact I.
  - constructor; [apply repeat_length|]. intros m J. apply repeat_spec in J as ->. exact IHty.
  - constructor; intros i m; contradiction.
Qed.
Lemma has_bytes ct l : has ct (TyArr (length l) (TyInt KUint8)) (MArr (map byte_mval l)).
Proof.
  constructor; [apply map_length|]. intros m J. apply in_map_iff in J as (b & <- & _). constructor.
  unfold ikind_in. cbn [ikind_signed ikind_bits]. change (2 ^ 8)%Z with 256%Z. pose proof (b2n_lt b). lia.
Qed.
Lemma has_arr_inv ct n t x : has ct (TyArr n t) x -> exists ms, x = MArr ms /\ length ms = n /\ forall m, In m ms -> has ct t m.
Proof. intros H. inversion H; subst; eauto. Qed.
Lemma has_slice_inv ct t x : has ct (TySlice t) x -> x = MSlice None \/ exists l n, x = MSlice (Some l) /\ nth_error ct l = Some (CVar (TyArr n t)).
Proof. intros H. inversion H; subst; [now left|right; eauto]. Qed.
Lemma has_struct_inv ct id x : has ct (TyStruct id) x -> exists fs, x = MStruct fs /\
  (forall i m, In (i, m) fs -> i < length (st_fields (decls v id))) /\
  (forall i m f t, In (i, m) fs -> nth_error (st_fields (decls v id)) i = Some (f, t) -> has ct t m).
Proof. intros H. inversion H; subst; eauto. Qed.
Lemma assoc_in {A} i (fs : list (nat * A)) m : assoc_nat i fs = Some m -> In (i, m) fs.
Proof.
  induction fs as [|[j y] fs IH]; cbn; [discriminate|]. destruct (Nat.eqb_spec j i) as [->|]; [intros [= ->]; auto|auto].
Qed.
Lemma has_field ct id fs i f t : has ct (TyStruct id) (MStruct fs) -> nth_error (st_fields (decls v id)) i = Some (f, t) ->
  has ct t (msfield v id i fs).
Proof.
  intros H E. inversion H; subst. unfold msfield. destruct (assoc_nat i fs) eqn:A; [eauto using assoc_in|].
  rewrite E. apply has_zero.
Qed.
(** following a typed path *)
Lemma type_field t0 id i p ty : type_at t0 (SField id i :: p) = Some ty ->
  t0 = TyStruct id /\ exists f t, nth_error (st_fields (decls v id)) i = Some (f, t) /\ type_at t p = Some ty.
Proof.
  cbn. destruct t0; try discriminate. destruct (Nat.eqb_spec id id0) as [->|]; [|discriminate].
  destruct (nth_error _ i) as [[f t]|]; [|discriminate]. eauto.
Qed.
Lemma type_elem t0 i p ty : type_at t0 (SElem i :: p) = Some ty ->
  exists n t, t0 = TyArr n t /\ i < n /\ type_at t p = Some ty.
Proof. cbn [SpecMemType.type_at]. destruct t0; try discriminate. destruct (Nat.ltb_spec i n); [|discriminate]. eauto. Qed.
Lemma type_app p : forall t0 ty q, type_at t0 p = Some ty -> type_at t0 (p ++ q) = type_at ty q.
Proof.
  induction p as [|[id i|i] p IH]; intros t0 ty q H; [now injection H as ->| |].
  - apply type_field in H as (-> & f & t & E & H). cbn. now rewrite Nat.eqb_refl, E, (IH _ _ _ H).
  - apply type_elem in H as (n & t & -> & L & H). cbn [SpecMemType.type_at app]. apply Nat.ltb_lt in L. now rewrite L, (IH _ _ _ H).
Qed.
Lemma nth_in_ {A} i (l : list A) d : i < length l -> In (nth i l d) l. Proof. apply nth_In. Qed.
Lemma has_getp ct p : forall t0 ty X, type_at t0 p = Some ty -> has ct t0 X -> has ct ty (getp p X).
Proof.
  induction p as [|[id i|i] p IH]; intros t0 ty X H HX; [now injection H as ->| |].
  - apply type_field in H as (-> & f & t & E & H). pose proof HX as HX2. apply has_struct_inv in HX2 as (fs & -> & _). cbn.
    eapply IH; [exact H|]. eapply has_field; eassumption.
  - apply type_elem in H as (n & t & -> & L & H). apply has_arr_inv in HX as (ms & -> & Ln & HX). cbn.
    eapply IH; [exact H|]. apply HX, nth_In. lia.
Qed.
Lemma has_putp ct p : forall t0 ty X y, type_at t0 p = Some ty -> has ct t0 X -> has ct ty y -> has ct t0 (putp p X y).
Proof.
  induction p as [|[id i|i] p IH]; intros t0 ty X y H HX Hy; [now injection H as ->| |].
  - apply type_field in H as (-> & f & t & E & H). pose proof HX as HX2. apply has_struct_inv in HX2 as (fs & -> & B & F). cbn.
    constructor.
    + intros j m J. apply in_fput' in J as [[-> _]|J]; [|eauto]. apply nth_error_Some. congruence.
    + intros j m f' t' J E'. apply in_fput' in J as [[-> ->]|J]; [|eauto]. rewrite E in E'. injection E' as <- <-.
      eapply IH; [exact H| |exact Hy]. eapply has_field; eassumption.
  - apply type_elem in H as (n & t & -> & L & H). apply has_arr_inv in HX as (ms & -> & Ln & HX). cbn.
    constructor; [now rewrite upd_len|]. intros m J. apply in_upd in J as [-> |J]; [|auto].
    eapply IH; [exact H| |exact Hy]. apply HX, nth_In. lia.
Qed.
Lemma unsealed_cons st p : ~ sealed (st :: p) -> ~ unexported v st /\ ~ sealed p.
Proof. intros H. split; intros K; apply H; [exists st; split; [left|]; auto|]. destruct K as (s & J & U). exists s. split; [right|]; auto. Qed.
Lemma zero_erefers ty l : ~ erefers ty (mzero ty) l.
Proof.
  revert l. induction ty; intros l H; inversion H; subst; try discriminate.
  match goal with J : In _ (repeat _ _) |- _ => apply repeat_spec in J end. subst. eapply IHty; eassumption.
Qed.
Lemma erefers_getp ct p : forall t0 ty X l, type_at t0 p = Some ty -> ~ sealed p -> has ct t0 X -> erefers ty (getp p X) l -> erefers t0 X l.
Proof.
  induction p as [|[id i|i] p IH]; intros t0 ty X l H S HX HR; [now injection H as ->| |]; apply unsealed_cons in S as [S1 S].
  - apply type_field in H as (-> & f & t & E & H). pose proof HX as HX2. apply has_struct_inv in HX2 as (fs & -> & _). cbn in HR.
    assert (X' : f_exported f = true). { destruct (f_exported f) eqn:Xf; [reflexivity|]. exfalso. apply S1. exists f, t. auto. }
    pose proof (IH _ _ _ _ H S (has_field _ _ _ _ _ _ HX E) HR) as R. unfold msfield in R. destruct (assoc_nat i fs) eqn:A.
    + econstructor; eassumption.
    + rewrite E in R. exfalso. eapply zero_erefers, R.
  - apply type_elem in H as (n & t & -> & L & H). apply has_arr_inv in HX as (ms & -> & Ln & HX). cbn in HR.
    assert (J : In (nth i ms (MStruct [])) ms) by (apply nth_In; lia).
    econstructor; [exact J|]. eapply IH; eauto.
Qed.
Lemma erefers_putp ct p : forall t0 ty X y l, type_at t0 p = Some ty -> has ct t0 X -> erefers t0 (putp p X y) l ->
  erefers t0 X l \/ erefers ty y l.
Proof.
  induction p as [|[id i|i] p IH]; intros t0 ty X y l H HX HR; [injection H as ->; auto| |].
  - apply type_field in H as (-> & f & t & E & H). pose proof HX as HX2. apply has_struct_inv in HX2 as (fs & -> & _). cbn in HR.
    inversion HR; subst. rewrite assoc_fput in *. destruct (Nat.eqb_spec i i0) as [<-|N]; [|left; econstructor; eassumption].
    match goal with K : Some _ = Some m |- _ => injection K as <- end. rewrite E in *.
    match goal with K : Some _ = Some _ |- _ => injection K as <- <- end.
    match goal with K : erefers t (putp _ _ _) l |- _ => apply (IH _ _ _ _ _ H (has_field _ _ _ _ _ _ HX E)) in K as [K|K]; [left|auto] end.
    unfold msfield in *. destruct (assoc_nat i fs) eqn:A; [econstructor; eassumption|]. rewrite E in *. exfalso. eapply zero_erefers; eassumption.
  - apply type_elem in H as (n & t & -> & L & H). apply has_arr_inv in HX as (ms & -> & Ln & HX). cbn in HR.
    inversion HR; subst. match goal with J : In _ (upd _ _ _) |- _ => apply in_upd in J as [-> |J] end; [|left; econstructor; eassumption].
    match goal with K : erefers t (putp _ _ _) l |- _ => apply (IH _ _ _ _ _ H) in K as [K|K]; [left|auto|] end.
    + eapply er_arr; [apply nth_In|eassumption]. lia.
    + apply HX, nth_In. lia.
Qed.
(** a type without structs in place *)
Definition plain_type (ty : gtype) : Prop := forall p, type_at ty p <> None -> ~ sealed p.
Lemma getp_other ct p : forall t0 ty q ty' X y, type_at t0 p = Some ty -> ~ sealed p -> type_at t0 q = Some ty' -> sealed q ->
  plain_type ty -> has ct t0 X -> getp q (putp p X y) = getp q X.
Proof.
  induction p as [|st p IH]; intros t0 ty q ty' X y H S Hq Sq Pl HX.
  { injection H as ->. exfalso. apply (Pl q); [congruence|exact Sq]. }
  apply unsealed_cons in S as [S1 S]. destruct q as [|st' q]; [destruct Sq as (? & [] & _)|].
  destruct st as [id i|i].
  - apply type_field in H as (-> & f & t & E & H). destruct st' as [id' i'|i']; [|discriminate].
    apply type_field in Hq as (Eq & f' & t' & E' & Hq). injection Eq as <-.
    pose proof HX as HX2. apply has_struct_inv in HX2 as (fs & -> & _). cbn. rewrite msfield_fput.
    destruct (Nat.eqb_spec i i') as [<-|N]; [|reflexivity]. rewrite E in E'. injection E' as <- <-.
    eapply IH; try eassumption; [|eapply has_field; eassumption].
    destruct Sq as (st & [<-|J] & U); [contradiction|exists st; auto].
  - apply type_elem in H as (n & t & -> & L & H). destruct st' as [id' i'|i']; [discriminate|].
    apply type_elem in Hq as (n' & t' & Eq & L' & Hq). injection Eq as <- <-.
    apply has_arr_inv in HX as (ms & -> & Ln & HX). cbn.
    destruct (Nat.eq_dec i i') as [<-|N].
    + rewrite nth_upd by lia. eapply IH; try eassumption; [|apply HX, nth_In; lia].
      destruct Sq as (st & [<-|J] & U); [contradiction|exists st; auto].
    + now rewrite nth_upd_other.
Qed.
End Values.

(** Types of the cells so far; [w_op]: the cells within reach without unexported fields *)
Record world := mkW { w_ct : list ctype; w_op : mloc -> Prop }.
Definition wext (w w' : world) : Prop :=
  (exists e, w_ct w' = w_ct w ++ e) /\ forall l, l < length (w_ct w) -> (w_op w' l <-> w_op w l).
Lemma wext_refl w : wext w w. Proof. split; [exists []; now rewrite app_nil_r|tauto]. Qed.
Lemma wext_trans a b c : wext a b -> wext b c -> wext a c.
Proof.
  intros [[e E] A] [[e' E'] B]. split; [exists (e ++ e'); now rewrite E', E, app_assoc|].
  intros l L. rewrite <- A by exact L. apply B. rewrite E, app_length. lia.
Qed.

Section Logic.
Variable v : goenv.
Variable mem0 : memory.
Variable strict : Prop.
Notation has := (has v).
Notation type_at := (type_at v).
Notation sealed := (sealed v).
Notation erefers := (erefers v).

Definition vopen (w : world) (ty : gtype) (x : mval) : Prop := forall l, erefers ty x l -> w_op w l.
Definition located (w : world) (r : mref) (ty : gtype) : Prop :=
  exists t0, nth_error (w_ct w) (fst r) = Some (CVar t0) /\ type_at t0 (snd r) = Some ty.
Definition good (w : world) (r : mref) (ty : gtype) (md : amode) : Prop :=
  located w r ty /\ (md <> RO -> w_op w (fst r) /\ ~ sealed (snd r)).
Record memok (w : world) (mem : memory) : Prop := mkOk {
  ok_typed : well_typed v (w_ct w) mem;
  ok_len : length mem0 <= length mem;
  ok_closed : forall l c cell l', w_op w l -> nth_error (w_ct w) l = Some c -> nth_error mem l = Some cell ->
    cell_erefers v c cell l' -> w_op w l';
  ok_frame : forall l, l < length mem0 -> ~ w_op w l -> nth_error mem l = nth_error mem0 l;
  ok_sealed : strict -> forall l t0 p ty, l < length mem0 -> nth_error (w_ct w) l = Some (CVar t0) ->
    type_at t0 p = Some ty -> sealed p -> rd v mem (l, p) = rd v mem0 (l, p)
}.
Definition Inv (w : world) (s : mstate) : Prop :=
  ints_ok (d_heap (m_d s)) /\ memok w (m_mem s) /\
  Forall (fun t => good w (tr_ref (snd t)) (tr_ty (snd t)) (tr_md (snd t))) (m_refs s).

Lemma nth_ext w w' l c : wext w w' -> nth_error (w_ct w) l = Some c -> nth_error (w_ct w') l = Some c.
Proof. intros [[e E] _] H. rewrite E, nth_error_app1; [exact H|]. apply nth_error_Some. congruence. Qed.
Lemma has_wext w w' ty x : wext w w' -> has (w_ct w) ty x -> has (w_ct w') ty x.
Proof. intros [[e E] _] H. rewrite E. now apply has_ext. Qed.
Lemma located_ext w w' r ty : wext w w' -> located w r ty -> located w' r ty.
Proof. intros E (t0 & A & B). exists t0. split; [eapply nth_ext; eassumption|exact B]. Qed.
Lemma located_lt w r ty : located w r ty -> fst r < length (w_ct w).
Proof. intros (t0 & A & _). apply nth_error_Some. congruence. Qed.
Lemma good_ext w w' r ty md : wext w w' -> good w r ty md -> good w' r ty md.
Proof.
  intros E [L O]. split; [eapply located_ext; eassumption|]. intros N. destruct (O N) as [O1 O2]. split; [|exact O2].
  apply E; [|exact O1]. eapply located_lt, L.
Qed.
Lemma cell_lt ct l c : nth_error (A := ctype) ct l = Some c -> l < length ct.
Proof. intros H. apply nth_error_Some. congruence. Qed.
Lemma refer_lt ct ty x l : has ct ty x -> erefers ty x l -> l < length ct.
Proof.
  intros H. revert l. induction H; intros l0 R; inversion R; subst; eauto using cell_lt.
  match goal with A : assoc_nat _ _ = Some _ |- _ => apply assoc_in in A end. eauto.
Qed.
Lemma vopen_ext w w' ty x : wext w w' -> has (w_ct w) ty x -> vopen w ty x -> vopen w' ty x.
Proof. intros E H O l R. apply E; [eapply refer_lt; eassumption|auto]. Qed.

Definition pres {A} (w : world) (m : TM A) (Q : world -> A -> Prop) : Prop := forall s, Inv w s ->
  exists w', wext w w' /\ Inv w' (snd (m s)) /\ forall a, fst (m s) = Ok a -> Q w' a.
Notation keep w m := (pres w m (fun _ _ => True)).
Lemma p_bind A B w (m : TM A) (k : A -> TM B) P Q : pres w m P ->
  (forall w' a, wext w w' -> P w' a -> pres w' (k a) Q) -> pres w (tbind m k) Q.
Proof.
  intros H K s I. destruct (H s I) as (w1 & E1 & I1 & P1). unfold tbind. destruct (m s) as [[a|e|e| |] s'];
    try (exists w1; split; [exact E1|split; [exact I1|discriminate]]).
  destruct (K w1 a E1 (P1 a eq_refl) s' I1) as (w2 & E2 & R). exists w2. split; [eapply wext_trans; eassumption|exact R].
Qed.
Lemma p_mono A w (m : TM A) (P Q : world -> A -> Prop) : pres w m P -> (forall w' a, P w' a -> Q w' a) -> pres w m Q.
Proof. intros H K s I. destruct (H s I) as (w' & E & I' & R). exists w'. auto 6. Qed.
Lemma p_same A w (m : TM A) (Q : world -> A -> Prop) : (forall s, Inv w s -> Inv w (snd (m s)) /\ forall a, fst (m s) = Ok a -> Q w a) -> pres w m Q.
Proof. intros H s I. exists w. split; [apply wext_refl|]. auto. Qed.
Lemma p_ret A w (a : A) (Q : world -> A -> Prop) : Q w a -> pres w (tret a) Q.
Proof. intros H. apply p_same. intros s I. split; [exact I|]. intros b E. injection E as <-. exact H. Qed.
Lemma p_fail A w e (Q : world -> A -> Prop) : pres w (tfail e) Q.
Proof. apply p_same. intros s I. split; [exact I|]. discriminate. Qed.
Lemma p_panic A w e (Q : world -> A -> Prop) : pres w (tpanic e) Q.
Proof. apply p_same. intros s I. split; [exact I|]. discriminate. Qed.
Lemma p_lift A w (m : M A) (P : A -> Prop) : hp m P -> pres w (lift_ m) (fun _ => P).
Proof.
  intros H. apply p_same. intros s (A1 & A2 & A3). destruct (H (m_d s) A1) as [B1 B2]. unfold lift_.
  destruct (m (m_d s)) as [r d]. cbn in *. split; [split; [exact B1|split; [exact A2|exact A3]]|exact B2].
Qed.
Lemma p_mem w : pres w get_mem memok.
Proof. apply p_same. intros s I. split; [exact I|]. intros a E. injection E as <-. apply I. Qed.
Lemma p_check w md : pres w (mcheck md) (fun _ _ => md = Settable).
Proof. destruct md; [now apply p_ret|apply p_panic|apply p_panic]. Qed.

(** the memory *)
Lemma f2_nth {A B} (P : A -> B -> Prop) l l' : Forall2 P l l' -> forall i a, nth_error l i = Some a -> exists b, nth_error l' i = Some b /\ P a b.
Proof. induction 1; intros [|i] a E; cbn in *; try discriminate; [injection E as <-; eauto|eauto]. Qed.
Lemma f2_upd {A B} (P : A -> B -> Prop) l l' : Forall2 P l l' -> forall i a b, nth_error l i = Some a -> P a b -> Forall2 P l (upd l' i b).
Proof. induction 1; intros [|i] a b E H1; cbn in *; try discriminate; constructor; auto; [now injection E as ->|eauto]. Qed.
Lemma f2_len {A B} (P : A -> B -> Prop) l l' : Forall2 P l l' -> length l = length l'.
Proof. induction 1; cbn; congruence. Qed.
Lemma f2_mono {A B} (P Q : A -> B -> Prop) l l' : (forall a b, P a b -> Q a b) -> Forall2 P l l' -> Forall2 Q l l'.
Proof. induction 2; constructor; auto. Qed.
Lemma typed_cell ct mem l c : well_typed v ct mem -> nth_error ct l = Some c -> exists x, nth_error mem l = Some x /\ has_cell v ct c x.
Proof. intros H. exact (f2_nth _ _ _ H l c). Qed.
Lemma cell_ext ct e c x : has_cell v ct c x -> has_cell v (ct ++ e) c x.
Proof. destruct c, x; cbn; auto; [apply has_ext|]. intros H k y J. eapply has_ext, H, J. Qed.
Lemma memok_cell w mem l t0 : memok w mem -> nth_error (w_ct w) l = Some (CVar t0) ->
  exists X, nth_error mem l = Some (MCell X) /\ mvar mem l = X /\ has (w_ct w) t0 X.
Proof.
  intros K E. destruct (typed_cell _ _ _ _ (ok_typed _ _ K) E) as (x & Ex & H). destruct x as [X|]; [|contradiction].
  exists X. split; [exact Ex|]. split; [unfold mvar; now rewrite Ex|exact H].
Qed.
Lemma memok_map w mem l t : memok w mem -> nth_error (w_ct w) l = Some (CEntries t) ->
  nth_error mem l = Some (MEntries (mentries mem l)) /\ forall k m, In (k, m) (mentries mem l) -> has (w_ct w) t m.
Proof.
  intros K E. destruct (typed_cell _ _ _ _ (ok_typed _ _ K) E) as (x & Ex & H). destruct x as [|es]; [contradiction|].
  unfold mentries. rewrite Ex. auto.
Qed.
Lemma rd_has w mem r ty : memok w mem -> located w r ty -> has (w_ct w) ty (rd v mem r).
Proof.
  intros K (t0 & E & T). destruct (memok_cell _ _ _ _ K E) as (X & _ & Ex & H). unfold rd. rewrite Ex. eapply has_getp; eassumption.
Qed.
Lemma rd_open w mem r ty md : memok w mem -> good w r ty md -> md <> RO -> vopen w ty (rd v mem r).
Proof.
  intros K [(t0 & E & T) O] N l R. destruct (O N) as [O1 O2]. destruct (memok_cell _ _ _ _ K E) as (X & En & Ex & H).
  unfold rd in R. rewrite Ex in R. eapply (ok_closed _ _ K _ _ _ _ O1 E En). cbn. eapply erefers_getp; eassumption.
Qed.
Lemma memok_upd w mem l c x : memok w mem -> nth_error (w_ct w) l = Some c -> has_cell v (w_ct w) c x -> w_op w l ->
  (forall l', cell_erefers v c x l' -> w_op w l') ->
  (strict -> forall t0 Y p ty, c = CVar t0 -> x = MCell Y -> type_at t0 p = Some ty -> sealed p -> getp v p Y = getp v p (mvar mem l)) ->
  memok w (upd mem l x).
Proof.
  intros K E H O R St. pose proof (typed_cell _ _ _ _ (ok_typed _ _ K) E) as (y & Ey & _).
  assert (L : l < length mem) by (apply nth_error_Some; congruence).
  constructor.
  - eapply f2_upd; [apply K|exact E|exact H].
  - rewrite upd_length. apply K.
  - intros l1 c1 cell l' O1 E1 En. destruct (Nat.eq_dec l1 l) as [->|N].
    + rewrite nth_error_upd_same in En by exact L. injection En as <-. rewrite E in E1. injection E1 as <-. apply R.
    + rewrite nth_error_upd_other in En by auto. intros C. eapply (ok_closed _ _ K); eassumption.
  - intros l1 L1 N1. rewrite nth_error_upd_other; [now apply K|]. intros ->. contradiction.
  - intros S l1 t0 p ty L1 E1 T Sp. rewrite <- (ok_sealed _ _ K S _ _ _ _ L1 E1 T Sp). unfold rd. cbn [fst snd].
    destruct (Nat.eq_dec l1 l) as [->|N]; [|unfold mvar; now rewrite nth_error_upd_other by auto].
    unfold mvar at 1. rewrite nth_error_upd_same by exact L. rewrite E in E1. injection E1 as ->.
    destruct x as [Y|]; [|contradiction]. eapply St; eauto.
Qed.
Lemma refs_ext w w' rs : wext w w' -> Forall (fun t : loc * tref => good w (tr_ref (snd t)) (tr_ty (snd t)) (tr_md (snd t))) rs ->
  Forall (fun t => good w' (tr_ref (snd t)) (tr_ty (snd t)) (tr_md (snd t))) rs.
Proof. intros E H. eapply Forall_impl; [|exact H]. intros t. now apply good_ext. Qed.
Definition wnew (w : world) (c : ctype) (o : Prop) : world :=
  mkW (w_ct w ++ [c]) (fun l => (l < length (w_ct w) /\ w_op w l) \/ (length (w_ct w) <= l /\ o)).
Lemma wnew_ext w c o : wext w (wnew w c o).
Proof. split; [exists [c]; reflexivity|]. intros l L. cbn. split; [intros [[]|[]]; auto; lia|auto]. Qed.
Lemma cell_refer_lt ct c x l : has_cell v ct c x -> cell_erefers v c x l -> l < length ct.
Proof. destruct c, x; cbn; try contradiction; [apply refer_lt|]. intros H (k & y & J & R). eapply refer_lt; [eapply H, J|exact R]. Qed.
Lemma memok_new w mem c x (o : Prop) : memok w mem -> has_cell v (w_ct w) c x -> (o -> forall l', cell_erefers v c x l' -> w_op w l') ->
  memok (wnew w c o) (mem ++ [x]) /\ length mem = length (w_ct w).
Proof.
  intros K H O. assert (Ln : length mem = length (w_ct w)) by (symmetry; eapply f2_len, K). split; [|exact Ln].
  assert (Eq : forall l c', nth_error (w_ct w ++ [c]) l = Some c' -> nth_error (w_ct w) l = Some c' \/ (l = length (w_ct w) /\ c' = c)).
  { intros l c' E. destruct (Nat.lt_ge_cases l (length (w_ct w))); [rewrite nth_error_app1 in E by assumption; auto|].
    rewrite nth_error_app2 in E by assumption. destruct (l - length (w_ct w)) as [|[|]] eqn:D; cbn in E; try discriminate. injection E as <-. right. split; [lia|auto]. }
  constructor; cbn [wnew w_ct w_op].
  - apply Forall2_app; [|constructor; [now apply cell_ext|constructor]]. eapply f2_mono; [|apply K]. intros. now apply cell_ext.
  - rewrite app_length. pose proof (ok_len _ _ K). lia.
  - intros l1 c1 cell l' O1 E1 En C. destruct (Eq _ _ E1) as [E2|[-> ->]].
    + pose proof (cell_lt _ _ _ E2) as L. rewrite nth_error_app1 in En by lia.
      assert (O2 : w_op w l1) by (destruct O1 as [[]|[]]; [assumption|lia]).
      pose proof (typed_cell _ _ _ _ (ok_typed _ _ K) E2) as (y & Ey & Hy). rewrite En in Ey. injection Ey as <-.
      left. split; [eapply cell_refer_lt; eassumption|]. eapply (ok_closed _ _ K); eassumption.
    + rewrite nth_error_app2 in En by lia. rewrite <- Ln, Nat.sub_diag in En. injection En as <-.
      left. split; [eapply cell_refer_lt; eassumption|]. apply O; [|exact C]. destruct O1 as [[]|[]]; [lia|assumption].
  - intros l1 L1 N1. pose proof (ok_len _ _ K). rewrite nth_error_app1 by lia. apply K; [exact L1|]. intros O1. apply N1. left. split; [lia|exact O1].
  - intros S l1 t0 p ty L1 E1 T Sp. pose proof (ok_len _ _ K). destruct (Eq _ _ E1) as [E2|[-> _]]; [|lia].
    rewrite <- (ok_sealed _ _ K S _ _ _ _ L1 E2 T Sp). unfold rd, mvar. cbn [fst snd]. now rewrite nth_error_app1 by lia.
Qed.
Lemma p_new w c x (o : Prop) : has_cell v (w_ct w) c x -> (o -> forall l', cell_erefers v c x l' -> w_op w l') ->
  pres w (new_cell x) (fun w' l => nth_error (w_ct w') l = Some c /\ (o -> w_op w' l)).
Proof.
  intros H O s (A1 & A2 & A3). destruct (memok_new _ _ _ _ o A2 H O) as [B Ln]. exists (wnew w c o). split; [apply wnew_ext|].
  split; [split; [exact A1|split; [exact B|eapply refs_ext; [apply wnew_ext|exact A3]]]|].
  intros a E. injection E as <-. cbn. rewrite Ln. split; [now rewrite nth_error_app2, Nat.sub_diag by lia|]. intros Ho. right. split; [lia|exact Ho].
Qed.
Lemma p_cell w l c x : nth_error (w_ct w) l = Some c -> has_cell v (w_ct w) c x -> w_op w l ->
  (forall l', cell_erefers v c x l' -> w_op w l') ->
  (forall t0 p ty, strict -> c = CVar t0 -> type_at t0 p = Some ty -> ~ sealed p) ->
  keep w (set_cell l x).
Proof.
  intros E H O R St. apply p_same. intros s (A1 & A2 & A3). split; [|auto]. split; [exact A1|]. split; [|exact A3].
  cbn. eapply memok_upd; try eassumption. intros S t0 Y p ty Ec _ T Sp. exfalso. eapply St; eassumption.
Qed.
Lemma p_read w r ty : located w r ty -> pres w (read v r) (fun w' x => has (w_ct w') ty x /\ (forall md, good w' r ty md -> md <> RO -> vopen w' ty x)).
Proof.
  intros G. unfold read. eapply p_bind; [apply p_mem|]. intros w' mem E K. apply p_ret.
  split; [apply rd_has; [exact K|eapply located_ext; eassumption]|]. intros md G' N. eapply rd_open; eassumption.
Qed.
Lemma memok_write w mem r ty x : memok w mem -> good w r ty Settable -> has (w_ct w) ty x -> vopen w ty x -> (strict -> plain_type v ty) ->
  memok w (upd mem (fst r) (MCell (putp v (snd r) (mvar mem (fst r)) x))).
Proof.
  intros K G H O Pl. destruct G as [(t0 & E & T) GO]. destruct GO as [O1 O2]; [discriminate|].
  destruct (memok_cell _ _ _ _ K E) as (X & En & Ex & HX). rewrite Ex. eapply memok_upd; try eassumption.
  - cbn. eapply has_putp; eassumption.
  - cbn. intros l' R. eapply erefers_putp in R as [R|R]; try eassumption; [|auto]. eapply (ok_closed _ _ K _ _ _ _ O1 E En). exact R.
  - intros S t1 Y p ty1 Ec EY T1 Sp. injection Ec as <-. injection EY as <-. rewrite Ex. eapply getp_other; eauto.
Qed.
Lemma p_write w r ty x : good w r ty Settable -> has (w_ct w) ty x -> vopen w ty x -> (strict -> plain_type v ty) ->
  keep w (write v r x).
Proof.
  intros G H O Pl. apply p_same. intros s (A1 & A2 & A3). split; [|auto]. split; [exact A1|]. split; [|exact A3].
  cbn. eapply memok_write; eassumption.
Qed.
Lemma p_mset w md r ty x : good w r ty md -> has (w_ct w) ty x -> vopen w ty x -> (strict -> plain_type v ty) -> keep w (mset v md r x).
Proof.
  intros G H O Pl. eapply p_bind; [apply p_check|]. intros w' _ E ->.
  eapply p_write; [eapply good_ext; eassumption|eapply has_wext; eassumption|eapply vopen_ext; eassumption|exact Pl].
Qed.

(** setting scalars *)
Lemma plain_leaf ty : (forall st p, type_at ty (st :: p) = None) -> plain_type v ty.
Proof. intros H [|st p] T (st' & J & _); [destruct J|]. now rewrite H in T. Qed.
Lemma plain_bytes n k : plain_type v (TyArr n (TyInt k)).
Proof.
  intros p T (st & J & U). destruct p as [|[id j|j] p]; [destruct J|now cbn in T|].
  destruct J as [<-|J]; [exact U|]. cbn [SpecMemType.type_at] in T. destruct (Nat.ltb j n); [|congruence].
  destruct p as [|[|] p]; [destruct J| |]; now cbn in T.
Qed.
Ltac plain := intros _; first [apply plain_bytes | apply plain_leaf; intros [?|?] ?; reflexivity].
Ltac norefs := let l := fresh in let R := fresh in intros l R; inversion R.
Lemma p_setInt w ty md r i : good w r ty md -> keep w (msetInt v ty md r i).
Proof. intros G. destruct ty; try apply p_panic. eapply p_mset; [exact G|constructor; apply wrap_kind_range|norefs|plain]. Qed.
Lemma p_setFloat w ty md r i : good w r ty md -> keep w (msetFloat v ty md r i).
Proof. intros G. destruct ty; try apply p_panic; (eapply p_mset; [exact G|constructor|norefs|plain]). Qed.
Lemma p_setBool w ty md r i : good w r ty md -> keep w (msetBool v ty md r i).
Proof. intros G. destruct ty; try apply p_panic; (eapply p_mset; [exact G|constructor|norefs|plain]). Qed.
Lemma p_setString w ty md r i : good w r ty md -> keep w (msetString v ty md r i).
Proof. intros G. destruct ty; try apply p_panic; (eapply p_mset; [exact G|constructor|norefs|plain]). Qed.
Lemma p_iface w ty md r x : good w r ty md -> int_ok x -> keep w (mset_iface v ty md r x).
Proof. intros G Hx. destruct ty; try apply p_panic. eapply p_mset; [exact G|now constructor|norefs|plain]. Qed.
Lemma slice_open w t l : w_op w l -> vopen w (TySlice t) (MSlice (Some l)).
Proof. intros O l' R. inversion R; now subst. Qed.
Lemma map_open w t l : w_op w l -> vopen w (TyMap t) (MMap (Some l)).
Proof. intros O l' R. inversion R; now subst. Qed.
Lemma ptr_open w t l : w_op w l -> vopen w (TyPtr t) (MPtr (Some l)).
Proof. intros O l' R. inversion R; now subst. Qed.
Lemma zero_open w ty : vopen w ty (mzero ty).
Proof. intros l R. now apply zero_erefers in R. Qed.
Lemma copy_has ct n dst val : has ct (TyArr n (TyInt KUint8)) (MArr dst) -> has ct (TyArr n (TyInt KUint8)) (MArr (mcopy_over dst val)).
Proof.
  intros H. apply has_arr_inv in H as (ms & E & L & H). injection E as <-. unfold mcopy_over. constructor.
  - rewrite app_length, firstn_length, map_length, skipn_length. lia.
  - intros m J. apply in_app_iff in J as [J|J].
    + assert (J' : In m (map byte_mval val)) by (rewrite <- (firstn_skipn (length dst)); apply in_app_iff; auto).
      pose proof (has_bytes v ct val) as B. apply has_arr_inv in B as (ms & E & _ & B). injection E as <-. auto.
    + apply H. rewrite <- (firstn_skipn (length val)). apply in_app_iff. auto.
Qed.
Lemma noref_bytes ct n k x l : has ct (TyArr n (TyInt k)) x -> ~ erefers (TyArr n (TyInt k)) x l.
Proof.
  intros H R. apply has_arr_inv in H as (ms & -> & _ & H). inversion R; subst.
  match goal with K : erefers (TyInt k) _ _ |- _ => inversion K end.
Qed.
Lemma good_md w r ty md md' : good w r ty md -> (md' <> RO -> md <> RO) -> good w r ty md'.
Proof. intros [L O] N. split; [exact L|auto]. Qed.
Lemma md_elem_ro md : md_elem md <> RO -> md <> RO. Proof. destruct md; cbn; congruence. Qed.
Lemma md_entry_ro md : md_entry md <> RO -> md <> RO. Proof. destruct md; cbn; congruence. Qed.
Lemma good_cell w l t md : nth_error (w_ct w) l = Some (CVar t) -> (md <> RO -> w_op w l) -> good w (l, []) t md.
Proof. intros E O. split; [exists t; split; [exact E|reflexivity]|]. intros N. split; [auto|]. intros (st & [] & _). Qed.
Lemma p_setBinary w ty md r val : good w r ty md -> keep w (msetBinary v ty md r val).
Proof.
  intros G. unfold msetBinary. eapply p_bind; [eapply p_read, G|]. intros w1 cur E1 [H1 O1].
  apply (good_ext _ _ _ _ _ E1) in G. clear w E1. destruct ty as [| | | | | |t|n t|t|t|id]; try apply p_panic.
  - eapply p_mset; [exact G|constructor|norefs|plain].
  - destruct t as [kk| | | | | | | | | |]; try apply p_panic; destruct kk; try apply p_panic.
    inversion H1; subst.
    + eapply p_bind; [apply p_lift, hp_log|]. intros w2 _ E2 _. eapply p_bind; [apply p_check|]. intros w3 _ E3 ->.
      eapply p_bind; [apply (p_new w3 (CVar (TyArr (length val) (TyInt KUint8))) _ True); [apply has_bytes|]|].
      { intros _ l' R. cbn in R. exfalso. eapply noref_bytes; [apply (has_bytes v (w_ct w3))|exact R]. }
      intros w4 l E4 [El Ol]. eapply p_write; [|econstructor; exact El|apply slice_open; auto|plain].
      eapply good_ext; [exact E4|]. eapply good_ext; [exact E3|]. eapply good_ext; [exact E2|]. exact G.
    + eapply p_bind; [apply p_check|]. intros w2 u E2 Md. cbv beta in Md. clear u. eapply p_bind; [apply p_mem|]. intros w3 mem E3 K.
      assert (E : wext w1 w3) by (eapply wext_trans; eassumption).
      match goal with X : nth_error _ l = Some _ |- _ => apply (nth_ext _ _ _ _ E) in X; rename X into El end.
      destruct (memok_cell _ _ _ _ K El) as (X & _ & -> & HX). pose proof HX as HX2. apply has_arr_inv in HX2 as (ms & -> & Ln & _).
      eapply p_cell; [exact El|apply copy_has, HX| | |].
      * apply E; [match goal with X : has _ _ (MSlice (Some l)) |- _ => eapply refer_lt; [exact X|constructor] end|].
        eapply O1; [exact G|intros ->; discriminate Md|constructor].
      * intros l' R. exfalso. eapply noref_bytes; [apply copy_has, HX|exact R].
      * intros t0 p ty _ Ec T. injection Ec as <-. apply (plain_bytes n KUint8 p). congruence.
  - destruct t as [kk| | | | | | | | | |]; try apply p_panic; destruct kk; try apply p_panic.
    pose proof H1 as H2. apply has_arr_inv in H2 as (ms & -> & Ln & _).
    eapply p_mset; [exact G|apply copy_has, H1| |plain]. intros l' R. exfalso. eapply noref_bytes; [apply copy_has, H1|exact R].
Qed.

(** values of interface{} variables *)
Lemma build_bytes l mem : build (VSlice (Some (map byte_val l))) mem = (MSlice (Some (length mem)), mem ++ [MCell (MArr (map byte_mval l))]).
Proof.
  cbn [build]. match goal with |- context [?g (map byte_val l) mem] => assert (G : forall l, g (map byte_val l) mem = (map byte_mval l, mem)) end.
  { clear l. induction l as [|b l IH]; [reflexivity|]. cbn [map]. cbn [build]. cbn. cbn in IH. now rewrite IH. }
  now rewrite G.
Qed.
Lemma build_ifaces {X} (f : X -> gval) l mem : build (VSlice (Some (map (fun x => VIface (f x)) l))) mem =
  (MSlice (Some (length mem)), mem ++ [MCell (MArr (map (fun x => MIface (f x)) l))]).
Proof.
  cbn [build]. match goal with |- context [?g (map _ l) mem] => assert (G : forall l, g (map (fun x => VIface (f x)) l) mem = (map (fun x => MIface (f x)) l, mem)) end.
  { clear l. induction l as [|b l IH]; [reflexivity|]. cbn [map]. cbn. cbn in IH. now rewrite IH. }
  now rewrite G.
Qed.
Lemma build_map (l : list (bytes * gval)) mem : build (VMap (Some (map (fun kv => (fst kv, VIface (snd kv))) l))) mem =
  (MMap (Some (length mem)), mem ++ [MEntries (map (fun kv => (fst kv, MIface (snd kv))) l)]).
Proof.
  cbn [build]. match goal with |- context [?g (map _ l) mem] => assert (G : forall l, g (map (fun kv => (fst kv, VIface (snd kv))) l) mem = (map (fun kv => (fst kv, MIface (snd kv))) l, mem)) end.
  { clear l. induction l as [|b l IH]; [reflexivity|]. cbn [map]. cbn. cbn in IH. now rewrite IH. }
  now rewrite G.
Qed.
Lemma noref_ifaces ct n x l : has ct (TyArr n TyIface) x -> ~ erefers (TyArr n TyIface) x l.
Proof.
  intros H R. apply has_arr_inv in H as (ms & -> & _ & H). inversion R; subst.
  match goal with K : erefers TyIface _ _ |- _ => inversion K end.
Qed.
Lemma new_open w mem c x : memok w mem -> has_cell v (w_ct w) c x -> (forall l', cell_erefers v c x l' -> w_op w l') ->
  exists w', wext w w' /\ memok w' (mem ++ [x]) /\ nth_error (w_ct w') (length mem) = Some c /\ w_op w' (length mem).
Proof.
  intros K H O. destruct (memok_new w mem c x True K H (fun _ => O)) as [K' Ln]. exists (wnew w c True).
  split; [apply wnew_ext|]. split; [exact K'|]. cbn. rewrite Ln. split; [now rewrite nth_error_app2, Nat.sub_diag by lia|]. right. auto.
Qed.
Lemma build_typed h : ints_ok h -> forall ty x y w mem, of_gval h ty x = Some y -> int_ok x -> memok w mem ->
  exists w', wext w w' /\ memok w' (snd (build y mem)) /\ has (w_ct w') ty (fst (build y mem)) /\ vopen w' ty (fst (build y mem)).
Proof.
  intros Ih. induction ty; intros x y w mem H Ix K; cbn [of_gval] in H.
  1-6: try (destruct x; try discriminate; try (destruct named; try discriminate); try (destruct (ikind_eqb _ _) eqn:Ek; try discriminate)); injection H as <-; exists w;
    (split; [apply wext_refl|]); cbn [build fst snd]; (split; [exact K|]); (split; [constructor|norefs]); auto.
  1: { destruct k, k0; try discriminate; exact Ix. }
  - assert (C : (exists w0, ty = TyInt KUint8 /\ x = GBytes w0 /\ y = VSlice (Some (map byte_val (hview h w0)))) \/
      exists base n, ty = TyIface /\ y = VSlice (Some (map (fun l => VIface (hget h l)) (seq base n)))).
    { destruct ty; try discriminate; [destruct k; try discriminate|]; (destruct x; try discriminate); injection H as <-; eauto 8. }
    destruct C as [(w0 & -> & -> & ->)|(base & n & -> & ->)]; [rewrite build_bytes|rewrite build_ifaces]; cbn [fst snd].
    + destruct (new_open w mem (CVar (TyArr (length (hview h w0)) (TyInt KUint8))) (MCell (MArr (map byte_mval (hview h w0)))) K) as (w' & A1 & A2 & A3 & A4).
      { apply has_bytes. } { intros l' R. exfalso. eapply noref_bytes; [apply (has_bytes v (w_ct w))|exact R]. }
      exists w'. split; [exact A1|]. split; [exact A2|]. split; [econstructor; exact A3|now apply slice_open].
    + set (ms := map (fun l => MIface (hget h l)) (seq base n)).
      assert (Hm : has (w_ct w) (TyArr n TyIface) (MArr ms)).
      { constructor; [unfold ms; now rewrite map_length, seq_length|]. intros m J. apply in_map_iff in J as (l & <- & _). constructor. apply Ih. }
      destruct (new_open w mem (CVar (TyArr n TyIface)) (MCell (MArr ms)) K Hm) as (w' & A1 & A2 & A3 & A4).
      { intros l' R. exfalso. eapply noref_ifaces; eassumption. }
      exists w'. split; [exact A1|]. split; [exact A2|]. split; [econstructor; exact A3|now apply slice_open].
  - discriminate.
  - destruct ty; try discriminate. destruct x; try discriminate. injection H as <-. rewrite build_map. cbn [fst snd].
    set (es := map _ _).
    assert (He : forall k m, In (k, m) es -> has (w_ct w) TyIface m).
    { intros k m J. unfold es in J. apply in_map_iff in J as ([k1 x1] & E & J). injection E as <- <-. constructor. eapply Ih, J. }
    destruct (new_open w mem (CEntries TyIface) (MEntries es) K He) as (w' & A1 & A2 & A3 & A4).
    { intros l' (k & m & J & R). apply He in J. inversion J; subst; inversion R. }
    exists w'. split; [exact A1|]. split; [exact A2|]. split; [econstructor; exact A3|now apply map_open].
  - assert (C : (exists l, ty = TyIface /\ x = GPtr true l /\ y = VPtr (Some (VIface (hget h l)))) \/
      exists l z, of_gval h ty (hget h l) = Some z /\ y = VPtr (Some z)).
    { destruct ty; destruct x; try discriminate; destruct toIface; try discriminate;
        first [injection H as <-; left; eauto; fail
              |right; destruct (of_gval h _ (hget h l)) as [z|] eqn:Z; [|discriminate]; injection H as <-; eauto]. }
    assert (D : exists l z, of_gval h ty (hget h l) = Some z /\ y = VPtr (Some z)).
    { destruct C as [(l & -> & _ & ->)|C]; [exists l, (VIface (hget h l)); auto|exact C]. }
    destruct D as (l & z & Z & ->). destruct (IHty _ _ w mem Z ltac:(apply Ih) K) as (w1 & B1 & B2 & B3 & B4).
    cbn [build]. destruct (build z mem) as [m mem1]. cbn [fst snd] in *.
    destruct (new_open w1 mem1 (CVar ty) (MCell m) B2 B3 B4) as (w' & A1 & A2 & A3 & A4).
    exists w'. split; [eapply wext_trans; eassumption|]. split; [exact A2|]. split; [econstructor; exact A3|now apply ptr_open].
  - discriminate.
Qed.
Lemma p_set_gval w ty md r x : good w r ty md -> int_ok x -> (strict -> plain_type v ty) -> keep w (set_gval v ty md r x).
Proof.
  intros G Ix Pl. eapply p_bind; [apply p_check|]. intros w1 _ E1 -> s I.
  apply (good_ext _ _ _ _ _ E1) in G.
  destruct (of_gval _ ty x) as [y|] eqn:Y; [|exists w1; split; [apply wext_refl|split; [exact I|discriminate]]].
  destruct I as (A1 & A2 & A3). destruct (build_typed _ A1 _ _ _ _ _ Y Ix A2) as (w2 & E2 & B1 & B2 & B3).
  destruct (build y (m_mem s)) as [m mem]. cbn [fst snd] in *.
  destruct (p_write w2 r ty m (good_ext _ _ _ _ _ E2 G) B2 B3 Pl (mkM (m_d s) mem (m_refs s))) as (w3 & E3 & R).
  { split; [exact A1|split; [exact B1|eapply refs_ext; eassumption]]. }
  exists w3. split; [eapply wext_trans; eassumption|exact R].
Qed.
Variable c : dconfig.
Lemma p_ref_iface w ty md r x b : good w r ty md -> int_ok x -> (strict -> plain_type v ty) -> keep w (ref_iface c v ty md r x b).
Proof.
  intros G Ix Pl. unfold ref_iface. destruct x; try apply p_panic; destruct (b && d_noref c)%bool;
    try apply p_panic; try (now apply p_set_gval); try (apply p_set_gval; [exact G|exact I|exact Pl]).
  destruct toIface; (eapply p_bind; [apply p_lift, hp_get|]; intros w1 y E1 Iy; apply (good_ext _ _ _ _ _ E1) in G).
  - destruct ty; try apply p_panic. eapply p_mset; [exact G|now constructor|norefs|exact Pl].
  - now apply p_set_gval.
Qed.
Lemma p_get_ref w l : pres w (get_ref l) (fun w' o => match o with Some t => good w' (tr_ref t) (tr_ty t) (tr_md t) | None => True end).
Proof.
  apply p_same. intros s I. split; [exact I|]. intros a E. injection E as <-. destruct I as (_ & _ & R).
  destruct (assoc_nat l (m_refs s)) as [t|] eqn:E; [|exact Logic.I]. apply assoc_in in E. rewrite Forall_forall in R. exact (R _ E).
Qed.
Lemma p_track w idx r ty md : good w r ty md -> keep w (mtrack idx r ty md).
Proof.
  intros G. unfold mtrack. eapply p_bind; [apply p_lift, hp_alloc; exact I|]. intros w1 l E1 _.
  eapply p_bind; [apply p_lift, hp_track|]. intros w2 u E2 _. apply p_same. intros s (A1 & A2 & A3). split; [|auto].
  split; [exact A1|]. split; [exact A2|]. constructor; [|exact A3]. cbn. eapply good_ext; [exact E2|]. eapply good_ext; eassumption.
Qed.
Lemma gtype_eqb_eq a : forall b, gtype_eqb a b = true -> a = b.
Proof.
  induction a; intros b H; destruct b; try discriminate; cbn [gtype_eqb] in H; try reflexivity; try (f_equal; auto; fail).
  - destruct k, k0; try discriminate; reflexivity.
  - apply andb_true_iff in H as [H1 H2]. apply Nat.eqb_eq in H1 as ->. f_equal; auto.
  - now apply Nat.eqb_eq in H as ->.
Qed.
Lemma p_then A w (m : TM A) P (i : nat) : pres w m P -> keep w (do! _ := m in tret i).
Proof. intros H. eapply p_bind; [exact H|]. intros. now apply p_ret. Qed.
Variable by_ : bytes.
Lemma p_refp w ty md r idx b : ~ strict -> good w r ty md -> keep w (mdecodeRefp c v by_ ty md r idx b).
Proof.
  intros NS G. assert (Pl : forall ty, strict -> plain_type v ty) by (intros; contradiction).
  unfold mdecodeRefp. eapply p_bind; [apply p_lift, hp_varint'|]. intros w1 [offs sz] E1 _. apply (good_ext _ _ _ _ _ E1) in G.
  destruct (_ || _)%bool; [apply p_fail|]. eapply p_bind; [apply p_lift, hp_tracked|]. intros w2 o E2 _. apply (good_ext _ _ _ _ _ E2) in G.
  destruct o as [l|]; [|apply p_fail]. eapply p_bind; [apply p_get_ref|]. intros w3 o E3 Ho. apply (good_ext _ _ _ _ _ E3) in G.
  destruct o as [t|].
  - eapply p_bind; [eapply p_read, Ho|]. intros w4 x E4 [Hx Ox]. apply (good_ext _ _ _ _ _ E4) in G. apply (good_ext _ _ _ _ _ E4) in Ho.
    assert (D : tr_md t <> RO -> keep w4 (if gtype_eqb (tr_ty t) ty then do! _ := mset v md r x in tret (idx + sz)
                  else match ty with
                       | TyIface => do! _ := mset v md r (MIface GOpaque) in tret (idx + sz)
                       | _ => tpanic EReflect
                       end)).
    { intros N. destruct (gtype_eqb _ _) eqn:Eq.
      - apply gtype_eqb_eq in Eq. eapply p_then, p_mset; [exact G|rewrite <- Eq; exact Hx|rewrite <- Eq; eapply Ox; eassumption|auto].
      - destruct ty; try apply p_panic. eapply p_then, p_mset; [exact G|constructor; exact I|norefs|auto]. }
    destruct (tr_md t) eqn:Em; try apply p_panic; (specialize (D ltac:(congruence))); destruct (tr_ty t) eqn:Et; try exact D;
      destruct g; try exact D; destruct x as [| | | | | | | | |o|]; try exact D; destruct o as [l0|]; try exact D;
      (eapply p_bind; [apply p_mem|]; intros w5 mem E5 K; apply (good_ext _ _ _ _ _ E5) in G;
       destruct (mvar mem l0) eqn:Mv; try apply p_panic; eapply p_then, p_ref_iface; [exact G| |auto];
       inversion Hx; subst; match goal with X : nth_error _ l0 = _ |- _ => apply (nth_ext _ _ _ _ E5) in X; destruct (memok_cell _ _ _ _ K X) as (Y & _ & EY & HY) end;
       rewrite Mv in EY; subst Y; inversion HY; assumption).
  - eapply p_bind; [apply p_lift, hp_get|]. intros w4 x E4 Ix. apply (good_ext _ _ _ _ _ E4) in G. eapply p_then, p_ref_iface; auto.
Qed.

Section Body.
Variable ibuf : loc.
Variable ishift : nat.
Variable rec : gtype -> mref -> amode -> nat -> TM nat.
Variable urec : nat -> loc -> M nat.
Hypothesis rec_ok : forall w ty r md idx, good w r ty md -> keep w (rec ty r md idx).
Hypothesis urec_ok : forall i l, hp (urec i l) (fun _ => True).
Ltac up E G := apply (good_ext _ _ _ _ _ E) in G.
Lemma p_discard w i : keep w (lift_ (discard urec i)).
Proof. apply p_lift. unfold discard. eapply hp_bind; [apply hp_alloc; exact I|]. intros. apply urec_ok. Qed.
Lemma good_inside w r ty st t md md' : good w r ty md -> type_at ty [st] = Some t -> (md' <> RO -> md <> RO /\ ~ unexported v st) ->
  good w (inside r st) t md'.
Proof.
  intros [(t0 & E & T) O] T1 N. split.
  - exists t0. split; [exact E|]. cbn [inside snd]. now rewrite (type_app _ _ _ _ _ T).
  - intros M. destruct (N M) as [N1 N2]. destruct (O N1) as [O1 O2]. split; [exact O1|]. intros (st' & J & U).
    apply in_app_iff in J as [J|[<-|[]]]; [apply O2; exists st'; auto|contradiction].
Qed.
Definition elems (ty t : gtype) : Prop := ty = TySlice t \/ exists n, ty = TyArr n t.
Lemma p_index w r ty t i md : good w r ty md -> elems ty t -> pres w (index_ref v r i) (fun w' e => good w' e t md).
Proof.
  intros G El. unfold index_ref. eapply p_bind; [apply p_mem|]. intros w1 mem E1 K. up E1 G.
  pose proof (rd_has _ _ _ _ K (proj1 G)) as H. pose proof (rd_open _ _ _ _ _ K G) as O. destruct El as [-> |[n ->]].
  - apply has_slice_inv in H as [H|(l & n & H & El)]; rewrite H in *; [apply p_panic|].
    destruct (memok_cell _ _ _ _ K El) as (X & _ & -> & HX).
    apply has_arr_inv in HX as (ms & -> & Ln & _). destruct (Nat.ltb_spec i (length ms)); [|apply p_panic]. apply p_ret.
    split; [exists (TyArr n t); split; [exact El|cbn [SpecMemType.type_at snd]]|].
    { destruct (Nat.ltb_spec i n); [reflexivity|lia]. }
    intros N. split; [apply O; [exact N|constructor]|].
    intros (st & [<-|[]] & U). exact U.
  - apply has_arr_inv in H as (ms & -> & Ln & _). destruct (Nat.ltb_spec i (length ms)); [|apply p_panic]. apply p_ret.
    eapply good_inside; [exact G| |intros N; split; [exact N|intros []]]. cbn [SpecMemType.type_at].
    destruct (Nat.ltb_spec i n); [reflexivity|lia].
Qed.
Lemma p_array_loop n ty t md r : elems ty t -> forall w i ln idx, good w r ty md -> keep w (marray_loop v rec urec n t md r i ln idx).
Proof.
  intros El. induction n as [|n IH]; intros w i ln idx G; cbn [marray_loop]; [now apply p_ret|].
  eapply p_bind with (P := fun _ _ => True); [|intros w1 j E1 _; up E1 G; now apply IH]. destruct (Nat.ltb i ln); [|apply p_discard].
  eapply p_bind; [eapply p_index; eassumption|]. intros w1 e E1 Ge. now apply rec_ok.
Qed.
Lemma p_array w idx ln ty r md : good w r ty md -> keep w (mdecodeArray v by_ rec urec idx ln ty r md).
Proof.
  intros G. unfold mdecodeArray.
  destruct (_ || _)%bool; [apply p_fail|]. destruct (_ <? _)%Z; [apply p_fail|].
  assert (Mk : forall w t, good w r (TySlice t) md -> keep w (do! _ := mcheck md in
      do! _ := lift_ (log_make (Z.to_nat ln) (length by_ - idx)) in
      do! l := new_cell (MCell (MArr (repeat (mzero t) (Z.to_nat ln)))) in
      do! _ := write v r (MSlice (Some l)) in
      marray_loop v rec urec (Z.to_nat ln) t Settable r 0 (Z.to_nat ln) idx)).
  { clear w G. intros w t G. eapply p_bind; [apply p_check|]. intros w1 u1 E1 ->. up E1 G. eapply p_bind; [apply p_lift, hp_log|]. intros w2 u2 E2 _. up E2 G.
    eapply p_bind; [apply (p_new w2 (CVar (TyArr (Z.to_nat ln) t)) _ True)|].
    { constructor; [apply repeat_length|]. intros m J. apply repeat_spec in J as ->. apply has_zero. }
    { intros _ l' R. cbn in R. inversion R; subst. match goal with J : In _ (repeat _ _) |- _ => apply repeat_spec in J; subst end. exfalso. eapply zero_erefers; eassumption. }
    intros w3 l E3 [El Ol]. up E3 G. eapply p_bind; [eapply p_write; [exact G|econstructor; exact El|apply slice_open; auto|plain]|].
    intros w4 u4 E4 _. up E4 G. eapply p_array_loop; [left; reflexivity|exact G]. }
  cbv zeta. eapply p_bind; [apply p_mem|]. intros w1 mem E1 K. up E1 G. pose proof (rd_has _ _ _ _ K (proj1 G)) as H.
  destruct ty as [| | | | | |t|n t|t|t|id]; try apply p_fail; destruct (rd v mem r) as [| | | | | |[l|]|ms| | |]; try apply p_fail.
  - destruct (mvar mem l) as [| | | | | | |ms| | |]; try apply p_fail. destruct ms; [now apply Mk|].
    eapply p_array_loop; [left; reflexivity|]. eapply good_md; [exact G|apply md_elem_ro].
  - now apply Mk.
  - eapply p_array_loop; [right; eauto|exact G].
Qed.
Lemma p_map_loop n t md r : forall w idx, good w r (TyMap t) md -> keep w (mmap_loop v by_ rec n t md r idx).
Proof.
  induction n as [|n IH]; intros w idx G; cbn [mmap_loop]; [now apply p_ret|].
  eapply p_bind; [apply p_lift, hp_stringish|]. intros w1 [kw i] E1 _. up E1 G.
  eapply p_bind; [apply p_mem|]. intros w2 mem E2 K. up E2 G.
  eapply p_bind with (P := fun _ _ => True); [|intros w3 j E3 _; up E3 G; now apply IH].
  assert (N : keep w2 (do! e := new_cell (MCell (mzero t)) in
            do! idx := rec t (e, []) Settable i in
            match md with
            | RO => tpanic EReflect
            | _ =>
                do! mem := get_mem in
                match rd v mem r with
                | MMap (Some l) =>
                    do! _ := set_cell l (MEntries (mput (mentries mem l) (win_bytes by_ kw) (mvar mem e))) in tret idx
                | _ => tpanic EReflect
                end
            end)).
  { eapply p_bind; [apply (p_new w2 (CVar t) _ True); [apply has_zero|intros _; apply zero_open]|]. intros w3 e E3 [Ee Oe]. up E3 G.
    eapply p_bind; [apply rec_ok, good_cell; [exact Ee|auto]|]. intros w4 j E4 _. up E4 G.
    assert (F : md <> RO -> keep w4 (do! mem := get_mem in
                match rd v mem r with
                | MMap (Some l) =>
                    do! _ := set_cell l (MEntries (mput (mentries mem l) (win_bytes by_ kw) (mvar mem e))) in tret j
                | _ => tpanic EReflect
                end)).
    { intros Nr. eapply p_bind; [apply p_mem|]. intros w5 mem2 E5 K2. up E5 G.
      pose proof (rd_has _ _ _ _ K2 (proj1 G)) as H. pose proof (rd_open _ _ _ _ _ K2 G Nr) as O.
      destruct (rd v mem2 r) as [| | | | | | | |[l|]| |]; try apply p_panic. eapply p_then.
      assert (El : nth_error (w_ct w5) l = Some (CEntries t)) by (inversion H; assumption).
      assert (Ol : w_op w5 l) by (apply O; constructor).
      pose proof (nth_ext _ _ _ _ E5 (nth_ext _ _ _ _ E4 Ee)) as Ee5.
      assert (Oe5 : w_op w5 e).
      { apply E5; [eapply cell_lt, nth_ext; [exact E4|exact Ee]|]. apply E4; [eapply cell_lt; exact Ee|auto]. }
      destruct (memok_map _ _ _ _ K2 El) as [En He]. destruct (memok_cell _ _ _ _ K2 Ee5) as (X & EnX & -> & HX).
      eapply p_cell; [exact El| |exact Ol| |discriminate].
      - cbn. intros k m J. apply in_mput in J as [-> |J]; [exact HX|eapply He, J].
      - cbn. intros l' (k & m & J & R). apply in_mput in J as [-> |J].
        + eapply (ok_closed _ _ K2 e _ _ _ Oe5 Ee5 EnX). exact R.
        + eapply (ok_closed _ _ K2 l _ _ _ Ol El En). cbn. eauto. }
    destruct md; try apply p_panic; apply F; discriminate. }
  pose proof (rd_has _ _ _ _ K (proj1 G)) as H. pose proof (rd_open _ _ _ _ _ K G) as O.
  destruct (rd v mem r) as [| | | | | | | |[l|]| |]; try exact N. destruct (mget _ _) as [x|] eqn:Gx; [|exact N].
  apply mget_In in Gx. assert (El : nth_error (w_ct w2) l = Some (CEntries t)) by (inversion H; assumption).
  destruct (memok_map _ _ _ _ K El) as [En He].
  eapply p_bind; [apply (p_new w2 (CVar t) _ (md <> RO)); [cbn; eapply He, Gx|]|].
  { intros Nr l' R. eapply (ok_closed _ _ K l _ _ _ (O Nr l ltac:(constructor)) El En). cbn. eauto. }
  intros w3 e E3 [Ee Oe]. apply rec_ok, good_cell; [exact Ee|]. intros Nr. apply Oe. now apply md_entry_ro.
Qed.
Lemma find_field_nth id key i f t : find_field v id key = Some (i, (f, t)) -> nth_error (st_fields (decls v id)) i = Some (f, t).
Proof.
  unfold find_field. destruct (mget _ key) as [j|]; [|destruct (mget _ (title v key)) as [j|]; [|discriminate]];
    destruct (nth_error _ j) eqn:E; try discriminate; intros [= <- ->]; exact E.
Qed.
Lemma p_struct_loop n id md r : forall w idx, good w r (TyStruct id) md -> keep w (mstruct_loop v by_ rec urec n id md r idx).
Proof.
  induction n as [|n IH]; intros w idx G; cbn [mstruct_loop]; [now apply p_ret|].
  eapply p_bind; [apply p_lift, hp_stringish|]. intros w1 [kw i] E1 _. up E1 G.
  eapply p_bind with (P := fun _ _ => True); [|intros w3 j E3 _; up E3 G; now apply IH].
  destruct (find_field _ _ _) as [[j [f t]]|] eqn:Ff; [|apply p_discard]. apply find_field_nth in Ff.
  apply rec_ok. eapply good_inside; [exact G|cbn [SpecMemType.type_at]; now rewrite Nat.eqb_refl, Ff|].
  unfold md_field. destruct (f_exported f) eqn:Xf; [|congruence]. intros N. split; [exact N|]. intros (f' & t' & E & X). congruence.
Qed.
Lemma p_hash ty : forall w idx ln r md, good w r ty md -> keep w (mdecodeHash v by_ rec urec ty idx ln r md).
Proof.
  induction ty; intros w idx ln r md G; cbn [mdecodeHash];
  (destruct (_ || _)%bool; [apply p_fail|]); (destruct (_ <? _)%Z; [apply p_fail|]);
  (eapply p_bind; [eapply p_read, G|]); intros w1 cur E1 [H O]; up E1 G; try apply p_fail.
  - destruct cur as [| | | | | | | |o| |]; try apply p_fail.
    eapply p_bind with (P := fun _ _ => True); [|intros w2 u E2 _; up E2 G; now apply p_map_loop]. destruct o; [now apply p_ret|].
    eapply p_bind; [apply p_check|]. intros w2 u E2 ->. up E2 G.
    eapply p_bind; [apply (p_new w2 (CEntries ty) _ True); [intros ? ? []|intros _ l' (? & ? & [] & _)]|]. intros w3 l E3 [El Ol]. up E3 G.
    eapply p_write; [exact G|now constructor|apply map_open; auto|plain].
  - destruct cur as [| | | | | | | | |o|]; try apply p_fail.
    eapply p_bind with (P := fun w' l => good w' (l, []) ty (md_elem md)); [|intros w2 l E2 Gl; now apply IHty]. destruct o as [l|].
    + apply p_ret. apply good_cell; [inversion H; assumption|]. intros N. eapply O; [exact G|now apply md_elem_ro|constructor].
    + eapply p_bind; [apply p_check|]. intros w2 u E2 ->. up E2 G.
      eapply p_bind; [apply (p_new w2 (CVar ty) _ True); [apply has_zero|intros _; apply zero_open]|]. intros w3 l E3 [El Ol]. up E3 G.
      eapply p_bind; [eapply p_write; [exact G|now constructor|apply ptr_open; auto|plain]|]. intros w4 u4 E4 _. apply p_ret.
      apply good_cell; [eapply nth_ext; eassumption|]. intros _. apply E4; [eapply cell_lt, El|auto].
  - destruct cur; try apply p_fail. now apply p_struct_loop.
Qed.
Lemma p_freeze w ty r md idx b : good w r ty md -> keep w (mdecodeFreeze c v by_ urec ty r md idx b).
Proof.
  intros G. unfold mdecodeFreeze. eapply p_bind; [apply p_lift, hp_class|]. intros w1 [cls i] E1 _. up E1 G. destruct (Nat.leb _ _); [apply p_fail|].
  destruct (nth_error by_ i), (nth_error by_ (i + 1)); try (eapply p_mono; [apply p_lift, (hp_crash _ (fun _ => True))|auto]).
  destruct (negb _); [apply p_fail|].
  eapply p_bind; [apply p_lift, hp_alloc; exact I|]. intros w2 l E2 _. up E2 G. eapply p_bind; [apply p_lift, urec_ok|]. intros w3 j E3 _. up E3 G.
  eapply p_bind; [apply p_lift, hp_get|]. intros w4 x E4 _. up E4 G. destruct x; try apply p_fail. destruct (negb _); [apply p_fail|].
  eapply p_bind; [apply p_lift, hp_get|]. intros w5 x E5 _. up E5 G. destruct x; try apply p_fail. destruct (d_perl c).
  { eapply p_bind; [apply p_lift, hp_alloc; exact I|]. intros w6 l2 E6 _. up E6 G. eapply p_then, p_iface; [exact G|exact I]. }
  eapply p_bind; [eapply p_read, G|]. intros w6 cur E6 [H O]. up E6 G.
  assert (F : keep w6 (do! _ := mcheck md in tfail (A := nat) ECannotUnpack)) by (eapply p_bind; [apply p_check|intros; apply p_fail]).
  destruct ty as [| | | | | |t|n1 t|t|t|id]; try exact F.
  - destruct cur as [| | | | |g| | | | |]; try exact F. destruct g; try exact F.
    assert (W : md <> RO -> keep w6 (fun s => if d_unmarshal c t (hview (d_heap (m_d s)) v0)
                          then (do! _ := write v r (MIface (GUserP t v0)) in tret j) s
                          else (Err EUser, s))).
    { intros Nr s I. destruct (d_unmarshal _ _ _); [|exists w6; split; [apply wext_refl|split; [exact I|discriminate]]].
      assert (Gs : good w6 r TyIface Settable) by (eapply good_md; [exact G|auto]).
      apply (p_then _ _ _ _ j (p_write w6 r TyIface (MIface (GUserP t v0)) Gs ltac:(constructor; exact Logic.I) ltac:(norefs) ltac:(plain))); exact I. }
    destruct md; try apply p_panic; apply W; discriminate.
  - destruct t as [kk| | | | | | | | | |]; try exact F; destruct kk; try exact F. destruct cur as [| | | | | |o| | | |]; try exact F. destruct o; try exact F.
    eapply p_bind; [apply p_check|]. intros w7 u E7 -> s I. up E7 G.
    pose proof (p_new w7 (CVar (TyArr (length (hview (d_heap (m_d s)) v0)) (TyInt KUint8))) (MCell (MArr (map byte_mval (hview (d_heap (m_d s)) v0)))) True (has_bytes v _ _)) as Pn.
    refine (p_bind _ _ w7 _ (fun l => do! _ := write v r (MSlice (Some l)) in tret j) _ _ (Pn _) _ s I).
    { intros _ l' R. exfalso. eapply noref_bytes; [apply (has_bytes v (w_ct w7))|exact R]. }
    intros w8 l8 E8 [El Ol]. up E8 G. eapply p_then, p_write; [exact G|econstructor; exact El|apply slice_open; auto|plain].
  - destruct cur as [| | | | | | | | |o|]; try exact F. destruct o; try exact F. eapply p_bind; [apply p_check|]. intros w7 u E7 ->. up E7 G.
    eapply p_bind; [apply (p_new w7 (CVar t) _ True); [apply has_zero|intros _; apply zero_open]|]. intros w8 l8 E8 [El Ol]. up E8 G.
    eapply p_bind; [eapply p_write; [exact G|now constructor|apply ptr_open; auto|plain]|]. intros. apply p_fail.
Qed.
Lemma p_tag w b ty r md idx : (strict -> ~ back_reference b) -> good w r ty md ->
  keep w (mdecode_tag c v by_ ibuf ishift rec urec (tag_kind (untrack b)) ty r md idx).
Proof.
  intros St G.
  assert (Und : forall kk, keep w (if d_perl c then
        do! x := lift_ (match kk with
                        | TCanonUndef => ret GCanonUndef
                        | _ => let! l := alloc (CV (GUndefV false)) in ret (GPtr false l)
                        end) in
        do! _ := mset_iface v ty md r x in tret idx
      else
        match ty with
        | TyPtr _ | TyMap _ | TySlice _ => do! _ := mset v md r (mzero ty) in tret idx
        | _ => tret idx
        end)).
  { intros kk. destruct (d_perl c).
    - eapply p_bind; [apply p_lift with (P := int_ok)|].
      { assert (D : hp (let! l := alloc (CV (GUndefV false)) in ret (GPtr false l)) int_ok)
          by (eapply hp_bind; [apply hp_alloc; exact I|]; intros; apply hp_ret; exact I).
        destruct kk; try exact D. apply hp_ret. exact I. }
      intros w1 x E1 Ix. up E1 G. now eapply p_then, p_iface.
    - destruct ty; try (now apply p_ret); (eapply p_then, p_mset; [exact G|apply has_zero|apply zero_open|plain]). }
  destruct (tag_kind (untrack b)) eqn:Kd; cbn [mdecode_tag]; try exact (Und TUndef); try exact (Und TCanonUndef); try apply p_fail;
    try (now apply p_hash); try (now apply p_array); try (now apply p_freeze);
    try (now apply rec_ok);
    try (eapply p_then; solve [now apply p_setInt|now apply p_setBool]).
  all: try solve [eapply p_bind; [apply p_lift; first [apply hp_varint'|apply hp_fixed|apply hp_binary]|]; intros w1 a E1 _; up E1 G; try (destruct a as [i sz]);
         try (eapply p_bind; [apply p_lift, hp_binary|]; intros w2 [i2 sz2] E2 _; up E2 G);
         solve [eapply p_then; solve [now apply p_setInt|now apply p_setFloat|now apply p_setBinary|now apply p_setString]
               |now apply p_hash|now apply p_array]].
  - eapply p_bind; [apply p_lift, hp_gcopy|]. intros w1 a E1 _. up E1 G. destruct (Nat.ltb 0 a); [apply p_fail|].
    eapply p_bind; [apply p_lift, hp_varint'|]. intros w2 [offs sz] E2 _. up E2 G.
    destruct (_ || _)%bool; [apply p_fail|]. eapply p_bind; [apply p_lift, hp_scopy|]. intros w3 u E3 _. up E3 G.
    eapply (p_then _ _ _ (fun _ _ => True)). intros s I. destruct (rec_ok w3 ty r md (Z.to_nat offs) G s I) as (w4 & E4 & I4 & _). exists w4.
    split; [exact E4|]. destruct (rec ty r md (Z.to_nat offs) s) as [[i|e|e| |] s']; (split; [exact I4|auto]).
  - apply p_refp; [|exact G]. intros S. apply (St S). left. rewrite <- MergeFacts.untrack_mod.
    pose proof (tag_kind_fits b) as Kf. rewrite Kd in Kf. exact Kf.
  - apply p_refp; [|exact G]. intros S. apply (St S). right. rewrite <- MergeFacts.untrack_mod.
    pose proof (tag_kind_fits b) as Kf. rewrite Kd in Kf. exact Kf.
  - destruct (d_perl c); [|now apply rec_ok]. eapply p_bind; [apply p_lift, hp_alloc; exact I|]. intros w1 l E1 _. up E1 G.
    eapply p_bind; [apply p_iface; [exact G|exact I]|]. intros. apply p_lift, urec_ok.
  - eapply p_bind; [apply p_lift, hp_alloc; exact I|]. intros w1 l E1 _. up E1 G. eapply p_bind; [apply p_lift, hp_regexp|]. intros w2 j E2 _. up E2 G.
    eapply p_bind; [apply p_lift, hp_get|]. intros w3 x E3 Ix. up E3 G. now eapply p_then, p_iface.
  - eapply p_bind; [apply p_lift, hp_class|]. intros w0 [cls i] E0 _. up E0 G. destruct (d_perl c); [|now apply rec_ok].
    eapply p_bind; [apply p_lift, hp_alloc; exact I|]. intros w1 l E1 _. up E1 G.
    eapply p_bind; [apply p_iface; [exact G|exact I]|]. intros. apply p_lift, urec_ok.
  - eapply p_bind; [apply p_lift, hp_class|]. intros w0 [cls i] E0 _. up E0 G. destruct (d_perl c); [|now apply rec_ok].
    eapply p_bind; [apply p_lift, hp_alloc; exact I|]. intros w1 l E1 _. up E1 G.
    eapply p_bind; [apply p_iface; [exact G|exact I]|]. intros. apply p_lift, urec_ok.
Qed.
Hypothesis plain_doc : strict -> forall i b, nth_error by_ i = Some b -> ~ back_reference b.
Lemma skip_pads_nth l : forall i b j, skip_pads l i = Some (b, j) -> exists n, nth_error l n = Some b.
Proof.
  induction l as [|x l IH]; intros i b j; cbn; [discriminate|]. destruct (is_pad x); [intros H; destruct (IH _ _ _ H) as [n Hn]; now exists (S n)|].
  intros [= -> <-]. now exists 0.
Qed.
Lemma nth_error_skipn_in {A} (l : list A) i n x : nth_error (skipn i l) n = Some x -> nth_error l (i + n) = Some x.
Proof. revert l. induction i; intros [|y l]; cbn; auto. now destruct n. Qed.
Lemma p_body w ty r md idx : good w r ty md -> keep w (mdecode_body c v by_ ibuf ishift rec urec ty r md idx).
Proof.
  intros G. unfold mdecode_body. destruct (Nat.leb _ _); [apply p_fail|].
  eapply p_bind; [eapply p_read, G|]. intros w1 cur E1 [H O]. up E1 G.
  assert (D : keep w1 match skip_pads (skipn idx by_) idx with
      | None => tfail ETruncated
      | Some (tagb, idx) =>
          do! _ := (if tracked_bit tagb then mtrack idx r ty md else tret tt) in
          mdecode_tag c v by_ ibuf ishift rec urec (tag_kind (untrack tagb)) ty r md (S idx)
      end).
  { destruct (skip_pads _ _) as [[tagb i]|] eqn:Sp; [|apply p_fail].
    apply skip_pads_nth in Sp as [n Hn]. apply nth_error_skipn_in in Hn.
    eapply p_bind with (P := fun _ _ => True); [|intros w2 u E2 _; up E2 G; apply p_tag; [intros S; eapply plain_doc; eassumption|exact G]].
    destruct (tracked_bit tagb); [now apply p_track|now apply p_ret]. }
  destruct ty; try exact D. destruct cur as [| | | | |g| | | | |]; try exact D. destruct g; try exact D.
  eapply p_bind; [apply p_lift, hp_alloc; exact I|]. intros w2 l E2 _. up E2 G. eapply p_bind; [apply p_lift, urec_ok|]. intros w3 j E3 _. up E3 G.
  eapply p_bind; [apply p_lift, hp_get|]. intros w4 x E4 Ix. up E4 G.
  destruct x; try (now apply p_ret); (eapply p_then, p_mset; [exact G|now constructor|norefs|plain]).
Qed.
End Body.
Lemma p_decode ibuf ishift fuel : (strict -> forall i b, nth_error by_ i = Some b -> ~ back_reference b) ->
  forall w ty r md idx, good w r ty md -> keep w (mdecode c v by_ ibuf ishift fuel ty r md idx).
Proof.
  intros Pd. induction fuel as [|f IH]; intros w ty r md idx G.
  { intros s I. exists w. split; [apply wext_refl|]. split; [exact I|discriminate]. }
  cbn [mdecode]. apply p_body; auto. intros. apply hp_decode.
Qed.
End Logic.
