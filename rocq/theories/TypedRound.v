(** Data of a typed Go value, read into a new variable of its type. *)
From Verif Require Import Base BaseFacts GoMem GoTypes TagsCache Codecs Encode Compress Header Decode Document
  Spec SpecValue SpecDoc SpecOptions SpecOutcome DecodeSpec ValueFacts JsonFacts Roundtrip OutcomeFacts
  RoundtripFacts DocFacts SpecTyped Typed TypedSpec TypedDoc.
From Coq Require Import ZifyBool ZifyNat ZifyN Permutation.
Ltac Zify.zify_post_hook ::= Z.div_mod_to_equations.

Section HT.
Variable v : goenv.
Variable h : heap.
Variable Q : gtype -> gval -> Prop.
Hypothesis Q_iface : forall x, Q TyIface x.
Hypothesis Q_int : forall k z, ikind_in k z -> Q (TyInt k) (GInt k false z).
Hypothesis Q_bool : forall b, Q TyBool (GBool b).
Hypothesis Q_f32 : forall u, narrow v (widen v u) = u -> Q TyF32 (GF32 u).
Hypothesis Q_f64 : forall u, Q TyF64 (GF64 u).
Hypothesis Q_str : forall s, Q TyStr (GStr s).
Hypothesis Q_bytes : forall w, Q (TySlice (TyInt KUint8)) (GBytes w).
Hypothesis Q_islice : forall base n, Q (TySlice TyIface) (GSlice base n).
Hypothesis Q_slice : forall t base n, t <> TyIface -> t <> TyInt KUint8 -> Forall (Q t) (cells h base n) ->
  Q (TySlice t) (GTSlice false base n).
Hypothesis Q_array : forall n t base, Forall (Q t) (cells h base n) -> Q (TyArr n t) (GTSlice true base n).
Hypothesis Q_imap : forall l, Q (TyMap TyIface) (GMap l).
Hypothesis Q_map : forall t l m, t <> TyIface -> htmap h l = map (fun kv => (GStr (fst kv), snd kv)) m ->
  Forall (fun kv => Q t (snd kv)) m -> Q (TyMap t) (GTMap l).
Hypothesis Q_nilptr : forall t, hashlike t = true -> Q (TyPtr t) GNilPtr.
Hypothesis Q_ptr : forall t l, hashlike t = true -> hget h l <> GNilPtr -> has_type v h t (hget h l) ->
  Q t (hget h l) -> Q (TyPtr t) (GPtr false l).
Hypothesis Q_struct : forall id base,
  (forall k i, serialised (fields_of v id) k i -> exists f t,
     nth_error (st_fields (decls v id)) i = Some (f, t) /\ f_exported f = true /\ Q t (hget h (base + i))) ->
  Q (TyStruct id) (GStruct (st_name (decls v id)) (fields_of v id) base).

Lemma has_type_rec : forall ty x, has_type v h ty x -> Q ty x.
Proof.
  fix IH 3. intros ty x H. destruct H.
  - apply Q_iface.
  - now apply Q_int.
  - apply Q_bool.
  - now apply Q_f32.
  - apply Q_f64.
  - apply Q_str.
  - apply Q_bytes.
  - apply Q_islice.
  - apply Q_slice; auto. induction H1 as [|a l Ha Hl IHl]; constructor; [apply IH; exact Ha|exact IHl].
  - apply Q_array. induction H as [|a l Ha Hl IHl]; constructor; [apply IH; exact Ha|exact IHl].
  - apply Q_imap.
  - apply (Q_map t l m); auto. clear H0. induction H1 as [|a l' Ha Hl IHl]; constructor; [apply IH; exact Ha|exact IHl].
  - now apply Q_nilptr.
  - apply Q_ptr; auto.
  - apply Q_struct. intros k i S. destruct (H k i S) as (f & t & E & X & T).
    exists f, t. split; [exact E|split; [exact X|]]. apply IH. exact T.
Qed.
End HT.

Lemma Forall2_mget A B (Rel : A -> B -> Prop) m m' :
  Forall2 (fun x y => fst x = fst y /\ Rel (snd x) (snd y)) m m' ->
  forall k : bytes, (mget m k = None <-> mget m' k = None) /\
    (forall x y, mget m k = Some x -> mget m' k = Some y -> Rel x y).
Proof.
  induction 1 as [|[k0 x0] [k1 y0] m m' [E Hr] F IH]; cbn; intros k.
  - split; [tauto|discriminate].
  - cbn in E, Hr. subst k1. destruct (bytes_eqb k0 k); [|apply IH].
    split; [split; discriminate|]. now intros x y [= <-] [= <-].
Qed.

Lemma mget_perm A (m m' : list (bytes * A)) k : NoDup (map fst m) -> Permutation m m' -> mget m k = mget m' k.
Proof.
  intros N Pm. destruct (mget m' k) as [x|] eqn:E.
  - apply mget_In in E. apply In_mget_nodup; [exact N|]. eapply Permutation_in; [apply Permutation_sym; exact Pm|exact E].
  - apply mget_None in E. apply mget_None. intros C. apply E.
    eapply Permutation_in; [apply Permutation_map; exact Pm|exact C].
Qed.

Lemma strmap_perm A (m0 m : list (bytes * A)) (f := fun kv : bytes * A => (GStr (fst kv), snd kv)) :
  Permutation (map f m0) (map f m) -> Permutation m0 m.
Proof.
  intros H.
  set (g := fun p : gval * A => (match fst p with GStr s => s | _ => [] end, snd p)).
  assert (E : forall l, map g (map f l) = l).
  { intros l. rewrite map_map. rewrite <- (map_id l) at 2. apply map_ext. now intros [k x]. }
  apply (Permutation_map g) in H. now rewrite !E in H.
Qed.

Lemma serialised_fun fs k i j : serialised fs k i -> serialised fs k j -> i = j.
Proof.
  intros (f & E & K & L) (f' & E' & K' & L').
  destruct (Nat.lt_trichotomy i j) as [H|[H|H]]; auto.
  - exfalso. now apply (L j f').
  - exfalso. now apply (L' i f).
Qed.

Lemma serialised_key fs k k' i : serialised fs k i -> serialised fs k' i -> k = k'.
Proof. intros (f & E & K & _) (f' & E' & K' & _). congruence. Qed.

Section TR.
Variable v : goenv.
Variable pe nofreeze : bool.
Variable pf : bytes -> option N.
Variable h : heap.
Variable reg : bytes -> option nat.
Variable P : loc -> Prop.
Variable h' : heap.

Notation den_ := (den pe nofreeze pf h).
Notation dens_ := (dens pe nofreeze pf h).
Notation denm_ := (denm pe nofreeze pf h).
Notation any := (fun (_ : gval) (_ : data) => True).
Notation R := (repr false reg P h').
Notation ts := (tsame v nofreeze pf reg h h').

(** hashes behind references and class names *)
Fixpoint hashy (d : data) : bool :=
  match d with DHash _ => true | DRef d | DObj _ d => hashy d | _ => false end.

Lemma into_ptr RR t d x : hashlike t = true -> hashy d = true ->
  into v RR (TyPtr t) (VPtr None) d x <-> exists y, x = VPtr (Some y) /\ into v RR t (zero t) d y.
Proof.
  intros Ht. assert (Nt : t <> TyIface) by (intros ->; discriminate).
  assert (Np : TyPtr t <> TyIface) by discriminate.
  induction d; cbn; try discriminate; intros Hd.
  - split.
    + intros H. inversion H; subst; [match goal with H : _ = DUndef \/ _ |- _ => destruct H as [H|H]; discriminate H end|].
      eauto.
    + intros (y & -> & H). now apply (in_ptr v RR t None).
  - rewrite into_ref_iff, IHd by auto.
    split; intros (y & E & H); exists y; (split; [exact E|]); now apply (into_ref_iff v RR t (zero t) d y Nt).
  - rewrite into_obj_iff, IHd by auto.
    split; intros (y & E & H); exists y; (split; [exact E|]); now apply (into_obj_iff v RR t (zero t) cls d y Nt).
Qed.

Lemma not_perl t x : hashlike t = true -> has_type v h t x -> perl_struct x = false.
Proof. intros Ht H. inversion H; subst; try discriminate; reflexivity. Qed.

Lemma has_hashy t : forall x r d, hashlike t = true -> has_type v h t x -> x <> GNilPtr -> den_ r x d -> hashy d = true.
Proof.
  induction t; cbn; try discriminate; intros x r d Ht HT Nx D.
  - inversion HT; subst; inversion D; subst; unfold aref; destruct (pe && negb r); reflexivity.
  - inversion HT; subst; [congruence|]. inversion D; subst; cbn.
    + eapply IHt; eauto.
    + exfalso. match goal with H : perl_struct _ = true |- _ => rewrite (not_perl t) in H; [discriminate H|auto|auto] end.
  - inversion HT; subst; inversion D; subst. cbn. unfold aref. destruct (pe && negb false); reflexivity.
Qed.

Definition Good (ty : gtype) (x : gval) : Prop := forall r d, den_ r x d ->
  (exists x0, into v any ty (zero ty) d x0) /\
  (forall y, into v R ty (zero ty) d y -> ts ty x y).

Lemma into_iface_inv cur d y : into v R TyIface cur d y -> exists z, y = VIface z /\ R z d.
Proof.
  remember TyIface as ty eqn:E. intros H. revert E.
  refine (into_ind4 v R (fun ty cur d x _ => ty = TyIface -> exists z, x = VIface z /\ R z d)
    (fun _ _ _ _ _ => True) (fun _ _ _ _ _ => True) (fun _ _ _ _ _ => True)
    _ _ _ _ _ _ _ _ _ _ _ _ _ _ _ _ _ _ _ _ _ _ _ _ _ _ _ _ _ _ _ _ _ _ H); auto; try discriminate.
  - intros d0 x Hx _. eauto.
  - intros; contradiction.
  - intros ty0 cur0 d0 x Hx IH E. destruct (IH E) as (z & -> & Z). exists z. split; [reflexivity|now apply r_ref].
  - intros ty0 cur0 d0 x Hx IH E. destruct (IH E) as (z & -> & Z). exists z. split; [reflexivity|now apply r_weak].
  - intros ty0 cur0 cls d0 x Hx IH E. destruct (IH E) as (z & -> & Z). exists z. split; [reflexivity|now apply r_obj].
Qed.

Lemma good_iface x : Good TyIface x.
Proof.
  intros r d D. split.
  - exists (VIface GNil). now apply in_iface.
  - intros y H. destruct (into_iface_inv _ _ _ H) as (z & -> & Z). apply ts_iface.
    eapply den_repr_same; eauto.
Qed.

Lemma aref_iff RR ty cur r d x : ty <> TyIface -> into v RR ty cur (aref pe r d) x <-> into v RR ty cur d x.
Proof. intros N. unfold aref. destruct (pe && negb r); [now apply into_ref_iff|reflexivity]. Qed.

Lemma aref_down RR ty cur r d x : into v RR ty cur (aref pe r d) x -> ty <> TyIface -> into v RR ty cur d x.
Proof. intros H N. eapply (proj1 (aref_iff RR ty cur r d x N)); eauto. Qed.

Lemma ref_down RR ty cur d x : into v RR ty cur (DRef d) x -> ty <> TyIface -> into v RR ty cur d x.
Proof. intros H N. now apply (proj1 (into_ref_iff v RR ty cur d x N)). Qed.

Lemma each_good t vs ds : Forall (Good t) vs -> dens_ vs ds ->
  (exists xs, into_each v any t (repeat (zero t) (length ds)) ds xs) /\
  (forall ys, into_each v R t (repeat (zero t) (length ds)) ds ys -> Forall2 (ts t) vs ys).
Proof.
  intros F D. induction D as [|x vs d ds Dx D IH].
  - split; [exists []; apply ie_end|]. intros ys H. inversion H; constructor.
  - inversion F as [|? ? G F']; subst. destruct (IH F') as [(xs & E) I2]. destruct (G _ _ Dx) as [(x0 & E0) G2].
    cbn [length repeat]. split.
    + exists (x0 :: xs). now apply ie_cons.
    + intros ys H. inversion H; subst. constructor; auto.
Qed.

Lemma dens_length vs ds : dens_ vs ds -> length ds = length vs.
Proof. induction 1; cbn; congruence. Qed.

Lemma map_exists t m kvs : denm_ m kvs -> NoDup (map fst m) -> Forall (fun kv => Good t (snd kv)) m ->
  forall m0, (forall k, In k (map fst m) -> mget m0 k = None) -> exists m', into_map v any t m0 kvs m'.
Proof.
  induction 1 as [|k x m d kvs Dx D IH]; intros N F m0 H0.
  - exists m0. apply im_end.
  - cbn in N, H0. inversion N as [|? ? N1 N2]; subst. inversion F as [|? ? G F']; subst. cbn in G.
    destruct (G _ _ Dx) as [(x0 & E0) _].
    destruct (IH N2 F' (m0 ++ [(k, x0)])) as (m' & E).
    + intros k' H. apply mget_None. rewrite map_app, in_app_iff. cbn. intros [C|[C|[]]].
      * specialize (H0 k' (or_intror H)). apply mget_None in H0. contradiction.
      * subst. contradiction.
    + exists m'. eapply im_cons; eauto.
Qed.

Lemma map_result t m kvs m0 m' : denm_ m kvs -> Forall (fun kv => Good t (snd kv)) m ->
  into_map v R t m0 kvs m' ->
  exists m1, m' = m0 ++ m1 /\ Forall2 (fun x y => fst x = fst y /\ ts t (snd x) (snd y)) m m1.
Proof.
  intros D. revert m0 m'. induction D as [|k x m d kvs Dx D IH]; intros m0 m' F H.
  - inversion H; subst. exists []. split; [now rewrite app_nil_r|constructor].
  - inversion F as [|? ? G F']; subst. cbn in G. inversion H; subst.
    destruct (IH _ _ F' ltac:(eassumption)) as (m1 & -> & F2).
    eexists. rewrite <- app_assoc. split; [reflexivity|]. constructor; [|exact F2].
    cbn. split; [reflexivity|]. eapply G; eauto.
Qed.

(** the fields *)
Lemma fields_exist id base tags kvs :
  denm_ (map (fun kt => (fst kt, hget h (base + snd kt))) tags) kvs ->
  NoDup (map fst tags) -> (forall k i, In (k, i) tags -> serialised (fields_of v id) k i) ->
  (forall k i, serialised (fields_of v id) k i -> exists f t,
     nth_error (st_fields (decls v id)) i = Some (f, t) /\ f_exported f = true /\ Good t (hget h (base + i))) ->
  exists us, into_fields v any id [] kvs us /\ map fst us = map snd tags.
Proof.
  intros D. remember (map _ tags) as m eqn:Em. revert tags Em.
  induction D as [|k x m d kvs Dx D IH]; intros tags Em N Ht Hg.
  - destruct tags; [|discriminate]. exists []. split; [apply if_end|reflexivity].
  - destruct tags as [|[k' i] tags]; [discriminate|]. cbn in Em. injection Em as -> -> Em.
    cbn in N. inversion N as [|? ? N1 N2]; subst.
    pose proof (Ht k' i (or_introl eq_refl)) as Hs.
    destruct (Hg _ _ Hs) as (f & t & E & X & G). destruct (G _ _ Dx) as [(x0 & E0) _].
    destruct (IH tags eq_refl N2) as (us & Hu & Eu); auto.
    { intros k i' H. apply Ht. now right. }
    exists ((i, x0) :: us). split; [|cbn; now rewrite Eu].
    eapply if_hit; eauto.
    + now left.
    + unfold sfield. cbn. now rewrite E.
    + rewrite Eu. intros C. apply in_map_iff in C as ((k2 & i2) & E2 & C). cbn in E2. subst i2.
      pose proof (Ht k2 i (or_intror C)) as H2. pose proof (serialised_key _ _ _ _ Hs H2). subst k2.
      apply N1. apply in_map_iff. exists (k', i). auto.
Qed.

Lemma into_fields_nodup RR id fs kvs us : into_fields v RR id fs kvs us -> NoDup (map fst us).
Proof. induction 1; cbn; auto; constructor; auto. Qed.

Lemma fields_result id base tags kvs us :
  denm_ (map (fun kt => (fst kt, hget h (base + snd kt))) tags) kvs ->
  (forall k i, In (k, i) tags -> serialised (fields_of v id) k i) ->
  (forall k i, serialised (fields_of v id) k i -> exists f t,
     nth_error (st_fields (decls v id)) i = Some (f, t) /\ f_exported f = true /\ Good t (hget h (base + i))) ->
  into_fields v R id [] kvs us ->
  forall k i, In (k, i) tags -> exists f t y,
    nth_error (st_fields (decls v id)) i = Some (f, t) /\ In (i, y) us /\ ts t (hget h (base + i)) y.
Proof.
  intros D. remember (map _ tags) as m eqn:Em. revert tags Em us.
  induction D as [|k x m d kvs Dx D IH]; intros tags Em us Ht Hg H.
  - destruct tags; [|discriminate]. easy.
  - destruct tags as [|[k' i] tags]; [discriminate|]. cbn in Em. injection Em as -> -> Em.
    pose proof (Ht k' i (or_introl eq_refl)) as Hs.
    destruct (Hg _ _ Hs) as (f & t & E & X & G).
    inversion H as [|? ? ? ? ? j f' t' y us' Hn Ej Xj Hy Hr Nj|? ? ? ? ? us' Hn Hr]; subst.
    + assert (j = i).
      { destruct Hn as [Hn|[Hn _]]; [now apply (serialised_fun _ _ _ _ Hn Hs)|]. exfalso. now apply (Hn i). }
      subst j. rewrite E in Ej. injection Ej as <- <-.
      assert (Ez : sfield v id i [] = zero t) by (unfold sfield; cbn; now rewrite E).
      rewrite Ez in Hy. pose proof (proj2 (G _ _ Dx) _ Hy) as Sy.
      intros k2 i2 [C|C].
      * injection C as <- <-. exists f, t, y. split; [exact E|]. split; [now left|exact Sy].
      * destruct (IH tags eq_refl us') with (k := k2) (i := i2) as (f2 & t2 & y2 & A1 & A2 & A3); auto.
        { intros; apply Ht; now right. }
        exists f2, t2, y2. split; [exact A1|]. split; [now right|exact A3].
    + exfalso. apply (Hn i). now left.
Qed.

Lemma sfield_in id i y us : NoDup (map fst us) -> In (i, y) us -> sfield v id i (rev us ++ []) = y.
Proof.
  intros N H. rewrite app_nil_r. unfold sfield.
  assert (N' : NoDup (map fst (rev us))) by (rewrite map_rev; now apply NoDup_rev).
  apply in_rev in H. revert N' H. generalize (rev us). clear. induction l as [|[j x] l IH]; cbn; [easy|].
  intros N [H|H].
  - injection H as -> ->. now rewrite Nat.eqb_refl.
  - inversion N as [|? ? N1 N2]; subst. destruct (Nat.eqb_spec j i); [|auto].
    subst. exfalso. apply N1. apply in_map_iff. exists (i, y). auto.
Qed.

Theorem typed_good ty x : has_type v h ty x -> Good ty x.
Proof.
  apply has_type_rec; clear ty x.
  - apply good_iface.
  - intros k z Hk r d D. inversion D; subst. split; [exists (VInt z); now apply in_int|].
    intros y H. inversion H; subst.
    { rewrite <- (wrap_kind_low k z n), wrap_kind_in by assumption. apply ts_int. }
    match goal with H : _ = DUndef \/ _ |- _ => destruct H as [H|H]; discriminate H end.
  - intros b r d D. inversion D; subst. split; [eexists; apply in_bool|].
    intros y H. inversion H; subst; [apply ts_bool|].
    match goal with H : _ = DUndef \/ _ |- _ => destruct H as [H|H]; discriminate H end.
  - intros u Hu r d D. inversion D; subst. split; [eexists; apply in_f32|].
    intros y H. inversion H; subst; [rewrite Hu; apply ts_f32|].
    match goal with H : _ = DUndef \/ _ |- _ => destruct H as [H|H]; discriminate H end.
  - intros u r d D. inversion D; subst. split; [eexists; apply in_f64|].
    intros y H. inversion H; subst; [apply ts_f64|].
    match goal with H : _ = DUndef \/ _ |- _ => destruct H as [H|H]; discriminate H end.
  - intros s r d D. inversion D; subst. split; [eexists; apply in_str|].
    intros y H. inversion H; subst; [apply ts_str|].
    match goal with H : _ = DUndef \/ _ |- _ => destruct H as [H|H]; discriminate H end.
  - intros w r d D. inversion D; subst. split; [eexists; apply in_bytes|].
    intros y H. inversion H; subst; [apply ts_bytes|].
    match goal with H : _ = DUndef \/ _ |- _ => destruct H as [H|H]; discriminate H end.
  - intros base n r d D. inversion D; subst.
    match goal with H : dens_ _ _ |- _ => rename H into Ds end.
    destruct (each_good TyIface (cells h base n) ds) as [(xs & E) E2]; auto.
    { apply Forall_forall. intros; apply good_iface. }
    split; [exists (VSlice (Some xs)); apply aref_iff; [discriminate|]; apply in_slice; auto|].
    intros y H. apply aref_down in H; [|discriminate]. inversion H; subst.
    + match goal with H : _ = DUndef \/ _ |- _ => destruct H as [H|H]; discriminate H end.
    + apply ts_islice. auto.
  - intros t base n Nt N8 F r d D. inversion D; subst.
    match goal with H : dens_ _ _ |- _ => rename H into Ds end.
    destruct (each_good t (cells h base n) ds) as [(xs & E) E2]; auto.
    split; [exists (VSlice (Some xs)); apply aref_iff; [discriminate|]; apply in_slice; auto|].
    intros y H. apply aref_down in H; [|discriminate]. inversion H; subst.
    + match goal with H : _ = DUndef \/ _ |- _ => destruct H as [H|H]; discriminate H end.
    + apply ts_slice. auto.
  - intros n t base F r d D. inversion D; subst.
    match goal with H : dens_ _ _ |- _ => rename H into Ds end.
    pose proof (dens_length _ _ Ds) as Ln. unfold cells in Ln. rewrite map_length, seq_length in Ln.
    destruct (each_good t (cells h base n) ds) as [(xs & E) E2]; auto. rewrite Ln in *.
    split; [exists (VArr xs); apply aref_iff; [discriminate|]; now apply in_array|].
    intros y H. apply aref_down in H; [|discriminate]. inversion H; subst.
    + match goal with H : _ = DUndef \/ _ |- _ => destruct H as [H|H]; discriminate H end.
    + apply ts_array. auto.
  - intros l r d D. inversion D; subst.
    match goal with H : denm_ _ _ |- _ => rename H into Dm end.
    match goal with H : Permutation _ _ |- _ => rename H into Pm end.
    match goal with H : NoDup _ |- _ => rename H into Nd end.
    assert (G : Forall (fun kv => Good TyIface (snd kv)) m) by (apply Forall_forall; intros; apply good_iface).
    split.
    + destruct (map_exists TyIface m kvs Dm Nd G []) as (m' & E); [reflexivity|].
      exists (VMap (Some m')). apply aref_iff; [discriminate|]. now apply (SpecTyped.in_map v any TyIface None).
    + intros y H. apply aref_down in H; [|discriminate]. inversion H; subst.
      { match goal with H : _ = DUndef \/ _ |- _ => destruct H as [H|H]; discriminate H end. }
      destruct (map_result TyIface m kvs [] m0 Dm G) as (m1 & -> & F2); [assumption|]. cbn [app] in *.
      assert (Eq : forall k, mget (hmap h l) k = mget m k).
      { intros k. apply mget_perm; [|exact Pm].
        eapply Permutation_NoDup; [apply Permutation_sym, Permutation_map; exact Pm|exact Nd]. }
      apply ts_imap; intros k; rewrite Eq; apply (Forall2_mget _ _ _ _ _ F2 k).
  - intros t l m0 Nt E0 F r d D. inversion D; subst.
    match goal with H : denm_ _ _ |- _ => rename H into Dm end.
    match goal with H : Permutation _ _ |- _ => rename H into Pm end.
    match goal with H : NoDup _ |- _ => rename H into Nd end.
    rewrite E0 in Pm. apply strmap_perm in Pm.
    assert (G : Forall (fun kv => Good t (snd kv)) m).
    { apply Forall_forall. intros kv Hkv. rewrite Forall_forall in F. apply F.
      eapply Permutation_in; [apply Permutation_sym; exact Pm|exact Hkv]. }
    split.
    + destruct (map_exists t m kvs Dm Nd G []) as (m' & E); [reflexivity|].
      exists (VMap (Some m')). apply aref_iff; [discriminate|]. now apply (SpecTyped.in_map v any t None).
    + intros y H. apply aref_down in H; [|discriminate]. inversion H; subst.
      { match goal with H : _ = DUndef \/ _ |- _ => destruct H as [H|H]; discriminate H end. }
      match goal with H : into_map _ _ _ _ _ _ |- _ => destruct (map_result t m kvs [] _ Dm G H) as (m2 & -> & F2) end.
      cbn [app] in *.
      assert (Eq : forall k, mget m0 k = mget m k).
      { intros k. apply mget_perm; [|exact Pm].
        eapply Permutation_NoDup; [apply Permutation_sym, Permutation_map; exact Pm|exact Nd]. }
      apply (ts_map v nofreeze pf reg h h' t l m0 m2 E0); intros k; rewrite Eq; apply (Forall2_mget _ _ _ _ _ F2 k).
  - intros t Ht r d D. inversion D; subst. split.
    + exists (VPtr None). apply in_ref. apply (in_undef v any (TyPtr t)); [now left|discriminate].
    + intros y H. apply ref_down in H; [|discriminate]. inversion H; subst. apply ts_nilptr.
  - intros t l Ht Nl HT G r d D. inversion D; subst.
    2:{ exfalso. match goal with H : perl_struct _ = true |- _ => rewrite (not_perl t) in H; [discriminate H|auto|auto] end. }
    match goal with H : den_ true _ _ |- _ => rename H into D1 end.
    pose proof (has_hashy t _ _ _ Ht HT Nl D1) as Hh. destruct (G _ _ D1) as [(x0 & E0) G2].
    split.
    + exists (VPtr (Some x0)). apply in_ref. apply into_ptr; auto. eauto.
    + intros y H. apply ref_down in H; [|discriminate].
      apply (proj1 (into_ptr _ _ _ _ Ht Hh)) in H as (z & -> & Hz). apply ts_ptr. auto.
  - intros id base Hg r d D. inversion D; subst.
    match goal with H : denm_ _ _ |- _ => rename H into Dm end.
    match goal with H : field_table _ _ |- _ => destruct H as [Nd Tb] end.
    assert (Nt : TyStruct id <> TyIface) by discriminate.
    split.
    + destruct (fields_exist id base tags kvs Dm Nd) as (us & Hu & _); auto.
      { intros k i. apply Tb. }
      exists (VStruct (rev us ++ [])). apply in_obj. apply aref_iff; [exact Nt|]. now apply in_struct.
    + intros y H. apply (proj1 (into_obj_iff _ _ _ _ _ _ _ Nt)) in H.
      apply aref_down in H; [|discriminate]. inversion H; subst.
      { match goal with H : _ = DUndef \/ _ |- _ => destruct H as [H|H]; discriminate H end. }
      match goal with H : into_fields _ _ _ _ _ _ |- _ => rename H into Hf end.
      apply ts_struct. intros k i Hs.
      destruct (fields_result id base tags kvs us Dm) with (k := k) (i := i) as (f & t & y & A1 & A2 & A3); auto.
      { intros k' i'. apply Tb. }
      { now apply Tb. }
      exists f, t. split; [exact A1|]. rewrite (sfield_in id i y us); auto. eapply into_fields_nodup; eauto.
Qed.
End TR.

(** Marshal, then Unmarshal into a new variable of the value's type. *)
Section TRT.
Variable k : codecs.
Variable c : dconfig.
Variable e : econfig.
Variable h : heap.
Variable v : goenv.
Hypothesis Hw : sane_world e.
Hypothesis Hv : (1 <= proto e <= 3)%N.
Hypothesis Hp : d_perl c = false.

Definition returns_typed (ty : gtype) (x : gval) (b : bytes) : Prop :=
  exists h' y, unmarshal_typed k c v [CBuf b] b 0 ty (zero ty) = Ok (h', y) /\
    tsame v (e_nofreeze e) (e_parsefloat e) (reg_of c) h h' ty x y.

Lemma carries_typed ty x d b : has_type v h ty x ->
  den (e_perl e) (e_nofreeze e) (e_parsefloat e) h false x d -> carries k c b d -> returns_typed ty x b.
Proof.
  intros T D (ver & typ & suffix & body & x1 & Doc).
  assert (G : forall P h', Good v (e_perl e) (e_nofreeze e) (e_parsefloat e) h (reg_of c) P h' ty x)
    by (intros; now apply typed_good).
  destruct (G (fun _ => True) [] false d D) as [(x0 & E0) _].
  destruct (typed_document k c v Hp b ver typ suffix d body x1 [CBuf b] 0 ty (zero ty) x0 Doc eq_refl E0)
    as (h' & y & U & _ & Y).
  exists h', y. split; [exact U|]. eapply (G _ _ false d D). exact Y.
Qed.

Theorem typed_roundtrip ty x n A : go_tree c e h x n A -> (Z.of_nat n < depth_limit e)%Z -> has_type v h ty x ->
  exists b0, outcome (fun f => Marshal k f (without_compression e) h x) (Ok b0) /\
    (e_comp e = None -> outcome (fun f => Marshal k f e h x) (Ok b0)) /\
    ((N.of_nat (length b0) <= 281474976710656)%N ->
      returns_typed ty x b0 /\
      (lossless k -> supported (proto e) (e_comp e) -> forall b,
       outcome (fun f => Marshal k f e h x) (Ok b) -> (N.of_nat (length b) <= 2147483647)%N -> returns_typed ty x b)).
Proof.
  intros T L HT. destruct (marshal_carries k c e h Hw Hv x n A T L) as (b0 & O & O1 & K).
  exists b0. split; [exact O|]. split; [exact O1|]. intros Lb. destruct (K Lb) as (d & D & C & C').
  split; [eapply carries_typed; eauto|]. intros Lo Su b Ob Lb'. eapply carries_typed; eauto.
Qed.
End TRT.

(** * Maps that already have entries *)
Section Maps.
Variable v : goenv.

Lemma into_map_app R t m0 kvs m' : into_map v R t m0 kvs m' -> exists m1, m' = m0 ++ m1 /\
  Forall2 (fun kd kx => fst kd = fst kx /\ into v R t (zero t) (snd kd) (snd kx)) kvs m1.
Proof.
  revert m0 m'. induction kvs as [|[key d] kvs IH]; intros m0 m' H; inversion H; subst.
  - exists []. split; [now rewrite app_nil_r|constructor].
  - destruct (IH _ _ ltac:(eassumption)) as (m1 & -> & F). exists ((key, x) :: m1). rewrite <- app_assoc.
    split; [reflexivity|]. now constructor.
Qed.

Lemma into_map_new R t kvs : Forall (fun kd => exists x, into v R t (zero t) (snd kd) x) kvs -> NoDup (map fst kvs) ->
  forall m0, (forall key, In key (map fst kvs) -> mget m0 key = None) -> exists m', into_map v R t m0 kvs m'.
Proof.
  induction 1 as [|[key d] kvs [x Hx] F IH]; cbn; intros N m0 H0; [eexists; apply im_end|].
  inversion N as [|? ? N1 N2]; subst. destruct (IH N2 (m0 ++ [(key, x)])) as [m' H].
  - intros k' H. apply mget_None. rewrite map_app, in_app_iff. cbn. intros [C|[C|[]]].
    + specialize (H0 k' (or_intror H)). apply mget_None in H0. contradiction.
    + subst. contradiction.
  - exists m'. eapply im_cons; eauto.
Qed.

Lemma mget_app A (m m' : list (bytes * A)) key :
  mget (m ++ m') key = match mget m key with Some x => Some x | None => mget m' key end.
Proof. induction m as [|[k' x] m IH]; cbn; [reflexivity|]. now destruct (bytes_eqb k' key). Qed.

Theorem map_update k c b ver typ suffix kvs body e h ib t m0 : d_perl c = false ->
  document (go_reader c) k b ver typ suffix (DHash kvs) body e -> nth_error h ib = Some (CBuf b) ->
  NoDup (map fst kvs) -> (forall key, In key (map fst kvs) -> mget m0 key = None) ->
  Forall (fun kd => readable v t (zero t) (snd kd)) kvs ->
  exists h' m', unmarshal_typed k c v h b ib (TyMap t) (VMap (Some m0)) = Ok (h', VMap (Some m')) /\ memory_kept h h' /\
    (forall key x, mget m0 key = Some x -> mget m' key = Some x) /\
    (forall key d, In (key, d) kvs -> exists x, mget m' key = Some x /\
       into v (repr false (reg_of c) (fun l => l = ib \/ length h <= l < length h') h') t (zero t) d x) /\
    (forall key, mget m0 key = None -> ~ In key (map fst kvs) -> mget m' key = None).
Proof.
  intros Hp D Hib N N0 F. destruct (into_map_new _ t kvs F N m0 N0) as [m1 M1].
  destruct (typed_document k c v Hp b ver typ suffix _ body e h ib (TyMap t) (VMap (Some m0)) (VMap (Some m1)) D Hib)
    as (h' & x & U & X & I).
  { now apply (SpecTyped.in_map v _ t (Some m0)). }
  inversion I; subst.
  { match goal with H : _ = DUndef \/ _ |- _ => destruct H as [H|H]; discriminate H end. }
  match goal with H : into_map _ _ _ _ _ _ |- _ => destruct (into_map_app _ _ _ _ _ H) as (m2 & -> & F2) end.
  exists h', (m0 ++ m2). split; [exact U|]. split; [exact X|]. split; [|split].
  - intros key x E. rewrite mget_app. now rewrite E.
  - intros key d Hin. assert (Hk : In key (map fst kvs)) by (apply in_map_iff; exists (key, d); auto).
    rewrite mget_app. rewrite (N0 key Hk). clear - F2 Hin N. induction F2 as [|[k1 d1] [k2 x2] kvs m2 [E1 E2] F2 IH]; [destruct Hin|].
    cbn in E1, E2, N. subst k2. inversion N as [|? ? N1 N2]; subst. cbn. destruct Hin as [Hin|Hin].
    + injection Hin as -> ->. rewrite bytes_eqb_refl. eauto.
    + destruct (bytes_eqb k1 key) eqn:Eq; [apply (proj1 (bytes_eqb_true k1 key)) in Eq as ->|auto].
      exfalso. apply N1. apply in_map_iff. exists (key, d). auto.
  - intros key E Nk. rewrite mget_app, E. apply mget_None. intros C. apply Nk.
    clear - F2 C. induction F2 as [|[k1 d1] [k2 x2] kvs m2 [E1 E2] F2 IH]; cbn in *; [exact C|].
    subst. destruct C; auto.
Qed.
End Maps.

Lemma wrap_kind_range k z : ikind_in k (wrap_kind k z).
Proof.
  unfold wrap_kind, ikind_in.
  assert (P : (0 < 2 ^ ikind_bits k)%Z) by (destruct k; reflexivity).
  assert (E : (2 ^ ikind_bits k = 2 * 2 ^ (ikind_bits k - 1))%Z) by (destruct k; reflexivity).
  pose proof (Z.mod_pos_bound z _ P) as B. revert B. generalize (z mod 2 ^ ikind_bits k)%Z. intros y B.
  rewrite E in *. generalize dependent (2 ^ (ikind_bits k - 1))%Z. intros m _ P B.
  rewrite (Z.mul_comm 2 m), Z.div_mul by lia.
  destruct (ikind_signed k); cbn [andb]; [|lia]. destruct (Z.leb_spec m y); lia.
Qed.

Lemma wrap_kind_keeps k z : (wrap_kind k z mod 2 ^ ikind_bits k = z mod 2 ^ ikind_bits k)%Z.
Proof.
  unfold wrap_kind. assert (P : (0 < 2 ^ ikind_bits k)%Z) by (destruct k; reflexivity).
  destruct (_ && _).
  - replace (z mod 2 ^ ikind_bits k - 2 ^ ikind_bits k)%Z with (z mod 2 ^ ikind_bits k + (-1) * 2 ^ ikind_bits k)%Z by lia.
    rewrite Z.mod_add by lia. apply Z.mod_mod. lia.
  - apply Z.mod_mod. lia.
Qed.

(** integer variables *)
Theorem int_stored k c v b ver typ suffix z body e h ib kd cur : d_perl c = false ->
  document (go_reader c) k b ver typ suffix (DInt z) body e -> nth_error h ib = Some (CBuf b) ->
  exists h' n, unmarshal_typed k c v h b ib (TyInt kd) cur = Ok (h', VInt n) /\
    ikind_in kd n /\ (n mod 2 ^ ikind_bits kd = z mod 2 ^ ikind_bits kd)%Z /\ (ikind_in kd z -> n = z).
Proof.
  intros Hp D Hib.
  destruct (typed_document k c v Hp b ver typ suffix _ body e h ib (TyInt kd) cur (VInt (wrap_kind kd z)) D Hib)
    as (h' & x & U & _ & I).
  { apply in_int; [apply wrap_kind_range|apply wrap_kind_keeps]. }
  inversion I; subst.
  2:{ match goal with H : _ = DUndef \/ _ |- _ => destruct H as [H|H]; discriminate H end. }
  exists h', n. split; [exact U|]. repeat (split; [assumption|]). intros Hz.
  rewrite <- (wrap_kind_low kd z n) by assumption. now apply wrap_kind_in.
Qed.
