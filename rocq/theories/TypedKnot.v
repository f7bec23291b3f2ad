(** Graphs of typed variables: what is written fits the type, and what is read is the same graph. *)
From Verif Require Import Base BaseFacts SpecVarint Varint VarintFacts Tags GoMem GoTypes TagsCache Codecs Decode Typed
  Spec SpecValue SpecShare SpecGraph SpecCycle SpecKnot SpecTyped EncodeSpec CycleDecode CycleFacts KnotEncode KnotFacts KnotTame
  JsonFacts TypedSpec TypedMem SpecMem SpecTypedGraph TypedGraph SpecTypedKnot.
From Coq Require Import ZifyBool ZifyNat ZifyN Permutation.
Ltac Zify.zify_post_hook ::= Z.div_mod_to_equations.

(** * The marks of an item *)
Fixpoint labels (x : node) : list nat :=
  match x with
  | NAt i x => i :: labels x
  | NRef x | NWeak x | NCopy x | NObj _ x | NFreeze _ _ x => labels x
  | NArr l => flat_map labels l
  | NHash l => flat_map (fun kx => labels (snd kx)) l
  | _ => []
  end.

Lemma gitem_labels g by_ :
  (forall E m p x p' X, gitem g by_ E m p x p' X -> labels x = seq (length E) (length X)) /\
  (forall E m q t x p' X, gbody g by_ E m q t x p' X -> labels x = seq (length E) (length X)) /\
  (forall E m p xs p' X, gitems g by_ E m p xs p' X -> flat_map labels xs = seq (length E) (length X)) /\
  (forall E m p kxs p' X, gpairs g by_ E m p kxs p' X -> flat_map (fun kx => labels (snd kx)) kxs = seq (length E) (length X)).
Proof.
  apply (nodes_ind g by_ (fun E m p x p' X _ => labels x = seq (length E) (length X))
    (fun E m q t x p' X _ => labels x = seq (length E) (length X))
    (fun E m p xs p' X _ => flat_map labels xs = seq (length E) (length X))
    (fun E m p kxs p' X _ => flat_map (fun kx => labels (snd kx)) kxs = seq (length E) (length X)));
    intros; cbn [labels flat_map app length seq snd] in *; auto.
  - rewrite H, app_length. cbn [length]. rewrite Nat.add_1_r. reflexivity.
  - now rewrite app_nil_r in H.
  - now rewrite app_nil_r in H.
  - rewrite H, H0, !app_length. rewrite (Nat.add_comm (length Y)), seq_app. do 2 f_equal. lia.
  - rewrite H, H0, !app_length. rewrite (Nat.add_comm (length Y)), seq_app. do 2 f_equal. lia.
Qed.

(** ** the types of the variables the marked items are read into *)
Section Tof.
Variable v : goenv.
Definition elem (ty : gtype) : gtype := match ty with TySlice t | TyArr _ t => t | _ => TyIface end.
Definition entry (ty : gtype) (k : bytes) : gtype :=
  match ty with
  | TyMap t => t
  | TyStruct id | TyPtr (TyStruct id) => match find_field v id k with Some (_, (_, t)) => t | None => TyIface end
  | _ => TyIface
  end.
Fixpoint tof (x : node) (ty : gtype) : list (nat * gtype) :=
  match x with
  | NAt i x => (i, ty) :: tof x ty
  | NRef x | NWeak x | NCopy x | NObj _ x | NFreeze _ _ x => tof x ty
  | NArr l => flat_map (fun x => tof x (elem ty)) l
  | NHash l => flat_map (fun kx => tof (snd kx) (entry ty (fst kx))) l
  | _ => []
  end.
Fixpoint tof_labels (x : node) : forall ty, map fst (tof x ty) = labels x.
Proof.
  destruct x; intros ty; cbn [tof labels]; try reflexivity; try apply tof_labels.
  - generalize (elem ty). intros t. induction l as [|x l IH]; cbn [flat_map]; [reflexivity|].
    rewrite map_app, IH. f_equal. apply tof_labels.
  - generalize (entry ty). intros t. induction l as [|[k x] l IH]; cbn [flat_map fst snd]; [reflexivity|].
    rewrite map_app, IH. f_equal. apply tof_labels.
  - cbn [map fst]. f_equal. apply tof_labels.
Qed.
Definition tmap (x : node) (ty : gtype) (i : nat) : gtype :=
  match List.find (fun p => Nat.eqb (fst p) i) (tof x ty) with Some (_, t) => t | None => TyIface end.
Lemma tmap_in x ty : NoDup (labels x) -> forall i t, In (i, t) (tof x ty) -> tmap x ty i = t.
Proof.
  rewrite <- (tof_labels x ty). unfold tmap. generalize (tof x ty). intros l N i t.
  induction l as [|[j u] l IH]; [intros []|]. cbn [map fst] in N. inversion N; subst. cbn [List.find fst].
  intros [[= -> ->]|H]; [now rewrite Nat.eqb_refl|].
  destruct (Nat.eqb_spec j i) as [->|]; [|now apply IH]. destruct H1. apply (List.in_map fst) in H. exact H.
Qed.
End Tof.

Lemma nodup_app {A} (a b : list A) : NoDup (a ++ b) -> NoDup a /\ NoDup b /\ (forall x, In x a -> ~ In x b).
Proof.
  induction a as [|x a IH]; cbn; intros N; [repeat split; auto; constructor|].
  inversion N; subst. destruct (IH H2) as (A1 & A2 & A3). split; [|split; [exact A2|]].
  - constructor; [|exact A1]. intros H. apply H1, in_or_app. now left.
  - intros y [<-|H]; [|now apply A3]. intros H. apply H1, in_or_app. now right.
Qed.

Lemma table_snd fs tags : field_table fs tags -> NoDup (map snd tags).
Proof.
  intros [N S]. assert (H : forall k i, In (k, i) tags -> serialised fs k i) by (intros; now apply S). clear S.
  induction tags as [|[k i] tags IH]; cbn [map fst snd] in *; [constructor|]. inversion N; subst. constructor.
  - intros J. apply in_map_iff in J as ([k' i'] & E & J). cbn in E. subst i'.
    destruct (H k i) as (f & E1 & E2 & _); [now left|]. destruct (H k' i) as (f' & E3 & E4 & _); [now right|].
    assert (k = k') by congruence. subst k'. apply H2. apply (List.in_map fst) in J. exact J.
  - apply IH; [assumption|]. intros; apply H; now right.
Qed.
Lemma table_combine (tags : list (bytes * nat)) (kxs : list (bytes * node)) : map fst kxs = map fst tags ->
  forall k x i, In ((k, x), i) (combine kxs (map snd tags)) -> In (k, i) tags.
Proof.
  revert kxs. induction tags as [|[k i] tags IH]; intros [|[k' x'] kxs]; cbn; try discriminate; try contradiction.
  intros [= -> E] k0 x0 i0 [[= -> -> ->]|H]; [now left|]. right. eapply IH; eauto.
Qed.

Section Knot.
Variable v : goenv.
Variable perl nofreeze : bool.
Variable pf : bytes -> option N.
Variable lay : layout.
Variable h : heap.
Variable sty : loc -> option gtype.
Variable target : loc -> Prop.
Hypothesis TM : typed_memory v lay h sty target.
Notation kden_ := (kden perl nofreeze pf lay h).
Notation kbody_ := (kbody perl nofreeze pf lay h).
Notation kdens_ := (kdens perl nofreeze pf lay h).
Notation kdenm_ := (kdenm perl nofreeze pf lay h).
Notation shape_ := (shape v h sty target).

(** the value has the type, or is the struct to which a pointer of the type points *)
Definition view (ty : gtype) (x : gval) : Prop :=
  shape_ ty x \/ exists id, ty = TyPtr (TyStruct id) /\ shape_ (TyStruct id) x.

Lemma struct_shape id x : shape_ (TyStruct id) x -> exists base, x = GStruct (st_name (decls v id)) (fields_of v id) base.
Proof. intros H. inversion H; subst. eauto. Qed.
Lemma struct_fields ty name fs base : view ty (GStruct name fs base) -> exists id,
  name = st_name (decls v id) /\ fs = fields_of v id /\
  ((ty = TyStruct id /\ shape_ ty (GStruct name fs base)) \/ ty = TyPtr (TyStruct id)) /\
  forall k i, serialised (fields_of v id) k i -> exists f t,
    nth_error (st_fields (decls v id)) i = Some (f, t) /\ f_exported f = true /\ sty (base + i) = Some t.
Proof. intros [V|(id & -> & V)]; pose proof V as V0; inversion V; subst; eauto 8. Qed.
Lemma met_struct S l id : sty l = Some (TyStruct id) -> met lay h S l = kfind S (at_cell lay l) /\ own_addr lay l (hget h l) = [].
Proof.
  intros E. destruct TM as [T1 _]. apply T1, struct_shape in E as (base & E). unfold met. rewrite E. cbn.
  destruct (kfind _ _); auto.
Qed.

(** ** What is written fits the type *)
Section Fitting.
Variable T : nat -> gtype.
Definition tok (ty : gtype) (x : node) : Prop := forall i t, In (i, t) (tof v x ty) -> T i = t.
Definition known (n : nat) (a : addr) : Prop :=
  exists l id, target l /\ a = at_cell lay l /\ sty l = Some (TyStruct id) /\ T n = TyPtr (TyStruct id).
Definition env_ok (S : kenv) : Prop := forall a n, kfind S a = Some (Some n) -> known n a.
Definition fresh (S : kenv) (ls : list nat) : Prop := forall a n, kfind S a = Some (Some n) -> ~ In n ls.
Definition wait_ok (W : list nat) : Prop := forall n, In n W -> forall t, T n <> TyPtr t.
Definition new_ok (Y : kenv) (ls : list nat) : Prop := forall a n, In (a, Some n) Y -> known n a /\ In n ls.
Definition all_of (ty : gtype) (B : list nat) : Prop := forall b, In b B -> T b = ty.

Lemma kfind_In S a o : kfind S a = Some o -> In (a, o) S.
Proof.
  induction S as [|[a' o'] S IH]; cbn [kfind]; [discriminate|]. destruct (addr_eqb a' a) eqn:Ea.
  - apply addr_eqb_true in Ea as ->. intros [= ->]. now left.
  - intros H. right. now apply IH.
Qed.
Lemma env_ok_app S Y ls : env_ok S -> new_ok Y ls -> env_ok (Y ++ S).
Proof.
  intros H1 H2 a n. rewrite kfind_app. destruct (kfind Y a) as [o|] eqn:K; [|apply H1].
  intros [= ->]. apply kfind_In in K. now apply H2 in K.
Qed.
Lemma fresh_app S Y ls ls' : fresh S (ls ++ ls') -> new_ok Y ls -> NoDup (ls ++ ls') -> fresh (Y ++ S) ls'.
Proof.
  intros H1 H2 N a n. rewrite kfind_app. destruct (kfind Y a) as [o|] eqn:K.
  - intros [= ->]. apply kfind_In in K. apply H2 in K as [_ K]. now apply (proj2 (proj2 (nodup_app _ _ N))).
  - intros K2 J. apply (H1 _ _ K2), in_or_app. now right.
Qed.
Lemma fresh_sub S ls ls' : fresh S ls -> incl ls' ls -> fresh S ls'.
Proof. intros H I a n K J. apply (H _ _ K), I, J. Qed.
Lemma new_ok_sub Y ls ls' : new_ok Y ls -> incl ls ls' -> new_ok Y ls'.
Proof. intros H I a n J. apply H in J as [J1 J2]. auto. Qed.
Lemma new_ok_app Y Z ls ls' : new_ok Y ls -> new_ok Z ls' -> new_ok (Z ++ Y) (ls ++ ls').
Proof.
  intros H1 H2 a n J. apply in_app_iff in J as [J|J].
  - apply H2 in J as [J1 J2]. split; [exact J1|apply in_or_app; now right].
  - apply H1 in J as [J1 J2]. split; [exact J1|apply in_or_app; now left].
Qed.

Lemma mk_labels o y : labels (mk o y) = match o with Some i => i :: labels y | None => labels y end.
Proof. now destruct o. Qed.
Lemma mk_sub o y : incl (labels y) (labels (mk o y)) /\ (NoDup (labels (mk o y)) -> NoDup (labels y)).
Proof.
  destruct o; cbn; split; try (intros H; now inversion H); auto using incl_refl, incl_tl.
Qed.
Lemma mk_tok ty o y : tok ty (mk o y) -> tok ty y /\ (forall i, o = Some i -> T i = ty).
Proof.
  destruct o as [i|]; cbn [mk]; intros H; split; auto; try discriminate.
  - intros j t J. apply H. now right.
  - intros j [= <-]. apply H. now left.
Qed.
Lemma mk_fit ty o y B W : tok ty (mk o y) -> all_of ty B ->
  (forall B', all_of ty B' -> tfit v T B' W ty y) -> tfit v T B W ty (mk o y).
Proof.
  intros H Hb K. destruct (mk_tok _ _ _ H) as [H1 H2]. destruct o as [i|]; cbn [mk]; [|now apply K].
  apply tf_at; [now apply H2|]. apply K. intros b [<-|J]; [now apply H2|now apply Hb].
Qed.
Lemma boxed_sub r y x : boxed perl r y x -> incl (labels y) (labels x) /\ (NoDup (labels x) -> NoDup (labels y)).
Proof. intros []; [split; auto using incl_refl|]. cbn [labels]. apply mk_sub. Qed.
Lemma boxed_tok r y x ty : boxed perl r y x -> tok ty x -> tok ty y.
Proof. intros [Hp|o Hp] H; [exact H|]. now apply (mk_tok ty o y). Qed.
Lemma boxed_fit r y x ty B W : boxed perl r y x -> tok ty x -> all_of ty B ->
  (forall B', all_of ty B' -> tfit v T B' W ty y) -> tfit v T B W ty x.
Proof. intros [Hp|o Hp] H Hb K; [now apply K|]. apply tf_ref, mk_fit; auto. Qed.

Lemma wait_app ty B W : (forall t, ty <> TyPtr t) -> all_of ty B -> wait_ok W -> wait_ok (B ++ W).
Proof. intros N Hb Hw n J t. apply in_app_iff in J as [J|J]; [|now apply Hw]. rewrite (Hb n J). apply N. Qed.

Lemma leaf_fit ty x r d B W : atomic x = true -> view ty x -> den perl nofreeze pf h r x d -> tfit v T B W ty (NLeaf d).
Proof.
  intros A [V|(id & -> & V)] D; inversion V; subst; try discriminate A; inversion D; subst; try discriminate A;
    (eapply tf_leaf; [discriminate|]).
  - apply (in_int _ _ _ _ z z); [assumption|reflexivity].
  - apply in_bool.
  - apply in_f32.
  - apply in_f64.
  - apply in_str.
  - apply in_bytes.
Qed.

Notation fr_B S B ty x := (shape_ ty x -> forall b, In b B -> forall a, kfind S a <> Some (Some b)).

Theorem knot_fits :
  (forall S r x y Y, kden_ S r x y Y -> forall ty B W, view ty x -> tok ty y -> NoDup (labels y) -> env_ok S ->
     fresh S (labels y) -> wait_ok W -> all_of ty B -> fr_B S B ty x -> tfit v T B W ty y /\ new_ok Y (labels y)) /\
  (forall S o r x y Y, kbody_ S o r x y Y -> forall ty B W, view ty x -> tok ty y -> (forall i, o = Some i -> T i = ty) ->
     NoDup (labels (mk o y)) -> env_ok S -> fresh S (labels (mk o y)) -> wait_ok W -> all_of ty B -> fr_B S B ty x ->
     tfit v T B W ty y /\ new_ok Y (labels (mk o y))) /\
  (forall S xs ys Y, kdens_ S xs ys Y -> forall t W, (forall x, In x xs -> shape_ t x) ->
     (forall y, In y ys -> tok t y) -> NoDup (flat_map labels ys) -> env_ok S -> fresh S (flat_map labels ys) ->
     wait_ok W -> (forall y, In y ys -> tfit v T [] W t y) /\ new_ok Y (flat_map labels ys) /\ length ys = length xs) /\
  (forall S m ys Y, kdenm_ S m ys Y -> forall te W, (forall k x, In (k, x) m -> shape_ (te k) x) ->
     (forall k y, In (k, y) ys -> tok (te k) y) -> NoDup (flat_map (fun ky => labels (snd ky)) ys) -> env_ok S ->
     fresh S (flat_map (fun ky => labels (snd ky)) ys) -> wait_ok W ->
     (forall k y, In (k, y) ys -> tfit v T [] W (te k) y) /\ new_ok Y (flat_map (fun ky => labels (snd ky)) ys) /\
     map fst ys = map fst m).
Proof.
  Local Ltac novar V := exfalso; destruct V as [V|(?id & -> & V)]; inversion V.
  apply kden_all_ind.
  - (* kd_item *) intros S o r x y Y _ IH ty B W V Tk N E F Hw Hb Hf.
    destruct (mk_tok _ _ _ Tk) as [Tk1 Tk2].
    destruct (IH ty (match o with Some i => i :: B | None => B end) W V Tk1 Tk2 N E F Hw) as [I1 I2].
    + destruct o as [i|]; [|exact Hb]. intros b [<-|J]; [now apply Tk2|now apply Hb].
    + intros Sh b J a K. destruct o as [i|]; [|now apply (Hf Sh b J a)].
      destruct J as [<-|J]; [|now apply (Hf Sh b J a)]. apply (F _ _ K). now left.
    + split; [|exact I2]. destruct o as [i|]; cbn [mk]; [|exact I1]. apply tf_at; [now apply Tk2|exact I1].
  - (* atom *) intros S o r x d A D ty B W V _ _ _ _ _ _ _ _. split; [eapply leaf_fit; eauto|intros a n []].
  - (* nil pointer *) intros S o r o' ty B W V Tk _ _ _ _ Hw Hb _. split; [|intros a n []].
    apply tf_ref, mk_fit; [exact Tk|exact Hb|]. intros B' _. destruct V as [V|(id & -> & V)]; inversion V; subst.
    eapply tf_leaf; [discriminate|]. apply in_undef; [now left|discriminate].
  - intros S o r base n xs x Y K IH Bx ty B W V. novar V.
  - (* typed slices and arrays *) intros S o r a base n xs x Y K IH Bx ty B W V Tk To N E F Hw Hb Hf.
    destruct (boxed_sub _ _ _ Bx) as [L1 L2]. pose proof (boxed_tok _ _ _ _ Bx Tk) as Tk'.
    destruct (mk_sub o x) as [L3 L4]. cbn [labels] in L1, L2.
    assert (P : forall t, elem ty = t -> (forall i, i < n -> sty (base + i) = Some t) -> forall W', wait_ok W' ->
      (forall y, In y xs -> tfit v T [] W' t y) /\ new_ok Y (flat_map labels xs) /\ length xs = n).
    { intros t Et Hc W' Hw'. destruct (IH t W') as (I1 & I2 & I3); auto.
      - intros c J. unfold cells in J. apply in_map_iff in J as (l & <- & J). apply in_seq in J.
        apply (proj1 TM). replace l with (base + (l - base)) by lia. apply Hc. lia.
      - intros y J i u J2. apply Tk'. cbn [tof]. apply in_flat_map. exists y. rewrite Et. auto.
      - eapply fresh_sub; [exact F|]. intros z J. apply L3, L1, J.
      - split; [exact I1|]. split; [exact I2|]. rewrite I3. unfold cells. now rewrite map_length, seq_length. }
    destruct V as [V|(id & -> & V)]; inversion V; subst.
    + destruct (P t eq_refl) with (W' := W) as (P1 & P2 & P3); auto. split.
      * eapply boxed_fit; eauto. intros B' _. now apply tf_slice.
      * eapply new_ok_sub; [exact P2|]. intros z J. apply L3, L1, J.
    + assert (NP : forall t0, TyArr n t <> TyPtr t0) by discriminate. split.
      * eapply boxed_fit; eauto. intros B' Hb'.
        destruct (P t eq_refl) with (W' := B' ++ W) as (P1 & P2 & P3); auto; [now apply (wait_app (TyArr n t))|]. now apply tf_array.
      * destruct (P t eq_refl) with (W' := W) as (P1 & P2 & P3); auto.
        eapply new_ok_sub; [exact P2|]. intros z J. apply L3, L1, J.
  - intros S o r l m kxs x Y N P K IH Bx ty B W V. novar V.
  - (* maps *) intros S o r l m kxs x Y Nd P K IH Bx ty B W V Tk To N E F Hw Hb Hf.
    destruct (boxed_sub _ _ _ Bx) as [L1 L2]. pose proof (boxed_tok _ _ _ _ Bx Tk) as Tk'.
    destruct (mk_sub o x) as [L3 L4]. cbn [labels] in L1, L2.
    destruct V as [V|(id & -> & V)]; inversion V; subst.
    destruct (IH (fun _ => t) W) as (I1 & I2 & I3); auto.
    + intros k y J. rewrite H0 in P. apply (List.in_map (fun kv => (GStr (fst kv), snd kv))) in J.
      apply (Permutation_in _ (Permutation_sym P)) in J. apply in_map_iff in J as ((k' & y') & [= -> ->] & J).
      cbn [fst snd] in *. eapply H2, J.
    + intros k y J i u J2. apply Tk'. cbn [tof]. apply in_flat_map. exists (k, y). auto.
    + eapply fresh_sub; [exact F|]. intros z J. apply L3, L1, J.
    + split.
      * eapply boxed_fit; eauto. intros B' _. apply tf_map; [now rewrite I3|exact I1].
      * eapply new_ok_sub; [exact I2|]. intros z J. apply L3, L1, J.
  - (* pointers *) intros S o r i l y Y Pl M K IH ty B W V Tk To N E F Hw Hb Hf.
    destruct V as [V|(id & -> & V)]; inversion V; subst.
    destruct (met_struct S l id H3) as [M1 M2]. rewrite M1 in M. rewrite M2. cbn [map app].
    assert (Kn : forall n, o = Some n -> known n (at_cell lay l)).
    { intros n ->. exists l, id. repeat split; auto. }
    assert (E' : env_ok ((at_cell lay l, o) :: S)).
    { intros a n. cbn [kfind]. destruct (addr_eqb (at_cell lay l) a) eqn:Ea; [|apply E].
      apply addr_eqb_true in Ea as <-. intros [= ->]. now apply Kn. }
    cbn [labels] in N, F. rewrite mk_labels in N, F. cbn [labels] in N, F.
    destruct (IH (TyPtr (TyStruct id)) B W) as [I1 I2]; auto.
    + right. exists id. split; [reflexivity|]. now apply (proj1 TM).
    + destruct o; [now inversion N|exact N].
    + intros a n. cbn [kfind]. destruct (addr_eqb (at_cell lay l) a) eqn:Ea.
      * intros [= ->]. now inversion N.
      * intros Ka J. apply (F _ _ Ka). destruct o; [now right|exact J].
    + intros Sh. apply (proj1 TM), struct_shape in H3 as (base & Q). rewrite Q in Sh. inversion Sh.
    + split; [now apply tf_ref|]. rewrite mk_labels. cbn [labels]. intros a n J. apply in_app_iff in J as [J|[[= <- ->]|[]]].
      * apply I2 in J as [J1 J2]. split; [exact J1|]. destruct o; [now right|exact J2].
      * split; [now apply Kn|now left].
  - (* references back *) intros S o r i l n Pl M ty B W V Tk To N E F Hw Hb Hf. split; [|intros a n' []].
    destruct V as [V|(id & -> & V)]; inversion V; subst.
    destruct (met_struct S l id H3) as [M1 M2]. rewrite M1 in M.
    destruct (E _ _ M) as (l' & id' & E1 & E2 & E3 & E4). apply (proj2 TM) in E2; auto. subst l'.
    assert (id' = id) by congruence. subst id'. apply tf_back; [exact E4|discriminate|discriminate|].
    intros J. apply in_app_iff in J as [J|J]; [now apply (Hf V _ J _ M)|now apply (Hw _ J _ E4)].
  - (* pointers to Perl structs *) intros S o r l x Y Ps K IH ty B W V. exfalso.
    destruct V as [V|(id & -> & V)]; inversion V; subst. apply (proj1 TM) in H2.
    apply struct_shape in H2 as (base & Q). rewrite Q in Ps. discriminate Ps.
  - intros S o r cls x y Y K IH ty B W V. novar V.
  - intros S o r cls l y Y K IH ty B W V. novar V.
  - intros S o r x y Y K IH ty B W V. novar V.
  - intros S o r l y Y K IH ty B W V. novar V.
  - intros S o r cls w m kxs o' y Y P K IH Bx ty B W V. novar V.
  - intros S o r name b x y Nf Sn ty B W V. novar V.
  - intros S o r name d x y Y Nf K IH ty B W V. novar V.
  - (* structs *) intros S o r name fs base tags kxs o' x Y Ft K IH Bx ty B W V Tk To N E F Hw Hb Hf.
    assert (Hid : exists id, fs = fields_of v id /\ (ty = TyStruct id \/ ty = TyPtr (TyStruct id)) /\
      forall k i, In (k, i) tags -> exists f t, nth_error (st_fields (decls v id)) i = Some (f, t) /\
        f_exported f = true /\ sty (base + i) = Some t /\ entry v ty k = t /\ names v id k i).
    { destruct (struct_fields _ _ _ _ V) as (id & _ & -> & Hty & Hfs). exists id. split; [reflexivity|].
      split; [tauto|]. intros k i J. apply (proj2 Ft) in J. destruct (Hfs k i J) as (f & t & A1 & A2 & A3). exists f, t.
      split; [exact A1|]. split; [exact A2|]. split; [exact A3|]. split; [|now left].
      destruct Hty as [[-> _] | ->]; cbn [entry]; rewrite (find_hit v id k i f t (or_introl J) A1); reflexivity. }
    destruct Hid as (id & -> & Hty & Hid).
    cbn [labels] in N, F. rewrite mk_labels in N, F. cbn [labels] in N, F.
    assert (N' : NoDup (labels (mk o' x))) by (destruct o; [now inversion N|exact N]).
    assert (F' : fresh S (labels (mk o' x))) by (eapply fresh_sub; [exact F|]; destruct o; auto using incl_refl, incl_tl).
    assert (L0 : incl (labels (mk o' x)) (labels (mk o (NObj name (mk o' x))))).
    { rewrite (mk_labels o). cbn [labels]. destruct o; auto using incl_refl, incl_tl. }
    assert (Tk0 : tok ty (mk o' x)) by exact Tk. destruct (mk_tok _ _ _ Tk0) as [Tk1 _].
    destruct (boxed_sub _ _ _ Bx) as [L1 L2]. pose proof (boxed_tok _ _ _ _ Bx Tk1) as Tk'.
    destruct (mk_sub o' x) as [L3 L4]. cbn [labels] in L1, L2.
    assert (P : forall W', wait_ok W' -> (forall k y, In (k, y) kxs -> tfit v T [] W' (entry v ty k) y) /\
      new_ok Y (flat_map (fun ky => labels (snd ky)) kxs) /\ map fst kxs = map fst tags).
    { intros W' Hw'. destruct (IH (entry v ty) W') as (I1 & I2 & I3); auto.
      - intros k y J. apply in_map_iff in J as ((k' & i) & [= <- <-] & J). cbn [fst snd].
        destruct (Hid _ _ J) as (f & t & A1 & A2 & A3 & -> & A5). now apply (proj1 TM).
      - intros k y J i u J2. apply Tk'. cbn [tof]. apply in_flat_map. exists (k, y). auto.
      - eapply fresh_sub; [exact F'|]. intros z J. apply L3, L1, J.
      - split; [exact I1|]. split; [exact I2|]. rewrite I3, map_map. reflexivity. }
    assert (Q : forall B' W', wait_ok (B' ++ W') -> tfit v T B' W' (TyStruct id) (NHash kxs)).
    { intros B' W' Hw'. destruct (P _ Hw') as (P1 & _ & P3).
      apply (tf_struct _ _ _ _ _ _ (map snd tags)).
      - rewrite map_length. rewrite <- (map_length fst kxs), P3, map_length. reflexivity.
      - eapply table_snd, Ft.
      - intros k y i J. pose proof (table_combine _ _ P3 _ _ _ J) as J1. apply in_combine_l in J.
        destruct (Hid _ _ J1) as (f & t & A1 & A2 & A3 & A4 & A5). exists f, t. repeat split; auto. rewrite <- A4. now apply P1. }
    split.
    + apply tf_obj, mk_fit; [exact Tk0|exact Hb|]. intros B1 Hb1. eapply boxed_fit; [exact Bx|exact Tk1|exact Hb1|].
      intros B2 Hb2. destruct Hty as [-> | ->].
      * apply Q. apply (wait_app (TyStruct id)); auto; discriminate.
      * apply tf_ptr; [reflexivity|]. now apply Q.
    + destruct (P W Hw) as (_ & P2 & _). eapply new_ok_sub; [exact P2|]. intros z J. apply L0, L3, L1, J.
  - intros S t W _ _ _ _ _ _. split; [intros y []|]. split; [intros a n []|reflexivity].
  - intros S x xs y ys Y Z K1 IH1 K2 IH2 t W Sh Tk N E F Hw. cbn [flat_map] in *.
    destruct (nodup_app _ _ N) as (N1 & N2 & N3).
    destruct (IH1 t [] W) as [I1 I2]; auto; try solve [intros b [] | intros _ b []].
    + left. apply Sh. now left.
    + apply Tk. now left.
    + eapply fresh_sub; [exact F|]. apply incl_appl, incl_refl.
    + destruct (IH2 t W) as (I3 & I4 & I5); auto.
      * intros; apply Sh; now right.
      * intros; apply Tk; now right.
      * eapply env_ok_app; eauto.
      * eapply fresh_app; eauto.
      * split; [intros y' [<-|J]; auto|]. split; [now apply new_ok_app|cbn; lia].
  - intros S te W _ _ _ _ _ _. split; [intros k y []|]. split; [intros a n []|reflexivity].
  - intros S k x m y ys Y Z K1 IH1 K2 IH2 te W Sh Tk N E F Hw. cbn [flat_map snd] in *.
    destruct (nodup_app _ _ N) as (N1 & N2 & N3).
    destruct (IH1 (te k) [] W) as [I1 I2]; auto; try solve [intros b [] | intros _ b []].
    + left. apply Sh. now left.
    + apply Tk. now left.
    + eapply fresh_sub; [exact F|]. apply incl_appl, incl_refl.
    + destruct (IH2 te W) as (I3 & I4 & I5); auto.
      * intros; apply Sh; now right.
      * intros; apply Tk; now right.
      * eapply env_ok_app; eauto.
      * eapply fresh_app; eauto.
      * split; [intros k' y' [[= <- <-]|J]; auto|]. split; [now apply new_ok_app|cbn; now f_equal].
Qed.
End Fitting.

Lemma knot_fits_type r x y Y ty : kden_ [] r x y Y -> shape_ ty x -> NoDup (labels y) -> fits_type v ty y.
Proof.
  intros K Sh N. exists (tmap v y ty). eapply (proj1 (knot_fits (tmap v y ty))); eauto.
  - now left.
  - intros i t. now apply tmap_in.
  - intros a n H. discriminate H.
  - intros a n H. discriminate H.
  - intros n [].
  - intros b [].
Qed.

(** ** What is read is the same graph *)
Scheme gsame_mind := Minimality for gsame Sort Prop
  with gsames_mind := Minimality for gsames Sort Prop
  with gsamef_mind := Minimality for gsamef Sort Prop.
Combined Scheme gsame_all_ind from gsame_mind, gsames_mind, gsamef_mind.
Lemma gsame_mono mem (R R' : loc -> mloc -> Prop) : (forall l l', R l l' -> R' l l') ->
  (forall ty x m K, gsame v h mem R ty x m K -> gsame v h mem R' ty x m K) /\
  (forall t xs ms K, gsames v h mem R t xs ms K -> gsames v h mem R' t xs ms K) /\
  (forall id base fs tags K, gsamef v h mem R id base fs tags K -> gsamef v h mem R' id base fs tags K).
Proof. intros H. apply gsame_all_ind; intros; econstructor; eauto. Qed.

Section Same.
Variable mem : memory.
Variable L : nat -> gtype * mval.
Notation tsh := (tshown v mem (fun i t w => L i = (t, w))).
Notation tshs := (tshowns v mem (fun i t w => L i = (t, w))).
Notation tshf := (tshownf v mem (fun i t w => L i = (t, w))).
Definition rel (G : list (loc * mloc)) (l : loc) (l' : mloc) : Prop := In (l, l') G.
Notation gsm G := (gsame v h mem (rel G)).
Notation gsms G := (gsames v h mem (rel G)).
(** pairs of structs that correspond, with the cells of the slices and maps in the second *)
Definition owned (H : list (loc * mloc * list mloc)) : list mloc := flat_map (fun p => snd (fst p) :: snd p) H.

Definition genv (S : kenv) (G : list (loc * mloc)) : Prop := forall a n, kfind S a = Some (Some n) ->
  exists l l' t, target l /\ a = at_cell lay l /\ In (l, l') G /\ L n = (t, MPtr (Some l')).
Definition gdom (S : kenv) (G : list (loc * mloc)) : Prop := forall l l', In (l, l') G -> kfind S (at_cell lay l) <> None.
Definition gclosed (H : list (loc * mloc * list mloc)) (G : list (loc * mloc)) : Prop := forall l l' K, In (l, l', K) H ->
  exists t m', sty l = Some t /\ nth_error mem l' = Some (MCell m') /\ gsm G t (hget h l) m' K.
Definition result (S Y : kenv) (G : list (loc * mloc)) (H : list (loc * mloc * list mloc)) (K F : list mloc) : Prop :=
  incl (K ++ owned H) F /\ NoDup (K ++ owned H) /\ NoDup (map fst (map fst H)) /\
  (forall l l', In (l, l') (map fst H) -> kfind S (at_cell lay l) = None) /\
  gclosed H (map fst H ++ G) /\ genv (Y ++ S) (map fst H ++ G) /\ gdom (Y ++ S) (map fst H ++ G).

Lemma result_nil S G K F : genv S G -> gdom S G -> NoDup K -> incl K F -> result S [] G [] K F.
Proof.
  intros H1 H2 H3 H4. unfold result. cbn. rewrite app_nil_r. split; [exact H4|]. split; [exact H3|]. split; [constructor|].
  split; [intros ? ? []|]. split; [intros ? ? ? []|]. now split.
Qed.
Lemma result_weaken S Y G H K l F : result S Y G H K F -> ~ In l F -> result S Y G H (l :: K) (l :: F).
Proof.
  intros (A & B & C) I. split; [|split; [|exact C]].
  - cbn [app]. intros x [<-|J]; [now left|right; apply A, J].
  - cbn [app]. constructor; [|exact B]. intros J. apply I, A, J.
Qed.
Lemma gclosed_mono H G G' : gclosed H G -> incl G G' -> gclosed H G'.
Proof.
  intros Hc I l l' K J. destruct (Hc _ _ _ J) as (t & m' & A & B & C). exists t, m'. split; [exact A|]. split; [exact B|].
  eapply (proj1 (gsame_mono mem (rel G) (rel G') (fun a b K => I _ K))), C.
Qed.
Lemma nodup_join {A} (a b : list A) : NoDup a -> NoDup b -> (forall x, In x a -> ~ In x b) -> NoDup (a ++ b).
Proof.
  induction a as [|x a IH]; cbn; auto. intros H1 H2 H3. inversion H1; subst. constructor.
  - rewrite in_app_iff. intros [K|K]; [now apply H4|]. apply (H3 x); auto.
  - apply IH; auto.
Qed.
Lemma owned_app H H' : owned (H ++ H') = owned H ++ owned H'.
Proof. apply flat_map_app. Qed.
Lemma result_app S Y Z G H1 H2 K1 K2 F1 F2 : result S Y G H1 K1 F1 -> result (Y ++ S) Z (map fst H1 ++ G) H2 K2 F2 ->
  NoDup (F1 ++ F2) -> result S (Z ++ Y) G (H2 ++ H1) (K1 ++ K2) (F1 ++ F2).
Proof.
  intros (A1 & A2 & A3 & A4 & A5 & A6 & A7) (B1 & B2 & B3 & B4 & B5 & B6 & B7) N.
  destruct (nodup_app _ _ N) as (N1 & N2 & N3). unfold result. rewrite !map_app, owned_app.
  assert (Pm : Permutation ((K1 ++ owned H1) ++ (K2 ++ owned H2)) ((K1 ++ K2) ++ owned H2 ++ owned H1)).
  { rewrite <- !app_assoc. apply Permutation_app_head. rewrite (Permutation_app_comm (owned H1)). rewrite <- app_assoc.
    reflexivity. }
  split; [|split; [|split; [|split; [|split; [|split]]]]].
  - intros x J. apply (Permutation_in _ (Permutation_sym Pm)) in J. revert x J. apply incl_app; [apply incl_appl, A1|apply incl_appr, B1].
  - apply (Permutation_NoDup Pm), nodup_join; auto. intros x J1 J2. apply (N3 x); [apply A1, J1|apply B1, J2].
  - apply nodup_join; auto. intros x J1 J2. apply in_map_iff in J1 as ((a & b) & <- & J1). apply in_map_iff in J2 as ((a' & b') & Ea & J2).
    cbn in Ea. subst a'. apply B4 in J1. apply (A7 a b'); [apply in_or_app; now left|exact J1].
  - intros l l' J. apply in_app_iff in J as [J|J]; [|eapply A4, J]. apply B4 in J. rewrite kfind_app in J.
    destruct (kfind Y _); [discriminate J|exact J].
  - rewrite <- app_assoc. intros l l' K J. apply in_app_iff in J as [J|J]; [now apply B5|].
    apply (gclosed_mono _ _ (map fst H2 ++ map fst H1 ++ G) A5); [apply incl_appr, incl_refl|exact J].
  - rewrite <- !app_assoc. exact B6.
  - rewrite <- !app_assoc. exact B7.
Qed.

Lemma mk_shown ty m o y F : tsh ty m (mk o y) F -> tsh ty m y F /\ (forall i, o = Some i -> L i = (ty, m)).
Proof.
  destruct o as [i|]; cbn [mk]; [|intros H; split; [exact H|discriminate]]. intros H. inversion H; subst.
  split; [assumption|]. intros j [= <-]. assumption.
Qed.
Lemma ref_shown ty m y F : tsh ty m (NRef y) F -> tsh ty m y F.
Proof. intros H. now inversion H. Qed.
Lemma boxed_shown r y x ty m F : boxed perl r y x -> tsh ty m x F -> tsh ty m y F.
Proof. intros [Hp|o Hp] H; [exact H|]. now apply ref_shown, mk_shown in H as [H _]. Qed.

(** pointers to hashes *)
Fixpoint hashy (x : node) : Prop :=
  match x with NAt _ x | NObj _ x | NRef x => hashy x | NHash _ => True | _ => False end.
Lemma hashy_shown t y : hashy y -> forall m F, tsh (TyPtr t) m y F -> exists l' m' F',
  m = MPtr (Some l') /\ F = l' :: F' /\ nth_error mem l' = Some (MCell m').
Proof. induction y; cbn [hashy]; try contradiction; intros Hy m F H; inversion H; subst; eauto 8. Qed.
Lemma struct_hashy S r name fs base y Y : kden_ S r (GStruct name fs base) y Y -> hashy y.
Proof.
  intros K. inversion K as [? o ? ? x ? K1]; subst. inversion K1; subst; try discriminate.
  assert (Hb : hashy x0) by (match goal with H : boxed _ _ _ _ |- _ => destruct H as [Hp|o2 Hp]; [exact Logic.I|destruct o2; exact Logic.I] end).
  destruct o, o'; exact Hb.
Qed.

Lemma bytes_shown s ms F : ats v mem (repeat (TyInt KUint8) (length ms)) ms (map byte_val s) F ->
  ms = map (fun b => MInt (Z.of_N (b2n b))) s.
Proof.
  revert s F. induction ms as [|m ms IH]; intros [|b s] F H; inversion H; subst; [reflexivity|]. cbn [map].
  match goal with H : at_ _ _ _ m _ _ |- _ => unfold byte_val in H; inversion H; subst end. f_equal. eapply IH; eassumption.
Qed.
Lemma leaf_shown ty x r d m F G : atomic x = true -> shape_ ty x -> den perl nofreeze pf h r x d -> tsh ty m (NLeaf d) F ->
  NoDup F -> exists K, gsm G ty x m K /\ NoDup K /\ incl K F.
Proof.
  intros A V D H N. inversion H as [? ? ? y ? Ni I At| | | | | | | | | | | |]; subst.
  inversion V; subst; try discriminate A; inversion D; subst; inversion I; subst;
    try (match goal with H : _ = DUndef \/ _ = DCanon |- _ => destruct H; discriminate end);
    inversion At; subst; (eexists; split; [|split]).
  - match goal with H : (?n mod _ = z mod _)%Z |- _ => replace n with z
      by (rewrite <- (wrap_kind_low k z n) by assumption; symmetry; now apply wrap_kind_in) end. constructor.
  - constructor.
  - intros ? [].
  - constructor.
  - constructor.
  - intros ? [].
  - match goal with H : narrow v (widen v ?u) = ?u |- _ => rewrite H end. constructor.
  - constructor.
  - intros ? [].
  - constructor.
  - constructor.
  - intros ? [].
  - constructor.
  - constructor.
  - intros ? [].
  - constructor. match goal with H : nth_error mem _ = _ |- _ => rewrite H end. do 3 f_equal. eapply bytes_shown; eassumption.
  - repeat constructor. intros [].
  - intros z [<-|[]]. now left.
Qed.

(** entries and fields *)
Inductive shl (te : bytes -> gtype) : list (bytes * node) -> list mval -> list mloc -> Prop :=
| shl_nil : shl te [] [] []
| shl_cons k x kxs m ms F F' : tsh (te k) m x F -> shl te kxs ms F' -> shl te ((k, x) :: kxs) (m :: ms) (F ++ F').
Lemma tshs_shl t kxs : forall ms F, tshs t ms (map snd kxs) F -> shl (fun _ => t) kxs ms F.
Proof.
  induction kxs as [|[k x] kxs IH]; intros ms F H; inversion H; subst; constructor; auto.
Qed.
Lemma tshf_shl id fs kxs : forall F tags, tshf id fs kxs F -> map fst kxs = map fst tags ->
  (forall k i, In (k, i) tags -> exists f t, serialised (fields_of v id) k i /\ nth_error (st_fields (decls v id)) i = Some (f, t)) ->
  shl (entry v (TyStruct id)) kxs (map (fun kt => msfield v id (snd kt) fs) tags) F.
Proof.
  induction kxs as [|[k x] kxs IH]; intros F [|[k' i'] tags] H E Ht; try discriminate E; inversion H; subst; [constructor|].
  cbn [map fst] in E. injection E as <- E. destruct (Ht k i') as (f' & t' & A1 & A2); [now left|].
  match goal with Hn : names v id k i, Hf : nth_error _ i = _ |- _ => pose proof (find_hit v id k i f t Hn Hf) as F1 end.
  pose proof (find_hit v id k i' f' t' (or_introl A1) A2) as F2. rewrite F1 in F2. injection F2 as <- <- <-.
  cbn [map snd]. constructor.
  - cbn [entry]. rewrite F1. assumption.
  - apply IH; auto. intros; apply Ht; now right.
Qed.
Lemma kdenm_keys S m kxs Y : kdenm_ S m kxs Y -> map fst kxs = map fst m.
Proof. induction 1; cbn; [reflexivity|]. now f_equal. Qed.
(** the entries or fields one by one *)
Inductive gsl (G : list (loc * mloc)) (te : bytes -> gtype) : list (bytes * gval) -> list mval -> list mloc -> Prop :=
| gsl_nil : gsl G te [] [] []
| gsl_cons k x m w ms K K' : gsm G (te k) x w K -> gsl G te m ms K' -> gsl G te ((k, x) :: m) (w :: ms) (K ++ K').
Lemma gsl_gsms G t m ms K : gsl G (fun _ => t) m ms K -> gsms G t (map snd m) ms K.
Proof. induction 1; cbn [map snd]; constructor; auto. Qed.
Lemma gsl_gsf G id base fs tags : forall K,
  (forall k i, In (k, i) tags -> exists f t, nth_error (st_fields (decls v id)) i = Some (f, t) /\ entry v (TyStruct id) k = t) ->
  gsl G (entry v (TyStruct id)) (map (fun kt => (fst kt, hget h (base + snd kt))) tags)
    (map (fun kt => msfield v id (snd kt) fs) tags) K ->
  gsamef v h mem (rel G) id base fs tags K.
Proof.
  induction tags as [|[k i] tags IH]; intros K Ht H; inversion H; subst; [constructor|].
  destruct (Ht k i) as (f & t & A1 & A2); [now left|]. cbn [fst snd] in *. econstructor; [exact A1|rewrite <- A2; assumption|].
  apply IH; [|assumption]. intros; apply Ht; now right.
Qed.

Theorem knot_same :
  (forall S r x y Y, kden_ S r x y Y -> forall ty m F G, tsh ty m y F -> NoDup F -> genv S G -> gdom S G ->
     (shape_ ty x -> exists H K, result S Y G H K F /\ gsm (map fst H ++ G) ty x m K) /\
     (forall id, ty = TyPtr (TyStruct id) -> shape_ (TyStruct id) x -> exists l' m' F' H K, m = MPtr (Some l') /\ F = l' :: F' /\
        nth_error mem l' = Some (MCell m') /\ result S Y G H K F' /\ gsm (map fst H ++ G) (TyStruct id) x m' K)) /\
  (forall S o r x y Y, kbody_ S o r x y Y -> forall ty m F G, tsh ty m y F -> (forall i, o = Some i -> L i = (ty, m)) ->
     NoDup F -> genv S G -> gdom S G ->
     (shape_ ty x -> exists H K, result S Y G H K F /\ gsm (map fst H ++ G) ty x m K) /\
     (forall id, ty = TyPtr (TyStruct id) -> shape_ (TyStruct id) x -> exists l' m' F' H K, m = MPtr (Some l') /\ F = l' :: F' /\
        nth_error mem l' = Some (MCell m') /\ result S Y G H K F' /\ gsm (map fst H ++ G) (TyStruct id) x m' K)) /\
  (forall S xs ys Y, kdens_ S xs ys Y -> forall t ms F G, (forall x, In x xs -> shape_ t x) -> tshs t ms ys F ->
     NoDup F -> genv S G -> gdom S G -> exists H K, result S Y G H K F /\ gsms (map fst H ++ G) t xs ms K) /\
  (forall S m ys Y, kdenm_ S m ys Y -> forall te ms F G, (forall k x, In (k, x) m -> shape_ (te k) x) -> shl te ys ms F ->
     NoDup F -> genv S G -> gdom S G -> exists H K, result S Y G H K F /\
     gsl (map fst H ++ G) te m ms K).
Proof.
  Local Ltac nosh := split; [intros V; inversion V|intros ? ? V; inversion V].
  apply kden_all_ind.
  - (* kd_item *) intros S o r x y Y _ IH ty m F G H N E D. destruct (mk_shown _ _ _ _ _ H) as [H1 H2]. now apply IH.
  - (* atom *) intros S o r x d A Dn ty m F G H _ N E D. split.
    + intros V. destruct (leaf_shown ty x r d m F G A V Dn H N) as (K & K1 & K2 & K3). exists [], K. split; [now apply result_nil|exact K1].
    + intros id _ V. inversion V; subst; discriminate A.
  - (* nil pointer *) intros S o r o' ty m F G H _ N E D. split; [|intros id _ V; inversion V].
    intros V. exists [], []. split; [apply result_nil; auto; [constructor|intros ? []]|]. inversion V; subst.
    apply ref_shown, mk_shown in H as [H _]. inversion H as [? ? ? y ? Ni I At| | | | | | | | | | | |]; subst.
    inversion I; subst. cbn in At. inversion At; subst. constructor.
  - intros; nosh.
  - (* typed slices and arrays *) intros S o r a base n xs x Y K IH Bx ty m F G H _ N E D.
    apply (boxed_shown _ _ _ _ _ _ Bx) in H. split; [|intros id _ V; inversion V]. intros V.
    assert (Hc : forall t, (forall i, i < n -> sty (base + i) = Some t) -> forall c, In c (cells h base n) -> shape_ t c).
    { intros t Hc c J. unfold cells in J. apply in_map_iff in J as (l & <- & J). apply in_seq in J.
      apply (proj1 TM). replace l with (base + (l - base)) by lia. apply Hc. lia. }
    inversion V as [| | | | | |t ? ? Hs Et Es|? t ? Hs Et Es| | | |]; subst; inversion H; subst.
    + inversion N; subst. destruct (IH t ms F0 G) as (H' & K' & R1 & R2); auto. exists H', (l :: K'). split.
      * now apply result_weaken.
      * eapply gs_slice; eauto.
    + destruct (IH t ms F G) as (H' & K' & R1 & R2); auto. exists H', K'. split; [exact R1|]. now apply gs_array.
  - intros; nosh.
  - (* maps *) intros S o r l m kxs x Y Nd P K IH Bx ty w F G H _ N E D.
    apply (boxed_shown _ _ _ _ _ _ Bx) in H. split; [|intros id _ V; inversion V]. intros V.
    inversion V as [| | | | | | | |t ? m0 Hm Hs Et Es| | |]; subst. inversion H; subst. inversion N; subst.
    pose proof (kdenm_keys _ _ _ _ K) as Ks.
    destruct (IH (fun _ => t) (map snd es) F0 G) as (H' & K' & R1 & R2); auto.
    + intros k y J. rewrite Hm in P. apply (List.in_map (fun kv => (GStr (fst kv), snd kv))) in J.
      apply (Permutation_in _ (Permutation_sym P)) in J. apply in_map_iff in J as ((k' & y') & [= -> ->] & J).
      eapply Hs, J.
    + now apply tshs_shl.
    + exists H', (l0 :: K'). split; [now apply result_weaken|].
      eapply gs_map; [exact P|eassumption|congruence|]. now apply gsl_gsms.
  - (* pointers *) intros S o r i l y Y Pl M K IH ty m F G H Ho N E D. split; [|intros id _ V; inversion V].
    intros V. inversion V as [| | | | | | | | | |id ? Tl Sl Et El|]; subst.
    destruct (met_struct S l id Sl) as [M1 M2]. rewrite M1 in M. rewrite M2. cbn [map app]. apply ref_shown in H.
    pose proof (proj1 TM _ _ Sl) as Sh. destruct (struct_shape _ _ Sh) as (base & Hl).
    assert (Hy : hashy y) by (rewrite Hl in K; eapply struct_hashy, K).
    destruct (hashy_shown _ _ Hy _ _ H) as (l' & m' & F' & -> & -> & Hm).
    destruct (IH (TyPtr (TyStruct id)) (MPtr (Some l')) (l' :: F') ((l, l') :: G) H N) as [_ I].
    + intros a n. cbn [kfind]. destruct (addr_eqb (at_cell lay l) a) eqn:Ea.
      * intros [= ->]. apply addr_eqb_true in Ea as <-. exists l, l', (TyPtr (TyStruct id)). repeat split; auto. now left.
      * intros Ka. destruct (E _ _ Ka) as (l1 & l1' & t & B1 & B2 & B3 & B4). exists l1, l1', t. repeat split; auto. now right.
    + intros a a' [[= <- <-]|J]; cbn [kfind]; [now rewrite addr_eqb_refl|].
      destruct (addr_eqb (at_cell lay l) (at_cell lay a)); [discriminate|]. eapply D, J.
    + destruct (I id eq_refl Sh) as (l2 & m2 & F2 & H' & K' & [= <-] & [= <-] & Hm2 & (R1 & R2 & R3 & R4 & R5 & R6 & R7) & Gs).
      assert (m2 = m') as -> by congruence. inversion N as [|? ? N1 N2]; subst.
      assert (Eg : map fst (H' ++ [(l, l', K')]) ++ G = map fst H' ++ (l, l') :: G) by (rewrite map_app, <- app_assoc; reflexivity).
      assert (Ey : (Y ++ [(at_cell lay l, o)]) ++ S = Y ++ (at_cell lay l, o) :: S) by (rewrite <- app_assoc; reflexivity).
      exists (H' ++ [(l, l', K')]), []. split.
      * unfold result. rewrite Eg, Ey, owned_app, !map_app. cbn [app owned flat_map map fst snd]. rewrite app_nil_r. split; [|split; [|split; [|split; [|split; [|split]]]]].
        -- intros z J. apply in_app_iff in J as [J|[<-|J]]; [right; apply R1, in_or_app; now right|now left|right; apply R1, in_or_app; now left].
        -- apply (Permutation_NoDup (l := l' :: K' ++ owned H')).
           { rewrite (Permutation_app_comm (owned H')). reflexivity. }
           constructor; [|exact R2]. intros J. apply N1, R1, J.
        -- apply (Permutation_NoDup (Permutation_cons_append _ _)). constructor; [|exact R3]. intros J.
           apply in_map_iff in J as ((a & a') & <- & J). apply R4 in J. cbn [kfind fst] in J. now rewrite addr_eqb_refl in J.
        -- intros a a' J. apply in_app_iff in J as [J|[[= <- <-]|[]]]; [|exact M]. apply R4 in J. cbn [kfind] in J.
           destruct (addr_eqb _ _); [discriminate J|exact J].
        -- intros a a' Ka J. apply in_app_iff in J as [J|[[= <- <- <-]|[]]]; [now apply R5|]. exists (TyStruct id), m'. auto.
        -- exact R6.
        -- exact R7.
      * rewrite Eg. apply gs_ptr. unfold rel. apply in_or_app. right. now left.
  - (* references back *) intros S o r i l n Pl M ty m F G H Ho N E D. split; [|intros id _ V; inversion V].
    intros V. inversion V as [| | | | | | | | | |id ? Tl Sl Et El|]; subst.
    destruct (met_struct S l id Sl) as [M1 M2]. rewrite M1 in M.
    destruct (E _ _ M) as (l1 & l1' & t & B1 & B2 & B3 & B4). apply (proj2 TM) in B2; auto. subst l1.
    exists [], []. split; [apply result_nil; auto; [constructor|intros ? []]|]. inversion H as [| | | | | | | | | | |? ? ? Hl|]; subst. rewrite B4 in Hl. injection Hl as -> <-.
    now apply gs_ptr.
  - (* pointers to Perl structs *) intros S o r l x Y Ps K IH ty m F G H Ho N E D. split; [|intros id _ V; inversion V].
    intros V. exfalso. inversion V as [| | | | | | | | | |id ? Tl Sl Et El|]; subst.
    destruct (struct_shape _ _ (proj1 TM _ _ Sl)) as (base & Hl). rewrite Hl in Ps. discriminate Ps.
  - intros; nosh.
  - intros; nosh.
  - intros; nosh.
  - intros; nosh.
  - intros; nosh.
  - intros; nosh.
  - intros; nosh.
  - (* structs *) intros S o r name fs base tags kxs o' x Y Ft K IH Bx ty m F G H _ N E D.
    assert (Q : forall id m F, tsh (TyStruct id) m (NHash kxs) F -> NoDup F -> shape_ (TyStruct id) (GStruct name fs base) ->
      exists H K, result S Y G H K F /\ gsm (map fst H ++ G) (TyStruct id) (GStruct name fs base) m K).
    { clear H N F m. intros id m F H N V. destruct (struct_fields _ _ _ _ (or_introl V)) as (id' & -> & -> & [[[= <-] _]|Hx] & Hfs); [|discriminate Hx].
      inversion H as [| | | | |? fs' ? ? Hf Hz| | | | | | |]; subst. pose proof (kdenm_keys _ _ _ _ K) as Ks. rewrite map_map in Ks. cbn [fst] in Ks.
      assert (Ht : forall k i, In (k, i) tags -> exists f t, serialised (fields_of v id) k i /\ nth_error (st_fields (decls v id)) i = Some (f, t)).
      { intros k i J. apply (proj2 Ft) in J. destruct (Hfs k i J) as (f & t & A1 & A2 & A3). eauto. }
      destruct (IH (entry v (TyStruct id)) (map (fun kt => msfield v id (snd kt) fs') tags) F G) as (H' & K' & R1 & R2); auto.
      - intros k y J. apply in_map_iff in J as ((k' & i) & [= <- <-] & J). cbn [fst snd]. apply (proj2 Ft) in J.
        destruct (Hfs k' i J) as (f & t & A1 & A2 & A3). cbn [entry]. rewrite (find_hit v id k' i f t (or_introl J) A1).
        now apply (proj1 TM).
      - now apply tshf_shl.
      - exists H', K'. split; [exact R1|]. apply gs_struct with tags; [exact Ft| |].
        + apply gsl_gsf; [|exact R2]. intros k i J. apply (proj2 Ft) in J. destruct (Hfs k i J) as (f & t & A1 & A2 & A3). exists f, t.
          split; [exact A1|]. cbn [entry]. now rewrite (find_hit v id k i f t (or_introl J) A1).
        + intros i f t Hn Hs. apply (Hz i f t Hn). intros k y J. apply (List.in_map fst) in J. cbn [fst] in J. rewrite Ks in J.
          apply in_map_iff in J as ((k1 & i1) & Ek & J). cbn in Ek. subst k1. apply (proj2 Ft) in J.
          intros [Hk|[Hk _]]; [now apply (Hs k)|now apply (Hk i1)]. }
    assert (H0 : tsh ty m (NHash kxs) F).
    { inversion H; subst. eapply boxed_shown; [exact Bx|]. eapply mk_shown; eassumption. }
    split.
    + intros V. destruct (struct_fields _ _ _ _ (or_introl V)) as (id & _ & _ & [[-> _]| ->] & _); [now apply Q|inversion V].
    + intros id -> V. inversion H0 as [| | | |t l' m' ? F' Hl Hs| | | | | | | |]; subst. inversion N; subst.
      destruct (Q id m' F' Hs) as (H' & K' & R1 & R2); auto. exists l', m', F', H', K'. auto.
  - intros S t ms F G _ H N E D. inversion H; subst. exists [], []. split; [apply result_nil; auto; intros ? []|constructor].
  - intros S x xs y ys Y Z K1 IH1 K2 IH2 t ms F G Sh H N E D. inversion H as [|? m ms0 ? ? F1 F2 T1 T2]; subst.
    destruct (nodup_app _ _ N) as (N1 & N2 & N3).
    destruct (IH1 t m F1 G T1 N1 E D) as [I _]. destruct I as (H1 & Ka & R1 & R2); [apply Sh; now left|].
    destruct (IH2 t ms0 F2 (map fst H1 ++ G)) as (H2 & Kb & R3 & R4); auto; try apply R1.
    { intros; apply Sh; now right. }
    exists (H2 ++ H1), (Ka ++ Kb). split; [now apply (result_app S Y Z G H1 H2 Ka Kb F1 F2)|]. rewrite map_app, <- app_assoc. constructor; [|exact R4].
    eapply (proj1 (gsame_mono mem (rel (map fst H1 ++ G)) _ _)), R2. Unshelve. intros a b J. apply in_or_app. now right.
  - intros S te ms F G _ H N E D. inversion H; subst. exists [], []. split; [apply result_nil; auto; intros ? []|constructor].
  - intros S k x m y ys Y Z K1 IH1 K2 IH2 te ms F G Sh H N E D. inversion H as [|? ? ? w ms0 F1 F2 T1 T2]; subst.
    destruct (nodup_app _ _ N) as (N1 & N2 & N3).
    destruct (IH1 (te k) w F1 G T1 N1 E D) as [I _]. destruct I as (H1 & Ka & R1 & R2); [apply Sh; now left|].
    destruct (IH2 te ms0 F2 (map fst H1 ++ G)) as (H2 & Kb & R3 & R4); auto; try apply R1.
    { intros; apply Sh; now right. }
    exists (H2 ++ H1), (Ka ++ Kb). split; [now apply (result_app S Y Z G H1 H2 Ka Kb F1 F2)|]. rewrite map_app, <- app_assoc. constructor; [|exact R4].
    eapply (proj1 (gsame_mono mem (rel (map fst H1 ++ G)) _ _)), R2. Unshelve. intros a b J. apply in_or_app. now right.
Qed.

Lemma nodup_fst {A B} (G : list (A * B)) : NoDup (map fst G) -> forall l a b, In (l, a) G -> In (l, b) G -> a = b.
Proof.
  induction G as [|[x y] G IH]; cbn [map fst]; intros N l a b; [intros []|]. inversion N; subst.
  intros [E1|J1] [E2|J2]; [congruence|injection E1 as -> ->|injection E2 as -> ->|].
  - destruct H1. apply (List.in_map fst) in J2. exact J2.
  - destruct H1. apply (List.in_map fst) in J1. exact J1.
  - eapply IH; eauto.
Qed.
Lemma nodup_snd {A B} (G : list (A * B)) : NoDup (map snd G) -> forall a b l, In (a, l) G -> In (b, l) G -> a = b.
Proof.
  induction G as [|[x y] G IH]; cbn [map snd]; intros N a b l; [intros []|]. inversion N; subst.
  intros [E1|J1] [E2|J2]; [congruence|injection E1 as -> ->|injection E2 as -> ->|].
  - destruct H1. apply (List.in_map snd) in J2. exact J2.
  - destruct H1. apply (List.in_map snd) in J1. exact J1.
  - eapply IH; eauto.
Qed.

Lemma owned_in l' K (H : list (loc * mloc * list mloc)) l : In (l, l', K) H -> incl (l' :: K) (owned H).
Proof. intros J c Jc. apply in_flat_map. exists (l, l', K). auto. Qed.
Lemma owned_nodup l l' K H : NoDup (owned H) -> In (l, l', K) H -> NoDup (l' :: K).
Proof.
  intros N J. induction H as [|p H IH]; [destruct J|]. cbn [owned flat_map] in N. destruct (nodup_app _ _ N) as (N1 & N2 & _).
  destruct J as [->|J]; auto.
Qed.
Lemma owned_apart l1 l1' K1 l2 l2' K2 H : NoDup (owned H) -> In (l1, l1', K1) H -> In (l2, l2', K2) H -> l1' <> l2' ->
  forall c, In c (l1' :: K1) -> ~ In c (l2' :: K2).
Proof.
  induction H as [|p H IH]; intros N; [intros []|]. cbn [owned flat_map] in N. destruct (nodup_app _ _ N) as (N1 & N2 & N3).
  intros [->|J1] [E2|J2] Nl c Jc Jc2.
  - congruence.
  - apply (N3 c Jc). eapply owned_in; eauto.
  - subst p. apply (N3 c Jc2). eapply owned_in; eauto.
  - eapply IH; eauto.
Qed.
Definition own_of (H : list (loc * mloc * list mloc)) (l' : mloc) : list mloc :=
  match List.find (fun p => Nat.eqb (snd (fst p)) l') H with Some p => snd p | None => [] end.
Lemma own_of_in H l l' : In (l, l') (map fst H) -> exists l0, In (l0, l', own_of H l') H.
Proof.
  unfold own_of. induction H as [|[[a b] K] H IH]; cbn [map fst]; [intros []|]. cbn [List.find fst snd].
  destruct (Nat.eqb_spec b l') as [->|Nb]; [intros _; exists a; now left|].
  intros [[= -> ->]|J]; [congruence|]. destruct (IH J) as (l0 & J0). exists l0. now right.
Qed.
Lemma owned_snd H : NoDup (owned H) -> NoDup (map snd (map fst H)).
Proof.
  induction H as [|[[a b] K] H IH]; cbn [owned flat_map map fst snd]; intros N; [constructor|].
  inversion N as [|? ? N1 N2]; subst. destruct (nodup_app _ _ N2) as (_ & N3 & _). constructor; [|now apply IH].
  intros J. apply N1, in_or_app. right. apply in_map_iff in J as ((a1 & b1) & <- & J).
  apply in_map_iff in J as (((a2 & b2) & K2) & [= -> ->] & J). eapply owned_in; [exact J|now left].
Qed.

Theorem knot_same_graph r x y Y ty m F (P : mloc -> Prop) : kden_ [] r x y Y -> shape_ ty x -> tsh ty m y F -> NoDup F ->
  (forall c, In c F -> P c) -> same_graph v h mem sty P ty x m.
Proof.
  intros Kd V Ts N HP. destruct (proj1 knot_same _ _ _ _ _ Kd ty m F [] Ts N) as [I _].
  - intros a n Hx. discriminate Hx.
  - intros l l' [].
  - destruct (I V) as (H & K & (R1 & R2 & R3 & R4 & R5 & R6 & R7) & Gs). rewrite app_nil_r in *.
    destruct (nodup_app _ _ R2) as (N1 & N2 & N3).
    assert (Own : forall l l', rel (map fst H) l l' -> In (l, l', own_of H l') H).
    { intros l l' J. destruct (own_of_in _ _ _ J) as (l0 & J0). pose proof (List.in_map fst _ _ J0) as J1. cbn [fst] in J1.
      rewrite (nodup_snd _ (owned_snd _ N2) _ _ _ J J1). exact J0. }
    exists (rel (map fst H)), K, (own_of H). split; [exact Gs|]. split; [|split; [|split; [|split; [exact N1|split; [|split]]]]].
    + intros l l' J. apply Own in J. now apply R5 in J.
    + intros l l1 l2. now apply nodup_fst.
    + intros l1 l2 l'. apply nodup_snd. now apply owned_snd.
    + intros c J. apply HP, R1, in_or_app. now left.
    + intros l l' J. apply Own in J. split; [eapply owned_nodup; eauto|]. intros c Jc.
      assert (Jo : In c (owned H)) by (eapply owned_in; eauto). split; [apply HP, R1, in_or_app; now right|].
      intros Jk. apply (N3 c Jk Jo).
    + intros l1 l1' l2 l2' J1 J2. eapply owned_apart; eauto.
Qed.
End Same.
End Knot.
