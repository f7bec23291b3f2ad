(** Values of scalars, slices, maps, frozen objects and pointers to these: their documents can be read in every mode. *)
From Verif Require Import Base BaseFacts SpecVarint Varint VarintFacts Tags GoMem TagsCache
  Encode Spec SpecValue SpecShare SpecGraph SpecCycle SpecKnot GrammarFacts EncodeSpec ShareFacts CycleFacts KnotEncode
  KnotFacts.
From Coq Require Import ZifyBool ZifyNat ZifyN Permutation.
Ltac Zify.zify_post_hook ::= Z.div_mod_to_equations.

(** ** The labels are different *)
Fixpoint marks (x : node) : list (nat * node) :=
  match x with
  | NLeaf _ | NBack _ | NSame _ => []
  | NArr l => flat_map marks l
  | NHash l => flat_map (fun kx => marks (snd kx)) l
  | NRef x | NWeak x | NObj _ x | NFreeze _ _ x | NCopy x => marks x
  | NAt n x => (n, x) :: marks x
  end.
Notation labs x := (map fst (marks x)).
Notation labss xs := (map fst (flat_map marks xs)).
Notation labsm xs := (map fst (flat_map (fun kx : bytes * node => marks (snd kx)) xs)).

Definition apart (l : list nat) (p p' : nat) : Prop := NoDup l /\ within l p p'.

Lemma apart_app l1 l2 p r q p' : r <= q -> apart l1 p r -> apart l2 q p' -> p <= q -> r <= p' -> apart (l1 ++ l2) p p'.
Proof.
  intros L [D1 W1] [D2 W2] Lp Lr. split.
  - induction l1 as [|a l1 IH]; [exact D2|]. inversion D1; subst. cbn. constructor.
    + rewrite in_app_iff. intros [H|H]; [auto|]. apply W2 in H. specialize (W1 a ltac:(now left)). lia.
    + apply IH; auto. intros n Hn. apply W1. now right.
  - intros n. rewrite in_app_iff. intros [H|H]; [apply W1 in H|apply W2 in H]; lia.
Qed.
Lemma apart_nil p p' : apart [] p p'.
Proof. split; [constructor|intros n []]. Qed.
Lemma apart_wide l p p' q q' : apart l p p' -> q <= p -> p' <= q' -> apart l q q'.
Proof. intros [D W] A B. split; [exact D|]. intros n H. apply W in H. lia. Qed.

Section Labels.
Variable g : dialect.
Variable by_ : bytes.

Theorem labels_apart :
  (forall E m p x p' X, oitem g by_ E m p x p' X -> apart (labs x) p p') /\
  (forall E m q t x p' X, obody g by_ E m q t x p' X -> apart (labs x) (S q) p') /\
  (forall E m p xs p' X, oitems g by_ E m p xs p' X -> apart (labss xs) p p') /\
  (forall E m p kxs p' X, opairs g by_ E m p kxs p' X -> apart (labsm kxs) p p').
Proof.
  destruct (oitem_within g by_) as (W1 & W2 & W3 & W4).
  apply (oitem_all_ind g by_
    (fun E m p x p' X _ => apart (labs x) p p')
    (fun E m q t x p' X _ => apart (labs x) (S q) p')
    (fun E m p xs p' X _ => apart (labss xs) p p')
    (fun E m p kxs p' X _ => apart (labsm kxs) p p')).
  - intros E m p t x p' X _ Hb [D W]. destruct (W2 _ _ _ _ _ _ _ Hb) as [L _]. cbn [marks map fst]. split.
    + constructor; [|exact D]. intros H. apply W in H. lia.
    + intros n [<-|H]; [lia|]. apply W in H. lia.
  - intros. apply apart_nil.
  - intros E m q x p' X _ H. exact H.
  - intros E m q x p' X _ H. exact H.
  - intros E m q n r xs p' X Hv _ _ _ H. apply (vlt g) in Hv. eapply apart_wide; [exact H|lia|lia].
  - intros E m q n r xs p' X Hv _ _ _ H. apply (vlt g) in Hv. eapply apart_wide; [exact H|lia|lia].
  - intros E m q cls r x p' X Hs _ H. apply stringish_lt in Hs. eapply apart_wide; [exact H|lia|lia].
  - intros E m q cls r s y p' X Hs _ _ H _ _. apply stringish_lt in Hs. cbn [marks flat_map] in *.
    rewrite app_nil_r in H. cbn [map fst] in H. destruct H as [D W]. split.
    + inversion D as [|? ? _ D']. now inversion D'.
    + intros n Hn. specialize (W n ltac:(right; right; exact Hn)). lia.
  - intros. apply apart_nil.
  - intros. apply apart_nil.
  - intros E m p x r X xs p' Y Hx A1 Hxs A2. cbn [flat_map]. rewrite map_app.
    apply W1 in Hx as [L1 _]. apply W3 in Hxs as [L2 _]. eapply apart_app; [|exact A1|exact A2|lia|lia]. lia.
  - intros. apply apart_nil.
  - intros E m p k r x r' X xs p' Y Hs Hx A1 Hxs A2. cbn [flat_map snd]. rewrite map_app. apply stringish_lt in Hs.
    apply W1 in Hx as [L1 _]. apply W4 in Hxs as [L2 _].
    eapply apart_wide; [eapply apart_app; [|exact A1|exact A2|lia|lia]|lia|lia]. lia.
Qed.
End Labels.

Lemma one_body (l : list (nat * node)) (a b : node) n : NoDup (map fst l) -> In (n, a) l -> In (n, b) l -> a = b.
Proof.
  induction l as [|[n' c] l IH]; intros D Ha Hb; [destruct Ha|]. inversion D as [|? ? N D']; subst.
  destruct Ha as [[= -> ->]|Ha], Hb as [[= ->]|Hb]; auto.
  - exfalso. apply N. apply (in_map fst) in Hb. exact Hb.
  - subst. exfalso. apply N. apply (in_map fst) in Ha. exact Ha.
Qed.

(** ** The traversal *)
Section Tame.
Variable f : nat -> option nat.
Variable M : list (nat * node).
Hypothesis Mone : NoDup (map fst M).
Hypothesis Finj : forall n n' i, f n = Some i -> f n' = Some i -> n = n'.
Variable perl nofreeze : bool.
Variable pf : bytes -> option N.
Variable lay : layout.
Variable h : heap.
Hypothesis Ht : tame_memory h.
Notation kden_ := (kden perl nofreeze pf lay h).
Notation kbody_ := (kbody perl nofreeze pf lay h).
Notation kdens_ := (kdens perl nofreeze pf lay h).
Notation kdenm_ := (kdenm perl nofreeze pf lay h).

Notation nil_ := (nil_node false (fun _ => True)).
Definition Zn (i : nat) : Prop := exists n b, In (n, b) M /\ nil_ b /\ f n = Some i.
Definition solid (n : nat) : Prop := exists b, In (n, b) M /\ ~ nil_ b.
Definition good (S : kenv) : Prop := forall a n, In (a, Some n) S -> solid n.

Notation nothing := (fun _ : nat => False).
Notation fp := (fine_node true nothing).
Notation fd := (fine_node false Zn).

Lemma nil_rename x : nil_node false Zn (rename f x) -> nil_ x.
Proof.
  induction x as [| | | | | | | |j x IH| |]; cbn [rename nil_node]; try tauto.
  destruct (f j); cbn [mk nil_node]; tauto.
Qed.

(** arrays and hashes *)
Definition boxy (x : node) : Prop := match x with NArr _ | NHash _ => True | _ => False end.
Definition boxy_item (x : node) : Prop := match x with NAt _ y => boxy y | y => boxy y end.
Lemma boxy_nil x : boxy x -> ~ nil_ x.
Proof. destruct x; cbn; tauto. Qed.
Lemma boxy_item_nil x : boxy_item x -> ~ nil_ x.
Proof. destruct x; cbn [boxy_item]; try apply boxy_nil. cbn [nil_node]. apply boxy_nil. Qed.
Lemma boxy_mk o x : boxy x -> boxy_item (mk o x).
Proof. destruct o; [auto|]. destruct x; cbn; tauto. Qed.
Lemma boxy_ren x : boxy x -> boxy (rename f x).
Proof. destruct x; try contradiction; intros _; exact I. Qed.

Lemma good_app X Y : good X -> good Y -> good (X ++ Y).
Proof. intros HX HY a n H. apply in_app_iff in H as [H|H]; eauto. Qed.
Lemma kfind_in S a o : kfind S a = Some o -> exists a', In (a', o) S.
Proof.
  induction S as [|[a' o'] S IH]; cbn [kfind]; [discriminate|]. destruct (addr_eqb a' a).
  - intros [= ->]. exists a'. now left.
  - intros H. apply IH in H as [a0 H]. exists a0. now right.
Qed.
Lemma met_in S l o : met lay h S l = Some o -> exists a, In (a, o) S.
Proof.
  unfold met. destruct (kfind S (at_cell lay l)) as [o'|] eqn:K.
  - intros [= ->]. eapply kfind_in; eauto.
  - destruct (own_addr lay l (hget h l)); [discriminate|]. apply kfind_in.
Qed.

Definition inside (x : node) : Prop := incl (marks x) M.

Lemma ok_arr xs : Forall (fun x => inside x -> forall S, fp false [] S (rename f x) -> fd false [] [] (rename f x)) xs ->
  inside (NArr xs) -> forall t B t' B' S, fp t B S (rename f (NArr xs)) -> fd t' B' [] (rename f (NArr xs)).
Proof.
  intros Fa I t B t' B' S. cbn [rename fine_node]. unfold inside in I. cbn [marks] in I.
  induction Fa as [|x xs Hx Fa IH]; cbn [map]; [auto|]. cbn [flat_map] in I. intros [H1 H2]. split.
  - eapply Hx; [|exact H1]. intros z Hz. apply I, in_app_iff. now left.
  - apply IH; [|exact H2]. intros z Hz. apply I, in_app_iff. now right.
Qed.
Lemma ok_hash xs : Forall (fun kx => inside (snd kx) -> forall S, fp false [] S (rename f (snd kx)) -> fd false [] [] (rename f (snd kx))) xs ->
  inside (NHash xs) -> forall t B t' B' S, fp t B S (rename f (NHash xs)) -> fd t' B' [] (rename f (NHash xs)).
Proof.
  intros Fa I t B t' B' S. cbn [rename fine_node]. unfold inside in I. cbn [marks] in I.
  induction Fa as [|[k x] xs Hx Fa IH]; cbn [map]; [auto|]. cbn [flat_map] in I. intros [H1 H2]. split.
  - eapply Hx; [|exact H1]. intros z Hz. apply I, in_app_iff. now left.
  - apply IH; [|exact H2]. intros z Hz. apply I, in_app_iff. now right.
Qed.

Lemma inside_mk o x : inside (mk o x) -> inside x.
Proof. destruct o; [|auto]. intros I z Hz. apply I. now right. Qed.

Lemma box_ok r x y : boxy x -> (forall t B t' B' S, fp t B S (rename f x) -> fd t' B' [] (rename f x)) ->
  boxed perl r x y -> forall t B S, fp t B S (rename f y) -> fd t B [] (rename f y).
Proof.
  intros Bx H [_|o _] t B S; [apply H|]. cbn [rename]. rewrite rename_mk. cbn [fine_node]. intros Hf.
  destruct (ren f o) as [i|]; cbn [mk fine_node] in *; [|eapply H; exact Hf]. split; [|eapply H; apply Hf].
  intros N. apply nil_rename in N. now apply boxy_nil in N.
Qed.
Lemma boxed_marks r x y : boxed perl r x y -> inside y -> inside x.
Proof. intros [_|o _] I; [exact I|]. now apply inside_mk with o. Qed.
Lemma boxed_boxy x y : boxed perl true x y -> y = x.
Proof. inversion 1 as [|? H0]; [reflexivity|]. now rewrite Bool.andb_false_r in H0. Qed.

Lemma kbody_boxy S o v x Y : kbody_ S o true v x Y -> container v = true -> boxy x.
Proof.
  intros H C. destruct v; try discriminate C; inversion H; subst; try discriminate;
    match goal with B : boxed _ true _ _ |- _ => apply boxed_boxy in B as ->; exact Logic.I end.
Qed.

(** frozen objects: hashes of two strings *)
Lemma mk_fd o x : inside (mk o x) -> (forall t B S, fd t B S (rename f x)) -> forall t B S, fd t B S (rename f (mk o x)).
Proof.
  intros I H t B S. rewrite rename_mk. destruct (ren f o) as [i|] eqn:R; cbn [mk fine_node]; [|apply H]. split; [|apply H].
  intros N. apply nil_rename in N. destruct o as [n|]; [|discriminate R]. exists n, x. split; [apply I; now left|]. auto.
Qed.
Lemma atoms_leaves S m kxs Y : kdenm_ S m kxs Y -> Forall (fun kv => exists s, snd kv = GStr s \/ exists w, snd kv = GBytes w) m ->
  Forall (fun kx : bytes * node => exists o d, snd kx = mk o (NLeaf d)) kxs /\ Y = [].
Proof.
  induction 1 as [|S k v m x kxs Y Z Hv Hm IH]; intros Fm; [split; constructor|].
  inversion Fm as [|? ? Hh Ft]; subst. destruct (IH Ft) as [I1 ->]. cbn [snd] in Hh.
  inversion Hv as [? o ? ? x0 ? Hb]; subst.
  assert (E : exists d, x0 = NLeaf d /\ Y = []).
  { destruct Hh as (s & [-> | (w & ->)]); inversion Hb; subst; eauto. }
  destruct E as (d & -> & ->). split; [|reflexivity]. constructor; [|exact I1]. cbn [snd]. eauto.
Qed.
Lemma leaves_fd kxs : Forall (fun kx : bytes * node => exists o d, snd kx = mk o (NLeaf d)) kxs -> inside (NHash kxs) ->
  forall t B S, fd t B S (rename f (NHash kxs)).
Proof.
  intros Fa I t B S. cbn [rename fine_node]. unfold inside in I. cbn [marks] in I.
  induction Fa as [|[k x] xs (o & d & Hx) Fa IH]; cbn [map]; [auto|]. cbn [flat_map snd] in I, Hx. subst x. split.
  - apply mk_fd; [|intros; exact Logic.I]. intros z Hz. apply I, in_app_iff. now left.
  - apply IH. intros z Hz. apply I, in_app_iff. now right.
Qed.
Lemma box_fd r kxs y : boxed perl r (NHash kxs) y -> Forall (fun kx : bytes * node => exists o d, snd kx = mk o (NLeaf d)) kxs ->
  inside y -> (forall t B S, fd t B S (rename f y)) /\ ~ nil_ y.
Proof.
  intros [_|o _] Fa I.
  - split; [now apply leaves_fd|intros []].
  - split.
    + intros t B S. cbn [rename fine_node]. apply mk_fd; [exact I|]. apply leaves_fd; [exact Fa|]. now apply inside_mk with o.
    + intros [_ N]. destruct o; exact N.
Qed.
Lemma freeze_fd S m kxs Y o' y : kdenm_ S m kxs Y ->
  Forall (fun kv => exists s, snd kv = GStr s \/ exists w, snd kv = GBytes w) m ->
  boxed perl false (NHash kxs) y -> inside (mk o' y) ->
  (forall t B S0, fd t B S0 (rename f (NObj name_PerlFreeze (mk o' y)))) /\ Y = [] /\ ~ nil_ (mk o' y).
Proof.
  intros Hm Fm Bx I. destruct (atoms_leaves _ _ _ _ Hm Fm) as [Fa ->].
  destruct (box_fd _ _ _ Bx Fa (inside_mk _ _ I)) as [Hf Hn]. split; [|split; [reflexivity|]].
  - intros t B S0. cbn [rename fine_node]. now apply mk_fd.
  - destruct o'; exact Hn.
Qed.
Lemma freeze_atoms cls w m : Permutation [(name_Class, GStr cls); (name_Data, GBytes w)] m ->
  Forall (fun kv : bytes * gval => exists s, snd kv = GStr s \/ exists w, snd kv = GBytes w) m.
Proof.
  intros P. apply Forall_forall. intros kv H. eapply Permutation_in in H; [|symmetry; exact P].
  destruct H as [<-|[<-|[]]]; cbn [snd]; exists cls; eauto.
Qed.
(** arrays, hashes and scalars other than undef *)
Definition firm (x : node) : Prop := boxy x \/ (exists d, x = NLeaf d /\ ~ nilish d) \/ exists c y, x = NObj c y /\ ~ nil_ y.
Lemma firm_nil x : firm x -> ~ nil_ x.
Proof. intros [B|[(d & -> & N)|(c & y & -> & N)]]; [now apply boxy_nil| |]; intros [_ H]; auto. Qed.
Lemma firm_item_nil o x : firm x -> ~ nil_ (mk o x).
Proof. intros F. destruct o; [exact (firm_nil x F)|]. now apply firm_nil. Qed.
Lemma den_atom r v d : den perl nofreeze pf h r v d -> atomic v = true -> nil_like v = false -> ~ nilish d.
Proof. intros H A N. destruct v; try discriminate; inversion H; subst; intros K; inversion K. Qed.
Lemma kbody_firm S o v x Y : kbody_ S o true v x Y -> pointed v = true -> firm x.
Proof.
  intros H C. apply Bool.orb_true_iff in C as [C|C]; [apply Bool.orb_true_iff in C as [C|C]; [left; eapply kbody_boxy; eauto|]|]; right.
  - right. destruct v; try discriminate C. inversion H; subst; [discriminate|].
    eexists _, _. split; [reflexivity|].
    match goal with B : boxed _ _ _ _ |- _ => inversion B; subst end.
    + destruct o'; cbn; tauto.
    + destruct o', o0; cbn; tauto.
  - left. apply Bool.andb_true_iff in C as [A N]. apply Bool.negb_true_iff in N.
    destruct v; try discriminate A; try discriminate N; inversion H; subst;
      (eexists; split; [reflexivity|]; eapply den_atom; eauto).
Qed.
Lemma kden_firm S v x Y : kden_ S true v x Y -> pointed v = true -> exists o b, x = mk o b /\ firm b.
Proof. inversion 1; subst. intros C. eexists _, _. split; [reflexivity|]. eapply kbody_firm; eauto. Qed.

Notation okay x := (forall S0, fp false [] S0 (rename f x) -> fd false [] [] (rename f x)).

Theorem tame_fine :
  (forall S r v x Y, kden_ S r v x Y -> tame h v -> good S -> inside x -> bound f x ->
     okay x /\ good Y /\
     (pointed v = true -> r = true -> exists o b, x = mk o b /\ firm b /\
        forall t B S0 t' B', fp t B S0 (rename f x) -> fd t' B' [] (rename f x))) /\
  (forall S o r v x Y, kbody_ S o r v x Y -> tame h v -> good S -> inside x -> (forall n, o = Some n -> In (n, x) M) ->
     bound f x ->
     (forall t B S0, fp t B S0 (rename f x) -> fd t B [] (rename f x)) /\ good Y /\
     (pointed v = true -> r = true -> firm x /\
        forall t B S0 t' B', fp t B S0 (rename f x) -> fd t' B' [] (rename f x))) /\
  (forall S vs xs Y, kdens_ S vs xs Y -> Forall (tame h) vs -> good S -> inside (NArr xs) -> bound f (NArr xs) ->
     Forall (fun x => inside x -> okay x) xs /\ good Y) /\
  (forall S vs xs Y, kdenm_ S vs xs Y -> Forall (fun kv => tame h (snd kv)) vs -> good S -> inside (NHash xs) -> bound f (NHash xs) ->
     Forall (fun kx => inside (snd kx) -> okay (snd kx)) xs /\ good Y).
Proof.
  destruct Ht as (T1 & T2 & T3).
  apply (kden_all_ind perl nofreeze pf lay h
  (fun S r v x Y _ => tame h v -> good S -> inside x -> bound f x ->
     okay x /\ good Y /\
     (pointed v = true -> r = true -> exists o b, x = mk o b /\ firm b /\
        forall t B S0 t' B', fp t B S0 (rename f x) -> fd t' B' [] (rename f x)))
  (fun S o r v x Y _ => tame h v -> good S -> inside x -> (forall n, o = Some n -> In (n, x) M) ->
     bound f x ->
     (forall t B S0, fp t B S0 (rename f x) -> fd t B [] (rename f x)) /\ good Y /\
     (pointed v = true -> r = true -> firm x /\
        forall t B S0 t' B', fp t B S0 (rename f x) -> fd t' B' [] (rename f x)))
  (fun S vs xs Y _ => Forall (tame h) vs -> good S -> inside (NArr xs) -> bound f (NArr xs) ->
     Forall (fun x => inside x -> okay x) xs /\ good Y)
  (fun S vs xs Y _ => Forall (fun kv => tame h (snd kv)) vs -> good S -> inside (NHash xs) -> bound f (NHash xs) ->
     Forall (fun kx => inside (snd kx) -> okay (snd kx)) xs /\ good Y)).
  - intros S o r v x Y _ IH Tv Gs I Bd. destruct IH as (I1 & I2 & I3); auto.
    { eapply inside_mk, I. }
    { intros n ->. apply I. now left. }
    { unfold bound in *. now rewrite backs_mk in Bd. }
    assert (Hn : forall i, ren f o = Some i -> nil_node false Zn (rename f x) -> Zn i).
    { intros i Hi N. apply nil_rename in N. destruct o as [n|]; [|discriminate Hi]. exists n, x.
      split; [apply I; now left|]. split; [exact N|exact Hi]. }
    split; [|split; [exact I2|]].
    + intros S0. rewrite rename_mk. destruct (ren f o) as [i|]; cbn [mk fine_node]; [|apply I1].
      intros [_ H]. split; [now apply Hn|]. eapply I1. exact H.
    + intros Cv Hr. destruct (I3 Cv Hr) as [J1 J2]. exists o, x. split; [reflexivity|]. split; [exact J1|].
      intros t B S0 t' B'. rewrite rename_mk. destruct (ren f o) as [i|]; cbn [mk fine_node]; [|apply J2].
      intros [_ H]. split; [now apply Hn|]. eapply J2. exact H.
  - intros S o r v d Av Hd Tv Gs I In_ Bd. split; [intros; exact Logic.I|]. split; [intros a n []|].
    intros Cv _. split; [|intros; exact Logic.I]. apply Bool.orb_true_iff in Cv as [Cv|Cv]; [destruct v; discriminate|].
    right. left. exists d. split; [reflexivity|]. apply Bool.andb_true_iff in Cv as [_ Cv]. apply Bool.negb_true_iff in Cv.
    eapply den_atom; eauto.
  - intros S o r o' Tv Gs I In_ Bd. split; [|split; [intros a n []|discriminate]].
    intros t B S0. cbn [rename]. rewrite rename_mk. cbn [fine_node]. intros _. destruct o' as [n|]; [|exact Logic.I].
    cbn [ren]. destruct (f n) as [i|] eqn:Fi; [|exact Logic.I]. cbn [mk fine_node]. split; [|exact Logic.I].
    intros _. exists n, (NLeaf DUndef). split; [apply I; now left|]. split; [|exact Fi]. split; [reflexivity|]. constructor.
  - intros S o r base n xs x Y _ IH Bx Tv Gs I In_ Bd.
    assert (I' := boxed_marks _ _ _ Bx I).
    destruct IH as [F1 F2]; auto.
    { apply Forall_forall. intros v Hv. apply in_map_iff in Hv as (l & <- & _). apply T1. }
    { unfold bound in *. now rewrite (boxed_backs perl _ _ _ Bx) in Bd. }
    split; [|split; [exact F2|]].
    + eapply box_ok; [| |exact Bx]; [exact Logic.I|]. intros t B t' B' S0. now apply ok_arr.
    + intros _ ->. apply boxed_boxy in Bx as ->. split; [left; exact Logic.I|]. intros t B S0 t' B'. now apply ok_arr.
  - intros S o r a base n xs x Y _ IH Bx Tv Gs I In_ Bd.
    assert (I' := boxed_marks _ _ _ Bx I).
    destruct IH as [F1 F2]; auto.
    { apply Forall_forall. intros v Hv. apply in_map_iff in Hv as (l & <- & _). apply T1. }
    { unfold bound in *. now rewrite (boxed_backs perl _ _ _ Bx) in Bd. }
    split; [|split; [exact F2|]].
    + eapply box_ok; [| |exact Bx]; [exact Logic.I|]. intros t B t' B' S0. now apply ok_arr.
    + intros _ ->. apply boxed_boxy in Bx as ->. split; [left; exact Logic.I|]. intros t B S0 t' B'. now apply ok_arr.
  - intros S o r l m kxs x Y Nd Pm _ IH Bx Tv Gs I In_ Bd.
    assert (I' := boxed_marks _ _ _ Bx I).
    destruct IH as [F1 F2]; auto.
    { apply Forall_forall. intros [k v] Hv. apply (T2 l k). eapply Permutation_in; [symmetry; exact Pm|exact Hv]. }
    { unfold bound in *. now rewrite (boxed_backs perl _ _ _ Bx) in Bd. }
    split; [|split; [exact F2|]].
    + eapply box_ok; [| |exact Bx]; [exact Logic.I|]. intros t B t' B' S0. now apply ok_hash.
    + intros _ ->. apply boxed_boxy in Bx as ->. split; [left; exact Logic.I|]. intros t B S0 t' B'. now apply ok_hash.
  - intros S o r l m kxs x Y Nd Pm _ IH Bx Tv Gs I In_ Bd.
    assert (I' := boxed_marks _ _ _ Bx I).
    destruct IH as [F1 F2]; auto.
    { apply Forall_forall. intros [k v] Hv. apply (T3 l (GStr k)). eapply Permutation_in; [symmetry; exact Pm|].
      apply in_map_iff. exists (k, v). auto. }
    { unfold bound in *. now rewrite (boxed_backs perl _ _ _ Bx) in Bd. }
    split; [|split; [exact F2|]].
    + eapply box_ok; [| |exact Bx]; [exact Logic.I|]. intros t B t' B' S0. now apply ok_hash.
    + intros _ ->. apply boxed_boxy in Bx as ->. split; [left; exact Logic.I|]. intros t B S0 t' B'. now apply ok_hash.
  - intros S o r i l y Y Hs Hm Hk IH Tv Gs I In_ Bd.
    assert (Cl : pointed (hget h l) = true).
    { destruct Tv as [Tv|[Tv|[Tv|[Tv|[(i' & l' & [= <- <-] & C)|(l' & c & [= -> ->] & C)]]]]]; try discriminate Tv; [exact C|].
      rewrite C in Hs. discriminate Hs. }
    assert (So : forall n, o = Some n -> ~ nil_ y -> solid n).
    { intros n Ho Ny. exists (NRef y). split; [now apply In_|]. intros [_ N]. auto. }
    assert (By : exists o b, y = mk o b /\ firm b).
    { eapply kden_firm; eauto. }
    destruct By as (o1 & b & -> & Bb).
    assert (Ny : ~ nil_ (mk o1 b)) by (apply firm_item_nil, Bb).
    destruct IH as (I1 & I2 & I3); auto.
    { intros a n [[= <- ->]|H]; [now apply So|now apply Gs in H]. }
    destruct (I3 Cl eq_refl) as (o2 & b2 & _ & _ & J).
    split; [|split; [|discriminate]].
    + intros t B S0. cbn [rename fine_node]. apply J.
    + apply good_app; [|apply good_app; [exact I2|]].
      * intros a n H. apply in_map_iff in H as (a' & [= <- Hl] & _).
        destruct o1 as [n1|]; [|destruct Bb as [Bb|[(d & -> & _)|(c & y & -> & _)]]; [destruct b; try contradiction| |]; discriminate Hl]. cbn [mk label] in Hl. injection Hl as ->.
        exists b. split; [apply I; now left|]. now apply firm_nil.
      * intros a n [[= <- ->]|[]]. now apply So.
  - intros S o r i l n Hs Hm Tv Gs I In_ Bd. split; [|split; [intros a n' []|discriminate]].
    intros t B S0. cbn [rename]. destruct (f n) as [j|] eqn:Fj; [|exfalso; apply (Bd n); [now left|exact Fj]].
    cbn [fine_node]. rewrite app_nil_r. intros [H _]. split; [intros Hj; apply H, in_app_iff; now left|].
    intros (n' & b & In1 & Nb & Fn). assert (n' = n) as -> by eauto.
    apply met_in in Hm as [a Ha]. apply Gs in Ha as (b' & In2 & Nb'). rewrite (one_body _ _ _ _ Mone In1 In2) in Nb. auto.
  - intros S o r l x Y Hs Hk IH Tv Gs I In_ Bd.
    assert (A : atomic (hget h l) = true).
    { destruct Tv as [Tv|[Tv|[Tv|[Tv|[(i' & l' & [= <- <-] & C)|(l' & c & [= ->] & C)]]]]]; try discriminate Tv; [|now rewrite C].
      destruct (hget h l); try discriminate Hs; try discriminate C; reflexivity. }
    destruct IH as (I1 & I2 & _); auto.
    split; [exact I1|]. split; [exact I2|discriminate].
  - intros S o r cls v x Y _ _ [Tv|[Tv|[Tv|[Tv|[(i' & l' & [=] & C)|(l' & c & [=] & C)]]]]]; discriminate Tv.
  - intros S o r cls l x Y _ _ [Tv|[Tv|[Tv|[Tv|[(i' & l' & [=] & C)|(l' & c & [=] & C)]]]]]; discriminate Tv.
  - intros S o r v x Y _ _ [Tv|[Tv|[Tv|[Tv|[(i' & l' & [=] & C)|(l' & c & [=] & C)]]]]]; discriminate Tv.
  - intros S o r l x Y _ _ [Tv|[Tv|[Tv|[Tv|[(i' & l' & [=] & C)|(l' & c & [=] & C)]]]]]; discriminate Tv.
  - intros S o r cls w m kxs o' x Y Pm Hm _ Bx Tv Gs I In_ Bd.
    destruct (freeze_fd _ _ _ _ o' _ Hm (freeze_atoms _ _ _ Pm) Bx I) as (Hf & -> & Hn).
    split; [intros; apply Hf|]. split; [intros a n []|]. intros _ _. split; [|intros; apply Hf]. right. right. eauto.
  - intros S o r name b v y _ _ [Tv|[Tv|[Tv|[Tv|[(i' & l' & [=] & C)|(l' & c & [=] & C)]]]]]; discriminate Tv.
  - intros S o r name d v x Y _ _ _ [Tv|[Tv|[Tv|[Tv|[(i' & l' & [=] & C)|(l' & c & [=] & C)]]]]]; discriminate Tv.
  - intros S o r name fs base tags kxs o' x Y _ _ _ _ [Tv|[Tv|[Tv|[Tv|[(i' & l' & [=] & C)|(l' & c & [=] & C)]]]]]; discriminate Tv.
  - intros. split; [constructor|intros a n []].
  - intros S v vs x xs Y Z _ IH1 _ IH2 Fv Gs I Bd. inversion Fv as [|? ? Tv Fv']; subst.
    destruct IH1 as (J1 & J2 & _); auto.
    { intros z Hz. apply I. cbn [marks flat_map]. apply in_app_iff. now left. }
    { intros z Hz. apply Bd. cbn [backs flat_map]. apply in_app_iff. now left. }
    destruct IH2 as (K1 & K2); auto.
    { now apply good_app. }
    { intros z Hz. apply I. cbn [marks flat_map]. apply in_app_iff. now right. }
    { intros z Hz. apply Bd. cbn [backs flat_map]. apply in_app_iff. now right. }
    split; [constructor; auto|now apply good_app].
  - intros. split; [constructor|intros a n []].
  - intros S k v vs x xs Y Z _ IH1 _ IH2 Fv Gs I Bd. inversion Fv as [|? ? Tv Fv']; subst.
    destruct IH1 as (J1 & J2 & _); auto.
    { intros z Hz. apply I. cbn [marks flat_map snd]. apply in_app_iff. now left. }
    { intros z Hz. apply Bd. cbn [backs flat_map snd]. apply in_app_iff. now left. }
    destruct IH2 as (K1 & K2); auto.
    { now apply good_app. }
    { intros z Hz. apply I. cbn [marks flat_map snd]. apply in_app_iff. now right. }
    { intros z Hz. apply Bd. cbn [backs flat_map snd]. apply in_app_iff. now right. }
    split; [constructor; auto|now apply good_app].
Qed.
End Tame.
