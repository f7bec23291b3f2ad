(** From offsets to the numbers of the marked items. *)
From Verif Require Import Base BaseFacts SpecVarint Varint VarintFacts Tags GoMem TagsCache
  Encode Spec SpecValue SpecShare SpecGraph SpecCycle SpecKnot GrammarFacts EncodeSpec ShareFacts CycleFacts KnotEncode.
From Coq Require Import ZifyBool ZifyNat ZifyN Permutation.
Ltac Zify.zify_post_hook ::= Z.div_mod_to_equations.

Scheme oitem_mind := Induction for oitem Sort Prop
  with obody_mind := Induction for obody Sort Prop
  with oitems_mind := Induction for oitems Sort Prop
  with opairs_mind := Induction for opairs Sort Prop.
Combined Scheme oitem_all_ind from oitem_mind, obody_mind, oitems_mind, opairs_mind.
Scheme kden_mind := Induction for kden Sort Prop
  with kbody_mind := Induction for kbody Sort Prop
  with kdens_mind := Induction for kdens Sort Prop
  with kdenm_mind := Induction for kdenm Sort Prop.
Combined Scheme kden_all_ind from kden_mind, kbody_mind, kdens_mind, kdenm_mind.

(** ** Numbers *)
Lemma number_in F n i : number F n = Some i -> In n F.
Proof.
  induction F as [|n' F IH]; cbn [number]; [discriminate|]. destruct (Nat.eqb_spec n' n); [now left|right; auto].
Qed.
Lemma number_some F n : In n F -> exists i, number F n = Some i.
Proof.
  induction F as [|n' F IH]; cbn [number]; [intros []|]. destruct (Nat.eqb_spec n' n); [eauto|].
  intros [->|H]; [easy|auto].
Qed.
Lemma number_none F n : ~ In n F -> number F n = None.
Proof. intros H. destruct (number F n) eqn:E; [|reflexivity]. now apply number_in in E. Qed.
Lemma number_skip Z F n : ~ In n Z -> number (Z ++ F) n = number F n.
Proof.
  induction Z as [|z Z IH]; intros H; [reflexivity|]. cbn [app number].
  destruct (Nat.eqb_spec z n) as [->|]; [exfalso; apply H; now left|]. apply IH. intros I. apply H. now right.
Qed.
Lemma number_lt F n i : number F n = Some i -> i < length F.
Proof.
  induction F as [|n' F IH]; cbn [number length]; [discriminate|]. destruct (Nat.eqb_spec n' n).
  - intros [= <-]. lia.
  - intros H. apply IH in H. lia.
Qed.
Lemma number_inj F n n' i : number F n = Some i -> number F n' = Some i -> n = n'.
Proof.
  induction F as [|x F IH]; cbn [number]; [discriminate|].
  destruct (Nat.eqb_spec x n), (Nat.eqb_spec x n'); try congruence; auto.
  - intros [= <-] H. apply number_lt in H. lia.
  - intros H [= <-]. apply number_lt in H. lia.
Qed.

(** ** Renaming *)
Section Rename.
Variable f : nat -> option nat.
Definition ren (o : option nat) : option nat := match o with Some n => f n | None => None end.

Fixpoint rename (x : node) : node :=
  match x with
  | NLeaf d => NLeaf d
  | NArr l => NArr (map rename l)
  | NHash l => NHash (map (fun kx => (fst kx, rename (snd kx))) l)
  | NRef x => NRef (rename x)
  | NWeak x => NWeak (rename x)
  | NObj cls x => NObj cls (rename x)
  | NFreeze cls s x => NFreeze cls s (rename x)
  | NCopy x => NCopy (rename x)
  | NAt n x => mk (f n) (rename x)
  | NBack n => NBack (match f n with Some i => i | None => 0 end)
  | NSame n => NSame (match f n with Some i => i | None => 0 end)
  end.
Definition rens (S : kenv) : kenv := map (fun ao => (fst ao, ren (snd ao))) S.

Lemma rename_mk o x : rename (mk o x) = mk (ren o) (rename x).
Proof. destruct o; reflexivity. Qed.
Lemma rename_string s x : string_node s x -> string_node s (rename x).
Proof. induction 1; cbn [rename]; [constructor|]. destruct (f i); cbn [mk]; [now constructor|auto]. Qed.

Fixpoint backs (x : node) : list nat :=
  match x with
  | NLeaf _ => []
  | NArr l => flat_map backs l
  | NHash l => flat_map (fun kx => backs (snd kx)) l
  | NRef x | NWeak x | NObj _ x | NFreeze _ _ x | NCopy x | NAt _ x => backs x
  | NBack n | NSame n => [n]
  end.
Lemma backs_mk o x : backs (mk o x) = backs x.
Proof. destruct o; reflexivity. Qed.
Lemma backs_string s x : string_node s x -> backs x = [].
Proof. induction 1; auto. Qed.

Lemma kfind_rens S a : kfind (rens S) a = option_map ren (kfind S a).
Proof. induction S as [|[a' o] S IH]; [reflexivity|]. cbn [rens map kfind fst snd]. destruct (addr_eqb a' a); auto. Qed.
Lemma rens_app S T : rens (S ++ T) = rens S ++ rens T.
Proof. apply map_app. Qed.

Variable perl nofreeze : bool.
Variable pf : bytes -> option N.
Variable lay : layout.
Variable h : heap.
Notation kden_ := (kden perl nofreeze pf lay h).
Notation kbody_ := (kbody perl nofreeze pf lay h).
Notation kdens_ := (kdens perl nofreeze pf lay h).
Notation kdenm_ := (kdenm perl nofreeze pf lay h).

Lemma met_rens S l : met lay h (rens S) l = option_map ren (met lay h S l).
Proof.
  unfold met. rewrite kfind_rens. destruct (kfind S (at_cell lay l)); [reflexivity|]. cbn [option_map].
  destruct (own_addr lay l (hget h l)); [reflexivity|]. apply kfind_rens.
Qed.

Lemma boxed_ren r x y : boxed perl r x y -> boxed perl r (rename x) (rename y).
Proof.
  destruct 1; [now constructor|]. cbn [rename]. rewrite rename_mk. now constructor.
Qed.
Lemma boxed_backs r x y : boxed perl r x y -> backs y = backs x.
Proof. destruct 1; [reflexivity|]. cbn [backs]. apply backs_mk. Qed.

(** an item without its mark *)
Definition bare (x : node) : Prop := match x with NAt _ _ => False | _ => True end.
Lemma boxed_bare r x y : bare x -> boxed perl r x y -> bare y.
Proof. intros B []; [exact B|exact I]. Qed.
Lemma label_ren o x : bare x -> label (rename (mk o x)) = ren o.
Proof.
  intros B. rewrite rename_mk. destruct (ren o) as [i|]; [reflexivity|]. destruct x; try reflexivity. destruct B.
Qed.
Lemma label_mk o x : bare x -> label (mk o x) = o.
Proof. intros B. destruct o; [reflexivity|]. destruct x; try reflexivity. destruct B. Qed.

Definition bound (x : node) : Prop := forall n, In n (backs x) -> f n <> None.

Lemma kbody_bare S o r v x Y : kbody_ S o r v x Y -> bare x.
Proof. induction 1; try exact I; auto; eapply boxed_bare; eauto; exact I. Qed.

Theorem kden_rename :
  (forall S r v x Y, kden_ S r v x Y -> bound x -> kden_ (rens S) r v (rename x) (rens Y)) /\
  (forall S o r v x Y, kbody_ S o r v x Y -> bound x -> kbody_ (rens S) (ren o) r v (rename x) (rens Y)) /\
  (forall S vs xs Y, kdens_ S vs xs Y -> (forall n, In n (flat_map backs xs) -> f n <> None) ->
     kdens_ (rens S) vs (map rename xs) (rens Y)) /\
  (forall S vs xs Y, kdenm_ S vs xs Y -> (forall n, In n (flat_map (fun kx => backs (snd kx)) xs) -> f n <> None) ->
     kdenm_ (rens S) vs (map (fun kx => (fst kx, rename (snd kx))) xs) (rens Y)).
Proof.
  apply (kden_all_ind perl nofreeze pf lay h
    (fun S r v x Y _ => bound x -> kden_ (rens S) r v (rename x) (rens Y))
    (fun S o r v x Y _ => bound x -> kbody_ (rens S) (ren o) r v (rename x) (rens Y))
    (fun S vs xs Y _ => (forall n, In n (flat_map backs xs) -> f n <> None) ->
     kdens_ (rens S) vs (map rename xs) (rens Y))
    (fun S vs xs Y _ => (forall n, In n (flat_map (fun kx => backs (snd kx)) xs) -> f n <> None) ->
     kdenm_ (rens S) vs (map (fun kx => (fst kx, rename (snd kx))) xs) (rens Y))).
  - intros S o r v x Y _ IH B. rewrite rename_mk. apply kd_item, IH. unfold bound in B. now rewrite backs_mk in B.
  - intros. now apply kb_atom.
  - intros S o r o' _. cbn [rename]. rewrite rename_mk. apply kb_nilptr.
  - intros S o r base n xs x Y _ IH Bx B. unfold bound in B. rewrite (boxed_backs _ _ _ Bx) in B.
    eapply kb_slice; [apply IH, B|]. now apply boxed_ren in Bx.
  - intros S o r a base n xs x Y _ IH Bx B. unfold bound in B. rewrite (boxed_backs _ _ _ Bx) in B.
    eapply kb_tslice; [apply IH, B|]. now apply boxed_ren in Bx.
  - intros S o r l m kxs x Y Nd Pm _ IH Bx B. unfold bound in B. rewrite (boxed_backs _ _ _ Bx) in B.
    eapply kb_map; [exact Nd|exact Pm|apply IH, B|]. now apply boxed_ren in Bx.
  - intros S o r l m kxs x Y Nd Pm _ IH Bx B. unfold bound in B. rewrite (boxed_backs _ _ _ Bx) in B.
    eapply kb_tmap; [exact Nd|exact Pm|apply IH, B|]. now apply boxed_ren in Bx.
  - intros S o r i l y Y Hs Hm Hk IH B. cbn [rename]. rewrite !rens_app.
    assert (L : label (rename y) = ren (label y)).
    { destruct Hk as [S0 o0 r0 v0 x0 Y0 Hb]. apply kbody_bare in Hb. now rewrite label_ren, label_mk by exact Hb. }
    replace (rens (map (fun a => (a, label y)) (own_addr lay l (hget h l))))
      with (map (fun a => (a, label (rename y))) (own_addr lay l (hget h l)))
      by (unfold rens; rewrite map_map, L; reflexivity).
    apply kb_ptr; [exact Hs|rewrite met_rens, Hm; reflexivity|apply IH, B].
  - intros S o r i l n Hs Hm B. cbn [rename]. apply kb_back; [exact Hs|]. rewrite met_rens, Hm. cbn [option_map ren].
    destruct (f n) eqn:E; [reflexivity|]. exfalso. apply (B n); [now left|exact E].
  - intros S o r l x Y Hs _ IH B. apply kb_ptr_perl; auto.
  - intros S o r cls v x Y _ IH B. apply kb_objv, IH, B.
  - intros S o r cls l x Y _ IH B. apply kb_objp, IH, B.
  - intros S o r v x Y _ IH B. apply kb_weakv, IH, B.
  - intros S o r l x Y _ IH B. apply kb_weakp, IH, B.
  - intros S o r cls w m kxs o' x Y Pm _ IH Bx B. cbn [rename]. rewrite rename_mk.
    unfold bound in B. cbn [backs] in B. rewrite backs_mk, (boxed_backs _ _ _ Bx) in B.
    eapply kb_freezev; [exact Pm|apply IH, B|]. now apply boxed_ren in Bx.
  - intros S o r name b v y Nf Sn B. apply kb_user; [exact Nf|]. now apply rename_string.
  - intros S o r name d v x Y Nf _ IH B. apply kb_user_plain; auto.
  - intros S o r name fs base tags kxs o' x Y Tb _ IH Bx B. cbn [rename]. rewrite rename_mk.
    unfold bound in B. cbn [backs] in B. rewrite backs_mk, (boxed_backs _ _ _ Bx) in B.
    eapply kb_struct; [exact Tb|apply IH, B|]. now apply boxed_ren in Bx.
  - intros. constructor.
  - intros S v vs x xs Y Z _ IH1 _ IH2 B. cbn [map flat_map] in *. rewrite rens_app in *. constructor.
    + apply IH1. intros n Hn. apply B, in_app_iff. now left.
    + apply IH2. intros n Hn. apply B, in_app_iff. now right.
  - intros. constructor.
  - intros S k v m x kxs Y Z _ IH1 _ IH2 B. cbn [map flat_map fst snd] in *. rewrite rens_app in *. constructor.
    + apply IH1. intros n Hn. apply B, in_app_iff. now left.
    + apply IH2. intros n Hn. apply B, in_app_iff. now right.
Qed.
End Rename.

(** ** The grammar *)
Section Convert.
Variable g : dialect.
Variable by_ : bytes.

Definition markedb (n : nat) : bool :=
  match nth_error by_ n with Some y => (128 <=? b2n y)%N | None => false end.
Lemma markedb_spec n : markedb n = true <-> marked by_ n.
Proof.
  unfold markedb, marked. destruct (nth_error by_ n) as [y|].
  - rewrite N.leb_le. split; [eauto|]. now intros (b & [= ->] & H).
  - split; [discriminate|]. intros (b & [=] & _).
Qed.
Notation only := (filter markedb).

Lemma vlt p n q : vint by_ p n q -> p < q.
Proof. apply (vint_lt g g by_ by_ 0 0); auto using N.le_refl; try lia. Qed.
Lemma item_lt m p d e : item g by_ m p d e -> p < e.
Proof.
  intros H. eapply (mp_item g by_ by_ 0) in H; try apply H; auto; lia.
Qed.
Lemma stringish_lt ok p s e : stringish g by_ ok p s e -> p < e.
Proof.
  intros H. eapply (mp_stringish g by_ by_ 0) in H; try apply H; auto; lia.
Qed.

Definition within (X : list nat) (p p' : nat) : Prop := forall n, In n X -> p <= n < p'.

Theorem oitem_within :
  (forall E m p x p' X, oitem g by_ E m p x p' X -> p < p' /\ within X p p') /\
  (forall E m q t x p' X, obody g by_ E m q t x p' X -> q < p' /\ within X (S q) p') /\
  (forall E m p xs p' X, oitems g by_ E m p xs p' X -> p <= p' /\ within X p p') /\
  (forall E m p kxs p' X, opairs g by_ E m p kxs p' X -> p <= p' /\ within X p p').
Proof.
  apply (oitem_all_ind g by_
    (fun E m p x p' X _ => p < p' /\ within X p p')
    (fun E m q t x p' X _ => q < p' /\ within X (S q) p')
    (fun E m p xs p' X _ => p <= p' /\ within X p p')
    (fun E m p kxs p' X _ => p <= p' /\ within X p p')); unfold within.
  - intros E m p t x p' X _ _ [L B]. split; [exact L|]. intros n. rewrite in_app_iff.
    intros [H|[<-|[]]]; [apply B in H|]; lia.
  - intros E m q t d p' _ Hi. apply item_lt in Hi. split; [exact Hi|]. intros n [].
  - intros E m q x p' X _ [L B]. split; [lia|]. exact B.
  - intros E m q x p' X _ [L B]. split; [lia|]. exact B.
  - intros E m q n r xs p' X Hv _ _ _ [L B]. apply vlt in Hv. split; [lia|]. intros j Hj. apply B in Hj. lia.
  - intros E m q n r xs p' X Hv _ _ _ [L B]. apply vlt in Hv. split; [lia|]. intros j Hj. apply B in Hj. lia.
  - intros E m q cls r x p' X Hs _ [L B]. apply stringish_lt in Hs. split; [lia|]. intros j Hj. apply B in Hj. lia.
  - intros E m q cls r s y p' X Hs _ _ [L B] _ _. apply stringish_lt in Hs. split; [lia|]. intros j Hj. apply B in Hj. lia.
  - intros E m q n r Hv _ _ _. apply vlt in Hv. split; [lia|]. intros j [].
  - intros E m p. split; [lia|]. intros n [].
  - intros E m p x r X xs p' Y _ [L1 B1] _ [L2 B2]. split; [lia|]. intros n. rewrite in_app_iff.
    intros [H|H]; [apply B2 in H|apply B1 in H]; lia.
  - intros E m p. split; [lia|]. intros n [].
  - intros E m p k r x r' X kxs p' Y Hs _ [L1 B1] _ [L2 B2]. apply stringish_lt in Hs. split; [lia|]. intros n. rewrite in_app_iff.
    intros [H|H]; [apply B2 in H|apply B1 in H]; lia.
Qed.

Lemma only_app X Y : only (X ++ Y) = only X ++ only Y.
Proof. apply filter_app. Qed.
Lemma only_in n X : In n (only X) <-> In n X /\ marked by_ n.
Proof. rewrite filter_In, markedb_spec. reflexivity. Qed.

(** references followed while everything around is waiting for its value *)
Notation nothing := (fun _ : nat => False).
Definition eased (x : node) : Prop := fine_node true nothing false [] [] x.

Lemma string_fine s x : string_node s x -> forall t B S, fine_node true nothing t B S x.
Proof. induction 1; intros t B S; cbn [fine_node]; [exact I|]. split; [apply nil_node_perl|auto]. Qed.

Lemma arr_fine t B l : Forall eased l -> fine_node true nothing t B [] (NArr l).
Proof. induction 1; cbn [fine_node]; [exact I|]. split; assumption. Qed.
Lemma hash_fine t B l : Forall (fun kx : bytes * node => eased (snd kx)) l -> fine_node true nothing t B [] (NHash l).
Proof. induction 1 as [|[k0 y] l H]; cbn [fine_node]; [exact I|]. split; assumption. Qed.

Definition conv (F : list nat) (E : list nat) (p' : nat) (X : list nat) : Prop :=
  exists Z, F = Z ++ only (X ++ E) /\ forall z, In z Z -> p' <= z.

Lemma conv_none F E p' X n : conv F E p' X -> n < p' -> ~ marked by_ n -> number F n = None.
Proof.
  intros (Z & -> & B) L M. apply number_none. rewrite in_app_iff, only_in. intros [H|[_ H]]; [apply B in H; lia|easy].
Qed.
Lemma conv_some F E p' X n : conv F E p' X -> In n E -> marked by_ n -> exists i, number F n = Some i.
Proof.
  intros (Z & -> & B) L M. apply number_some. rewrite in_app_iff, only_in, in_app_iff. tauto.
Qed.
Lemma conv_same F E p' X n : conv F E p' X -> within X (S n) p' \/ within X n p' /\ False -> n < p' -> In n E ->
  number F n = number (only E) n.
Proof.
  intros (Z & -> & B) W L _. destruct W as [W|[_ []]]. rewrite number_skip by (intros H; apply B in H; lia).
  rewrite only_app. apply number_skip. intros H. apply only_in in H as [H _]. apply W in H. lia.
Qed.

Theorem oitem_numbered :
  (forall E m p x p' X, oitem g by_ E m p x p' X -> forall F, conv F E p' X -> (forall n, In n E -> n < p) ->
     gitem g by_ (only E) m p (rename (number F) x) p' (only X) /\ bound (number F) x /\ eased (rename (number F) x)) /\
  (forall E m q t x p' X, obody g by_ E m q t x p' X -> forall F, conv F E p' X -> (forall n, In n E -> n <= q) ->
     gbody g by_ (only E) m q t (rename (number F) x) p' (only X) /\ bound (number F) x /\
     forall t' B, (t' = false -> B = []) -> (forall i, In i B -> number F q = Some i) ->
       fine_node true nothing t' B [] (rename (number F) x)) /\
  (forall E m p xs p' X, oitems g by_ E m p xs p' X -> forall F, conv F E p' X -> (forall n, In n E -> n < p) ->
     gitems g by_ (only E) m p (map (rename (number F)) xs) p' (only X) /\
     (forall n, In n (flat_map backs xs) -> number F n <> None) /\
     Forall eased (map (rename (number F)) xs)) /\
  (forall E m p kxs p' X, opairs g by_ E m p kxs p' X -> forall F, conv F E p' X -> (forall n, In n E -> n < p) ->
     gpairs g by_ (only E) m p (map (fun kx => (fst kx, rename (number F) (snd kx))) kxs) p' (only X) /\
     (forall n, In n (flat_map (fun kx => backs (snd kx)) kxs) -> number F n <> None) /\
     Forall (fun kx => eased (snd kx)) (map (fun kx => (fst kx, rename (number F) (snd kx))) kxs)).
Proof.
  destruct oitem_within as (W1 & W2 & W3 & W4).
  apply (oitem_all_ind g by_
    (fun E m p x p' X _ => forall F, conv F E p' X -> (forall n, In n E -> n < p) ->
     gitem g by_ (only E) m p (rename (number F) x) p' (only X) /\ bound (number F) x /\ eased (rename (number F) x))
    (fun E m q t x p' X _ => forall F, conv F E p' X -> (forall n, In n E -> n <= q) ->
     gbody g by_ (only E) m q t (rename (number F) x) p' (only X) /\ bound (number F) x /\
     forall t' B, (t' = false -> B = []) -> (forall i, In i B -> number F q = Some i) ->
       fine_node true nothing t' B [] (rename (number F) x))
    (fun E m p xs p' X _ => forall F, conv F E p' X -> (forall n, In n E -> n < p) ->
     gitems g by_ (only E) m p (map (rename (number F)) xs) p' (only X) /\
     (forall n, In n (flat_map backs xs) -> number F n <> None) /\
     Forall eased (map (rename (number F)) xs))
    (fun E m p kxs p' X _ => forall F, conv F E p' X -> (forall n, In n E -> n < p) ->
     gpairs g by_ (only E) m p (map (fun kx => (fst kx, rename (number F) (snd kx))) kxs) p' (only X) /\
     (forall n, In n (flat_map (fun kx => backs (snd kx)) kxs) -> number F n <> None) /\
     Forall (fun kx => eased (snd kx)) (map (fun kx => (fst kx, rename (number F) (snd kx))) kxs))).
  - intros E m p t x p' X Ht Hb IH F C L. destruct (W2 _ _ _ _ _ _ _ Hb) as [Lp Wx].
    assert (C' : conv F (p :: E) p' X) by (destruct C as (Z & -> & B); exists Z; rewrite <- app_assoc; auto).
    destruct (IH F C') as (G & B & Fn); [intros n [<-|H]; [lia|apply L in H; lia]|].
    split; [|split; [exact B|]].
    + cbn [rename]. rewrite only_app. cbn [filter].
      destruct (markedb p) eqn:Mp.
      * replace (number F p) with (Some (length (only E))).
        2:{ rewrite (conv_same F (p :: E) p' X p C'); [|now left|exact Lp|now left]. cbn [filter]. rewrite Mp.
            cbn [number]. now rewrite Nat.eqb_refl. }
        cbn [mk]. eapply g_on; [exact Ht|now apply markedb_spec|]. cbn [filter] in G. now rewrite Mp in G.
      * assert (Nm : ~ marked by_ p) by (intros H; apply markedb_spec in H; congruence).
        rewrite (conv_none F _ p' _ p C'), app_nil_r by auto. cbn [mk].
        eapply g_off; [exact Ht|exact Nm|]. cbn [filter] in G. now rewrite Mp in G.
    + unfold eased. cbn [rename]. destruct (number F p) as [i|] eqn:Ni; cbn [mk fine_node].
      * split; [apply nil_node_perl|]. apply Fn; [discriminate|]. intros j [<-|[]]. reflexivity.
      * apply Fn; [auto|]. intros j [].
  - intros E m q t d p' Hp Hi F C L. split; [now apply g_plain|]. split; [intros n []|]. intros; exact I.
  - intros E m q x p' X _ IH F C L. destruct (IH F C) as (G & B & Fn); [intros n H; apply L in H; lia|].
    split; [now apply g_refn|]. split; [exact B|]. intros t' B0 Ht HB. cbn [rename fine_node].
    destruct t'; [exact Fn|]. rewrite (Ht eq_refl). exact Fn.
  - intros E m q x p' X _ IH F C L. destruct (IH F C) as (G & B & Fn); [intros n H; apply L in H; lia|].
    split; [now apply g_weaken|]. split; [exact B|]. intros t' B0 Ht HB. exact Fn.
  - intros E m q n r xs p' X Hv Hm Hn _ IH F C L. pose proof (vlt _ _ _ Hv).
    destruct (IH F C) as (G & B & Fn); [intros j H1; apply L in H1; lia|].
    split; [eapply g_array; [exact Hv|exact Hm|now rewrite map_length|exact G]|]. split; [exact B|].
    intros t' B0 _ _. cbn [rename]. now apply arr_fine.
  - intros E m q n r xs p' X Hv Hm Hn _ IH F C L. pose proof (vlt _ _ _ Hv).
    destruct (IH F C) as (G & B & Fn); [intros j H1; apply L in H1; lia|].
    split; [eapply g_hash; [exact Hv|exact Hm|now rewrite map_length|exact G]|]. split; [exact B|].
    intros t' B0 _ _. cbn [rename]. now apply hash_fine.
  - intros E m q cls r x p' X Hs _ IH F C L. pose proof (stringish_lt _ _ _ _ Hs).
    destruct (IH F C) as (G & B & Fn); [intros j H1; apply L in H1; lia|].
    split; [eapply g_object; eauto|]. split; [exact B|]. intros t' B0 _ _. exact Fn.
  - intros E m q cls r s y p' X Hs Ha Ho IH Sn Fz F C L. pose proof (stringish_lt _ _ _ _ Hs).
    destruct (W1 _ _ _ _ _ _ Ho) as [Lr _].
    destruct (IH F C) as (G & B & _); [intros j H1; apply L in H1; lia|].
    assert (Um : ~ marked by_ r /\ ~ marked by_ (S r) /\ S r < p').
    { destruct Ha as (u1 & u2 & Eb & <-). split; [|split].
      - intros (b & Hb & Lb). rewrite Eb, nth_error_app2, Nat.sub_diag in Hb by lia. injection Hb as <-. vm_compute in Lb. now apply Lb.
      - intros (b & Hb & Lb). rewrite Eb, nth_error_app2 in Hb by lia. replace (S (length u1) - length u1) with 1 in Hb by lia.
        injection Hb as <-. vm_compute in Lb. now apply Lb.
      - inversion Ho as [E0 m0 p0 t0 x0 p0' X0 T0 Hb0]; subst. inversion Hb0 as [| ? ? ? ? ? ? Hi0| | | | | |]; subst.
        apply W1 in Hi0. lia. }
    destruct Um as (U1 & U2 & U3). cbn [rename map] in G.
    rewrite (conv_none F E p' X r C), (conv_none F E p' X (S r) C) in G by (auto; lia). cbn [mk] in G.
    split; [cbn [rename]; eapply g_freeze; eauto; now apply rename_string|]. split.
    + intros n Hn. cbn [backs] in Hn. rewrite (backs_string _ _ Sn) in Hn. destruct Hn.
    + intros t' B0 _ _. cbn [rename fine_node]. eapply string_fine, rename_string, Sn.
  - intros E m q n r Hv Hl Mk In_ F C L. pose proof (vlt _ _ _ Hv).
    destruct (conv_some F E r [] _ C In_ Mk) as [i Hi]. cbn [rename]. rewrite Hi. split; [|split].
    + eapply g_refp; [exact Hv|exact Hl|].
      rewrite <- Hi. symmetry. apply (conv_same F E r []); auto; [|lia]. left. intros j [].
    + intros j [<-|[]]. congruence.
    + intros t' B _ HB. cbn [fine_node]. rewrite app_nil_r. split; [|auto]. intros Hb. apply HB in Hb.
      pose proof (number_inj F _ _ _ Hi Hb). lia.
  - intros. split; [constructor|]. split; [intros n []|constructor].
  - intros E m p x r X xs p' Y Hx IH1 Hxs IH2 F C L.
    destruct (W1 _ _ _ _ _ _ Hx) as [L1 B1]. destruct (W3 _ _ _ _ _ _ Hxs) as [L2 B2].
    destruct (IH1 F) as (G1 & N1 & F1); [|exact L|].
    { destruct C as (Z & -> & B). exists (Z ++ only Y). split; [rewrite <- !app_assoc, !only_app; reflexivity|].
      intros z Hz. apply in_app_iff in Hz as [Hz|Hz]; [apply B in Hz; lia|]. apply only_in in Hz as [Hz _]. apply B2 in Hz. lia. }
    destruct (IH2 F) as (G2 & N2 & F2).
    { destruct C as (Z & -> & B). exists Z. split; [now rewrite <- app_assoc|exact B]. }
    { intros n. rewrite in_app_iff. intros [H|H]; [apply B1 in H; lia|apply L in H; lia]. }
    cbn [map flat_map]. rewrite only_app in *. split; [econstructor; eauto|]. split; [|constructor; auto].
    intros n. rewrite in_app_iff. intros [H|H]; auto.
  - intros. split; [constructor|]. split; [intros n []|constructor].
  - intros E m p k r x r' X xs p' Y Hs Hx IH1 Hxs IH2 F C L. pose proof (stringish_lt _ _ _ _ Hs).
    destruct (W1 _ _ _ _ _ _ Hx) as [L1 B1]. destruct (W4 _ _ _ _ _ _ Hxs) as [L2 B2].
    destruct (IH1 F) as (G1 & N1 & F1).
    { destruct C as (Z & -> & B). exists (Z ++ only Y). split; [rewrite <- !app_assoc, !only_app; reflexivity|].
      intros z Hz. apply in_app_iff in Hz as [Hz|Hz]; [apply B in Hz; lia|]. apply only_in in Hz as [Hz _]. apply B2 in Hz. lia. }
    { intros n Hn. apply L in Hn. lia. }
    destruct (IH2 F) as (G2 & N2 & F2).
    { destruct C as (Z & -> & B). exists Z. split; [now rewrite <- app_assoc|exact B]. }
    { intros n. rewrite in_app_iff. intros [Hn|Hn]; [apply B1 in Hn; lia|apply L in Hn; lia]. }
    cbn [map flat_map fst snd]. rewrite only_app in *. split; [econstructor; eauto|]. split; [|constructor; auto].
    intros n. rewrite in_app_iff. intros [Hn|Hn]; auto.
Qed.
End Convert.
