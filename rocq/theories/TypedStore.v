(** The typed decoder stores nothing but what [stores] (SpecStore.v) says. *)
From Verif Require Import Base BaseFacts SpecVarint Varint VarintFacts Tags GoMem GoTypes TagsCache Decode
  DecodeSafe Spec SpecValue SpecTyped SpecStore DecodeSpec JsonFacts
  Codecs Header SpecDoc GrammarFacts Document DocFacts Typed TypedSpec TypedRound.
From Coq Require Import ZifyBool ZifyNat ZifyN.
Ltac Zify.zify_post_hook ::= Z.div_mod_to_equations.

Scheme stores_ind4 := Induction for stores Sort Prop
  with stores_each_ind4 := Induction for stores_each Sort Prop
  with stores_map_ind4 := Induction for stores_map Sort Prop
  with stores_fields_ind4 := Induction for stores_fields Sort Prop.
Combined Scheme stores_mut_ind from stores_ind4, stores_each_ind4, stores_map_ind4, stores_fields_ind4.

Lemma stores_mono v (R R' : gval -> data -> Prop) : (forall x d, R x d -> R' x d) ->
  (forall a ty cur d x, stores v R a ty cur d x -> stores v R' a ty cur d x) /\
  (forall a t curs ds xs, stores_each v R a t curs ds xs -> stores_each v R' a t curs ds xs) /\
  (forall a t m kvs m', stores_map v R a t m kvs m' -> stores_map v R' a t m kvs m') /\
  (forall a id fs kvs fs', stores_fields v R a id fs kvs fs' -> stores_fields v R' a id fs kvs fs').
Proof.
  intros H. apply stores_mut_ind; intros; try (econstructor; eauto; fail).
Qed.

Lemma find_hit_inv v id k i f t : find_field v id k = Some (i, (f, t)) ->
  names v id k i /\ nth_error (st_fields (decls v id)) i = Some (f, t).
Proof.
  unfold find_field. fold (fields_of v id). intros H.
  destruct (mget (tags_of (fields_of v id)) k) as [j|] eqn:M.
  - destruct (nth_error (st_fields (decls v id)) j) as [ft|] eqn:E; [|discriminate]. injection H as <- ->.
    split; [|exact E]. left. now apply tags_mget.
  - destruct (mget (tags_of (fields_of v id)) (title v k)) as [j|] eqn:M2; [|discriminate].
    destruct (nth_error (st_fields (decls v id)) j) as [ft|] eqn:E; [|discriminate]. injection H as <- ->.
    split; [|exact E]. right. split; [|now apply tags_mget]. intros j' S'. apply tags_mget in S'. congruence.
Qed.
Lemma serialised_in v id k i : serialised (fields_of v id) k i -> nth_error (st_fields (decls v id)) i <> None.
Proof.
  intros (f & E & _) N. unfold fields_of in E. rewrite nth_error_map, N in E. discriminate.
Qed.
Lemma find_miss_inv v id k : find_field v id k = None -> forall i, ~ names v id k i.
Proof.
  unfold find_field. fold (fields_of v id). intros H i [S|[N S]]; pose proof (serialised_in _ _ _ _ S) as Q; apply tags_mget in S.
  - rewrite S in H. destruct (nth_error _ _); [discriminate|congruence].
  - destruct (mget (tags_of (fields_of v id)) k) as [j|] eqn:M; [apply tags_mget in M; now apply N in M|].
    rewrite S in H. destruct (nth_error _ _); [discriminate|congruence].
Qed.

Lemma stores_fits v R d : forall a ty cur x, stores v R a ty cur d x -> ty <> TyIface -> fits_type ty d = true.
Proof.
  induction d; intros a ty cur x H Nt; inversion H; subst; try contradiction; try reflexivity;
    try match goal with H : _ = DUndef \/ _ |- _ => destruct H as [H|H]; discriminate H end; cbn [fits_type]; eauto.
Qed.

Definition acc (md : amode) : access := match md with Settable => Free | Unaddr => Entry | RO => Hidden end.
Lemma acc_elem md : acc (md_elem md) = below (acc md).
Proof. destruct md; reflexivity. Qed.
Lemma acc_entry md : acc (md_entry md) = entry (acc md).
Proof. destruct md; reflexivity. Qed.
Lemma acc_field md f : acc (md_field md f) = in_field (acc md) f.
Proof. unfold md_field, in_field. now destruct (f_exported f). Qed.

Lemma set_inv md x s y s' : set md x s = (Ok y, s') -> md = Settable /\ y = x /\ s' = s.
Proof. destruct md; cbn; intros [= <- <-]; auto. Qed.
Lemma bind_inv A B (m : M A) (k : A -> M B) s r s' : mbind m k s = (Ok r, s') -> exists a s1, m s = (Ok a, s1) /\ k a s1 = (Ok r, s').
Proof. unfold mbind. destruct (m s) as [[a|? |? | |] s1]; try discriminate. eauto. Qed.

Lemma typed_iface ty cur : {ty = TyIface /\ cur = VIface GNil} + {typed ty cur}.
Proof.
  destruct ty; try (right; intros [E _]; discriminate). destruct cur as [| | | | |x| | | | |]; try (right; intros [_ E]; discriminate).
  destruct x; try (right; intros [_ E]; discriminate). now left.
Qed.
Lemma body_typed c v by_ ibuf ishift rec urec ty cur md idx : typed ty cur ->
  tdecode_body c v by_ ibuf ishift rec urec ty cur md idx =
  if Nat.leb (length by_) idx then fail ETruncated else
  match skip_pads (skipn idx by_) idx with
  | None => fail ETruncated
  | Some (tagb, idx) =>
      (if tracked_bit tagb then poison idx else ret tt) ;;
      tdecode_tag c v by_ ibuf ishift rec urec (tag_kind (untrack tagb)) ty cur md (S idx)
  end.
Proof.
  intros T. unfold tdecode_body. destruct ty; try reflexivity. destruct cur as [| | | | |x| | | | |]; try reflexivity.
  destruct x; try reflexivity. destruct T. auto.
Qed.

Section SS.
Variable c : dconfig.
Variable v : goenv.
Variable by_ : bytes.
Variable ibuf : loc.
Variable ishift : nat.
Variable buf : bytes.
Variable start : nat.
Hypothesis Hlen : (Z.of_nat (length by_) < two63)%Z.
Hypothesis Hbuf : at_ buf ishift by_.
Hypothesis Hp : d_perl c = false.

Notation len := (length by_).
Notation g := (go_dialect c start).
Notation frs := (fresh ibuf).
Notation inv_ := (inv ibuf buf).
Notation rp := (repr false (reg_of c)).
Notation dec := (decode c by_ ibuf ishift).
Notation tdec := (tdecode c v by_ ibuf ishift).
Notation Pit := (Pitem c by_ ibuf ishift buf).
Notation RR := (TypedSpec.RR c ibuf).
Notation st s s' := (stores v (RR s s')).

Definition sdone (mm : M (tval * nat)) (s : dstate) ty cur md d p' : Prop :=
  forall x i s', mm s = (Ok (x, i), s') -> i = p' /\ (forall W, frm W s s') /\ st s s' (acc md) ty cur d x.

Definition Sitem (m : cmode) (p : nat) (d : data) (p' : nat) : Prop :=
  forall fuel ty cur md s, mode_ok m s -> S (need by_ p (d_copy s)) <= fuel -> inv_ s ->
    sdone (tdec fuel ty cur md p) s ty cur md d p'.

Definition Sitems (m : cmode) (p : nat) (ds : list data) (p' : nat) : Prop :=
  forall fuel t curs md s xs i s', mode_ok m s -> S (need by_ p (d_copy s)) <= fuel -> inv_ s ->
    tarray_loop (tdec fuel) (dec fuel) (length ds) t md curs p s = (Ok (xs, i), s') ->
    i = p' /\ (forall W, frm W s s') /\ stores_each v (RR s s') (acc md) t curs ds xs.

Definition Spairs (m : cmode) (p : nat) (kvs : list (bytes * data)) (p' : nat) : Prop :=
  (forall fuel t md m0 s m1 i s', mode_ok m s -> S (need by_ p (d_copy s)) <= fuel -> inv_ s ->
    tmap_loop by_ (tdec fuel) (length kvs) t md m0 p s = (Ok (m1, i), s') ->
    i = p' /\ (forall W, frm W s s') /\ stores_map v (RR s s') (acc md) t m0 kvs m1) /\
  (forall fuel id md fs s fs1 i s', mode_ok m s -> S (need by_ p (d_copy s)) <= fuel -> inv_ s ->
    tstruct_loop v by_ (tdec fuel) (dec fuel) (length kvs) id md fs p s = (Ok (fs1, i), s') ->
    i = p' /\ (forall W, frm W s s') /\ stores_fields v (RR s s') (acc md) id fs kvs fs1).

Lemma sleaf (mm : M (tval * nat)) s ty cur md d p' :
  (forall x i s', mm s = (Ok (x, i), s') -> i = p' /\ d_heap s' = d_heap s /\ d_copy s' = d_copy s /\
     forall R, stores v R (acc md) ty cur d x) -> sdone mm s ty cur md d p'.
Proof.
  intros H x i s' E. destruct (H _ _ _ E) as (-> & E1 & E2 & X).
  split; [reflexivity|]. split; [now apply (go_same s s')|apply X].
Qed.

Lemma sdone_bind A (m : M A) (k : A -> M (tval * nat)) s a ty cur md d p' :
  runs m s a s -> sdone (k a) s ty cur md d p' -> sdone (mbind m k) s ty cur md d p'.
Proof. intros R H x i s' E. apply H. unfold mbind in E. unfold runs in R. now rewrite R in E. Qed.

Lemma sdone_from s s1 (mm mm' : M (tval * nat)) ty cur md d p' : mm s = mm' s1 ->
  inv_ s1 -> (forall W, frm W s s1) -> sdone mm' s1 ty cur md d p' -> sdone mm s ty cur md d p'.
Proof.
  intros E I F H x i s' Q. rewrite E in Q. destruct (H _ _ _ Q) as (-> & F' & X).
  split; [reflexivity|]. split; [now apply (go_trans s s1 s')|].
  eapply (stores_mono v (RR s1 s')); [|exact X]. intros y e. eapply repr_stable.
  intros l Hl. split; [|reflexivity]. destruct Hl as [->|Hl]; [now left|right].
  pose proof (frm_len _ _ _ (F (fun _ => False))). lia.
Qed.

Lemma sdone_wrap mm s ty cur md d d' p' : (forall R x, stores v R (acc md) ty cur d' x -> stores v R (acc md) ty cur d x) ->
  sdone mm s ty cur md d' p' -> sdone mm s ty cur md d p'.
Proof. intros W H x i s' E. destruct (H _ _ _ E) as (A & B & X). auto. Qed.

Lemma tag_s m p q t d p' : Pit m p d p' -> tag_at by_ p q t -> S q <= p' ->
  (forall f ty cur md s, typed ty cur -> mode_ok m s -> S (need by_ (S q) (d_copy s)) <= f ->
     (d_copy s = 0 -> len + 2 <= f) -> inv_ s ->
     sdone (tdecode_tag c v by_ ibuf ishift (tdec f) (dec f) (tag_kind t) ty cur md (S q)) s ty cur md d p') ->
  Sitem m p d p'.
Proof.
  intros PI Ht L1 H. pose proof PI as (P1 & P2 & _).
  destruct (tag_skip by_ p q t Ht) as (b & E1 & E2 & L3 & L4 & _).
  intros fuel ty cur md s Hm Hf Hi.
  destruct fuel as [|f]; [lia|].
  destruct (typed_iface ty cur) as [[-> ->]|Nt].
  - destruct (rec_fresh c by_ ibuf ishift buf start m p d p' f s PI Hm ltac:(lia) Hi)
      as (s1 & x & R1 & F1 & C1 & V1 & L5).
    rewrite Hp in V1. intros y i s' E.
    cbn [tdecode] in E. unfold tdecode_body in E. destruct (Nat.leb_spec len p); [lia|].
    erewrite (fresh_bind' _ (CV GNil) (fun l => dec f p l)) in E; [|exact R1].
    unfold mbind at 1 in E. cbn [get_var] in E. rewrite (hget_cell _ _ _ C1) in E.
    assert (D : x = GNil \/ (let! r := set md (VIface x) in ret (r, p')) s1 = (Ok (y, i), s'))
      by (destruct x; auto).
    assert (Q : i = p' /\ y = VIface x /\ s' = s1 /\ (acc md = Free \/ x = GNil)).
    { destruct D as [->|D]; [injection E as <- <- <-; auto|].
      apply bind_inv in D. destruct D as (z & s2 & A & B). apply set_inv in A. destruct A as (-> & -> & ->).
      injection B as <- <- <-. auto. }
    destruct Q as (-> & -> & -> & O). split; [reflexivity|]. split; [exact F1|]. now apply st_iface.
  - set (s1 := if tracked_bit b then
        mkDState (d_heap s ++ [CV GOpaque]) ((q, length (d_heap s)) :: d_tracked s) (d_copy s) (d_made s) else s).
    assert (F1 : forall W, frm W s s1).
    { unfold s1. destruct (tracked_bit b); [|intros; apply frm_refl].
      intros W. repeat split; cbn; [rewrite app_length; lia|]. intros l Hl _. now apply nth_error_app1. }
    pose proof (frm_copy _ _ _ (F1 (fun _ => False))) as Ec.
    pose proof (go_inv _ _ _ _ F1 Hi) as I1.
    apply (sdone_from s s1 _ (tdecode_tag c v by_ ibuf ishift (tdec f) (dec f) (tag_kind t) ty cur md (S q))); auto.
    + cbn [tdecode]. rewrite body_typed by assumption.
      destruct (Nat.leb_spec len p); [lia|]. rewrite E1, E2. unfold mbind at 1, s1.
      destruct (tracked_bit b); reflexivity.
    + apply H; auto.
      * now apply (go_mode m s s1).
      * rewrite Ec. unfold need in *. destruct (d_copy s); lia.
      * rewrite Ec. intros C0. unfold need in Hf. rewrite C0 in Hf. lia.
Qed.

Lemma Sitem_refn m p q d p' : Pit m p (DRef d) p' -> tag_at by_ p q 40 -> Pit m (S q) d p' -> Sitem m (S q) d p' -> Sitem m p (DRef d) p'.
Proof.
  intros P Ht (L & _) T. apply (tag_s m p q 40); auto; [lia|]. intros f ty cur md s Nt Hm Hf Hf0 Hi.
  change (tag_kind 40) with TRefn. cbn [tdecode_tag].
  apply (sdone_wrap _ _ _ _ _ _ d); [intros; now apply st_ref|]. now apply T.
Qed.

Lemma Sitem_weaken m p q d p' : Pit m p (DWeak d) p' -> tag_at by_ p q 48 -> Pit m (S q) d p' -> Sitem m (S q) d p' -> Sitem m p (DWeak d) p'.
Proof.
  intros P Ht (L & _) T. apply (tag_s m p q 48); auto; [lia|]. intros f ty cur md s Nt Hm Hf Hf0 Hi.
  change (tag_kind 48) with TWeaken. cbn [tdecode_tag]. rewrite Hp.
  apply (sdone_wrap _ _ _ _ _ _ d); [intros; now apply st_weak|]. now apply T.
Qed.

Ltac got E := apply bind_inv in E; let z := fresh "z" in let s2 := fresh "s2" in let A := fresh "A" in let B := fresh "B" in
  destruct E as (z & s2 & A & B); injection B as <- <- <-; apply set_inv in A; destruct A as (-> & -> & ->).

Lemma int_s k s ty cur md z i p' : (forall kk, wrap_kind kk k = wrap_kind kk z) -> i = p' ->
  sdone (let! x := setInt ty md k in ret (x, i)) s ty cur md (DInt z) p'.
Proof.
  intros W ->. apply sleaf. intros x i s' E. destruct ty; try discriminate E.
  got E. repeat split; auto. intros R. rewrite W.
  apply st_int; [apply wrap_kind_range|apply wrap_kind_keeps].
Qed.

Lemma bin_s s ty cur md str p' i : i = p' ->
  sdone (let! x := setBinary ty md cur str in ret (x, i)) s ty cur md (DBin str) p'.
Proof.
  intros ->. apply sleaf. intros x i s' E.
  destruct ty as [| | | | | |t|n t| | |]; try discriminate E.
  - cbn [setBinary] in E. got E. repeat split; auto. intros. apply st_str_bin.
  - destruct t as [[]| | | | | | | | | |]; try discriminate E.
    destruct cur as [| | | | | |[l|]| | | |]; try discriminate E; cbn [setBinary] in E.
    + apply bind_inv in E. destruct E as (z & s2 & A & B). injection B as <- <- <-.
      apply set_inv in A. destruct A as (M & -> & ->). repeat split; auto. intros.
      apply st_bytes_over. destruct md; cbn in *; discriminate.
    + apply bind_inv in E. destruct E as (z & s2 & A & B). injection B as <- <- <-.
      apply bind_inv in A. destruct A as (z' & s3 & A & B). apply set_inv in B. destruct B as (-> & -> & ->).
      injection A as <- <-. repeat split; auto. intros. apply st_bytes.
  - destruct t as [[]| | | | | | | | | |]; try discriminate E.
    destruct cur as [| | | | | | |l| | |]; try discriminate E; cbn [setBinary] in E.
    got E. repeat split; auto. intros. apply st_bytes_array.
Qed.

Lemma str_s s ty cur md str p' i : i = p' ->
  sdone (let! x := setString ty md str in ret (x, i)) s ty cur md (DStr str) p'.
Proof.
  intros ->. apply sleaf. intros x i s' E. destruct ty; try discriminate E.
  got E. repeat split; auto. intros. apply st_str.
Qed.

Lemma undef_s s ty cur md d p' i : (d = DUndef \/ d = DCanon) -> typed ty cur -> i = p' ->
  sdone (match ty with
        | TyPtr _ | TyMap _ | TySlice _ => let! x := set md (zero ty) in ret (x, i)
        | _ => ret (cur, i)
        end) s ty cur md d p'.
Proof.
  intros Hd T ->. apply sleaf. intros x i s' E.
  destruct (nillable ty) eqn:N.
  - assert (E' : (let! x := set md (zero ty) in ret (x, p')) s = (Ok (x, i), s')) by (destruct ty; try discriminate N; exact E).
    got E'. repeat split; auto. intros. now apply st_nil.
  - assert (E' : ret (cur, p') s = (Ok (x, i), s')) by (destruct ty; try discriminate N; exact E).
    injection E' as <- <- <-. repeat split; auto. intros. now apply st_keep.
Qed.

(** ** Lists *)
Lemma Sitems_nil m p : Sitems m p [] p.
Proof.
  intros f t curs md s xs i s' Hm Hf Hi E. injection E as <- <- <-.
  split; [reflexivity|]. split; [intros; apply frm_refl|apply se_end].
Qed.

Lemma later s s1 s2 : inv_ s -> (forall W, frm W s s1) -> (forall W, frm W s1 s2) ->
  (forall x d, RR s s1 x d -> RR s s2 x d) /\ (forall x d, RR s1 s2 x d -> RR s s2 x d).
Proof.
  intros Hi F1 F2. pose proof (go_inv _ _ s s1 F1 Hi) as I1. pose proof (go_inv _ _ s1 s2 F2 I1) as I2. split.
  - apply (RR_grow c ibuf buf s s s1 s2); auto.
  - apply (RR_grow c ibuf buf s s1 s2 s2); auto; [intros; apply frm_refl|apply (frm_len _ _ _ (F1 (fun _ => False)))].
Qed.

Lemma Sitems_cons m p d r ds p' : Pit m p d r -> Sitem m p d r -> Sitems m r ds p' -> Sitems m p (d :: ds) p'.
Proof.
  intros PI TI QI. pose proof PI as (P1 & _). intros f t curs md s xs i s' Hm Hf Hi E. cbn [length tarray_loop] in E.
  destruct curs as [|cur curs].
  - destruct (rec_fresh c by_ ibuf ishift buf start m p d r f s PI Hm ltac:(lia) Hi)
      as (s1 & x & R1 & F1 & _).
    unfold discard in E. unfold runs in R1. unfold mbind at 1 in E. rewrite R1 in E.
    destruct (QI f t [] md s1 xs i s') as (-> & F2 & X2); auto.
    + now apply (go_mode m s s1).
    + apply (go_need c by_ s s1 p r); auto. lia.
    + now apply (go_inv _ _ s s1).
    + split; [reflexivity|]. split; [now apply (go_trans s s1 s')|].
      assert (xs = []) as -> by (inversion X2; reflexivity). apply se_surplus.
  - apply bind_inv in E. destruct E as ([x j] & s1 & E1 & E2).
    apply bind_inv in E2. destruct E2 as ([ys j2] & s2 & E2 & E3). injection E3 as <- <- <-.
    destruct (TI f t cur md s Hm Hf Hi _ _ _ E1) as (-> & F1 & X1).
    destruct (QI f t curs md s1 ys j2 s2) as (-> & F2 & X2); auto.
    + now apply (go_mode m s s1).
    + apply (go_need c by_ s s1 p r); auto. lia.
    + now apply (go_inv _ _ s s1).
    + split; [reflexivity|]. split; [now apply (go_trans s s1 s2)|].
      destruct (later s s1 s2 Hi F1 F2) as (G1 & G2).
      apply se_cons; [now apply (stores_mono v _ _ G1)|now apply (stores_mono v _ _ G2)].
Qed.

Lemma Spairs_nil m p : Spairs m p [] p.
Proof.
  split.
  - intros f t md m0 s m1 i s' Hm Hf Hi E. injection E as <- <- <-.
    split; [reflexivity|split; [intros; apply frm_refl|apply sm_end]].
  - intros f id md fs s fs1 i s' Hm Hf Hi E. injection E as <- <- <-.
    split; [reflexivity|split; [intros; apply frm_refl|apply sf_end]].
Qed.

Lemma Spairs_cons m p k r d r' kvs p' : stringish g by_ (copy_ok m) p k r -> Pit m r d r' ->
  Sitem m r d r' -> Spairs m r' kvs p' -> Spairs m p ((k, d) :: kvs) p'.
Proof.
  intros Hk PI TI (QM & QS). pose proof PI as (P1 & _).
  destruct (stringish_runs c by_ start Hlen _ _ _ _ (mkDState [] [] 0 []) Hk) as (_ & _ & _ & _ & _ & L1 & L2); [reflexivity|].
  split.
  - intros f t md m0 s m1 i s' Hm Hf Hi E. cbn [length tmap_loop] in E.
    destruct (stringish_runs c by_ start Hlen _ _ _ _ s Hk (mode_copy _ _ Hm)) as (w & Rk & Ew & _).
    assert (Hf1 : S (need by_ r (d_copy s)) <= f) by (apply (go_need c by_ s s p r); auto; [intros; apply frm_refl|lia]).
    unfold runs in Rk. unfold mbind at 1 in E. rewrite Rk in E. cbn [fst snd] in E. rewrite Ew in E.
    destruct (mget m0 k) as [y|] eqn:G.
    + apply bind_inv in E. destruct E as ([x j] & s1 & E1 & E2).
      destruct (TI f t y (md_entry md) s Hm Hf1 Hi _ _ _ E1) as (-> & F1 & X1).
      destruct (QM f t md (mput m0 k x) s1 m1 i s') as (-> & F2 & X2); auto.
      * now apply (go_mode m s s1).
      * apply (go_need c by_ s s1 r r'); auto. lia.
      * now apply (go_inv _ _ s s1).
      * split; [reflexivity|]. split; [now apply (go_trans s s1 s')|].
        destruct (later s s1 s' Hi F1 F2) as (G1 & G2). rewrite acc_entry in X1.
        eapply sm_old; [exact G| |apply (stores_mono v _ _ G2), X2]. now apply (stores_mono v _ _ G1).
    + apply bind_inv in E. destruct E as ([x j] & s1 & E1 & E2).
      destruct (TI f t (zero t) Settable s Hm Hf1 Hi _ _ _ E1) as (-> & F1 & X1).
      assert (NR : md <> RO /\ tmap_loop by_ (tdec f) (length kvs) t md (mput m0 k x) r' s1 = (Ok (m1, i), s'))
        by (destruct md; split; try discriminate; exact E2).
      destruct NR as [NR E3].
      destruct (QM f t md (mput m0 k x) s1 m1 i s') as (-> & F2 & X2); auto.
      * now apply (go_mode m s s1).
      * apply (go_need c by_ s s1 r r'); auto. lia.
      * now apply (go_inv _ _ s s1).
      * split; [reflexivity|]. split; [now apply (go_trans s s1 s')|].
        destruct (later s s1 s' Hi F1 F2) as (G1 & G2).
        eapply sm_new; [exact G| | |apply (stores_mono v _ _ G2), X2]; [now apply (stores_mono v _ _ G1)|].
        destruct md; cbn; congruence.
  - intros f id md fs s fs1 i s' Hm Hf Hi E. cbn [length tstruct_loop] in E.
    destruct (stringish_runs c by_ start Hlen _ _ _ _ s Hk (mode_copy _ _ Hm)) as (w & Rk & Ew & _).
    assert (Hf1 : S (need by_ r (d_copy s)) <= f) by (apply (go_need c by_ s s p r); auto; [intros; apply frm_refl|lia]).
    unfold runs in Rk. unfold mbind at 1 in E. rewrite Rk in E. cbn [fst snd] in E. rewrite Ew in E.
    destruct (find_field v id k) as [[n [fd t]]|] eqn:G.
    + apply bind_inv in E. destruct E as ([x j] & s1 & E1 & E2).
      destruct (TI f t (sfield v id n fs) (md_field md fd) s Hm Hf1 Hi _ _ _ E1) as (-> & F1 & X1).
      destruct (QS f id md ((n, x) :: fs) s1 fs1 i s') as (-> & F2 & X2); auto.
      * now apply (go_mode m s s1).
      * apply (go_need c by_ s s1 r r'); auto. lia.
      * now apply (go_inv _ _ s s1).
      * split; [reflexivity|]. split; [now apply (go_trans s s1 s')|].
        destruct (later s s1 s' Hi F1 F2) as (G1 & G2). rewrite acc_field in X1.
        apply find_hit_inv in G. destruct G as [Gn Ge].
        eapply sf_hit; [exact Gn|exact Ge| |apply (stores_mono v _ _ G2), X2]. now apply (stores_mono v _ _ G1).
    + destruct (rec_fresh c by_ ibuf ishift buf start m r d r' f s PI Hm ltac:(lia) Hi)
        as (s1 & x & R1 & F1 & _).
      unfold discard in E. unfold runs in R1. unfold mbind at 1 in E. rewrite R1 in E.
      destruct (QS f id md fs s1 fs1 i s') as (-> & F2 & X2); auto.
      * now apply (go_mode m s s1).
      * apply (go_need c by_ s s1 r r'); auto. lia.
      * now apply (go_inv _ _ s s1).
      * split; [reflexivity|]. split; [now apply (go_trans s s1 s')|].
        destruct (later s s1 s' Hi F1 F2) as (G1 & G2).
        apply sf_miss; [now apply find_miss_inv|]. now apply (stores_mono v _ _ G2).
Qed.

(** ** Arrays and hashes *)
Lemma array_s m r ds p' f s ty cur md : Sitems m r ds p' -> mode_ok m s ->
  S (need by_ r (d_copy s)) <= f -> inv_ s ->
  sdone (tdecodeArray by_ (tdec f) (dec f) r (Z.of_nat (length ds)) ty cur md) s ty cur md (DArr ds) p'.
Proof.
  intros QI Hm Hf Hi x i s' E. unfold tdecodeArray in E.
  destruct (_ || _)%Z; [discriminate E|]. destruct (_ <? _)%Z; [discriminate E|]. rewrite Nat2Z.id in E.
  assert (New : forall t o, (set md (VSlice o) ;; log_make (length ds) (len - r) ;;
         (let! (xs, idx) := tarray_loop (tdec f) (dec f) (length ds) t Settable (repeat (zero t) (length ds)) r in
          ret (VSlice (Some xs), idx))) s = (Ok (x, i), s') -> o = None \/ o = Some [] ->
       i = p' /\ (forall W, frm W s s') /\ st s s' (acc md) (TySlice t) (VSlice o) (DArr ds) x).
  { intros t o Q O. apply bind_inv in Q. destruct Q as (y & s1 & A & Q). apply set_inv in A. destruct A as (-> & -> & ->).
    apply bind_inv in Q. destruct Q as (y & s1 & A & Q). injection A as <- <-.
    set (s1 := mkDState (d_heap s) (d_tracked s) (d_copy s) ((length ds, len - r) :: d_made s)) in *.
    apply bind_inv in Q. destruct Q as ([xs j] & s2 & Q & A). injection A as <- <- <-.
    destruct (QI f t _ Settable s1 xs j s2 Hm Hf Hi Q) as (-> & F & X).
    split; [reflexivity|]. split; [exact F|]. now apply st_slice. }
  destruct ty as [| | | | | |t|n t| | |]; try discriminate E.
  - destruct cur as [| | | | | |[l|]| | | |]; try discriminate E.
    + destruct l as [|y l].
      * apply New in E; auto.
      * apply bind_inv in E. destruct E as ([xs j] & s2 & Q & A). injection A as <- <- <-.
        destruct (QI f t _ (md_elem md) s xs j s2 Hm Hf Hi Q) as (-> & F & X).
        split; [reflexivity|]. split; [exact F|]. rewrite acc_elem in X. apply st_slice_over; [discriminate|exact X].
    + apply New in E; auto.
  - destruct cur as [| | | | | | |l| | |]; try discriminate E.
    apply bind_inv in E. destruct E as ([xs j] & s2 & Q & A). injection A as <- <- <-.
    destruct (QI f t _ md s xs j s2 Hm Hf Hi Q) as (-> & F & X).
    split; [reflexivity|]. split; [exact F|]. now apply st_array.
Qed.

Lemma opt_set A (o : option A) md cur s y s' : match o with None => set md cur | Some _ => ret cur end s = (Ok y, s') ->
  s' = s /\ (acc md = Free \/ o <> None).
Proof.
  destruct o.
  - intros [= <- <-]. split; [reflexivity|]. right. discriminate.
  - intros E. apply set_inv in E. destruct E as (-> & _ & ->). auto.
Qed.

Lemma hash_s m r kvs p' f s : Spairs m r kvs p' -> mode_ok m s ->
  S (need by_ r (d_copy s)) <= f -> inv_ s ->
  forall ty cur md x i s', tdecodeHash v by_ (tdec f) (dec f) ty r (Z.of_nat (length kvs)) cur md s = (Ok (x, i), s') ->
  hashlike ty = true /\ i = p' /\ (forall W, frm W s s') /\ st s s' (acc md) ty cur (DHash kvs) x.
Proof.
  intros (QM & QS) Hm Hf Hi.
  induction ty as [| | | | | |t IH|n t IH|t IH|t IH|id]; intros cur md x i s' E; cbn [tdecodeHash] in E;
    (destruct (_ || _)%Z; [discriminate E|]); (destruct (_ <? _)%Z; [discriminate E|]); rewrite ?Nat2Z.id in E; try discriminate E.
  - destruct cur as [| | | | | | | |o| |]; try discriminate E.
    apply bind_inv in E. destruct E as (y & s1 & A & E). apply opt_set in A. destruct A as [-> O].
    apply bind_inv in E. destruct E as ([m1 j] & s2 & E & A). injection A as <- <- <-.
    destruct (QM f t md _ s m1 j s2 Hm Hf Hi E) as (-> & F & X).
    split; [reflexivity|]. split; [reflexivity|]. split; [exact F|]. now apply st_map.
  - destruct cur as [| | | | | | | | |o|]; try discriminate E.
    apply bind_inv in E. destruct E as (y & s1 & A & E). apply opt_set in A. destruct A as [-> O].
    apply bind_inv in E. destruct E as ([z j] & s2 & E & A). injection A as <- <- <-.
    destruct (IH _ _ _ _ _ E) as (H & -> & F & X).
    split; [exact H|]. split; [reflexivity|]. split; [exact F|]. rewrite acc_elem in X. now apply st_ptr.
  - destruct cur as [| | | | | | | | | |fs]; try discriminate E.
    apply bind_inv in E. destruct E as ([fs1 j] & s2 & E & A). injection A as <- <- <-.
    destruct (QS f id md fs s fs1 j s2 Hm Hf Hi E) as (-> & F & X).
    split; [reflexivity|]. split; [reflexivity|]. split; [exact F|]. now apply st_struct.
Qed.

Lemma object_s m r d p' f s ty cur md isV q cls : Sitem m r d p' -> typed ty cur ->
  runs (class_name by_ q isV) s (cls, r) s -> mode_ok m s -> S (need by_ r (d_copy s)) <= f -> inv_ s ->
  sdone (let! (cls, idx) := class_name by_ q isV in
      if d_perl c then
        let! l := alloc (CV GNil) in
        let! x := set_iface ty md (GObjP cls l) in
        let! idx := dec f idx l in ret (x, idx)
      else tdec f ty cur md idx) s ty cur md (DObj cls d) p'.
Proof.
  intros TI Nt R Hm Hf Hi. eapply sdone_bind; [exact R|]. cbn [fst snd]. rewrite Hp.
  apply (sdone_wrap _ _ _ _ _ _ d); [intros; now apply st_obj|]. now apply TI.
Qed.

Lemma freeze_s m r n r' str p' f s ty cur md isV q cls :
  at_ by_ r [x28; x2b] -> vint by_ (r + 2) n r' -> n = 1%N -> Pit m r' (DBin str) p' ->
  runs (class_name by_ q isV) s (cls, r) s -> mode_ok m s -> S (need by_ r (d_copy s)) <= f -> inv_ s ->
  sdone (tdecodeFreeze c by_ (dec f) ty cur md q isV) s ty cur md (DFreeze cls str) p'.
Proof.
  intros Ha Hv En PP R Hm Hf Hi.
  assert (B0 : nth_error by_ r = Some x28)
    by (rewrite <- (Nat.add_0_r r); eapply at_nth; [exact Hlen|exact Ha|reflexivity]).
  assert (B1 : nth_error by_ (r + 1) = Some x2b)
    by (eapply at_nth; [exact Hlen|exact Ha|reflexivity]).
  assert (PI : Pit m r (DRef (DArr [DBin str])) p').
  { apply Pitem_refn with (q := r); [exact start| |].
    - split; [lia|split; [intros; lia|]]. exists x28. repeat split; auto. discriminate.
    - apply Pitem_array with (q := S r) (n := n) (r := r'); auto.
      + split; [lia|split; [intros; lia|]]. exists x2b. rewrite <- Nat.add_1_r.
        repeat split; auto. discriminate.
      + replace (S (S r)) with (r + 2) by lia. exact Hv.
      + lia.
      + eapply Pitems_cons; [exact start|exact PP|apply Pitems_nil]. }
  pose proof (proj1 (at_range [] _ _ _ Ha)) as La. cbn in La.
  destruct (rec_fresh c by_ ibuf ishift buf start m r _ p' f s PI Hm ltac:(lia) Hi) as (s1 & y & R1 & F1 & C1 & V1 & L3).
  destruct (repr_single_bin _ _ _ _ _ Hp V1) as (base & w & -> & Hb & Pw & Ew).
  unfold tdecodeFreeze. eapply sdone_bind; [exact R|]. cbn [fst snd].
  destruct (Nat.leb_spec len (r + 1)); [lia|]. rewrite B0, B1.
  change (negb ((b2n x28 =? typeREFN) && (b2n x2b =? typeARRAY))%N) with false. cbv iota.
  intros x i s' E.
  erewrite (fresh_bind' _ (CV GNil) (fun l => dec f r l)) in E; [|exact R1].
  unfold mbind at 1 in E. cbn [get_var] in E. rewrite (hget_cell _ _ _ C1) in E.
  cbn [Nat.eqb negb] in E. unfold mbind at 1 in E. cbn [get_var] in E. rewrite Hb, Hp in E.
  assert (Q : ty = TySlice (TyInt KUint8) /\ cur = VSlice None /\
    (set md cur ;; fun s => (Ok (VSlice (Some (map byte_val (hview (d_heap s) w))), p'), s)) s1 = (Ok (x, i), s')).
  { destruct ty as [| | | | | |t|n0 t| | |]; try discriminate E;
      try (apply bind_inv in E; destruct E as (? & ? & _ & E); discriminate E).
    destruct t as [[]| | | | | | | | | |]; try (apply bind_inv in E; destruct E as (? & ? & _ & E); discriminate E).
    destruct cur as [| | | | | |[l|]| | | |]; try (apply bind_inv in E; destruct E as (? & ? & _ & E); discriminate E).
    auto. }
  clear E. destruct Q as (-> & -> & E). apply bind_inv in E. destruct E as (z & s2 & A & E).
  apply set_inv in A. destruct A as (-> & -> & ->). injection E as <- <- <-.
  split; [reflexivity|]. split; [exact F1|]. rewrite Ew. apply st_frozen.
Qed.

Lemma regexp_s m q s1 r s2 p' s ty cur md : stringish g by_ (copy_ok m) q s1 r -> stringish g by_ (copy_ok m) r s2 p' ->
  typed ty cur -> mode_ok m s -> inv_ s ->
  sdone (let! l := alloc (CV GNil) in
         let! idx := decodeRegexp by_ ibuf ishift q l in
         let! x := get_var l in
         let! x := set_iface ty md x in ret (x, idx)) s ty cur md (DRegexp s1 s2) p'.
Proof.
  intros H1 H2 Nt Hm Hi x i s' E.
  set (l := length (d_heap s)). set (sa := with_heap s (d_heap s ++ [CV GNil])).
  assert (Ca : d_copy sa = d_copy s) by reflexivity.
  assert (Hma : mode_ok m sa) by (destruct m; exact Hm).
  destruct (stringish_runs c by_ start Hlen _ _ _ _ sa H1 (mode_copy _ _ Hma)) as (w1 & R1 & _ & A1 & W1 & _).
  destruct (stringish_runs c by_ start Hlen _ _ _ _ sa H2 (mode_copy _ _ Hma)) as (w2 & R2 & _ & A2 & W2 & _).
  unfold mbind at 1 in E. unfold alloc at 1 in E. fold l in E. fold sa in E.
  unfold decodeRegexp in E.
  apply bind_inv in E. destruct E as (j & sb & E & E').
  apply bind_inv in E. destruct E as ([w j1] & sc & E1 & E). unfold runs in R1. rewrite R1 in E1. injection E1 as <- <- <-.
  apply bind_inv in E. destruct E as ([w j1] & sc & E1 & E). unfold runs in R2. rewrite R2 in E1. injection E1 as <- <- <-.
  set (rx := CV (GRegexpV (win_view ibuf ishift w1) (win_view ibuf ishift w2))) in *.
  unfold mbind, alloc, set_var, ret in E. cbn in E. injection E as <- <-.
  apply bind_inv in E'. destruct E' as (y & sc & E1 & E'). unfold get_var in E1. cbn in E1. injection E1 as <- <-.
  apply bind_inv in E'. destruct E' as (z & sd & E1 & E2). injection E2 as <- <- <-.
  destruct ty; try discriminate E1. cbn [set_iface] in E1. apply set_inv in E1. destruct E1 as (-> & -> & ->).
  set (hh := upd ((d_heap s ++ [CV GNil]) ++ [rx]) l (CV (GPtr false (length (d_heap s ++ [CV GNil]))))).
  assert (Lh : length hh = S (S l)) by (unfold hh; rewrite upd_length, !app_length; cbn; unfold l; lia).
  assert (Eh : forall o, o < l -> nth_error hh o = nth_error (d_heap s) o).
  { intros o Ho. unfold hh. rewrite nth_error_upd_other by lia. rewrite !nth_error_app1; auto; rewrite ?app_length; cbn; unfold l in *; lia. }
  assert (Cl : nth_error hh l = Some (CV (GPtr false (S l)))).
  { unfold hh. rewrite nth_error_upd_same; [|rewrite !app_length; cbn; unfold l; lia]. do 3 f_equal. rewrite app_length. cbn. unfold l. lia. }
  assert (Cr : nth_error hh (S l) = Some rx).
  { unfold hh. rewrite nth_error_upd_other by lia. rewrite nth_error_app2 by (rewrite app_length; cbn; unfold l; lia).
    replace (S l - length (d_heap s ++ [CV GNil])) with 0 by (rewrite app_length; cbn [length]; unfold l; lia). reflexivity. }
  split; [reflexivity|]. split.
  - intros W. repeat split; cbn [d_heap with_heap d_copy]; [fold hh; unfold l in Lh; lia|].
    intros o Ho _. fold hh. now apply Eh.
  - cbn [d_heap with_heap]. fold hh. rewrite (hget_cell _ _ _ Cl).
    assert (I' : nth_error hh ibuf = Some (CBuf buf)).
    { rewrite Eh; [exact Hi|]. eapply nth_error_Some_lt; exact Hi. }
    apply st_iface_regexp; [exact Nt|]. unfold TypedSpec.RR.
    eapply r_regexp; cbn [d_heap with_heap]; try fold hh; [|exact Cr| | | |]; cbn [vloc win_view].
    + right. cbn [d_heap with_heap]. fold hh. unfold l in *. lia.
    + now left.
    + now left.
    + eapply view_window; eauto.
    + eapply view_window; eauto.
Qed.

(** ** The theorem *)
Theorem tdecode_stores_only :
  (forall m p d p', item g by_ m p d p' -> Sitem m p d p') /\
  (forall m p ds p', items g by_ m p ds p' -> Sitems m p ds p') /\
  (forall m p kvs p', pairs g by_ m p kvs p' -> Spairs m p kvs p').
Proof.
  destruct (decode_implements_grammar c by_ ibuf ishift buf start Hlen Hbuf) as (PI & _ & _).
  assert (VA : forall p n p', vint by_ p n p' -> p < p' /\ p' <= len /\
             forall s, runs (varint_at by_ p) s (to_int n, p' - p) s).
  { intros p n p' H. destruct (vint_at by_ Hlen p n p' (mkDState [] [] 0 []) H) as (_ & A & B & _).
    split; [exact A|split; [exact B|]]. intros s. now destruct (vint_at by_ Hlen p n p' s H). }
  assert (AfterItems : forall m p ds p', items g by_ m p ds p' -> p <= p').
  { intros m p ds p' H. destruct (decode_implements_grammar c by_ ibuf ishift buf start Hlen Hbuf) as (_ & PS & _).
    destruct (PS _ _ _ _ H) as (L & _). lia. }
  assert (AfterPairs : forall m p ds p', pairs g by_ m p ds p' -> p <= p').
  { intros m p ds p' H. destruct (decode_implements_grammar c by_ ibuf ishift buf start Hlen Hbuf) as (_ & _ & PS).
    destruct (PS _ _ _ _ H) as (L & _). lia. }
  apply (grammar_ind g by_ (fun m p d p' _ => Sitem m p d p')
           (fun m p ds p' _ => Sitems m p ds p') (fun m p kvs p' _ => Spairs m p kvs p')).
  - (* pos *)
    intros m p q t Ht Hr. apply (tag_s m p q t); auto; [apply PI; now apply i_pos|].
    intros f ty cur md s Nt Hm Hf Hf0 Hi. rewrite (tk_small by_) by lia. cbn [tdecode_tag].
    apply (int_s (decodeInt t) s); [|reflexivity].
    intros kk. rewrite (small_int by_) by lia. destruct (N.ltb_spec t 16); [reflexivity|lia].
  - (* neg *)
    intros m p q t Ht Hr. apply (tag_s m p q t); auto; [apply PI; now apply i_neg|].
    intros f ty cur md s Nt Hm Hf Hf0 Hi. rewrite (tk_small by_) by lia. cbn [tdecode_tag].
    apply (int_s (decodeInt t) s); [|reflexivity].
    intros kk. rewrite (small_int by_) by lia. destruct (N.ltb_spec t 16); [lia|reflexivity].
  - (* varint *)
    intros m p q n r Ht Hv. destruct (VA _ _ _ Hv) as (L1 & L2 & V).
    apply (tag_s m p q 32); [apply PI; eapply i_varint; eauto|exact Ht|lia|].
    intros f ty cur md s Nt Hm Hf Hf0 Hi. change (tag_kind 32) with TVarint. cbn [tdecode_tag].
    eapply sdone_bind; [apply V|]. cbn [fst snd].
    apply (int_s (to_int n) s); [|lia].
    intros kk. apply wrap_kind_mod.
    apply to_int_mod64. now apply vint_bound in Hv.
  - (* zigzag *)
    intros m p q n r Ht Hv Hev. destruct (VA _ _ _ Hv) as (L1 & L2 & V).
    apply (tag_s m p q 33); [apply PI; eapply i_zigzag; eauto|exact Ht|lia|].
    intros f ty cur md s Nt Hm Hf Hf0 Hi. change (tag_kind 33) with TZigzag. cbn [tdecode_tag].
    eapply sdone_bind; [apply V|]. cbn [fst snd].
    destruct (zigzag_odd by_ n) as [E B]; [now apply vint_bound in Hv|destruct Hev; [discriminate|auto]|].
    rewrite E. apply (int_s (zigzag_meaning n) s); [reflexivity|lia].
  - (* float *)
    intros m p q l Ht Ha El. apply (tag_s m p q 34); [apply PI; now apply i_float|exact Ht|lia|].
    intros f ty cur md s Nt Hm Hf Hf0 Hi. change (tag_kind 34) with TFloat. cbn [tdecode_tag].
    eapply sdone_bind; [eapply fixed_runs; eauto; lia|].
    apply sleaf. intros x i s' E. destruct ty; try discriminate E; cbn [setFloat] in E; got E; repeat split; auto; intros R.
    + apply st_f32.
    + apply st_f64_32.
  - (* double *)
    intros m p q l Ht Ha El. apply (tag_s m p q 35); [apply PI; now apply i_double|exact Ht|lia|].
    intros f ty cur md s Nt Hm Hf Hf0 Hi. change (tag_kind 35) with TDouble. cbn [tdecode_tag].
    eapply sdone_bind; [eapply fixed_runs; eauto; lia|].
    apply sleaf. intros x i s' E. destruct ty; try discriminate E; cbn [setFloat] in E; got E; repeat split; auto; intros R.
    + apply st_f32_64.
    + apply st_f64.
  - (* undef *)
    intros m p q Ht. apply (tag_s m p q 37); auto; [apply PI; now apply i_undef|].
    intros f ty cur md s Nt Hm Hf Hf0 Hi. change (tag_kind 37) with TUndef. cbn [tdecode_tag].
    rewrite Hp. apply undef_s; auto.
  - (* canonical undef *)
    intros m p q Ht. apply (tag_s m p q 57); auto; [apply PI; now apply i_canon|].
    intros f ty cur md s Nt Hm Hf Hf0 Hi. change (tag_kind 57) with TCanonUndef. cbn [tdecode_tag].
    rewrite Hp. apply undef_s; auto.
  - (* false *)
    intros m p q Ht. apply (tag_s m p q 58); auto; [apply PI; now apply i_false|].
    intros f ty cur md s Nt Hm Hf Hf0 Hi. change (tag_kind 58) with TFalse. cbn [tdecode_tag].
    apply sleaf. intros x i s' E. destruct ty; try discriminate E; cbn [setBool] in E; got E; repeat split; auto; intros R.
    apply st_bool.
  - (* true *)
    intros m p q Ht. apply (tag_s m p q 59); auto; [apply PI; now apply i_true|].
    intros f ty cur md s Nt Hm Hf Hf0 Hi. change (tag_kind 59) with TTrue. cbn [tdecode_tag].
    apply sleaf. intros x i s' E. destruct ty; try discriminate E; cbn [setBool] in E; got E; repeat split; auto; intros R.
    apply st_bool.
  - (* strings *)
    intros m p u str p' Hs. pose proof (PI m p _ p' (i_str g by_ m p u str p' Hs)) as PP.
    destruct Hs as [p q t str Ht Hr Ha Hl | p q n r str Ht Hv Hm Ha Hl | p q n r str Ht Hv Hm Ha Hl].
    + apply (tag_s m p q t); auto; [lia|].
      intros f ty cur md s Nt Hm Hf Hf0 Hi. rewrite (tk_short by_) by assumption. cbn [tdecode_tag].
      rewrite <- Hl, Nat2N.id.
      eapply sdone_bind; [apply binary_runs; [exact Ha|lia]|]. cbn [fst snd]. apply bin_s; reflexivity.
    + destruct (VA _ _ _ Hv) as (L1 & L2 & V). apply (tag_s m p q 38); auto; [lia|].
      intros f ty cur md s Nt Hm' Hf Hf0 Hi. change (tag_kind 38) with TBinary. cbn [tdecode_tag].
      cbn [g_max go_dialect] in Hm.
      eapply sdone_bind; [apply V|]. cbn [fst snd].
      rewrite to_int_small by (unfold two63; lia). replace (Z.of_N n) with (Z.of_nat (length str)) by lia.
      replace (S q + (r - S q)) with r by lia.
      eapply sdone_bind; [apply binary_runs; [exact Ha|lia]|]. cbn [fst snd]. apply bin_s; reflexivity.
    + destruct (VA _ _ _ Hv) as (L1 & L2 & V). apply (tag_s m p q 39); auto; [lia|].
      intros f ty cur md s Nt Hm' Hf Hf0 Hi. change (tag_kind 39) with TStrUtf8. cbn [tdecode_tag].
      cbn [g_max go_dialect] in Hm.
      eapply sdone_bind; [apply V|]. cbn [fst snd].
      rewrite to_int_small by (unfold two63; lia). replace (Z.of_N n) with (Z.of_nat (length str)) by lia.
      replace (S q + (r - S q)) with r by lia.
      eapply sdone_bind; [apply binary_runs; [exact Ha|lia]|]. cbn [fst snd]. apply str_s; reflexivity.
  - (* refn *)
    intros m p q d p' Ht Hd T. apply (Sitem_refn m p q); auto. apply PI. eapply i_refn; eauto.
  - (* weaken *)
    intros m p q d p' Ht Hd T. apply (Sitem_weaken m p q); auto. apply PI. eapply i_weaken; eauto.
  - (* array *)
    intros m p q n r ds p' Ht Hv Hn En Hs T. destruct (VA _ _ _ Hv) as (L1 & L2 & V).
    pose proof (AfterItems _ _ _ _ Hs) as Q1. cbn [g_max go_dialect] in Hn.
    apply (tag_s m p q 43); [apply PI; eapply i_array; eauto|exact Ht|lia|].
    intros f ty cur md s Nt Hm Hf Hf0 Hi. change (tag_kind 43) with TArray. cbn [tdecode_tag].
    eapply sdone_bind; [apply V|]. cbn [fst snd].
    rewrite to_int_small by (unfold two63; lia). replace (Z.of_N n) with (Z.of_nat (length ds)) by lia.
    replace (S q + (r - S q)) with r by lia.
    apply (array_s m); auto. apply (go_need c by_ s s (S q) r); auto; [intros; apply frm_refl|lia].
  - (* arrayref *)
    intros m p q t ds p' Ht Hr En Hs T. pose proof (AfterItems _ _ _ _ Hs) as Q1.
    apply (tag_s m p q t); [apply PI; eapply i_arrayref; eauto|exact Ht|lia|].
    intros f ty cur md s Nt Hm Hf Hf0 Hi. rewrite (tk_arrayref by_) by assumption. cbn [tdecode_tag].
    replace (N.to_nat (t - 64)) with (length ds) by lia.
    apply (sdone_wrap _ _ _ _ _ _ (DArr ds)); [intros; now apply st_ref|]. now apply (array_s m).
  - (* hash *)
    intros m p q n r kvs p' Ht Hv Hn En Hs T. destruct (VA _ _ _ Hv) as (L1 & L2 & V).
    pose proof (AfterPairs _ _ _ _ Hs) as Q1. cbn [g_max go_dialect] in Hn.
    apply (tag_s m p q 42); [apply PI; eapply i_hash; eauto|exact Ht|lia|].
    intros f ty cur md s Nt Hm Hf Hf0 Hi. change (tag_kind 42) with THash. cbn [tdecode_tag].
    eapply sdone_bind; [apply V|]. cbn [fst snd].
    rewrite to_int_small by (unfold two63; lia). replace (Z.of_N n) with (Z.of_nat (length kvs)) by lia.
    replace (S q + (r - S q)) with r by lia.
    intros x i s' E. apply (hash_s m _ _ _ f _ T Hm) in E; [tauto| |exact Hi].
    apply (go_need c by_ s s (S q) r); auto; [intros; apply frm_refl|lia].
  - (* hashref *)
    intros m p q t kvs p' Ht Hr En Hs T. pose proof (AfterPairs _ _ _ _ Hs) as Q1.
    apply (tag_s m p q t); [apply PI; eapply i_hashref; eauto|exact Ht|lia|].
    intros f ty cur md s Nt Hm Hf Hf0 Hi. rewrite (tk_hashref by_) by assumption. cbn [tdecode_tag].
    replace (N.to_nat (t - 80)) with (length kvs) by lia.
    apply (sdone_wrap _ _ _ _ _ _ (DHash kvs)); [intros; now apply st_ref|].
    intros x i s' E. apply (hash_s m _ _ _ f _ T Hm Hf Hi) in E. tauto.
  - (* object *)
    intros m p q cls r d p' Ht Hc Hd T. destruct (PI _ _ _ _ Hd) as (Q1 & Q2 & _).
    destruct (stringish_runs c by_ start Hlen _ _ _ _ (mkDState [] [] 0 []) Hc) as (_ & _ & _ & _ & _ & L1 & L2); [reflexivity|].
    apply (tag_s m p q 44); [apply PI; eapply i_object; eauto|exact Ht|lia|].
    intros f ty cur md s Nt Hm Hf Hf0 Hi. change (tag_kind 44) with TObject. cbn [tdecode_tag].
    eapply (object_s m r); eauto.
    + eapply class_lit; eauto. now apply mode_copy.
    + apply (go_need c by_ s s (S q) r); auto; [intros; apply frm_refl|lia].
  - (* objectv *)
    intros m p q n r u cls e d p' Ht Hv Hlt Hst Hs Hd T. destruct (PI _ _ _ _ Hd) as (Q1 & Q2 & _).
    destruct (tag_skip by_ p q 45 Ht) as (_ & _ & _ & _ & L4 & _).
    destruct (VA _ _ _ Hv) as (L1 & L2 & V).
    apply (tag_s m p q 45); [apply PI; eapply i_objectv; eauto|exact Ht|lia|].
    intros f ty cur md s Nt Hm Hf Hf0 Hi. change (tag_kind 45) with TObjectV. cbn [tdecode_tag].
    eapply (object_s m r); eauto.
    + eapply class_off; eauto.
    + apply (go_need c by_ s s (S q) r); auto; [intros; apply frm_refl|lia].
  - (* regexp *)
    intros m p q s1 r s2 p' Ht Hs1 Hs2.
    destruct (stringish_runs c by_ start Hlen _ _ _ _ (mkDState [] [] 0 []) Hs1) as (_ & _ & _ & _ & _ & L1 & L2); [reflexivity|].
    destruct (stringish_runs c by_ start Hlen _ _ _ _ (mkDState [] [] 0 []) Hs2) as (_ & _ & _ & _ & _ & L3 & L4); [reflexivity|].
    apply (tag_s m p q 49); [apply PI; eapply i_regexp; eauto|exact Ht|lia|].
    intros f ty cur md s Nt Hm Hf Hf0 Hi. change (tag_kind 49) with TRegexp. cbn [tdecode_tag].
    now apply (regexp_s m _ _ r).
  - (* freeze *)
    intros m p q cls r n r' str p' Ht Hc Ha Hv En Hd T Hg. destruct (PI _ _ _ _ Hd) as (Q1 & Q2 & _).
    destruct (stringish_runs c by_ start Hlen _ _ _ _ (mkDState [] [] 0 []) Hc) as (_ & _ & _ & _ & _ & L1 & L2); [reflexivity|].
    destruct (VA _ _ _ Hv) as (L3 & L4 & V).
    apply (tag_s m p q 50); [apply PI; eapply i_freeze; eauto|exact Ht|lia|].
    intros f ty cur md s Nt Hm Hf Hf0 Hi. change (tag_kind 50) with TFreeze. cbn [tdecode_tag].
    eapply (freeze_s m r n r'); eauto.
    + eapply class_lit; eauto. now apply mode_copy.
    + apply (go_need c by_ s s (S q) r); auto; [intros; apply frm_refl|lia].
  - (* freezev *)
    intros m p q o r0 u cls e n r' str p' Ht Hv0 Hlt Hst Hs Ha Hv En Hd T Hg. destruct (PI _ _ _ _ Hd) as (Q1 & Q2 & _).
    destruct (tag_skip by_ p q 51 Ht) as (_ & _ & _ & _ & L0 & _).
    destruct (VA _ _ _ Hv0) as (L1 & L2 & V0). destruct (VA _ _ _ Hv) as (L3 & L4 & V).
    apply (tag_s m p q 51); [apply PI; eapply i_freezev; eauto|exact Ht|lia|].
    intros f ty cur md s Nt Hm Hf Hf0 Hi. change (tag_kind 51) with TFreezeV. cbn [tdecode_tag].
    eapply (freeze_s m r0 n r'); eauto.
    + eapply class_off; eauto.
    + apply (go_need c by_ s s (S q) r0); auto; [intros; apply frm_refl|lia].
  - (* copy *)
    intros p q n r d e Ht Hv Hlt Hst Hd T. destruct (VA _ _ _ Hv) as (L1 & L2 & V).
    destruct (tag_skip by_ p q 47 Ht) as (_ & _ & _ & L3 & L4 & _).
    apply (tag_s CAny p q 47); [apply PI; eapply i_copy; eauto|exact Ht|lia|].
    intros f ty cur md s Nt Hm Hf Hf0 Hi. change (tag_kind 47) with TCopy. cbn [tdecode_tag].
    cbn [mode_ok] in Hm. specialize (Hf0 Hm).
    eapply sdone_bind; [reflexivity|]. rewrite Hm. cbn [Nat.ltb Nat.leb].
    eapply sdone_bind; [apply V|]. cbn [fst snd].
    pose proof (vint_bound _ _ _ _ Hv) as Bn.
    rewrite to_int_small by lia.
    destruct ((Z.of_N n <? 0) || (Z.of_nat (S q) <=? Z.of_N n))%Z eqn:B; [lia|].
    intros x i s' E.
    apply bind_inv in E. destruct E as (u & s0 & E0 & E). injection E0 as <- <-.
    set (s1 := mkDState (d_heap s) (d_tracked s) 1 (d_made s)) in *.
    apply bind_inv in E. destruct E as ([y j] & s2 & E & E2). injection E2 as <- <- <-. cbn [fst].
    destruct (tdec f ty cur md (Z.to_nat (Z.of_N n)) s1) as [[r1|?|?| |] s3] eqn:R; try discriminate E.
    injection E as -> <-.
    replace (Z.to_nat (Z.of_N n)) with (N.to_nat n) in R by lia.
    cbn [g_nest go_dialect] in T.
    destruct (T f ty cur md s1) with (x := y) (i := j) (s' := s3) as (-> & F & X); auto.
    { cbn [mode_ok]. trivial. }
    { cbn [d_copy s1]. unfold need. lia. }
    split; [lia|]. split; [|exact X].
    intros W. destruct (F W) as (A & B' & C'). cbn in C'. split; [exact A|split; [exact B'|]].
    cbn. rewrite C'. now rewrite Hm.
  - apply Sitems_nil.
  - intros m p d r ds p' Hd TD Hs TS. eapply Sitems_cons; eauto.
  - apply Spairs_nil.
  - intros m p k r d r' kvs p' Hk Hd TD Hs TS. eapply Spairs_cons; eauto.
Qed.
End SS.

(** ** Documents *)
Section SD.
Variable k : codecs.
Variable c : dconfig.
Variable v : goenv.
Hypothesis Hp : d_perl c = false.

Lemma tbody_stores ver pre body d e ib s ty cur x s' : (1 <= length pre)%nat ->
  (Z.of_nat (length pre + length body) <= 281474976710656)%Z ->
  body_item CAny (go_dialect c) ver pre body d e ->
  nth_error (d_heap s) ib = Some (CBuf (pre ++ body)) -> d_copy s = 0 ->
  (if (ver =? 1)%N then
     let! r := tdecode c v (pre ++ body) ib 0 (decode_fuel (pre ++ body)) ty cur Settable (length pre) in ret (fst r)
   else if Nat.eqb (length pre) 0 then crash
   else match slice_from (pre ++ body) (length pre - 1) with
        | None => crash
        | Some by_ => let! r := tdecode c v by_ ib (length pre - 1) (decode_fuel by_) ty cur Settable 1 in ret (fst r)
        end) s = (Ok x, s') ->
  (forall W, frm W s s') /\ stores v (repr false (reg_of c) (fresh ib s s') (d_heap s')) Free ty cur d x.
Proof.
  intros Lp Lb I Hib Hc E. unfold body_item in I. destruct (ver =? 1)%N.
  - destruct (tdecode_stores_only c v (pre ++ body) ib 0 (pre ++ body) (length pre)) as (D & _ & _); auto.
    { rewrite app_length. unfold two63. lia. }
    { exists [], []. now rewrite app_nil_r. }
    apply bind_inv in E. destruct E as ([y i] & s1 & E & E'). injection E' as <- <-.
    apply (D _ _ _ _ I) in E; auto; [cbn [fst]; tauto|]. rewrite Hc. unfold need, decode_fuel. lia.
  - destruct (Nat.eqb_spec (length pre) 0); [lia|].
    destruct (exists_last (l := pre)) as (pre0 & y & ->); [intros ->; cbn in *; lia|].
    rewrite app_length in *. cbn [length] in *.
    replace (length pre0 + 1 - 1) with (length pre0) in E by lia.
    rewrite <- app_assoc in *. cbn [app] in *.
    assert (S : slice_from (pre0 ++ y :: body) (length pre0) = Some (y :: body)).
    { unfold slice_from. rewrite app_length, skipn_app_len. cbn.
      destruct (Nat.leb_spec (length pre0) (length pre0 + S (length body))); [reflexivity|lia]. }
    rewrite S in E.
    apply (item_head _ x00 y) in I; [|reflexivity].
    destruct (tdecode_stores_only c v (y :: body) ib (length pre0) (pre0 ++ y :: body) 1) as (D & _ & _); auto.
    { cbn [length]. unfold two63. lia. }
    { exists pre0, []. now rewrite app_nil_r. }
    apply bind_inv in E. destruct E as ([z i] & s1 & E & E'). injection E' as <- <-.
    apply (D _ _ _ _ I) in E; auto; [cbn [fst]; tauto|]. rewrite Hc. unfold need, decode_fuel. lia.
Qed.

Theorem typed_document_stores b ver typ suffix d body e h ib ty cur h' x :
  document (go_reader c) k b ver typ suffix d body e ->
  nth_error h ib = Some (CBuf b) ->
  unmarshal_typed k c v h b ib ty cur = Ok (h', x) ->
  memory_kept h h' /\
  stores v (repr false (reg_of c) (fun l => l = ib \/ length h <= l < length h') h') Free ty cur d x.
Proof.
  intros (pre & packed & -> & Hpre & Pk & Lb & Lm & I) Hib U.
  cbn [go_reader r_packed r_memory r_dialect] in *. rewrite app_length in Lb.
  destruct (checkHeader_preamble _ _ _ _ packed Hpre ltac:(lia)) as (sz & Ch & Lpre & Lsz).
  destruct (unpack k ver typ packed body (proj1 Hpre) Pk ltac:(lia)) as (o & Dd & Ho).
  unfold unmarshal_typed, unmarshal_typed_raw in U.
  unfold mbind at 1 in U. unfold lift at 1 in U. rewrite Ch in U.
  unfold mbind at 1 in U. unfold lift at 1 in U. cbn [h_version h_doctype h_suffixSize] in U. rewrite Dd in U.
  assert (Eb : wrap64 (Z.of_nat headerSize + Z.of_nat (sz + length suffix)) = Z.of_nat (length pre)).
  { rewrite wrap64_small; unfold headerSize, two63 in *; lia. }
  rewrite Eb, Nat2Z.id in U. rewrite app_length in U.
  destruct ((Z.of_nat (length pre + length packed) <? Z.of_nat (length pre)) || (Z.of_nat (length pre) <? 0))%Z
    eqn:C; [lia|].
  unfold unmarshal_tbody in U. cbn [h_version] in U.
  destruct o as [dk|].
  - set (nb := pre ++ body) in *.
    set (s1 := mkDState (h ++ [CBuf nb]) [] 0 []) in *.
    unfold mbind at 1 in U. assert (Sl : slice_from (pre ++ packed) (length pre) = Some packed).
    { unfold slice_from. rewrite app_length, skipn_app_len.
      destruct (Nat.leb_spec (length pre) (length pre + length packed)); [reflexivity|lia]. }
    rewrite Sl in U. unfold mbind at 1 in U. unfold lift at 1 in U. rewrite Ho in U. cbv zeta in U. rewrite firstn_app_len in U.
    unfold mbind at 1 in U. unfold alloc at 1 in U. unfold ret at 1 in U.
    unfold mbind at 1 in U. unfold fresh_tracked at 1 in U. cbn [with_heap d_heap d_copy d_made] in U.
    fold nb in U. fold s1 in U.
    match type of U with (let '(_, _) := ?m in _) = _ => destruct m as [[y|?|?| |] s'] eqn:R end; try discriminate U.
    injection U as <- <-.
    destruct (tbody_stores ver pre body d e (length h) s1 ty cur y s') as (F & X); auto.
    { unfold headerSize in *. lia. }
    { lia. }
    { cbn. rewrite nth_error_app2, Nat.sub_diag by lia. reflexivity. }
    destruct (F (fun _ => False)) as (F1 & F2 & F3).
    cbn in F1, F2. rewrite app_length in F1, F2. cbn in F1, F2. split.
    + intros l z Hl. pose proof (nth_error_Some_lt _ _ _ _ Hl).
      rewrite F2; [|lia|auto]. now rewrite nth_error_app1.
    + eapply stores_mono; [|exact X]. intros z dd. eapply repr_stable.
      intros l Hl. split; [|reflexivity]. right. destruct Hl as [->|Hl]; [lia|].
      cbn in Hl. rewrite app_length in Hl. cbn in Hl. lia.
  - destruct Ho as [-> ->].
    set (s1 := mkDState h [] 0 []) in *.
    unfold mbind at 1 in U. unfold ret at 1 in U. unfold mbind at 1 in U. unfold fresh_tracked at 1 in U.
    change (mkDState (d_heap s1) [] (d_copy s1) (d_made s1)) with s1 in U.
    match type of U with (let '(_, _) := ?m in _) = _ => destruct m as [[y|?|?| |] s'] eqn:R end; try discriminate U.
    injection U as <- <-.
    destruct (tbody_stores ver pre body d e ib s1 ty cur y s') as (F & X); auto.
    { unfold headerSize in *. lia. }
    { lia. }
    destruct (F (fun _ => False)) as (F1 & F2 & F3). split; [|exact X].
    intros l z Hl. pose proof (nth_error_Some_lt _ _ _ _ Hl). cbn in F2. rewrite F2; auto.
Qed.
End SD.
