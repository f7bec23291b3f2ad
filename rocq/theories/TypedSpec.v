(** The typed decoder does what [into] (SpecTyped.v) says, for every item of the dialect Go
    reads. *)
From Verif Require Import Base BaseFacts SpecVarint Varint VarintFacts Tags GoMem GoTypes TagsCache Decode
  DecodeSafe Spec SpecValue SpecTyped DecodeSpec JsonFacts Typed.
From Coq Require Import ZifyBool ZifyNat ZifyN.
Ltac Zify.zify_post_hook ::= Z.div_mod_to_equations.

Scheme into_ind4 := Induction for into Sort Prop
  with into_each_ind4 := Induction for into_each Sort Prop
  with into_map_ind4 := Induction for into_map Sort Prop
  with into_fields_ind4 := Induction for into_fields Sort Prop.
Combined Scheme into_mut_ind from into_ind4, into_each_ind4, into_map_ind4, into_fields_ind4.

Lemma into_mono v (R R' : gval -> data -> Prop) : (forall x d, R x d -> R' x d) ->
  (forall ty cur d x, into v R ty cur d x -> into v R' ty cur d x) /\
  (forall t curs ds xs, into_each v R t curs ds xs -> into_each v R' t curs ds xs) /\
  (forall t m kvs m', into_map v R t m kvs m' -> into_map v R' t m kvs m') /\
  (forall id fs kvs us, into_fields v R id fs kvs us -> into_fields v R' id fs kvs us).
Proof.
  intros H. apply into_mut_ind; intros.
  - apply in_iface; auto.
  - apply in_int; auto.
  - apply in_bool.
  - apply in_f32.
  - apply in_f32_64.
  - apply in_f64.
  - apply in_f64_32.
  - apply in_str.
  - apply in_str_bin.
  - apply in_bytes.
  - apply in_bytes_frozen.
  - apply in_bytes_array; auto.
  - apply in_undef; auto.
  - apply in_ref; auto.
  - apply in_weak; auto.
  - apply in_obj; auto.
  - apply in_slice; auto.
  - apply in_slice_over; auto.
  - apply in_array; auto.
  - apply in_map; auto.
  - apply in_ptr; auto.
  - apply in_struct; auto.
  - apply ie_end.
  - apply ie_surplus.
  - apply ie_cons; auto.
  - apply im_end.
  - eapply im_cons; eauto.
  - apply if_end.
  - eapply if_hit; eauto.
  - apply if_miss; auto.
Qed.

Lemma into_iface v R cur d x : into v R TyIface cur d x -> cur = VIface GNil.
Proof.
  remember TyIface as ty eqn:E. intros H. revert E.
  refine (into_ind4 v R (fun ty cur d x _ => ty = TyIface -> cur = VIface GNil)
    (fun _ _ _ _ _ => True) (fun _ _ _ _ _ => True) (fun _ _ _ _ _ => True)
    _ _ _ _ _ _ _ _ _ _ _ _ _ _ _ _ _ _ _ _ _ _ _ _ _ _ _ _ _ _ _ _ _ _ H); auto; try discriminate; congruence.
Qed.

(** kinds of integers *)
Lemma wrap_kind_in k z : ikind_in k z -> wrap_kind k z = z.
Proof.
  assert (G : forall sg m, (0 < m)%Z -> (m mod 2 = 0)%Z ->
    (if sg : bool then - (m / 2) <= z < m / 2 else 0 <= z < m)%Z ->
    (let z0 := z mod m in if sg && (m / 2 <=? z0) then z0 - m else z0)%Z = z).
  { intros sg m P Ev H. cbn zeta. destruct sg; cbn [andb].
    - destruct (Z.leb_spec (m / 2) (z mod m)) as [L|L].
      + destruct (Z.lt_ge_cases z 0) as [N|N].
        * rewrite <- (Z.mod_add z 1) by lia. rewrite Z.mod_small; lia.
        * rewrite Z.mod_small in L by lia. lia.
      + destruct (Z.lt_ge_cases z 0) as [N|N].
        * rewrite <- (Z.mod_add z 1) in L by lia. rewrite Z.mod_small in L; lia.
        * rewrite Z.mod_small; lia.
    - apply Z.mod_small. lia. }
  intros H. unfold wrap_kind. apply (G (ikind_signed k) (2 ^ ikind_bits k)%Z).
  - destruct k; reflexivity.
  - destruct k; reflexivity.
  - destruct k; cbn in H |- *; exact H.
Qed.

Lemma wrap_kind_low k z n : ikind_in k n -> (n mod 2 ^ ikind_bits k = z mod 2 ^ ikind_bits k)%Z -> wrap_kind k z = n.
Proof. intros H E. rewrite <- (wrap_kind_in k n H). unfold wrap_kind. now rewrite E. Qed.

(** reading a 64-bit number as int keeps it modulo 2^64 *)
Lemma wrap_kind_mod k z z' : (z mod two64 = z' mod two64)%Z -> wrap_kind k z = wrap_kind k z'.
Proof.
  intros E. unfold wrap_kind.
  replace (z' mod 2 ^ ikind_bits k)%Z with (z mod 2 ^ ikind_bits k)%Z; [reflexivity|].
  assert (D : exists q, two64 = (2 ^ ikind_bits k * q)%Z).
  { destruct k; cbn [ikind_bits];
      first [exists 1%Z; reflexivity | exists (2 ^ 56)%Z; reflexivity | exists (2 ^ 48)%Z; reflexivity | exists (2 ^ 32)%Z; reflexivity]. }
  destruct D as [q D].
  assert (P : (0 < 2 ^ ikind_bits k)%Z) by (destruct k; reflexivity).
  assert (Q : (0 < q)%Z).
  { unfold two64 in D. destruct (Z.lt_trichotomy q 0) as [N|[N|N]]; nia. }
  rewrite (Z.mod_eq z two64), (Z.mod_eq z' two64) in E by (unfold two64; lia).
  rewrite D in E.
  replace z with (z' + (q * (z / (2 ^ ikind_bits k * q)) - q * (z' / (2 ^ ikind_bits k * q))) * 2 ^ ikind_bits k)%Z by nia.
  rewrite Z.mod_add by lia. reflexivity.
Qed.

Lemma to_int_mod64 n : (n < 18446744073709551616)%N -> (to_int n mod two64 = Z.of_N n mod two64)%Z.
Proof.
  intros H. destruct (Z.ltb_spec (Z.of_N n) two63).
  - rewrite to_int_small by lia. reflexivity.
  - rewrite to_int_big by (unfold two63, two64 in *; lia). unfold two64. lia.
Qed.

Lemma In_mget_nodup A (m : list (bytes * A)) k x : NoDup (map fst m) -> In (k, x) m -> mget m k = Some x.
Proof.
  intros N Hi. destruct (mget m k) as [y|] eqn:E.
  - apply mget_In in E. f_equal. revert N Hi E. induction m as [|[k' x'] m IH]; cbn; [easy|].
    intros N Hi E. inversion N as [|? ? N1 N2]; subst.
    destruct Hi as [Hi|Hi], E as [E|E]; try congruence; auto.
    + injection Hi as -> ->. exfalso. apply N1. now apply (List.in_map fst) in E.
    + injection E as -> ->. exfalso. apply N1. now apply (List.in_map fst) in Hi.
  - exfalso. apply mget_None in E. apply E. now apply (List.in_map fst) in Hi.
Qed.

Lemma mput_new A (m : list (bytes * A)) k x : mget m k = None -> mput m k x = m ++ [(k, x)].
Proof.
  induction m as [|[k' x'] m IH]; cbn; [reflexivity|].
  destruct (bytes_eqb k' k); [discriminate|]. intros H. now rewrite IH.
Qed.

Lemma mget_keys A (m m' : list (bytes * A)) k : map fst m = map fst m' -> mget m k = None -> mget m' k = None.
Proof. intros E. rewrite !mget_None. now rewrite E. Qed.

Lemma tags_mget v id k i :
  mget (tags_of (fields_of v id)) k = Some i <-> serialised (fields_of v id) k i.
Proof.
  destruct (tags_of_table (fields_of v id)) as [N T]. rewrite <- T. split.
  - apply mget_In.
  - now apply In_mget_nodup.
Qed.

Lemma find_hit v id k i f t : names v id k i -> nth_error (st_fields (decls v id)) i = Some (f, t) ->
  find_field v id k = Some (i, (f, t)).
Proof.
  intros H E. unfold find_field. fold (fields_of v id).
  destruct H as [H|[H1 H2]].
  - apply tags_mget in H. now rewrite H, E.
  - destruct (mget (tags_of (fields_of v id)) k) as [j|] eqn:M.
    + apply tags_mget in M. now apply H1 in M.
    + apply tags_mget in H2. now rewrite H2, E.
Qed.

Lemma find_miss v id k : (forall i, ~ names v id k i) -> find_field v id k = None.
Proof.
  intros H. unfold find_field. fold (fields_of v id).
  destruct (mget (tags_of (fields_of v id)) k) as [j|] eqn:M.
  - apply tags_mget in M. exfalso. apply (H j). now left.
  - destruct (mget (tags_of (fields_of v id)) (title v k)) as [j|] eqn:M2; [|reflexivity].
    apply tags_mget in M2. exfalso. apply (H j). right. split; [|exact M2].
    intros j' S'. apply tags_mget in S'. congruence.
Qed.

Lemma sfield_app v id i fs1 fs2 : ~ In i (map fst fs1) -> sfield v id i (fs1 ++ fs2) = sfield v id i fs2.
Proof.
  unfold sfield. intros H. replace (find (fun e => fst e =? i) (fs1 ++ fs2)) with (find (fun e => fst e =? i) fs2); [reflexivity|].
  induction fs1 as [|[j x] fs1 IH]; cbn; [reflexivity|].
  cbn in H. destruct (Nat.eqb_spec j i); [subst; exfalso; auto|]. apply IH. auto.
Qed.

Lemma fresh_bind' A cl (rec : loc -> M nat) (k : nat -> loc -> M A) s i s' :
  runs (let! l := alloc cl in rec l) s i s' ->
  (let! l := alloc cl in let! i := rec l in k i l) s = k i (length (d_heap s)) s'.
Proof.
  unfold runs, mbind, alloc.
  destruct (rec _ _) as [[a|e|e| |] s2]; intros H; try discriminate.
  now injection H as -> ->.
Qed.

Lemma body_other c v by_ ibuf ishift rec urec ty cur md idx : ty <> TyIface ->
  tdecode_body c v by_ ibuf ishift rec urec ty cur md idx =
  if Nat.leb (length by_) idx then fail ETruncated else
  match skip_pads (skipn idx by_) idx with
  | None => fail ETruncated
  | Some (tagb, idx) =>
      (if tracked_bit tagb then poison idx else ret tt) ;;
      tdecode_tag c v by_ ibuf ishift rec urec (tag_kind (untrack tagb)) ty cur md (S idx)
  end.
Proof. intros N. unfold tdecode_body. destruct ty; try contradiction; reflexivity. Qed.

Section TS.
Variable c : dconfig.
Variable v : goenv.
Variable by_ : bytes.
Variable ibuf : loc.
Variable ishift : nat.
Variable buf : bytes.
Variable start : nat.
Hypothesis Hlen : (Z.of_nat (length by_) < two63)%Z.
Hypothesis Hbuf : at_ buf ishift by_.
Hypothesis Hp : d_perl c = false.

Notation len := (length by_).
Notation g := (go_dialect c start).
Notation frs := (fresh ibuf).
Notation inv_ := (inv ibuf buf).
Notation rp := (repr false (reg_of c)).
Notation dec := (decode c by_ ibuf ishift).
Notation tdec := (tdecode c v by_ ibuf ishift).
Notation any := (fun (_ : gval) (_ : data) => True).
Notation Pit := (Pitem c by_ ibuf ishift buf).

(** the interface{} parts decoded between s and s' *)
Definition RR (s s' : dstate) : gval -> data -> Prop := rp (frs s s') (d_heap s').

Definition tdone (mm : M (tval * nat)) (s : dstate) ty cur d p' : Prop :=
  exists s' x, runs mm s (x, p') s' /\ (forall W, frm W s s') /\ into v (RR s s') ty cur d x.

Definition Titem (m : cmode) (p : nat) (d : data) (p' : nat) : Prop :=
  p < p' /\ p' <= len /\
  forall fuel ty cur s x0, mode_ok m s -> S (need by_ p (d_copy s)) <= fuel -> inv_ s ->
    into v any ty cur d x0 -> tdone (tdec fuel ty cur Settable p) s ty cur d p'.

Definition Titems (m : cmode) (p : nat) (ds : list data) (p' : nat) : Prop :=
  p + length ds <= p' /\ (p <= len -> p' <= len) /\
  forall fuel t curs s xs0, mode_ok m s -> S (need by_ p (d_copy s)) <= fuel -> inv_ s ->
    into_each v any t curs ds xs0 ->
    exists s' xs, runs (tarray_loop (tdec fuel) (dec fuel) (length ds) t Settable curs p) s (xs, p') s' /\
      (forall W, frm W s s') /\ into_each v (RR s s') t curs ds xs.

Definition Tpairs (m : cmode) (p : nat) (kvs : list (bytes * data)) (p' : nat) : Prop :=
  p + 2 * length kvs <= p' /\ (p <= len -> p' <= len) /\
  (forall fuel t m0 m0' s m1, mode_ok m s -> S (need by_ p (d_copy s)) <= fuel -> inv_ s ->
    map fst m0 = map fst m0' -> into_map v any t m0 kvs m1 ->
    exists s' m', runs (tmap_loop by_ (tdec fuel) (length kvs) t Settable m0' p) s (m', p') s' /\
      (forall W, frm W s s') /\ into_map v (RR s s') t m0' kvs m') /\
  (forall fuel id fs done s us0, mode_ok m s -> S (need by_ p (d_copy s)) <= fuel -> inv_ s ->
    into_fields v any id fs kvs us0 -> (forall i, In i (map fst us0) -> ~ In i (map fst done)) ->
    exists s' us, runs (tstruct_loop v by_ (tdec fuel) (dec fuel) (length kvs) id Settable (done ++ fs) p) s
                       (rev us ++ done ++ fs, p') s' /\
      (forall W, frm W s s') /\ into_fields v (RR s s') id fs kvs us /\ map fst us = map fst us0).

(** states on the way *)
Lemma go_inv s s' : (forall W, frm W s s') -> inv_ s -> inv_ s'.
Proof. intros F I. eapply inv_frm; [exact I|apply (F (fun _ => False))|auto]. Qed.
Lemma go_mode m s s' : (forall W, frm W s s') -> mode_ok m s -> mode_ok m s'.
Proof. intros F I. eapply mode_frm; [exact I|apply (F (fun _ => False))]. Qed.
Lemma go_trans a b d : (forall W, frm W a b) -> (forall W, frm W b d) -> forall W, frm W a d.
Proof. intros F1 F2 W. apply (frm_comp [] 0 W W a b d); auto. Qed.
Lemma go_need a b p p' f : (forall W, frm W a b) -> S (need by_ p (d_copy a)) <= f -> p <= p' ->
  S (need by_ p' (d_copy b)) <= f.
Proof.
  intros F H L. rewrite (frm_copy _ _ _ (F (fun _ => False))).
  pose proof (need_mono by_ p p' (d_copy a) (need by_ p (d_copy a)) (le_n _) L). lia.
Qed.

Lemma RR_grow s0 s1 s2 s3 : inv_ s2 -> (forall W, frm W s2 s3) ->
  length (d_heap s0) <= length (d_heap s1) ->
  forall x d, RR s1 s2 x d -> RR s0 s3 x d.
Proof.
  intros I F L x d. unfold RR.
  eapply repr_stable. intros l Hl. apply (rp_move [] ibuf buf s0 s1 s2 s3 (fun _ => False)); auto.
Qed.

Lemma go_same a b : d_heap b = d_heap a -> d_copy b = d_copy a -> forall W, frm W a b.
Proof. intros E1 E2 W. unfold frm. rewrite E1, E2. repeat split; auto. Qed.

(** an outcome that needs no new memory *)
Lemma tleaf (mm : M (tval * nat)) s s' ty cur d p' x : mm s = (Ok (x, p'), s') ->
  d_heap s' = d_heap s -> d_copy s' = d_copy s -> (forall R, into v R ty cur d x) ->
  tdone mm s ty cur d p'.
Proof.
  intros E H1 H2 I. exists s', x. split; [exact E|]. split; [now apply go_same|apply I].
Qed.

Lemma tdone_bind A (m : M A) (k : A -> M (tval * nat)) s a ty cur d p' :
  runs m s a s -> tdone (k a) s ty cur d p' -> tdone (mbind m k) s ty cur d p'.
Proof. intros R (s' & x & R' & X). exists s', x. split; [|exact X]. eapply runs_bind; eauto. Qed.

Lemma tdone_from s s1 (mm mm' : M (tval * nat)) ty cur d p' : mm s = mm' s1 ->
  inv_ s1 -> (forall W, frm W s s1) -> tdone mm' s1 ty cur d p' -> tdone mm s ty cur d p'.
Proof.
  intros E I F (s' & x & R & F' & X). exists s', x.
  split; [unfold runs in *; congruence|]. split; [now apply (go_trans s s1 s')|].
  eapply into_mono; [|exact X]. intros y e. unfold RR. eapply repr_stable.
  intros l Hl. split; [|reflexivity]. destruct Hl as [->|Hl]; [now left|right].
  pose proof (frm_len _ _ _ (F (fun _ => False))). lia.
Qed.

Lemma tag_t m p q t d p' : Pit m p d p' -> tag_at by_ p q t -> S q <= p' ->
  (forall f ty cur s x0, ty <> TyIface -> mode_ok m s -> S (need by_ (S q) (d_copy s)) <= f ->
     (d_copy s = 0 -> len + 2 <= f) -> inv_ s -> into v any ty cur d x0 ->
     tdone (tdecode_tag c v by_ ibuf ishift (tdec f) (dec f) (tag_kind t) ty cur Settable (S q)) s ty cur d p') ->
  Titem m p d p'.
Proof.
  intros PI Ht L1 H. pose proof PI as (P1 & P2 & _).
  destruct (tag_skip by_ p q t Ht) as (b & E1 & E2 & L3 & L4 & _).
  split; [exact P1|split; [exact P2|]].
  intros fuel ty cur s x0 Hm Hf Hi HI.
  destruct fuel as [|f]; [lia|].
  assert (D : {ty = TyIface} + {ty <> TyIface}) by (destruct ty; (left; reflexivity) || (right; discriminate)).
  destruct D as [->|Nt].
  - (* interface{} *)
    pose proof (into_iface _ _ _ _ _ HI) as ->.
    destruct (rec_fresh c by_ ibuf ishift buf start m p d p' f s PI Hm ltac:(lia) Hi)
      as (s1 & x & R1 & F1 & C1 & V1 & L5).
    rewrite Hp in V1.
    exists s1, (VIface x). split; [|split; [exact F1|]].
    + unfold runs. cbn [tdecode]. unfold tdecode_body. destruct (Nat.leb_spec len p); [lia|].
      erewrite (fresh_bind' _ (CV GNil) (fun l => dec f p l)); [|exact R1].
      unfold mbind at 1. cbn [get_var]. rewrite (hget_cell _ _ _ C1).
      destruct x; reflexivity.
    + now apply in_iface.
  - set (s1 := if tracked_bit b then
        mkDState (d_heap s ++ [CV GOpaque]) ((q, length (d_heap s)) :: d_tracked s) (d_copy s) (d_made s) else s).
    assert (F1 : forall W, frm W s s1).
    { unfold s1. destruct (tracked_bit b); [|intros; apply frm_refl].
      intros W. repeat split; cbn; [rewrite app_length; lia|]. intros l Hl _. now apply nth_error_app1. }
    pose proof (frm_copy _ _ _ (F1 (fun _ => False))) as Ec.
    pose proof (go_inv _ _ F1 Hi) as I1.
    apply (tdone_from s s1 _ (tdecode_tag c v by_ ibuf ishift (tdec f) (dec f) (tag_kind t) ty cur Settable (S q))); auto.
    + cbn [tdecode]. rewrite body_other by assumption.
      destruct (Nat.leb_spec len p); [lia|]. rewrite E1, E2. unfold mbind at 1, s1.
      destruct (tracked_bit b); reflexivity.
    + eapply H; eauto.
      * now apply (go_mode m s s1).
      * rewrite Ec. unfold need in *. destruct (d_copy s); lia.
      * rewrite Ec. intros C0. unfold need in Hf. rewrite C0 in Hf. lia.
Qed.

(** ** Leaves *)

Lemma Titem_ref m p q d p' (t : N) (wr : data -> data) : Pit m p (wr d) p' -> tag_at by_ p q t -> Titem m (S q) d p' ->
  (forall f ty cur idx, tdecode_tag c v by_ ibuf ishift (tdec f) (dec f) (tag_kind t) ty cur Settable idx
     = tdec f ty cur Settable idx) ->
  (forall R ty cur x, ty <> TyIface -> into v R ty cur (wr d) x <-> into v R ty cur d x) ->
  Titem m p (wr d) p'.
Proof.
  intros P Ht (L1 & L2 & TI) E W. apply (tag_t m p q t); auto; [lia|].
  intros f ty cur s x0 Nt Hm Hf Hf0 Hi HI. rewrite E.
  apply W in HI; [|exact Nt].
  destruct (TI f ty cur s x0 Hm Hf Hi HI) as (s' & x & R & F & X).
  exists s', x. split; [exact R|split; [exact F|]]. now apply W.
Qed.

Lemma Titem_refn m p q d p' : Pit m p (DRef d) p' -> tag_at by_ p q 40 -> Titem m (S q) d p' -> Titem m p (DRef d) p'.
Proof.
  intros P Ht T. apply (Titem_ref m p q d p' 40 DRef); auto.
  intros R ty cur x Nt. split; [|apply in_ref]. intros H. inversion H; subst; auto; try contradiction.
  now destruct H0.
Qed.

Lemma Titem_weaken m p q d p' : Pit m p (DWeak d) p' -> tag_at by_ p q 48 -> Titem m (S q) d p' -> Titem m p (DWeak d) p'.
Proof.
  intros P Ht T. apply (Titem_ref m p q d p' 48 DWeak); auto.
  - intros. change (tag_kind 48) with TWeaken. cbn [tdecode_tag]. now rewrite Hp.
  - intros R ty cur x Nt. split; [|apply in_weak]. intros H. inversion H; subst; auto; try contradiction.
    now destruct H0.
Qed.

Lemma int_t k s ty cur z i j p' x0 : ty <> TyIface -> into v any ty cur (DInt z) x0 ->
  (forall kk, wrap_kind kk k = wrap_kind kk z) -> i = p' -> j = s ->
  tdone (let! x := setInt ty Settable k in ret (x, i)) s ty cur (DInt z) p'.
Proof.
  intros Nt HI E -> _. inversion HI; subst; try contradiction.
  - apply (tleaf _ s s _ _ _ _ (VInt n)); auto.
    + cbn. unfold mbind, ret. rewrite E. now rewrite (wrap_kind_low _ z n).
    + intros R. now apply in_int.
  - destruct H as [H|H]; discriminate H.
Qed.

Lemma bin_t s ty cur str p' i x0 : ty <> TyIface -> into v any ty cur (DBin str) x0 -> i = p' ->
  tdone (let! x := setBinary ty Settable cur str in ret (x, i)) s ty cur (DBin str) p'.
Proof.
  intros Nt HI ->. inversion HI; subst; try contradiction.
  - eapply (tleaf _ s s); [reflexivity|reflexivity|reflexivity|]. intros. apply in_str_bin.
  - eapply (tleaf _ s); [reflexivity|reflexivity|reflexivity|]. intros. apply in_bytes.
  - apply (tleaf _ s s _ _ _ _ (VArr (map byte_val str))); auto; [|intros; now apply in_bytes_array].
    cbn. unfold mbind, ret, copy_over. rewrite skipn_all2 by lia.
    rewrite firstn_all2 by (rewrite map_length; lia). now rewrite app_nil_r.
  - destruct H as [H|H]; discriminate H.
Qed.

Lemma str_t s ty cur str p' i x0 : ty <> TyIface -> into v any ty cur (DStr str) x0 -> i = p' ->
  tdone (let! x := setString ty Settable str in ret (x, i)) s ty cur (DStr str) p'.
Proof.
  intros Nt HI ->. inversion HI; subst; try contradiction.
  - eapply (tleaf _ s s); [reflexivity|reflexivity|reflexivity|]. intros. apply in_str.
  - destruct H as [H|H]; discriminate H.
Qed.

Lemma undef_t s ty cur d p' i x0 : (d = DUndef \/ d = DCanon) -> ty <> TyIface -> into v any ty cur d x0 -> i = p' ->
  tdone (match ty with
        | TyPtr _ | TyMap _ | TySlice _ => let! x := set Settable (zero ty) in ret (x, i)
        | _ => ret (cur, i)
        end) s ty cur d p'.
Proof.
  intros Hd Nt HI ->. apply (tleaf _ s s _ _ _ _ (if nillable ty then zero ty else cur)); auto.
  - destruct ty; reflexivity.
  - intros R. now apply in_undef.
Qed.

(** ** Lists *)

Lemma Titems_nil m p : Titems m p [] p.
Proof.
  split; [cbn; lia|split; [auto|]]. intros f t curs s xs0 Hm Hf Hi HI.
  exists s, curs. split; [reflexivity|split; [intros; apply frm_refl|apply ie_end]].
Qed.

Lemma Titems_cons m p d r ds p' : Pit m p d r -> Titem m p d r -> Titems m r ds p' -> Titems m p (d :: ds) p'.
Proof.
  intros PI (P1 & P2 & TI) (Q1 & Q2 & QI). specialize (Q2 P2).
  split; [cbn; lia|split; [auto|]]. intros f t curs s xs0 Hm Hf Hi HI.
  inversion HI as [|? ?|? cur curs' ? ? x xs Hx Hxs]; subst.
  - (* surplus *)
    destruct (rec_fresh c by_ ibuf ishift buf start m p d r f s PI Hm ltac:(lia) Hi)
      as (s1 & x & R1 & F1 & _).
    destruct (QI f t [] s1 []) as (s2 & xs & R2 & F2 & X2).
    + now apply (go_mode m s s1).
    + apply (go_need s s1 p r); auto. lia.
    + now apply (go_inv s s1).
    + apply ie_surplus.
    + exists s2, xs. split; [|split].
      * cbn [length tarray_loop]. unfold discard.
        eapply runs_bind; [exact R1|exact R2].
      * now apply (go_trans s s1 s2).
      * assert (xs = []) as -> by (inversion X2; reflexivity). apply ie_surplus.
  - destruct (TI f t cur s x Hm Hf Hi Hx) as (s1 & y & R1 & F1 & X1).
    destruct (QI f t curs' s1 xs) as (s2 & ys & R2 & F2 & X2).
    + now apply (go_mode m s s1).
    + apply (go_need s s1 p r); auto. lia.
    + now apply (go_inv s s1).
    + exact Hxs.
    + pose proof (go_inv s s1 F1 Hi) as I1. pose proof (go_inv s1 s2 F2 I1) as I2.
      exists s2, (y :: ys). split; [|split].
      * cbn [length tarray_loop]. eapply runs_bind; [exact R1|]. cbn [fst snd].
        eapply runs_bind; [exact R2|reflexivity].
      * now apply (go_trans s s1 s2).
      * apply ie_cons.
        -- eapply into_mono; [|exact X1]. apply (RR_grow s s s1 s2); auto.
        -- eapply into_mono; [|exact X2]. apply (RR_grow s s1 s2 s2); auto.
           ++ intros; apply frm_refl.
           ++ apply (frm_len _ _ _ (F1 (fun _ => False))).
Qed.

Lemma Tpairs_nil m p : Tpairs m p [] p.
Proof.
  split; [cbn; lia|split; [auto|split]].
  - intros f t m0 m0' s m1 Hm Hf Hi E HI. exists s, m0'.
    split; [reflexivity|split; [intros; apply frm_refl|apply im_end]].
  - intros f id fs done s us0 Hm Hf Hi HI Hd. exists s, [].
    split; [reflexivity|split; [intros; apply frm_refl|split; [apply if_end|]]]. now inversion HI.
Qed.

Lemma Tpairs_cons m p k r d r' kvs p' : stringish g by_ (copy_ok m) p k r -> Pit m r d r' ->
  Titem m r d r' -> Tpairs m r' kvs p' -> Tpairs m p ((k, d) :: kvs) p'.
Proof.
  intros Hk PI (P1 & P2 & TI) (Q1 & Q2 & QM & QS). specialize (Q2 P2).
  destruct (stringish_runs c by_ start Hlen _ _ _ _ (mkDState [] [] 0 []) Hk) as (_ & _ & _ & _ & _ & L1 & L2); [reflexivity|].
  split; [cbn; lia|split; [auto|split]].
  - intros f t m0 m0' s m1 Hm Hf Hi E HI.
    destruct (stringish_runs c by_ start Hlen _ _ _ _ s Hk (mode_copy _ _ Hm)) as (w & Rk & Ew & _).
    inversion HI as [|? ? ? ? ? x ? N0 Hx Hr]; subst.
    assert (Hf1 : S (need by_ r (d_copy s)) <= f) by (apply (go_need s s p r); auto; [intros; apply frm_refl|lia]).
    destruct (TI f t (zero t) s x Hm Hf1 Hi Hx) as (s1 & y & R1 & F1 & X1).
    pose proof (mget_keys _ m0 m0' _ E N0) as N1.
    destruct (QM f t (m0 ++ [(win_bytes by_ w, x)]) (m0' ++ [(win_bytes by_ w, y)]) s1 m1) as (s2 & m2 & R2 & F2 & X2); auto.
    + now apply (go_mode m s s1).
    + apply (go_need s s1 r r'); auto. lia.
    + now apply (go_inv s s1).
    + rewrite !map_app. now rewrite E.
    + pose proof (go_inv s s1 F1 Hi) as I1. pose proof (go_inv s1 s2 F2 I1) as I2.
      exists s2, m2. split; [|split].
      * cbn [length tmap_loop]. eapply runs_bind; [exact Rk|]. cbn [fst snd].
        rewrite N1. eapply runs_bind; [exact R1|]. cbn [fst snd].
        rewrite mput_new by assumption. exact R2.
      * now apply (go_trans s s1 s2).
      * apply im_cons with (x := y); auto.
        -- eapply into_mono; [|exact X1]. apply (RR_grow s s s1 s2); auto.
        -- eapply into_mono; [|exact X2]. apply (RR_grow s s1 s2 s2); auto.
           ++ intros; apply frm_refl.
           ++ apply (frm_len _ _ _ (F1 (fun _ => False))).
  - intros f id fs done s us0 Hm Hf Hi HI Hd.
    destruct (stringish_runs c by_ start Hlen _ _ _ _ s Hk (mode_copy _ _ Hm)) as (w & Rk & Ew & _).
    assert (Hf1 : S (need by_ r (d_copy s)) <= f) by (apply (go_need s s p r); auto; [intros; apply frm_refl|lia]).
    inversion HI as [|? ? ? ? ? i fd t x us Hn Ei Ex Hx Hr Nu|? ? ? ? ? us Hn Hr]; subst.
    + destruct (TI f t (sfield v id i fs) s x Hm Hf1 Hi Hx) as (s1 & y & R1 & F1 & X1).
      destruct (QS f id fs ((i, y) :: done) s1 us) as (s2 & us2 & R2 & F2 & X2 & E2); auto.
      * now apply (go_mode m s s1).
      * apply (go_need s s1 r r'); auto. lia.
      * now apply (go_inv s s1).
      * cbn [map fst]. intros j Hj [<-|H]; [contradiction|]. apply (Hd j); [now right|exact H].
      * pose proof (go_inv s s1 F1 Hi) as I1. pose proof (go_inv s1 s2 F2 I1) as I2.
        exists s2, ((i, y) :: us2). split; [|split; [|split]].
        -- cbn [length tstruct_loop]. eapply runs_bind; [exact Rk|]. cbn [fst snd].
           rewrite (find_hit v id _ i fd t Hn Ei). cbn [fst snd].
           rewrite sfield_app by (apply Hd; now left). unfold md_field. rewrite Ex.
           eapply runs_bind; [exact R1|]. cbn [fst snd].
           cbn [rev]. rewrite <- app_assoc. exact R2.
        -- now apply (go_trans s s1 s2).
        -- apply if_hit with (f := fd) (t := t); auto.
           ++ eapply into_mono; [|exact X1]. apply (RR_grow s s s1 s2); auto.
           ++ eapply into_mono; [|exact X2]. apply (RR_grow s s1 s2 s2); auto.
              ** intros; apply frm_refl.
              ** apply (frm_len _ _ _ (F1 (fun _ => False))).
           ++ now rewrite E2.
        -- cbn. now rewrite E2.
    + destruct (rec_fresh c by_ ibuf ishift buf start m r d r' f s PI Hm ltac:(lia) Hi)
        as (s1 & x & R1 & F1 & _).
      destruct (QS f id fs done s1 us0) as (s2 & us2 & R2 & F2 & X2 & E2); auto.
      * now apply (go_mode m s s1).
      * apply (go_need s s1 r r'); auto. lia.
      * now apply (go_inv s s1).
      * pose proof (go_inv s s1 F1 Hi) as I1. pose proof (go_inv s1 s2 F2 I1) as I2.
        exists s2, us2. split; [|split; [|split; [|exact E2]]].
        -- cbn [length tstruct_loop]. eapply runs_bind; [exact Rk|]. cbn [fst snd].
           rewrite (find_miss v id _ Hn). unfold discard.
           eapply runs_bind; [exact R1|exact R2].
        -- now apply (go_trans s s1 s2).
        -- apply if_miss; auto. eapply into_mono; [|exact X2]. apply (RR_grow s s1 s2 s2); auto.
           ++ intros; apply frm_refl.
           ++ apply (frm_len _ _ _ (F1 (fun _ => False))).
Qed.

(** ** Arrays and hashes *)

Lemma array_t m r ds p' f s ty cur x0 : Titems m r ds p' -> r <= len ->
  (Z.of_nat (length ds) <= 2147483647)%Z -> ty <> TyIface -> mode_ok m s ->
  S (need by_ r (d_copy s)) <= f -> inv_ s -> into v any ty cur (DArr ds) x0 ->
  tdone (tdecodeArray by_ (tdec f) (dec f) r (Z.of_nat (length ds)) ty cur Settable) s ty cur (DArr ds) p'.
Proof.
  intros (Q1 & Q2 & QI) Hr Hl Nt Hm Hf Hi HI. specialize (Q2 Hr).
  unfold tdecodeArray, blen, maxInt32.
  destruct ((Z.of_nat (length ds) <? 0) || (2147483647 <? Z.of_nat (length ds)))%Z eqn:B; [lia|].
  destruct (Z.of_nat len <? Z.of_nat r + Z.of_nat (length ds))%Z eqn:B2; [lia|].
  rewrite Nat2Z.id.
  inversion HI; subst; try contradiction.
  - match goal with H : _ = DUndef \/ _ |- _ => destruct H as [H|H]; discriminate H end.
  - (* a new slice *)
    set (s1 := mkDState (d_heap s) (d_tracked s) (d_copy s) ((length ds, len - r) :: d_made s)).
    match goal with H : into_each _ _ _ _ _ _ |- _ => rename H into HE end.
    destruct (QI f t _ s1 _ Hm Hf Hi HE) as (s2 & ys & R & F & X).
    exists s2, (VSlice (Some ys)). split; [|split; [exact F|]].
    + assert (G : runs (set Settable (VSlice cur0) ;; log_make (length ds) (len - r) ;;
         (let! (xs, idx) := tarray_loop (tdec f) (dec f) (length ds) t Settable (repeat (zero t) (length ds)) r in
          ret (VSlice (Some xs), idx))) s (VSlice (Some ys), p') s2).
      { eapply runs_bind; [reflexivity|]. eapply runs_bind; [reflexivity|]. fold s1.
        eapply runs_bind; [exact R|reflexivity]. }
      match goal with H : cur0 = None \/ _ |- _ => destruct H as [->| ->]; exact G end.
    + apply in_slice; auto.
  - match goal with H : into_each _ _ _ _ _ _ |- _ => rename H into HE end.
    destruct (QI f t _ s _ Hm Hf Hi HE) as (s2 & ys & R & F & X).
    exists s2, (VSlice (Some ys)). split; [|split; [exact F|]].
    + destruct l as [|y l]; [contradiction|]. cbn [md_elem].
      eapply runs_bind; [exact R|reflexivity].
    + apply in_slice_over; auto.
  - match goal with H : into_each _ _ _ _ _ _ |- _ => rename H into HE end.
    destruct (QI f t _ s _ Hm Hf Hi HE) as (s2 & ys & R & F & X).
    exists s2, (VArr ys). split; [|split; [exact F|]].
    + eapply runs_bind; [exact R|reflexivity].
    + now apply in_array.
Qed.

Lemma hash_t m r kvs p' f s : Tpairs m r kvs p' -> r <= len ->
  (Z.of_nat (length kvs) <= 2147483647)%Z -> mode_ok m s ->
  S (need by_ r (d_copy s)) <= f -> inv_ s ->
  forall ty cur x0, ty <> TyIface -> into v any ty cur (DHash kvs) x0 ->
  tdone (tdecodeHash v by_ (tdec f) (dec f) ty r (Z.of_nat (length kvs)) cur Settable) s ty cur (DHash kvs) p'.
Proof.
  intros (Q1 & Q2 & QM & QS) Hr Hl Hm Hf Hi. specialize (Q2 Hr).
  assert (B : ((Z.of_nat (length kvs) <? 0) || (2147483647 <? Z.of_nat (length kvs)))%Z = false) by lia.
  assert (B2 : (Z.of_nat len <? Z.of_nat r + 2 * Z.of_nat (length kvs))%Z = false) by lia.
  induction ty as [| | | | | |t IH|n t IH|t IH|t IH|id]; intros cur x0 Nt HI;
    inversion HI; subst; try contradiction;
    try match goal with H : _ = DUndef \/ _ |- _ => destruct H as [H|H]; discriminate H end.
  - (* map *)
    match goal with H : into_map _ _ _ _ _ _ |- _ => rename H into HE end.
    destruct (QM f t _ _ s _ Hm Hf Hi eq_refl HE) as (s2 & m2 & R & F & X).
    exists s2, (VMap (Some m2)). split; [|split; [exact F|now apply SpecTyped.in_map]].
    cbn [tdecodeHash]. unfold blen, maxInt32. rewrite B, B2, Nat2Z.id.
    assert (G : runs (let! (m0, idx) := tmap_loop by_ (tdec f) (length kvs) t Settable
        match o with Some m1 => m1 | None => [] end r in ret (VMap (Some m0), idx)) s (VMap (Some m2), p') s2).
    { eapply runs_bind; [exact R|reflexivity]. }
    destruct o; (eapply runs_bind; [reflexivity|exact G]).
  - (* pointer *)
    match goal with H : hashlike t = true |- _ => rename H into Hh end.
    assert (Nt' : t <> TyIface) by (intros ->; discriminate).
    match goal with H : into _ _ t _ _ _ |- _ => rename H into HE end.
    destruct (IH _ _ Nt' HE) as (s2 & y & R & F & X).
    exists s2, (VPtr (Some y)). split; [|split; [exact F|now apply in_ptr]].
    cbn [tdecodeHash]. unfold blen, maxInt32. rewrite B, B2.
    assert (G : runs (let! (x, idx) := tdecodeHash v by_ (tdec f) (dec f) t r (Z.of_nat (length kvs))
        match o with Some x1 => x1 | None => zero t end (md_elem Settable) in
        ret (VPtr (Some x), idx)) s (VPtr (Some y), p') s2).
    { eapply runs_bind; [exact R|reflexivity]. }
    destruct o; (eapply runs_bind; [reflexivity|exact G]).
  - (* struct *)
    match goal with H : into_fields _ _ _ _ _ _ |- _ => rename H into HE end.
    destruct (QS f id fs [] s _ Hm Hf Hi HE) as (s2 & us2 & R & F & X & _); [auto|].
    exists s2, (VStruct (rev us2 ++ fs)). split; [|split; [exact F|now apply in_struct]].
    cbn [tdecodeHash]. unfold blen, maxInt32. rewrite B, B2, Nat2Z.id.
    eapply runs_bind; [exact R|reflexivity].
Qed.

Lemma into_ref_iff R ty cur d x : ty <> TyIface -> into v R ty cur (DRef d) x <-> into v R ty cur d x.
Proof.
  intros Nt. split; [|apply in_ref]. intros H. inversion H; subst; auto; try contradiction.
  match goal with H : _ = DUndef \/ _ |- _ => destruct H as [H|H]; discriminate H end.
Qed.

Lemma into_obj_iff R ty cur cls d x : ty <> TyIface -> into v R ty cur (DObj cls d) x <-> into v R ty cur d x.
Proof.
  intros Nt. split; [|apply in_obj]. intros H. inversion H; subst; auto; try contradiction.
  match goal with H : _ = DUndef \/ _ |- _ => destruct H as [H|H]; discriminate H end.
Qed.

Lemma tdone_iff mm s ty cur d d' p' : (forall R x, into v R ty cur d x <-> into v R ty cur d' x) ->
  tdone mm s ty cur d' p' -> tdone mm s ty cur d p'.
Proof. intros E (s' & x & R & F & X). exists s', x. split; [exact R|split; [exact F|now apply E]]. Qed.

Lemma object_t m r d p' f s ty cur x0 isV q cls : Titem m r d p' -> ty <> TyIface ->
  runs (class_name by_ q isV) s (cls, r) s -> mode_ok m s -> S (need by_ r (d_copy s)) <= f -> inv_ s ->
  into v any ty cur (DObj cls d) x0 ->
  tdone (let! (cls, idx) := class_name by_ q isV in
      if d_perl c then
        let! l := alloc (CV GNil) in
        let! x := set_iface ty Settable (GObjP cls l) in
        let! idx := dec f idx l in ret (x, idx)
      else tdec f ty cur Settable idx) s ty cur (DObj cls d) p'.
Proof.
  intros (P1 & P2 & TI) Nt R Hm Hf Hi HI. eapply tdone_bind; [exact R|]. cbn [fst snd]. rewrite Hp.
  apply (tdone_iff _ _ _ _ _ d); [intros; now apply into_obj_iff|].
  apply (TI f ty cur s x0); auto. now apply (proj1 (into_obj_iff _ _ _ cls d x0 Nt)).
Qed.

Lemma freeze_t m r n r' str p' f s ty cur x0 isV q cls :
  at_ by_ r [x28; x2b] -> vint by_ (r + 2) n r' -> n = 1%N -> Pit m r' (DBin str) p' -> ty <> TyIface ->
  runs (class_name by_ q isV) s (cls, r) s -> mode_ok m s -> S (need by_ r (d_copy s)) <= f -> inv_ s ->
  into v any ty cur (DFreeze cls str) x0 ->
  tdone (tdecodeFreeze c by_ (dec f) ty cur Settable q isV) s ty cur (DFreeze cls str) p'.
Proof.
  intros Ha Hv En PP Nt R Hm Hf Hi HI.
  assert (B0 : nth_error by_ r = Some x28)
    by (rewrite <- (Nat.add_0_r r); eapply at_nth; [exact Hlen|exact Ha|reflexivity]).
  assert (B1 : nth_error by_ (r + 1) = Some x2b)
    by (eapply at_nth; [exact Hlen|exact Ha|reflexivity]).
  assert (PI : Pit m r (DRef (DArr [DBin str])) p').
  { apply Pitem_refn with (q := r); [exact start| |].
    - split; [lia|split; [intros; lia|]]. exists x28. repeat split; auto. discriminate.
    - apply Pitem_array with (q := S r) (n := n) (r := r'); auto.
      + split; [lia|split; [intros; lia|]]. exists x2b. rewrite <- Nat.add_1_r.
        repeat split; auto. discriminate.
      + replace (S (S r)) with (r + 2) by lia. exact Hv.
      + lia.
      + eapply Pitems_cons; [exact start|exact PP|apply Pitems_nil]. }
  pose proof (proj1 (at_range [] _ _ _ Ha)) as La. cbn in La.
  destruct (rec_fresh c by_ ibuf ishift buf start m r _ p' f s PI Hm ltac:(lia) Hi) as (s1 & y & R1 & F1 & C1 & V1 & L3).
  destruct (repr_single_bin _ _ _ _ _ Hp V1) as (base & w & -> & Hb & Pw & Ew).
  unfold tdecodeFreeze. eapply tdone_bind; [exact R|]. cbn [fst snd].
  destruct (Nat.leb_spec len (r + 1)); [lia|]. rewrite B0, B1.
  change (negb ((b2n x28 =? typeREFN) && (b2n x2b =? typeARRAY))%N) with false. cbv iota.
  inversion HI; subst; try contradiction;
    [|match goal with H : _ = DUndef \/ _ |- _ => destruct H as [H|H]; discriminate H end].
  exists s1, (VSlice (Some (map byte_val (hview (d_heap s1) w)))). split; [|split; [exact F1|apply in_bytes_frozen]].
  unfold runs. erewrite (fresh_bind' _ (CV GNil) (fun l => dec f r l)); [|exact R1].
  unfold mbind at 1. cbn [get_var]. rewrite (hget_cell _ _ _ C1).
  cbn [Nat.eqb negb]. unfold mbind at 1. cbn [get_var]. rewrite Hb, Hp. reflexivity.
Qed.

(** ** The theorem *)
Notation Pits := (Pitems c by_ ibuf ishift buf).

Theorem tdecode_implements_into :
  (forall m p d p', item g by_ m p d p' -> Titem m p d p') /\
  (forall m p ds p', items g by_ m p ds p' -> Titems m p ds p') /\
  (forall m p kvs p', pairs g by_ m p kvs p' -> Tpairs m p kvs p').
Proof.
  destruct (decode_implements_grammar c by_ ibuf ishift buf start Hlen Hbuf) as (PI & _ & _).
  assert (VA : forall p n p', vint by_ p n p' -> p < p' /\ p' <= len /\
             forall s, runs (varint_at by_ p) s (to_int n, p' - p) s).
  { intros p n p' H. destruct (vint_at by_ Hlen p n p' (mkDState [] [] 0 []) H) as (_ & A & B & _).
    split; [exact A|split; [exact B|]]. intros s. now destruct (vint_at by_ Hlen p n p' s H). }
  apply (grammar_ind g by_ (fun m p d p' _ => Titem m p d p')
           (fun m p ds p' _ => Titems m p ds p') (fun m p kvs p' _ => Tpairs m p kvs p')).
  - (* pos *)
    intros m p q t Ht Hr. apply (tag_t m p q t); auto; [apply PI; now apply i_pos|].
    intros f ty cur s x0 Nt Hm Hf Hf0 Hi HI. rewrite (tk_small by_) by lia. cbn [tdecode_tag].
    eapply (int_t (decodeInt t) s); eauto.
    intros kk. rewrite (small_int by_) by lia. destruct (N.ltb_spec t 16); [reflexivity|lia].
  - (* neg *)
    intros m p q t Ht Hr. apply (tag_t m p q t); auto; [apply PI; now apply i_neg|].
    intros f ty cur s x0 Nt Hm Hf Hf0 Hi HI. rewrite (tk_small by_) by lia. cbn [tdecode_tag].
    eapply (int_t (decodeInt t) s); eauto.
    intros kk. rewrite (small_int by_) by lia. destruct (N.ltb_spec t 16); [lia|reflexivity].
  - (* varint *)
    intros m p q n r Ht Hv. destruct (VA _ _ _ Hv) as (L1 & L2 & V).
    apply (tag_t m p q 32); [apply PI; eapply i_varint; eauto|exact Ht|lia|].
    intros f ty cur s x0 Nt Hm Hf Hf0 Hi HI. change (tag_kind 32) with TVarint. cbn [tdecode_tag].
    eapply tdone_bind; [apply V|]. cbn [fst snd].
    eapply (int_t (to_int n) s); eauto; [|lia].
    intros kk. apply wrap_kind_mod.
    apply to_int_mod64. now apply vint_bound in Hv.
  - (* zigzag *)
    intros m p q n r Ht Hv Hev. destruct (VA _ _ _ Hv) as (L1 & L2 & V).
    apply (tag_t m p q 33); [apply PI; eapply i_zigzag; eauto|exact Ht|lia|].
    intros f ty cur s x0 Nt Hm Hf Hf0 Hi HI. change (tag_kind 33) with TZigzag. cbn [tdecode_tag].
    eapply tdone_bind; [apply V|]. cbn [fst snd].
    destruct (zigzag_odd by_ n) as [E B]; [now apply vint_bound in Hv|destruct Hev; [discriminate|auto]|].
    rewrite E. eapply (int_t (zigzag_meaning n) s); eauto; lia.
  - (* float *)
    intros m p q l Ht Ha El. apply (tag_t m p q 34); [apply PI; now apply i_float|exact Ht|lia|].
    intros f ty cur s x0 Nt Hm Hf Hf0 Hi HI. change (tag_kind 34) with TFloat. cbn [tdecode_tag].
    eapply tdone_bind; [eapply fixed_runs; eauto; lia|].
    inversion HI; subst; try contradiction;
      [| |match goal with H : _ = DUndef \/ _ |- _ => destruct H as [H|H]; discriminate H end].
    + eapply (tleaf _ s s); [reflexivity|reflexivity|reflexivity|]. intros. apply in_f32.
    + eapply (tleaf _ s s); [reflexivity|reflexivity|reflexivity|]. intros. apply in_f64_32.
  - (* double *)
    intros m p q l Ht Ha El. apply (tag_t m p q 35); [apply PI; now apply i_double|exact Ht|lia|].
    intros f ty cur s x0 Nt Hm Hf Hf0 Hi HI. change (tag_kind 35) with TDouble. cbn [tdecode_tag].
    eapply tdone_bind; [eapply fixed_runs; eauto; lia|].
    inversion HI; subst; try contradiction;
      [| |match goal with H : _ = DUndef \/ _ |- _ => destruct H as [H|H]; discriminate H end].
    + eapply (tleaf _ s s); [reflexivity|reflexivity|reflexivity|]. intros. apply in_f32_64.
    + eapply (tleaf _ s s); [reflexivity|reflexivity|reflexivity|]. intros. apply in_f64.
  - (* undef *)
    intros m p q Ht. apply (tag_t m p q 37); auto; [apply PI; now apply i_undef|].
    intros f ty cur s x0 Nt Hm Hf Hf0 Hi HI. change (tag_kind 37) with TUndef. cbn [tdecode_tag].
    rewrite Hp. eapply undef_t; eauto.
  - (* canonical undef *)
    intros m p q Ht. apply (tag_t m p q 57); auto; [apply PI; now apply i_canon|].
    intros f ty cur s x0 Nt Hm Hf Hf0 Hi HI. change (tag_kind 57) with TCanonUndef. cbn [tdecode_tag].
    rewrite Hp. eapply undef_t; eauto.
  - (* false *)
    intros m p q Ht. apply (tag_t m p q 58); auto; [apply PI; now apply i_false|].
    intros f ty cur s x0 Nt Hm Hf Hf0 Hi HI. change (tag_kind 58) with TFalse. cbn [tdecode_tag].
    inversion HI; subst; try contradiction;
      [|match goal with H : _ = DUndef \/ _ |- _ => destruct H as [H|H]; discriminate H end].
    eapply (tleaf _ s s); [reflexivity|reflexivity|reflexivity|]. intros. apply in_bool.
  - (* true *)
    intros m p q Ht. apply (tag_t m p q 59); auto; [apply PI; now apply i_true|].
    intros f ty cur s x0 Nt Hm Hf Hf0 Hi HI. change (tag_kind 59) with TTrue. cbn [tdecode_tag].
    inversion HI; subst; try contradiction;
      [|match goal with H : _ = DUndef \/ _ |- _ => destruct H as [H|H]; discriminate H end].
    eapply (tleaf _ s s); [reflexivity|reflexivity|reflexivity|]. intros. apply in_bool.
  - (* strings *)
    intros m p u str p' Hs. pose proof (PI m p _ p' (i_str g by_ m p u str p' Hs)) as PP.
    destruct Hs as [p q t str Ht Hr Ha Hl | p q n r str Ht Hv Hm Ha Hl | p q n r str Ht Hv Hm Ha Hl].
    + apply (tag_t m p q t); auto; [lia|].
      intros f ty cur s x0 Nt Hm Hf Hf0 Hi HI. rewrite (tk_short by_) by assumption. cbn [tdecode_tag].
      rewrite <- Hl, Nat2N.id.
      eapply tdone_bind; [apply binary_runs; [exact Ha|lia]|]. cbn [fst snd]. eapply bin_t; eauto.
    + destruct (VA _ _ _ Hv) as (L1 & L2 & V). apply (tag_t m p q 38); auto; [lia|].
      intros f ty cur s x0 Nt Hm' Hf Hf0 Hi HI. change (tag_kind 38) with TBinary. cbn [tdecode_tag].
      cbn [g_max go_dialect] in Hm.
      eapply tdone_bind; [apply V|]. cbn [fst snd].
      rewrite to_int_small by (unfold two63; lia). replace (Z.of_N n) with (Z.of_nat (length str)) by lia.
      replace (S q + (r - S q)) with r by lia.
      eapply tdone_bind; [apply binary_runs; [exact Ha|lia]|]. cbn [fst snd]. eapply bin_t; eauto.
    + destruct (VA _ _ _ Hv) as (L1 & L2 & V). apply (tag_t m p q 39); auto; [lia|].
      intros f ty cur s x0 Nt Hm' Hf Hf0 Hi HI. change (tag_kind 39) with TStrUtf8. cbn [tdecode_tag].
      cbn [g_max go_dialect] in Hm.
      eapply tdone_bind; [apply V|]. cbn [fst snd].
      rewrite to_int_small by (unfold two63; lia). replace (Z.of_N n) with (Z.of_nat (length str)) by lia.
      replace (S q + (r - S q)) with r by lia.
      eapply tdone_bind; [apply binary_runs; [exact Ha|lia]|]. cbn [fst snd]. eapply str_t; eauto.
  - (* refn *)
    intros m p q d p' Ht Hd T. apply (Titem_refn m p q); auto. apply PI. eapply i_refn; eauto.
  - (* weaken *)
    intros m p q d p' Ht Hd T. apply (Titem_weaken m p q); auto. apply PI. eapply i_weaken; eauto.
  - (* array *)
    intros m p q n r ds p' Ht Hv Hn En Hs T. destruct (VA _ _ _ Hv) as (L1 & L2 & V).
    pose proof T as (Q1 & _). cbn [g_max go_dialect] in Hn.
    apply (tag_t m p q 43); [apply PI; eapply i_array; eauto|exact Ht|lia|].
    intros f ty cur s x0 Nt Hm Hf Hf0 Hi HI. change (tag_kind 43) with TArray. cbn [tdecode_tag].
    eapply tdone_bind; [apply V|]. cbn [fst snd].
    rewrite to_int_small by (unfold two63; lia). replace (Z.of_N n) with (Z.of_nat (length ds)) by lia.
    replace (S q + (r - S q)) with r by lia.
    eapply (array_t m); eauto; [lia|]. apply (go_need s s (S q) r); auto; [intros; apply frm_refl|lia].
  - (* arrayref *)
    intros m p q t ds p' Ht Hr En Hs T. pose proof T as (Q1 & _).
    destruct (tag_skip by_ p q t Ht) as (_ & _ & _ & _ & L4 & _).
    apply (tag_t m p q t); [apply PI; eapply i_arrayref; eauto|exact Ht|lia|].
    intros f ty cur s x0 Nt Hm Hf Hf0 Hi HI. rewrite (tk_arrayref by_) by assumption. cbn [tdecode_tag].
    replace (N.to_nat (t - 64)) with (length ds) by lia.
    assert (Z.of_nat (length ds) <= 2147483647)%Z by (clear - En Hr; lia).
    apply (tdone_iff _ _ _ _ _ (DArr ds)); [intros; now apply into_ref_iff|].
    apply (proj1 (into_ref_iff _ _ _ _ _ Nt)) in HI. apply (array_t m _ _ _ _ _ _ _ x0); auto.
  - (* hash *)
    intros m p q n r kvs p' Ht Hv Hn En Hs T. destruct (VA _ _ _ Hv) as (L1 & L2 & V).
    pose proof T as (Q1 & _). cbn [g_max go_dialect] in Hn.
    apply (tag_t m p q 42); [apply PI; eapply i_hash; eauto|exact Ht|lia|].
    intros f ty cur s x0 Nt Hm Hf Hf0 Hi HI. change (tag_kind 42) with THash. cbn [tdecode_tag].
    eapply tdone_bind; [apply V|]. cbn [fst snd].
    rewrite to_int_small by (unfold two63; lia). replace (Z.of_N n) with (Z.of_nat (length kvs)) by lia.
    replace (S q + (r - S q)) with r by lia.
    eapply (hash_t m); eauto; [lia|]. apply (go_need s s (S q) r); auto; [intros; apply frm_refl|lia].
  - (* hashref *)
    intros m p q t kvs p' Ht Hr En Hs T. pose proof T as (Q1 & _).
    destruct (tag_skip by_ p q t Ht) as (_ & _ & _ & _ & L4 & _).
    apply (tag_t m p q t); [apply PI; eapply i_hashref; eauto|exact Ht|lia|].
    intros f ty cur s x0 Nt Hm Hf Hf0 Hi HI. rewrite (tk_hashref by_) by assumption. cbn [tdecode_tag].
    replace (N.to_nat (t - 80)) with (length kvs) by lia.
    assert (Z.of_nat (length kvs) <= 2147483647)%Z by (clear - En Hr; lia).
    apply (tdone_iff _ _ _ _ _ (DHash kvs)); [intros; now apply into_ref_iff|].
    apply (proj1 (into_ref_iff _ _ _ _ _ Nt)) in HI. apply (hash_t m) with (x0 := x0); auto.
  - (* object *)
    intros m p q cls r d p' Ht Hc Hd T. pose proof T as (Q1 & Q2 & _).
    destruct (stringish_runs c by_ start Hlen _ _ _ _ (mkDState [] [] 0 []) Hc) as (_ & _ & _ & _ & _ & L1 & L2); [reflexivity|].
    apply (tag_t m p q 44); [apply PI; eapply i_object; eauto|exact Ht|lia|].
    intros f ty cur s x0 Nt Hm Hf Hf0 Hi HI. change (tag_kind 44) with TObject. cbn [tdecode_tag].
    eapply (object_t m r); eauto.
    + eapply class_lit; eauto. now apply mode_copy.
    + apply (go_need s s (S q) r); auto; [intros; apply frm_refl|lia].
  - (* objectv *)
    intros m p q n r u cls e d p' Ht Hv Hlt Hst Hs Hd T. pose proof T as (Q1 & Q2 & _).
    destruct (tag_skip by_ p q 45 Ht) as (_ & _ & _ & _ & L4 & _).
    destruct (VA _ _ _ Hv) as (L1 & L2 & V).
    apply (tag_t m p q 45); [apply PI; eapply i_objectv; eauto|exact Ht|lia|].
    intros f ty cur s x0 Nt Hm Hf Hf0 Hi HI. change (tag_kind 45) with TObjectV. cbn [tdecode_tag].
    eapply (object_t m r); eauto.
    + eapply class_off; eauto.
    + apply (go_need s s (S q) r); auto; [intros; apply frm_refl|lia].
  - (* regexp: into interface{} only *)
    intros m p q s1 r s2 p' Ht Hs1 Hs2.
    destruct (stringish_runs c by_ start Hlen _ _ _ _ (mkDState [] [] 0 []) Hs1) as (_ & _ & _ & _ & _ & L1 & L2); [reflexivity|].
    destruct (stringish_runs c by_ start Hlen _ _ _ _ (mkDState [] [] 0 []) Hs2) as (_ & _ & _ & _ & _ & L3 & L4); [reflexivity|].
    apply (tag_t m p q 49); [apply PI; eapply i_regexp; eauto|exact Ht|lia|].
    intros f ty cur s x0 Nt Hm Hf Hf0 Hi HI. inversion HI; subst; try contradiction.
    match goal with H : _ = DUndef \/ _ |- _ => destruct H as [H|H]; discriminate H end.
  - (* freeze *)
    intros m p q cls r n r' str p' Ht Hc Ha Hv En Hd T Hg. pose proof T as (Q1 & Q2 & _).
    destruct (stringish_runs c by_ start Hlen _ _ _ _ (mkDState [] [] 0 []) Hc) as (_ & _ & _ & _ & _ & L1 & L2); [reflexivity|].
    destruct (VA _ _ _ Hv) as (L3 & L4 & V).
    apply (tag_t m p q 50); [apply PI; eapply i_freeze; eauto|exact Ht|lia|].
    intros f ty cur s x0 Nt Hm Hf Hf0 Hi HI. change (tag_kind 50) with TFreeze. cbn [tdecode_tag].
    eapply (freeze_t m r n r'); eauto.
    + eapply class_lit; eauto. now apply mode_copy.
    + apply (go_need s s (S q) r); auto; [intros; apply frm_refl|lia].
  - (* freezev *)
    intros m p q o r0 u cls e n r' str p' Ht Hv0 Hlt Hst Hs Ha Hv En Hd T Hg. pose proof T as (Q1 & Q2 & _).
    destruct (tag_skip by_ p q 51 Ht) as (_ & _ & _ & _ & L0 & _).
    destruct (VA _ _ _ Hv0) as (L1 & L2 & V0). destruct (VA _ _ _ Hv) as (L3 & L4 & V).
    apply (tag_t m p q 51); [apply PI; eapply i_freezev; eauto|exact Ht|lia|].
    intros f ty cur s x0 Nt Hm Hf Hf0 Hi HI. change (tag_kind 51) with TFreezeV. cbn [tdecode_tag].
    eapply (freeze_t m r0 n r'); eauto.
    + eapply class_off; eauto.
    + apply (go_need s s (S q) r0); auto; [intros; apply frm_refl|lia].
  - (* copy *)
    intros p q n r d e Ht Hv Hlt Hst Hd T. destruct (VA _ _ _ Hv) as (L1 & L2 & V).
    destruct (tag_skip by_ p q 47 Ht) as (_ & _ & _ & L3 & L4 & _).
    apply (tag_t CAny p q 47); [apply PI; eapply i_copy; eauto|exact Ht|lia|].
    intros f ty cur s x0 Nt Hm Hf Hf0 Hi HI. change (tag_kind 47) with TCopy. cbn [tdecode_tag].
    cbn [mode_ok] in Hm. specialize (Hf0 Hm).
    eapply tdone_bind; [reflexivity|]. rewrite Hm. cbn [Nat.ltb Nat.leb].
    eapply tdone_bind; [apply V|]. cbn [fst snd].
    pose proof (vint_bound _ _ _ _ Hv) as Bn.
    rewrite to_int_small by lia.
    destruct ((Z.of_N n <? 0) || (Z.of_nat (S q) <=? Z.of_N n))%Z eqn:B; [lia|].
    set (s1 := mkDState (d_heap s) (d_tracked s) 1 (d_made s)).
    destruct T as (T1 & T2 & TI). cbn [g_nest go_dialect] in TI.
    destruct (TI f ty cur s1 x0) as (s2 & x & R & F & X); auto.
    { cbn [mode_ok]. trivial. }
    { cbn [d_copy s1]. unfold need. lia. }
    set (s3 := mkDState (d_heap s2) (d_tracked s2) (pred (d_copy s2)) (d_made s2)).
    exists s3, x. split; [|split].
    + eapply runs_bind; [reflexivity|]. fold s1. eapply runs_bind.
      * unfold runs in R |- *. replace (Z.to_nat (Z.of_N n)) with (N.to_nat n) by lia.
        rewrite R. reflexivity.
      * cbn [fst]. replace (S q + (r - S q)) with r by lia. reflexivity.
    + intros W. destruct (F W) as (A & B' & C'). cbn in C'. split; [exact A|split; [exact B'|]].
      cbn. rewrite C'. now rewrite Hm.
    + exact X.
  - apply Titems_nil.
  - intros m p d r ds p' Hd TD Hs TS. eapply Titems_cons; eauto.
  - apply Tpairs_nil.
  - intros m p k r d r' kvs p' Hk Hd TD Hs TS. eapply Tpairs_cons; eauto.
Qed.
End TS.
