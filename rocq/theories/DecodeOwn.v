(** What the decoder reads with PerlCompat is a tree in memory of its own: no two pointers in it lead
    to the same place.  The induction is that of DecodeSpec.v. *)
From Verif Require Import Base BaseFacts SpecVarint Varint VarintFacts Tags GoMem Decode DecodeSafe Spec SpecValue SpecPerlRewrite DecodeSpec.
From Coq Require Import ZifyBool ZifyNat ZifyN.
Ltac Zify.zify_post_hook ::= Z.div_mod_to_equations.

(** [owns h P v d]: in memory [h] the value [v] has data [d] and consists of cells in [P], each of them
    used once *)
Section Owns.
Variable h : heap.
Inductive owns : (loc -> Prop) -> gval -> data -> Prop :=
| o_undef (P : loc -> Prop) l : P l -> nth_error h l = Some (CV (GUndefV false)) -> owns P (GPtr false l) DUndef
| o_canon (P : loc -> Prop) : owns P GCanonUndef DCanon
| o_bool (P : loc -> Prop) b : owns P (GBool b) (DBool b)
| o_int (P : loc -> Prop) k z : owns P (GInt k false z) (DInt z)
| o_f32 (P : loc -> Prop) u : owns P (GF32 u) (DF32 u)
| o_f64 (P : loc -> Prop) u : owns P (GF64 u) (DF64 u)
| o_str (P : loc -> Prop) s : owns P (GStr s) (DStr s)
| o_bin (P : loc -> Prop) w s : P (vloc w) -> vlen w = length s -> owns P (GBytes w) (DBin s)
| o_arr (P : loc -> Prop) base n ds : n = length ds -> ownss P base ds -> owns P (GSlice base n) (DArr ds)
| o_hash (P Q : loc -> Prop) l m n kvs : P l -> (forall x, Q x -> P x /\ x <> l) -> nth_error h l = Some (CMap m) ->
    ownsm Q m n -> n <= small_refs (DHash kvs) -> owns P (GMap l) (DHash kvs)
| o_ref (P Q : loc -> Prop) b l v d : P l -> (forall x, Q x -> P x /\ x <> l) -> nth_error h l = Some (CV v) ->
    owns Q v d -> owns P (GPtr b l) (DRef d)
| o_weak (P Q : loc -> Prop) l v d : P l -> (forall x, Q x -> P x /\ x <> l) -> nth_error h l = Some (CV v) ->
    owns Q v d -> owns P (GWeakP l) (DWeak d)
| o_obj (P Q : loc -> Prop) cls l v d : P l -> (forall x, Q x -> P x /\ x <> l) -> nth_error h l = Some (CV v) ->
    owns Q v d -> owns P (GObjP cls l) (DObj cls d)
| o_regexp (P : loc -> Prop) l p m s1 s2 : P l -> nth_error h l = Some (CV (GRegexpV p m)) ->
    owns P (GPtr false l) (DRegexp s1 s2)
with ownss : (loc -> Prop) -> loc -> list data -> Prop :=
| os_nil (P : loc -> Prop) l : ownss P l []
| os_cons (P Q1 Q2 : loc -> Prop) l v d ds : P l -> (forall x, Q1 x -> P x /\ x <> l) -> (forall x, Q2 x -> P x) ->
    (forall x, Q1 x -> Q2 x -> False) -> nth_error h l = Some (CV v) ->
    owns Q1 v d -> ownss Q2 (S l) ds -> ownss P l (d :: ds)
(** a map with [n] references to small things *)
with ownsm : (loc -> Prop) -> list (bytes * gval) -> nat -> Prop :=
| om_nil (P : loc -> Prop) : ownsm P [] 0
| om_cons (P Q1 Q2 : loc -> Prop) k v d m n : (forall x, Q1 x -> P x) -> (forall x, Q2 x -> P x) ->
    (forall x, Q1 x -> Q2 x -> False) -> owns Q1 v d -> ownsm Q2 m n -> ownsm P ((k, v) :: m) (small_refs d + n).
End Owns.
Scheme owns_ind3 := Induction for owns Sort Prop
  with ownss_ind3 := Induction for ownss Sort Prop
  with ownsm_ind3 := Induction for ownsm Sort Prop.
Combined Scheme owns_mut_ind from owns_ind3, ownss_ind3, ownsm_ind3.

Lemma owns_stable h h' :
  (forall P v d, owns h P v d -> forall P' : loc -> Prop, (forall l, P l -> P' l /\ nth_error h' l = nth_error h l) -> owns h' P' v d) /\
  (forall P l ds, ownss h P l ds -> forall P' : loc -> Prop, (forall l, P l -> P' l /\ nth_error h' l = nth_error h l) -> ownss h' P' l ds) /\
  (forall P m n, ownsm h P m n -> forall P' : loc -> Prop, (forall l, P l -> P' l /\ nth_error h' l = nth_error h l) -> ownsm h' P' m n).
Proof.
  apply (owns_mut_ind h
    (fun P v d _ => forall P' : loc -> Prop, (forall l, P l -> P' l /\ nth_error h' l = nth_error h l) -> owns h' P' v d)
    (fun P l ds _ => forall P' : loc -> Prop, (forall l, P l -> P' l /\ nth_error h' l = nth_error h l) -> ownss h' P' l ds)
    (fun P m n _ => forall P' : loc -> Prop, (forall l, P l -> P' l /\ nth_error h' l = nth_error h l) -> ownsm h' P' m n)).
  - intros P l Pl E P' H. destruct (H l Pl) as [A B]. eapply o_undef; congruence || auto.
  - intros. constructor.
  - intros. constructor.
  - intros. constructor.
  - intros. constructor.
  - intros. constructor.
  - intros. constructor.
  - intros P w s Pw E P' H. constructor; [now apply H|exact E].
  - intros P base n ds En _ IH P' H. constructor; [exact En|]. now apply IH.
  - intros P Q l m n kvs Pl Sub E _ IH Ln P' H. destruct (H l Pl) as [A B].
    apply (o_hash h' P' Q l m n); [exact A| |congruence| |exact Ln].
    + intros x Hx. destruct (Sub x Hx). split; [now apply H|auto].
    + apply IH. intros x Hx. destruct (Sub x Hx). split; [auto|now apply H].
  - intros P Q b l v d Pl Sub E _ IH P' H. destruct (H l Pl) as [A B].
    apply (o_ref h' P' Q b l v); [exact A| |congruence|].
    + intros x Hx. destruct (Sub x Hx). split; [now apply H|auto].
    + apply IH. intros x Hx. destruct (Sub x Hx). split; [auto|now apply H].
  - intros P Q l v d Pl Sub E _ IH P' H. destruct (H l Pl) as [A B].
    apply (o_weak h' P' Q l v); [exact A| |congruence|].
    + intros x Hx. destruct (Sub x Hx). split; [now apply H|auto].
    + apply IH. intros x Hx. destruct (Sub x Hx). split; [auto|now apply H].
  - intros P Q cls l v d Pl Sub E _ IH P' H. destruct (H l Pl) as [A B].
    apply (o_obj h' P' Q cls l v); [exact A| |congruence|].
    + intros x Hx. destruct (Sub x Hx). split; [now apply H|auto].
    + apply IH. intros x Hx. destruct (Sub x Hx). split; [auto|now apply H].
  - intros P l p m s1 s2 Pl E P' H. destruct (H l Pl) as [A B]. eapply o_regexp; [exact A|]. rewrite B. exact E.
  - intros. constructor.
  - intros P Q1 Q2 l v d ds Pl S1 S2 D E _ IH1 _ IH2 P' H. destruct (H l Pl) as [A B].
    apply (os_cons h' P' Q1 Q2 l v); [exact A| | |exact D|congruence| |].
    + intros x Hx. destruct (S1 x Hx). split; [now apply H|auto].
    + intros x Hx. now apply H, S2.
    + apply IH1. intros x Hx. destruct (S1 x Hx). split; [auto|now apply H].
    + apply IH2. intros x Hx. split; [auto|now apply H, S2].
  - intros. constructor.
  - intros P Q1 Q2 k v d m n S1 S2 D _ IH1 _ IH2 P' H.
    apply (om_cons h' P' Q1 Q2).
    + intros x Hx. now apply H, S1.
    + intros x Hx. now apply H, S2.
    + exact D.
    + apply IH1. intros x Hx. split; [auto|now apply H, S1].
    + apply IH2. intros x Hx. split; [auto|now apply H, S2].
Qed.

Lemma ownsm_put h k v d (Q2 : loc -> Prop) : owns h Q2 v d -> forall m (P Q1 : loc -> Prop) n,
  (forall x, Q1 x -> P x) -> (forall x, Q2 x -> P x) -> (forall x, Q1 x -> Q2 x -> False) ->
  ownsm h Q1 m n -> exists n', ownsm h P (mput m k v) n' /\ n' <= n + small_refs d.
Proof.
  intros V. induction m as [|[k' v'] m IH]; intros P Q1 n S1 S2 D H; inversion H as [|? R1 R2 ? ? d' ? n1 T1 T2 T3 V' M]; subst; cbn [mput].
  - exists (small_refs d + 0). split; [|lia]. apply (om_cons h P Q2 (fun _ => False)); auto; try contradiction. constructor.
  - destruct (bytes_eqb k' k).
    + exists (small_refs d + n1). split; [|lia]. apply (om_cons h P Q2 R2); eauto.
    + destruct (IH (fun x => R2 x \/ Q2 x) R2 n1) as (n2 & M2 & L2); eauto.
      exists (small_refs d' + n2). split; [|lia]. apply (om_cons h P R1 (fun x => R2 x \/ Q2 x)); auto.
      * intros x [X|X]; auto.
      * intros x X [Y|Y]; eauto.
Qed.

Lemma owns_not_nil h P v d : owns h P v d -> v <> GNil.
Proof. destruct 1; discriminate. Qed.

Section DO.
Variable c : dconfig.
Variable by_ : bytes.
Variable ibuf : loc.
Variable ishift : nat.
Variable start : nat.
Hypothesis Hlen : (Z.of_nat (length by_) < two63)%Z.
Hypothesis Pl : d_perl c = true.

Notation len := (length by_).
Notation g := (go_dialect c start).
Notation vint_at := (DecodeSpec.vint_at by_ Hlen).
Notation tag_skip := (DecodeSpec.tag_skip by_).
Notation stringish_runs := (DecodeSpec.stringish_runs c by_ start Hlen).
Notation frm_comp := (DecodeSpec.frm_comp by_ start).
Notation fixed_runs := (DecodeSpec.fixed_runs by_).
Notation binary_runs := (DecodeSpec.binary_runs by_).
Notation class_lit := (DecodeSpec.class_lit c by_ start Hlen).
Notation class_off := (DecodeSpec.class_off c by_ start Hlen).
Notation need_mono := (DecodeSpec.need_mono by_).
Notation nil_repeat := (DecodeSpec.nil_repeat by_).
Notation vint_bound := (DecodeSpec.vint_bound by_).
Notation at_range := (DecodeSpec.at_range by_ by_).
Notation frm_set := (DecodeSpec.frm_set by_).
Notation frm_alloc := (DecodeSpec.frm_alloc by_ start).
Notation small_int := (DecodeSpec.small_int by_).
Notation zigzag_odd := (DecodeSpec.zigzag_odd by_).
Notation tk_small := (DecodeSpec.tk_small by_).
Notation tk_short := (DecodeSpec.tk_short by_).
Notation tk_arrayref := (DecodeSpec.tk_arrayref by_).
Notation tk_hashref := (DecodeSpec.tk_hashref by_).

Definition new (s s' : dstate) (l : loc) : Prop := length (d_heap s) <= l < length (d_heap s').

(** the outcome of decoding one item into ptr *)
Definition decoded (m : M nat) (ptr : loc) (s : dstate) (d : data) (p' : nat) : Prop :=
  exists s' v, runs m s p' s' /\ frm (eq ptr) s s' /\
    nth_error (d_heap s') ptr = Some (CV v) /\ owns (d_heap s') (new s s') v d.

Definition Pitem (m : cmode) (p : nat) (d : data) (p' : nat) : Prop :=
  p < p' /\ p' <= len /\
  forall fuel ptr s, mode_ok m s -> need by_ p (d_copy s) <= fuel -> nilcell s ptr ->
    decoded (decode c by_ ibuf ishift fuel p ptr) ptr s d p'.

Definition Pitems (m : cmode) (p : nat) (ds : list data) (p' : nat) : Prop :=
  p + length ds <= p' /\ (p <= len -> p' <= len) /\
  forall fuel base s, mode_ok m s -> need by_ p (d_copy s) <= fuel ->
    (forall i, i < length ds -> nilcell s (base + i)) ->
    exists s', runs (array_loop (decode c by_ ibuf ishift fuel) (length ds) base p) s p' s' /\
      frm (fun l => base <= l < base + length ds) s s' /\
      ownss (d_heap s') (fun l => new s s' l \/ base <= l < base + length ds) base ds.

Definition Ppairs (m : cmode) (p : nat) (kvs : list (bytes * data)) (p' : nat) : Prop :=
  p + 2 * length kvs <= p' /\ (p <= len -> p' <= len) /\
  forall fuel ml s0 s m0 n0, mode_ok m s -> need by_ p (d_copy s) <= fuel ->
    length (d_heap s0) <= length (d_heap s) -> ml < length (d_heap s0) ->
    nth_error (d_heap s) ml = Some (CMap m0) ->
    ownsm (d_heap s) (new s0 s) m0 n0 ->
    exists s' m1 n1, runs (hash_loop by_ (decode c by_ ibuf ishift fuel) (length kvs) ml p) s p' s' /\
      frm (eq ml) s s' /\ nth_error (d_heap s') ml = Some (CMap m1) /\
      ownsm (d_heap s') (new s0 s') m1 n1 /\ n1 <= n0 + small_refs (DHash kvs).

Lemma tag_reduce m p q t d p' :
  tag_at by_ p q t -> S q <= p' -> p' <= len ->
  (forall f ptr s trk, mode_ok m s -> need by_ (S q) (d_copy s) <= f ->
     (d_copy s = 0 -> len + 1 <= f) -> nilcell s ptr ->
     decoded (decode_tag c by_ ibuf ishift (decode c by_ ibuf ishift f) (tag_kind t) trk (S q) ptr)
             ptr s d p') ->
  Pitem m p d p'.
Proof.
  intros Ht L1 L2 H.
  destruct (tag_skip _ _ _ Ht) as (b & E1 & E2 & L3 & L4 & _).
  split; [lia|split; [lia|]].
  intros fuel ptr s Hm Hf Hn.
  destruct fuel as [|f]; [unfold need in Hf; destruct (d_copy s); lia|].
  set (s1 := if tracked_bit b then mkDState (d_heap s) ((q, ptr) :: d_tracked s) (d_copy s) (d_made s) else s).
  assert (Eh : d_heap s1 = d_heap s) by (unfold s1; destruct (tracked_bit b); auto).
  assert (Ec : d_copy s1 = d_copy s) by (unfold s1; destruct (tracked_bit b); auto).
  destruct (H f ptr s1 (tracked_bit b)) as (s' & v & R & F & C & V).
  - destruct m; cbn in *; congruence.
  - rewrite Ec. unfold need in *. destruct (d_copy s); lia.
  - rewrite Ec. intros C0. unfold need in Hf. rewrite C0 in Hf. lia.
  - unfold nilcell. now rewrite Eh.
  - exists s', v. split; [|split; [|split; [exact C|]]].
    + unfold runs in *. cbn [decode]. unfold decode_body.
      destruct (Nat.leb_spec len p); [lia|]. rewrite E1, E2.
      unfold mbind at 1.
      destruct (tracked_bit b) eqn:TB; cbn [track ret]; exact R.
    + unfold frm in *. now rewrite <- Eh, <- Ec.
    + unfold new in *. now rewrite <- Eh.
Qed.

Lemma leaf ptr s v d i : ptr < length (d_heap s) ->
  (forall P h, owns h P v d) -> decoded (set_var ptr v ;; ret i) ptr s d i.
Proof.
  intros N V. exists (with_heap s (upd (d_heap s) ptr (CV v))), v.
  split; [reflexivity|]. split; [apply frm_set|]. split; [|apply V].
  now apply set_same.
Qed.

(** allocate one cell, then point ptr to it; decoding started in s0 *)
Definition decodedB (s0 : dstate) (m : M nat) (ptr : loc) (s : dstate) (d : data) (p' : nat) : Prop :=
  exists s' v, runs m s p' s' /\ frm (eq ptr) s s' /\
    nth_error (d_heap s') ptr = Some (CV v) /\ owns (d_heap s') (new s0 s') v d.

Lemma new_leafB s0 ptr s cl (f : loc -> gval) d i : ptr < length (d_heap s) ->
  (forall s', frm (eq ptr) s s' -> length (d_heap s') = S (length (d_heap s)) ->
     nth_error (d_heap s') (length (d_heap s)) = Some cl ->
     owns (d_heap s') (new s0 s') (f (length (d_heap s))) d) ->
  decodedB s0 (let! l := alloc cl in (set_var ptr (f l) ;; ret i)) ptr s d i.
Proof.
  intros Lp V.
  set (s1 := with_heap s (d_heap s ++ [cl])).
  set (l := length (d_heap s)).
  set (s2 := with_heap s1 (upd (d_heap s1) ptr (CV (f l)))).
  assert (L1 : length (d_heap s1) = S l) by (cbn; rewrite app_length; cbn; lia).
  assert (F : frm (eq ptr) s s2).
  { eapply frm_comp; [apply frm_alloc|apply frm_set|]. auto. }
  exists s2, (f l). split; [reflexivity|]. split; [exact F|].
  split; [apply set_same; lia|]. apply V; auto.
  - unfold s2. cbn [d_heap with_heap]. rewrite upd_length. exact L1.
  - unfold s2. cbn [d_heap with_heap]. rewrite nth_error_upd_other by lia.
    unfold s1. cbn. rewrite nth_error_app2, Nat.sub_diag by lia. reflexivity.
Qed.

Lemma new_leaf ptr s cl (f : loc -> gval) d i : ptr < length (d_heap s) ->
  (forall s', frm (eq ptr) s s' -> length (d_heap s') = S (length (d_heap s)) ->
     nth_error (d_heap s') (length (d_heap s)) = Some cl ->
     owns (d_heap s') (new s s') (f (length (d_heap s))) d) ->
  decoded (let! l := alloc cl in (set_var ptr (f l) ;; ret i)) ptr s d i.
Proof. exact (new_leafB s ptr s cl f d i). Qed.

Lemma decoded_bind A (m : M A) (k : A -> M nat) ptr s a d i :
  runs m s a s -> decoded (k a) ptr s d i -> decoded (mbind m k) ptr s d i.
Proof.
  intros R (s' & v & R' & X). exists s', v. split; [|exact X]. eapply runs_bind; eauto.
Qed.

Lemma binary_copy_decoded p str ptr s : at_ by_ p str -> (Z.of_nat (length str) <= 2147483647)%Z ->
  nilcell s ptr ->
  decoded (let! (v, idx) := binary_copy by_ p (Z.of_nat (length str)) in
           set_var ptr (GBytes v) ;; ret idx) ptr s (DBin str) (p + length str).
Proof.
  intros A Hl N.
  set (s0 := mkDState (d_heap s) (d_tracked s) (d_copy s) ((length str, len - p) :: d_made s)).
  assert (N0 : ptr < length (d_heap s0)) by (apply nil_lt in N; exact N).
  destruct (new_leaf ptr s0 (CBuf str) (fun l => GBytes (mkView l 0 (length str))) (DBin str)
              (p + length str) N0) as (s' & v & R & X).
  - intros s' F L E. constructor; cbn [vloc vlen]; [|reflexivity]. unfold new. lia.
  - exists s', v. split; [|exact X].
    unfold runs, binary_copy, mbind. rewrite (binary_runs _ _ _ A Hl). exact R.
Qed.

(** ** Containers *)
Lemma array_decoded m p ds p' f ptr s isRef :
  Pitems m p ds p' -> p <= len -> (Z.of_nat (length ds) <= 2147483647)%Z ->
  mode_ok m s -> need by_ p (d_copy s) <= f -> nilcell s ptr ->
  decoded (decodeArray by_ (decode c by_ ibuf ishift f) p (Z.of_nat (length ds)) ptr isRef)
          ptr s (if isRef then DRef (DArr ds) else DArr ds) p'.
Proof.
  intros (P1 & P2 & PI) Hp Hl Hm Hf Hn. specialize (P2 Hp).
  pose proof (nil_lt _ _ Hn) as Lp.
  set (n := length ds) in *.
  set (s0 := mkDState (d_heap s) (d_tracked s) (d_copy s) ((n, len - p) :: d_made s)).
  set (base := length (d_heap s)).
  assert (Eb : base = length (d_heap s)) by reflexivity.
  set (s1 := with_heap s0 (d_heap s0 ++ repeat (CV GNil) (Nat.max 1 n))).
  assert (L1 : length (d_heap s1) = base + Nat.max 1 n).
  { unfold s1. cbn. rewrite app_length, repeat_length. reflexivity. }
  assert (F1 : frm (eq ptr) s s1) by (apply (frm_alloc (eq ptr) s0)).
  assert (N1 : forall i, i < n -> nilcell s1 (base + i)).
  { intros i H. apply (nil_repeat s0 _ n); lia. }
  (* the state before the loop, and the value in ptr *)
  assert (Pre : exists s2 v, frm (eq ptr) s1 s2 /\ length (d_heap s1) <= length (d_heap s2) /\
     nth_error (d_heap s2) ptr = Some (CV v) /\
     runs ((if isRef then let! q := alloc (CV (GSlice base n)) in set_var ptr (GPtr false q)
            else set_var ptr (GSlice base n))) s1 tt s2 /\
     (if isRef then v = GPtr false (base + Nat.max 1 n) /\
                    nth_error (d_heap s2) (base + Nat.max 1 n) = Some (CV (GSlice base n))
      else v = GSlice base n)).
  { destruct isRef.
    - set (s2 := with_heap (with_heap s1 (d_heap s1 ++ [CV (GSlice base n)]))
                   (upd (d_heap s1 ++ [CV (GSlice base n)]) ptr (CV (GPtr false (length (d_heap s1)))))).
      exists s2, (GPtr false (length (d_heap s1))).
      assert (F : frm (eq ptr) s1 s2).
      { eapply frm_comp; [apply (frm_alloc _ s1 [CV (GSlice base n)])|apply frm_set|auto]. }
      split; [exact F|]. split; [apply (frm_len _ _ _ F)|]. split.
      + unfold s2. cbn [d_heap with_heap]. apply nth_error_upd_same. rewrite app_length. lia.
      + split; [reflexivity|]. rewrite L1. split; [reflexivity|].
        unfold s2. cbn [d_heap with_heap]. rewrite nth_error_upd_other by lia.
        rewrite nth_error_app2 by lia.
        replace (base + Nat.max 1 n - length (d_heap s1)) with 0 by lia. reflexivity.
    - set (s2 := with_heap s1 (upd (d_heap s1) ptr (CV (GSlice base n)))).
      exists s2, (GSlice base n).
      assert (F : frm (eq ptr) s1 s2) by apply frm_set.
      split; [exact F|]. split; [apply (frm_len _ _ _ F)|]. split.
      + apply set_same. lia.
      + split; reflexivity. }
  destruct Pre as (s2 & v & F2 & L2 & C2 & R2 & V2).
  assert (F02 : frm (eq ptr) s s2) by (eapply frm_comp; eauto).
  destruct (PI f base s2) as (s3 & R3 & F3 & RP).
  - eapply mode_frm; eauto.
  - rewrite (frm_copy _ _ _ F02). exact Hf.
  - intros i H. eapply frm_cell; [exact F2|now apply N1|lia].
  - assert (F03 : frm (eq ptr) s s3).
    { eapply frm_comp; [exact F02|exact F3|]. intros l H1 H2. fold base in H2. cbn beta in H1. lia. }
    exists s3, v. split; [|split; [exact F03|split]].
    + unfold decodeArray, blen, maxInt32.
      destruct ((Z.of_nat n <? 0) || (2147483647 <? Z.of_nat n))%Z eqn:B; [lia|].
      destruct (Z.of_nat len <? Z.of_nat p + Z.of_nat n)%Z eqn:B2; [lia|].
      rewrite Nat2Z.id.
      eapply runs_bind; [reflexivity|]. fold s0.
      eapply runs_bind; [reflexivity|]. fold s1.
      eapply runs_bind; [exact R2|]. exact R3.
    + eapply frm_cell; [exact F3|exact C2|]. cbn beta. lia.
    + pose proof (frm_len _ _ _ F3) as L3.
      destruct isRef.
      * destruct V2 as [-> V2]. pose proof V2 as Lq. apply nth_error_Some_lt in Lq.
        apply (o_ref _ _ (fun x => new s2 s3 x \/ base <= x < base + n) _ _ (GSlice base n)).
        -- unfold new. fold base. lia.
        -- intros x [[H1 H2]|H]; unfold new; fold base; lia.
        -- eapply frm_cell; [exact F3|exact V2|]. cbn beta. lia.
        -- constructor; [reflexivity|exact RP].
      * subst v. constructor; [reflexivity|].
        eapply (proj1 (proj2 (owns_stable (d_heap s3) (d_heap s3)))); [exact RP|].
        intros l H. split; [|reflexivity]. destruct H as [[H1 H2]|H]; unfold new; fold base; lia.
Qed.

Lemma hash_decoded m p kvs p' f ptr s isRef :
  Ppairs m p kvs p' -> p <= len -> (Z.of_nat (length kvs) <= 2147483647)%Z ->
  mode_ok m s -> need by_ p (d_copy s) <= f -> nilcell s ptr ->
  decoded (decodeHash by_ (decode c by_ ibuf ishift f) p (Z.of_nat (length kvs)) ptr isRef)
          ptr s (if isRef then DRef (DHash kvs) else DHash kvs) p'.
Proof.
  intros (P1 & P2 & PI) Hp Hl Hm Hf Hn. specialize (P2 Hp).
  pose proof (nil_lt _ _ Hn) as Lp.
  set (n := length kvs) in *.
  set (s0 := mkDState (d_heap s) (d_tracked s) (d_copy s) ((n, len - p) :: d_made s)).
  set (ml := length (d_heap s)).
  assert (Eb : ml = length (d_heap s)) by reflexivity.
  set (s1 := with_heap s0 (d_heap s0 ++ [CMap []])).
  assert (L1 : length (d_heap s1) = ml + 1).
  { unfold s1. cbn. rewrite app_length. reflexivity. }
  assert (F1 : frm (eq ptr) s s1) by (apply (frm_alloc (eq ptr) s0)).
  assert (N1 : nth_error (d_heap s1) ml = Some (CMap [])).
  { unfold s1, ml. cbn. rewrite nth_error_app2, Nat.sub_diag by lia. reflexivity. }
  assert (Pre : exists s2 v, frm (eq ptr) s1 s2 /\
     nth_error (d_heap s2) ptr = Some (CV v) /\
     runs ((if isRef then let! q := alloc (CV (GMap ml)) in set_var ptr (GPtr false q)
            else set_var ptr (GMap ml))) s1 tt s2 /\
     (if isRef then v = GPtr false (ml + 1) /\
                    nth_error (d_heap s2) (ml + 1) = Some (CV (GMap ml))
      else v = GMap ml)).
  { destruct isRef.
    - set (s2 := with_heap (with_heap s1 (d_heap s1 ++ [CV (GMap ml)]))
                   (upd (d_heap s1 ++ [CV (GMap ml)]) ptr (CV (GPtr false (length (d_heap s1)))))).
      exists s2, (GPtr false (length (d_heap s1))).
      assert (F : frm (eq ptr) s1 s2).
      { eapply frm_comp; [apply (frm_alloc _ s1 [CV (GMap ml)])|apply frm_set|auto]. }
      split; [exact F|]. split.
      + unfold s2. cbn [d_heap with_heap]. apply nth_error_upd_same. rewrite app_length. lia.
      + split; [reflexivity|]. rewrite L1. split; [reflexivity|].
        unfold s2. cbn [d_heap with_heap]. rewrite nth_error_upd_other by lia.
        rewrite nth_error_app2 by lia.
        replace (ml + 1 - length (d_heap s1)) with 0 by lia. reflexivity.
    - set (s2 := with_heap s1 (upd (d_heap s1) ptr (CV (GMap ml)))).
      exists s2, (GMap ml).
      assert (F : frm (eq ptr) s1 s2) by apply frm_set.
      split; [exact F|]. split.
      + apply set_same. lia.
      + split; reflexivity. }
  destruct Pre as (s2 & v & F2 & C2 & R2 & V2).
  assert (F02 : frm (eq ptr) s s2) by (eapply frm_comp; eauto).
  pose proof (frm_len _ _ _ F2) as L2.
  destruct (PI f ml s2 s2 [] 0) as (s3 & m1 & n1 & R3 & F3 & C3 & RP & Ln).
  - eapply mode_frm; eauto.
  - rewrite (frm_copy _ _ _ F02). exact Hf.
  - lia.
  - lia.
  - eapply frm_cell; [exact F2|exact N1|lia].
  - constructor.
  - assert (F03 : frm (eq ptr) s s3).
    { eapply frm_comp; [exact F02|exact F3|]. intros l H1 H2. fold ml in H2. lia. }
    pose proof (frm_len _ _ _ F3) as L3.
    exists s3, v. split; [|split; [exact F03|split]].
    + unfold decodeHash, blen, maxInt32.
      destruct ((Z.of_nat n <? 0) || (2147483647 <? Z.of_nat n))%Z eqn:B; [lia|].
      destruct (Z.of_nat len <? Z.of_nat p + 2 * Z.of_nat n)%Z eqn:B2; [lia|].
      rewrite Nat2Z.id.
      eapply runs_bind; [reflexivity|]. fold s0.
      eapply runs_bind; [reflexivity|]. fold s1.
      eapply runs_bind; [exact R2|]. exact R3.
    + eapply frm_cell; [exact F3|exact C2|]. cbn beta. lia.
    + assert (RPa : owns (d_heap s3) (fun x => new s s3 x /\ (x = ml \/ length (d_heap s2) <= x)) (GMap ml) (DHash kvs)).
      { apply (o_hash _ _ (new s2 s3) ml m1 n1).
        - unfold new. fold ml. lia.
        - intros x [H1 H2]. unfold new. fold ml. lia.
        - exact C3.
        - exact RP.
        - exact Ln. }
      destruct isRef.
      * destruct V2 as [-> V2]. pose proof V2 as Lq. apply nth_error_Some_lt in Lq.
        apply (o_ref _ _ (fun x => new s s3 x /\ (x = ml \/ length (d_heap s2) <= x)) _ _ (GMap ml)).
        -- unfold new. fold ml. lia.
        -- intros x [H1 H2]. split; [exact H1|lia].
        -- eapply frm_cell; [exact F3|exact V2|]. lia.
        -- exact RPa.
      * subst v. eapply (proj1 (owns_stable (d_heap s3) (d_heap s3))); [exact RPa|].
        intros l [H _]. split; [exact H|reflexivity].
Qed.

(** ** Items stored in a fresh variable *)
Definition after (s s' : dstate) (l : loc) : Prop := length (d_heap s) < l < length (d_heap s').

Lemma rec_fresh m p d p' f s : Pitem m p d p' ->
  mode_ok m s -> need by_ p (d_copy s) <= f ->
  exists s' v, runs (let! l := alloc (CV GNil) in decode c by_ ibuf ishift f p l) s p' s' /\
    (forall W, frm W s s') /\ nth_error (d_heap s') (length (d_heap s)) = Some (CV v) /\
    owns (d_heap s') (after s s') v d /\ length (d_heap s) < length (d_heap s').
Proof.
  intros (P1 & P2 & PI) Hm Hf.
  set (s1 := with_heap s (d_heap s ++ [CV GNil])).
  assert (F1 : forall W, frm W s s1) by (intros; apply frm_alloc).
  destruct (PI f (length (d_heap s)) s1) as (s2 & v & R & F & C & V).
  - eapply mode_frm; [exact Hm|apply (F1 (fun _ => False))].
  - exact Hf.
  - unfold nilcell, s1. cbn. rewrite nth_error_app2, Nat.sub_diag by lia. reflexivity.
  - exists s2, v. split; [|split; [|split; [exact C|split]]].
    + eapply runs_bind; [reflexivity|]. exact R.
    + intros W. eapply frm_comp; [apply F1|exact F|]. intros; lia.
    + eapply (proj1 (owns_stable (d_heap s2) (d_heap s2))); [exact V|].
      intros l [H1 H2]. split; [|reflexivity].
      unfold s1 in H1. cbn in H1. rewrite app_length in H1. cbn in H1. unfold after. lia.
    + apply nth_error_Some_lt in C. exact C.
Qed.

(** an item behind a new cell to which ptr already points *)
Lemma rec_under m p d p' f ptr s (mk : loc -> gval) :
  Pitem m p d p' -> mode_ok m s -> need by_ p (d_copy s) <= f -> nilcell s ptr ->
  exists s' v, runs (let! l := alloc (CV GNil) in (set_var ptr (mk l) ;; decode c by_ ibuf ishift f p l)) s p' s' /\
    frm (eq ptr) s s' /\ nth_error (d_heap s') ptr = Some (CV (mk (length (d_heap s)))) /\
    nth_error (d_heap s') (length (d_heap s)) = Some (CV v) /\
    owns (d_heap s') (after s s') v d /\ length (d_heap s) < length (d_heap s').
Proof.
  intros (P1 & P2 & PI) Hm Hf Hn.
  pose proof (nil_lt _ _ Hn) as Lp.
  set (l := length (d_heap s)).
  set (s1 := with_heap s (d_heap s ++ [CV GNil])).
  set (s2 := with_heap s1 (upd (d_heap s1) ptr (CV (mk l)))).
  assert (F1 : frm (eq ptr) s s2).
  { eapply frm_comp; [apply frm_alloc|apply frm_set|auto]. }
  assert (L1 : length (d_heap s1) = S l) by (unfold s1, l; cbn; rewrite app_length; cbn; lia).
  assert (L2 : length (d_heap s2) = S l) by (unfold s2; cbn [d_heap with_heap]; now rewrite upd_length).
  destruct (PI f l s2) as (s3 & v & R & F & C & V).
  - eapply mode_frm; eauto.
  - exact Hf.
  - unfold nilcell, s2. cbn [d_heap with_heap]. rewrite nth_error_upd_other by lia.
    unfold s1, l. cbn. rewrite nth_error_app2, Nat.sub_diag by lia. reflexivity.
  - exists s3, v. split; [|split; [|split; [|split; [exact C|split]]]].
    + eapply runs_bind; [reflexivity|]. eapply runs_bind; [reflexivity|]. exact R.
    + eapply frm_comp; [exact F1|exact F|]. intros; lia.
    + eapply frm_cell; [exact F| |lia]. apply set_same. lia.
    + eapply (proj1 (owns_stable (d_heap s3) (d_heap s3))); [exact V|].
      intros l' [H1 H2]. split; [|reflexivity]. unfold after. fold l. lia.
    + apply nth_error_Some_lt in C. exact C.
Qed.

Lemma decoded_from s (m : M nat) (m' : M nat) ptr s1 d i :
  m s = m' s1 -> frm (eq ptr) s s1 -> decodedB s m' ptr s1 d i -> decoded m ptr s d i.
Proof.
  intros E F (s' & v & R' & F' & C & V). exists s', v.
  split; [unfold runs in *; congruence|]. split; [eapply frm_comp; eauto|]. split; auto.
Qed.

(** ** Closure lemmas *)
Lemma Pitem_refn m p q d p' : tag_at by_ p q 40 -> Pitem m (S q) d p' -> Pitem m p (DRef d) p'.
Proof.
  intros Ht PP. pose proof PP as (P1 & P2 & PI).
  apply (tag_reduce m p q 40); auto; [lia|].
  intros f ptr s trk Hm Hf Hf0 Hn. change (tag_kind 40) with TRefn. cbn [decode_tag]. rewrite Pl.
  destruct (rec_under m (S q) d p' f ptr s (GPtr true)) as (s' & v & R & F & C & Cl & V & L); auto.
  assert (Np : v <> GNil) by (eapply owns_not_nil; eauto).
  eapply decoded_from; [eapply under_bind; exact R|exact F|].
  destruct trk.
  - exists s', (GPtr true (length (d_heap s))). split; [reflexivity|].
    split; [apply frm_refl|split; [exact C|]].
    apply (o_ref _ _ (after s s') _ _ v); auto; [unfold new; lia|]. intros x [H1 H2]. unfold new. lia.
  - assert (D : decodedB s (let! l2 := alloc (CV v) in (set_var ptr (GPtr false l2) ;; ret p')) ptr s' (DRef d) p').
    { apply new_leafB; [apply nil_lt in Hn; lia|].
      intros s2 F2 L2 C2. apply (o_ref _ _ (after s s') _ _ v); auto; [unfold new; lia|intros x [H1 H2]; unfold new; lia|].
      eapply (proj1 (owns_stable (d_heap s') (d_heap s2))); [exact V|]. intros l [H1 H2]. split; [split; lia|].
      destruct F2 as (_ & F2 & _). apply F2; [lia|]. intros ->. apply nil_lt in Hn. lia. }
    unfold decodedB, runs in D |- *. unfold mbind at 1. cbn [get_var].
    rewrite (hget_cell _ _ _ Cl). destruct v; try contradiction; exact D.
Qed.

Lemma Pitem_weaken m p q d p' : tag_at by_ p q 48 -> Pitem m (S q) d p' -> Pitem m p (DWeak d) p'.
Proof.
  intros Ht PP. pose proof PP as (P1 & P2 & PI).
  apply (tag_reduce m p q 48); auto; [lia|].
  intros f ptr s trk Hm Hf Hf0 Hn. change (tag_kind 48) with TWeaken. cbn [decode_tag]. rewrite Pl.
  destruct (rec_under m (S q) d p' f ptr s GWeakP) as (s' & v & R & F & C & Cl & V & L); auto.
  exists s', (GWeakP (length (d_heap s))). split; [exact R|].
  split; [exact F|split; [exact C|]]. apply (o_weak _ _ (after s s') _ v); auto; [unfold new; lia|]. intros x [H1 H2]. unfold new. lia.
Qed.

Lemma Pitem_array m p q n r ds p' : tag_at by_ p q 43 -> vint by_ (S q) n r ->
  (n <= 2147483647)%N -> N.of_nat (length ds) = n -> Pitems m r ds p' -> Pitem m p (DArr ds) p'.
Proof.
  intros Ht Hv Hn En PP. pose proof PP as (P1 & P2 & _).
  destruct (vint_at _ _ _ (mkDState [] [] 0 []) Hv) as (_ & L1 & L2 & L3). specialize (P2 L2).
  apply (tag_reduce m p q 43); auto; [lia|].
  intros f ptr s trk Hm Hf Hf0 Hnil. change (tag_kind 43) with TArray. cbn [decode_tag].
  destruct (vint_at _ _ _ s Hv) as (V & _).
  eapply decoded_bind; [exact V|]. cbn [fst snd].
  replace (S q + (r - S q)) with r by lia.
  rewrite to_int_small by (unfold two63; lia).
  replace (Z.of_N n) with (Z.of_nat (length ds)) by lia.
  apply (array_decoded m r ds p' f ptr s false); auto; try lia.
  eapply need_mono; eauto. lia.
Qed.

Lemma Pitem_arrayref m p q t ds p' : tag_at by_ p q t -> (64 <= t < 80)%N ->
  N.of_nat (length ds) = (t - 64)%N -> Pitems m (S q) ds p' -> Pitem m p (DRef (DArr ds)) p'.
Proof.
  intros Ht Hr En PP. pose proof PP as (P1 & P2 & _).
  destruct (tag_skip _ _ _ Ht) as (b & _ & _ & L3 & L4 & _).
  specialize (P2 L4); apply (tag_reduce m p q t); [exact Ht|lia|exact P2|].
  intros f ptr s trk Hm Hf Hf0 Hnil. rewrite tk_arrayref by assumption. cbn [decode_tag]. rewrite Pl.
  replace (N.to_nat (t - 64)) with (length ds) by lia.
  exact (array_decoded m (S q) ds p' f ptr s true PP L4 ltac:(lia) Hm Hf Hnil).
Qed.

Lemma Pitem_hash m p q n r kvs p' : tag_at by_ p q 42 -> vint by_ (S q) n r ->
  (n <= 2147483647)%N -> N.of_nat (length kvs) = n -> Ppairs m r kvs p' -> Pitem m p (DHash kvs) p'.
Proof.
  intros Ht Hv Hn En PP. pose proof PP as (P1 & P2 & _).
  destruct (vint_at _ _ _ (mkDState [] [] 0 []) Hv) as (_ & L1 & L2 & L3). specialize (P2 L2).
  apply (tag_reduce m p q 42); auto; [lia|].
  intros f ptr s trk Hm Hf Hf0 Hnil. change (tag_kind 42) with THash. cbn [decode_tag].
  destruct (vint_at _ _ _ s Hv) as (V & _).
  eapply decoded_bind; [exact V|]. cbn [fst snd].
  replace (S q + (r - S q)) with r by lia.
  rewrite to_int_small by (unfold two63; lia).
  replace (Z.of_N n) with (Z.of_nat (length kvs)) by lia.
  apply (hash_decoded m r kvs p' f ptr s false); auto; try lia.
  eapply need_mono; eauto. lia.
Qed.

Lemma Pitem_hashref m p q t kvs p' : tag_at by_ p q t -> (80 <= t < 96)%N ->
  N.of_nat (length kvs) = (t - 80)%N -> Ppairs m (S q) kvs p' -> Pitem m p (DRef (DHash kvs)) p'.
Proof.
  intros Ht Hr En PP. pose proof PP as (P1 & P2 & _).
  destruct (tag_skip _ _ _ Ht) as (b & _ & _ & L3 & L4 & _).
  specialize (P2 L4); apply (tag_reduce m p q t); [exact Ht|lia|exact P2|].
  intros f ptr s trk Hm Hf Hf0 Hnil. rewrite tk_hashref by assumption. cbn [decode_tag]. rewrite Pl.
  replace (N.to_nat (t - 80)) with (length kvs) by lia.
  exact (hash_decoded m (S q) kvs p' f ptr s true PP L4 ltac:(lia) Hm Hf Hnil).
Qed.

Lemma Pitems_nil m p : Pitems m p [] p.
Proof.
  split; [cbn; lia|split; [auto|]]. intros f base s Hm Hf Hn.
  exists s. split; [reflexivity|]. split; [apply frm_refl|]. constructor.
Qed.

Lemma Pitems_cons m p d r ds p' : Pitem m p d r -> Pitems m r ds p' -> Pitems m p (d :: ds) p'.
Proof.
  intros (P1 & P2 & PI) (Q1 & Q2 & QI). specialize (Q2 P2).
  split; [cbn; lia|split; [auto|]]. intros f base s Hm Hf Hn.
  assert (Hn0 : nilcell s base) by (rewrite <- (Nat.add_0_r base); apply Hn; cbn; lia).
  destruct (PI f base s) as (s1 & v & R1 & F1 & C1 & V1); auto.
  destruct (QI f (S base) s1) as (s2 & R2 & F2 & V2).
  - eapply mode_frm; eauto.
  - rewrite (frm_copy _ _ _ F1). eapply need_mono; eauto. lia.
  - intros i Hi'. eapply frm_cell; [exact F1| |lia].
    replace (S base + i) with (base + S i) by lia. apply Hn. cbn. lia.
  - pose proof (frm_len _ _ _ F1) as L1. pose proof (frm_len _ _ _ F2) as L2.
    pose proof (nil_lt _ _ Hn0) as Lb.
    assert (Lall : forall i, i < length ds -> S base + i < length (d_heap s)).
    { intros i Hi'. replace (S base + i) with (base + S i) by lia. apply nil_lt, Hn. cbn. lia. }
    assert (Lend : S base + length ds <= length (d_heap s)).
    { destruct (length ds) as [|n]; [lia|]. specialize (Lall n). lia. }
    exists s2. split; [|split].
    + cbn [length array_loop]. eapply runs_bind; eauto.
    + eapply frm_comp.
      * eapply frm_comp with (W1 := fun l => base <= l < base + length (d :: ds));
          [apply frm_refl|exact F1|]. intros l <- _. cbn. lia.
      * exact F2.
      * cbn. intros l H _. lia.
    + apply (os_cons _ _ (new s s1) (fun l => new s1 s2 l \/ S base <= l < S base + length ds) base v).
      * right. cbn. lia.
      * intros x [H1 H2]. split; [left; unfold new; lia|lia].
      * intros x [[H1 H2]|H]; [left; unfold new; lia|right; cbn; lia].
      * intros x [H1 H2] [[H3 H4]|H]; lia.
      * eapply frm_cell; [exact F2|exact C1|]. cbn beta. lia.
      * eapply (proj1 (owns_stable (d_heap s1) (d_heap s2))); [exact V1|]. intros l [H1 H2]. split; [split; lia|].
        destruct F2 as (_ & F2 & _). apply F2; [lia|]. cbn beta. lia.
      * exact V2.
Qed.

Lemma Ppairs_nil m p : Ppairs m p [] p.
Proof.
  split; [cbn; lia|split; [auto|]]. intros f ml s0 s m0 n0 Hm Hf L Hml C V.
  exists s, m0, n0. split; [reflexivity|]. split; [apply frm_refl|]. split; [exact C|].
  split; [exact V|lia].
Qed.

Lemma Ppairs_cons m p k r d r' kvs p' :
  stringish g by_ (copy_ok m) p k r -> Pitem m r d r' -> Ppairs m r' kvs p' ->
  Ppairs m p ((k, d) :: kvs) p'.
Proof.
  intros Hk PP (Q1 & Q2 & QI). pose proof PP as (P1 & P2 & PI). specialize (Q2 P2).
  destruct (stringish_runs _ _ _ _ (mkDState [] [] 0 []) Hk) as (_ & _ & _ & _ & _ & L1 & L2); [reflexivity|].
  split; [cbn; lia|split; [auto|]]. intros f ml s0 s m0 n0 Hm Hf L0 Hml C V.
  destruct (stringish_runs _ _ _ _ s Hk (mode_copy _ _ Hm)) as (w & Rk & Ew & _ & _ & _ & _).
  destruct (rec_fresh m r d r' f s PP Hm ltac:(eapply need_mono; eauto; lia))
    as (s1 & v & R1 & F1 & C1 & V1 & L3).
  set (s2 := with_heap s1 (upd (d_heap s1) ml (CMap (mput (hmap (d_heap s1) ml) k v)))).
  assert (F12 : frm (eq ml) s1 s2) by apply frm_set.
  assert (C1m : nth_error (d_heap s1) ml = Some (CMap m0)).
  { eapply frm_cell; [apply (F1 (fun _ => False))|exact C|auto]. }
  assert (Em : hmap (d_heap s1) ml = m0) by (unfold hmap; now rewrite C1m).
  pose proof (frm_len _ _ _ F12) as L12.
  assert (E12 : length (d_heap s2) = length (d_heap s1)) by (unfold s2; cbn [d_heap with_heap]; apply upd_length).
  assert (F02 : frm (eq ml) s s2) by (eapply frm_comp; [apply F1|exact F12|auto]).
  assert (M2 : exists n', ownsm (d_heap s2) (new s0 s2) (mput m0 k v) n' /\ n' <= n0 + small_refs d).
  { apply (ownsm_put (d_heap s2) k v d (after s s1)) with (Q1 := new s0 s).
    - eapply (proj1 (owns_stable (d_heap s1) (d_heap s2))); [exact V1|]. intros l [H1 H2]. split; [split; lia|].
      destruct F12 as (_ & F12 & _). apply F12; lia.
    - intros x [H1 H2]. unfold new. lia.
    - intros x [H1 H2]. unfold new. lia.
    - intros x [H1 H2] [H3 H4]. lia.
    - eapply (proj2 (proj2 (owns_stable (d_heap s) (d_heap s2)))); [exact V|]. intros l [H1 H2]. split; [split; lia|].
      destruct F02 as (_ & F02 & _). apply F02; lia. }
  destruct M2 as (n' & M2 & Ln').
  destruct (QI f ml s0 s2 (mput m0 k v) n') as (s3 & m1 & n1 & R3 & F3 & C3 & V3 & Ln1).
  - eapply mode_frm; eauto.
  - rewrite (frm_copy _ _ _ F02). eapply need_mono; eauto. lia.
  - lia.
  - exact Hml.
  - unfold s2. cbn [d_heap with_heap]. rewrite nth_error_upd_same by lia. now rewrite Em.
  - exact M2.
  - exists s3, m1, n1. split; [|split; [|split; [exact C3|]]].
    + cbn [length hash_loop]. eapply runs_bind; [exact Rk|]. cbn [fst snd].
      unfold runs.
      erewrite (fresh_bind (CV GNil) (fun l => decode c by_ ibuf ishift f r l)
        (fun idx vl => let! v0 := get_var vl in (map_set ml (win_bytes by_ w) v0 ;;
            hash_loop by_ (decode c by_ ibuf ishift f) (length kvs) ml idx))); [|exact R1].
      eapply runs_bind; [reflexivity|]. rewrite (hget_cell _ _ _ C1), Ew.
      eapply runs_bind; [reflexivity|]. exact R3.
    + eapply frm_comp; [exact F02|exact F3|auto].
    + split; [exact V3|]. cbn [small_refs map snd list_sum fold_right] in *. unfold list_sum in *. lia.
Qed.

Lemma object_decoded m r d p' f ptr s isV q cls : Pitem m r d p' ->
  runs (class_name by_ q isV) s (cls, r) s ->
  mode_ok m s -> need by_ r (d_copy s) <= f -> nilcell s ptr ->
  decoded (decodeObject c by_ (decode c by_ ibuf ishift f) q ptr isV) ptr s (DObj cls d) p'.
Proof.
  intros PP R Hm Hf Hn. pose proof PP as (P1 & P2 & _).
  unfold decodeObject. eapply decoded_bind; [exact R|]. cbn [fst snd]. rewrite Pl.
  destruct (rec_under m r d p' f ptr s (GObjP cls)) as (s' & v & R1 & F & C & Cl & V & L); auto.
  exists s', (GObjP cls (length (d_heap s))). split; [exact R1|].
  split; [exact F|split; [exact C|]]. apply (o_obj _ _ (after s s') _ _ v); auto; [unfold new; lia|]. intros x [H1 H2]. unfold new. lia.
Qed.

Theorem decode_owns :
  (forall m p d p', item g by_ m p d p' -> Pitem m p d p') /\
  (forall m p ds p', items g by_ m p ds p' -> Pitems m p ds p') /\
  (forall m p kvs p', pairs g by_ m p kvs p' -> Ppairs m p kvs p').
Proof.
  apply (grammar_ind g by_ (fun m p d p' _ => Pitem m p d p')
           (fun m p ds p' _ => Pitems m p ds p') (fun m p kvs p' _ => Ppairs m p kvs p')).
  - (* pos *)
    intros m p q t Ht Hr. pose proof (tag_skip _ _ _ Ht) as (_ & _ & _ & _ & L & _).
    apply (tag_reduce m p q t); auto.
    intros f ptr s trk Hm Hf Hf0 Hn. rewrite tk_small by lia. cbn [decode_tag].
    rewrite small_int by lia. destruct (N.ltb_spec t 16); [|lia].
    apply leaf; [now apply nil_lt|]. intros. apply o_int.
  - (* neg *)
    intros m p q t Ht Hr. pose proof (tag_skip _ _ _ Ht) as (_ & _ & _ & _ & L & _).
    apply (tag_reduce m p q t); auto.
    intros f ptr s trk Hm Hf Hf0 Hn. rewrite tk_small by lia. cbn [decode_tag].
    rewrite small_int by lia. destruct (N.ltb_spec t 16); [lia|].
    apply leaf; [now apply nil_lt|]. intros. apply o_int.
  - (* varint *)
    intros m p q n r Ht Hv.
    destruct (vint_at _ _ _ (mkDState [] [] 0 []) Hv) as (_ & L1 & L2 & _).
    apply (tag_reduce m p q 32); auto; [lia|].
    intros f ptr s trk Hm Hf Hf0 Hn. change (tag_kind 32) with TVarint. cbn [decode_tag].
    destruct (vint_at _ _ _ s Hv) as (V & _). eapply decoded_bind; [exact V|]. cbn [fst snd].
    replace (S q + (r - S q)) with r by lia.
    pose proof (vint_bound _ _ _ Hv) as Bn.
    destruct (Z.ltb_spec (Z.of_N n) two63) as [B|B].
    + rewrite to_int_small by lia. destruct (Z.ltb_spec (Z.of_N n) 0); [lia|].
      apply leaf; [now apply nil_lt|]. intros. apply o_int.
    + destruct (Z.ltb_spec (to_int n) 0) as [B2|B2].
      * rewrite to_uint_to_int by assumption.
        apply leaf; [now apply nil_lt|]. intros. apply o_int.
      * rewrite to_int_big in B2 by (unfold two63, two64 in *; lia). unfold two64 in B2. lia.
  - (* zigzag *)
    intros m p q n r Ht Hv Hev.
    destruct (vint_at _ _ _ (mkDState [] [] 0 []) Hv) as (_ & L1 & L2 & _).
    apply (tag_reduce m p q 33); auto; [lia|].
    intros f ptr s trk Hm Hf Hf0 Hn. change (tag_kind 33) with TZigzag. cbn [decode_tag].
    destruct (vint_at _ _ _ s Hv) as (V & _). eapply decoded_bind; [exact V|]. cbn [fst snd].
    replace (S q + (r - S q)) with r by lia.
    destruct (zigzag_odd n) as [E B]; [now apply vint_bound in Hv|destruct Hev; [discriminate|auto]|].
    rewrite E. apply leaf; [now apply nil_lt|]. intros. apply o_int.
  - (* float *)
    intros m p q l Ht Ha El. pose proof (proj1 (at_range _ _ Ha)).
    apply (tag_reduce m p q 34); auto; try lia.
    intros f ptr s trk Hm Hf Hf0 Hn. change (tag_kind 34) with TFloat. cbn [decode_tag].
    eapply decoded_bind; [eapply fixed_runs; eauto; lia|].
    apply leaf; [now apply nil_lt|]. intros. apply o_f32.
  - (* double *)
    intros m p q l Ht Ha El. pose proof (proj1 (at_range _ _ Ha)).
    apply (tag_reduce m p q 35); auto; try lia.
    intros f ptr s trk Hm Hf Hf0 Hn. change (tag_kind 35) with TDouble. cbn [decode_tag].
    eapply decoded_bind; [eapply fixed_runs; eauto; lia|].
    apply leaf; [now apply nil_lt|]. intros. apply o_f64.
  - (* undef *)
    intros m p q Ht. pose proof (tag_skip _ _ _ Ht) as (_ & _ & _ & _ & L & _).
    apply (tag_reduce m p q 37); auto.
    intros f ptr s trk Hm Hf Hf0 Hn. change (tag_kind 37) with TUndef. cbn [decode_tag].
    pose proof (nil_lt _ _ Hn) as Lp.
    rewrite Pl.
    assert (D : decoded (let! l := alloc (CV (GUndefV false)) in (set_var ptr (GPtr false l) ;; ret (S q))) ptr s DUndef (S q)).
    { apply new_leaf; [exact Lp|]. intros s' F L' C. apply o_undef; auto. unfold new. lia. }
    exact D.
  - (* canonical undef *)
    intros m p q Ht. pose proof (tag_skip _ _ _ Ht) as (_ & _ & _ & _ & L & _).
    apply (tag_reduce m p q 57); auto.
    intros f ptr s trk Hm Hf Hf0 Hn. change (tag_kind 57) with TCanonUndef. cbn [decode_tag].
    pose proof (nil_lt _ _ Hn) as Lp.
    rewrite Pl. apply leaf; [exact Lp|]. intros. apply o_canon.
  - (* false *)
    intros m p q Ht. pose proof (tag_skip _ _ _ Ht) as (_ & _ & _ & _ & L & _).
    apply (tag_reduce m p q 58); auto.
    intros f ptr s trk Hm Hf Hf0 Hn. change (tag_kind 58) with TFalse. cbn [decode_tag].
    apply leaf; [now apply nil_lt|]. intros. apply o_bool.
  - (* true *)
    intros m p q Ht. pose proof (tag_skip _ _ _ Ht) as (_ & _ & _ & _ & L & _).
    apply (tag_reduce m p q 59); auto.
    intros f ptr s trk Hm Hf Hf0 Hn. change (tag_kind 59) with TTrue. cbn [decode_tag].
    apply leaf; [now apply nil_lt|]. intros. apply o_bool.
  - (* strings *)
    intros m p u str p' Hs.
    destruct Hs as [p q t str Ht Hr Ha El | p q n r str Ht Hv Hmx Ha El | p q n r str Ht Hv Hmx Ha El].
    + pose proof (proj1 (at_range _ _ Ha)).
      apply (tag_reduce m p q t); auto; [lia|].
      intros f ptr s trk Hm Hf Hf0 Hn. rewrite tk_short by assumption. cbn [decode_tag].
      replace (N.to_nat (t - 96)) with (length str) by lia.
      apply binary_copy_decoded; auto. lia.
    + pose proof (proj1 (at_range _ _ Ha)). cbn [g_max go_dialect] in Hmx.
      destruct (vint_at _ _ _ (mkDState [] [] 0 []) Hv) as (_ & L1 & L2 & _).
      apply (tag_reduce m p q 38); auto; [lia|].
      intros f ptr s trk Hm Hf Hf0 Hn. change (tag_kind 38) with TBinary. cbn [decode_tag].
      destruct (vint_at _ _ _ s Hv) as (V & _). eapply decoded_bind; [exact V|]. cbn [fst snd].
      replace (S q + (r - S q)) with r by lia.
      rewrite to_int_small by (unfold two63; lia).
      replace (Z.of_N n) with (Z.of_nat (length str)) by lia.
      apply binary_copy_decoded; auto. lia.
    + pose proof (proj1 (at_range _ _ Ha)). cbn [g_max go_dialect] in Hmx.
      destruct (vint_at _ _ _ (mkDState [] [] 0 []) Hv) as (_ & L1 & L2 & _).
      apply (tag_reduce m p q 39); auto; [lia|].
      intros f ptr s trk Hm Hf Hf0 Hn. change (tag_kind 39) with TStrUtf8. cbn [decode_tag].
      destruct (vint_at _ _ _ s Hv) as (V & _). eapply decoded_bind; [exact V|]. cbn [fst snd].
      replace (S q + (r - S q)) with r by lia.
      rewrite to_int_small by (unfold two63; lia).
      replace (Z.of_N n) with (Z.of_nat (length str)) by lia.
      eapply decoded_bind; [apply binary_runs; auto; lia|]. cbn [fst snd].
      apply leaf; [now apply nil_lt|]. intros. apply o_str.
  - intros. eapply Pitem_refn; eauto.
  - intros. eapply Pitem_weaken; eauto.
  - intros. eapply Pitem_array; eauto.
  - intros. eapply Pitem_arrayref; eauto.
  - intros. eapply Pitem_hash; eauto.
  - intros. eapply Pitem_hashref; eauto.
  - (* object *)
    intros m p q cls r d p' Ht Hs _ PP. pose proof PP as (P1 & P2 & _).
    destruct (stringish_runs _ _ _ _ (mkDState [] [] 0 []) Hs) as (_ & _ & _ & _ & _ & L1 & L2); [reflexivity|].
    apply (tag_reduce m p q 44); auto; [lia|].
    intros f ptr s trk Hm Hf Hf0 Hn. change (tag_kind 44) with TObject. cbn [decode_tag].
    eapply object_decoded; eauto.
    + eapply class_lit; eauto. now apply mode_copy.
    + eapply need_mono; eauto. lia.
  - (* objectv *)
    intros m p q n r u cls e d p' Ht Hv Hlt Hst Hs _ PP. pose proof PP as (P1 & P2 & _).
    pose proof (tag_skip _ _ _ Ht) as (_ & _ & _ & _ & L & _).
    destruct (vint_at _ _ _ (mkDState [] [] 0 []) Hv) as (_ & L1 & L2 & _).
    apply (tag_reduce m p q 45); auto; [lia|].
    intros f ptr s trk Hm Hf Hf0 Hn. change (tag_kind 45) with TObjectV. cbn [decode_tag].
    eapply object_decoded; eauto.
    + eapply class_off; eauto.
    + eapply need_mono; eauto. lia.
  - (* regexp *)
    intros m p q s1 r s2 p' Ht H1 H2.
    destruct (stringish_runs _ _ _ _ (mkDState [] [] 0 []) H1) as (_ & _ & _ & _ & _ & L1 & L2); [reflexivity|].
    destruct (stringish_runs _ _ _ _ (mkDState [] [] 0 []) H2) as (_ & _ & _ & _ & _ & L3 & L4); [reflexivity|].
    apply (tag_reduce m p q 49); auto; [lia|].
    intros f ptr s trk Hm Hf Hf0 Hn. change (tag_kind 49) with TRegexp. cbn [decode_tag].
    destruct (stringish_runs _ _ _ _ s H1 (mode_copy _ _ Hm)) as (w1 & R1 & _ & A1 & W1 & _).
    destruct (stringish_runs _ _ _ _ s H2 (mode_copy _ _ Hm)) as (w2 & R2 & _ & A2 & W2 & _).
    unfold decodeRegexp. eapply decoded_bind; [exact R1|]. cbn [fst snd].
    eapply decoded_bind; [exact R2|]. cbn [fst snd].
    apply (new_leaf ptr s (CV (GRegexpV (win_view ibuf ishift w1) (win_view ibuf ishift w2))) (GPtr false));
      [now apply nil_lt|].
    intros s' F L' C. eapply o_regexp; [|exact C]. unfold new. lia.
  - (* freeze *)
    intros m p q cls r n r' str p' Ht Hs Ha Hv En _ PP Hz. exfalso. destruct Hz as [Hz _]. congruence.
  - (* freezev *)
    intros m p q o r0 u cls e n r' str p' Ht Hv0 Hlt Hst Hs Ha Hv En _ PP Hz. exfalso. destruct Hz as [Hz _]. congruence.
  - (* copy *)
    intros p q n r d e Ht Hv Hlt Hst _ PP. pose proof PP as (P1 & P2 & PI).
    pose proof (tag_skip _ _ _ Ht) as (_ & _ & _ & _ & L & _).
    destruct (vint_at _ _ _ (mkDState [] [] 0 []) Hv) as (_ & L1 & L2 & _).
    apply (tag_reduce CAny p q 47); auto; [lia|].
    intros f ptr s trk Hm Hf Hf0 Hn. change (tag_kind 47) with TCopy. cbn [decode_tag].
    cbn in Hm. destruct (vint_at _ _ _ s Hv) as (V & _).
    set (s1 := mkDState (d_heap s) (d_tracked s) 1 (d_made s)).
    destruct (PI f ptr s1) as (s2 & v & R & F & C & Vr); auto.
    { exact Logic.I. }
    { unfold need. cbn. specialize (Hf0 Hm). lia. }
    exists (mkDState (d_heap s2) (d_tracked s2) (pred (d_copy s2)) (d_made s2)), v.
    split; [|split; [|split; [exact C|exact Vr]]].
    + unfold runs. unfold mbind at 1. cbn [get_copy]. rewrite Hm. cbn [Nat.ltb Nat.leb].
      unfold mbind at 1. rewrite V. rewrite to_int_small by lia.
      destruct ((Z.of_N n <? 0) || (Z.of_nat (S q) <=? Z.of_N n))%Z eqn:B; [lia|].
      unfold mbind at 1. cbn [set_copy]. fold s1. unfold mbind at 1.
      replace (Z.to_nat (Z.of_N n)) with (N.to_nat n) by lia.
      unfold runs in R. rewrite R. unfold ret. now replace (S q + (r - S q)) with r by lia.
    + destruct F as (F1 & F2 & F3). split; [exact F1|split; [exact F2|]].
      cbn. rewrite F3. cbn. now rewrite Hm.
  - intros. apply Pitems_nil.
  - intros. eapply Pitems_cons; eauto.
  - intros. apply Ppairs_nil.
  - intros. eapply Ppairs_cons; eauto.
Qed.
End DO.
