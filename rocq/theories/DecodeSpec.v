(** The decoder implements the wire grammar: every item of the dialect Go reads is
    decoded into memory that represents its data. *)
From Verif Require Import Base BaseFacts SpecVarint Varint VarintFacts Tags GoMem Decode DecodeSafe Spec.
From Coq Require Import ZifyBool ZifyNat ZifyN.
Ltac Zify.zify_post_hook ::= Z.div_mod_to_equations.

(** The documents this decoder configuration can read. *)
Definition go_dialect (c : dconfig) (start : nat) : dialect :=
  mkDialect start 2147483647 false CNone false
    (fun cls s => d_perl c = false /\
       match d_um c cls with
       | None => True
       | Some (UMPtr t) => d_unmarshal c t s = true
       | Some (UMVal _) => False
       end).

Definition reg_of (c : dconfig) (cls : bytes) : option nat :=
  match d_um c cls with Some (UMPtr t) => Some t | _ => None end.

Scheme item_ind3 := Induction for item Sort Prop
  with items_ind3 := Induction for items Sort Prop
  with pairs_ind3 := Induction for pairs Sort Prop.
Combined Scheme grammar_ind from item_ind3, items_ind3, pairs_ind3.

Scheme repr_ind3 := Induction for repr Sort Prop
  with reprs_ind3 := Induction for reprs Sort Prop
  with reprm_ind3 := Induction for reprm Sort Prop.
Combined Scheme repr_mut_ind from repr_ind3, reprs_ind3, reprm_ind3.

Lemma hview_same h h' w : nth_error h' (vloc w) = nth_error h (vloc w) -> hview h' w = hview h w.
Proof. intros E. unfold hview, hbuf. now rewrite E. Qed.

Lemma repr_stable perl reg (P P' : loc -> Prop) h h' :
  (forall l, P l -> P' l /\ nth_error h' l = nth_error h l) ->
  (forall v d, repr perl reg P h v d -> repr perl reg P' h' v d) /\
  (forall l ds, reprs perl reg P h l ds -> reprs perl reg P' h' l ds) /\
  (forall m kvs, reprm perl reg P h m kvs -> reprm perl reg P' h' m kvs).
Proof.
  intros H.
  assert (E : forall l x, P l -> nth_error h l = x -> nth_error h' l = x).
  { intros l x Pl <-. now apply H. }
  assert (V : forall w s, P (vloc w) -> hview h w = s -> hview h' w = s).
  { intros w s Pl <-. apply hview_same. now apply H. }
  assert (I : forall l, P l -> P' l) by (intros; now apply H).
  apply repr_mut_ind; intros; subst; try (econstructor; eauto; fail).
Qed.

Lemma repr_not_nil reg P h v d : repr true reg P h v d -> v <> GNil.
Proof. destruct 1; discriminate. Qed.

Section DS.
Variable c : dconfig.
Variable by_ : bytes.
Variable ibuf : loc.
Variable ishift : nat.
Variable buf : bytes.
Variable start : nat.
(** Go slices are shorter than 2^63 *)
Hypothesis Hlen : (Z.of_nat (length by_) < two63)%Z.

Notation len := (length by_).
Notation g := (go_dialect c start).

Lemma at_range (b : bytes) p l : at_ b p l ->
  p + length l <= length b /\ firstn (length l) (skipn p b) = l.
Proof.
  intros (pre & post & -> & <-). rewrite !app_length. split; [lia|].
  rewrite skipn_app, skipn_all, Nat.sub_diag. cbn.
  now rewrite firstn_app, Nat.sub_diag, firstn_all, firstn_O, app_nil_r.
Qed.

Lemma at_slice p l : at_ by_ p l -> slice_range by_ p (p + length l) = Some l.
Proof.
  intros A. apply at_range in A as [L E]. apply slice_range_Some.
  repeat split; try lia. now replace (p + length l - p) with (length l) by lia.
Qed.

Lemma at_nth p x l i : at_ by_ p l -> nth_error l i = Some x -> nth_error by_ (p + i) = Some x.
Proof.
  intros (pre & post & -> & <-) H. rewrite nth_error_app2 by lia.
  replace (length pre + i - length pre) with i by lia. now apply nth_error_app_l.
Qed.

Lemma vint_at p n p' s : vint by_ p n p' ->
  varint_at by_ p s = (Ok (to_int n, p' - p), s) /\ p < p' /\ p' <= len /\ p' - p <= 10.
Proof.
  intros (l & A & G & L & N & ->). pose proof (vgroups_nonempty _ _ G).
  pose proof (proj1 (at_range _ _ _ A)).
  split; [|lia]. unfold varint_at.
  replace (p + length l - p) with (length l) by lia.
  destruct A as (pre & post & -> & <-).
  unfold slice_from. rewrite app_length.
  destruct (Nat.leb_spec (length pre) (length pre + length (l ++ post))); [|lia].
  rewrite skipn_app, skipn_all, Nat.sub_diag. cbn [app skipn].
  now rewrite (varintdecode_groups _ _ _ G L).
Qed.

Lemma is_pad_spec b : is_pad b = true <-> pad_byte b.
Proof.
  unfold is_pad, pad_byte, typePAD, trackFlag.
  change (N.lor 63 128) with 191%N.
  rewrite orb_true_iff, !N.eqb_eq. reflexivity.
Qed.

Lemma tag_skip p q t : tag_at by_ p q t ->
  exists b, skip_pads (skipn p by_) p = Some (b, q) /\ untrack b = t /\ p <= q /\ q < len /\
            nth_error by_ q = Some b.
Proof.
  intros (L & Pd & b & Hb & -> & Nb). exists b.
  assert (Q : q < len) by (eapply nth_error_Some_lt; eauto).
  assert (U : untrack b = (b2n b mod 128)%N) by (unfold untrack; apply land_127).
  repeat split; auto.
  remember (q - p) as k eqn:K. revert p L Pd K.
  induction k as [|k IH]; intros p L Pd K.
  - assert (p = q) by lia. subst p.
    destruct (skipn q by_) as [|x r] eqn:E.
    + apply (f_equal (@length _)) in E. rewrite skipn_length in E. cbn in E. lia.
    + assert (X : nth_error (skipn q by_) 0 = Some b)
        by (rewrite nth_error_skipn, Nat.add_0_r; exact Hb).
      rewrite E in X. injection X as ->. cbn.
      destruct (is_pad b) eqn:E2; auto.
      apply is_pad_spec in E2. exfalso. apply Nb. unfold pad_byte in E2. lia.
  - destruct (Pd p) as (x & Hx & Px); [lia|].
    destruct (skipn p by_) as [|x' r] eqn:E.
    + apply (f_equal (@length _)) in E. rewrite skipn_length in E. cbn in E. lia.
    + assert (X : nth_error (skipn p by_) 0 = Some x)
        by (rewrite nth_error_skipn, Nat.add_0_r; exact Hx).
      rewrite E in X. injection X as ->. cbn.
      apply is_pad_spec in Px. rewrite Px.
      replace r with (skipn (S p) by_).
      * apply IH; try lia. intros i Hi. apply Pd. lia.
      * replace (S p) with (p + 1) by lia. rewrite <- skipn_skipn_add, E. reflexivity.
Qed.

Lemma tk_small t : (t < 32)%N -> tag_kind t = TSmall t.
Proof. intros H. unfold tag_kind, typeVARINT. destruct (N.ltb_spec t 32); [auto|lia]. Qed.

Ltac by_cases t H :=
  destruct t as [|p]; [cbn in H; lia|];
  do 7 (destruct p as [p|p|]; try (cbn in H; lia); try reflexivity).

Lemma tk_short t : (96 <= t < 128)%N -> tag_kind t = TShort (N.to_nat (t - 96)).
Proof. intros H. by_cases t H. Qed.
Lemma tk_arrayref t : (64 <= t < 80)%N -> tag_kind t = TArrayRef (N.to_nat (t - 64)).
Proof. intros H. by_cases t H. Qed.
Lemma tk_hashref t : (80 <= t < 96)%N -> tag_kind t = THashRef (N.to_nat (t - 80)).
Proof. intros H. by_cases t H. Qed.

Definition runs {A} (m : M A) (s : dstate) (a : A) (s' : dstate) : Prop := m s = (Ok a, s').

Lemma runs_bind A B (m : M A) (k : A -> M B) s a s1 b s2 :
  runs m s a s1 -> runs (k a) s1 b s2 -> runs (mbind m k) s b s2.
Proof. unfold runs, mbind. intros -> ->. reflexivity. Qed.

Lemma win_bytes_at p l : at_ by_ p l -> win_bytes by_ (mkWin p (length l)) = l.
Proof. intros A. apply at_range in A as [_ E]. exact E. Qed.

(** literal strings, whatever the recursive call *)
Lemma strlit_runs rec p u str p' s : strlit g by_ p u str p' ->
  exists off, runs (stringish_body by_ rec (Z.of_nat p)) s (mkWin off (length str), p') s /\
              at_ by_ off str /\ p < p' /\ p' <= len.
Proof.
  intros H.
  assert (T : forall q t, tag_at by_ p q t ->
     exists b, skip_pads (skipn (Z.to_nat (Z.of_nat p)) by_) (Z.to_nat (Z.of_nat p)) = Some (b, q) /\
       untrack b = t /\ p <= q /\ q < len).
  { intros q t Ht. rewrite Nat2Z.id. apply tag_skip in Ht as (b & ? & ? & ? & ? & _). eauto. }
  unfold runs, stringish_body, blen.
  destruct H as [p q t str Ht Hr Ha Hl | p q n r str Ht Hv Hm Ha Hl | p q n r str Ht Hv Hm Ha Hl];
    destruct (T _ _ Ht) as (b & -> & -> & L1 & L2);
    (destruct ((Z.of_nat p <? 0) || (Z.of_nat len <=? Z.of_nat p))%Z eqn:B; [lia|]).
  - rewrite tk_short by assumption. rewrite <- Hl, Nat2N.id.
    pose proof (proj1 (at_range _ _ _ Ha)).
    destruct (Nat.ltb_spec len (S q + length str)); [lia|].
    rewrite (at_slice _ _ Ha). exists (S q). repeat split; auto; lia.
  - change (tag_kind 38) with TBinary. cbn [tag_kind].
    destruct (vint_at _ _ _ s Hv) as (V & L3 & L4 & L5).
    unfold mbind. rewrite V. cbn [g_max go_dialect] in Hm.
    pose proof (proj1 (at_range _ _ _ Ha)).
    rewrite to_int_small by (unfold two63; lia).
    unfold maxInt32.
    destruct ((Z.of_N n <? 0) || (2147483647 <? Z.of_N n))%Z eqn:B2; [lia|].
    replace (S q + (r - S q)) with r by lia.
    destruct (Z.of_nat len <? Z.of_nat r + Z.of_N n)%Z eqn:B3; [lia|].
    replace (Z.to_nat (Z.of_N n)) with (length str) by lia.
    rewrite (at_slice _ _ Ha). exists r. repeat split; auto; lia.
  - change (tag_kind 39) with TStrUtf8. cbn [tag_kind].
    destruct (vint_at _ _ _ s Hv) as (V & L3 & L4 & L5).
    unfold mbind. rewrite V. cbn [g_max go_dialect] in Hm.
    pose proof (proj1 (at_range _ _ _ Ha)).
    rewrite to_int_small by (unfold two63; lia).
    unfold maxInt32.
    destruct ((Z.of_N n <? 0) || (2147483647 <? Z.of_N n))%Z eqn:B2; [lia|].
    replace (S q + (r - S q)) with r by lia.
    destruct (Z.of_nat len <? Z.of_nat r + Z.of_N n)%Z eqn:B3; [lia|].
    replace (Z.to_nat (Z.of_N n)) with (length str) by lia.
    rewrite (at_slice _ _ Ha). exists r. repeat split; auto; lia.
Qed.

Lemma state_eta s : mkDState (d_heap s) (d_tracked s) (d_copy s) (d_made s) = s.
Proof. now destruct s. Qed.

Lemma stringish_runs ok p str p' s : stringish g by_ ok p str p' ->
  (ok = true -> d_copy s = 0) ->
  exists w, runs (decodeStringish by_ (Z.of_nat p)) s (w, p') s /\
            win_bytes by_ w = str /\ at_ by_ (w_off w) str /\ w_len w = length str /\
            p < p' /\ p' <= len.
Proof.
  intros H Hc. destruct H as [p u str p' H | p q n r u str e Hok Ht Hv Hlt Hst Hs].
  - destruct (strlit_runs (stringish_fuel by_ 1) _ _ _ _ s H) as (off & R & A & L).
    exists (mkWin off (length str)). split; [exact R|].
    split; [now apply win_bytes_at|]. repeat split; auto; lia.
  - specialize (Hc Hok).
    destruct (tag_skip _ _ _ Ht) as (b & E1 & E2 & L1 & L2 & _).
    destruct (vint_at _ _ _ s Hv) as (V & L3 & L4 & L5).
    set (s1 := mkDState (d_heap s) (d_tracked s) 1 (d_made s)).
    destruct (strlit_runs (stringish_fuel by_ 0) _ _ _ _ s1 Hs) as (off & R & A & L).
    exists (mkWin off (length str)). split.
    2:{ split; [now apply win_bytes_at|]. repeat split; auto; lia. }
    unfold runs, decodeStringish.
    change (stringish_fuel by_ 2 (Z.of_nat p)) with (stringish_body by_ (stringish_fuel by_ 1) (Z.of_nat p)).
    unfold stringish_body at 1, blen. rewrite Nat2Z.id, E1, E2.
    destruct ((Z.of_nat p <? 0) || (Z.of_nat len <=? Z.of_nat p))%Z eqn:B; [lia|].
    change (tag_kind 47) with TCopy. cbn [tag_kind].
    unfold mbind at 1. cbn [get_copy]. rewrite Hc. cbn [Nat.ltb Nat.leb].
    unfold mbind at 1. rewrite V.
    assert (Nn : (n < 18446744073709551616)%N) by (destruct Hv as (l & _ & _ & _ & ? & _); auto).
    rewrite to_int_small by lia.
    destruct ((Z.of_N n <? 0) || (Z.of_nat (S q) <=? Z.of_N n))%Z eqn:B2; [lia|].
    unfold mbind at 1. cbn [set_copy]. fold s1.
    unfold mbind at 1. unfold runs in R.
    replace (Z.of_N n) with (Z.of_nat (N.to_nat n)) by lia.
    change (stringish_fuel by_ 1 (Z.of_nat (N.to_nat n))) with (stringish_body by_ (stringish_fuel by_ 0) (Z.of_nat (N.to_nat n))).
    rewrite R.
    cbn. replace (S (q + (r - S q))) with r by lia.
    unfold ret. rewrite <- Hc. now rewrite state_eta.
Qed.

(** ** Heap bookkeeping *)

(** from s to s' only cells in W (and new ones) changed *)
Definition frm (W : loc -> Prop) (s s' : dstate) : Prop :=
  length (d_heap s) <= length (d_heap s') /\
  (forall l, l < length (d_heap s) -> ~ W l -> nth_error (d_heap s') l = nth_error (d_heap s) l) /\
  d_copy s' = d_copy s.

Lemma frm_refl W s : frm W s s.
Proof. repeat split; auto. Qed.

Lemma frm_comp (W1 W2 : loc -> Prop) a b d : frm W1 a b -> frm W2 b d ->
  (forall l, W2 l -> l < length (d_heap a) -> W1 l) -> frm W1 a d.
Proof.
  intros (L1 & F1 & C1) (L2 & F2 & C2) H. repeat split; [lia| |congruence].
  intros l Hl N. rewrite F2; [apply F1; auto|lia|]. intros W. apply N, H; auto.
Qed.

Lemma frm_alloc W s x : frm W s (with_heap s (d_heap s ++ x)).
Proof.
  repeat split; cbn; [rewrite app_length; lia|]. intros l H _. now apply nth_error_app1.
Qed.

Lemma frm_set p s x : frm (eq p) s (with_heap s (upd (d_heap s) p x)).
Proof.
  repeat split; cbn; [rewrite upd_length; lia|]. intros l H N. now apply nth_error_upd_other.
Qed.

Lemma frm_len W a b : frm W a b -> length (d_heap a) <= length (d_heap b).
Proof. intros (L & _). exact L. Qed.
Lemma frm_copy W a b : frm W a b -> d_copy b = d_copy a.
Proof. intros (_ & _ & E). exact E. Qed.
Lemma frm_cell W a b l x : frm W a b -> nth_error (d_heap a) l = Some x -> ~ W l ->
  nth_error (d_heap b) l = Some x.
Proof.
  intros (_ & F & _) E N. rewrite F; auto. eapply nth_error_Some_lt; eauto.
Qed.

Definition inv (s : dstate) : Prop := nth_error (d_heap s) ibuf = Some (CBuf buf).
Definition nilcell (s : dstate) (l : loc) : Prop := nth_error (d_heap s) l = Some (CV GNil).

Lemma inv_frm (W : loc -> Prop) a b : inv a -> frm W a b -> ~ W ibuf -> inv b.
Proof. unfold inv. intros I F N. eapply frm_cell; eauto. Qed.

Lemma nil_not_ibuf s l : inv s -> nilcell s l -> l <> ibuf.
Proof. unfold inv, nilcell. intros I N ->. congruence. Qed.

Definition fresh (s s' : dstate) (l : loc) : Prop :=
  l = ibuf \/ (length (d_heap s) <= l < length (d_heap s')).

Notation rp := (repr (d_perl c) (reg_of c)).
Notation rps := (reprs (d_perl c) (reg_of c)).
Notation rpm := (reprm (d_perl c) (reg_of c)).

(** moving a representation from s1..s2 to the later s0..s3 *)
Lemma rp_move s0 s1 s2 s3 W : frm W s2 s3 -> inv s2 ->
  length (d_heap s0) <= length (d_heap s1) ->
  (forall l, fresh s1 s2 l -> ~ W l) ->
  forall l, fresh s1 s2 l -> fresh s0 s3 l /\ nth_error (d_heap s3) l = nth_error (d_heap s2) l.
Proof.
  intros F I L N l Hl. split.
  - pose proof (frm_len _ _ _ F). destruct Hl as [->|Hl]; [left; auto|right; lia].
  - destruct F as (_ & F & _). apply F; auto.
    destruct Hl as [->|Hl]; [|lia]. eapply nth_error_Some_lt; eauto.
Qed.

Definition mode_ok (m : cmode) (s : dstate) : Prop :=
  match m with CAny => d_copy s = 0 | CKeys => False | CNone => True end.

Lemma mode_frm W m a b : mode_ok m a -> frm W a b -> mode_ok m b.
Proof. intros H (_ & _ & E). destruct m; cbn in *; congruence. Qed.

Lemma mode_copy m s : mode_ok m s -> copy_ok m = true -> d_copy s = 0.
Proof. destruct m; cbn; easy. Qed.

(** the outcome of decoding one item into ptr *)
Definition decoded (m : M nat) (ptr : loc) (s : dstate) (d : data) (p' : nat) : Prop :=
  exists s' v, runs m s p' s' /\ frm (eq ptr) s s' /\
    nth_error (d_heap s') ptr = Some (CV v) /\ rp (fresh s s') (d_heap s') v d.

Definition Pitem (m : cmode) (p : nat) (d : data) (p' : nat) : Prop :=
  p < p' /\ p' <= len /\
  forall fuel ptr s, mode_ok m s -> need by_ p (d_copy s) <= fuel -> nilcell s ptr -> inv s ->
    decoded (decode c by_ ibuf ishift fuel p ptr) ptr s d p'.

Definition Pitems (m : cmode) (p : nat) (ds : list data) (p' : nat) : Prop :=
  p + length ds <= p' /\ (p <= len -> p' <= len) /\
  forall fuel base s, mode_ok m s -> need by_ p (d_copy s) <= fuel -> inv s ->
    (forall i, i < length ds -> nilcell s (base + i)) ->
    exists s', runs (array_loop (decode c by_ ibuf ishift fuel) (length ds) base p) s p' s' /\
      frm (fun l => base <= l < base + length ds) s s' /\
      rps (fun l => fresh s s' l \/ base <= l < base + length ds) (d_heap s') base ds.

Definition Ppairs (m : cmode) (p : nat) (kvs : list (bytes * data)) (p' : nat) : Prop :=
  p + 2 * length kvs <= p' /\ (p <= len -> p' <= len) /\
  forall fuel ml s0 s m0 kvs0, mode_ok m s -> need by_ p (d_copy s) <= fuel -> inv s ->
    length (d_heap s0) <= length (d_heap s) -> ml < length (d_heap s0) ->
    nth_error (d_heap s) ml = Some (CMap m0) ->
    rpm (fresh s0 s) (d_heap s) m0 kvs0 ->
    exists s' m1, runs (hash_loop by_ (decode c by_ ibuf ishift fuel) (length kvs) ml p) s p' s' /\
      frm (eq ml) s s' /\ nth_error (d_heap s') ml = Some (CMap m1) /\
      rpm (fresh s0 s') (d_heap s') m1 (kvs0 ++ kvs).

(** ** One tag *)

Definition tracked_as (s s1 : dstate) : Prop :=
  d_heap s1 = d_heap s /\ d_copy s1 = d_copy s.

Lemma tag_reduce m p q t d p' :
  tag_at by_ p q t -> S q <= p' -> p' <= len ->
  (forall f ptr s trk, mode_ok m s -> need by_ (S q) (d_copy s) <= f ->
     (d_copy s = 0 -> len + 1 <= f) -> nilcell s ptr -> inv s ->
     decoded (decode_tag c by_ ibuf ishift (decode c by_ ibuf ishift f) (tag_kind t) trk (S q) ptr)
             ptr s d p') ->
  Pitem m p d p'.
Proof.
  intros Ht L1 L2 H.
  destruct (tag_skip _ _ _ Ht) as (b & E1 & E2 & L3 & L4 & _).
  split; [lia|split; [lia|]].
  intros fuel ptr s Hm Hf Hn Hi.
  destruct fuel as [|f]; [unfold need in Hf; destruct (d_copy s); lia|].
  set (s1 := if tracked_bit b then mkDState (d_heap s) ((q, ptr) :: d_tracked s) (d_copy s) (d_made s) else s).
  assert (Eh : d_heap s1 = d_heap s) by (unfold s1; destruct (tracked_bit b); auto).
  assert (Ec : d_copy s1 = d_copy s) by (unfold s1; destruct (tracked_bit b); auto).
  destruct (H f ptr s1 (tracked_bit b)) as (s' & v & R & F & C & V).
  - destruct m; cbn in *; congruence.
  - rewrite Ec. unfold need in *. destruct (d_copy s); lia.
  - rewrite Ec. intros C0. unfold need in Hf. rewrite C0 in Hf. lia.
  - unfold nilcell. now rewrite Eh.
  - unfold inv. now rewrite Eh.
  - exists s', v. split; [|split; [|split; [exact C|]]].
    + unfold runs in *. cbn [decode]. unfold decode_body.
      destruct (Nat.leb_spec len p); [lia|]. rewrite E1, E2.
      unfold mbind at 1.
      destruct (tracked_bit b) eqn:TB; cbn [track ret]; exact R.
    + unfold frm in *. now rewrite <- Eh, <- Ec.
    + unfold fresh in *. now rewrite <- Eh.
Qed.

Lemma set_same s p x : p < length (d_heap s) ->
  nth_error (d_heap (with_heap s (upd (d_heap s) p x))) p = Some x.
Proof. intros. cbn. now apply nth_error_upd_same. Qed.

Lemma nil_lt s p : nilcell s p -> p < length (d_heap s).
Proof. apply nth_error_Some_lt. Qed.

Lemma leaf ptr s v d i : ptr < length (d_heap s) ->
  (forall P h, rp P h v d) -> decoded (set_var ptr v ;; ret i) ptr s d i.
Proof.
  intros N V. exists (with_heap s (upd (d_heap s) ptr (CV v))), v.
  split; [reflexivity|]. split; [apply frm_set|]. split; [|apply V].
  now apply set_same.
Qed.

(** allocate one cell, then point ptr to it *)
Lemma new_leaf ptr s cl (f : loc -> gval) d i : ptr < length (d_heap s) ->
  (forall s', frm (eq ptr) s s' -> length (d_heap s') = S (length (d_heap s)) ->
     nth_error (d_heap s') (length (d_heap s)) = Some cl ->
     rp (fresh s s') (d_heap s') (f (length (d_heap s))) d) ->
  decoded (let! l := alloc cl in (set_var ptr (f l) ;; ret i)) ptr s d i.
Proof.
  intros Lp V.
  set (s1 := with_heap s (d_heap s ++ [cl])).
  set (l := length (d_heap s)).
  set (s2 := with_heap s1 (upd (d_heap s1) ptr (CV (f l)))).
  assert (L1 : length (d_heap s1) = S l) by (cbn; rewrite app_length; cbn; lia).
  assert (F : frm (eq ptr) s s2).
  { eapply frm_comp; [apply frm_alloc|apply frm_set|]. auto. }
  exists s2, (f l). split; [reflexivity|]. split; [exact F|].
  split; [apply set_same; lia|]. apply V; auto.
  - unfold s2. cbn [d_heap with_heap]. rewrite upd_length. exact L1.
  - unfold s2. cbn [d_heap with_heap]. rewrite nth_error_upd_other by lia.
    unfold s1. cbn. rewrite nth_error_app2, Nat.sub_diag by lia. reflexivity.
Qed.

Lemma decoded_bind A (m : M A) (k : A -> M nat) ptr s a d i :
  runs m s a s -> decoded (k a) ptr s d i -> decoded (mbind m k) ptr s d i.
Proof.
  intros R (s' & v & R' & X). exists s', v. split; [|exact X]. eapply runs_bind; eauto.
Qed.

Lemma vint_bound p n r : vint by_ p n r -> (n < 18446744073709551616)%N.
Proof. now intros (l & _ & _ & _ & ? & _). Qed.

Lemma small_int n : (n < 32)%N -> decodeInt n = (if (n <? 16)%N then Z.of_N n else Z.of_N n - 32)%Z.
Proof.
  intros H. destruct n as [|p]; [reflexivity|].
  do 5 (destruct p as [p|p|]; try lia; try reflexivity).
Qed.

Lemma zigzag_odd n : (n < 18446744073709551616)%N -> N.even n = false ->
  zigzag_value (to_int n) = zigzag_meaning n /\ (- two63 <= zigzag_meaning n < 0)%Z.
Proof.
  intros Hn E. unfold zigzag_meaning, zigzag_value. rewrite E.
  rewrite to_uint_to_int by assumption. rewrite N.shiftr_div_pow2. change (2 ^ 1)%N with 2%N.
  rewrite wrap64_small by (unfold two63; lia).
  unfold two63. lia.
Qed.

Lemma le_num_val l : le_num l = le_val l.
Proof. induction l as [|b l IH]; cbn; [auto|]. now rewrite IH. Qed.

Lemma fixed_runs p l k s : at_ by_ p l -> length l = k -> 0 < k ->
  runs (fixed_at by_ p k) s (le_val l) s.
Proof.
  intros A <- Hk. unfold runs, fixed_at.
  pose proof (proj1 (at_range _ _ _ A)).
  destruct (Nat.leb_spec len (p + length l - 1)); [lia|].
  rewrite (at_slice _ _ A). unfold ret. now rewrite le_num_val.
Qed.

Lemma binary_runs p l s : at_ by_ p l -> (Z.of_nat (length l) <= 2147483647)%Z ->
  runs (binary_at by_ p (Z.of_nat (length l))) s (l, p + length l) s.
Proof.
  intros A Hl. unfold runs, binary_at, blen, maxInt32.
  pose proof (proj1 (at_range _ _ _ A)).
  destruct ((Z.of_nat (length l) <? 0) || (2147483647 <? Z.of_nat (length l)))%Z eqn:B; [lia|].
  destruct (Z.of_nat len <? Z.of_nat p + Z.of_nat (length l))%Z eqn:B2; [lia|].
  rewrite Nat2Z.id. rewrite (at_slice _ _ A). reflexivity.
Qed.

(** a binary string copied into a new buffer *)
Lemma binary_copy_decoded p str ptr s : at_ by_ p str -> (Z.of_nat (length str) <= 2147483647)%Z ->
  nilcell s ptr ->
  decoded (let! (v, idx) := binary_copy by_ p (Z.of_nat (length str)) in
           set_var ptr (GBytes v) ;; ret idx) ptr s (DBin str) (p + length str).
Proof.
  intros A Hl N.
  set (s0 := mkDState (d_heap s) (d_tracked s) (d_copy s) ((length str, len - p) :: d_made s)).
  assert (N0 : ptr < length (d_heap s0)) by (apply nil_lt in N; exact N).
  destruct (new_leaf ptr s0 (CBuf str) (fun l => GBytes (mkView l 0 (length str))) (DBin str)
              (p + length str) N0) as (s' & v & R & X).
  - intros s' F L E. constructor; cbn [vloc].
    + right. lia.
    + unfold hview, hbuf. cbn [vloc voff vlen]. rewrite E. cbn. apply firstn_all.
  - exists s', v. split; [|exact X].
    unfold runs, binary_copy, mbind. rewrite (binary_runs _ _ _ A Hl). exact R.
Qed.

(** ** Containers *)

Lemma nil_repeat s n k i : i < k -> k <= n ->
  nth_error (d_heap s ++ repeat (CV GNil) n) (length (d_heap s) + i) = Some (CV GNil).
Proof.
  intros H1 H2. rewrite nth_error_app2 by lia.
  replace (length (d_heap s) + i - length (d_heap s)) with i by lia.
  apply nth_error_repeat. lia.
Qed.

Lemma array_decoded m p ds p' f ptr s isRef :
  Pitems m p ds p' -> p <= len -> (Z.of_nat (length ds) <= 2147483647)%Z ->
  mode_ok m s -> need by_ p (d_copy s) <= f -> nilcell s ptr -> inv s ->
  (isRef = true -> d_perl c = true) ->
  decoded (decodeArray by_ (decode c by_ ibuf ishift f) p (Z.of_nat (length ds)) ptr isRef)
          ptr s (if isRef then DRef (DArr ds) else DArr ds) p'.
Proof.
  intros (P1 & P2 & PI) Hp Hl Hm Hf Hn Hi Hr. specialize (P2 Hp).
  pose proof (nil_lt _ _ Hn) as Lp.
  pose proof (nil_not_ibuf _ _ Hi Hn) as Np.
  set (n := length ds) in *.
  set (s0 := mkDState (d_heap s) (d_tracked s) (d_copy s) ((n, len - p) :: d_made s)).
  set (base := length (d_heap s)).
  assert (Eb : base = length (d_heap s)) by reflexivity.
  set (s1 := with_heap s0 (d_heap s0 ++ repeat (CV GNil) (Nat.max 1 n))).
  assert (L1 : length (d_heap s1) = base + Nat.max 1 n).
  { unfold s1. cbn. rewrite app_length, repeat_length. reflexivity. }
  assert (F1 : frm (eq ptr) s s1) by (apply (frm_alloc (eq ptr) s0)).
  assert (N1 : forall i, i < n -> nilcell s1 (base + i)).
  { intros i H. apply (nil_repeat s0 _ n); lia. }
  (* the state before the loop, and the value in ptr *)
  assert (Pre : exists s2 v, frm (eq ptr) s1 s2 /\ length (d_heap s1) <= length (d_heap s2) /\
     nth_error (d_heap s2) ptr = Some (CV v) /\
     runs ((if isRef then let! q := alloc (CV (GSlice base n)) in set_var ptr (GPtr false q)
            else set_var ptr (GSlice base n))) s1 tt s2 /\
     (if isRef then v = GPtr false (base + Nat.max 1 n) /\
                    nth_error (d_heap s2) (base + Nat.max 1 n) = Some (CV (GSlice base n))
      else v = GSlice base n)).
  { destruct isRef.
    - set (s2 := with_heap (with_heap s1 (d_heap s1 ++ [CV (GSlice base n)]))
                   (upd (d_heap s1 ++ [CV (GSlice base n)]) ptr (CV (GPtr false (length (d_heap s1)))))).
      exists s2, (GPtr false (length (d_heap s1))).
      assert (F : frm (eq ptr) s1 s2).
      { eapply frm_comp; [apply (frm_alloc _ s1 [CV (GSlice base n)])|apply frm_set|auto]. }
      split; [exact F|]. split; [apply (frm_len _ _ _ F)|]. split.
      + unfold s2. cbn [d_heap with_heap]. apply nth_error_upd_same. rewrite app_length. lia.
      + split; [reflexivity|]. rewrite L1. split; [reflexivity|].
        unfold s2. cbn [d_heap with_heap]. rewrite nth_error_upd_other by lia.
        rewrite nth_error_app2 by lia.
        replace (base + Nat.max 1 n - length (d_heap s1)) with 0 by lia. reflexivity.
    - set (s2 := with_heap s1 (upd (d_heap s1) ptr (CV (GSlice base n)))).
      exists s2, (GSlice base n).
      assert (F : frm (eq ptr) s1 s2) by apply frm_set.
      split; [exact F|]. split; [apply (frm_len _ _ _ F)|]. split.
      + apply set_same. lia.
      + split; reflexivity. }
  destruct Pre as (s2 & v & F2 & L2 & C2 & R2 & V2).
  assert (F02 : frm (eq ptr) s s2) by (eapply frm_comp; eauto).
  destruct (PI f base s2) as (s3 & R3 & F3 & RP).
  - eapply mode_frm; eauto.
  - rewrite (frm_copy _ _ _ F02). exact Hf.
  - eapply inv_frm; eauto.
  - intros i H. eapply frm_cell; [exact F2|now apply N1|lia].
  - assert (F03 : frm (eq ptr) s s3).
    { eapply frm_comp; [exact F02|exact F3|]. intros l H1 H2. fold base in H2. cbn beta in H1. lia. }
    exists s3, v. split; [|split; [exact F03|split]].
    + unfold decodeArray, blen, maxInt32.
      destruct ((Z.of_nat n <? 0) || (2147483647 <? Z.of_nat n))%Z eqn:B; [lia|].
      destruct (Z.of_nat len <? Z.of_nat p + Z.of_nat n)%Z eqn:B2; [lia|].
      rewrite Nat2Z.id.
      eapply runs_bind; [reflexivity|]. fold s0.
      eapply runs_bind; [reflexivity|]. fold s1.
      eapply runs_bind; [exact R2|]. exact R3.
    + eapply frm_cell; [exact F3|exact C2|]. cbn beta. lia.
    + assert (RPa : rp (fresh s s3) (d_heap s3) (GSlice base n) (DArr ds)).
      { constructor; [reflexivity|].
        eapply (repr_stable _ _ _ _ (d_heap s3) (d_heap s3)); [|exact RP].
        intros l [[->|H]|H]; split; auto.
        - left; reflexivity.
        - right. pose proof (frm_len _ _ _ F02). fold base in H0. fold base. lia.
        - right. fold base. pose proof (frm_len _ _ _ F3). lia. }
      destruct isRef.
      * destruct V2 as [-> V2]. econstructor; [auto| | |exact RPa].
        -- right. fold base. apply nth_error_Some_lt in V2.
           pose proof (frm_len _ _ _ F3). lia.
        -- eapply frm_cell; [exact F3|exact V2|]. cbn beta. lia.
      * subst v. exact RPa.
Qed.

Lemma hash_decoded m p kvs p' f ptr s isRef :
  Ppairs m p kvs p' -> p <= len -> (Z.of_nat (length kvs) <= 2147483647)%Z ->
  mode_ok m s -> need by_ p (d_copy s) <= f -> nilcell s ptr -> inv s ->
  (isRef = true -> d_perl c = true) ->
  decoded (decodeHash by_ (decode c by_ ibuf ishift f) p (Z.of_nat (length kvs)) ptr isRef)
          ptr s (if isRef then DRef (DHash kvs) else DHash kvs) p'.
Proof.
  intros (P1 & P2 & PI) Hp Hl Hm Hf Hn Hi Hr. specialize (P2 Hp).
  pose proof (nil_lt _ _ Hn) as Lp.
  pose proof (nil_not_ibuf _ _ Hi Hn) as Np.
  set (n := length kvs) in *.
  set (s0 := mkDState (d_heap s) (d_tracked s) (d_copy s) ((n, len - p) :: d_made s)).
  set (ml := length (d_heap s)).
  assert (Eb : ml = length (d_heap s)) by reflexivity.
  set (s1 := with_heap s0 (d_heap s0 ++ [CMap []])).
  assert (L1 : length (d_heap s1) = ml + 1).
  { unfold s1. cbn. rewrite app_length. reflexivity. }
  assert (F1 : frm (eq ptr) s s1) by (apply (frm_alloc (eq ptr) s0)).
  assert (N1 : nth_error (d_heap s1) ml = Some (CMap [])).
  { unfold s1, ml. cbn. rewrite nth_error_app2, Nat.sub_diag by lia. reflexivity. }
  assert (Pre : exists s2 v, frm (eq ptr) s1 s2 /\
     nth_error (d_heap s2) ptr = Some (CV v) /\
     runs ((if isRef then let! q := alloc (CV (GMap ml)) in set_var ptr (GPtr false q)
            else set_var ptr (GMap ml))) s1 tt s2 /\
     (if isRef then v = GPtr false (ml + 1) /\
                    nth_error (d_heap s2) (ml + 1) = Some (CV (GMap ml))
      else v = GMap ml)).
  { destruct isRef.
    - set (s2 := with_heap (with_heap s1 (d_heap s1 ++ [CV (GMap ml)]))
                   (upd (d_heap s1 ++ [CV (GMap ml)]) ptr (CV (GPtr false (length (d_heap s1)))))).
      exists s2, (GPtr false (length (d_heap s1))).
      assert (F : frm (eq ptr) s1 s2).
      { eapply frm_comp; [apply (frm_alloc _ s1 [CV (GMap ml)])|apply frm_set|auto]. }
      split; [exact F|]. split.
      + unfold s2. cbn [d_heap with_heap]. apply nth_error_upd_same. rewrite app_length. lia.
      + split; [reflexivity|]. rewrite L1. split; [reflexivity|].
        unfold s2. cbn [d_heap with_heap]. rewrite nth_error_upd_other by lia.
        rewrite nth_error_app2 by lia.
        replace (ml + 1 - length (d_heap s1)) with 0 by lia. reflexivity.
    - set (s2 := with_heap s1 (upd (d_heap s1) ptr (CV (GMap ml)))).
      exists s2, (GMap ml).
      assert (F : frm (eq ptr) s1 s2) by apply frm_set.
      split; [exact F|]. split.
      + apply set_same. lia.
      + split; reflexivity. }
  destruct Pre as (s2 & v & F2 & C2 & R2 & V2).
  assert (F02 : frm (eq ptr) s s2) by (eapply frm_comp; eauto).
  pose proof (frm_len _ _ _ F2) as L2.
  destruct (PI f ml s1 s2 [] []) as (s3 & m1 & R3 & F3 & C3 & RP).
  - eapply mode_frm; eauto.
  - rewrite (frm_copy _ _ _ F02). exact Hf.
  - eapply inv_frm; eauto.
  - exact L2.
  - lia.
  - eapply frm_cell; [exact F2|exact N1|lia].
  - constructor.
  - assert (F03 : frm (eq ptr) s s3).
    { eapply frm_comp; [exact F02|exact F3|]. intros l H1 H2. fold ml in H2. lia. }
    pose proof (frm_len _ _ _ F3) as L3.
    exists s3, v. split; [|split; [exact F03|split]].
    + unfold decodeHash, blen, maxInt32.
      destruct ((Z.of_nat n <? 0) || (2147483647 <? Z.of_nat n))%Z eqn:B; [lia|].
      destruct (Z.of_nat len <? Z.of_nat p + 2 * Z.of_nat n)%Z eqn:B2; [lia|].
      rewrite Nat2Z.id.
      eapply runs_bind; [reflexivity|]. fold s0.
      eapply runs_bind; [reflexivity|]. fold s1.
      eapply runs_bind; [exact R2|]. exact R3.
    + eapply frm_cell; [exact F3|exact C2|]. cbn beta. lia.
    + assert (RPa : rp (fresh s s3) (d_heap s3) (GMap ml) (DHash kvs)).
      { econstructor.
        - right. fold ml. lia.
        - exact C3.
        - eapply (repr_stable _ _ _ _ (d_heap s3) (d_heap s3)); [|exact RP].
          intros l [->|H]; split; auto; [left; reflexivity|right]. fold ml. lia. }
      destruct isRef.
      * destruct V2 as [-> V2]. econstructor; [auto| | |exact RPa].
        -- right. fold ml. apply nth_error_Some_lt in V2. lia.
        -- eapply frm_cell; [exact F3|exact V2|]. cbn beta. lia.
      * subst v. exact RPa.
Qed.

(** ** Items stored in a fresh variable *)

Lemma rec_fresh m p d p' f s : Pitem m p d p' ->
  mode_ok m s -> need by_ p (d_copy s) <= f -> inv s ->
  exists s' v, runs (let! l := alloc (CV GNil) in decode c by_ ibuf ishift f p l) s p' s' /\
    (forall W, frm W s s') /\ nth_error (d_heap s') (length (d_heap s)) = Some (CV v) /\
    rp (fresh s s') (d_heap s') v d /\ length (d_heap s) < length (d_heap s').
Proof.
  intros (P1 & P2 & PI) Hm Hf Hi.
  set (s1 := with_heap s (d_heap s ++ [CV GNil])).
  assert (F1 : forall W, frm W s s1) by (intros; apply frm_alloc).
  destruct (PI f (length (d_heap s)) s1) as (s2 & v & R & F & C & V).
  - eapply mode_frm; [exact Hm|apply (F1 (fun _ => False))].
  - exact Hf.
  - unfold nilcell, s1. cbn. rewrite nth_error_app2, Nat.sub_diag by lia. reflexivity.
  - eapply inv_frm; [exact Hi|apply (F1 (fun _ => False))|auto].
  - exists s2, v. split; [|split; [|split; [exact C|split]]].
    + eapply runs_bind; [reflexivity|]. exact R.
    + intros W. eapply frm_comp; [apply F1|exact F|]. intros; lia.
    + pose proof (frm_len _ _ _ F).
      eapply (repr_stable _ _ _ _ (d_heap s2) (d_heap s2)); [|exact V].
      intros l [->|H1]; split; auto; [left; reflexivity|right].
      unfold s1 in H1. cbn in H1. rewrite app_length in H1. lia.
    + apply nth_error_Some_lt in C. exact C.
Qed.

(** an item behind a new cell to which ptr already points *)
Lemma rec_under m p d p' f ptr s (mk : loc -> gval) :
  Pitem m p d p' -> mode_ok m s -> need by_ p (d_copy s) <= f -> inv s -> nilcell s ptr ->
  exists s' v, runs (let! l := alloc (CV GNil) in (set_var ptr (mk l) ;; decode c by_ ibuf ishift f p l)) s p' s' /\
    frm (eq ptr) s s' /\ nth_error (d_heap s') ptr = Some (CV (mk (length (d_heap s)))) /\
    nth_error (d_heap s') (length (d_heap s)) = Some (CV v) /\
    rp (fresh s s') (d_heap s') v d /\ length (d_heap s) < length (d_heap s').
Proof.
  intros (P1 & P2 & PI) Hm Hf Hi Hn.
  pose proof (nil_lt _ _ Hn) as Lp.
  pose proof (nil_not_ibuf _ _ Hi Hn) as Np.
  set (l := length (d_heap s)).
  set (s1 := with_heap s (d_heap s ++ [CV GNil])).
  set (s2 := with_heap s1 (upd (d_heap s1) ptr (CV (mk l)))).
  assert (F1 : frm (eq ptr) s s2).
  { eapply frm_comp; [apply frm_alloc|apply frm_set|auto]. }
  assert (L1 : length (d_heap s1) = S l) by (unfold s1, l; cbn; rewrite app_length; cbn; lia).
  destruct (PI f l s2) as (s3 & v & R & F & C & V).
  - eapply mode_frm; eauto.
  - exact Hf.
  - unfold nilcell, s2. cbn [d_heap with_heap]. rewrite nth_error_upd_other by lia.
    unfold s1, l. cbn. rewrite nth_error_app2, Nat.sub_diag by lia. reflexivity.
  - eapply inv_frm; eauto.
  - exists s3, v. split; [|split; [|split; [|split; [exact C|split]]]].
    + eapply runs_bind; [reflexivity|]. eapply runs_bind; [reflexivity|]. exact R.
    + eapply frm_comp; [exact F1|exact F|]. intros; lia.
    + eapply frm_cell; [exact F| |lia]. apply set_same. lia.
    + pose proof (frm_len _ _ _ F). pose proof (frm_len _ _ _ F1).
      eapply (repr_stable _ _ _ _ (d_heap s3) (d_heap s3)); [|exact V].
      intros l' [->|H1]; split; auto; [left; reflexivity|right]. fold l. fold l in H0. lia.
    + apply nth_error_Some_lt in C. exact C.
Qed.

(** decoding that started earlier, in s0 *)
Definition decodedB (s0 : dstate) (m : M nat) (ptr : loc) (s : dstate) (d : data) (p' : nat) : Prop :=
  exists s' v, runs m s p' s' /\ frm (eq ptr) s s' /\
    nth_error (d_heap s') ptr = Some (CV v) /\ rp (fresh s0 s') (d_heap s') v d.

Lemma decoded_from s (m : M nat) (m' : M nat) ptr s1 d i :
  m s = m' s1 -> frm (eq ptr) s s1 -> decodedB s m' ptr s1 d i -> decoded m ptr s d i.
Proof.
  intros E F (s' & v & R' & F' & C & V). exists s', v.
  split; [unfold runs in *; congruence|]. split; [eapply frm_comp; eauto|]. split; auto.
Qed.

Lemma decodedB_of s0 m ptr s d i : length (d_heap s0) <= length (d_heap s) ->
  decoded m ptr s d i -> decodedB s0 m ptr s d i.
Proof.
  intros L (s' & v & R' & F' & C & V). exists s', v.
  split; [exact R'|]. split; [exact F'|]. split; [exact C|].
  eapply (repr_stable _ _ _ _ (d_heap s') (d_heap s')); [|exact V].
  intros l [->|H1]; split; auto; [left; reflexivity|right; lia].
Qed.

Lemma leafB s0 ptr s v d i : ptr < length (d_heap s) ->
  (forall h', (forall l, fresh s0 s l -> l <> ptr -> nth_error h' l = nth_error (d_heap s) l) ->
     rp (fresh s0 s) h' v d) -> decodedB s0 (set_var ptr v ;; ret i) ptr s d i.
Proof.
  intros N V. exists (with_heap s (upd (d_heap s) ptr (CV v))), v.
  split; [reflexivity|]. split; [apply frm_set|]. split; [now apply set_same|].
  assert (E : forall l, fresh s0 s l -> fresh s0 (with_heap s (upd (d_heap s) ptr (CV v))) l).
  { intros l [->|H]; [now left|right]. cbn. rewrite upd_length. exact H. }
  eapply (repr_stable _ _ (fresh s0 s) _ (upd (d_heap s) ptr (CV v)) _); [|apply V].
  - intros l H. split; [now apply E|reflexivity].
  - intros l H Nl. apply nth_error_upd_other. congruence.
Qed.

Lemma new_leafB s0 ptr s cl (f : loc -> gval) d i : ptr < length (d_heap s) ->
  (forall s', frm (eq ptr) s s' -> length (d_heap s') = S (length (d_heap s)) ->
     nth_error (d_heap s') (length (d_heap s)) = Some cl ->
     rp (fresh s0 s') (d_heap s') (f (length (d_heap s))) d) ->
  decodedB s0 (let! l := alloc cl in (set_var ptr (f l) ;; ret i)) ptr s d i.
Proof.
  intros Lp V.
  set (s1 := with_heap s (d_heap s ++ [cl])).
  set (l := length (d_heap s)).
  set (s2 := with_heap s1 (upd (d_heap s1) ptr (CV (f l)))).
  assert (L1 : length (d_heap s1) = S l) by (cbn; rewrite app_length; cbn; lia).
  assert (F : frm (eq ptr) s s2).
  { eapply frm_comp; [apply frm_alloc|apply frm_set|]. auto. }
  exists s2, (f l). split; [reflexivity|]. split; [exact F|].
  split; [apply set_same; lia|]. apply V; auto.
  - unfold s2. cbn [d_heap with_heap]. rewrite upd_length. exact L1.
  - unfold s2. cbn [d_heap with_heap]. rewrite nth_error_upd_other by lia.
    unfold s1. cbn. rewrite nth_error_app2, Nat.sub_diag by lia. reflexivity.
Qed.

Lemma bind_run A B (m : M A) (k : A -> M B) s a s1 :
  runs m s a s1 -> mbind m k s = k a s1.
Proof. unfold runs, mbind. now intros ->. Qed.

Lemma under_bind cl ptr mk (rec : loc -> M nat) (k : nat -> loc -> M nat) s i s' :
  runs (let! l := alloc cl in (set_var ptr (mk l) ;; rec l)) s i s' ->
  (let! l := alloc cl in (set_var ptr (mk l) ;; let! i := rec l in k i l)) s
  = k i (length (d_heap s)) s'.
Proof.
  unfold runs, mbind, alloc, set_var.
  destruct (rec _ _) as [[a|e|e| |] s2]; intros H; try discriminate.
  now injection H as -> ->.
Qed.

Lemma fresh_bind cl (rec : loc -> M nat) (k : nat -> loc -> M nat) s i s' :
  runs (let! l := alloc cl in rec l) s i s' ->
  (let! l := alloc cl in let! i := rec l in k i l) s = k i (length (d_heap s)) s'.
Proof.
  unfold runs, mbind, alloc.
  destruct (rec _ _) as [[a|e|e| |] s2]; intros H; try discriminate.
  now injection H as -> ->.
Qed.

Lemma hget_cell h l v : nth_error h l = Some (CV v) -> hget h l = v.
Proof. unfold hget. now intros ->. Qed.

(** ** Closure lemmas *)

Lemma Pitem_refn m p q d p' : tag_at by_ p q 40 -> Pitem m (S q) d p' -> Pitem m p (DRef d) p'.
Proof.
  intros Ht PP. pose proof PP as (P1 & P2 & PI).
  apply (tag_reduce m p q 40); auto; [lia|].
  intros f ptr s trk Hm Hf Hf0 Hn Hi. change (tag_kind 40) with TRefn. cbn [decode_tag].
  destruct (d_perl c) eqn:Pl.
  - destruct (rec_under m (S q) d p' f ptr s (GPtr true)) as (s' & v & R & F & C & Cl & V & L); auto.
    assert (Np : v <> GNil) by (rewrite Pl in V; eapply repr_not_nil; eauto).
    eapply decoded_from; [eapply under_bind; exact R|exact F|].
    destruct trk.
    + exists s', (GPtr true (length (d_heap s))). split; [reflexivity|].
      split; [apply frm_refl|split; [exact C|]].
      eapply r_ref_perl; eauto. right. lia.
    + assert (E : forall l, fresh s s' l -> l <> ptr).
      { intros l [->|H] ->.
        - now apply (nil_not_ibuf _ _ Hi Hn).
        - apply nil_lt in Hn. lia. }
      assert (D : decodedB s (let! l2 := alloc (CV v) in (set_var ptr (GPtr false l2) ;; ret p')) ptr s' (DRef d) p').
      { apply new_leafB; [apply nil_lt in Hn; lia|].
        intros s2 F2 L2 C2. eapply r_ref_perl; eauto; [right; lia|].
        eapply repr_stable; [|exact V]. intros l Hl. split.
        - destruct Hl as [->|Hl]; [now left|right; lia].
        - destruct F2 as (_ & F2 & _). apply F2.
          + destruct Hl as [->|Hl]; [|lia]. apply nth_error_Some_lt in Hi.
            pose proof (frm_len _ _ _ F). lia.
          + intros ->. now apply (E l Hl). }
      unfold decodedB, runs in D |- *. unfold mbind at 1. cbn [get_var].
      rewrite (hget_cell _ _ _ Cl). destruct v; try contradiction; exact D.
  - destruct (PI f ptr s) as (s' & v & R & F & C & V); auto.
    exists s', v. repeat split; auto; try apply F. now apply r_ref.
Qed.

Lemma Pitem_weaken m p q d p' : tag_at by_ p q 48 -> Pitem m (S q) d p' -> Pitem m p (DWeak d) p'.
Proof.
  intros Ht PP. pose proof PP as (P1 & P2 & PI).
  apply (tag_reduce m p q 48); auto; [lia|].
  intros f ptr s trk Hm Hf Hf0 Hn Hi. change (tag_kind 48) with TWeaken. cbn [decode_tag].
  destruct (d_perl c) eqn:Pl.
  - destruct (rec_under m (S q) d p' f ptr s GWeakP) as (s' & v & R & F & C & Cl & V & L); auto.
    exists s', (GWeakP (length (d_heap s))). split; [exact R|].
    split; [exact F|split; [exact C|]]. eapply r_weak_perl; eauto. right. lia.
  - destruct (PI f ptr s) as (s' & v & R & F & C & V); auto.
    exists s', v. repeat split; auto; try apply F. now apply r_weak.
Qed.

Lemma need_mono p p' k f : need by_ p k <= f -> p <= p' -> need by_ p' k <= f.
Proof. unfold need. destruct k; lia. Qed.

Lemma Pitem_array m p q n r ds p' : tag_at by_ p q 43 -> vint by_ (S q) n r ->
  (n <= 2147483647)%N -> N.of_nat (length ds) = n -> Pitems m r ds p' -> Pitem m p (DArr ds) p'.
Proof.
  intros Ht Hv Hn En PP. pose proof PP as (P1 & P2 & _).
  destruct (vint_at _ _ _ (mkDState [] [] 0 []) Hv) as (_ & L1 & L2 & L3). specialize (P2 L2).
  apply (tag_reduce m p q 43); auto; [lia|].
  intros f ptr s trk Hm Hf Hf0 Hnil Hi. change (tag_kind 43) with TArray. cbn [decode_tag].
  destruct (vint_at _ _ _ s Hv) as (V & _).
  eapply decoded_bind; [exact V|]. cbn [fst snd].
  replace (S q + (r - S q)) with r by lia.
  rewrite to_int_small by (unfold two63; lia).
  replace (Z.of_N n) with (Z.of_nat (length ds)) by lia.
  apply (array_decoded m r ds p' f ptr s false); auto; try lia; try discriminate.
  eapply need_mono; eauto. lia.
Qed.

Lemma Pitem_arrayref m p q t ds p' : tag_at by_ p q t -> (64 <= t < 80)%N ->
  N.of_nat (length ds) = (t - 64)%N -> Pitems m (S q) ds p' -> Pitem m p (DRef (DArr ds)) p'.
Proof.
  intros Ht Hr En PP. pose proof PP as (P1 & P2 & _).
  destruct (tag_skip _ _ _ Ht) as (b & _ & _ & L3 & L4 & _).
  specialize (P2 L4); apply (tag_reduce m p q t); [exact Ht|lia|exact P2|].
  intros f ptr s trk Hm Hf Hf0 Hnil Hi. rewrite tk_arrayref by assumption. cbn [decode_tag].
  replace (N.to_nat (t - 64)) with (length ds) by lia.
  assert (D := array_decoded m (S q) ds p' f ptr s (d_perl c) PP L4 ltac:(lia) Hm Hf Hnil Hi (fun x => x)).
  destruct (d_perl c) eqn:Pl; [exact D|].
  destruct D as (s' & v & R & F & C & V). exists s', v. repeat split; auto; try apply F.
  now apply r_ref.
Qed.

Lemma Pitem_hash m p q n r kvs p' : tag_at by_ p q 42 -> vint by_ (S q) n r ->
  (n <= 2147483647)%N -> N.of_nat (length kvs) = n -> Ppairs m r kvs p' -> Pitem m p (DHash kvs) p'.
Proof.
  intros Ht Hv Hn En PP. pose proof PP as (P1 & P2 & _).
  destruct (vint_at _ _ _ (mkDState [] [] 0 []) Hv) as (_ & L1 & L2 & L3). specialize (P2 L2).
  apply (tag_reduce m p q 42); auto; [lia|].
  intros f ptr s trk Hm Hf Hf0 Hnil Hi. change (tag_kind 42) with THash. cbn [decode_tag].
  destruct (vint_at _ _ _ s Hv) as (V & _).
  eapply decoded_bind; [exact V|]. cbn [fst snd].
  replace (S q + (r - S q)) with r by lia.
  rewrite to_int_small by (unfold two63; lia).
  replace (Z.of_N n) with (Z.of_nat (length kvs)) by lia.
  apply (hash_decoded m r kvs p' f ptr s false); auto; try lia; try discriminate.
  eapply need_mono; eauto. lia.
Qed.

Lemma Pitem_hashref m p q t kvs p' : tag_at by_ p q t -> (80 <= t < 96)%N ->
  N.of_nat (length kvs) = (t - 80)%N -> Ppairs m (S q) kvs p' -> Pitem m p (DRef (DHash kvs)) p'.
Proof.
  intros Ht Hr En PP. pose proof PP as (P1 & P2 & _).
  destruct (tag_skip _ _ _ Ht) as (b & _ & _ & L3 & L4 & _).
  specialize (P2 L4); apply (tag_reduce m p q t); [exact Ht|lia|exact P2|].
  intros f ptr s trk Hm Hf Hf0 Hnil Hi. rewrite tk_hashref by assumption. cbn [decode_tag].
  replace (N.to_nat (t - 80)) with (length kvs) by lia.
  assert (D := hash_decoded m (S q) kvs p' f ptr s (d_perl c) PP L4 ltac:(lia) Hm Hf Hnil Hi (fun x => x)).
  destruct (d_perl c) eqn:Pl; [exact D|].
  destruct D as (s' & v & R & F & C & V). exists s', v. repeat split; auto; try apply F.
  now apply r_ref.
Qed.

Lemma Pitems_nil m p : Pitems m p [] p.
Proof.
  split; [cbn; lia|split; [auto|]]. intros f base s Hm Hf Hi Hn.
  exists s. split; [reflexivity|]. split; [apply frm_refl|]. constructor.
Qed.

Lemma Pitems_cons m p d r ds p' : Pitem m p d r -> Pitems m r ds p' -> Pitems m p (d :: ds) p'.
Proof.
  intros (P1 & P2 & PI) (Q1 & Q2 & QI). specialize (Q2 P2).
  split; [cbn; lia|split; [auto|]]. intros f base s Hm Hf Hi Hn.
  assert (Hn0 : nilcell s base) by (rewrite <- (Nat.add_0_r base); apply Hn; cbn; lia).
  destruct (PI f base s) as (s1 & v & R1 & F1 & C1 & V1); auto.
  assert (Nb : base <> ibuf) by (eapply nil_not_ibuf; eauto).
  assert (I1 : inv s1) by (eapply inv_frm; eauto; congruence).
  destruct (QI f (S base) s1) as (s2 & R2 & F2 & V2).
  - eapply mode_frm; eauto.
  - rewrite (frm_copy _ _ _ F1). eapply need_mono; eauto. lia.
  - exact I1.
  - intros i Hi'. eapply frm_cell; [exact F1| |lia].
    replace (S base + i) with (base + S i) by lia. apply Hn. cbn. lia.
  - pose proof (frm_len _ _ _ F1) as L1. pose proof (frm_len _ _ _ F2) as L2.
    pose proof (nil_lt _ _ Hn0) as Lb.
    assert (Lall : forall i, i < length ds -> S base + i < length (d_heap s)).
    { intros i Hi'. replace (S base + i) with (base + S i) by lia. apply nil_lt, Hn. cbn. lia. }
    assert (Nall : forall i, i < length ds -> S base + i <> ibuf).
    { intros i Hi'. replace (S base + i) with (base + S i) by lia.
      apply (nil_not_ibuf s); [exact Hi|]. apply Hn. cbn. lia. }
    exists s2. split; [|split].
    + cbn [length array_loop]. eapply runs_bind; eauto.
    + eapply frm_comp.
      * eapply frm_comp with (W1 := fun l => base <= l < base + length (d :: ds));
          [apply frm_refl|exact F1|]. intros l <- _. cbn. lia.
      * exact F2.
      * cbn. intros l H _. lia.
    + assert (Same : forall l, fresh s s1 l -> nth_error (d_heap s2) l = nth_error (d_heap s1) l).
      { intros l Hl. destruct F2 as (_ & F2 & _). apply F2.
        - destruct Hl as [->|Hl]; [|lia]. eapply nth_error_Some_lt; exact I1.
        - intros W. destruct Hl as [->|Hl].
          + apply (Nall (ibuf - S base)); lia.
          + specialize (Lall (l - S base)). lia. }
      econstructor.
      * right. cbn. lia.
      * eapply frm_cell; [exact F2|exact C1|]. cbn beta. lia.
      * eapply repr_stable; [|exact V1]. intros l Hl. split; [|now apply Same].
        left. destruct Hl as [->|Hl]; [now left|right; lia].
      * eapply repr_stable; [|exact V2]. intros l Hl. split; [|reflexivity].
        destruct Hl as [[->|Hl]|Hl]; [left; now left|left; right; lia|right; cbn; lia].
Qed.

Lemma Ppairs_nil m p : Ppairs m p [] p.
Proof.
  split; [cbn; lia|split; [auto|]]. intros f ml s0 s m0 kvs0 Hm Hf Hi L Hml C V.
  exists s, m0. split; [reflexivity|]. split; [apply frm_refl|]. split; [exact C|].
  now rewrite app_nil_r.
Qed.

Lemma Ppairs_cons m p k r d r' kvs p' :
  stringish g by_ (copy_ok m) p k r -> Pitem m r d r' -> Ppairs m r' kvs p' ->
  Ppairs m p ((k, d) :: kvs) p'.
Proof.
  intros Hk PP (Q1 & Q2 & QI). pose proof PP as (P1 & P2 & PI). specialize (Q2 P2).
  destruct (stringish_runs _ _ _ _ (mkDState [] [] 0 []) Hk) as (_ & _ & _ & _ & _ & L1 & L2); [reflexivity|].
  split; [cbn; lia|split; [auto|]]. intros f ml s0 s m0 kvs0 Hm Hf Hi L0 Hml C V.
  destruct (stringish_runs _ _ _ _ s Hk (mode_copy _ _ Hm)) as (w & Rk & Ew & _ & _ & _ & _).
  assert (Nml : ml <> ibuf) by (intros ->; unfold inv in Hi; congruence).
  destruct (rec_fresh m r d r' f s PP Hm ltac:(eapply need_mono; eauto; lia) Hi)
    as (s1 & v & R1 & F1 & C1 & V1 & L3).
  set (s2 := with_heap s1 (upd (d_heap s1) ml (CMap (mput (hmap (d_heap s1) ml) k v)))).
  assert (F12 : frm (eq ml) s1 s2) by apply frm_set.
  assert (C1m : nth_error (d_heap s1) ml = Some (CMap m0)).
  { eapply frm_cell; [apply (F1 (fun _ => False))|exact C|auto]. }
  assert (Em : hmap (d_heap s1) ml = m0) by (unfold hmap; now rewrite C1m).
  assert (I1 : inv s1) by (eapply inv_frm; [exact Hi|apply (F1 (fun _ => False))|auto]).
  assert (I2 : inv s2) by (eapply inv_frm; eauto; congruence).
  pose proof (frm_len _ _ _ F12) as L12.
  assert (F02 : frm (eq ml) s s2) by (eapply frm_comp; [apply F1|exact F12|auto]).
  destruct (QI f ml s0 s2 (mput m0 k v) (kvs0 ++ [(k, d)])) as (s3 & m1 & R3 & F3 & C3 & V3).
  - eapply mode_frm; eauto.
  - rewrite (frm_copy _ _ _ F02). eapply need_mono; eauto. lia.
  - exact I2.
  - lia.
  - exact Hml.
  - unfold s2. cbn [d_heap with_heap]. rewrite nth_error_upd_same by lia. now rewrite Em.
  - constructor.
    + eapply repr_stable; [|exact V]. intros l Hl. split.
      * destruct Hl as [->|Hl]; [now left|right; lia].
      * destruct F02 as (_ & F02 & _). apply F02.
        -- destruct Hl as [->|Hl]; [eapply nth_error_Some_lt; exact Hi|lia].
        -- intros <-. destruct Hl as [->|Hl]; [contradiction|lia].
    + eapply repr_stable; [|exact V1]. intros l Hl. split.
      * destruct Hl as [->|Hl]; [now left|right; lia].
      * destruct F12 as (_ & F12 & _). apply F12.
        -- destruct Hl as [->|Hl]; [eapply nth_error_Some_lt; exact I1|lia].
        -- intros <-. destruct Hl as [->|Hl]; [contradiction|lia].
  - exists s3, m1. split; [|split; [|split; [exact C3|]]].
    + cbn [length hash_loop]. eapply runs_bind; [exact Rk|]. cbn [fst snd].
      unfold runs.
      erewrite (fresh_bind (CV GNil) (fun l => decode c by_ ibuf ishift f r l)
        (fun idx vl => let! v0 := get_var vl in (map_set ml (win_bytes by_ w) v0 ;;
            hash_loop by_ (decode c by_ ibuf ishift f) (length kvs) ml idx))); [|exact R1].
      eapply runs_bind; [reflexivity|]. rewrite (hget_cell _ _ _ C1), Ew.
      eapply runs_bind; [reflexivity|]. exact R3.
    + eapply frm_comp; [exact F02|exact F3|auto].
    + rewrite <- app_assoc in V3. exact V3.
Qed.

(** the class of OBJECTV / OBJECTV_FREEZE *)
Lemma strlit_runs_any p u str e s : strlit g by_ p u str e ->
  exists w i, runs (decodeStringish by_ (Z.of_nat p)) s (w, i) s /\ win_bytes by_ w = str.
Proof.
  intros H. destruct (strlit_runs (stringish_fuel by_ 1) _ _ _ _ s H) as (off & R & A & _).
  eexists _, _. split; [exact R|]. now apply win_bytes_at.
Qed.

Lemma class_lit ok p cls r s : stringish g by_ ok p cls r -> (ok = true -> d_copy s = 0) ->
  runs (class_name by_ p false) s (cls, r) s.
Proof.
  intros H Hc. destruct (stringish_runs _ _ _ _ s H Hc) as (w & R & E & _).
  unfold class_name. eapply runs_bind; [exact R|]. cbn [fst snd]. now rewrite E.
Qed.

Lemma class_off p n r q u cls e s : vint by_ p n r -> N.to_nat n < q -> q < len ->
  strlit g by_ (N.to_nat n) u cls e -> runs (class_name by_ p true) s (cls, r) s.
Proof.
  intros Hv L1 L2 H. destruct (vint_at _ _ _ s Hv) as (V & L3 & L4 & _).
  destruct (strlit_runs_any _ _ _ _ s H) as (w & i & R & E).
  unfold class_name. eapply runs_bind; [exact V|]. cbn [fst snd].
  rewrite to_int_small by lia. replace (Z.of_N n) with (Z.of_nat (N.to_nat n)) by lia.
  eapply runs_bind; [exact R|]. cbn [fst]. rewrite E.
  now replace (p + (r - p)) with r by lia.
Qed.

Lemma object_decoded m r d p' f ptr s isV q cls : Pitem m r d p' ->
  runs (class_name by_ q isV) s (cls, r) s ->
  mode_ok m s -> need by_ r (d_copy s) <= f -> nilcell s ptr -> inv s ->
  decoded (decodeObject c by_ (decode c by_ ibuf ishift f) q ptr isV) ptr s (DObj cls d) p'.
Proof.
  intros PP R Hm Hf Hn Hi. pose proof PP as (P1 & P2 & _).
  unfold decodeObject. eapply decoded_bind; [exact R|]. cbn [fst snd].
  destruct (d_perl c) eqn:Pl.
  - destruct (rec_under m r d p' f ptr s (GObjP cls)) as (s' & v & R1 & F & C & Cl & V & L); auto.
    exists s', (GObjP cls (length (d_heap s))). split; [exact R1|].
    split; [exact F|split; [exact C|]]. eapply r_obj_perl; eauto. right. lia.
  - unfold decode_via_iface. destruct (Nat.leb_spec len r); [lia|].
    eapply decoded_bind; [reflexivity|]. rewrite (hget_cell _ _ _ Hn).
    destruct (rec_fresh m r d p' f s PP Hm Hf Hi) as (s1 & v & R1 & F1 & C1 & V1 & L3).
    eapply decoded_from.
    { eapply (fresh_bind (CV GNil) (fun l => decode c by_ ibuf ishift f r l)
        (fun idx l => let! v := get_var l in
                      match v with GNil => ret idx | _ => set_var ptr v ;; ret idx end)).
      exact R1. }
    { apply F1. }
    assert (Lp : ptr < length (d_heap s1)) by (apply nil_lt in Hn; lia).
    assert (V2 : rp (fresh s s1) (d_heap s1) v (DObj cls d)) by (now apply r_obj).
    unfold decodedB, runs. unfold mbind at 1. cbn [get_var]. rewrite (hget_cell _ _ _ C1).
    assert (D : decodedB s (set_var ptr v ;; ret p') ptr s1 (DObj cls d) p').
    { apply leafB; [exact Lp|]. intros h' E. eapply repr_stable; [|exact V2].
      intros l Hl. split; [exact Hl|]. apply E; auto.
      pose proof (nil_lt _ _ Hn). destruct Hl as [->|Hl]; [|lia].
      intros ->. now apply (nil_not_ibuf _ _ Hi Hn). }
    destruct v; try exact D.
    exists s1, GNil. split; [reflexivity|]. split; [apply frm_refl|]. split; [|exact V2].
    eapply frm_cell; [apply (F1 (fun _ => False))|exact Hn|auto].
Qed.

Lemma repr_single_bin P h v s : d_perl c = false -> rp P h v (DRef (DArr [DBin s])) ->
  exists base w, v = GSlice base 1 /\ hget h base = GBytes w /\ P (vloc w) /\ hview h w = s.
Proof.
  intros Pl H. inversion H as [| | | | | | | | | | | | |v' d' _ H1| | | | | | | | |]; subst; try congruence.
  inversion H1 as [| | | | | | | | | | |base n ds En Hs| | | | | | | | | | |]; subst.
  inversion Hs as [|l v d ds P1 C1 R1 _]; subst.
  inversion R1; subst.
  exists base, w. split; [reflexivity|]. split; [now apply hget_cell|]. auto.
Qed.

Lemma freeze_decoded m r n r' str p' f ptr s isV q cls :
  at_ by_ r [x28; x2b] -> vint by_ (r + 2) n r' -> n = 1%N -> Pitem m r' (DBin str) p' ->
  g_frz g cls str ->
  runs (class_name by_ q isV) s (cls, r) s ->
  mode_ok m s -> need by_ r (d_copy s) <= f -> nilcell s ptr -> inv s ->
  decoded (decodeFreeze c by_ (decode c by_ ibuf ishift f) q ptr isV) ptr s (DFreeze cls str) p'.
Proof.
  intros Ha Hv En PP [Pl Hum] R Hm Hf Hn Hi.
  assert (B0 : nth_error by_ r = Some x28)
    by (rewrite <- (Nat.add_0_r r); eapply at_nth; [exact Ha|reflexivity]).
  assert (B1 : nth_error by_ (r + 1) = Some x2b)
    by (eapply at_nth; [exact Ha|reflexivity]).
  assert (PI : Pitem m r (DRef (DArr [DBin str])) p').
  { apply Pitem_refn with (q := r).
    - split; [lia|split; [intros; lia|]]. exists x28. repeat split; auto. discriminate.
    - apply Pitem_array with (q := S r) (n := n) (r := r').
      + split; [lia|split; [intros; lia|]]. exists x2b. rewrite <- Nat.add_1_r.
        repeat split; auto. discriminate.
      + replace (S (S r)) with (r + 2) by lia. exact Hv.
      + lia.
      + subst n. reflexivity.
      + eapply Pitems_cons; [exact PP|apply Pitems_nil]. }
  pose proof (proj1 (at_range _ _ _ Ha)) as La. cbn in La.
  destruct (rec_fresh m r _ p' f s PI Hm Hf Hi) as (s1 & v & R1 & F1 & C1 & V1 & L3).
  destruct (repr_single_bin _ _ _ _ Pl V1) as (base & w & -> & Hb & Pw & Ew).
  assert (Lp : ptr < length (d_heap s1)) by (apply nil_lt in Hn; lia).
  assert (Cp : nth_error (d_heap s1) ptr = Some (CV GNil))
    by (eapply frm_cell; [apply (F1 (fun _ => False))|exact Hn|auto]).
  assert (Nw : vloc w <> ptr).
  { pose proof (nil_lt _ _ Hn). destruct Pw as [E|E]; [|lia].
    intros E2. apply (nil_not_ibuf _ _ Hi Hn). congruence. }
  assert (I1 : inv s1) by (eapply inv_frm; [exact Hi|apply (F1 (fun _ => False))|auto]).
  assert (Lw : vloc w < length (d_heap s1)).
  { destruct Pw as [E|E]; [rewrite E; eapply nth_error_Some_lt; exact I1|lia]. }
  unfold decodeFreeze. eapply decoded_bind; [exact R|]. cbn [fst snd].
  destruct (Nat.leb_spec len (r + 1)); [lia|]. rewrite B0, B1.
  change (negb ((b2n x28 =? typeREFN) && (b2n x2b =? typeARRAY))%N) with false. cbv iota.
  eapply decoded_from.
  { eapply (fresh_bind (CV GNil) (fun l => decode c by_ ibuf ishift f r l)). exact R1. }
  { apply F1. }
  unfold decodedB, runs. unfold mbind at 1. cbn [get_var]. rewrite (hget_cell _ _ _ C1).
  cbn [Nat.eqb negb]. unfold mbind at 1. cbn [get_var]. rewrite Hb, Pl.
  unfold mbind at 1. cbn [get_var]. rewrite (hget_cell _ _ _ Cp).
  assert (D : reg_of c cls = None ->
     decodedB s (let! l2 := alloc (CV (GFreezeV cls w)) in (set_var ptr (GPtr false l2) ;; ret p'))
       ptr s1 (DFreeze cls str) p').
  { intros Rg. apply new_leafB; [exact Lp|]. intros s2 F2 L2 C2.
    eapply r_freeze; eauto; [right; lia| |].
    - destruct Pw as [E|E]; [now left|right; lia].
    - rewrite <- Ew. apply hview_same. destruct F2 as (_ & F2 & _). apply F2; auto. }
  assert (D0 : d_um c cls = None -> reg_of c cls = None)
    by (unfold reg_of; now intros ->).
  unfold decodedB, runs in D. rewrite Pl in D.
  destruct (d_um c cls) as [[t|t]|] eqn:U; [| contradiction |exact (D (D0 eq_refl))].
  rewrite Ew, Hum.
  assert (D2 : decodedB s (set_var ptr (GUserP t w) ;; ret p') ptr s1 (DFreeze cls str) p').
  { apply leafB; [exact Lp|]. intros h' E. eapply r_user; auto.
    - unfold reg_of. now rewrite U.
    - rewrite <- Ew. apply hview_same. apply E; auto. }
  unfold decodedB, runs in D2. rewrite Pl in D2. exact D2.
Qed.

Hypothesis Hbuf : at_ buf ishift by_.

Lemma view_window h w str : nth_error h ibuf = Some (CBuf buf) -> at_ by_ (w_off w) str ->
  w_len w = length str -> hview h (win_view ibuf ishift w) = str.
Proof.
  intros Hb A El. unfold hview, win_view, hbuf. cbn [vloc voff vlen]. rewrite Hb, El.
  destruct Hbuf as (pre & post & -> & Lp). destruct A as (pre2 & post2 & E2 & Lp2).
  rewrite E2. apply (at_range (pre ++ (pre2 ++ str ++ post2) ++ post)).
  exists (pre ++ pre2), (post2 ++ post). rewrite !app_assoc, app_length. split; [reflexivity|lia].
Qed.

Theorem decode_implements_grammar :
  (forall m p d p', item g by_ m p d p' -> Pitem m p d p') /\
  (forall m p ds p', items g by_ m p ds p' -> Pitems m p ds p') /\
  (forall m p kvs p', pairs g by_ m p kvs p' -> Ppairs m p kvs p').
Proof.
  apply (grammar_ind g by_ (fun m p d p' _ => Pitem m p d p')
           (fun m p ds p' _ => Pitems m p ds p') (fun m p kvs p' _ => Ppairs m p kvs p')).
  - (* pos *)
    intros m p q t Ht Hr. pose proof (tag_skip _ _ _ Ht) as (_ & _ & _ & _ & L & _).
    apply (tag_reduce m p q t); auto.
    intros f ptr s trk Hm Hf Hf0 Hn Hi. rewrite tk_small by lia. cbn [decode_tag].
    rewrite small_int by lia. destruct (N.ltb_spec t 16); [|lia].
    apply leaf; [now apply nil_lt|]. intros. apply r_int. unfold two63. lia.
  - (* neg *)
    intros m p q t Ht Hr. pose proof (tag_skip _ _ _ Ht) as (_ & _ & _ & _ & L & _).
    apply (tag_reduce m p q t); auto.
    intros f ptr s trk Hm Hf Hf0 Hn Hi. rewrite tk_small by lia. cbn [decode_tag].
    rewrite small_int by lia. destruct (N.ltb_spec t 16); [lia|].
    apply leaf; [now apply nil_lt|]. intros. apply r_int. unfold two63. lia.
  - (* varint *)
    intros m p q n r Ht Hv.
    destruct (vint_at _ _ _ (mkDState [] [] 0 []) Hv) as (_ & L1 & L2 & _).
    apply (tag_reduce m p q 32); auto; [lia|].
    intros f ptr s trk Hm Hf Hf0 Hn Hi. change (tag_kind 32) with TVarint. cbn [decode_tag].
    destruct (vint_at _ _ _ s Hv) as (V & _). eapply decoded_bind; [exact V|]. cbn [fst snd].
    replace (S q + (r - S q)) with r by lia.
    pose proof (vint_bound _ _ _ Hv) as Bn.
    destruct (Z.ltb_spec (Z.of_N n) two63) as [B|B].
    + rewrite to_int_small by lia. destruct (Z.ltb_spec (Z.of_N n) 0); [lia|].
      apply leaf; [now apply nil_lt|]. intros. apply r_int. unfold two63 in *. lia.
    + destruct (Z.ltb_spec (to_int n) 0) as [B2|B2].
      * rewrite to_uint_to_int by assumption.
        apply leaf; [now apply nil_lt|]. intros. apply r_uint. unfold two63, two64 in *. lia.
      * rewrite to_int_big in B2 by (unfold two63, two64 in *; lia). unfold two64 in B2. lia.
  - (* zigzag *)
    intros m p q n r Ht Hv Hev.
    destruct (vint_at _ _ _ (mkDState [] [] 0 []) Hv) as (_ & L1 & L2 & _).
    apply (tag_reduce m p q 33); auto; [lia|].
    intros f ptr s trk Hm Hf Hf0 Hn Hi. change (tag_kind 33) with TZigzag. cbn [decode_tag].
    destruct (vint_at _ _ _ s Hv) as (V & _). eapply decoded_bind; [exact V|]. cbn [fst snd].
    replace (S q + (r - S q)) with r by lia.
    destruct (zigzag_odd n) as [E B]; [now apply vint_bound in Hv|destruct Hev; [discriminate|auto]|].
    rewrite E. apply leaf; [now apply nil_lt|]. intros. apply r_int. unfold two63 in *. lia.
  - (* float *)
    intros m p q l Ht Ha El. pose proof (proj1 (at_range _ _ _ Ha)).
    apply (tag_reduce m p q 34); auto; try lia.
    intros f ptr s trk Hm Hf Hf0 Hn Hi. change (tag_kind 34) with TFloat. cbn [decode_tag].
    eapply decoded_bind; [eapply fixed_runs; eauto; lia|].
    apply leaf; [now apply nil_lt|]. intros. apply r_f32.
  - (* double *)
    intros m p q l Ht Ha El. pose proof (proj1 (at_range _ _ _ Ha)).
    apply (tag_reduce m p q 35); auto; try lia.
    intros f ptr s trk Hm Hf Hf0 Hn Hi. change (tag_kind 35) with TDouble. cbn [decode_tag].
    eapply decoded_bind; [eapply fixed_runs; eauto; lia|].
    apply leaf; [now apply nil_lt|]. intros. apply r_f64.
  - (* undef *)
    intros m p q Ht. pose proof (tag_skip _ _ _ Ht) as (_ & _ & _ & _ & L & _).
    apply (tag_reduce m p q 37); auto.
    intros f ptr s trk Hm Hf Hf0 Hn Hi. change (tag_kind 37) with TUndef. cbn [decode_tag].
    pose proof (nil_lt _ _ Hn) as Lp.
    destruct (d_perl c) eqn:Pl.
    + assert (D : decoded (let! l := alloc (CV (GUndefV false)) in (set_var ptr (GPtr false l) ;; ret (S q))) ptr s DUndef (S q)).
      { apply new_leaf; [exact Lp|]. intros s' F L' C. apply r_undef_perl; auto. right. lia. }
      exact D.
    + apply leaf; [exact Lp|]. intros. now apply r_undef.
  - (* canonical undef *)
    intros m p q Ht. pose proof (tag_skip _ _ _ Ht) as (_ & _ & _ & _ & L & _).
    apply (tag_reduce m p q 57); auto.
    intros f ptr s trk Hm Hf Hf0 Hn Hi. change (tag_kind 57) with TCanonUndef. cbn [decode_tag].
    pose proof (nil_lt _ _ Hn) as Lp.
    destruct (d_perl c) eqn:Pl; apply leaf; try exact Lp; intros;
      [now apply r_canon_perl|now apply r_canon].
  - (* false *)
    intros m p q Ht. pose proof (tag_skip _ _ _ Ht) as (_ & _ & _ & _ & L & _).
    apply (tag_reduce m p q 58); auto.
    intros f ptr s trk Hm Hf Hf0 Hn Hi. change (tag_kind 58) with TFalse. cbn [decode_tag].
    apply leaf; [now apply nil_lt|]. intros. apply r_bool.
  - (* true *)
    intros m p q Ht. pose proof (tag_skip _ _ _ Ht) as (_ & _ & _ & _ & L & _).
    apply (tag_reduce m p q 59); auto.
    intros f ptr s trk Hm Hf Hf0 Hn Hi. change (tag_kind 59) with TTrue. cbn [decode_tag].
    apply leaf; [now apply nil_lt|]. intros. apply r_bool.
  - (* strings *)
    intros m p u str p' Hs.
    destruct Hs as [p q t str Ht Hr Ha El | p q n r str Ht Hv Hmx Ha El | p q n r str Ht Hv Hmx Ha El].
    + pose proof (proj1 (at_range _ _ _ Ha)).
      apply (tag_reduce m p q t); auto; [lia|].
      intros f ptr s trk Hm Hf Hf0 Hn Hi. rewrite tk_short by assumption. cbn [decode_tag].
      replace (N.to_nat (t - 96)) with (length str) by lia.
      apply binary_copy_decoded; auto. lia.
    + pose proof (proj1 (at_range _ _ _ Ha)). cbn [g_max go_dialect] in Hmx.
      destruct (vint_at _ _ _ (mkDState [] [] 0 []) Hv) as (_ & L1 & L2 & _).
      apply (tag_reduce m p q 38); auto; [lia|].
      intros f ptr s trk Hm Hf Hf0 Hn Hi. change (tag_kind 38) with TBinary. cbn [decode_tag].
      destruct (vint_at _ _ _ s Hv) as (V & _). eapply decoded_bind; [exact V|]. cbn [fst snd].
      replace (S q + (r - S q)) with r by lia.
      rewrite to_int_small by (unfold two63; lia).
      replace (Z.of_N n) with (Z.of_nat (length str)) by lia.
      apply binary_copy_decoded; auto. lia.
    + pose proof (proj1 (at_range _ _ _ Ha)). cbn [g_max go_dialect] in Hmx.
      destruct (vint_at _ _ _ (mkDState [] [] 0 []) Hv) as (_ & L1 & L2 & _).
      apply (tag_reduce m p q 39); auto; [lia|].
      intros f ptr s trk Hm Hf Hf0 Hn Hi. change (tag_kind 39) with TStrUtf8. cbn [decode_tag].
      destruct (vint_at _ _ _ s Hv) as (V & _). eapply decoded_bind; [exact V|]. cbn [fst snd].
      replace (S q + (r - S q)) with r by lia.
      rewrite to_int_small by (unfold two63; lia).
      replace (Z.of_N n) with (Z.of_nat (length str)) by lia.
      eapply decoded_bind; [apply binary_runs; auto; lia|]. cbn [fst snd].
      apply leaf; [now apply nil_lt|]. intros. apply r_str.
  - intros. eapply Pitem_refn; eauto.
  - intros. eapply Pitem_weaken; eauto.
  - intros. eapply Pitem_array; eauto.
  - intros. eapply Pitem_arrayref; eauto.
  - intros. eapply Pitem_hash; eauto.
  - intros. eapply Pitem_hashref; eauto.
  - (* object *)
    intros m p q cls r d p' Ht Hs _ PP. pose proof PP as (P1 & P2 & _).
    destruct (stringish_runs _ _ _ _ (mkDState [] [] 0 []) Hs) as (_ & _ & _ & _ & _ & L1 & L2); [reflexivity|].
    apply (tag_reduce m p q 44); auto; [lia|].
    intros f ptr s trk Hm Hf Hf0 Hn Hi. change (tag_kind 44) with TObject. cbn [decode_tag].
    eapply object_decoded; eauto.
    + eapply class_lit; eauto. now apply mode_copy.
    + eapply need_mono; eauto. lia.
  - (* objectv *)
    intros m p q n r u cls e d p' Ht Hv Hlt Hst Hs _ PP. pose proof PP as (P1 & P2 & _).
    pose proof (tag_skip _ _ _ Ht) as (_ & _ & _ & _ & L & _).
    destruct (vint_at _ _ _ (mkDState [] [] 0 []) Hv) as (_ & L1 & L2 & _).
    apply (tag_reduce m p q 45); auto; [lia|].
    intros f ptr s trk Hm Hf Hf0 Hn Hi. change (tag_kind 45) with TObjectV. cbn [decode_tag].
    eapply object_decoded; eauto.
    + eapply class_off; eauto.
    + eapply need_mono; eauto. lia.
  - (* regexp *)
    intros m p q s1 r s2 p' Ht H1 H2.
    destruct (stringish_runs _ _ _ _ (mkDState [] [] 0 []) H1) as (_ & _ & _ & _ & _ & L1 & L2); [reflexivity|].
    destruct (stringish_runs _ _ _ _ (mkDState [] [] 0 []) H2) as (_ & _ & _ & _ & _ & L3 & L4); [reflexivity|].
    apply (tag_reduce m p q 49); auto; [lia|].
    intros f ptr s trk Hm Hf Hf0 Hn Hi. change (tag_kind 49) with TRegexp. cbn [decode_tag].
    destruct (stringish_runs _ _ _ _ s H1 (mode_copy _ _ Hm)) as (w1 & R1 & _ & A1 & W1 & _).
    destruct (stringish_runs _ _ _ _ s H2 (mode_copy _ _ Hm)) as (w2 & R2 & _ & A2 & W2 & _).
    unfold decodeRegexp. eapply decoded_bind; [exact R1|]. cbn [fst snd].
    eapply decoded_bind; [exact R2|]. cbn [fst snd].
    apply (new_leaf ptr s (CV (GRegexpV (win_view ibuf ishift w1) (win_view ibuf ishift w2))) (GPtr false));
      [now apply nil_lt|].
    intros s' F L' C.
    assert (I' : inv s').
    { eapply inv_frm; eauto. intros ->. now apply (nil_not_ibuf _ _ Hi Hn). }
    eapply r_regexp; eauto; cbn [vloc win_view].
    + right. lia.
    + now left.
    + now left.
    + now apply view_window.
    + now apply view_window.
  - (* freeze *)
    intros m p q cls r n r' str p' Ht Hs Ha Hv En _ PP Hz. pose proof PP as (P1 & P2 & _).
    destruct (stringish_runs _ _ _ _ (mkDState [] [] 0 []) Hs) as (_ & _ & _ & _ & _ & L1 & L2); [reflexivity|].
    destruct (vint_at _ _ _ (mkDState [] [] 0 []) Hv) as (_ & L3 & L4 & _).
    apply (tag_reduce m p q 50); auto; [lia|].
    intros f ptr s trk Hm Hf Hf0 Hn Hi. change (tag_kind 50) with TFreeze. cbn [decode_tag].
    eapply freeze_decoded; eauto.
    + eapply class_lit; eauto. now apply mode_copy.
    + eapply need_mono; eauto. lia.
  - (* freezev *)
    intros m p q o r0 u cls e n r' str p' Ht Hv0 Hlt Hst Hs Ha Hv En _ PP Hz.
    pose proof PP as (P1 & P2 & _).
    pose proof (tag_skip _ _ _ Ht) as (_ & _ & _ & _ & L & _).
    destruct (vint_at _ _ _ (mkDState [] [] 0 []) Hv0) as (_ & L1 & L2 & _).
    destruct (vint_at _ _ _ (mkDState [] [] 0 []) Hv) as (_ & L3 & L4 & _).
    apply (tag_reduce m p q 51); auto; [lia|].
    intros f ptr s trk Hm Hf Hf0 Hn Hi. change (tag_kind 51) with TFreezeV. cbn [decode_tag].
    eapply freeze_decoded; eauto.
    + eapply class_off; eauto.
    + eapply need_mono; eauto. lia.
  - (* copy *)
    intros p q n r d e Ht Hv Hlt Hst _ PP. pose proof PP as (P1 & P2 & PI).
    pose proof (tag_skip _ _ _ Ht) as (_ & _ & _ & _ & L & _).
    destruct (vint_at _ _ _ (mkDState [] [] 0 []) Hv) as (_ & L1 & L2 & _).
    apply (tag_reduce CAny p q 47); auto; [lia|].
    intros f ptr s trk Hm Hf Hf0 Hn Hi. change (tag_kind 47) with TCopy. cbn [decode_tag].
    cbn in Hm. destruct (vint_at _ _ _ s Hv) as (V & _).
    set (s1 := mkDState (d_heap s) (d_tracked s) 1 (d_made s)).
    destruct (PI f ptr s1) as (s2 & v & R & F & C & Vr); auto.
    { exact Logic.I. }
    { unfold need. cbn. specialize (Hf0 Hm). lia. }
    exists (mkDState (d_heap s2) (d_tracked s2) (pred (d_copy s2)) (d_made s2)), v.
    split; [|split; [|split; [exact C|exact Vr]]].
    + unfold runs. unfold mbind at 1. cbn [get_copy]. rewrite Hm. cbn [Nat.ltb Nat.leb].
      unfold mbind at 1. rewrite V. rewrite to_int_small by lia.
      destruct ((Z.of_N n <? 0) || (Z.of_nat (S q) <=? Z.of_N n))%Z eqn:B; [lia|].
      unfold mbind at 1. cbn [set_copy]. fold s1. unfold mbind at 1.
      replace (Z.to_nat (Z.of_N n)) with (N.to_nat n) by lia.
      unfold runs in R. rewrite R. unfold ret. now replace (S q + (r - S q)) with r by lia.
    + destruct F as (F1 & F2 & F3). split; [exact F1|split; [exact F2|]].
      cbn. rewrite F3. cbn. now rewrite Hm.
  - intros. apply Pitems_nil.
  - intros. eapply Pitems_cons; eauto.
  - intros. apply Ppairs_nil.
  - intros. eapply Ppairs_cons; eauto.
Qed.
End DS.
