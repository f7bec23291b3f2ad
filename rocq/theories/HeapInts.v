(** Integers in interface{} parts stay within the range of their kind. *)
From Verif Require Import Base BaseFacts SpecVarint Varint VarintFacts Tags GoMem GoTypes TagsCache Codecs Compress Header Decode Document
  Typed TypedMem SpecMemType WireFacts.
From Coq Require Import ZifyBool ZifyNat ZifyN.

Definition hp {A} (m : M A) (Q : A -> Prop) : Prop := forall s, ints_ok (d_heap s) ->
  ints_ok (d_heap (snd (m s))) /\ forall a, fst (m s) = Ok a -> Q a.
Notation hpt m := (hp m (fun _ => True)).

Lemma hp_bind A B (m : M A) (k : A -> M B) P Q : hp m P -> (forall a, P a -> hp (k a) Q) -> hp (mbind m k) Q.
Proof.
  intros H K s I. specialize (H s I). unfold mbind. destruct (m s) as [[a|e|e| |] s'];
    try (split; [exact (proj1 H)|discriminate]). destruct H as [I' H]. exact (K a (H a eq_refl) s' I').
Qed.
Lemma hp_mono A (m : M A) (P Q : A -> Prop) : hp m P -> (forall a, P a -> Q a) -> hp m Q.
Proof. intros H K s I. destruct (H s I). auto. Qed.
Lemma hp_ret A (a : A) (Q : A -> Prop) : Q a -> hp (ret a) Q.
Proof. intros H s I. split; [exact I|]. intros b E. injection E as <-. exact H. Qed.
Lemma hp_fail A e (Q : A -> Prop) : hp (fail e) Q.
Proof. intros s I. split; [exact I|]. discriminate. Qed.
Lemma hp_panic A e (Q : A -> Prop) : hp (panic e) Q.
Proof. intros s I. split; [exact I|]. discriminate. Qed.
Lemma hp_crash A (Q : A -> Prop) : hp crash Q.
Proof. intros s I. split; [exact I|]. discriminate. Qed.
Lemma hp_lift A (r : res A) : hpt (lift r).
Proof. intros s I. split; [exact I|auto]. Qed.

Lemma hget_new h c l : hget (h ++ [c]) l = if Nat.eqb l (length h) then match c with CV x => x | _ => GNil end else hget h l.
Proof.
  unfold hget. destruct (Nat.eqb_spec l (length h)) as [->|N].
  - now rewrite nth_error_app2, Nat.sub_diag by lia.
  - destruct (Nat.lt_ge_cases l (length h)); [now rewrite nth_error_app1 by lia|].
    rewrite nth_error_app2 by lia. destruct (l - length h) eqn:E; [lia|]. cbn.
    rewrite (proj2 (nth_error_None h l)) by lia. now destruct n.
Qed.
Lemma hmap_new h c l : hmap (h ++ [c]) l = if Nat.eqb l (length h) then match c with CMap x => x | _ => [] end else hmap h l.
Proof.
  unfold hmap. destruct (Nat.eqb_spec l (length h)) as [->|N].
  - now rewrite nth_error_app2, Nat.sub_diag by lia.
  - destruct (Nat.lt_ge_cases l (length h)); [now rewrite nth_error_app1 by lia|].
    rewrite nth_error_app2 by lia. destruct (l - length h) eqn:E; [lia|]. cbn.
    rewrite (proj2 (nth_error_None h l)) by lia. now destruct n.
Qed.
Definition cell_ok (c : cell) : Prop := match c with CV x => int_ok x | CMap m => forall k x, In (k, x) m -> int_ok x | _ => True end.
Lemma ints_new h c : ints_ok h -> cell_ok c -> ints_ok (h ++ [c]).
Proof.
  intros [A B] C. split.
  - intros l. rewrite hget_new. destruct (Nat.eqb _ _); [|apply A]. destruct c; try exact I. exact C.
  - intros l k x. rewrite hmap_new. destruct (Nat.eqb _ _); [|apply B]. destruct c; try contradiction. apply C.
Qed.
Lemma hp_alloc c : cell_ok c -> hpt (alloc c).
Proof. intros C s I. split; [|auto]. cbn. now apply ints_new. Qed.
Lemma hp_alloc_n n c : cell_ok c -> hpt (alloc_n n c).
Proof.
  intros C s I. split; [|auto]. cbn. induction n as [|n IH]; cbn [repeat]; [now rewrite app_nil_r|].
  rewrite repeat_cons, app_assoc. now apply ints_new.
Qed.
Lemma ints_upd h l c : ints_ok h -> cell_ok c -> ints_ok (upd h l c).
Proof.
  intros [A B] C. assert (E : forall l', nth_error (upd h l c) l' = nth_error h l' \/ nth_error (upd h l c) l' = Some c).
  { intros l'. destruct (Nat.eq_dec l' l) as [->|N]; [|left; apply nth_error_upd_other; auto].
    destruct (Nat.lt_ge_cases l (length h)); [right; now apply nth_error_upd_same|left].
    rewrite (proj2 (nth_error_None h l)) by lia. apply nth_error_None. rewrite upd_length. lia. }
  split.
  - intros l'. unfold hget. destruct (E l') as [-> | ->]; [apply A|]. destruct c; try exact I. exact C.
  - intros l' k x. unfold hmap. destruct (E l') as [-> | ->]; [apply B|]. destruct c; try contradiction. apply C.
Qed.
Lemma hp_set l x : int_ok x -> hpt (set_var l x).
Proof. intros C s I. split; [|auto]. cbn. now apply ints_upd. Qed.
Lemma hp_get l : hp (get_var l) int_ok.
Proof. intros s I. split; [exact I|]. intros a E. injection E as <-. apply I. Qed.
Lemma in_mput {A} (m : list (bytes * A)) k x k' y : In (k', y) (mput m k x) -> y = x \/ In (k', y) m.
Proof.
  induction m as [|[k1 y1] m IH]; cbn; [intros [E|[]]; injection E as <- <-; auto|].
  destruct (bytes_eqb k1 k); cbn; intros [E|J]; try (injection E as <- <-); auto. destruct (IH J); auto.
Qed.
Lemma hp_map_set l k x : int_ok x -> hpt (map_set l k x).
Proof.
  intros C s I. split; [|auto]. cbn. apply ints_upd; [exact I|]. cbn. intros k' y J.
  apply in_mput in J as [-> |J]; [exact C|]. eapply I, J.
Qed.
Lemma hp_track i l : hpt (track i l). Proof. intros s I. split; [exact I|auto]. Qed.
Lemma hp_tracked i : hpt (get_tracked i). Proof. intros s I. split; [exact I|auto]. Qed.
Lemma hp_gcopy : hpt get_copy. Proof. intros s I. split; [exact I|auto]. Qed.
Lemma hp_scopy n : hpt (set_copy n). Proof. intros s I. split; [exact I|auto]. Qed.
Lemma hp_log n m : hpt (log_make n m). Proof. intros s I. split; [exact I|auto]. Qed.
Create HintDb hp.
#[export] Hint Resolve hp_fail hp_panic hp_crash hp_track hp_tracked hp_gcopy hp_scopy hp_log : hp.

Section Dec.
Variable c : dconfig.
Variable by_ : bytes.
Variable ibuf : loc.
Variable ishift : nat.

Definition int64_ok (z : Z) : Prop := (- two63 <= z < two63)%Z.
Lemma hp_varint i : hp (varint_at by_ i) (fun r => int64_ok (fst r)).
Proof.
  unfold varint_at. destruct (slice_from by_ i); [|auto with hp]. destruct (varintdecode _) eqn:E; [|auto with hp].
  apply hp_ret. exact (proj1 (varintdecode_range _ _ _ E)).
Qed.
Lemma hp_varint' i : hpt (varint_at by_ i).
Proof. eapply hp_mono; [apply hp_varint|auto]. Qed.
Lemma hp_fixed i k : hpt (fixed_at by_ i k).
Proof. unfold fixed_at. destruct (Nat.leb _ _); [auto with hp|]. destruct (slice_range _ _ _); [now apply hp_ret|auto with hp]. Qed.
Lemma hp_binary i ln : hpt (binary_at by_ i ln).
Proof.
  unfold binary_at. destruct (_ || _)%bool; [auto with hp|]. destruct (_ <? _)%Z; [auto with hp|].
  destruct (slice_range _ _ _); [now apply hp_ret|auto with hp].
Qed.
Ltac hb := eapply hp_bind; [solve [auto with hp | apply hp_gcopy | apply hp_fixed | apply hp_binary | apply hp_varint']|intros].
Lemma hp_binary_copy i ln : hpt (binary_copy by_ i ln).
Proof.
  unfold binary_copy. hb. destruct a. hb. eapply hp_bind; [apply hp_alloc; exact I|]. intros. now apply hp_ret.
Qed.
Lemma hp_stringish_body rec z : (forall z, hpt (rec z)) -> hpt (stringish_body by_ rec z).
Proof.
  intros R. unfold stringish_body. destruct (_ || _)%bool; [auto with hp|].
  destruct (skip_pads _ _) as [[tagb i]|]; [|auto with hp].
  destruct (tag_kind (untrack tagb)); auto with hp.
  1,2: hb; destruct a as [ln sz]; destruct (_ || _)%bool; [auto with hp|]; destruct (_ <? _)%Z; [auto with hp|];
    destruct (slice_range _ _ _); [now apply hp_ret|auto with hp].
  - destruct (Nat.ltb _ _); [auto with hp|]. destruct (slice_range _ _ _); [now apply hp_ret|auto with hp].
  - hb. destruct (Nat.ltb _ _); [auto with hp|]. hb. destruct a0 as [offs sz]. destruct (_ || _)%bool; [auto with hp|]. hb.
    eapply hp_bind with (P := fun _ => True); [|intros; now apply hp_ret].
    intros s I. destruct (R offs s I) as [I' _]. destruct (rec offs s) as [[r|e|e| |] s']; (split; [exact I'|auto]).
Qed.
Lemma hp_stringish z : hpt (decodeStringish by_ z).
Proof.
  unfold decodeStringish. cbn [stringish_fuel]. apply hp_stringish_body. intros. apply hp_stringish_body.
  intros z1 s I. split; [exact I|auto].
Qed.
Lemma hp_class i b : hpt (class_name by_ i b).
Proof.
  unfold class_name. destruct b.
  - hb. destruct a. eapply hp_bind; [apply hp_stringish|]. intros. now apply hp_ret.
  - eapply hp_bind; [apply hp_stringish|]. intros [w j] _. now apply hp_ret.
Qed.
Lemma hp_then A (m : M unit) (a : A) : hpt m -> hpt (m ;; ret a).
Proof. intros H. eapply hp_bind; [exact H|]. intros. now apply hp_ret. Qed.
Lemma hp_regexp i p : hpt (decodeRegexp by_ ibuf ishift i p).
Proof.
  unfold decodeRegexp. eapply hp_bind; [apply hp_stringish|]. intros [w j] _. eapply hp_bind; [apply hp_stringish|]. intros [w2 j2] _.
  eapply hp_bind; [apply hp_alloc; exact I|]. intros. apply hp_then, hp_set. exact I.
Qed.
Lemma hp_refp i p b : hpt (decodeREFP_ALIAS c by_ i p b).
Proof.
  unfold decodeREFP_ALIAS. hb. destruct a as [offs sz]. destruct (_ || _)%bool; [auto with hp|]. hb.
  destruct a as [l|]; [|auto with hp]. eapply hp_bind; [apply hp_get|]. intros x Ix. destruct b; [|now apply hp_then, hp_set].
  assert (G : hpt (if d_noref c then set_var p x ;; ret (i + sz) else let! l0 := alloc (CV x) in set_var p (GPtr false l0) ;; ret (i + sz))).
  { destruct (d_noref c); [now apply hp_then, hp_set|]. eapply hp_bind; [now apply hp_alloc|]. intros. apply hp_then, hp_set. exact I. }
  destruct x; try exact G. auto with hp.
Qed.

Section Body.
Variable rec : nat -> loc -> M nat.
Hypothesis R : forall i l, hpt (rec i l).
Ltac al := eapply hp_bind; [apply hp_alloc; first [exact I|assumption|cbn; contradiction]|intros].
Lemma hp_hash_loop n m : forall i, hpt (hash_loop by_ rec n m i).
Proof.
  induction n as [|n IH]; intros i; cbn [hash_loop]; [now apply hp_ret|].
  eapply hp_bind; [apply hp_stringish|]. intros [w j] _. al. eapply hp_bind; [apply R|]. intros.
  eapply hp_bind; [apply hp_get|]. intros x Ix. eapply hp_bind; [now apply hp_map_set|]. intros. apply IH.
Qed.
Lemma hp_hash i ln p b : hpt (decodeHash by_ rec i ln p b).
Proof.
  unfold decodeHash. destruct (_ || _)%bool; [auto with hp|]. destruct (_ <? _)%Z; [auto with hp|]. cbv zeta.
  hb. al. eapply hp_bind with (P := fun _ => True); [|intros; apply hp_hash_loop].
  destruct b; [al|]; apply hp_set; exact I.
Qed.
Lemma hp_array_loop n : forall l i, hpt (array_loop rec n l i).
Proof.
  induction n as [|n IH]; intros l i; cbn [array_loop]; [now apply hp_ret|]. eapply hp_bind; [apply R|]. intros. apply IH.
Qed.
Lemma hp_array i ln p b : hpt (decodeArray by_ rec i ln p b).
Proof.
  unfold decodeArray. destruct (_ || _)%bool; [auto with hp|]. destruct (_ <? _)%Z; [auto with hp|]. cbv zeta.
  hb. eapply hp_bind; [apply hp_alloc_n; exact I|]. intros. eapply hp_bind with (P := fun _ => True); [|intros; apply hp_array_loop].
  destruct b; [al|]; apply hp_set; exact I.
Qed.
Lemma hp_via i p : hpt (decode_via_iface by_ rec i p).
Proof.
  unfold decode_via_iface. destruct (Nat.leb _ _); [auto with hp|]. eapply hp_bind; [apply hp_get|]. intros x Ix.
  destruct x; auto with hp. al. eapply hp_bind; [apply R|]. intros. eapply hp_bind; [apply hp_get|]. intros y Iy.
  destruct y; try (now apply hp_ret); apply hp_then, hp_set; exact Iy.
Qed.
Lemma hp_object i p b : hpt (decodeObject c by_ rec i p b).
Proof.
  unfold decodeObject. eapply hp_bind; [apply hp_class|]. intros [cls j] _. destruct (d_perl c); [|apply hp_via].
  al. eapply hp_bind; [apply hp_set; exact I|]. intros. apply R.
Qed.
Lemma hp_freeze i p b : hpt (decodeFreeze c by_ rec i p b).
Proof.
  unfold decodeFreeze. eapply hp_bind; [apply hp_class|]. intros [cls j] _. destruct (Nat.leb _ _); [auto with hp|].
  destruct (nth_error by_ j), (nth_error by_ (j + 1)); auto with hp. destruct (negb _); [auto with hp|].
  al. eapply hp_bind; [apply R|]. intros k _. eapply hp_bind; [apply hp_get|]. intros x _. destruct x; auto with hp.
  destruct (negb _); [auto with hp|]. eapply hp_bind; [apply hp_get|]. intros x _. destruct x; auto with hp.
  destruct (d_perl c). { al. apply hp_then, hp_set. exact I. }
  eapply hp_bind; [apply hp_get|]. intros x _. destruct x; auto with hp. destruct (d_um c cls) as [[t|t]|].
  - intros s Is. destruct (d_unmarshal _ _ _); [|split; [exact Is|auto]]. apply (hp_then _ _ k (hp_set p (GUserP t v) I)). exact Is.
  - auto with hp.
  - al. apply hp_then, hp_set. exact I.
Qed.
Lemma int64_in z : int64_ok z -> ikind_in KInt z.
Proof. intros H. exact H. Qed.
Lemma small_ok b t : tag_kind (untrack b) = TSmall t -> int64_ok (decodeInt t).
Proof.
  intros E. assert (t < 32)%N.
  { revert E. unfold tag_kind. destruct (N.ltb_spec (untrack b) typeVARINT); [intros [= <-]; exact H|].
    repeat match goal with |- context [if ?x then _ else _] => destruct x end; discriminate. }
  unfold decodeInt, int64_ok, two63. destruct (N.land t 16 =? 16)%N; lia.
Qed.
Lemma hp_tag b tr i p : hpt (decode_tag c by_ ibuf ishift rec (tag_kind (untrack b)) tr i p).
Proof.
  destruct (tag_kind (untrack b)) eqn:K; cbn [decode_tag];
    try apply hp_object; try apply hp_freeze; try apply hp_refp; try apply hp_regexp; try apply hp_hash; try apply hp_array;
    try solve [auto with hp]; try (apply hp_then, hp_set; exact I).
  - apply hp_then, hp_set, int64_in, (small_ok _ _ K).
  - eapply hp_bind; [apply hp_varint|]. intros [z sz] Hz. cbn [fst] in Hz. apply hp_then.
    destruct (Z.ltb_spec z 0); apply hp_set; [|exact Hz]. cbn. unfold to_uint, int64_ok, two63, two64 in *.
    change (Z.pow_pos 2 64) with 18446744073709551616%Z. pose proof (Z.mod_pos_bound z 18446744073709551616 eq_refl). lia.
  - eapply hp_bind; [apply hp_varint|]. intros [z sz] Hz. apply hp_then, hp_set. apply int64_in. unfold zigzag_value, wrap64. apply to_int_range.
  - hb. apply hp_then, hp_set; exact I.
  - hb. apply hp_then, hp_set; exact I.
  - hb. destruct a. apply hp_hash.
  - hb. destruct a. apply hp_array.
  - hb. destruct a. hb. destruct a. apply hp_then, hp_set; exact I.
  - hb. destruct a. eapply hp_bind; [apply hp_binary_copy|]. intros [? ?] _. apply hp_then, hp_set; exact I.
  - eapply hp_bind; [apply hp_binary_copy|]. intros [? ?] _. apply hp_then, hp_set; exact I.
  - apply hp_then. destruct (d_perl c); [al|]; apply hp_set; exact I.
  - apply hp_then. destruct (d_perl c); apply hp_set; exact I.
  - hb. destruct (Nat.ltb _ _); [auto with hp|]. hb. destruct a0 as [offs sz]. destruct (_ || _)%bool; [auto with hp|]. hb.
    eapply hp_bind with (P := fun _ => True); [|intros; now apply hp_ret].
    intros s I. destruct (R (Z.to_nat offs) p s I) as [I' _]. destruct (rec (Z.to_nat offs) p s) as [[r|e|e| |] s']; (split; [exact I'|auto]).
  - destruct (d_perl c); [|apply R]. al. eapply hp_bind; [apply hp_set; exact I|]. intros. eapply hp_bind; [apply R|]. intros.
    destruct tr; [now apply hp_ret|]. eapply hp_bind; [apply hp_get|]. intros x Ix.
    destruct x; auto with hp; (al; apply hp_then, hp_set; exact I).
  - destruct (d_perl c); [|apply R]. al. eapply hp_bind; [apply hp_set; exact I|]. intros. apply R.
Qed.
Lemma hp_body i p : hpt (decode_body c by_ ibuf ishift rec i p).
Proof.
  unfold decode_body. destruct (Nat.leb _ _); [auto with hp|]. destruct (skip_pads _ _) as [[b j]|]; [|auto with hp].
  eapply hp_bind with (P := fun _ => True); [|intros; apply hp_tag]. destruct (tracked_bit b); [apply hp_track|now apply hp_ret].
Qed.
End Body.
Lemma hp_decode fuel : forall i p, hpt (decode c by_ ibuf ishift fuel i p).
Proof. induction fuel as [|f IH]; intros i p; [intros s I; split; [exact I|discriminate]|]. cbn [decode]. now apply hp_body. Qed.
End Dec.
