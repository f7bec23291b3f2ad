(** Lemmas about Base. *)
From Verif Require Import Base.
From Coq Require Import ZifyBool ZifyNat ZifyN.
Ltac Zify.zify_post_hook ::= Z.div_mod_to_equations.

Lemma b2n_lt b : (b2n b < 256)%N.
Proof. destruct b; reflexivity. Qed.

Lemma b2n_n2b n : b2n (n2b n) = (n mod 256)%N.
Proof.
  unfold b2n, n2b.
  assert (H : (n mod 256 < 256)%N) by (apply N.mod_lt; discriminate).
  destruct (Byte.of_N (n mod 256)) eqn:E.
  - apply Byte.to_of_N in E. exact E.
  - apply Byte.of_N_None_iff in E. lia.
Qed.

Lemma n2b_b2n b : n2b (b2n b) = b.
Proof. destruct b; reflexivity. Qed.

Lemma b2n_inj a b : b2n a = b2n b -> a = b.
Proof. intros H. rewrite <- (n2b_b2n a), H. apply n2b_b2n. Qed.

Lemma b2n_n2b_small n : (n < 256)%N -> b2n (n2b n) = n.
Proof. intros. rewrite b2n_n2b. apply N.mod_small. assumption. Qed.

Lemma byte_eqb_true a b : byte_eqb a b = true <-> a = b.
Proof.
  unfold byte_eqb. rewrite N.eqb_eq. split; [apply b2n_inj | now intros ->].
Qed.

Lemma bytes_eqb_true a b : bytes_eqb a b = true <-> a = b.
Proof.
  revert b; induction a as [|x a IH]; destruct b as [|y b]; cbn; try easy.
  rewrite andb_true_iff, byte_eqb_true, IH. split.
  - now intros [-> ->].
  - intros H; injection H; auto.
Qed.

Lemma bytes_eqb_refl a : bytes_eqb a a = true.
Proof. now apply bytes_eqb_true. Qed.

Lemma bytes_eqb_false a b : bytes_eqb a b = false <-> a <> b.
Proof.
  destruct (bytes_eqb a b) eqn:E.
  - apply bytes_eqb_true in E. split; easy.
  - split; [|easy]. intros _ H. apply bytes_eqb_true in H. congruence.
Qed.

Lemma bytes_dec (a b : bytes) : {a = b} + {a <> b}.
Proof.
  destruct (bytes_eqb a b) eqn:E; [left|right].
  - now apply bytes_eqb_true.
  - now apply bytes_eqb_false.
Qed.

Lemma to_int_range n : (- two63 <= to_int n < two63)%Z.
Proof. unfold to_int, two63, two64 in *. destruct (_ <? _)%Z eqn:E; lia. Qed.

Lemma to_int_small n : (Z.of_N n < two63)%Z -> to_int n = Z.of_N n.
Proof.
  unfold to_int, two63, two64. intros H.
  rewrite Z.mod_small by lia.
  destruct (_ <? _)%Z eqn:E; lia.
Qed.

Lemma to_int_big n : (two63 <= Z.of_N n < two64)%Z -> to_int n = (Z.of_N n - two64)%Z.
Proof.
  unfold to_int, two63, two64. intros H.
  rewrite Z.mod_small by lia.
  destruct (_ <? _)%Z eqn:E; lia.
Qed.

Lemma to_uint_nonneg i : (0 <= i < two64)%Z -> to_uint i = Z.to_N i.
Proof. intros. unfold to_uint. now rewrite Z.mod_small. Qed.

Lemma to_uint_to_int n : (n < 18446744073709551616)%N -> to_uint (to_int n) = n.
Proof.
  intros H. unfold to_uint, to_int, two63, two64.
  rewrite (Z.mod_small (Z.of_N n)) by lia.
  destruct (_ <? _)%Z eqn:E; lia.
Qed.

Lemma to_int_to_uint i : (- two63 <= i < two63)%Z -> to_int (to_uint i) = i.
Proof.
  unfold to_int, to_uint, two63, two64. intros H.
  destruct (_ <? _)%Z eqn:E; lia.
Qed.

Lemma wrap64_small i : (- two63 <= i < two63)%Z -> wrap64 i = i.
Proof. apply to_int_to_uint. Qed.

Lemma upd_length A (l : list A) i x : length (upd l i x) = length l.
Proof. revert i; induction l as [|a l IH]; destruct i; cbn; auto. Qed.

Lemma nth_error_upd_same A (l : list A) i x :
  i < length l -> nth_error (upd l i x) i = Some x.
Proof.
  revert i; induction l as [|a l IH]; intros [|i] H; cbn in *; try lia; auto.
  apply IH. lia.
Qed.

Lemma nth_error_upd_other A (l : list A) i j x :
  i <> j -> nth_error (upd l i x) j = nth_error l j.
Proof.
  revert i j; induction l as [|a l IH]; intros [|i] [|j] H; cbn in *; auto; try lia.
Qed.

Lemma upd_out A (l : list A) i x : length l <= i -> upd l i x = l.
Proof.
  revert i; induction l as [|a l IH]; intros [|i] H; cbn in *; auto; try lia.
  f_equal. apply IH. lia.
Qed.

Lemma slice_from_Some A (l : list A) i s :
  slice_from l i = Some s <-> i <= length l /\ s = skipn i l.
Proof.
  unfold slice_from. destruct (Nat.leb_spec i (length l)); split; try easy.
  - intros [= <-]; auto.
  - intros [_ ->]; auto.
  - intros [? _]; lia.
Qed.

Lemma slice_range_Some A (l : list A) i j s :
  slice_range l i j = Some s <-> i <= j /\ j <= length l /\ s = firstn (j - i) (skipn i l).
Proof.
  unfold slice_range.
  destruct (Nat.leb_spec i j), (Nat.leb_spec j (length l)); cbn; split; try easy; try lia.
  - intros [= <-]; auto.
  - intros (_ & _ & ->); auto.
Qed.

Lemma nth_error_skipn A (l : list A) n i : nth_error (skipn n l) i = nth_error l (n + i).
Proof.
  revert l; induction n as [|n IH]; intros l; cbn; auto.
  destruct l; cbn; auto. now destruct i.
Qed.

Lemma nth_error_firstn A (l : list A) n i : i < n -> nth_error (firstn n l) i = nth_error l i.
Proof.
  revert l i; induction n as [|n IH]; intros l i H; [lia|].
  destruct l, i; cbn; auto. apply IH. lia.
Qed.

Lemma nth_error_Some_lt A (l : list A) i x : nth_error l i = Some x -> i < length l.
Proof. intros H. apply nth_error_Some. congruence. Qed.

Lemma nth_error_app_l A (l l' : list A) i x :
  nth_error l i = Some x -> nth_error (l ++ l') i = Some x.
Proof.
  intros H. rewrite nth_error_app1; auto. eapply nth_error_Some_lt; eauto.
Qed.

Lemma skipn_skipn_add A (l : list A) a b : skipn a (skipn b l) = skipn (b + a) l.
Proof.
  revert l; induction b as [|b IH]; intros l; cbn; auto.
  destruct l; cbn; auto. now rewrite skipn_nil.
Qed.
