(** Proofs about varints. *)
From Verif Require Import Base BaseFacts Varint SpecVarint.
From Coq Require Import ZifyBool ZifyNat ZifyN.
Ltac Zify.zify_post_hook ::= Z.div_mod_to_equations.

Lemma land_127 n : N.land n 127 = (n mod 128)%N.
Proof. change 127%N with (N.ones 7). now rewrite N.land_ones. Qed.

Lemma land_255 n : N.land n 255 = (n mod 256)%N.
Proof. change 255%N with (N.ones 8). now rewrite N.land_ones. Qed.

Lemma land_128_zero b : (N.land (b2n b) 128 =? 0)%N = (b2n b <? 128)%N.
Proof. destruct b; reflexivity. Qed.

Lemma land_127_byte b :
  N.land (b2n b) 127 = (if b2n b <? 128 then b2n b else b2n b - 128)%N.
Proof. destruct b; reflexivity. Qed.

Lemma lor_disjoint a x s :
  (a < 2 ^ s)%N -> N.lor a (N.shiftl x s) = (a + x * 2 ^ s)%N.
Proof.
  intros H. rewrite N.shiftl_mul_pow2.
  assert (E : N.land a (x * 2 ^ s) = 0%N).
  { apply N.bits_inj. intros m. rewrite N.land_spec, N.bits_0.
    destruct (N.lt_ge_cases m s) as [L|L].
    - rewrite N.mul_pow2_bits_low by assumption. apply andb_false_r.
    - replace a with (a mod 2 ^ s)%N by now apply N.mod_small.
      now rewrite N.mod_pow2_bits_high. }
  rewrite N.add_nocarry_lxor by assumption.
  symmetry. now apply N.lxor_lor.
Qed.

Lemma lor_128_byte n : (128 <= n)%N ->
  b2n (n2b (N.lor (N.land n 255) 128)) = (n mod 128 + 128)%N.
Proof.
  intros H. rewrite land_255.
  assert (B : (n mod 256 < 256)%N) by (apply N.mod_lt; discriminate).
  assert (E : b2n (n2b (n mod 256)) = (n mod 256)%N).
  { rewrite b2n_n2b. now rewrite N.mod_mod. }
  rewrite <- E.
  assert (G : forall b, b2n (n2b (N.lor (b2n b) 128)) = (b2n b mod 128 + 128)%N)
    by (destruct b; reflexivity).
  rewrite G, E. lia.
Qed.

Lemma varint_loop_groups : forall f n,
  (n < 2 ^ (7 * N.of_nat f))%N -> 0 < f ->
  vgroups (varint_loop f n) n /\ 1 <= length (varint_loop f n) <= f.
Proof.
  induction f as [|f IH]; intros n Hn Hf; [lia|].
  cbn [varint_loop]. destruct (n <? 128)%N eqn:E.
  - split; [|cbn; lia].
    rewrite <- (b2n_n2b_small n) at 2 by lia. constructor.
    rewrite b2n_n2b_small; lia.
  - assert (P : (2 ^ (7 * N.of_nat (S f)) = 128 * 2 ^ (7 * N.of_nat f))%N).
    { replace (7 * N.of_nat (S f))%N with (7 + 7 * N.of_nat f)%N by lia.
      rewrite N.pow_add_r. reflexivity. }
    rewrite P in Hn.
    assert (D : (N.shiftr n 7 = n / 128)%N) by (rewrite N.shiftr_div_pow2; reflexivity).
    destruct f as [|f'].
    { cbn in Hn. lia. }
    destruct (IH (N.shiftr n 7)) as [G L]; [rewrite D; lia|lia|].
    split.
    + replace n with (b2n (n2b (N.lor (N.land n 255) 128)) - 128 + 128 * (N.shiftr n 7))%N at 3.
      * constructor; auto. rewrite lor_128_byte; lia.
      * rewrite lor_128_byte, D by lia. lia.
    + cbn [length]. lia.
Qed.

Lemma varint_groups n : (n < 18446744073709551616)%N ->
  vgroups (varint n) n /\ 1 <= length (varint n) <= 10.
Proof.
  intros H. unfold varint. rewrite N.mod_small by assumption.
  apply varint_loop_groups; [|lia].
  change (2 ^ (7 * N.of_nat 10))%N with 1180591620717411303424%N. lia.
Qed.

Lemma vgroups_nonempty l n : vgroups l n -> 1 <= length l.
Proof. destruct 1; cbn; lia. Qed.

Lemma to_int_mod n : to_int (n mod 18446744073709551616) = to_int n.
Proof.
  unfold to_int, two64, two63. 
  rewrite N2Z.inj_mod.
  change (Z.of_N 18446744073709551616) with 18446744073709551616%Z.
  now rewrite Zmod_mod.
Qed.

Lemma vdec_loop_groups : forall l n, vgroups l n -> forall i acc rest,
  i + length l <= 10 -> (acc < 2 ^ (7 * N.of_nat i))%N ->
  vdec_loop (l ++ rest) (7 * N.of_nat i) i acc
  = VOk (to_int (acc + 2 ^ (7 * N.of_nat i) * n)) (i + length l).
Proof.
  induction 1 as [b Hb | b l n Hb Hl IH]; intros i acc rest Hi Hacc;
    cbn [app vdec_loop length] in *.
  - rewrite land_128_zero, land_127_byte.
    destruct (b2n b <? 128)%N eqn:E; [|lia].
    f_equal; [|lia].
    rewrite N.land_ones.
    destruct (Nat.eq_dec i 9) as [->|Hne].
    + (* tenth byte: only its low bit survives *)
      change (7 * N.of_nat 9)%N with 63%N in *.
      rewrite N.shiftl_mul_pow2.
      replace ((b2n b * 2 ^ 63) mod 2 ^ 64)%N with (N.shiftl (b2n b mod 2) 63).
      2:{ rewrite N.shiftl_mul_pow2. change (2^64)%N with (2 * 2^63)%N.
          rewrite N.mul_mod_distr_r; [reflexivity|discriminate|discriminate]. }
      rewrite lor_disjoint by assumption.
      rewrite <- (to_int_mod (acc + 2^63 * b2n b)).
      rewrite <- (to_int_mod (acc + b2n b mod 2 * 2^63)).
      f_equal.
      change (2^63)%N with 9223372036854775808%N in *. lia.
    + rewrite N.mod_small.
      * rewrite lor_disjoint by assumption. f_equal. lia.
      * rewrite N.shiftl_mul_pow2.
        assert (2 ^ (7 * N.of_nat i) <= 2 ^ 56)%N by (apply N.pow_le_mono_r; lia).
        assert (b2n b * 2 ^ (7 * N.of_nat i) <= 127 * 2 ^ 56)%N
          by (apply N.mul_le_mono; [lia|assumption]).
        change (127 * 2 ^ 56)%N with 9151314442816847872%N in *.
        change (2 ^ 64)%N with 18446744073709551616%N. lia.
  - rewrite land_128_zero, land_127_byte.
    destruct (b2n b <? 128)%N eqn:E; [lia|].
    pose proof (vgroups_nonempty _ _ Hl).
    destruct (63 <? 7 * N.of_nat i + 7)%N eqn:E2; [lia|].
    replace (7 * N.of_nat i + 7)%N with (7 * N.of_nat (S i))%N by lia.
    assert (P : (2 ^ (7 * N.of_nat (S i)) = 128 * 2 ^ (7 * N.of_nat i))%N).
    { replace (7 * N.of_nat (S i))%N with (7 + 7 * N.of_nat i)%N by lia.
      rewrite N.pow_add_r. reflexivity. }
    assert (B : (2 ^ (7 * N.of_nat i) <= 2 ^ 56)%N) by (apply N.pow_le_mono_r; lia).
    pose proof (b2n_lt b) as Hlt.
    assert (B2 : ((b2n b - 128) * 2 ^ (7 * N.of_nat i) <= 127 * 2 ^ 56)%N)
      by (apply N.mul_le_mono; [lia|assumption]).
    rewrite N.land_ones, N.mod_small.
    2:{ rewrite N.shiftl_mul_pow2.
        change (127 * 2 ^ 56)%N with 9151314442816847872%N in *.
        change (2 ^ 64)%N with 18446744073709551616%N. lia. }
    rewrite lor_disjoint by assumption.
    rewrite IH.
    + f_equal; [|lia]. f_equal. rewrite P. ring.
    + lia.
    + rewrite P.
      assert ((b2n b - 128) * 2 ^ (7 * N.of_nat i) <= 127 * 2 ^ (7 * N.of_nat i))%N
        by (apply N.mul_le_mono_r; lia).
      lia.
Qed.

Lemma varintdecode_groups l n rest :
  vgroups l n -> length l <= 10 ->
  varintdecode (l ++ rest) = VOk (to_int n) (length l).
Proof.
  intros H L. unfold varintdecode.
  pose proof (vdec_loop_groups _ _ H 0 0%N rest L) as G.
  change (7 * N.of_nat 0)%N with 0%N in G. rewrite G by reflexivity.
  f_equal. f_equal. change (2^0)%N with 1%N. lia.
Qed.

(** Inversion: what a successful read has read. *)
Lemma vdec_loop_inv : forall by_ i acc z sz,
  vdec_loop by_ (7 * N.of_nat i) i acc = VOk z sz -> i <= 9 ->
  exists l rest n, by_ = l ++ rest /\ sz = i + length l /\ vgroups l n /\ sz <= 10.
Proof.
  induction by_ as [|b rest IH]; intros i acc z sz H Hi; cbn [vdec_loop] in H; [discriminate|].
  rewrite land_128_zero in H.
  destruct (b2n b <? 128)%N eqn:E.
  - injection H as Hz Hsz. exists [b], rest, (b2n b). cbn [length app].
    repeat split; try lia. constructor. lia.
  - destruct (63 <? 7 * N.of_nat i + 7)%N eqn:E2; [discriminate|].
    replace (7 * N.of_nat i + 7)%N with (7 * N.of_nat (S i))%N in H by lia.
    apply IH in H; [|lia]. destruct H as (l & r & n & -> & -> & G & L).
    exists (b :: l), r, (b2n b - 128 + 128 * n)%N. cbn [length app].
    repeat split; try lia. constructor; [lia|assumption].
Qed.

Lemma varintdecode_inv by_ z sz :
  varintdecode by_ = VOk z sz ->
  exists l rest n, by_ = l ++ rest /\ sz = length l /\ 1 <= sz <= 10 /\
                   vgroups l n /\ z = to_int n.
Proof.
  intros H. pose proof H as H0. unfold varintdecode in H0.
  apply (vdec_loop_inv _ 0) in H0; [|lia].
  destruct H0 as (l & rest & n & -> & E & G & L). cbn in E. subst sz.
  exists l, rest, n. repeat split; auto.
  - now apply vgroups_nonempty in G.
  - rewrite (varintdecode_groups _ _ rest G) in H by assumption. now injection H as <-.
Qed.

Lemma vgroups_det l n m : vgroups l n -> vgroups l m -> n = m.
Proof.
  intros H; revert m; induction H as [b Hb|b l n Hb Hl IH]; intros m Hm; inversion Hm; subst; auto.
  - match goal with X : vgroups [] _ |- _ => inversion X end.
  - inversion Hl.
  - f_equal. f_equal. auto.
Qed.

Lemma varintdecode_range by_ z sz :
  varintdecode by_ = VOk z sz -> (- two63 <= z < two63)%Z /\ 1 <= sz <= 10 /\ sz <= length by_.
Proof.
  intros H. apply varintdecode_inv in H.
  destruct H as (l & rest & n & -> & -> & B & _ & ->).
  split; [apply to_int_range|]. split; [assumption|]. rewrite app_length. lia.
Qed.

Lemma varintdecode_varint n rest :
  (n < 18446744073709551616)%N ->
  varintdecode (varint n ++ rest) = VOk (to_int n) (length (varint n)).
Proof.
  intros H. destruct (varint_groups _ H) as [G L].
  apply varintdecode_groups; [assumption|lia].
Qed.

Lemma varintdecode_ext by_ ext z sz :
  varintdecode by_ = VOk z sz -> varintdecode (by_ ++ ext) = VOk z sz.
Proof.
  intros H. apply varintdecode_inv in H.
  destruct H as (l & rest & n & -> & -> & B & G & ->).
  rewrite <- app_assoc. apply varintdecode_groups; [assumption|lia].
Qed.

Lemma varint_roundtrip_ n rest : (n < 18446744073709551616)%N ->
  vgroups (varint n) n /\
  exists z, varintdecode (varint n ++ rest) = VOk z (length (varint n)) /\
            (z mod two64 = Z.of_N n)%Z /\ (- two63 <= z < two63)%Z.
Proof.
  intros H. split; [now apply varint_groups|]. exists (to_int n).
  split; [now apply varintdecode_varint|]. split; [|apply to_int_range].
  rewrite <- (to_uint_to_int n H) at 2. unfold to_uint. rewrite Z2N.id; auto.
  apply Z.mod_pos_bound. reflexivity.
Qed.

Lemma varint_bounded_ b :
  (forall z sz, varintdecode b = VOk z sz <->
     exists l rest n, b = l ++ rest /\ sz = length l /\ sz <= 10 /\ vgroups l n /\ z = to_int n) /\
  (forall z sz, varintdecode b = VOk z sz -> 1 <= sz <= 10 /\ sz <= length b /\
     forall rest', varintdecode (firstn sz b ++ rest') = VOk z sz).
Proof.
  split.
  - intros z sz. split.
    + intros H. apply varintdecode_inv in H as (l & rest & n & E & -> & B & G & ->).
      exists l, rest, n. intuition lia.
    + intros (l & rest & n & -> & -> & L & G & ->). now apply varintdecode_groups.
  - intros z sz H. pose proof (varintdecode_range _ _ _ H) as (_ & B & L).
    split; [exact B|split; [exact L|]]. intros rest'.
    apply varintdecode_inv in H as (l & rest & n & E & -> & _ & G & ->). subst b.
    rewrite firstn_app, Nat.sub_diag, firstn_all, firstn_O, app_nil_r.
    apply varintdecode_groups; [exact G|lia].
Qed.
