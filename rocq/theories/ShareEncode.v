(** The encoder on values with shared parts: it appends one item, in the grammar with
    references to earlier items, describing what the traversal of SpecGraph.v says. *)
From Verif Require Import Base BaseFacts SpecVarint Varint VarintFacts Tags GoMem TagsCache
  Encode Spec SpecValue SpecShare SpecGraph GrammarFacts JsonFacts EncodeSpec.
From Coq Require Import ZifyBool ZifyNat ZifyN Permutation.

Scheme dag_mind := Induction for dag Sort Prop
  with dags_mind := Induction for dags Sort Prop.
Combined Scheme dag_both_ind from dag_mind, dags_mind.
Scheme sden_mind := Induction for sden Sort Prop
  with sdens_mind := Induction for sdens Sort Prop
  with sdenm_mind := Induction for sdenm Sort Prop.
Combined Scheme sden_all_ind from sden_mind, sdens_mind, sdenm_mind.
Ltac Zify.zify_post_hook ::= Z.div_mod_to_equations.

(** ** Bytes that may still get their track flag set *)
Definition mark (x : byte) : byte := n2b (N.lor (b2n x) trackFlag).

Lemma mark_twice x : mark (mark x) = mark x.
Proof. destruct x; reflexivity. Qed.
Lemma mark_tag x : (b2n (mark x) mod 128 = b2n x mod 128)%N.
Proof. destruct x; reflexivity. Qed.
Lemma mark_set x : (128 <= b2n (mark x))%N.
Proof. destruct x; vm_compute; discriminate. Qed.

(** [fin]: what the bytes [b] may become, the flags at [P] being set later *)
Definition fut (P : list nat) (b fin : bytes) : Prop :=
  forall i x, nth_error b i = Some x ->
    exists y, nth_error fin i = Some y /\ (y = x \/ (In i P /\ y = mark x)).

Lemma fut_len P b fin : fut P b fin -> length b <= length fin.
Proof.
  intros H. destruct (length b) as [|n] eqn:E; [lia|].
  destruct (nth_error b n) as [x|] eqn:X; [|apply nth_error_None in X; lia].
  destruct (H _ _ X) as (y & Y & _). assert (n < length fin); [|lia]. apply nth_error_Some. congruence.
Qed.
Lemma fut_refl P b : fut P b b.
Proof. intros i x H. eauto. Qed.
Lemma fut_trans P P' b b1 fin : fut P b b1 -> fut P' b1 fin ->
  (forall i, In i P' -> i < length b -> In i P) -> fut P b fin.
Proof.
  intros H1 H2 HP i x Hx. assert (L : i < length b) by (apply nth_error_Some; congruence).
  destruct (H1 _ _ Hx) as (y & Hy & Cy). destruct (H2 _ _ Hy) as (z & Hz & Cz).
  exists z. split; [exact Hz|]. destruct Cz as [->|[I ->]]; [exact Cy|].
  right. split; [auto|]. destruct Cy as [->|[_ ->]]; [reflexivity|apply mark_twice].
Qed.
Lemma fut_more P P' b fin : (forall i, In i P -> In i P') -> fut P b fin -> fut P' b fin.
Proof. intros HP H i x Hx. destruct (H _ _ Hx) as (y & Hy & [C|[I C]]); eauto 6. Qed.
Lemma fut_app P b l : fut P b (b ++ l).
Proof. intros i x H. exists x. split; auto. now apply nth_error_app_l. Qed.

Lemma at_intro b p l : p + length l <= length b ->
  (forall i x, nth_error l i = Some x -> nth_error b (p + i) = Some x) -> at_ b p l.
Proof.
  intros L H. exists (firstn p b), (skipn (length l) (skipn p b)). split.
  - rewrite <- (firstn_skipn p b) at 1. f_equal.
    rewrite <- (firstn_skipn (length l) (skipn p b)) at 1. f_equal.
    revert L H. set (c := skipn p b).
    assert (Hc : forall i, nth_error c i = nth_error b (p + i)).
    { intros i. unfold c. clear. revert b. induction p; intros b; [reflexivity|].
      destruct b; [cbn; now destruct i|]. cbn. apply IHp. }
    intros L H. assert (Lc : length l <= length c) by (unfold c; rewrite skipn_length; lia).
    assert (H' : forall i x, nth_error l i = Some x -> nth_error c i = Some x).
    { intros i x Hx. rewrite Hc. auto. }
    clearbody c. clear -Lc H'. revert c Lc H'. induction l as [|a l IH]; intros c Lc H'; [reflexivity|].
    destruct c as [|a' c]; [cbn in Lc; lia|]. cbn [length firstn].
    pose proof (H' 0 a eq_refl) as E. injection E as ->. f_equal. apply IH; [cbn in Lc; lia|].
    intros i x Hx. apply (H' (S i)). exact Hx.
  - rewrite firstn_length. lia.
Qed.

Section SE.
Variable e : econfig.
Variable h : heap.
Variable g : dialect.
Variable m : cmode.
Variable lev : addr -> nat.
Variable nm : addr -> gval -> Prop.
Hypothesis Hshuf : forall t A (l : list A), Permutation l (e_shuffle e t A l).
Hypothesis Hmax : (g_max g < 18446744073709551616)%N.

Notation dag_ := (dag (g_max g) (g_frz g) (e_nofreeze e) (e_layout e) h lev nm).
Notation dags_ := (dags (g_max g) (g_frz g) (e_nofreeze e) (e_layout e) h lev nm).
Notation den_ := (den (e_perl e) (e_nofreeze e) (e_parsefloat e) h).
Notation sden_ := (sden (e_perl e) (e_nofreeze e) (e_parsefloat e) (e_layout e) h).
Notation sdens_ := (sdens (e_perl e) (e_nofreeze e) (e_parsefloat e) (e_layout e) h).
Notation sdenm_ := (sdenm (e_perl e) (e_nofreeze e) (e_parsefloat e) (e_layout e) h).
Notation fits_ := (fits (g_max g)).
Notation bq := (bytes -> nat -> nat -> Prop).
Notation here s := (length (s_by s)).

(** the string table points at complete strings, whatever flags are set later *)
Definition strok (P : list nat) (s : estate) : Prop := forall k off, mget (s_str s) k = Some off ->
  off < here s /\ forall fin, fut P (s_by s) fin -> refers g fin off /\ exists u x, strlit g fin off u k x.
Definition ready (P : list nat) (s : estate) : Prop :=
  (forall n, In n P -> n < here s) /\
  (e_nodedup e = true \/ (copy_ok m = true /\ g_start g <= here s /\ strok P s)).

(** between two states a [Q] is appended, with flags that may be set later at [N] *)
Definition step (P : list nat) (Q : bq) (s s' : estate) (N : list nat) : Prop :=
  fut P (s_by s) (s_by s') /\ (forall n, In n N -> here s <= n < here s') /\
  (small s' -> ready P s -> ready (N ++ P) s' /\
     forall fin, fut (N ++ P) (s_by s') fin -> Q fin (here s) (here s')).

Lemma step_le P Q s s' N : step P Q s s' N -> here s <= here s'.
Proof. intros (F & _). now apply fut_len in F. Qed.

Lemma strok_ext P P' s s' : fut P (s_by s) (s_by s') -> s_str s' = s_str s ->
  (forall n, In n P' -> n < here s -> In n P) -> strok P s -> strok P' s'.
Proof.
  intros F Es HP K k off Hk. rewrite Es in Hk. destruct (K _ _ Hk) as [L H].
  pose proof (fut_len _ _ _ F). split; [lia|].
  intros fin Hf. apply H. eapply fut_trans; eauto.
Qed.

Lemma ready_ext P N s s' : fut P (s_by s) (s_by s') -> s_str s' = s_str s ->
  (forall n, In n N -> here s <= n < here s') -> ready P s -> ready (N ++ P) s'.
Proof.
  intros F Es HN [B R]. pose proof (fut_len _ _ _ F). split.
  - intros n Hn. apply in_app_iff in Hn as [Hn|Hn]; [apply HN in Hn; lia|]. apply B in Hn. lia.
  - destruct R as [R|(C & L & K)]; [now left|right]. split; [exact C|]. split; [lia|].
    eapply strok_ext; eauto. intros n Hn Ln. apply in_app_iff in Hn as [Hn|Hn]; [apply HN in Hn; lia|exact Hn].
Qed.

Lemma step_seq P (Q1 Q2 Q : bq) s s1 s2 N1 N2 :
  step P Q1 s s1 N1 -> step (N1 ++ P) Q2 s1 s2 N2 ->
  (forall fin r, Q1 fin (here s) r -> Q2 fin r (here s2) -> Q fin (here s) (here s2)) ->
  step P Q s s2 (N2 ++ N1).
Proof.
  intros (F1 & B1 & H1) (F2 & B2 & H2) HQ.
  pose proof (fut_len _ _ _ F1). pose proof (fut_len _ _ _ F2).
  split; [|split].
  - eapply fut_trans; [exact F1|exact F2|]. intros i Hi L.
    apply in_app_iff in Hi as [Hi|Hi]; [apply B1 in Hi; lia|exact Hi].
  - intros n Hn. apply in_app_iff in Hn as [Hn|Hn]; [apply B2 in Hn|apply B1 in Hn]; lia.
  - intros Sm R. assert (Sm1 : small s1) by (unfold small in *; lia).
    destruct (H1 Sm1 R) as [R1 K1]. destruct (H2 Sm R1) as [R2 K2].
    rewrite <- app_assoc. split; [exact R2|]. intros fin Hf. eapply HQ; [|now apply K2].
    apply K1. eapply fut_trans; [exact F2|exact Hf|]. intros i Hi L.
    apply in_app_iff in Hi as [Hi|Hi]; [apply B2 in Hi; lia|exact Hi].
Qed.

Lemma step_weaken P (Q Q' : bq) s s' N : (forall fin, Q fin (here s) (here s') -> Q' fin (here s) (here s')) ->
  step P Q s s' N -> step P Q' s s' N.
Proof.
  intros H (F & B & K). split; [exact F|]. split; [exact B|]. intros Sm R. destruct (K Sm R). auto.
Qed.

(** promising fewer positions *)
Lemma step_fewer P (Q : bq) s s' N N' : (forall n, In n N' -> In n N) ->
  step P Q s s' N -> step P Q s s' N'.
Proof.
  intros I (F & B & K). split; [exact F|]. split; [auto|]. intros Sm R. destruct (K Sm R) as [[R1 R2] HQ].
  assert (I' : forall n, In n (N' ++ P) -> In n (N ++ P)).
  { intros n. rewrite !in_app_iff. intuition. }
  split.
  - split; [auto|]. destruct R2 as [R2|(C & L & K2)]; [now left|right]. split; [auto|split; [auto|]].
    intros k off Hk. destruct (K2 k off Hk) as [Lo Ho]. split; [exact Lo|].
    intros fin Hf. apply Ho. eapply fut_more; eauto.
  - intros fin Hf. apply HQ. eapply fut_more; eauto.
Qed.

Lemma step_emit P (Q : bq) l s N : (forall n, In n N -> here s <= n < here s + length l) ->
  ((forall n, In n P -> n < here s) ->
   forall fin, fut (N ++ P) (s_by s ++ l) fin -> Q fin (here s) (here s + length l)) ->
  step P Q s (emit l s) N.
Proof.
  intros B H. assert (E : here (emit l s) = here s + length l).
  { cbn [s_by emit with_by]. apply app_length. }
  split; [apply fut_app|]. split; [now rewrite E|]. intros _ R. split.
  - eapply ready_ext; [apply fut_app|reflexivity|now rewrite E|exact R].
  - rewrite E. apply H. apply R.
Qed.

(** the pieces *)
Definition Qtag (t : N) : bq := fun b p p' => tag_at b p p t /\ p' = S p.
Definition Qvint (n : N) : bq := fun b p p' => vint b p n p'.
Definition Qat (l : bytes) : bq := fun b p p' => at_ b p l /\ p' = p + length l.
Definition Qkey (k : bytes) : bq := fun b p p' => stringish g b (copy_ok m) p k p'.
Definition Qlit (u : bool) (k : bytes) : bq := fun b p p' =>
  strlit g b p u k p' /\ exists t, tag_at b p p t /\ plain_tag t.

(** [flag]: may the first byte be flagged later *)
Definition new (flag : bool) (p : nat) : list nat := if flag then [p] else [].

Lemma step_tag P t s : (t < 128)%N -> t <> 63%N -> step P (Qtag t) s (emit [tagb t] s) [here s].
Proof.
  intros L Nt. apply step_emit.
  - cbn [length In]. intros n [<-|[]]. lia.
  - intros _ fin Hf. cbn [length]. split; [|lia].
    destruct (Hf (here s) (tagb t)) as (y & Hy & C).
    { rewrite nth_error_app2, Nat.sub_diag by lia. reflexivity. }
    split; [lia|]. split; [intros; lia|]. exists y. split; [exact Hy|].
    assert (E : (b2n y mod 128 = t)%N).
    { assert (E0 : (b2n (tagb t) mod 128 = t)%N) by (unfold tagb; rewrite b2n_n2b; lia).
      destruct C as [->|[_ ->]]; [exact E0|]. now rewrite mark_tag. }
    auto.
Qed.

Lemma fut_at P l s fin : (forall n, In n P -> n < here s) -> fut P (s_by s ++ l) fin -> at_ fin (here s) l.
Proof.
  intros B Hf. apply at_intro.
  - apply fut_len in Hf. rewrite app_length in Hf. exact Hf.
  - intros i x Hx. destruct (Hf (here s + i) x) as (y & Hy & C).
    { rewrite nth_error_app2 by lia. now replace (here s + i - here s) with i by lia. }
    destruct C as [->|[I _]]; [exact Hy|]. apply B in I. lia.
Qed.

Lemma step_at P l s : step P (Qat l) s (emit l s) [].
Proof.
  apply step_emit; [intros n []|]. intros B fin Hf. split; [|reflexivity]. eapply fut_at; eauto.
Qed.

Lemma step_vint P n s : (n < 18446744073709551616)%N -> step P (Qvint n) s (emit (varint n) s) [].
Proof.
  intros H. eapply step_weaken; [|apply step_at]. intros fin [A ->].
  destruct (varint_groups _ H) as [G L]. exists (varint n). repeat split; auto; lia.
Qed.

Lemma fits_lt A (l : list A) : fits_ l -> (ulen l < 18446744073709551616)%N.
Proof. unfold fits, ulen. lia. Qed.

Lemma step_seq1 P (Q1 Q2 Q : bq) s s1 s2 N : step P Q1 s s1 N -> (forall P, step P Q2 s1 s2 []) ->
  (forall fin r, Q1 fin (here s) r -> Q2 fin r (here s2) -> Q fin (here s) (here s2)) -> step P Q s s2 N.
Proof. intros A B H. exact (step_seq P Q1 Q2 Q s s1 s2 N [] A (B _) H). Qed.

Lemma step_utf8 P str s : fits_ str ->
  step P (Qlit true str) s (emit (tagb typeSTR_UTF8 :: varint (ulen str) ++ str) s) [here s].
Proof.
  intros F. rewrite emit_cons, emit_app.
  eapply (step_seq1 P (Qtag 39)); [apply step_tag; [reflexivity|discriminate]| |].
  - intros P'. eapply (step_seq1 P' (Qvint (ulen str)) (Qat str)
              (fun b p p' => exists r, Qvint (ulen str) b p r /\ Qat str b r p'));
      [apply step_vint; now apply fits_lt|intros; apply step_at|].
    intros b r H1 H2. exact (ex_intro _ r (conj H1 H2)).
  - cbn beta. intros b r [Ht ->] (r' & Hv & Ha & E). split.
    + rewrite E. eapply lit_utf8; eauto.
    + exists 39%N. split; [exact Ht|]. unfold plain_tag. lia.
Qed.

Lemma step_bytes P str s : fits_ str ->
  step P (Qlit false str) s
    (emit (if (ulen str <? 32)%N then n2b (typeSHORT_BINARY_0 + ulen str) :: str
           else tagb typeBINARY :: varint (ulen str) ++ str) s) [here s].
Proof.
  intros F. destruct (N.ltb_spec (ulen str) 32) as [L|L].
  - rewrite emit_cons.
    eapply (step_seq1 P (Qtag (96 + ulen str))); [|intros; apply step_at|].
    + apply (step_tag P (96 + ulen str)); unfold ulen in *; lia.
    + intros b r [Ht ->] [Ha E]. split.
      * rewrite E. eapply lit_short; eauto; unfold ulen in *; lia.
      * exists (96 + ulen str)%N. split; [exact Ht|]. unfold plain_tag, ulen in *. lia.
  - rewrite emit_cons, emit_app.
    eapply (step_seq1 P (Qtag 38)); [apply step_tag; [reflexivity|discriminate]| |].
    + intros P'. eapply (step_seq1 P' (Qvint (ulen str)) (Qat str)
              (fun b p p' => exists r, Qvint (ulen str) b p r /\ Qat str b r p'));
        [apply step_vint; now apply fits_lt|intros; apply step_at|].
      intros b r H1 H2. exact (ex_intro _ r (conj H1 H2)).
    + cbn beta. intros b r [Ht ->] (r' & Hv & Ha & E). split.
      * rewrite E. eapply lit_binary; eauto.
      * exists 38%N. split; [exact Ht|]. unfold plain_tag. lia.
Qed.

Lemma step_dedup P u str c l0 s : ~ pad_byte c -> let l := c :: l0 in
  step P (Qlit u str) s (emit l s) [] -> step P (Qkey str) s (dedup e l str s) [].
Proof.
  intros Nc l St. unfold dedup. destruct (e_nodedup e) eqn:Nd; cbn [negb andb].
  { eapply step_weaken; [|exact St]. intros b [Hl _]. eapply str_lit; exact Hl. }
  destruct (mget (s_str s) str) as [off|] eqn:G.
  - split; [apply fut_app|]. split; [intros n []|]. intros Sm R. split.
    { eapply ready_ext; [apply fut_app|reflexivity|intros n []|exact R]. }
    intros fin Hf. pose proof R as [B [R'|(C & L & K)]]; [congruence|].
    destruct (K _ _ G) as (A2 & A3).
    assert (Bd : (N.of_nat off < 18446744073709551616)%N).
    { unfold small, two63 in Sm. cbn [s_by emit with_by] in Sm. rewrite app_length in Sm. lia. }
    assert (St2 : step P (fun b p p' => tag_at b p p 47 /\ vint b (S p) (N.of_nat off) p') s
                    (emit (tagb typeCOPY :: varint (N.of_nat off)) s) []).
    { rewrite emit_cons. eapply (step_seq1 P (Qtag 47)).
      - eapply step_fewer; [|apply step_tag; [reflexivity|discriminate]]. intros n [].
      - intros P'. apply (step_vint P' (N.of_nat off)). exact Bd.
      - intros b r [Ht ->] Hv. auto. }
    destruct St2 as (_ & _ & K2). destruct (K2 Sm R) as [_ K3]. destruct (K3 fin Hf) as [Ht Hv].
    destruct (A3 fin) as (Rf & u' & x & Sl).
    { eapply fut_trans; [apply fut_app|exact Hf|]. auto. }
    eapply str_copy; [exact C|exact Ht|exact Hv| | |]; rewrite Nat2N.id; eauto.
  - destruct St as (F & B & K). split; [exact F|]. split; [intros n []|]. intros Sm R.
    destruct (K Sm R) as [R1 Hl]. split; [|intros fin Hf; eapply str_lit; exact (proj1 (Hl fin Hf))].
    destruct R1 as [B1 _]. destruct R as [B0 [R|(C & L & Ks)]]; [congruence|].
    split; [exact B1|right]. cbn [app] in *.
    cbn [s_by s_str emit with_by] in *.
    split; [exact C|]. split; [rewrite app_length; lia|].
    intros k off Hk. cbn [s_by s_str emit with_by] in *. rewrite mget_mput in Hk.
    destruct (bytes_eqb str k) eqn:Ek.
    + apply bytes_eqb_true in Ek as <-. injection Hk as <-. rewrite app_length. cbn [length l].
      split; [lia|]. intros fin Hf. split.
      * split; [lia|]. intros _ x Hx. destruct (Hf (here s) c) as (y & Hy & Cy).
        { rewrite nth_error_app2, Nat.sub_diag by lia. reflexivity. }
        destruct Cy as [->|[I _]]; [|apply B0 in I; lia]. congruence.
      * exists u. eexists. apply (Hl fin Hf).
    + destruct (Ks _ _ Hk) as (A2 & A3). rewrite app_length. split; [lia|].
      intros fin Hf. apply A3. eapply fut_trans; [apply fut_app|exact Hf|auto].
Qed.

(** a step that always succeeds *)
Definition pure (flag : bool) (f : estate -> estate) (Q : bq) : Prop :=
  forall s, s_ptr (f s) = s_ptr s /\ forall P, step P Q s (f s) (new flag (here s)).

Lemma pure_emit flag l Q : (forall P s, step P Q s (emit l s) (new flag (here s))) -> pure flag (emit l) Q.
Proof. intros H s. split; [reflexivity|]. intros. apply H. Qed.

Lemma pure_seq flag f1 f2 (Q1 Q2 Q : bq) : pure flag f1 Q1 -> pure false f2 Q2 ->
  (forall b p r p', Q1 b p r -> Q2 b r p' -> Q b p p') -> pure flag (fun s => f2 (f1 s)) Q.
Proof.
  intros P1 P2 H s. destruct (P1 s) as [E1 S1], (P2 (f1 s)) as [E2 S2].
  split; [congruence|]. intros P. eapply step_seq1; [apply S1|apply S2|eauto].
Qed.

Lemma pure_weaken flag f (Q Q' : bq) : (forall b p p', Q b p p' -> Q' b p p') ->
  pure flag f Q -> pure flag f Q'.
Proof. intros H P s. destruct (P s). split; auto. intros P0. eapply step_weaken; [intros fin; apply H|auto]. Qed.

Lemma pure_unflag f Q : pure true f Q -> pure false f Q.
Proof.
  intros P s. destruct (P s) as [E St]. split; [exact E|]. intros P0.
  eapply step_fewer; [|apply St]. intros n [].
Qed.

Lemma pure_tag t : (t < 128)%N -> t <> 63%N -> pure true (emit [tagb t]) (Qtag t).
Proof. intros L N. apply pure_emit. intros. now apply step_tag. Qed.
Lemma pure_vint n : (n < 18446744073709551616)%N -> pure false (emit (varint n)) (Qvint n).
Proof. intros L. apply pure_emit. intros. now apply step_vint. Qed.

Lemma pure_skey k : fits_ k -> pure false (encodeString e k true) (Qkey k).
Proof.
  intros F s. split; [apply string_ptr|]. intros P.
  apply (step_dedup P true k (tagb typeSTR_UTF8)); [intros [H|H]; discriminate H|].
  eapply step_fewer; [|now apply step_utf8]. intros n [].
Qed.
Lemma pure_bkey k : fits_ k -> pure false (encodeBytes e k true) (Qkey k).
Proof.
  intros F s. split; [apply bytes_ptr|]. intros P.
  pose proof (step_fewer P _ _ _ _ [] ltac:(intros n []) (step_bytes P k s F)) as St. unfold encodeBytes, ulen in *.
  destruct (N.of_nat (length k) <? 32)%N eqn:L.
  - apply (step_dedup P false k (n2b (typeSHORT_BINARY_0 + N.of_nat (length k)))); [|exact St].
    unfold pad_byte, typeSHORT_BINARY_0. rewrite b2n_n2b_small by lia. lia.
  - apply (step_dedup P false k (tagb typeBINARY)); [intros [H|H]; discriminate H|exact St].
Qed.
Lemma pure_sval k : fits_ k -> pure true (encodeString e k false) (Qlit true k).
Proof.
  intros F s. split; [apply string_ptr|]. intros P. unfold encodeString. rewrite andb_false_r.
  now apply step_utf8.
Qed.
Lemma pure_bval k : fits_ k -> pure true (encodeBytes e k false) (Qlit false k).
Proof.
  intros F s. split; [apply bytes_ptr|]. intros P. unfold encodeBytes. rewrite andb_false_r.
  now apply step_bytes.
Qed.

(** ** Items without items inside *)
Definition Qplain (d : data) : bq := fun b p p' =>
  item g b m p d p' /\ exists t, tag_at b p p t /\ plain_tag t.

Lemma pure_num t n d : (t = 32 /\ d = DInt (Z.of_N n) \/
    t = 33 /\ N.even n = false /\ d = DInt (zigzag_meaning n))%N -> (n < 18446744073709551616)%N ->
  pure true (emit (tagb t :: varint n)) (Qplain d).
Proof.
  intros T L.
  assert (K : pure true (fun s => emit (varint n) (emit [tagb t] s)) (Qplain d)).
  { eapply (pure_seq true (emit [tagb t]) (emit (varint n)) (Qtag t) (Qvint n)); [apply pure_tag; lia|now apply pure_vint|].
    intros b p r p' [Ht ->] Hv. split.
    - destruct T as [(-> & ->)|(-> & E & ->)]; [eapply i_varint|eapply i_zigzag]; eauto.
    - exists t. split; [exact Ht|]. unfold plain_tag. lia. }
  intros s. rewrite emit_cons. apply K.
Qed.

Lemma pure_int isInt i : int64 i ->
  pure true (emit (encodeInt isInt i)) (Qplain (DInt (if isInt then i else Z.of_N (to_uint i)))).
Proof.
  intros R. unfold encodeInt, int64 in *.
  destruct ((0 <=? i) && (i <=? 15))%Z eqn:C1.
  { assert (E : n2b (N.land (b2n (z2b i)) 15) = tagb (Z.to_N i)).
    { unfold tagb. f_equal. unfold z2b. rewrite b2n_n2b.
      change 15%N with (N.ones 4). rewrite N.land_ones. change (2 ^ 4)%N with 16%N. lia. }
    rewrite E. eapply pure_weaken; [|apply (pure_tag (Z.to_N i)); lia].
    intros b p p' [Ht ->]. split; [|exists (Z.to_N i); split; [exact Ht|unfold plain_tag; lia]].
    replace (if isInt then i else Z.of_N (to_uint i)) with (Z.of_N (Z.to_N i)).
    - eapply i_pos; [exact Ht|lia].
    - destruct isInt; [lia|]. unfold to_uint, two64. lia. }
  destruct ((-16 <=? i) && (i <? 0) && isInt)%Z eqn:C2.
  { assert (isInt = true) as -> by (destruct isInt; auto; rewrite andb_false_r in C2; discriminate).
    assert (E : n2b (N.lor 16 (N.land (b2n (z2b i)) 15)) = tagb (Z.to_N (i + 32))).
    { assert (In i (map (fun k => (Z.of_nat k - 16)%Z) (seq 0 16))) as Hin.
      { apply in_map_iff. exists (Z.to_nat (i + 16)). split; [lia|]. apply in_seq. lia. }
      cbn in Hin. repeat (destruct Hin as [<-|Hin]; [reflexivity|]). destruct Hin. }
    rewrite E. eapply pure_weaken; [|apply (pure_tag (Z.to_N (i + 32))); lia].
    intros b p p' [Ht ->]. split; [|exists (Z.to_N (i + 32)); split; [exact Ht|unfold plain_tag; lia]].
    replace i with (Z.of_N (Z.to_N (i + 32)) - 32)%Z at 1 by lia.
    eapply i_neg; [exact Ht|lia]. }
  destruct (15 <? i)%Z eqn:C3.
  { apply pure_num.
    - left. split; [reflexivity|]. destruct isInt; [|reflexivity].
      f_equal. unfold to_uint, two63, two64 in *. lia.
    - unfold to_uint, two64. lia. }
  destruct isInt.
  - destruct (zigzag_neg g Hmax i) as (A1 & A2 & A3); [unfold two63 in *; lia|].
    apply pure_num; auto. right. now rewrite A2.
  - apply pure_num; [|unfold to_uint, two64; lia]. left. auto.
Qed.

Lemma pure_at l : pure false (emit l) (Qat l).
Proof. apply pure_emit. intros. apply step_at. Qed.

Lemma pure_f32 u : (u < 2 ^ 32)%N -> pure true (emit (encodeFloat u)) (Qplain (DF32 u)).
Proof.
  intros L. destruct (le_bytes_val e g Hshuf Hmax 4 u) as [A B]; [exact L|].
  assert (K : pure true (fun s => emit (le_bytes 4 u) (emit [tagb typeFLOAT] s)) (Qplain (DF32 u))).
  { eapply (pure_seq true (emit [tagb typeFLOAT])); [apply pure_tag; [reflexivity|discriminate]|apply pure_at|].
    intros b p r p' [Ht ->] [Ha ->]. split; [|exists 34%N; split; [exact Ht|unfold plain_tag; lia]].
    rewrite <- B at 1. rewrite A. now apply i_float. }
  intros s. unfold encodeFloat. rewrite emit_cons. apply K.
Qed.
Lemma pure_f64 u : (u < 2 ^ 64)%N -> pure true (emit (encodeDouble u)) (Qplain (DF64 u)).
Proof.
  intros L. destruct (le_bytes_val e g Hshuf Hmax 8 u) as [A B]; [exact L|].
  assert (K : pure true (fun s => emit (le_bytes 8 u) (emit [tagb typeDOUBLE] s)) (Qplain (DF64 u))).
  { eapply (pure_seq true (emit [tagb typeDOUBLE])); [apply pure_tag; [reflexivity|discriminate]|apply pure_at|].
    intros b p r p' [Ht ->] [Ha ->]. split; [|exists 35%N; split; [exact Ht|unfold plain_tag; lia]].
    rewrite <- B at 1. rewrite A. now apply i_double. }
  intros s. unfold encodeDouble. rewrite emit_cons. apply K.
Qed.

Lemma pure_lit f u str : pure true f (Qlit u str) -> pure true f (Qplain (if u then DStr str else DBin str)).
Proof.
  intros H. eapply pure_weaken; [|exact H]. intros b p p' [L T]. split; [now apply i_str|exact T].
Qed.

Lemma pure_simple t d : plain_tag t -> t <> 63%N ->
  (forall b p, tag_at b p p t -> item g b m p d (S p)) -> pure true (emit [tagb t]) (Qplain d).
Proof.
  intros L N H. eapply pure_weaken; [|apply (pure_tag t)]; [|unfold plain_tag in L; lia|exact N].
  intros b p p' [Ht ->]. split; [auto|]. eauto.
Qed.

Hypothesis Hpf : forall s u, e_parsefloat e s = Some u -> (u < 2 ^ 64)%N.

Lemma pure_json n : fits_ n -> exists d, (forall r, den_ r (GJson n) d) /\
  pure true (encodeJsonNumber e n false) (Qplain d).
Proof.
  intros F. unfold encodeJsonNumber. pose proof (parse_int_spec n) as Sp.
  destruct (parse_int n) as [z| |].
  - destruct Sp as [D I]. exists (DInt z). split; [now constructor|]. now apply (pure_int true).
  - destruct (e_parsefloat e n) as [u|] eqn:Ef.
    + exists (DF64 u). split; [now constructor|]. apply pure_f64. eauto.
    + exists (DStr n). split; [|now apply (pure_lit _ true n), pure_sval].
      intros r. apply dn_json_str. intros z D. now apply Sp in D.
  - exists (DStr n). split; [|now apply (pure_lit _ true n), pure_sval].
    intros r. now apply dn_json_str.
Qed.

(** ** The tables *)
Definition al (S : senv) (E : env) (P : list nat) (s : estate) : Prop :=
  (forall n, In n (map fst E) -> n < here s) /\ (forall n, In n P -> n < here s) /\
  forall a, match find S a with
            | None => pget (s_ptr s) a = None
            | Some o => exists n, pget (s_ptr s) a = Some n /\ In n P /\ look E n = Some o
            end.
(** nothing unfinished is recorded *)
Definition calm (Y : senv) : Prop := forall a, ~ In (a, None) Y.
(** unfinished addresses have a larger level *)
Definition busy (S : senv) (n : nat) : Prop := forall a, find S a = Some None -> n < lev a.

Lemma find_app Y S a : find (Y ++ S) a = match find Y a with Some o => Some o | None => find S a end.
Proof. induction Y as [|[a' o] Y IH]; cbn [find app]; auto. destruct (addr_eqb a' a); auto. Qed.
Lemma find_in Y a o : find Y a = Some o -> In (a, o) Y.
Proof.
  induction Y as [|[a' o'] Y IH]; cbn [find]; [discriminate|]. destruct (addr_eqb a' a) eqn:Ea.
  - apply addr_eqb_true in Ea as ->. intros [= ->]. now left.
  - intros H. right. auto.
Qed.
Lemma calm_find Y a : calm Y -> find Y a <> Some None.
Proof. intros C H. apply find_in in H. now apply C in H. Qed.
Lemma busy_calm Y S n : calm Y -> busy S n -> busy (Y ++ S) n.
Proof.
  intros C B a. rewrite find_app. destruct (find Y a) as [o|] eqn:F; [|apply B].
  intros [= ->]. now apply calm_find in F.
Qed.
Lemma busy_mono S n k : n <= k -> busy S k -> busy S n.
Proof. intros L B a H. apply B in H. lia. Qed.

Lemma look_app X E n : look (X ++ E) n = match look X n with Some o => Some o | None => look E n end.
Proof. induction X as [|[n' o] X IH]; cbn [look app]; auto. destruct (n' =? n); auto. Qed.
Lemma look_in X n o : look X n = Some o -> In n (map fst X).
Proof.
  induction X as [|[n' o'] X IH]; cbn [look map In fst]; [discriminate|].
  destruct (Nat.eqb_spec n' n); auto.
Qed.
Lemma look_none X n : ~ In n (map fst X) -> look X n = None.
Proof. destruct (look X n) eqn:L; auto. intros H. apply look_in in L. easy. Qed.

(** ** Runs *)
Definition post (s s' : estate) (S : senv) (E : env) (P : list nat) (Y : senv) (X : env) (N : list nat) : Prop :=
  al (Y ++ S) (X ++ E) (N ++ P) s' /\ calm Y /\
  (forall a, find Y a = None -> pget (s_ptr s') a = pget (s_ptr s) a) /\
  (forall n, In n (map fst X) -> here s <= n).

Definition does {D : Type} (run : res estate) (s : estate) (S : senv) (E : env) (P : list nat)
  (R : D -> senv -> env -> list nat -> Prop) (Q : D -> env -> bq) : Prop :=
  exists s' x Y X N, run = Ok s' /\ R x Y X N /\ post s s' S E P Y X N /\ step P (Q x X) s s' N.

Definition Ritem (s : estate) (T : data -> senv -> Prop) (d : data) (Y : senv) (X : env) (N : list nat) : Prop :=
  T d Y /\ look X (here s) = Some (Some d) /\ In (here s) N.
Definition Qitem (E : env) (d : data) (X : env) : bq := fun b p p' => sitem g b E m p d p' X.

Lemma al_ptr S E P s s1 : s_ptr s1 = s_ptr s -> here s <= here s1 -> al S E P s -> al S E P s1.
Proof.
  intros Ep L (A1 & A2 & A3). split; [intros n H; apply A1 in H; lia|].
  split; [intros n H; apply A2 in H; lia|]. intros a. rewrite Ep. apply A3.
Qed.

Lemma al_open S E P s s1 : s_ptr s1 = s_ptr s -> here s < here s1 -> al S E P s ->
  al S ((here s, None) :: E) (here s :: P) s1.
Proof.
  intros Ep L (A1 & A2 & A3). split; [|split].
  - cbn [map fst In]. intros n [<-|H]; [lia|]. apply A1 in H. lia.
  - intros n [<-|H]; [lia|]. apply A2 in H. lia.
  - intros a. specialize (A3 a). rewrite Ep. destruct (find S a) as [o|]; [|exact A3].
    destruct A3 as (n & G1 & G2 & G3). exists n. split; [exact G1|]. split; [now right|].
    cbn [look]. destruct (Nat.eqb_spec (here s) n) as [<-|]; [apply A2 in G2; lia|exact G3].
Qed.

Lemma look_swap X q o E n x : look (X ++ (q, None) :: E) n = Some (Some x) ->
  look (X ++ (q, o) :: E) n = Some (Some x).
Proof. rewrite !look_app. destruct (look X n); auto. cbn [look]. destruct (q =? n); [discriminate|auto]. Qed.

Lemma al_close S E P s s' Y X N d : al S E P s ->
  al (Y ++ S) (X ++ (here s, None) :: E) (N ++ here s :: P) s' -> calm Y ->
  (forall a, find Y a = None -> pget (s_ptr s') a = pget (s_ptr s) a) ->
  (forall n, In n (map fst X) -> here s < n) ->
  al (Y ++ S) ((X ++ [(here s, Some d)]) ++ E) ((N ++ [here s]) ++ P) s'.
Proof.
  intros (A1 & A2 & A3) (B1 & B2 & B3) C Fr HX. rewrite <- !app_assoc. cbn [app].
  split; [|split].
  - intros n. rewrite map_app. cbn [map fst]. intros H. apply B1. rewrite map_app. exact H.
  - exact B2.
  - intros a. specialize (B3 a). rewrite find_app in *. destruct (find Y a) as [o|] eqn:FY.
    + destruct B3 as (n & G1 & G2 & G3). exists n. split; [exact G1|]. split; [exact G2|].
      destruct o as [x|]; [|now apply calm_find in FY]. now apply look_swap.
    + rewrite (Fr _ FY) in *. specialize (A3 a). destruct (find S a) as [o|]; [|exact A3].
      destruct A3 as (n & G1 & G2 & G3). exists n. split; [exact G1|].
      split; [apply in_app_iff; right; now right|]. pose proof (A2 _ G2).
      rewrite look_app, look_none; [|intros Hn; apply HX in Hn; lia]. cbn [look].
      destruct (Nat.eqb_spec (here s) n); [lia|exact G3].
Qed.

Lemma does_weaken {D} run s S E P (R R' : D -> senv -> env -> list nat -> Prop) (Q : D -> env -> bq) :
  (forall x Y X N, R x Y X N -> R' x Y X N) -> does run s S E P R Q -> does run s S E P R' Q.
Proof. intros H (s' & x & Y & X & N & K). exists s', x, Y, X, N. intuition. Qed.

Lemma item_weaken run s S E P (T T' : data -> senv -> Prop) : (forall d Y, T d Y -> T' d Y) ->
  does run s S E P (Ritem s T) (Qitem E) -> does run s S E P (Ritem s T') (Qitem E).
Proof. intros H. apply does_weaken. intros x Y X N (A & B & C). repeat split; auto. Qed.

Lemma does_leaf f d s S E P (T : data -> senv -> Prop) : pure true f (Qplain d) -> al S E P s -> T d [] ->
  does (Ok (f s)) s S E P (Ritem s T) (Qitem E).
Proof.
  intros Pf A Td. destruct (Pf s) as [Ep St]. specialize (St P).
  pose proof St as (_ & B & _). specialize (B (here s) ltac:(now left)).
  exists (f s), d, [], [(here s, Some d)], [here s]. split; [reflexivity|]. split; [|split].
  - split; [exact Td|]. cbn [look]. rewrite Nat.eqb_refl. split; [reflexivity|now left].
  - split; [|split; [|split]].
    + cbn [app]. apply (al_close S E P s (f s) [] [] [] d A);
        [apply (al_open S E P s (f s)); [exact Ep|lia|exact A]|intros a []|intros a _; now rewrite Ep|intros n []].
    + intros a [].
    + intros a _. now rewrite Ep.
    + cbn. intros n [<-|[]]. lia.
  - eapply step_weaken; [|exact St]. intros fin (I & t & Ht & Hp).
    apply (s_item g fin E m (here s) (here s) t d (here (f s)) []); [exact Ht|].
    now apply s_plain.
Qed.

(** an item starting with what [f] emits *)
Lemma does_item {D} (f : estate -> estate) (Q1 : bq) run s S E P
  (R : D -> senv -> env -> list nat -> Prop) (Q : D -> env -> bq) (mk : D -> data) (T : data -> senv -> Prop) :
  pure true f Q1 -> al S E P s ->
  (al S ((here s, None) :: E) (here s :: P) (f s) ->
   does run (f s) S ((here s, None) :: E) (here s :: P) R Q) ->
  (forall x Y X N, R x Y X N -> T (mk x) Y) ->
  (forall x Y X N fin r p', R x Y X N -> Q1 fin (here s) r -> Q x X fin r p' ->
     exists t, tag_at fin (here s) (here s) t /\
       sbody g fin ((here s, None) :: E) m (here s) t (mk x) p' X) ->
  does run s S E P (Ritem s T) (Qitem E).
Proof.
  intros Pf A HD HR HQ. destruct (Pf s) as [Ep St]. specialize (St P).
  pose proof St as (_ & B & _). specialize (B (here s) ltac:(now left)).
  destruct HD as (s' & x & Y & X & N & Er & Rx & (A' & C & Fr & HX) & St').
  { apply al_open; auto; lia. }
  exists s', (mk x), Y, (X ++ [(here s, Some (mk x))]), (N ++ [here s]).
  split; [exact Er|].
  assert (HX' : forall n, In n (map fst X) -> here s < n) by (intros n H; apply HX in H; lia).
  split; [|split; [split; [|split; [|split]]|]].
  - split; [eauto|]. rewrite look_app, look_none; [|intros H; apply HX' in H; lia].
    cbn [look]. rewrite Nat.eqb_refl. split; [reflexivity|]. apply in_app_iff. right. now left.
  - apply al_close; auto. intros a Fa. rewrite (Fr a Fa). now rewrite Ep.
  - exact C.
  - intros a Fa. rewrite (Fr a Fa). now rewrite Ep.
  - intros n. rewrite map_app, in_app_iff. cbn. intros [H|[<-|[]]]; [apply HX' in H|]; lia.
  - eapply (step_seq P Q1 (Q x X)); [exact St|exact St'|].
    intros fin r K1 K2. destruct (HQ _ _ _ _ _ _ _ Rx K1 K2) as (t & Ht & Hb).
    eapply s_item; eauto.
Qed.

(** two runs in a row *)
Lemma does_bind {D1 D2 D} (run1 : res estate) run2 s S E P
  (R1 : D1 -> senv -> env -> list nat -> Prop) Q1 (R2 : D1 -> senv -> D2 -> senv -> env -> list nat -> Prop)
  (Q2 : env -> D2 -> env -> bq) (mk : D1 -> D2 -> D) (R : D -> senv -> env -> list nat -> Prop) (Q : D -> env -> bq) :
  does run1 s S E P R1 Q1 ->
  (forall s1 x Y X N, R1 x Y X N -> calm Y -> al (Y ++ S) (X ++ E) (N ++ P) s1 ->
     does (run2 s1) s1 (Y ++ S) (X ++ E) (N ++ P) (R2 x Y) (Q2 (X ++ E))) ->
  (forall x y Y X N Y' X' N', R1 x Y X N -> R2 x Y y Y' X' N' -> R (mk x y) (Y' ++ Y) (X' ++ X) (N' ++ N)) ->
  (forall x y X X' fin p r p', Q1 x X fin p r -> Q2 (X ++ E) y X' fin r p' -> Q (mk x y) (X' ++ X) fin p p') ->
  does (bind run1 run2) s S E P R Q.
Proof.
  intros (s1 & x & Y & X & N & -> & Rx & (A & C & Fr & HX) & St) H2 HR HQ. cbn [bind].
  destruct (H2 s1 x Y X N Rx C A) as (s2 & y & Y' & X' & N' & -> & Ry & (A' & C' & Fr' & HX') & St').
  pose proof (step_le _ _ _ _ _ St).
  exists s2, (mk x y), (Y' ++ Y), (X' ++ X), (N' ++ N). split; [reflexivity|].
  split; [eauto|]. split; [split; [|split; [|split]]|].
  - now rewrite <- !app_assoc.
  - intros a Ha. apply in_app_iff in Ha as [Ha|Ha]; [now apply C' in Ha|now apply C in Ha].
  - intros a. rewrite find_app. destruct (find Y' a) eqn:F'; [discriminate|]. intros Fa.
    rewrite (Fr' a F'). auto.
  - intros n. rewrite map_app, in_app_iff. intros [Hn|Hn]; [apply HX' in Hn; lia|auto].
  - eapply step_seq; [exact St|exact St'|]. intros fin r K1 K2. eauto.
Qed.

(** a pure step without items first *)
Lemma does_after {D} (f : estate -> estate) (Q1 : bq) run s S E P
  (R : D -> senv -> env -> list nat -> Prop) (Q Q' : D -> env -> bq) :
  pure false f Q1 -> al S E P s ->
  (al S E P (f s) -> does run (f s) S E P R Q) ->
  (forall x X fin p r p', Q1 fin p r -> Q x X fin r p' -> Q' x X fin p p') ->
  does run s S E P R Q'.
Proof.
  intros Pf A HD HQ. destruct (Pf s) as [Ep St]. specialize (St P). pose proof (step_le _ _ _ _ _ St).
  destruct HD as (s' & x & Y & X & N & Er & Rx & (A' & C & Fr & HX) & St').
  { eapply al_ptr; eauto. }
  exists s', x, Y, X, N. split; [exact Er|]. split; [exact Rx|]. split; [split; [|split; [|split]]|].
  - exact A'.
  - exact C.
  - intros a Fa. rewrite (Fr a Fa). now rewrite Ep.
  - intros n Hn. apply HX in Hn. lia.
  - pose proof (step_seq P Q1 (Q x X) (Q' x X) s (f s) s' [] N St St') as K.
    rewrite app_nil_r in K. apply K. intros fin r K1 K2. eauto.
Qed.

Lemma does_nil {D} (x : D) s S E P (R : D -> senv -> env -> list nat -> Prop) (Q : D -> env -> bq) :
  al S E P s -> R x [] [] [] -> (forall fin p, Q x [] fin p p) -> does (Ok s) s S E P R Q.
Proof.
  intros A HR HQ. exists s, x, [], [], []. split; [reflexivity|]. split; [exact HR|]. split; [|split; [|split]].
  - split; [exact A|]. split; [intros a []|]. split; [reflexivity|]. intros n [].
  - apply fut_refl.
  - intros n [].
  - intros _ Rd. split; [exact Rd|]. intros. apply HQ.
Qed.

(** ** Values *)
Definition Pn (N0 : nat) (n : nat) (v : gval) : Prop :=
  forall fuel r dep s S E P, N0 <= fuel -> (Z.of_nat n < dep)%Z -> al S E P s -> busy S n ->
    does (encode e h fuel v r dep s) s S E P (Ritem s (sden_ S r v)) (Qitem E).
Definition Penc (v : gval) (n : nat) : Prop := exists N0, Pn N0 n v.

Lemma Pn_mono N0 N1 n v : N0 <= N1 -> Pn N0 n v -> Pn N1 n v.
Proof. intros L H fuel r dep s S E P Hf. apply H. lia. Qed.
Lemma all_mono N0 N1 n vs : N0 <= N1 -> Forall (Pn N0 n) vs -> Forall (Pn N1 n) vs.
Proof. intros L. apply Forall_impl. intros v. now apply Pn_mono. Qed.
Lemma all_fuel vs n : Forall (fun v => Penc v n) vs -> exists N0, Forall (Pn N0 n) vs.
Proof.
  induction 1 as [|v vs [N1 H1] _ [N2 H2]]; [exists 0; constructor|].
  exists (Nat.max N1 N2). constructor.
  - eapply Pn_mono; [|exact H1]. lia.
  - eapply all_mono; [|exact H2]. lia.
Qed.
Lemma all_perm (P : gval -> Prop) vs vs' : Permutation vs vs' -> Forall P vs -> Forall P vs'.
Proof. intros Pm H. apply Forall_forall. intros x Hx. eapply Forall_forall in H; [exact H|]. eapply Permutation_in; [apply Permutation_sym; exact Pm|exact Hx]. Qed.

Definition Rvals (S : senv) (vs : list gval) (ds : list data) (Y : senv) (X : env) (N : list nat) : Prop := sdens_ S vs ds Y.
Definition Qvals (E : env) (ds : list data) (X : env) : bq := fun b p p' => sitems g b E m p ds p' X.
Definition Rpairs (S : senv) (vs : list (bytes * gval)) (ds : list (bytes * data)) (Y : senv) (X : env) (N : list nat) : Prop := sdenm_ S vs ds Y.
Definition Qpairs (E : env) (ds : list (bytes * data)) (X : env) : bq := fun b p p' => spairs g b E m p ds p' X.

Lemma elems_ok N0 n vs : Forall (Pn N0 n) vs ->
  forall fuel base dep s S E P, N0 <= fuel -> (Z.of_nat n < dep)%Z -> vs = cells h base (length vs) ->
  al S E P s -> busy S n ->
  does (enc_elems h (encode e h fuel) (length vs) base dep s) s S E P (Rvals S vs) (Qvals E).
Proof.
  induction 1 as [|v vs Hv _ IH]; intros fuel base dep s S E P Hf Hd Ev A B.
  - cbn [enc_elems length]. apply (does_nil []); auto; constructor.
  - cbn [length enc_elems]. cbn [length cells seq map] in Ev. injection Ev as Ev Evs.
    rewrite <- Ev.
    eapply (does_bind _ (enc_elems h (encode e h fuel) (length vs) (Datatypes.S base) dep) s S E P
      (Ritem s (sden_ S false v)) (Qitem E)
      (fun _ Y => Rvals (Y ++ S) vs) Qvals cons).
    + apply Hv; auto.
    + intros s1 x Y X N _ C A1. apply IH; auto. now apply busy_calm.
    + intros x y Y X N Y' X' N' (K & _) K'. econstructor; eauto.
    + intros x y X X' fin p r p' K K'. econstructor; eauto.
Qed.

(** key and value, then the rest *)
Lemma pair_ok kf key v rest kvs dep fuel n s S E P :
  pure false kf (Qkey key) -> Pn fuel n v -> (Z.of_nat n < dep)%Z -> al S E P s -> busy S n ->
  (forall s1 S1 E1 P1, al S1 E1 P1 s1 -> busy S1 n ->
     does (rest s1) s1 S1 E1 P1 (Rpairs S1 kvs) (Qpairs E1)) ->
  does (bind (encode e h fuel v false dep (kf s)) rest) s S E P (Rpairs S ((key, v) :: kvs)) (Qpairs E).
Proof.
  intros Pk Hv Hd A B Hr.
  eapply (does_after kf (Qkey key) _ s S E P _
    (fun kds X fin p p' => exists d ds X1 X2 r, kds = (key, d) :: ds /\ X = X2 ++ X1 /\
       sitem g fin E m p d r X1 /\ spairs g fin (X1 ++ E) m r ds p' X2)); [exact Pk|exact A| |].
  - intros A1.
    eapply (does_bind _ rest (kf s) S E P (Ritem (kf s) (sden_ S false v)) (Qitem E)
      (fun _ Y => Rpairs (Y ++ S) kvs) Qpairs (fun d ds => (key, d) :: ds)).
    + apply Hv; auto.
    + intros s1 x Y X N _ C A2. apply Hr; auto. now apply busy_calm.
    + intros x y Y X N Y' X' N' (K & _) K'. econstructor; eauto.
    + intros x y X X' fin p r p' K K'. exists x, y, X, X', r. auto.
  - intros x X fin p r p' K (d & ds & X1 & X2 & r' & -> & -> & K1 & K2). econstructor; eauto.
Qed.

Lemma pairs_ok N0 n fuel dep : N0 <= fuel -> (Z.of_nat n < dep)%Z ->
  forall kvs, Forall (Pn N0 n) (map snd kvs) -> (forall k v, In (k, v) kvs -> fits_ k) ->
  forall s S E P, al S E P s -> busy S n ->
  does (enc_pairs e (encode e h fuel) kvs dep s) s S E P (Rpairs S kvs) (Qpairs E).
Proof.
  intros Hf Hd. induction kvs as [|[key v] kvs IH]; intros Hv F s S E P A B.
  - cbn [enc_pairs]. apply (does_nil []); auto; constructor.
  - cbn [enc_pairs]. inversion Hv as [|? ? Hv1 Hv2]; subst.
    eapply (pair_ok (encodeString e key true) key v); eauto.
    + apply pure_skey. eapply F. now left.
    + eapply Pn_mono; eauto.
    + intros. apply IH; auto. intros k0 v0 Hk. eapply F. right. exact Hk.
Qed.

Lemma tpairs_ok N0 n fuel dep : Nat.max 1 N0 <= fuel -> (Z.of_nat n < dep)%Z ->
  forall kvs, Forall (Pn N0 n) (map snd kvs) -> (forall k v, In (k, v) kvs -> fits_ k) ->
  forall s S E P, al S E P s -> busy S n ->
  does (enc_tpairs e (encode e h fuel) (map (fun kv => (GStr (fst kv), snd kv)) kvs) dep s) s S E P
    (Rpairs S kvs) (Qpairs E).
Proof.
  intros Hf Hd. induction kvs as [|[key v] kvs IH]; intros Hv F s S E P A B.
  - cbn [enc_tpairs map]. apply (does_nil []); auto; constructor.
  - cbn [enc_tpairs map fst snd key_string]. inversion Hv as [|? ? Hv1 Hv2]; subst.
    set (kf := fun s => if e_perl e then encodeString e key true s else encodeString e key false s).
    assert (Ek : forall s, (if e_perl e then Ok (encodeString e key true s)
                            else encode e h fuel (GStr key) false dep s) = Ok (kf s)).
    { intros s0. unfold kf. destruct (e_perl e); auto. destruct fuel; [lia|]. reflexivity. }
    assert (Pk : pure false kf (Qkey key)).
    { assert (Fk : fits_ key) by (eapply F; now left). unfold kf. destruct (e_perl e).
      - now apply pure_skey.
      - apply pure_unflag. eapply pure_weaken; [|now apply pure_sval].
        intros b p p' [K _]. eapply str_lit. exact K. }
    rewrite Ek. cbn [bind].
    eapply (pair_ok kf key v); eauto.
    + eapply Pn_mono; [|eauto]. lia.
    + intros. apply IH; auto. intros k0 v0 Hk. eapply F. right. exact Hk.
Qed.

Lemma fields_ok N0 n fuel dep fs base : N0 <= fuel -> (Z.of_nat n < dep)%Z ->
  forall tags, Forall (Pn N0 n) (map (fun kt : bytes * nat => hget h (base + snd kt)) tags) ->
  (forall k i, In (k, i) tags -> fits_ k /\ exists f, nth_error fs i = Some f /\ f_exported f = true) ->
  forall s S E P, al S E P s -> busy S n ->
  does (enc_fields e h (encode e h fuel) fs base tags dep s) s S E P
    (Rpairs S (map (fun kt => (fst kt, hget h (base + snd kt))) tags)) (Qpairs E).
Proof.
  intros Hf Hd. induction tags as [|[key i] tags IH]; intros Hv F s S E P A B.
  - cbn [enc_fields map]. apply (does_nil []); auto; constructor.
  - cbn [map snd fst] in Hv |- *. inversion Hv as [|? ? Hv1 Hv2]; subst.
    destruct (F key i) as (Fk & f & Ef & Xf); [now left|]. cbn [enc_fields]. rewrite Ef, Xf.
    eapply (pair_ok (encodeString e key true) key); eauto.
    + now apply pure_skey.
    + eapply Pn_mono; eauto.
    + intros. apply IH; auto. intros k0 i0 Hk. apply F. now right.
Qed.

(** ** Containers *)
Lemma pure_tagn t n : (t < 128)%N -> t <> 63%N -> (n < 18446744073709551616)%N ->
  pure true (emit (tagb t :: varint n)) (fun b p p' => tag_at b p p t /\ vint b (S p) n p').
Proof.
  intros L N Ln.
  assert (K : pure true (fun s => emit (varint n) (emit [tagb t] s)) (fun b p p' => tag_at b p p t /\ vint b (S p) n p')).
  { eapply (pure_seq true (emit [tagb t]) (emit (varint n)) (Qtag t) (Qvint n)); [now apply pure_tag|now apply pure_vint|].
    intros b p r p' [Ht ->] Hv. auto. }
  intros s. rewrite emit_cons. apply K.
Qed.

Lemma ref_ok run r s S E P (T : data -> senv -> Prop) : al S E P s ->
  (forall s1 E1 P1, al S E1 P1 s1 -> does (run s1) s1 S E1 P1 (Ritem s1 T) (Qitem E1)) ->
  does (run (open_ref e r s)) s S E P
    (Ritem s (fun d Y => exists d0, T d0 Y /\ d = aref (e_perl e) r d0)) (Qitem E).
Proof.
  intros A H. unfold open_ref, aref. destruct (e_perl e && negb r).
  - eapply (does_item (emit [tagb typeREFN]) (Qtag 40) _ s S E P _ _ DRef).
    + apply pure_tag; [reflexivity|discriminate].
    + exact A.
    + intros A1. apply H. exact A1.
    + intros x Y X N (K & _). eauto.
    + intros x Y X N fin q p' _ [Ht ->] K. exists 40%N. split; [exact Ht|]. now apply s_refn.
  - eapply item_weaken; [|apply H; exact A]. eauto.
Qed.

Lemma sdens_length S vs ds Y : sdens_ S vs ds Y -> length ds = length vs.
Proof. induction 1; cbn; congruence. Qed.
Lemma sdenm_length S vs ds Y : sdenm_ S vs ds Y -> length ds = length vs.
Proof. induction 1; cbn; congruence. Qed.

Lemma array_ok N0 n vs base k : Forall (Pn N0 n) vs -> vs = cells h base k ->
  (N.of_nat k <= g_max g)%N ->
  forall fuel r dep s S E P, N0 <= fuel -> (Z.of_nat (Datatypes.S n) < dep)%Z -> al S E P s -> busy S n ->
  does (encodeArray e h (encode e h fuel) base k r dep s) s S E P
    (Ritem s (fun d Y => exists ds, sdens_ S vs ds Y /\ d = aref (e_perl e) r (DArr ds))) (Qitem E).
Proof.
  intros H Ev L fuel r dep s S E P Hf Hd A B. unfold encodeArray.
  assert (Lk : k = length vs) by (rewrite Ev; unfold cells; now rewrite map_length, seq_length).
  destruct (Z.leb_spec (dep - 1) 0); [lia|].
  eapply item_weaken; [|apply (ref_ok (fun s => enc_elems h (encode e h fuel) k base (dep - 1)
     (emit (tagb typeARRAY :: varint (N.of_nat k)) s)) r s S E P
     (fun d Y => exists ds, sdens_ S vs ds Y /\ d = DArr ds) A)].
  { intros d Y (d0 & (ds & K & ->) & ->). eauto. }
  intros s1 E1 P1 A1.
  eapply (does_item (emit (tagb typeARRAY :: varint (N.of_nat k))) _ _ s1 S E1 P1 (Rvals S vs) _ DArr).
  - apply (pure_tagn 43); [reflexivity|discriminate|lia].
  - exact A1.
  - intros A2. rewrite Lk in *. apply (elems_ok N0 n vs H); auto. lia.
  - intros x Y X N K. exists x. split; [exact K|reflexivity].
  - intros x Y X N fin q p' R [Ht Hv] K. exists 43%N. split; [exact Ht|].
    eapply s_array; [exact Hv|exact L| |exact K]. rewrite (sdens_length _ _ _ _ R). now rewrite Lk.
Qed.

Lemma pure_tick : pure false next_tick (fun _ p p' => p' = p).
Proof.
  intros s. split; [reflexivity|]. intros P. split; [apply fut_refl|]. split; [intros n []|].
  intros _ R. split; [exact R|]. reflexivity.
Qed.

Lemma hash_ok {K} (kvs : list K) (loop : list K -> estate -> res estate) r s S E P (T : data -> senv -> Prop) :
  (ulen kvs <= g_max g)%N -> al S E P s ->
  (forall t s1 E1 P1, al S E1 P1 s1 -> exists kvs' : list (bytes * gval),
     (forall ds Y, sdenm_ S kvs' ds Y -> T (DHash ds) Y) /\ length kvs' = length kvs /\
     does (loop (e_shuffle e t K kvs) s1) s1 S E1 P1 (Rpairs S kvs') (Qpairs E1)) ->
  does (let s := emit (tagb typeHASH :: varint (ulen kvs)) (open_ref e r s) in
        loop (e_shuffle e (s_tick s) K kvs) (next_tick s)) s S E P
    (Ritem s (fun d Y => exists d0, T d0 Y /\ d = aref (e_perl e) r d0)) (Qitem E).
Proof.
  intros L A H.
  apply (ref_ok (fun s => let s := emit (tagb typeHASH :: varint (ulen kvs)) s in
        loop (e_shuffle e (s_tick s) K kvs) (next_tick s)) r s S E P T A).
  intros s1 E1 P1 A1. cbv zeta. set (f := fun s => next_tick (emit (tagb typeHASH :: varint (ulen kvs)) s)).
  assert (Pf : pure true f (fun b p p' => tag_at b p p 42 /\ vint b (Datatypes.S p) (ulen kvs) p')).
  { eapply (pure_seq true (emit (tagb typeHASH :: varint (ulen kvs))) next_tick); [apply (pure_tagn 42); [reflexivity|discriminate|lia]|apply pure_tick|].
    intros b p q p' K0 ->. exact K0. }
  destruct (H (s_tick (emit (tagb typeHASH :: varint (ulen kvs)) s1)) (f s1) ((here s1, None) :: E1) (here s1 :: P1))
    as (kvs' & HT & Hl & HD).
  { destruct (Pf s1) as [Ep St]. apply al_open; auto. destruct (St []) as (_ & B & _).
    specialize (B (here s1) ltac:(now left)). lia. }
  eapply (does_item f _ _ s1 S E1 P1 (Rpairs S kvs') _ DHash).
  - exact Pf.
  - exact A1.
  - intros _. exact HD.
  - intros x Y X N R. apply HT. exact R.
  - intros x Y X N fin q p' R [Ht Hv] K0. exists 42%N. split; [exact Ht|].
    eapply s_hash; [exact Hv|exact L| |exact K0].
    unfold ulen. rewrite (sdenm_length _ _ _ _ R). now rewrite Hl.
Qed.

(** OBJECT and its class name, then an item *)
Lemma object_ok cls run s S E P (T T' : data -> senv -> Prop) : fits_ cls -> al S E P s ->
  (forall s1 E1 P1, al S E1 P1 s1 -> does (run s1) s1 S E1 P1 (Ritem s1 T) (Qitem E1)) ->
  (forall d Y, T d Y -> T' (DObj cls d) Y) ->
  does (run (encodeBytes e cls true (emit [tagb typeOBJECT] s))) s S E P (Ritem s T') (Qitem E).
Proof.
  intros F A H HT.
  eapply (does_item (fun s => encodeBytes e cls true (emit [tagb typeOBJECT] s))
    (fun b p p' => tag_at b p p 44 /\ stringish g b (copy_ok m) (Datatypes.S p) cls p') _ s S E P _ _ (DObj cls)).
  - eapply (pure_seq true (emit [tagb typeOBJECT]) (encodeBytes e cls true) (Qtag 44) (Qkey cls)).
    + apply pure_tag; [reflexivity|discriminate].
    + now apply pure_bkey.
    + intros b p q p' [Ht ->] Hk. auto.
  - exact A.
  - intros A1. apply H. exact A1.
  - intros x Y X N (K & _). auto.
  - intros x Y X N fin q p' _ [Ht Hk] K. exists 44%N. split; [exact Ht|]. eapply s_object; eauto.
Qed.

Lemma struct_ok {K} name (kvs : list K) (loop : list K -> estate -> res estate) s S E P (T : data -> senv -> Prop) :
  fits_ name -> (ulen kvs <= g_max g)%N -> al S E P s ->
  (forall t s1 E1 P1, al S E1 P1 s1 -> exists kvs' : list (bytes * gval),
     (forall ds Y, sdenm_ S kvs' ds Y -> T (DObj name (aref (e_perl e) false (DHash ds))) Y) /\
     length kvs' = length kvs /\
     does (loop (e_shuffle e t K kvs) s1) s1 S E1 P1 (Rpairs S kvs') (Qpairs E1)) ->
  does (let s := encodeBytes e name true (emit [tagb typeOBJECT] s) in
        let s := if e_perl e then emit [tagb typeREFN] s else s in
        let s := emit (tagb typeHASH :: varint (ulen kvs)) s in
        loop (e_shuffle e (s_tick s) K kvs) (next_tick s)) s S E P (Ritem s T) (Qitem E).
Proof.
  intros F L A H. cbv zeta.
  apply (object_ok name (fun s => let s := if e_perl e then emit [tagb typeREFN] s else s in
        let s := emit (tagb typeHASH :: varint (ulen kvs)) s in
        loop (e_shuffle e (s_tick s) K kvs) (next_tick s)) s S E P
        (fun d Y => exists ds, d = aref (e_perl e) false (DHash ds) /\ T (DObj name d) Y) T F A).
  - intros s1 E1 P1 A1.
    pose proof (hash_ok kvs loop false s1 S E1 P1
      (fun d Y => exists ds, d = DHash ds /\ T (DObj name (aref (e_perl e) false d)) Y) L A1) as G.
    unfold open_ref in G. cbn [negb] in G. rewrite andb_true_r in G. cbv zeta in G |- *.
    eapply item_weaken; [|apply G].
    + intros d Y (d0 & (ds & -> & HT) & ->). eauto.
    + intros t s2 E2 P2 A2. destruct (H t s2 E2 P2 A2) as (kvs' & HT & Hl & HD).
      exists kvs'. split; [|split; [exact Hl|exact HD]]. intros ds Y Kd. eauto.
  - intros d Y (ds & _ & HT). exact HT.
Qed.

(** ** Pointers *)
Lemma track_fut P b o : In o P -> fut P b (set_track b o).
Proof.
  intros I i x Hx. unfold set_track. destruct (nth_error b o) as [y|] eqn:Ho; [|eauto].
  assert (Lo : o < length b) by (apply nth_error_Some; congruence).
  destruct (Nat.eq_dec i o) as [->|Ne].
  - exists (mark y). rewrite nth_error_upd_same by exact Lo. split; [reflexivity|].
    right. split; [exact I|]. congruence.
  - exists x. rewrite nth_error_upd_other by congruence. auto.
Qed.

Lemma refp_ok o d s S E P (T : data -> senv -> Prop) : al S E P s -> In o P -> look E o = Some (Some d) ->
  T (DBack d) [] ->
  does (Ok (with_by s (set_track (s_by s ++ tagb typeREFP :: varint (N.of_nat o)) o))) s S E P (Ritem s T) (Qitem E).
Proof.
  intros A Io Lo Td. pose proof A as (A1 & A2 & A3). pose proof (A2 _ Io) as Lt.
  set (s1 := emit (tagb typeREFP :: varint (N.of_nat o)) s).
  set (s' := with_by s _).
  assert (F1 : fut P (s_by s1) (s_by s')) by (apply track_fut; exact Io).
  assert (Ls : here s' = here s1).
  { unfold s', s1. cbn [s_by with_by emit]. unfold set_track. destruct (nth_error _ o); [now rewrite upd_length|reflexivity]. }
  assert (Ls1 : here s < here s1).
  { unfold s1. cbn [s_by with_by emit]. rewrite app_length. cbn. lia. }
  exists s', (DBack d), [], [(here s, Some (DBack d))], [here s].
  split; [reflexivity|]. split; [|split].
  - split; [exact Td|]. cbn [look]. rewrite Nat.eqb_refl. split; [reflexivity|now left].
  - split; [|split; [|split]].
    + apply (al_close S E P s s' [] [] [] (DBack d) A);
        [apply (al_open S E P s s'); [reflexivity|lia|exact A]|intros a []|reflexivity|intros n []].
    + intros a [].
    + reflexivity.
    + cbn. intros n [<-|[]]. lia.
  - split; [eapply fut_trans; [apply fut_app|exact F1|auto]|].
    split; [intros n [<-|[]]; lia|]. intros Sm R. split.
    { apply (ready_ext P [here s] s s'); [|reflexivity| |exact R].
      - eapply fut_trans; [apply fut_app|exact F1|auto].
      - intros n [<-|[]]. lia. }
    intros fin Hf.
    assert (Bd : (N.of_nat o < 18446744073709551616)%N) by (unfold small, two63 in Sm; lia).
    assert (Hf1 : fut ([here s] ++ P) (s_by s1) fin).
    { eapply fut_trans; [eapply fut_more; [|exact F1]|exact Hf|auto]. intros i Hi. now right. }
    destruct (pure_tagn 41 (N.of_nat o) eq_refl ltac:(discriminate) Bd s) as [_ St].
    destruct (St P) as (_ & _ & K). destruct K as [_ K']; [|exact R|].
    { change (small s1). unfold small in *. rewrite <- Ls. exact Sm. }
    destruct (K' fin Hf1) as [Ht Hv]. fold s1 in Hv.
    apply (s_item g fin E m (here s) (here s) 41 (DBack d) (here s') []); [exact Ht|].
    rewrite Ls. eapply s_refp; [exact Hv| | |].
    + rewrite Nat2N.id. exact Lt.
    + rewrite Nat2N.id.
      assert (Lo1 : o < here s1) by lia.
      destruct (nth_error (s_by s1) o) as [x|] eqn:Hx; [|apply nth_error_None in Hx; lia].
      assert (Hs' : nth_error (s_by s') o = Some (mark x)).
      { unfold s', with_by. cbn [s_by]. unfold set_track. change (s_by s ++ _) with (s_by s1). rewrite Hx.
        now rewrite nth_error_upd_same by exact Lo1. }
      destruct (Hf _ _ Hs') as (y & Hy & Cy). exists y. split; [exact Hy|].
      destruct Cy as [->|[_ ->]]; apply mark_set.
    + rewrite Nat2N.id. cbn [look]. destruct (Nat.eqb_spec (here s) o); [lia|exact Lo].
Qed.

Lemma known_complete i l n k S E P s (v := hget h l) o : al S E P s -> busy S k ->
  n < lev (at_cell (e_layout e) l) <= k -> (forall a, In a (own_addr (e_layout e) l v) -> lev a <= k /\ nm a (own_val h v)) ->
  getPointer e (negb i) l v = Ok o -> own_addr (e_layout e) l v = match o with Some a => [a] | None => [] end ->
  let offs := match pget (s_ptr s) (at_cell (e_layout e) l) with
      | Some o => Some o
      | None => match o with Some a => pget (s_ptr s) a | None => None end
      end in
  match known (e_layout e) h S l with
  | None => offs = None
  | Some None => False
  | Some (Some d) => exists j, offs = Some j /\ In j P /\ look E j = Some (Some d)
  end.
Proof.
  intros (_ & _ & A) B L O _ Eo offs. unfold known, offs.
  pose proof (A (at_cell (e_layout e) l)) as A1. destruct (find S (at_cell (e_layout e) l)) as [o1|] eqn:F1.
  - destruct A1 as (j & -> & I & K). destruct o1 as [d|]; [eauto|]. apply B in F1. lia.
  - rewrite A1. fold v. rewrite Eo. destruct o as [a|]; [|reflexivity].
    pose proof (A a) as A2. destruct (find S a) as [o2|] eqn:F2.
    + destruct A2 as (j & -> & I & K). destruct o2 as [d|]; [eauto|]. apply B in F2.
      destruct (O a); [rewrite Eo; now left|lia].
    + exact A2.
Qed.

Lemma ptr_ok N0 i l n k : i || negb (perl_struct (hget h l)) = true ->
  i && is_text (hget h l) = false -> n < lev (at_cell (e_layout e) l) <= k ->
  (forall a, In a (own_addr (e_layout e) l (hget h l)) -> lev a <= k /\ nm a (own_val h (hget h l))) ->
  Pn N0 n (hget h l) ->
  forall fuel r dep s S E P, N0 <= fuel -> (Z.of_nat k < dep)%Z -> al S E P s -> busy S k ->
  does (encodePointer e (encode e h fuel) i l (hget h l) dep s) s S E P (Ritem s (sden_ S r (GPtr i l))) (Qitem E).
Proof.
  intros Hs Ht HL HO Hv fuel r dep s S E P Hf Hd A B.
  destruct (getPointer_spec e i l (hget h l) Ht) as (o & Eg & Eo).
  pose proof (known_complete i l n k S E P s o A B HL HO Eg Eo) as KC. cbv zeta in KC.
  unfold encodePointer. set (v := hget h l) in *.
  destruct (Z.leb_spec (dep - 1) 0); [lia|].
  assert (Sp : match v with GRegexpV _ _ | GUndefV _ | GObjV _ _ | GWeakV _ => negb i | _ => false end = false).
  { destruct v; cbn in Hs |- *; auto; destruct i; auto. }
  rewrite Sp, Eg. cbn [bind].
  set (offs := match pget (s_ptr s) (at_cell (e_layout e) l) with Some _ => _ | None => _ end) in *.
  destruct (known (e_layout e) h S l) as [[d|]|] eqn:Kn.
  - destruct KC as (j & -> & Ij & Lj). destruct A as (A1 & A2 & A3).
    destruct (Nat.ltb_spec j (length (s_by s ++ tagb typeREFP :: varint (N.of_nat j)))) as [_|Hj];
      [|exfalso; apply A2 in Ij; rewrite app_length in Hj; lia].
    apply (refp_ok j d); [now split|..]; auto. now apply sn_back.
  - destruct KC.
  - rewrite KC. set (orig := here s). set (s1 := mkEState _ _ _ _).
    assert (L1 : here s1 = Datatypes.S orig).
    { unfold s1, orig. cbn [s_by emit with_by]. rewrite app_length. cbn. lia. }
    pose proof A as (A1 & A2 & A3).
    assert (Al1 : al ((at_cell (e_layout e) l, None) :: S) ((orig, None) :: E) (orig :: P) s1).
    { split; [|split].
      - cbn [map fst In]. rewrite L1. intros j [<-|Hj]; [lia|]. apply A1 in Hj. fold orig in Hj. lia.
      - rewrite L1. intros j [<-|Hj]; [lia|]. apply A2 in Hj. fold orig in Hj. lia.
      - intros a. cbn [s1 s_ptr find]. rewrite pget_cons.
        destruct (addr_eqb (at_cell (e_layout e) l) a).
        + exists orig. split; [reflexivity|]. split; [now left|]. cbn [look]. now rewrite Nat.eqb_refl.
        + specialize (A3 a). cbn [emit with_by s_ptr]. destruct (find S a) as [o1|]; [|exact A3].
          destruct A3 as (j & G1 & G2 & G3). exists j. split; [exact G1|]. split; [now right|].
          cbn [look]. apply A2 in G2. fold orig in G2. destruct (Nat.eqb_spec orig j); [lia|exact G3]. }
    assert (B1 : busy ((at_cell (e_layout e) l, None) :: S) n).
    { intros a. cbn [find]. destruct (addr_eqb (at_cell (e_layout e) l) a) eqn:Ea.
      - apply addr_eqb_true in Ea as <-. intros _. lia.
      - intros Fa. apply B in Fa. lia. }
    destruct (Hv fuel true (dep - 1)%Z s1 _ _ _ Hf ltac:(lia) Al1 B1)
      as (s2 & d & Y & X & N & R2 & (Dn & LX & IN) & (Al2 & C & Fr & HX) & St2).
    rewrite R2. cbn [bind]. rewrite L1 in LX, IN, HX.
    set (s3 := match o with Some a => mkEState (s_by s2) (s_str s2) ((a, Datatypes.S orig) :: s_ptr s2) (s_tick s2) | None => s2 end).
    assert (Er : match o with
       | Some a => Ok (mkEState (s_by s2) (s_str s2) ((a, Datatypes.S orig) :: s_ptr s2) (s_tick s2))
       | None => Ok s2 end = Ok s3) by (unfold s3; destruct o; reflexivity).
    rewrite Er.
    set (own := own_addr (e_layout e) l v) in *.
    exists s3, (DRef d), (map (fun a => (a, Some d)) own ++ Y ++ [(at_cell (e_layout e) l, Some (DRef d))]),
      (X ++ [(orig, Some (DRef d))]), (N ++ [orig]).
    assert (B3 : s_by s3 = s_by s2) by (unfold s3; destruct o; reflexivity).
    assert (X0 : look X orig = None) by (apply look_none; intros Hn; apply HX in Hn; lia).
    assert (Pg : forall a, pget (s_ptr s3) a = if find (map (fun a => (a, Some d)) own) a then Some (Datatypes.S orig) else pget (s_ptr s2) a).
    { intros a. unfold s3. rewrite Eo. destruct o as [a0|]; [|reflexivity].
      cbn [map find s_ptr]. rewrite pget_cons. destruct (addr_eqb a0 a); reflexivity. }
    assert (Fo : forall a o1, find (map (fun a => (a, Some d)) own) a = Some o1 -> o1 = Some d).
    { intros a o1 Hf1. apply find_in in Hf1. apply in_map_iff in Hf1 as (? & [= _ <-] & _). reflexivity. }
    split; [reflexivity|]. split; [|split; [split; [|split; [|split]]|]].
    + split; [now apply sn_ptr|]. fold orig. rewrite look_app, X0. cbn [look]. rewrite Nat.eqb_refl.
      split; [reflexivity|]. apply in_app_iff. right. now left.
    + destruct Al2 as (C1 & C2 & C3). rewrite <- !app_assoc. cbn [app]. split; [|split].
      * intros j Hj. rewrite B3. apply C1. rewrite map_app in *. exact Hj.
      * intros j Hj. rewrite B3. auto.
      * intros a. rewrite find_app, Pg. destruct (find (map (fun a => (a, Some d)) own) a) as [o1|] eqn:F1.
        { exists (Datatypes.S orig). split; [reflexivity|]. split; [apply in_app_iff; auto|].
          rewrite look_app, LX. now rewrite (Fo _ _ F1). }
        rewrite find_app. specialize (C3 a). rewrite find_app in C3.
        destruct (find Y a) as [o1|] eqn:FY.
        { destruct C3 as (j & G1 & G2 & G3). exists j. split; [exact G1|]. split; [exact G2|].
          destruct o1 as [x|]; [|now apply calm_find in FY]. now apply look_swap. }
        rewrite (Fr a FY) in *. cbn [s1 s_ptr find] in *. rewrite pget_cons in *.
        destruct (addr_eqb (at_cell (e_layout e) l) a) eqn:Ea.
        { exists orig. split; [reflexivity|]. split; [apply in_app_iff; right; now left|].
          rewrite look_app, X0. cbn [look]. now rewrite Nat.eqb_refl. }
        cbn [emit with_by s_ptr] in *. specialize (A3 a). destruct (find S a) as [o1|]; [|exact A3].
        destruct A3 as (j & G1 & G2 & G3). exists j. split; [exact G1|].
        split; [apply in_app_iff; right; now right|]. apply A2 in G2. fold orig in G2.
        rewrite look_app, look_none; [|intros Hn; apply HX in Hn; lia]. cbn [look].
        destruct (Nat.eqb_spec orig j); [lia|exact G3].
    + intros a Ha. rewrite !in_app_iff in Ha. destruct Ha as [Ha|[Ha|[[=]|[]]]].
      * apply in_map_iff in Ha as (? & [=] & _).
      * now apply C in Ha.
    + intros a Fa. rewrite Pg. rewrite find_app in Fa. destruct (find (map (fun a => (a, Some d)) own) a); [discriminate|].
      rewrite find_app in Fa. destruct (find Y a) eqn:FY; [discriminate|]. rewrite (Fr a FY).
      cbn [s1 s_ptr find] in *. rewrite pget_cons. destruct (addr_eqb (at_cell (e_layout e) l) a); [discriminate|reflexivity].
    + intros j. rewrite map_app, in_app_iff. cbn. fold orig. intros [Hj|[<-|[]]]; [apply HX in Hj|]; lia.
    + assert (W : step P (Qitem E (DRef d) (X ++ [(orig, Some (DRef d))])) s s2 (N ++ [orig])).
      { eapply (step_seq P (Qtag 40) _ _ s s1 s2 [orig] N); [|exact St2|].
        - destruct (pure_tag 40 ltac:(reflexivity) ltac:(discriminate) s) as [_ Kt].
          destruct (Kt P) as (T1 & T2 & T3). split; [exact T1|]. split; [exact T2|].
          intros Sm R. destruct (T3 Sm R) as [T4 T5]. split; [exact T4|exact T5].
        - intros fin q [Hq ->] I. eapply s_item; [exact Hq|]. apply s_refn. exact I. }
      unfold step, ready, small, strok in W |- *. rewrite B3.
      replace (s_str s3) with (s_str s2) by (unfold s3; destruct o; reflexivity). exact W.
Qed.

Lemma perl_ok N0 n v w r : Pn N0 n v -> (forall S d Y, sden_ S false v d Y -> sden_ S r w d Y) ->
  forall fuel dep s S E P, N0 <= fuel -> (Z.of_nat (Datatypes.S n) < dep)%Z -> al S E P s -> busy S (Datatypes.S n) ->
  does (encodePerlPointer (encode e h fuel) v dep s) s S E P (Ritem s (sden_ S r w)) (Qitem E).
Proof.
  intros Hv HD fuel dep s S E P Hf Hd A B. unfold encodePerlPointer.
  destruct (Z.leb_spec (dep - 1) 0); [lia|].
  eapply item_weaken; [apply HD|]. apply Hv; auto; [lia|]. eapply busy_mono; [|exact B]. lia.
Qed.

Lemma leaf n v (f : estate -> estate) d :
  (forall fuel r dep s, encode e h (Datatypes.S fuel) v r dep s = Ok (f s)) -> scalar v = true ->
  (forall r, den_ r v d) -> pure true f (Qplain d) -> Pn 1 n v.
Proof.
  intros Ef Sc Dn Pf fuel r dep s S E P Hf _ A _. destruct fuel as [|fuel]; [lia|].
  rewrite Ef. eapply does_leaf; [exact Pf|exact A|]. now apply sn_scalar.
Qed.

Lemma obj_ok N0 n cls v : fits_ cls -> Pn N0 n v -> Pn (S N0) n (GObjV cls v).
Proof.
  intros F Hv fuel r dep s S E P Hf Hd A B. destruct fuel as [|fuel]; [lia|].
  cbn [encode encode_body].
  apply (object_ok cls (encode e h fuel v false dep) s S E P (sden_ S false v)); auto.
  - intros s1 E1 P1 A1. apply Hv; auto. lia.
  - intros d Y K. now constructor.
Qed.

Lemma weak_ok N0 n v : Pn N0 n v -> Pn (S N0) n (GWeakV v).
Proof.
  intros Hv fuel r dep s S E P Hf Hd A B. destruct fuel as [|fuel]; [lia|].
  cbn [encode encode_body].
  eapply (does_item (emit [tagb typeWEAKEN]) (Qtag 48) _ s S E P _ _ DWeak).
  - apply pure_tag; [reflexivity|discriminate].
  - exact A.
  - intros A1. apply (Hv fuel false dep _ S); auto. lia.
  - intros x Y X N (K & _). now constructor.
  - intros x Y X N fin q p' _ [Ht ->] K. exists 48%N. split; [exact Ht|]. now apply s_weaken.
Qed.

(** a value frozen by its MarshalBinary method *)
Lemma user_ok name by_ v n : e_nofreeze e = false -> fits_ name -> fits_ by_ -> (1 <= g_max g)%N ->
  g_frz g name by_ -> Pn 1 n (GUser name (Some by_) v).
Proof.
  intros Nf F1 F2 L1 Fz fuel r dep s S E P Hf _ A _. destruct fuel as [|fuel]; [lia|].
  cbn [encode encode_body]. rewrite Nf.
  set (s1 := encodeString e name true (emit [tagb typeOBJECT_FREEZE] s)).
  set (s2 := emit (tagb typeREFN :: tagb typeARRAY :: varint 1) s1).
  set (s' := encodeBytes e by_ false s2).
  set (R := here s1).
  assert (L2 : here s2 = R + 3).
  { unfold s2. cbn [s_by emit with_by]. rewrite app_length. reflexivity. }
  assert (Pf : pure true (fun s => encodeString e name true (emit [tagb typeOBJECT_FREEZE] s))
    (fun b p p' => tag_at b p p 50 /\ stringish g b (copy_ok m) (Datatypes.S p) name p')).
  { eapply (pure_seq true (emit [tagb typeOBJECT_FREEZE]) (encodeString e name true) (Qtag 50) (Qkey name)).
    - now apply (pure_tag 50).
    - now apply pure_skey.
    - intros b p q p' [Ht ->] Hk. auto. }
  assert (Pa : pure false (emit (tagb typeREFN :: tagb typeARRAY :: varint 1))
    (fun b p p' => at_ b p [x28;x2b] /\ vint b (p + 2) 1 p')).
  { assert (K : pure false (fun s => emit (varint 1) (emit [x28;x2b] s)) (fun b p p' => at_ b p [x28;x2b] /\ vint b (p + 2) 1 p')).
    { eapply (pure_seq false (emit [x28;x2b]) (emit (varint 1)) (Qat [x28;x2b]) (Qvint 1)); [apply pure_at|now apply pure_vint|].
      intros b p q p' [Ha ->] Hv. auto. }
    intros s0. change (tagb typeREFN :: tagb typeARRAY :: varint 1) with ([x28; x2b] ++ varint 1).
    rewrite emit_app. apply K. }
  set (X := [(R + 3, Some (DBin by_)); (Datatypes.S R, Some (DArr [DBin by_])); (R, Some (DRef (DArr [DBin by_]))); (here s, Some (DFreeze name by_))]).
  destruct (Pf s) as [Ep1 St1]. specialize (St1 P).
  destruct (Pa s1) as [Ep2 St2]. specialize (St2 ([here s] ++ P)).
  pose proof (pure_unflag _ _ (pure_bval by_ F2)) as Pb.
  destruct (Pb s2) as [Ep3 St3]. specialize (St3 ([] ++ [here s] ++ P)).
  pose proof (step_le _ _ _ _ _ St3) as Le3. fold s' in Le3, St3, Ep3.
  assert (Lt1 : here s < R).
  { destruct St1 as (_ & B & _). apply (B (here s)). now left. }
  assert (St : step P (Qitem E (DFreeze name by_) X) s s' [here s]).
  { assert (St12 : step P (fun b p p' => tag_at b p p 50 /\ stringish g b (copy_ok m) (Datatypes.S p) name R /\
        at_ b R [x28;x2b] /\ vint b (R + 2) 1 p') s s2 [here s]).
    { eapply (step_seq P (fun b p p' => (tag_at b p p 50 /\ stringish g b (copy_ok m) (Datatypes.S p) name p') /\ p' = R) _ _ s s1 s2 [here s] [] ); [|exact St2|].
      - eapply step_weaken; [|exact St1]. intros fin K. split; [exact K|reflexivity].
      - intros fin q [[K1 K2] ->] [K3 K4]. auto. }
    eapply (step_seq P (fun b p p' => (tag_at b p p 50 /\ stringish g b (copy_ok m) (Datatypes.S p) name R /\
        at_ b R [x28;x2b] /\ vint b (R + 2) 1 p') /\ p' = R + 3) _ _ s s2 s' [here s] []); [|exact St3|].
    - eapply step_weaken; [|exact St12]. intros fin K. split; [exact K|exact L2].
    - intros fin q [(K1 & K2 & K3 & K4) ->] [K5 (t & K6 & K7)].
      assert (K8 : sitem g fin ((Datatypes.S R, None) :: (R, None) :: (here s, None) :: E) m (R + 3) (DBin by_) (here s') [(R + 3, Some (DBin by_))]).
      { apply (s_item g fin _ m (R + 3) (R + 3) t (DBin by_) (here s') []); [exact K6|].
        apply s_plain; [exact K7|]. apply (i_str g fin m (R + 3) false by_ (here s') K5). }
      assert (T40 : tag_at fin R R 40 /\ tag_at fin (Datatypes.S R) (Datatypes.S R) 43).
      { split.
        - split; [lia|]. split; [intros j Hj; lia|]. exists x28. split; [|split; [reflexivity|discriminate]].
          destruct K3 as (u1 & u2 & -> & <-). rewrite nth_error_app2 by lia. now rewrite Nat.sub_diag.
        - split; [lia|]. split; [intros j Hj; lia|]. exists x2b. split; [|split; [reflexivity|discriminate]].
          destruct K3 as (u1 & u2 & -> & <-). rewrite nth_error_app2 by lia.
          now replace (Datatypes.S (length u1) - length u1) with 1 by lia. }
      destruct T40 as [T40 T43].
      apply (s_item g fin E m (here s) (here s) 50 (DFreeze name by_) (here s')
        [(R + 3, Some (DBin by_)); (Datatypes.S R, Some (DArr [DBin by_])); (R, Some (DRef (DArr [DBin by_])))] K1).
      eapply s_freeze; [exact K2|exact K3| |exact Fz].
      apply (s_item g fin _ m R R 40 (DRef (DArr [DBin by_])) (here s')
        [(R + 3, Some (DBin by_)); (Datatypes.S R, Some (DArr [DBin by_]))] T40).
      apply s_refn.
      apply (s_item g fin _ m (Datatypes.S R) (Datatypes.S R) 43 (DArr [DBin by_]) (here s')
        [(R + 3, Some (DBin by_))] T43).
      eapply s_array with (n := 1%N) (r := R + 3); [|exact L1|reflexivity|].
      + replace (Datatypes.S (Datatypes.S R)) with (R + 2) by lia. exact K4.
      + change [(R + 3, Some (DBin by_))] with ([] ++ [(R + 3, Some (DBin by_))]).
        eapply ss_cons; [exact K8|apply ss_nil]. }
  pose proof A as (A1 & A2 & A3).
  assert (Ls : here s < here s') by lia.
  exists s', (DFreeze name by_), [], X, [here s]. split; [reflexivity|].
  assert (XB : forall j, In j (map fst X) -> here s <= j < here s').
  { destruct St3 as (F3 & _). 
    assert (here s2 < here s').
    { destruct (pure_bval by_ F2 s2) as [_ K]. destruct (K []) as (_ & B & _). apply (B (here s2)). now left. }
    cbn. intros j [<-|[<-|[<-|[<-|[]]]]]; lia. }
  assert (XL : look X (here s) = Some (Some (DFreeze name by_))).
  { unfold X. cbn [look].
    destruct (Nat.eqb_spec (R + 3) (here s)); [lia|]. destruct (Nat.eqb_spec (Datatypes.S R) (here s)); [lia|].
    destruct (Nat.eqb_spec R (here s)); [lia|]. now rewrite Nat.eqb_refl. }
  assert (Ep : s_ptr s' = s_ptr s).
  { rewrite Ep3. unfold s2. rewrite Ep2. exact Ep1. }
  split; [|split; [split; [|split; [|split]]|exact St]].
  - split; [|split; [exact XL|now left]]. now apply sn_user.
  - split; [|split].
    + intros j. rewrite map_app, in_app_iff. intros [Hj|Hj]; [apply XB in Hj; lia|apply A1 in Hj; lia].
    + intros j Hj. apply in_app_iff in Hj as [[<-|[]]|Hj]; [lia|apply A2 in Hj; lia].
    + intros a. cbn [app]. rewrite Ep. specialize (A3 a). destruct (find S a) as [o|]; [|exact A3].
      destruct A3 as (j & G1 & G2 & G3). exists j. split; [exact G1|]. split; [now right|].
      rewrite look_app, look_none; [exact G3|]. intros Hj. apply XB in Hj. apply A2 in G2. lia.
  - intros a [].
  - intros a _. now rewrite Ep.
  - intros j Hj. now apply XB.
Qed.

Ltac leafy f d := exists 1; eapply (leaf _ _ f d); [try reflexivity|reflexivity|intros r|].

Theorem encoder_follows_traversal :
  (forall v n, dag_ v n -> Penc v n) /\ (forall vs n, dags_ vs n -> Forall (fun v => Penc v n) vs).
Proof.
  apply dag_both_ind.
  - (* nil *) intros n. leafy (emit [tagb typeUNDEF]) DUndef; [constructor|].
    apply (pure_simple 37); [unfold plain_tag; lia|discriminate|now constructor].
  - (* bool *) intros b n. leafy (emit [tagb (if b then typeTRUE else typeFALSE)]) (DBool b); [constructor|].
    destruct b; [apply (pure_simple 59)|apply (pure_simple 58)];
      (unfold plain_tag; lia) || discriminate || now constructor.
  - (* int *) intros k z n K.
    assert (R : (if ikind_signed k then - two63 <= z < two63 else 0 <= z < two64)%Z).
    { unfold ikind_in in K. destruct k; cbn in K |- *; unfold two63, two64; lia. }
    leafy (emit (encodeInt (ikind_signed k) (to_int (to_uint z)))) (DInt z); [constructor|].
    replace (DInt z) with (DInt (if ikind_signed k then to_int (to_uint z) else Z.of_N (to_uint (to_int (to_uint z)))));
      [apply pure_int; unfold int64; apply to_int_range|]. f_equal.
    destruct (ikind_signed k).
    + now rewrite to_int_to_uint by auto.
    + rewrite to_uint_to_int by (unfold to_uint, two64; lia). unfold to_uint, two64 in *. lia.
  - (* named int *) intros k z n K Sg Nn.
    assert (R : (- two63 <= z < two63)%Z).
    { unfold ikind_in in K. destruct k; cbn in K, Sg; try discriminate; unfold two63; lia. }
    leafy (emit (encodeInt (match k with KInt => true | _ => false end) z)) (DInt z).
    { intros. cbn [encode encode_body]. now rewrite Sg. }
    { constructor. }
    replace (DInt z) with (DInt (if match k with KInt => true | _ => false end then z else Z.of_N (to_uint z)));
      [apply pure_int; exact R|]. f_equal.
    destruct Nn as [->|Nn]; auto. destruct k; auto; unfold to_uint, two63, two64 in *; lia.
  - (* float32 *) intros u n L. leafy (emit (encodeFloat u)) (DF32 u); [constructor|now apply pure_f32].
  - (* float64 *) intros u n L. leafy (emit (encodeDouble u)) (DF64 u); [constructor|now apply pure_f64].
  - (* string *) intros str n F. leafy (encodeString e str false) (DStr str); [constructor|].
    apply (pure_lit _ true). now apply pure_sval.
  - (* json.Number *) intros str n F. destruct (pure_json str F) as (d & Dn & Pj).
    leafy (encodeJsonNumber e str false) d; auto.
  - (* bytes *) intros w n F. leafy (encodeBytes e (hview h w) false) (DBin (hview h w)); [constructor|].
    apply (pure_lit _ false). now apply pure_bval.
  - (* []interface{} *) intros base k n L _ IH. destruct (all_fuel _ _ IH) as [N0 H].
    exists (S N0). intros fuel r dep s S E P Hf Hd A B. destruct fuel as [|fuel]; [lia|].
    eapply item_weaken; [|eapply (array_ok N0 n _ base k H eq_refl L fuel r dep s S E P); try lia; auto].
    + intros d Y (ds & K & ->). now constructor.
    + eapply busy_mono; [|exact B]. lia.
  - (* typed slice *) intros a base k n L _ IH. destruct (all_fuel _ _ IH) as [N0 H].
    exists (S N0). intros fuel r dep s S E P Hf Hd A B. destruct fuel as [|fuel]; [lia|].
    eapply item_weaken; [|eapply (array_ok N0 n _ base k H eq_refl L fuel r dep s S E P); try lia; auto].
    + intros d Y (ds & K & ->). now constructor.
    + eapply busy_mono; [|exact B]. lia.
  - (* map *) intros l n Nd Fl Fk _ IH. destruct (all_fuel _ _ IH) as [N0 H].
    exists (S N0). intros fuel r dep s S E P Hf Hd A B. destruct fuel as [|fuel]; [lia|].
    cbn [encode encode_body]. unfold encodeStrMap. destruct (Z.leb_spec (dep - 1) 0); [lia|].
    eapply item_weaken; [|apply (hash_ok (hmap h l) (fun kvs => enc_pairs e (encode e h fuel) kvs (dep - 1)) r s S E P
      (fun d Y => exists kvs m', d = DHash kvs /\ NoDup (map fst m') /\ Permutation (hmap h l) m' /\ sdenm_ S m' kvs Y) Fl A)].
    { intros d Y (d0 & (kvs & m' & -> & K1 & K2 & K3) & ->). eapply sn_map; eauto. }
    intros t s1 E1 P1 A1. pose proof (Hshuf t _ (hmap h l)) as Pm.
    exists (e_shuffle e t _ (hmap h l)). split; [|split; [symmetry; now apply Permutation_length|]].
    + intros ds Y K. exists ds, (e_shuffle e t _ (hmap h l)). split; [reflexivity|]. split; [|auto].
      eapply Permutation_NoDup; [apply Permutation_map; exact Pm|exact Nd].
    + apply (pairs_ok N0 n); auto; try lia.
      * eapply all_perm; [apply Permutation_map; exact Pm|exact H].
      * intros k v Hin. eapply Fk. eapply Permutation_in; [apply Permutation_sym; exact Pm|exact Hin].
      * eapply busy_mono; [|exact B]. lia.
  - (* typed map *) intros l mm n Em Nd Fl Fk _ IH. destruct (all_fuel _ _ IH) as [N0 H].
    exists (S (Nat.max 1 N0)). intros fuel r dep s S E P Hf Hd A B. destruct fuel as [|fuel]; [lia|].
    cbn [encode encode_body]. unfold encodeMap. destruct (Z.leb_spec (dep - 1) 0); [lia|].
    assert (Fl' : (ulen (htmap h l) <= g_max g)%N) by (rewrite Em; unfold ulen; rewrite map_length; exact Fl).
    eapply item_weaken; [|apply (hash_ok (htmap h l) (fun kvs => enc_tpairs e (encode e h fuel) kvs (dep - 1)) r s S E P
      (fun d Y => exists kvs m', d = DHash kvs /\ NoDup (map fst m') /\
         Permutation (htmap h l) (map (fun kv => (GStr (fst kv), snd kv)) m') /\ sdenm_ S m' kvs Y) Fl' A)].
    { intros d Y (d0 & (kvs & m' & -> & K1 & K2 & K3) & ->). eapply sn_tmap; eauto. }
    intros t s1 E1 P1 A1. pose proof (Hshuf t _ (htmap h l)) as Pm.
    rewrite Em in Pm at 1. apply Permutation_sym, Permutation_map_inv in Pm as (m' & Em' & Pm).
    exists m'. split; [|split].
    + intros ds Y K. exists ds, m'. split; [reflexivity|]. split; [|split; [|exact K]].
      * eapply Permutation_NoDup; [apply Permutation_map; exact Pm|exact Nd].
      * rewrite Em. now apply Permutation_map.
    + rewrite Em, map_length. symmetry. now apply Permutation_length.
    + rewrite Em'. apply (tpairs_ok N0 n); auto; try lia.
      * eapply all_perm; [apply Permutation_map; exact Pm|exact H].
      * intros k v Hin. eapply Fk. eapply Permutation_in; [apply Permutation_sym; exact Pm|exact Hin].
      * eapply busy_mono; [|exact B]. lia.
  - (* pointer *) intros i l n k Hs Ht HL Hn HO _ [N0 H]. exists (S N0).
    intros fuel r dep s S E P Hf Hd A B. destruct fuel as [|fuel]; [lia|].
    apply (ptr_ok N0 i l n k Hs Ht HL HO H fuel r dep s S E P); auto. lia.
  - (* pointer to a Perl struct *) intros l n Hs _ [N0 H]. exists (S N0).
    intros fuel r dep s S E P Hf Hd A B. destruct fuel as [|fuel]; [lia|].
    assert (K : does (encodePerlPointer (encode e h fuel) (hget h l) dep s) s S E P (Ritem s (sden_ S r (GPtr false l))) (Qitem E)).
    { apply (perl_ok N0 n _ _ r H); auto; [|lia]. intros S0 d Y Dn. now apply sn_ptr_perl. }
    cbn [encode encode_body]. unfold encodePointer, encodePerlPointer in *.
    destruct (hget h l); try discriminate; exact K.
  - (* nil pointer *) intros n. exists 1. intros fuel r dep s S E P Hf Hd A B. destruct fuel as [|fuel]; [lia|].
    cbn [encode encode_body]. unfold encodeNilPointer. destruct (Z.leb_spec (dep - 1) 0); [lia|].
    rewrite emit_cons.
    eapply (does_item (emit [tagb typeREFN]) (Qtag 40) _ s S E P _ _ DRef).
    + now apply (pure_tag 40).
    + exact A.
    + intros A1. eapply (does_leaf (emit [tagb typeUNDEF]) DUndef _ S _ _ (fun d Y => d = DUndef /\ Y = [])).
      * apply (pure_simple 37); [unfold plain_tag; lia|discriminate|now constructor].
      * exact A1.
      * auto.
    + intros x Y X N ((-> & ->) & _). apply sn_scalar; [reflexivity|constructor].
    + intros x Y X N fin q p' _ [Ht ->] K. exists 40%N. split; [exact Ht|]. now apply s_refn.
  - (* PerlUndef *) intros c n. leafy (emit [tagb (if c then typeCANONICAL_UNDEF else typeUNDEF)]) (if c then DCanon else DUndef).
    + destruct c; [apply (dn_undef _ _ _ _ r true)|apply (dn_undef _ _ _ _ r false)].
    + destruct c; [apply (pure_simple 57)|apply (pure_simple 37)];
        (unfold plain_tag; lia) || discriminate || now constructor.
  - (* the canonical undef *) intros n. exists 2. intros fuel r dep s S E P Hf Hd A B. destruct fuel as [|fuel]; [lia|].
    assert (H : Pn 1 n (GUndefV true)).
    { eapply (leaf _ _ (emit [tagb typeCANONICAL_UNDEF]) DCanon); [reflexivity|reflexivity|intros r'; apply (dn_undef _ _ _ _ r' true)|].
      apply (pure_simple 57); [unfold plain_tag; lia|discriminate|now constructor]. }
    apply (perl_ok 1 n _ GCanonUndef r H); auto; try lia.
    intros S0 d Y Dn. inversion Dn as [S1 r1 v1 d1 Sc D1| | | | | | | | | | | | | | |]; subst.
    inversion D1; subst. apply sn_scalar; [reflexivity|constructor].
  - (* PerlObject *) intros cls v n F _ [N0 H]. exists (S N0). now apply obj_ok.
  - (* *PerlObject *) intros cls l n F _ [N0 H]. exists (S (S N0)).
    intros fuel r dep s S E P Hf Hd A B. destruct fuel as [|fuel]; [lia|].
    apply (perl_ok (Datatypes.S N0) n _ (GObjP cls l) r (obj_ok N0 n cls _ F H)); auto; try lia.
    intros S0 d Y Dn. inversion Dn; subst; [discriminate|]. now apply sn_objp.
  - (* PerlWeakRef *) intros v n _ [N0 H]. exists (S N0). now apply weak_ok.
  - (* *PerlWeakRef *) intros l n _ [N0 H]. exists (S (S N0)).
    intros fuel r dep s S E P Hf Hd A B. destruct fuel as [|fuel]; [lia|].
    apply (perl_ok (Datatypes.S N0) n _ (GWeakP l) r (weak_ok N0 n _ H)); auto; try lia.
    intros S0 d Y Dn. inversion Dn; subst; [discriminate|]. now apply sn_weakp.
  - (* regexp *) intros p mo n F1 F2.
    leafy (fun s => encodeBytes e (hview h mo) false (encodeBytes e (hview h p) false (emit [tagb typeREGEXP] s)))
      (DRegexp (hview h p) (hview h mo)); [constructor|].
    eapply (pure_seq true (fun s => encodeBytes e (hview h p) false (emit [tagb typeREGEXP] s)) (encodeBytes e (hview h mo) false)
      (fun b x x' => tag_at b x x 49 /\ strlit g b (S x) false (hview h p) x') (Qlit false (hview h mo))).
    + eapply (pure_seq true (emit [tagb typeREGEXP]) (encodeBytes e (hview h p) false) (Qtag 49) (Qlit false (hview h p))).
      * now apply (pure_tag 49).
      * apply pure_unflag. now apply pure_bval.
      * intros b x q x' [Ht ->] [Hk _]. auto.
    + apply pure_unflag. now apply pure_bval.
    + intros b x q x' [Ht Hp] [Hm _]. split; [|exists 49%N; split; [exact Ht|unfold plain_tag; lia]].
      eapply i_regexp; eauto; eapply str_lit; eauto.
  - (* PerlFreeze struct *) intros cls w n F1 F2 L. exists 2.
    intros fuel r dep s S E P Hf Hd A B. destruct fuel as [|fuel]; [lia|].
    set (kvs := [(name_Class, GStr cls); (name_Data, GBytes w)]).
    assert (H : Forall (Pn 1 0) (map snd kvs)).
    { repeat constructor.
      - eapply (leaf _ _ (encodeString e cls false) (DStr cls)); [reflexivity|reflexivity|constructor|].
        apply (pure_lit _ true). now apply pure_sval.
      - eapply (leaf _ _ (encodeBytes e (hview h w) false) (DBin (hview h w))); [reflexivity|reflexivity|constructor|].
        apply (pure_lit _ false). now apply pure_bval. }
    cbn [encode encode_body]. unfold encodeFreezeStruct. destruct (Z.leb_spec (dep - 1) 0); [lia|].
    apply (struct_ok name_PerlFreeze kvs (fun kvs => enc_pairs e (encode e h fuel) kvs (dep - 1)) s S E P); auto.
    { unfold fits. cbn. lia. }
    intros t s1 E1 P1 A1. pose proof (Hshuf t _ kvs) as Pm.
    exists (e_shuffle e t _ kvs). split; [|split; [symmetry; now apply Permutation_length|]].
    + intros ds Y K. eapply sn_freezev; eauto.
    + apply (pairs_ok 1 0); auto; try lia.
      * eapply all_perm; [apply Permutation_map; exact Pm|exact H].
      * intros k v Hin. apply (Permutation_in _ (Permutation_sym Pm)) in Hin.
        destruct Hin as [[= <- <-]|[[= <- <-]|[]]]; unfold fits; cbn; lia.
      * eapply busy_mono; [|exact B]. lia.
  - (* BinaryMarshaler *) intros name by_ v n Nf F1 F2 L1 Fz. exists 1. now apply user_ok.
  - (* BinaryMarshaler without freezing *) intros name o v n Nf _ [N0 H]. exists (S N0).
    intros fuel r dep s S E P Hf Hd A B. destruct fuel as [|fuel]; [lia|].
    cbn [encode encode_body].
    match goal with |- does (if e_nofreeze e then ?a else ?b) _ _ _ _ _ _ =>
      replace (if e_nofreeze e then a else b) with a by now rewrite Nf end.
    eapply item_weaken; [|apply (H fuel r dep s S E P); auto; lia].
    intros d Y Dn. now apply sn_user_plain.
  - (* struct *) intros name fs base tags n F1 Tb F2 Fk _ IH. destruct (all_fuel _ _ IH) as [N0 H].
    exists (S N0). intros fuel r dep s S E P Hf Hd A B. destruct fuel as [|fuel]; [lia|].
    pose proof (field_table_perm _ _ _ Tb (tags_of_table fs)) as PT.
    cbn [encode encode_body]. unfold encodeStruct. destruct (Z.leb_spec (dep - 1) 0); [lia|].
    apply (struct_ok name (tags_of fs) (fun tags => enc_fields e h (encode e h fuel) fs base tags (dep - 1)) s S E P); auto.
    { unfold ulen. rewrite <- (Permutation_length PT). exact F2. }
    intros t s1 E1 P1 A1. pose proof (Hshuf t _ (tags_of fs)) as Pm.
    set (tg := e_shuffle e t (bytes * nat) (tags_of fs)) in *.
    assert (PP : Permutation tags tg) by (eapply Permutation_trans; eauto).
    exists (map (fun kt => (fst kt, hget h (base + snd kt))) tg). split; [|split].
    + intros ds Y K. eapply sn_struct; [|exact K]. destruct Tb as [Nd Tb]. split.
      * eapply Permutation_NoDup; [apply Permutation_map; exact PP|exact Nd].
      * intros k i. rewrite <- Tb. split; intros Hin; (eapply Permutation_in; [|exact Hin]); auto using Permutation_sym.
    + rewrite map_length. symmetry. now apply Permutation_length.
    + apply (fields_ok N0 n); auto; try lia.
      * eapply all_perm; [|exact H]. apply (Permutation_map (fun kt : bytes * nat => hget h (base + snd kt)) PP).
      * intros k i Hin. apply Fk. eapply Permutation_in; [apply Permutation_sym; exact PP|exact Hin].
      * eapply busy_mono; [|exact B]. lia.
  - constructor.
  - intros v vs n _ H1 _ H2. constructor; auto.
Qed.
End SE.
