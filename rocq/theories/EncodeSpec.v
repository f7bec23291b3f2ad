(** The encoder obeys the wire grammar: for every finite tree it succeeds exactly within
    the depth limit, and appends one item describing the value. *)
From Verif Require Import Base BaseFacts SpecVarint Varint VarintFacts Tags GoMem TagsCache
  Encode Spec SpecValue GrammarFacts JsonFacts.
From Coq Require Import ZifyBool ZifyNat ZifyN Permutation.
Ltac Zify.zify_post_hook ::= Z.div_mod_to_equations.

Scheme tree_mind := Induction for tree Sort Prop
  with trees_mind := Induction for trees Sort Prop.
Combined Scheme tree_both_ind from tree_mind, trees_mind.

Lemma addr_eqb_true a b : addr_eqb a b = true <-> a = b.
Proof. destruct a, b. cbn. rewrite Nat.eqb_eq. split; congruence. Qed.

Lemma emit_app a b s : emit (a ++ b) s = emit b (emit a s).
Proof. unfold emit, with_by. cbn. now rewrite app_assoc. Qed.
Lemma emit_cons a b s : emit (a :: b) s = emit b (emit [a] s).
Proof. apply (emit_app [a] b). Qed.

Lemma ext_refl b : extends b b.
Proof. exists []. now rewrite app_nil_r. Qed.
Lemma ext_trans a b c : extends a b -> extends b c -> extends a c.
Proof. intros [x ->] [y ->]. exists (x ++ y). now rewrite app_assoc. Qed.
Lemma ext_emit l s : extends (s_by s) (s_by (emit l s)).
Proof. exists l. reflexivity. Qed.

Lemma tag_here a b c t : b2n b = t \/ b2n b = (t + 128)%N -> (t < 128)%N -> t <> 63%N ->
  tag_at (a ++ b :: c) (length a) (length a) t.
Proof.
  intros E L N. split; [lia|]. split; [intros; lia|]. exists b.
  rewrite nth_error_app2, Nat.sub_diag by lia. split; [reflexivity|]. split; [|exact N].
  destruct E as [-> | ->]; lia.
Qed.

Lemma vint_here a n c : (n < 18446744073709551616)%N ->
  vint (a ++ varint n ++ c) (length a) n (length a + length (varint n)).
Proof.
  intros H. destruct (varint_groups _ H) as [G L]. exists (varint n).
  split; [apply at_app|]. repeat split; auto; lia.
Qed.

Lemma vint_nonempty b p n p' : vint b p n p' -> p < p'.
Proof. intros (l & _ & G & _ & _ & ->). destruct G; cbn; lia. Qed.

Lemma strlit_nonempty gg b p u s x : strlit gg b p u s x -> p < x.
Proof.
  destruct 1 as [? ? ? ? (? & _)|? ? ? ? ? (? & _) V|? ? ? ? ? (? & _) V];
    try apply vint_nonempty in V; lia.
Qed.

Section ES.
Variable e : econfig.
Variable h : heap.
Variable g : dialect.
Variable m : cmode.
Hypothesis Hshuf : forall t A (l : list A), Permutation l (e_shuffle e t A l).
Hypothesis Hmax : (g_max g < 18446744073709551616)%N.

Notation tree_ := (tree (g_max g) (g_frz g) (e_nofreeze e) (e_layout e) h).
Notation trees_ := (trees (g_max g) (g_frz g) (e_nofreeze e) (e_layout e) h).
Notation den_ := (den (e_perl e) (e_nofreeze e) (e_parsefloat e) h).
Notation dens_ := (dens (e_perl e) (e_nofreeze e) (e_parsefloat e) h).
Notation denm_ := (denm (e_perl e) (e_nofreeze e) (e_parsefloat e) h).
Notation fits_ := (fits (g_max g)).

Definition small (s : estate) : Prop := (Z.of_nat (length (s_by s)) < two63)%Z.

(** the string table points at complete strings *)
Definition strok (s : estate) : Prop := forall k off, mget (s_str s) k = Some off ->
  refers g (s_by s) off /\ off < length (s_by s) /\ exists u x, strlit g (s_by s) off u k x.

Definition ready (s : estate) : Prop :=
  e_nodedup e = true \/ (copy_ok m = true /\ g_start g <= length (s_by s) /\ strok s).

Lemma refers_ext b b' n : extends b b' -> n < length b -> refers g b n -> refers g b' n.
Proof.
  intros [x ->] L [T1 T2]. split; [exact T1|]. intros D c Hc. rewrite nth_error_app1 in Hc by exact L. eauto.
Qed.

Lemma ready_ext s s' : extends (s_by s) (s_by s') -> s_str s' = s_str s -> ready s -> ready s'.
Proof.
  intros E Es [R|(C & L & K)]; [now left|right]. pose proof (ext_len _ _ E).
  split; [exact C|]. split; [lia|]. intros k off Hk. rewrite Es in Hk.
  destruct (K k off Hk) as (A1 & A2 & u & x & A3). split; [eapply refers_ext; eauto|split; [lia|]].
  exists u, x. eapply strlit_ext; eauto.
Qed.

(** what is appended between two states: [Q bytes from to] *)
Definition step (Q : bytes -> nat -> nat -> Prop) (s s' : estate) : Prop :=
  extends (s_by s) (s_by s') /\
  (small s' -> ready s -> ready s' /\ Q (s_by s') (length (s_by s)) (length (s_by s'))).

Definition stable (Q : bytes -> nat -> nat -> Prop) : Prop :=
  forall b b' p p', extends b b' -> Q b p p' -> Q b' p p'.

Lemma small_ext s s' : extends (s_by s) (s_by s') -> small s' -> small s.
Proof. intros E. pose proof (ext_len _ _ E). unfold small. lia. Qed.

Lemma step_seq (Q1 Q2 Q : bytes -> nat -> nat -> Prop) s s1 s2 : stable Q1 ->
  step Q1 s s1 -> step Q2 s1 s2 ->
  (forall b p r p', Q1 b p r -> Q2 b r p' -> Q b p p') -> step Q s s2.
Proof.
  intros St [E1 H1] [E2 H2] HQ. split; [eapply ext_trans; eauto|].
  intros Sm R. destruct (H1 (small_ext _ _ E2 Sm) R) as [R1 K1].
  destruct (H2 Sm R1) as [R2 K2]. split; [exact R2|]. eapply HQ; eauto.
Qed.

Lemma step_weaken (Q Q' : bytes -> nat -> nat -> Prop) s s' :
  (forall b p p', Q b p p' -> Q' b p p') -> step Q s s' -> step Q' s s'.
Proof. intros H [E K]. split; [exact E|]. intros. destruct K; auto. Qed.

(** the pieces *)
Definition Qtag (t : N) (b : bytes) (p p' : nat) : Prop := tag_at b p p t /\ p' = S p.
Definition Qvint (n : N) (b : bytes) (p p' : nat) : Prop := vint b p n p'.
Definition Qat (l : bytes) (b : bytes) (p p' : nat) : Prop := at_ b p l /\ p' = p + length l.
Definition Qkey (k : bytes) (b : bytes) (p p' : nat) : Prop := stringish g b (copy_ok m) p k p'.
Definition Qlit (u : bool) (k : bytes) (b : bytes) (p p' : nat) : Prop := strlit g b p u k p'.
Definition Qitem (P : data -> Prop) (b : bytes) (p p' : nat) : Prop :=
  exists d, P d /\ item g b m p d p'.
Definition Qval (r : bool) (v : gval) := Qitem (den_ r v).
Definition Qvals (vs : list gval) (b : bytes) (p p' : nat) : Prop :=
  exists ds, dens_ vs ds /\ items g b m p ds p'.
Definition Qpairs (kvs : list (bytes * gval)) (b : bytes) (p p' : nat) : Prop :=
  exists ds, denm_ kvs ds /\ pairs g b m p ds p'.

Lemma st_tag t : stable (Qtag t).
Proof. intros b b' p p' E [H ->]. split; auto. eapply (tag_ext g); eauto. Qed.
Lemma st_vint n : stable (Qvint n).
Proof. intros b b' p p' E H. eapply (vint_ext g); eauto. Qed.
Lemma st_at l : stable (Qat l).
Proof. intros b b' p p' E [H ->]. split; auto. eapply (at_ext g); eauto. Qed.
Lemma st_key l : stable (Qkey l).
Proof. intros b b' p p' E H. eapply stringish_ext; eauto. Qed.
Lemma st_lit u l : stable (Qlit u l).
Proof. intros b b' p p' E H. eapply strlit_ext; eauto. Qed.
Lemma st_item P : stable (Qitem P).
Proof. intros b b' p p' E (d & Hd & H). exists d. split; auto. eapply item_ext; eauto. Qed.

Lemma step_emit (Q : bytes -> nat -> nat -> Prop) l s :
  (Q (s_by s ++ l) (length (s_by s)) (length (s_by s) + length l)) -> step Q s (emit l s).
Proof.
  intros H. split; [apply ext_emit|]. intros _ R. split.
  - eapply ready_ext; [apply ext_emit| |exact R]. reflexivity.
  - cbn [s_by emit with_by]. rewrite app_length. exact H.
Qed.

Lemma step_tag t s : (t < 128)%N -> t <> 63%N -> step (Qtag t) s (emit [tagb t] s).
Proof.
  intros L N. apply step_emit. split; [|cbn; lia]. apply tag_here; auto.
  left. unfold tagb. rewrite b2n_n2b_small by lia. reflexivity.
Qed.

Lemma step_vint n s : (n < 18446744073709551616)%N -> step (Qvint n) s (emit (varint n) s).
Proof.
  intros H. apply step_emit. unfold Qvint.
  rewrite <- (app_nil_r (varint n)) at 1. now apply vint_here.
Qed.

Lemma step_at l s : step (Qat l) s (emit l s).
Proof.
  apply step_emit. split; [|reflexivity].
  rewrite <- (app_nil_r l) at 1. apply at_app.
Qed.

Lemma fits_lt A (l : list A) : fits_ l -> (ulen l < 18446744073709551616)%N.
Proof. unfold fits, ulen. lia. Qed.

Lemma step_utf8 str s : fits_ str ->
  step (Qlit true str) s (emit (tagb typeSTR_UTF8 :: varint (ulen str) ++ str) s).
Proof.
  intros F. rewrite emit_cons, emit_app.
  eapply (step_seq (Qtag 39)); [apply st_tag|apply step_tag; [reflexivity|discriminate]| |].
  - eapply (step_seq (Qvint (ulen str)) (Qat str)
              (fun b p p' => exists r, Qvint (ulen str) b p r /\ Qat str b r p'));
      [apply st_vint|apply step_vint; now apply fits_lt|apply step_at|].
    intros b p r p' H1 H2. exact (ex_intro _ r (conj H1 H2)).
  - cbn beta. intros b p r p' [Ht ->] (r' & Hv & Ha & ->).
    eapply lit_utf8; eauto.
Qed.

Lemma step_bytes str s : fits_ str ->
  step (Qlit false str) s
    (emit (if (ulen str <? 32)%N then n2b (typeSHORT_BINARY_0 + ulen str) :: str
           else tagb typeBINARY :: varint (ulen str) ++ str) s).
Proof.
  intros F. destruct (N.ltb_spec (ulen str) 32) as [L|L].
  - rewrite emit_cons.
    eapply (step_seq (Qtag (96 + ulen str))); [apply st_tag| |apply step_at|].
    + apply (step_tag (96 + ulen str)); unfold ulen in *; lia.
    + intros b p r p' [Ht ->] [Ha ->]. eapply lit_short; eauto; unfold ulen in *; lia.
  - rewrite emit_cons, emit_app.
    eapply (step_seq (Qtag 38)); [apply st_tag|apply step_tag; [reflexivity|discriminate]| |].
    + eapply (step_seq (Qvint (ulen str)) (Qat str)
              (fun b p p' => exists r, Qvint (ulen str) b p r /\ Qat str b r p'));
        [apply st_vint|apply step_vint; now apply fits_lt|apply step_at|].
      intros b p r p' H1 H2. exact (ex_intro _ r (conj H1 H2)).
    + cbn beta. intros b p r p' [Ht ->] (r' & Hv & Ha & ->). eapply lit_binary; eauto.
Qed.

(** a string that may be replaced by a COPY of an earlier one *)
Definition dedup (l str : bytes) (s : estate) : estate :=
  if negb (e_nodedup e) && true then
    match mget (s_str s) str with
    | Some offs => emit (tagb typeCOPY :: varint (N.of_nat offs)) s
    | None => emit l (mkEState (s_by s) (mput (s_str s) str (length (s_by s))) (s_ptr s) (s_tick s))
    end
  else emit l s.

Lemma step_dedup u str c l0 s : ~ pad_byte c -> let l := c :: l0 in
  step (Qlit u str) s (emit l s) -> step (Qkey str) s (dedup l str s).
Proof.
  intros Nc l St. unfold dedup. destruct (e_nodedup e) eqn:Nd; cbn [negb andb].
  { eapply step_weaken; [|exact St]. intros b p p' Hl. eapply str_lit; exact Hl. }
  destruct (mget (s_str s) str) as [off|] eqn:G.
  - split; [apply ext_emit|]. intros Sm R. split.
    { eapply ready_ext; [apply ext_emit| |exact R]. reflexivity. }
    destruct R as [R|(C & L & K)]; [congruence|].
    destruct (K _ _ G) as (A1 & A2 & u' & x & A3).
    assert (B : (N.of_nat off < 18446744073709551616)%N).
    { unfold small, two63 in Sm. cbn [s_by emit with_by] in Sm. rewrite app_length in Sm. lia. }
    assert (St2 : step (fun b p p' => tag_at b p p 47 /\ vint b (S p) (N.of_nat off) p') s
                    (emit (tagb typeCOPY :: varint (N.of_nat off)) s)).
    { rewrite emit_cons.
      eapply (step_seq (Qtag 47)); [apply st_tag|apply step_tag; [reflexivity|discriminate]| |].
      - apply (step_vint (N.of_nat off)). exact B.
      - intros b p r p' [Ht ->] Hv. auto. }
    destruct St2 as [E2 K2]. destruct K2 as (_ & Ht & Hv); [exact Sm| |].
    { right. auto. }
    eapply str_copy; [exact C|exact Ht|exact Hv| | |]; rewrite Nat2N.id; auto;
      [eapply refers_ext; [apply ext_emit|auto|exact A1]|].
    eapply strlit_ext; [apply ext_emit|exact A3].
  - destruct St as [E K]. split; [exact E|]. intros Sm R.
    destruct (K Sm R) as [_ Hl]. split; [|eapply str_lit; exact Hl].
    destruct R as [R|(C & L & Ks)]; [congruence|right].
    cbn [s_by s_str emit with_by] in *.
    split; [exact C|]. split; [rewrite app_length; lia|].
    intros k off Hk. cbn [s_by s_str emit with_by] in *. rewrite mget_mput in Hk.
    destruct (bytes_eqb str k) eqn:Ek.
    + apply bytes_eqb_true in Ek as <-. injection Hk as <-. split.
      { split; [lia|]. intros _ x Hx. rewrite nth_error_app2, Nat.sub_diag in Hx by lia.
        injection Hx as <-. exact Nc. }
      pose proof (strlit_nonempty _ _ _ _ _ _ Hl). split; [lia|]. eauto.
    + destruct (Ks _ _ Hk) as (A1 & A2 & u' & x & A3).
      split; [eapply refers_ext; [now exists l|auto|exact A1]|].
      split; [rewrite app_length; lia|]. exists u', x. eapply strlit_ext; [|exact A3].
      now exists l.
Qed.

Lemma dedup_ptr l str s : s_ptr (dedup l str s) = s_ptr s.
Proof.
  unfold dedup. destruct (negb (e_nodedup e) && true); [|reflexivity].
  destruct (mget (s_str s) str); reflexivity.
Qed.

Lemma string_key str s : fits_ str -> step (Qkey str) s (encodeString e str true s).
Proof.
  intros F. apply (step_dedup true str (tagb typeSTR_UTF8)); [intros [P|P]; discriminate P|].
  now apply step_utf8.
Qed.
Lemma bytes_key str s : fits_ str -> step (Qkey str) s (encodeBytes e str true s).
Proof.
  intros F. pose proof (step_bytes str s F) as St. unfold encodeBytes, ulen in *.
  destruct (N.of_nat (length str) <? 32)%N eqn:L.
  - apply (step_dedup false str (n2b (typeSHORT_BINARY_0 + N.of_nat (length str)))); [|exact St].
    unfold pad_byte, typeSHORT_BINARY_0. rewrite b2n_n2b_small by lia. lia.
  - apply (step_dedup false str (tagb typeBINARY)); [intros [P|P]; discriminate P|exact St].
Qed.
Lemma string_val str s : fits_ str -> step (Qlit true str) s (encodeString e str false s).
Proof. intros F. unfold encodeString. rewrite andb_false_r. now apply step_utf8. Qed.
Lemma bytes_val str s : fits_ str -> step (Qlit false str) s (encodeBytes e str false s).
Proof. intros F. unfold encodeBytes. rewrite andb_false_r. now apply step_bytes. Qed.

Lemma string_ptr str k s : s_ptr (encodeString e str k s) = s_ptr s.
Proof.
  unfold encodeString. destruct (negb (e_nodedup e) && k); [|reflexivity].
  destruct (mget (s_str s) str); reflexivity.
Qed.
Lemma bytes_ptr str k s : s_ptr (encodeBytes e str k s) = s_ptr s.
Proof.
  unfold encodeBytes. destruct (negb (e_nodedup e) && k); [|reflexivity].
  destruct (mget (s_str s) str); reflexivity.
Qed.

(** ** Runs of the encoder *)
Definition tdisj (T : list (addr * nat)) (A : list addr) : Prop :=
  forall a, In a A -> pget T a = None.
Definition tsub (T T' : list (addr * nat)) (A : list addr) : Prop :=
  forall a, pget T a = None -> ~ In a A -> pget T' a = None.

(** within the limit the run succeeds and appends a Q; beyond it, it is refused *)
Definition enc_at (run : estate -> res estate) (dep : Z) (n : nat) (A : list addr)
  (Q : bytes -> nat -> nat -> Prop) (s : estate) : Prop :=
  tdisj (s_ptr s) A ->
  if (Z.of_nat n <? dep)%Z
  then exists s', run s = Ok s' /\ tsub (s_ptr s) (s_ptr s') A /\ step Q s s'
  else run s = Err EMaxRecursion.

Lemma enc_weaken run dep n A (Q Q' : bytes -> nat -> nat -> Prop) s :
  (forall b p p', Q b p p' -> Q' b p p') -> enc_at run dep n A Q s -> enc_at run dep n A Q' s.
Proof.
  intros H K T. specialize (K T). destruct (Z.of_nat n <? dep)%Z; auto.
  destruct K as (s' & R & S & St). exists s'. repeat split; auto; eapply step_weaken; eauto.
Qed.

Lemma enc_addrs run dep n A A' Q s : (forall a, In a A <-> In a A') ->
  enc_at run dep n A Q s -> enc_at run dep n A' Q s.
Proof.
  intros H K T. unfold enc_at in K. destruct (Z.of_nat n <? dep)%Z.
  - destruct K as (s' & R & S & St); [intros a Ha; apply T, H; auto|].
    exists s'. split; [auto|split; [|auto]]. intros a Pa Na. apply S; auto. now rewrite H.
  - apply K. intros a Ha. apply T, H; auto.
Qed.

(** a step that always succeeds *)
Definition pure (f : estate -> estate) (Q : bytes -> nat -> nat -> Prop) : Prop :=
  forall s, s_ptr (f s) = s_ptr s /\ step Q s (f s).

Lemma enc_pure f Q dep s : pure f Q -> (1 <= dep)%Z -> enc_at (fun s => Ok (f s)) dep 0 [] Q s.
Proof.
  intros P L _. destruct (Z.ltb_spec (Z.of_nat 0) dep); [|lia].
  destruct (P s) as [E St]. exists (f s). split; [auto|split; [|auto]]. now rewrite E.
Qed.

Lemma enc_after f Q1 run dep n A Q2 (Q : bytes -> nat -> nat -> Prop) s : pure f Q1 -> stable Q1 ->
  enc_at run dep n A Q2 (f s) ->
  (forall b p r p', Q1 b p r -> Q2 b r p' -> Q b p p') ->
  enc_at (fun s => run (f s)) dep n A Q s.
Proof.
  intros P St K HQ T. destruct (P s) as [E S1]. unfold enc_at in K. rewrite E in K.
  specialize (K T). destruct (Z.of_nat n <? dep)%Z; auto.
  destruct K as (s' & R & S & S2). exists s'. split; [auto|split; [auto|]].
  eapply step_seq; eauto.
Qed.

Lemma enc_bind run1 run2 dep n1 n2 A1 A2 Q1 Q2 (Q : bytes -> nat -> nat -> Prop) s : stable Q1 ->
  enc_at run1 dep n1 A1 Q1 s -> (forall s1, enc_at run2 dep n2 A2 Q2 s1) -> disjoint A1 A2 ->
  (forall b p r p', Q1 b p r -> Q2 b r p' -> Q b p p') ->
  enc_at (fun s => bind (run1 s) run2) dep (Nat.max n1 n2) (A1 ++ A2) Q s.
Proof.
  intros St K1 K2 D HQ T. unfold enc_at in K1.
  assert (T1 : tdisj (s_ptr s) A1) by (intros a Ha; apply T, in_app_iff; auto).
  specialize (K1 T1).
  destruct (Z.ltb_spec (Z.of_nat n1) dep) as [L1|L1].
  - destruct K1 as (s1 & R1 & S1 & W1). cbn beta. rewrite R1. cbn [bind].
    assert (T2 : tdisj (s_ptr s1) A2).
    { intros a Ha. apply S1; [apply T, in_app_iff; auto|]. intros H1. eapply D; eauto. }
    specialize (K2 s1 T2).
    destruct (Z.ltb_spec (Z.of_nat n2) dep) as [L2|L2].
    + destruct (Z.ltb_spec (Z.of_nat (Nat.max n1 n2)) dep); [|lia].
      destruct K2 as (s2 & R2 & S2 & W2). exists s2. split; [auto|split].
      * intros a Pa Na. rewrite in_app_iff in Na. apply S2; [apply S1|]; tauto.
      * eapply step_seq; eauto.
    + destruct (Z.ltb_spec (Z.of_nat (Nat.max n1 n2)) dep); [lia|]. exact K2.
  - destruct (Z.ltb_spec (Z.of_nat (Nat.max n1 n2)) dep); [lia|].
    cbn beta. now rewrite K1.
Qed.

(** one nesting level *)
Lemma enc_level run dep n A Q s : (1 <= dep)%Z ->
  ((1 <= dep - 1)%Z -> enc_at run (dep - 1) n A Q s) ->
  enc_at (fun s => if (dep - 1 <=? 0)%Z then Err EMaxRecursion else run s) dep (S n) A Q s.
Proof.
  intros L K T. destruct (Z.leb_spec (dep - 1) 0).
  - destruct (Z.ltb_spec (Z.of_nat (S n)) dep); [lia|reflexivity].
  - specialize (K ltac:(lia) T).
    destruct (Z.ltb_spec (Z.of_nat n) (dep - 1)); destruct (Z.ltb_spec (Z.of_nat (S n)) dep);
      auto; lia.
Qed.

Lemma pure_emit l Q : (forall s, step Q s (emit l s)) -> pure (emit l) Q.
Proof. intros H s. split; [reflexivity|apply H]. Qed.

Lemma pure_seq f1 f2 Q1 Q2 (Q : bytes -> nat -> nat -> Prop) : stable Q1 -> pure f1 Q1 -> pure f2 Q2 ->
  (forall b p r p', Q1 b p r -> Q2 b r p' -> Q b p p') -> pure (fun s => f2 (f1 s)) Q.
Proof.
  intros St P1 P2 H s. destruct (P1 s) as [E1 S1], (P2 (f1 s)) as [E2 S2].
  split; [congruence|]. eapply step_seq; eauto.
Qed.

Lemma pure_tag t : (t < 128)%N -> t <> 63%N -> pure (emit [tagb t]) (Qtag t).
Proof. intros L N. apply pure_emit. intros. now apply step_tag. Qed.
Lemma pure_skey k : fits_ k -> pure (encodeString e k true) (Qkey k).
Proof. intros F s. split; [apply string_ptr|now apply string_key]. Qed.
Lemma pure_bkey k : fits_ k -> pure (encodeBytes e k true) (Qkey k).
Proof. intros F s. split; [apply bytes_ptr|now apply bytes_key]. Qed.
Lemma pure_sval k : fits_ k -> pure (encodeString e k false) (Qlit true k).
Proof. intros F s. split; [apply string_ptr|now apply string_val]. Qed.
Lemma pure_bval k : fits_ k -> pure (encodeBytes e k false) (Qlit false k).
Proof. intros F s. split; [apply bytes_ptr|now apply bytes_val]. Qed.

(** ** Values *)
Definition Pn (N0 : nat) (v : gval) (n : nat) (A : list addr) : Prop :=
  forall fuel r dep s, N0 <= fuel -> (1 <= dep)%Z ->
    enc_at (encode e h fuel v r dep) dep n A (Qval r v) s.
Definition Penc (v : gval) (n : nat) (A : list addr) : Prop := exists N0, Pn N0 v n A.

Inductive all (P : gval -> nat -> list addr -> Prop) : list gval -> nat -> list addr -> Prop :=
| all_nil : all P [] 0 []
| all_cons v n A vs k B : P v n A -> all P vs k B -> disjoint A B ->
    all P (v :: vs) (Nat.max n k) (A ++ B).

Lemma Pn_mono N0 N1 v n A : N0 <= N1 -> Pn N0 v n A -> Pn N1 v n A.
Proof. intros L H fuel r dep s Hf. apply H. lia. Qed.

Lemma all_fuel vs n A : all Penc vs n A -> exists N0, all (Pn N0) vs n A.
Proof.
  induction 1 as [|v n A vs k B [N1 H1] _ [N2 H2] D].
  - exists 0. constructor.
  - exists (Nat.max N1 N2).
    assert (Mono : forall vs n A, all (Pn N2) vs n A -> all (Pn (Nat.max N1 N2)) vs n A).
    { induction 1; constructor; auto. eapply Pn_mono; [|eassumption]. lia. }
    constructor; auto. eapply Pn_mono; [|eassumption]. lia.
Qed.

Lemma all_mono N0 N1 vs n A : N0 <= N1 -> all (Pn N0) vs n A -> all (Pn N1) vs n A.
Proof. intros L. induction 1; constructor; auto. eapply Pn_mono; eauto. Qed.

Lemma all_perm P vs vs' : Permutation vs vs' -> forall n A, all P vs n A ->
  exists A', (forall a, In a A <-> In a A') /\ all P vs' n A'.
Proof.
  induction 1 as [|v vs vs' _ IH|v w vs|vs vs' vs'' _ IH1 _ IH2]; intros n A H.
  - inversion H; subst. exists []. split; [tauto|constructor].
  - inversion H as [|? n1 A1 ? k B Hv Hs D]; subst.
    destruct (IH _ _ Hs) as (B' & E & H'). exists (A1 ++ B'). split.
    + intros a. rewrite !in_app_iff, E. tauto.
    + constructor; auto. intros a Ha Hb. eapply D; eauto. now apply E.
  - inversion H as [|? n1 A1 ? k1 B1 Hv Hs D1]; subst.
    inversion Hs as [|? n2 A2 ? k B Hw Hs' D2]; subst.
    exists (A2 ++ A1 ++ B). split.
    + intros a. rewrite !in_app_iff. tauto.
    + replace (Nat.max n1 (Nat.max n2 k)) with (Nat.max n2 (Nat.max n1 k)) by lia.
      constructor; [auto|constructor; [auto|auto|]|].
      * intros a Ha Hb. apply (D1 a); auto. apply in_app_iff. auto.
      * intros a Ha Hb. apply in_app_iff in Hb as [Hb|Hb].
        -- apply (D1 a); auto. apply in_app_iff. auto.
        -- apply (D2 a); auto.
  - destruct (IH1 _ _ H) as (A' & E1 & H1). destruct (IH2 _ _ H1) as (A'' & E2 & H2).
    exists A''. split; auto. intros a. now rewrite E1.
Qed.

Lemma elems_ok N0 vs n A : all (Pn N0) vs n A ->
  forall fuel base dep s, N0 <= fuel -> (1 <= dep)%Z -> vs = cells h base (length vs) ->
  enc_at (enc_elems h (encode e h fuel) (length vs) base dep) dep n A (Qvals vs) s.
Proof.
  induction 1 as [|v n A vs k B Hv _ IH D]; intros fuel base dep s Hf Hd E.
  - cbn [enc_elems length]. apply enc_pure; auto. intros s0. split; [reflexivity|].
    split; [apply ext_refl|]. intros _ R. split; auto. exists []. split; constructor.
  - cbn [length enc_elems]. cbn [length cells seq map] in E. injection E as Ev Evs.
    rewrite <- Ev.
    eapply (enc_bind (encode e h fuel v false dep) (enc_elems h (encode e h fuel) (length vs) (S base) dep)).
    + apply st_item.
    + apply Hv; auto.
    + intros s1. apply IH; auto.
    + exact D.
    + intros b p r p' (d & Hd1 & I1) (ds & Hd2 & I2). exists (d :: ds).
      split; econstructor; eauto.
Qed.

Lemma pairs_ok N0 vs n A : all (Pn N0) vs n A ->
  forall fuel kvs dep s, N0 <= fuel -> (1 <= dep)%Z -> vs = map snd kvs ->
  (forall k v, In (k, v) kvs -> fits_ k) ->
  enc_at (enc_pairs e (encode e h fuel) kvs dep) dep n A (Qpairs kvs) s.
Proof.
  induction 1 as [|v n A vs k B Hv _ IH D]; intros fuel kvs dep s Hf Hd E F.
  - destruct kvs; [|discriminate]. cbn [enc_pairs].
    apply enc_pure; auto. intros s0. split; [reflexivity|].
    split; [apply ext_refl|]. intros _ R. split; auto. exists []. split; constructor.
  - destruct kvs as [|[key v'] kvs]; [discriminate|]. cbn [map snd] in E. injection E as <- E.
    cbn [enc_pairs].
    eapply (enc_bind (fun s => encode e h fuel v false dep (encodeString e key true s))
              (enc_pairs e (encode e h fuel) kvs dep)
              dep n k A B
              (fun b p p' => exists r d, stringish g b (copy_ok m) p key r /\ den_ false v d /\ item g b m r d p')).
    + intros b b' p p' Ex (r & d & K & Dn & I). exists r, d.
      split; [eapply stringish_ext; eauto|split; auto]. eapply item_ext; eauto.
    + eapply (enc_after (encodeString e key true) (Qkey key) (encode e h fuel v false dep)).
      * apply pure_skey. eapply F. now left.
      * apply st_key.
      * apply Hv; auto.
      * intros b p r p' K (d & Dn & I). eauto.
    + intros s1. apply IH; auto. intros k0 v0 Hk. eapply F. right. exact Hk.
    + exact D.
    + intros b p r p' (r0 & d & K & Dn & I) (ds & Dn2 & I2). exists ((key, d) :: ds).
      split; econstructor; eauto.
Qed.

Lemma tpairs_ok N0 vs n A : all (Pn N0) vs n A ->
  forall fuel kvs dep s, Nat.max 1 N0 <= fuel -> (1 <= dep)%Z -> vs = map snd kvs ->
  (forall k v, In (k, v) kvs -> fits_ k) ->
  enc_at (enc_tpairs e (encode e h fuel) (map (fun kv => (GStr (fst kv), snd kv)) kvs) dep) dep n A (Qpairs kvs) s.
Proof.
  induction 1 as [|v n A vs k B Hv _ IH D]; intros fuel kvs dep s Hf Hd E F.
  - destruct kvs; [|discriminate]. cbn [enc_tpairs map].
    apply enc_pure; auto. intros s0. split; [reflexivity|].
    split; [apply ext_refl|]. intros _ R. split; auto. exists []. split; constructor.
  - destruct kvs as [|[key v'] kvs]; [discriminate|]. cbn [map snd fst] in E |- *. injection E as <- E.
    cbn [enc_tpairs key_string].
    set (kf := fun s => if e_perl e then encodeString e key true s else encodeString e key false s).
    assert (Ek : forall s, (if e_perl e then Ok (encodeString e key true s)
                            else encode e h fuel (GStr key) false dep s) = Ok (kf s)).
    { intros s0. unfold kf. destruct (e_perl e); auto. destruct fuel; [lia|]. reflexivity. }
    assert (Pk : pure kf (Qkey key)).
    { assert (Fk : fits_ key) by (eapply F; now left). unfold kf. destruct (e_perl e).
      - now apply pure_skey.
      - intros s0. destruct (pure_sval key Fk s0) as [E1 S1]. split; auto.
        eapply step_weaken; [|exact S1]. intros. eapply str_lit. eassumption. }
    assert (G : enc_at (fun s => bind (encode e h fuel v false dep (kf s))
              (enc_tpairs e (encode e h fuel) (map (fun kv => (GStr (fst kv), snd kv)) kvs) dep))
              dep (Nat.max n k) (A ++ B) (Qpairs ((key, v) :: kvs)) s).
    { eapply (enc_bind (fun s => encode e h fuel v false dep (kf s))
              (enc_tpairs e (encode e h fuel) (map (fun kv => (GStr (fst kv), snd kv)) kvs) dep)
              dep n k A B
              (fun b p p' => exists r d, stringish g b (copy_ok m) p key r /\ den_ false v d /\ item g b m r d p')).
      + intros b b' p p' Ex (r & d & K & Dn & I). exists r, d.
        split; [eapply stringish_ext; eauto|split; auto]. eapply item_ext; eauto.
      + eapply (enc_after kf (Qkey key) (encode e h fuel v false dep)); eauto.
        * apply st_key.
        * apply Hv; auto. lia.
        * intros b p r p' K (d & Dn & I). eauto.
      + intros s1. apply IH; auto. intros k0 v0 Hk. eapply F. right. exact Hk.
      + exact D.
      + intros b p r p' (r0 & d & K & Dn & I) (ds & Dn2 & I2). exists ((key, d) :: ds).
        split; econstructor; eauto. }
    unfold enc_at in G |- *. rewrite Ek. exact G.
Qed.

Lemma fields_ok N0 vs n A : all (Pn N0) vs n A ->
  forall fuel fs base tags dep s, N0 <= fuel -> (1 <= dep)%Z ->
  vs = map (fun kt : bytes * nat => hget h (base + snd kt)) tags ->
  (forall k i, In (k, i) tags -> fits_ k /\ exists f, nth_error fs i = Some f /\ f_exported f = true) ->
  enc_at (enc_fields e h (encode e h fuel) fs base tags dep) dep n A
    (Qpairs (map (fun kt => (fst kt, hget h (base + snd kt))) tags)) s.
Proof.
  induction 1 as [|v n A vs k B Hv _ IH D]; intros fuel fs base tags dep s Hf Hd E F.
  - destruct tags; [|discriminate]. cbn [enc_fields map].
    apply enc_pure; auto. intros s0. split; [reflexivity|].
    split; [apply ext_refl|]. intros _ R. split; auto. exists []. split; constructor.
  - destruct tags as [|[key i] tags]; [discriminate|]. cbn [map snd fst] in E |- *.
    injection E as Ev E.
    destruct (F key i) as (Fk & f & Ef & Xf); [now left|].
    assert (G : enc_at (fun s => bind (encode e h fuel v false dep (encodeString e key true s))
              (enc_fields e h (encode e h fuel) fs base tags dep))
              dep (Nat.max n k) (A ++ B)
              (Qpairs ((key, v) :: map (fun kt => (fst kt, hget h (base + snd kt))) tags)) s).
    { eapply (enc_bind (fun s => encode e h fuel v false dep (encodeString e key true s))
              (enc_fields e h (encode e h fuel) fs base tags dep)
              dep n k A B
              (fun b p p' => exists r d, stringish g b (copy_ok m) p key r /\ den_ false v d /\ item g b m r d p')).
      + intros b b' p p' Ex (r & d & K & Dn & I). exists r, d.
        split; [eapply stringish_ext; eauto|split; auto]. eapply item_ext; eauto.
      + eapply (enc_after (encodeString e key true) (Qkey key) (encode e h fuel v false dep)); eauto.
        * now apply pure_skey.
        * apply st_key.
        * intros b p r p' K (d & Dn & I). eauto.
      + intros s1. apply IH; auto. intros k0 v0 Hk. apply F. now right.
      + exact D.
      + intros b p r p' (r0 & d & K & Dn & I) (ds & Dn2 & I2). exists ((key, d) :: ds).
        split; econstructor; eauto. }
    unfold enc_at in G |- *. cbn [enc_fields]. rewrite Ef, Xf, <- Ev. exact G.
Qed.

(** ** Numbers *)
Lemma pure_num t n d : (t = 32 /\ d = DInt (Z.of_N n) \/
    t = 33 /\ N.even n = false /\ d = DInt (zigzag_meaning n))%N -> (n < 18446744073709551616)%N ->
  pure (emit (tagb t :: varint n)) (Qitem (eq d)).
Proof.
  intros T L. apply pure_emit. intros s. rewrite emit_cons.
  eapply (step_seq (Qtag t) (Qvint n)); [apply st_tag|apply step_tag; lia|now apply step_vint|].
  intros b p r p' [Ht ->] Hv. exists d. split; [reflexivity|].
  destruct T as [(-> & ->)|(-> & E & ->)]; [eapply i_varint|eapply i_zigzag]; eauto.
Qed.

Lemma zigzag_neg i : (- two63 <= i < 0)%Z ->
  let n := to_uint (Z.lxor (wrap64 (Z.shiftl i 1)) (Z.shiftr i 63)) in
  N.even n = false /\ zigzag_meaning n = i /\ (n < 18446744073709551616)%N.
Proof.
  intros R n.
  assert (S63 : Z.shiftr i 63 = (-1)%Z).
  { rewrite Z.shiftr_div_pow2 by lia. unfold two63 in R.
    change (2 ^ 63)%Z with 9223372036854775808%Z. lia. }
  assert (E : n = Z.to_N (-2 * i - 1)).
  { unfold n. rewrite S63, Z.lxor_m1_r. unfold Z.lnot.
    rewrite Z.shiftl_mul_pow2 by lia. change (2 ^ 1)%Z with 2%Z.
    assert (W : exists k, wrap64 (i * 2) = (i * 2 + k * two64)%Z).
    { unfold wrap64, to_int, to_uint, two64. rewrite Z2N.id by lia. cbv zeta.
      rewrite Z.mod_mod by lia.
      destruct (_ <? _)%Z; [exists (- (i * 2 / 18446744073709551616))%Z|
                            exists (- (i * 2 / 18446744073709551616) - 1)%Z]; lia. }
    destruct W as [k ->]. unfold to_uint. f_equal.
    replace (Z.pred (- (i * 2 + k * two64))) with ((-2 * i - 1) + (- k) * two64)%Z by lia.
    rewrite Z_mod_plus_full. apply Z.mod_small. unfold two63, two64 in *. lia. }
  split; [|split].
  - rewrite E. replace (Z.to_N (-2 * i - 1)) with (2 * (Z.to_N (- i - 1)) + 1)%N by lia.
    rewrite N.even_add, N.even_mul. reflexivity.
  - unfold zigzag_meaning.
    assert (O : N.even n = false).
    { rewrite E. replace (Z.to_N (-2 * i - 1)) with (2 * (Z.to_N (- i - 1)) + 1)%N by lia.
      rewrite N.even_add, N.even_mul. reflexivity. }
    rewrite O, E. lia.
  - rewrite E. unfold two63 in R. lia.
Qed.

Lemma pure_int isInt i : int64 i ->
  pure (emit (encodeInt isInt i)) (Qitem (eq (DInt (if isInt then i else Z.of_N (to_uint i))))).
Proof.
  intros R. unfold encodeInt, int64 in *.
  destruct ((0 <=? i) && (i <=? 15))%Z eqn:C1.
  { assert (E : n2b (N.land (b2n (z2b i)) 15) = tagb (Z.to_N i)).
    { unfold tagb. f_equal. unfold z2b. rewrite b2n_n2b.
      change 15%N with (N.ones 4). rewrite N.land_ones. change (2 ^ 4)%N with 16%N. lia. }
    rewrite E. intros s. split; [reflexivity|].
    eapply step_weaken; [|apply step_tag]; [|lia|lia].
    intros b p p' [Ht ->]. eexists. split; [reflexivity|].
    replace (if isInt then i else Z.of_N (to_uint i)) with (Z.of_N (Z.to_N i)).
    - eapply i_pos; [exact Ht|lia].
    - destruct isInt; [lia|]. unfold to_uint, two64. lia. }
  destruct ((-16 <=? i) && (i <? 0) && isInt)%Z eqn:C2.
  { assert (isInt = true) as -> by (destruct isInt; auto; rewrite andb_false_r in C2; discriminate).
    assert (E : n2b (N.lor 16 (N.land (b2n (z2b i)) 15)) = tagb (Z.to_N (i + 32))).
    { assert (In i (map (fun k => (Z.of_nat k - 16)%Z) (seq 0 16))) as Hin.
      { apply in_map_iff. exists (Z.to_nat (i + 16)). split; [lia|]. apply in_seq. lia. }
      cbn in Hin. repeat (destruct Hin as [<-|Hin]; [reflexivity|]). destruct Hin. }
    rewrite E. intros s. split; [reflexivity|].
    eapply step_weaken; [|apply step_tag]; [|lia|lia].
    intros b p p' [Ht ->]. eexists. split; [reflexivity|].
    replace i with (Z.of_N (Z.to_N (i + 32)) - 32)%Z at 1 by lia.
    eapply i_neg; [exact Ht|lia]. }
  destruct (15 <? i)%Z eqn:C3.
  { apply pure_num.
    - left. split; [reflexivity|]. destruct isInt; [|reflexivity].
      f_equal. unfold to_uint, two63, two64 in *. lia.
    - unfold to_uint, two64. lia. }
  destruct isInt.
  - destruct (zigzag_neg i) as (A1 & A2 & A3); [unfold two63 in *; lia|].
    apply pure_num; auto. right. now rewrite A2.
  - apply pure_num; [|unfold to_uint, two64; lia]. left. auto.
Qed.

Lemma le_bytes_val k : forall u, (u < 256 ^ N.of_nat k)%N ->
  length (le_bytes k u) = k /\ le_val (le_bytes k u) = u.
Proof.
  induction k as [|k IH]; intros u L.
  - cbn in *. split; [reflexivity|lia].
  - cbn [le_bytes le_val length]. rewrite b2n_n2b, N.shiftr_div_pow2.
    change (2 ^ 8)%N with 256%N.
    rewrite Nat2N.inj_succ, N.pow_succ_r' in L.
    destruct (IH (u / 256)%N) as [A B]; [apply N.div_lt_upper_bound; lia|].
    rewrite A, B. split; [reflexivity|]. lia.
Qed.

Lemma pure_f32 u : (u < 2 ^ 32)%N -> pure (emit (encodeFloat u)) (Qitem (eq (DF32 u))).
Proof.
  intros L. destruct (le_bytes_val 4 u) as [A B]; [exact L|].
  apply pure_emit. intros s. unfold encodeFloat. rewrite emit_cons.
  eapply (step_seq (Qtag 34)); [apply st_tag|apply step_tag; [reflexivity|discriminate]|apply step_at|].
  intros b p r p' [Ht ->] [Ha ->]. eexists. split; [reflexivity|].
  rewrite <- B at 1. rewrite A. now apply i_float.
Qed.

Lemma pure_f64 u : (u < 2 ^ 64)%N -> pure (emit (encodeDouble u)) (Qitem (eq (DF64 u))).
Proof.
  intros L. destruct (le_bytes_val 8 u) as [A B]; [exact L|].
  apply pure_emit. intros s. unfold encodeDouble. rewrite emit_cons.
  eapply (step_seq (Qtag 35)); [apply st_tag|apply step_tag; [reflexivity|discriminate]|apply step_at|].
  intros b p r p' [Ht ->] [Ha ->]. eexists. split; [reflexivity|].
  rewrite <- B at 1. rewrite A. now apply i_double.
Qed.

Lemma pure_weaken f (Q Q' : bytes -> nat -> nat -> Prop) :
  (forall b p p', Q b p p' -> Q' b p p') -> pure f Q -> pure f Q'.
Proof. intros H P s. destruct (P s). split; auto. eapply step_weaken; eauto. Qed.

Lemma pure_item f d (P : data -> Prop) : pure f (Qitem (eq d)) -> P d -> pure f (Qitem P).
Proof. intros H K. eapply pure_weaken; [|exact H]. intros b p p' (? & <- & I). exists d. auto. Qed.

Lemma pure_lit f u str (P : data -> Prop) : pure f (Qlit u str) ->
  P (if u then DStr str else DBin str) -> pure f (Qitem P).
Proof.
  intros H K. eapply pure_weaken; [|exact H]. intros b p p' L. eexists. split; [exact K|].
  now apply i_str.
Qed.

Lemma pure_simple t d (P : data -> Prop) : (t < 128)%N -> t <> 63%N ->
  (forall b p, tag_at b p p t -> item g b m p d (S p)) -> P d -> pure (emit [tagb t]) (Qitem P).
Proof.
  intros L N H K. eapply pure_weaken; [|now apply pure_tag].
  intros b p p' [Ht ->]. exists d. auto.
Qed.

(** json.Number; a parsed float has 64 bits *)
Hypothesis Hpf : forall s u, e_parsefloat e s = Some u -> (u < 2 ^ 64)%N.

Lemma pure_json n r : fits_ n -> pure (encodeJsonNumber e n false) (Qval r (GJson n)).
Proof.
  intros F. unfold encodeJsonNumber. pose proof (parse_int_spec n) as Sp.
  destruct (parse_int n) as [z| |].
  - destruct Sp as [D I]. eapply pure_item; [now apply (pure_int true)|]. now constructor.
  - destruct (e_parsefloat e n) as [u|] eqn:Ef.
    + eapply pure_item; [apply pure_f64; eauto|]. now constructor.
    + eapply pure_lit; [now apply pure_sval|]. apply dn_json_str. intros z D. now apply Sp in D.
  - eapply pure_lit; [now apply pure_sval|]. now apply dn_json_str.
Qed.

(** ** Containers *)
Lemma pure_ref r : pure (open_ref e r) (fun b p p' => if e_perl e && negb r then Qtag 40 b p p' else p' = p).
Proof.
  intros s. unfold open_ref. destruct (e_perl e && negb r).
  - destruct (pure_tag 40 ltac:(reflexivity) ltac:(discriminate) s). auto.
  - split; [reflexivity|]. split; [apply ext_refl|]. auto.
Qed.

(** an opening tag and its count, after an optional reference *)
Definition Qopen (ref : bool) (t n : N) (b : bytes) (p p' : nat) : Prop :=
  exists q, (if ref then tag_at b p p 40 /\ q = S p else q = p) /\
            tag_at b q q t /\ vint b (S q) n p'.

Lemma st_open ref t n : stable (Qopen ref t n).
Proof.
  intros b b' p p' E (q & H & Ht & Hv). exists q. split; [|split].
  - destruct ref; auto. destruct H. split; auto. eapply (tag_ext g); eauto.
  - eapply (tag_ext g); eauto.
  - eapply (vint_ext g); eauto.
Qed.

Lemma pure_tagn t n : (t < 128)%N -> t <> 63%N -> (n < 18446744073709551616)%N ->
  pure (emit (tagb t :: varint n)) (fun b p p' => tag_at b p p t /\ vint b (S p) n p').
Proof.
  intros L N Ln. apply pure_emit. intros s. rewrite emit_cons.
  eapply (step_seq (Qtag t) (Qvint n)); [apply st_tag|now apply step_tag|now apply step_vint|].
  intros b p r p' [Ht ->] Hv. auto.
Qed.

Lemma pure_open r t n : (t < 128)%N -> t <> 63%N -> (n < 18446744073709551616)%N ->
  pure (fun s => emit (tagb t :: varint n) (open_ref e r s)) (Qopen (e_perl e && negb r) t n).
Proof.
  intros L N Ln. eapply pure_seq; [|apply pure_ref|now apply pure_tagn|].
  - intros b b' p p' E. destruct (e_perl e && negb r); auto. now apply st_tag.
  - intros b p q p' H [Ht Hv]. exists q. destruct (e_perl e && negb r); auto.
Qed.

Lemma item_aref b p p' r q d : (if e_perl e && negb r then tag_at b p p 40 /\ q = S p else q = p) ->
  item g b m q d p' -> item g b m p (aref (e_perl e) r d) p'.
Proof.
  unfold aref. destruct (e_perl e && negb r).
  - intros [Ht ->] I. eapply i_refn; eauto.
  - intros -> I. exact I.
Qed.

Lemma dens_length vs ds : dens_ vs ds -> length ds = length vs.
Proof. induction 1; cbn; congruence. Qed.
Lemma denm_length vs ds : denm_ vs ds -> length ds = length vs.
Proof. induction 1; cbn; congruence. Qed.

Lemma array_ok N0 vs n A base k : all (Pn N0) vs n A -> vs = cells h base k ->
  (N.of_nat k <= g_max g)%N ->
  forall fuel r dep s, N0 <= fuel -> (1 <= dep)%Z ->
  enc_at (encodeArray e h (encode e h fuel) base k r dep) dep (S n) A
    (Qitem (fun d => exists ds, dens_ vs ds /\ d = aref (e_perl e) r (DArr ds))) s.
Proof.
  intros H E L fuel r dep s Hf Hd. unfold encodeArray.
  assert (Lk : k = length vs) by (rewrite E; unfold cells; now rewrite map_length, seq_length).
  apply (enc_level (fun s => enc_elems h (encode e h fuel) k base (dep - 1)
           (emit (tagb typeARRAY :: varint (N.of_nat k)) (open_ref e r s)))); auto.
  intros Hd1.
  eapply (enc_after (fun s => emit (tagb typeARRAY :: varint (N.of_nat k)) (open_ref e r s))
            _ (enc_elems h (encode e h fuel) k base (dep - 1))).
  - apply pure_open; [reflexivity|discriminate|lia].
  - apply st_open.
  - rewrite Lk. eapply elems_ok; eauto. now rewrite <- Lk.
  - intros b p q p' (q' & Ho & Ht & Hv) (ds & Dn & I).
    exists (aref (e_perl e) r (DArr ds)). split; [eauto|].
    eapply item_aref; [exact Ho|]. eapply i_array; eauto.
    rewrite (dens_length _ _ Dn). now rewrite Lk.
Qed.

(** a map iteration starts *)
Definition tick : (bytes -> nat -> nat -> Prop) := fun _ p p' => p' = p.
Lemma pure_tick : pure next_tick tick.
Proof.
  intros s. split; [reflexivity|]. split; [apply ext_refl|]. intros _ R. split; [exact R|reflexivity].
Qed.

Lemma hash_ok {K} (kvs : list K) r (fuel : nat) dep n A s
  (loop : list K -> Z -> estate -> res estate) (Q : data -> Prop) :
  (ulen kvs <= g_max g)%N -> (1 <= dep)%Z ->
  (forall t s1, (1 <= dep - 1)%Z ->
     exists Q' A', (forall a, In a A' <-> In a A) /\
     enc_at (loop (e_shuffle e t K kvs) (dep - 1)%Z) (dep - 1) n A' Q' s1 /\
     forall b p p', Q' b p p' -> exists ds, length ds = length kvs /\ pairs g b m p ds p' /\
        Q (aref (e_perl e) r (DHash ds))) ->
  enc_at (fun s => if (dep - 1 <=? 0)%Z then Err EMaxRecursion else
            let s := emit (tagb typeHASH :: varint (ulen kvs)) (open_ref e r s) in
            loop (e_shuffle e (s_tick s) K kvs) (dep - 1)%Z (next_tick s)) dep (S n) A (Qitem Q) s.
Proof.
  intros L Hd H.
  apply (enc_level (fun s => let s := emit (tagb typeHASH :: varint (ulen kvs)) (open_ref e r s) in
            loop (e_shuffle e (s_tick s) K kvs) (dep - 1)%Z (next_tick s))); auto.
  intros Hd1.
  set (f := fun s => emit (tagb typeHASH :: varint (ulen kvs)) (open_ref e r s)).
  cbn zeta.
  destruct (H (s_tick (f s)) (next_tick (f s)) Hd1) as (Q' & A' & EA & HE & HQ).
  assert (G : enc_at (fun s => loop (e_shuffle e (s_tick (f s)) K kvs) (dep - 1)%Z (next_tick (f s)))
     (dep - 1) n A (Qitem Q) s).
  { assert (Pf : pure (fun s => next_tick (f s)) (Qopen (e_perl e && negb r) 42 (ulen kvs))).
    { eapply pure_seq; [apply st_open|apply pure_open; [reflexivity|discriminate|lia]|apply pure_tick|].
      intros b p q p' Ho ->. exact Ho. }
    pose proof (enc_after (fun s => next_tick (f s)) _ (loop (e_shuffle e (s_tick (f s)) K kvs) (dep - 1)%Z)
       (dep - 1) n A' Q' (Qitem Q) s Pf (st_open _ _ _) HE) as G.
    apply (enc_addrs _ _ _ A' A); [exact EA|].
    unfold enc_at in G |- *. apply G.
    intros b p q p' (q' & Ho & Ht & Hv) I. destruct (HQ _ _ _ I) as (ds & Ld & I' & HQd).
    eexists. split; [exact HQd|]. eapply item_aref; [exact Ho|]. eapply i_hash; eauto.
    unfold ulen. now rewrite Ld. }
  exact G.
Qed.

Lemma getPointer_spec i l v : i && is_text v = false ->
  exists o, getPointer e (negb i) l v = Ok o /\
            own_addr (e_layout e) l v = match o with Some a => [a] | None => [] end.
Proof.
  intros H. destruct v; cbn [getPointer own_addr is_text] in *; eauto;
    try (rewrite andb_true_r in H; subst i; cbn [negb]; eauto; fail).
  match goal with |- context [if ?b then _ else _] => destruct b end; eauto.
Qed.

Lemma pget_cons a o T x : pget ((a, o) :: T) x = if addr_eqb a x then Some o else pget T x.
Proof. reflexivity. Qed.

Lemma addr_eqb_refl a : addr_eqb a a = true.
Proof. now apply addr_eqb_true. Qed.
Lemma addr_eqb_neq a b : a <> b -> addr_eqb a b = false.
Proof. intros N. destruct (addr_eqb a b) eqn:E; auto. apply addr_eqb_true in E. easy. Qed.

Lemma ptr_ok N0 i l n A : i || negb (perl_struct (hget h l)) = true ->
  i && is_text (hget h l) = false -> disjoint [at_cell (e_layout e) l] A -> Pn N0 (hget h l) n A ->
  forall fuel r dep s, N0 <= fuel -> (1 <= dep)%Z ->
  enc_at (encodePointer e (encode e h fuel) i l (hget h l) dep) dep (S n)
    (at_cell (e_layout e) l :: own_addr (e_layout e) l (hget h l) ++ A) (Qval r (GPtr i l)) s.
Proof.
  intros Hs Ht HD Hv fuel r dep s Hf Hd.
  destruct (getPointer_spec i l (hget h l) Ht) as (o & Eg & Eo).
  unfold encodePointer. set (v := hget h l) in *.
  apply enc_level; auto. intros Hd1.
  assert (Sp : match v with GRegexpV _ _ | GUndefV _ | GObjV _ _ | GWeakV _ => negb i | _ => false end = false).
  { destruct v; cbn in Hs |- *; auto; destruct i; auto. }
  rewrite Sp, Eg. cbn [bind].
  intros T.
  assert (T1 : pget (s_ptr s) (at_cell (e_layout e) l) = None) by (apply T; now left).
  assert (T2 : match o with Some a => pget (s_ptr s) a | None => None end = None).
  { destruct o as [a|]; auto. apply T. rewrite Eo. right. now left. }
  rewrite T1, T2.
  set (s1 := mkEState _ _ _ _).
  assert (K : enc_at (encode e h fuel v true (dep - 1)) (dep - 1) n A (Qval true v) s1) by (apply Hv; auto).
  assert (T3 : tdisj (s_ptr s1) A).
  { intros a Ha. cbn [s1 s_ptr]. rewrite pget_cons.
    destruct (addr_eqb (at_cell (e_layout e) l) a) eqn:E.
    - apply addr_eqb_true in E as <-. destruct (HD (at_cell (e_layout e) l)); [now left|auto].
    - cbn. apply T. right. apply in_app_iff. auto. }
  specialize (K T3).
  destruct (Z.of_nat n <? dep - 1)%Z; [|now rewrite K].
  destruct K as (s2 & R2 & S2 & W2). rewrite R2. cbn [bind].
  assert (W : step (Qval r (GPtr i l)) s s2).
  { eapply (step_seq (Qtag 40)); [apply st_tag| |exact W2|].
    - destruct (pure_tag 40 ltac:(reflexivity) ltac:(discriminate) s) as [_ [E P]].
      split; [exact E|]. intros Sm R. destruct (P Sm R) as [R' Q']. split; [|exact Q'].
      exact R'.
    - intros b p q p' [Hq ->] (d & Dn & I). exists (DRef d). split; [now apply dn_ptr|].
      eapply i_refn; eauto. }
  assert (Sub : forall a, pget (s_ptr s) a = None ->
     ~ In a (at_cell (e_layout e) l :: own_addr (e_layout e) l v ++ A) -> pget (s_ptr s2) a = None).
  { intros a Pa Na. apply S2.
    - cbn [s1 s_ptr]. rewrite pget_cons. rewrite addr_eqb_neq; auto. intros <-. apply Na. now left.
    - intros Ha. apply Na. right. apply in_app_iff. auto. }
  destruct o as [a|].
  - eexists. split; [reflexivity|]. split; [|exact W].
    intros x Px Nx. cbn [s_ptr]. rewrite pget_cons, addr_eqb_neq; [now apply Sub|].
    intros ->. apply Nx. rewrite Eo. right. now left.
  - exists s2. split; [reflexivity|]. split; [exact Sub|exact W].
Qed.

Lemma perlptr_ok N0 v w n A r : Pn N0 v n A -> (forall d, den_ false v d -> den_ r w d) ->
  forall fuel dep s, N0 <= fuel -> (1 <= dep)%Z ->
  enc_at (encodePerlPointer (encode e h fuel) v dep) dep (S n) A (Qval r w) s.
Proof.
  intros Hv Hd fuel dep s Hf Hdep. unfold encodePerlPointer. apply enc_level; auto.
  intros Hd1. eapply enc_weaken; [|apply Hv; auto]. intros b p p' (d & Dn & I). exists d. auto.
Qed.

Lemma leaf v (f : bool -> estate -> estate) :
  (forall fuel r dep s, encode e h (S fuel) v r dep s = Ok (f r s)) ->
  (forall r, pure (f r) (Qval r v)) -> Pn 1 v 0 [].
Proof.
  intros E P fuel r dep s Hf Hd. destruct fuel as [|fuel]; [lia|].
  pose proof (enc_pure (f r) (Qval r v) dep s (P r) Hd) as K.
  unfold enc_at in *. rewrite E. exact K.
Qed.

Lemma obj_ok N0 cls v n A r : fits_ cls -> Pn N0 v n A ->
  forall fuel dep s, N0 <= fuel -> (1 <= dep)%Z ->
  enc_at (fun s => encode e h fuel v false dep (encodeBytes e cls true (emit [tagb typeOBJECT] s)))
    dep n A (Qval r (GObjV cls v)) s.
Proof.
  intros F Hv fuel dep s Hf Hd.
  eapply (enc_after (fun s => encodeBytes e cls true (emit [tagb typeOBJECT] s))
    (fun b p p' => tag_at b p p 44 /\ stringish g b (copy_ok m) (S p) cls p')
    (encode e h fuel v false dep)).
  - eapply (pure_seq (emit [tagb typeOBJECT]) (encodeBytes e cls true) (Qtag 44) (Qkey cls)).
    + apply st_tag.
    + now apply (pure_tag 44).
    + now apply pure_bkey.
    + intros b p q p' [Ht ->] Hk. auto.
  - intros b b' p p' E [Ht Hk]. split; [eapply (tag_ext g)|eapply stringish_ext]; eauto.
  - apply Hv; auto.
  - intros b p q p' [Ht Hk] (d & Dn & I). exists (DObj cls d). split; [now constructor|].
    eapply i_object; eauto.
Qed.

Lemma hash_body N0 n A (kvs kvs' : list (bytes * gval)) : Permutation kvs kvs' ->
  all (Pn N0) (map snd kvs) n A ->
  exists A', (forall a, In a A' <-> In a A) /\ all (Pn N0) (map snd kvs') n A'.
Proof.
  intros P H. destruct (all_perm (Pn N0) _ _ (Permutation_map snd P) _ _ H) as (A' & E & H').
  exists A'. split; auto. intros a. symmetry. apply E.
Qed.

(** OBJECT, class, and a hash *)
Lemma struct_ok {K} name (kvs : list K) r (fuel : nat) dep n A s
  (loop : list K -> Z -> estate -> res estate) (Q : data -> Prop) :
  fits_ name -> (ulen kvs <= g_max g)%N -> (1 <= dep)%Z ->
  (forall t s1, (1 <= dep - 1)%Z ->
     exists Q' A', (forall a, In a A' <-> In a A) /\
     enc_at (loop (e_shuffle e t K kvs) (dep - 1)%Z) (dep - 1) n A' Q' s1 /\
     forall b p p', Q' b p p' -> exists ds, length ds = length kvs /\ pairs g b m p ds p' /\
        Q (DObj name (aref (e_perl e) r (DHash ds)))) -> r = false ->
  enc_at (fun s => if (dep - 1 <=? 0)%Z then Err EMaxRecursion else
            let s := encodeBytes e name true (emit [tagb typeOBJECT] s) in
            let s := if e_perl e then emit [tagb typeREFN] s else s in
            let s := emit (tagb typeHASH :: varint (ulen kvs)) s in
            loop (e_shuffle e (s_tick s) K kvs) (dep - 1)%Z (next_tick s)) dep (S n) A (Qitem Q) s.
Proof.
  intros F L Hd H ->.
  set (f := fun s => encodeBytes e name true (emit [tagb typeOBJECT] s)).
  assert (Pf : pure f (fun b p p' => tag_at b p p 44 /\ stringish g b (copy_ok m) (S p) name p')).
  { eapply (pure_seq (emit [tagb typeOBJECT]) (encodeBytes e name true) (Qtag 44) (Qkey name)).
    + apply st_tag.
    + now apply (pure_tag 44).
    + now apply pure_bkey.
    + intros b p q p' [Ht ->] Hk. auto. }
  assert (HE := hash_ok kvs false fuel dep n A (f s) loop
    (fun d => Q (DObj name d)) L Hd H).
  pose proof (enc_after f _ (fun s => if (dep - 1 <=? 0)%Z then Err EMaxRecursion else
            let s := emit (tagb typeHASH :: varint (ulen kvs)) (open_ref e false s) in
            loop (e_shuffle e (s_tick s) K kvs) (dep - 1)%Z (next_tick s))
     dep (S n) A (Qitem (fun d => Q (DObj name d))) (Qitem Q) s Pf) as G.
  cbn beta in G. unfold f in G. unfold open_ref in G. cbn [negb] in G. rewrite andb_true_r in G.
  cbn zeta in G |- *. apply G.
  - intros b b' p p' E [Ht Hk]. split; [eapply (tag_ext g)|eapply stringish_ext]; eauto.
  - unfold f, open_ref in HE. cbn [negb] in HE. rewrite andb_true_r in HE. cbn zeta in HE. exact HE.
  - intros b p q p' [Ht Hk] (d & HQ & I). exists (DObj name d). split; auto. eapply i_object; eauto.
Qed.

Ltac leafy f := exists 1; eapply (leaf _ f); [try reflexivity|intros r].

Theorem encoder_appends_items :
  (forall v n A, tree_ v n A -> Penc v n A) /\ (forall vs n A, trees_ vs n A -> all Penc vs n A).
Proof.
  apply tree_both_ind.
  - (* nil *) leafy (fun (_ : bool) => emit [tagb typeUNDEF]).
    eapply (pure_simple 37 DUndef); [reflexivity|discriminate|now constructor|constructor].
  - (* bool *) intros b. leafy (fun (_ : bool) => emit [tagb (if b then typeTRUE else typeFALSE)]).
    destruct b.
    + eapply (pure_simple 59 (DBool true)); [reflexivity|discriminate|now constructor|constructor].
    + eapply (pure_simple 58 (DBool false)); [reflexivity|discriminate|now constructor|constructor].
  - (* int *) intros k z K. leafy (fun (_ : bool) => emit (encodeInt (ikind_signed k) (to_int (to_uint z)))).
    eapply pure_item; [apply pure_int|].
    + unfold int64. apply to_int_range.
    + assert (R : (if ikind_signed k then - two63 <= z < two63 else 0 <= z < two64)%Z).
      { unfold ikind_in in K. destruct k; cbn in K |- *; unfold two63, two64; lia. }
      destruct (ikind_signed k).
      * rewrite to_int_to_uint by auto. constructor.
      * rewrite to_uint_to_int by (unfold to_uint, two64; lia).
        replace (Z.of_N (to_uint z)) with z; [constructor|]. unfold to_uint, two64 in *. lia.
  - (* named int *) intros k z K Sg Nn.
    leafy (fun (_ : bool) => emit (encodeInt (match k with KInt => true | _ => false end) z)).
    { intros. cbn [encode encode_body]. now rewrite Sg. }
    assert (R : (- two63 <= z < two63)%Z).
    { unfold ikind_in in K. destruct k; cbn in K, Sg; try discriminate; unfold two63; lia. }
    eapply pure_item; [apply pure_int; exact R|].
    replace (if match k with KInt => true | _ => false end then z else Z.of_N (to_uint z)) with z;
      [constructor|].
    destruct Nn as [->|Nn]; auto. destruct k; auto; unfold to_uint, two63, two64 in *; lia.
  - (* float32 *) intros u L. leafy (fun (_ : bool) => emit (encodeFloat u)).
    eapply pure_item; [now apply pure_f32|constructor].
  - (* float64 *) intros u L. leafy (fun (_ : bool) => emit (encodeDouble u)).
    eapply pure_item; [now apply pure_f64|constructor].
  - (* string *) intros str F. leafy (fun (_ : bool) => encodeString e str false).
    eapply pure_lit; [now apply pure_sval|constructor].
  - (* json.Number *) intros str F. leafy (fun (_ : bool) => encodeJsonNumber e str false).
    now apply pure_json.
  - (* bytes *) intros w F. leafy (fun (_ : bool) => encodeBytes e (hview h w) false).
    eapply pure_lit; [now apply pure_bval|constructor].
  - (* []interface{} *) intros base n dep A L _ IH. destruct (all_fuel _ _ _ IH) as [N0 H].
    exists (S N0). intros fuel r d s Hf Hd. destruct fuel as [|fuel]; [lia|].
    eapply enc_weaken; [|eapply (array_ok N0 _ dep A base n H eq_refl L fuel r d s); lia].
    intros b p p' (x & (ds & Dn & ->) & I). eexists. split; [|exact I]. now constructor.
  - (* typed slice *) intros a base n dep A L _ IH. destruct (all_fuel _ _ _ IH) as [N0 H].
    exists (S N0). intros fuel r d s Hf Hd. destruct fuel as [|fuel]; [lia|].
    eapply enc_weaken; [|eapply (array_ok N0 _ dep A base n H eq_refl L fuel r d s); lia].
    intros b p p' (x & (ds & Dn & ->) & I). eexists. split; [|exact I]. now constructor.
  - (* map *) intros l dep A Nd Fl Fk _ IH. destruct (all_fuel _ _ _ IH) as [N0 H].
    exists (S N0). intros fuel r d s Hf Hd. destruct fuel as [|fuel]; [lia|].
    apply (hash_ok (hmap h l) r 0 d dep A s (enc_pairs e (encode e h fuel)) (den_ r (GMap l)));
      [exact Fl|lia|].
    intros t s1 Hd1. pose proof (Hshuf t _ (hmap h l)) as P.
    destruct (hash_body _ _ _ _ _ P H) as (A' & EA & H').
    eexists _, A'. split; [exact EA|]. split.
    + eapply (pairs_ok N0 _ dep A' H'); [lia|lia|reflexivity|].
      intros k v Hin. eapply Fk. eapply Permutation_in; [apply Permutation_sym; exact P|exact Hin].
    + intros b p p' (ds & Dn & I). exists ds.
      split; [rewrite (denm_length _ _ Dn); symmetry; now apply Permutation_length|].
      split; [exact I|]. eapply dn_map; [|exact P|exact Dn].
      eapply Permutation_NoDup; [apply Permutation_map; exact P|exact Nd].
  - (* typed map *) intros l mm dep A Em Nd Fl Fk _ IH. destruct (all_fuel _ _ _ IH) as [N0 H].
    exists (S (Nat.max 1 N0)). intros fuel r d s Hf Hd. destruct fuel as [|fuel]; [lia|].
    apply (hash_ok (htmap h l) r 0 d dep A s (enc_tpairs e (encode e h fuel)) (den_ r (GTMap l)));
      [rewrite Em; unfold ulen; rewrite map_length; exact Fl|lia|].
    intros t s1 Hd1. pose proof (Hshuf t _ (htmap h l)) as P.
    rewrite Em in P at 1. apply Permutation_sym, Permutation_map_inv in P as (m' & Em' & P).
    destruct (hash_body _ _ _ _ _ P H) as (A' & EA & H').
    eexists _, A'. split; [exact EA|]. split.
    + rewrite Em'. eapply (tpairs_ok N0 _ dep A' H'); [lia|lia|reflexivity|].
      intros k v Hin. eapply Fk. eapply Permutation_in; [apply Permutation_sym; exact P|exact Hin].
    + intros b p p' (ds & Dn & I). exists ds.
      split; [rewrite (denm_length _ _ Dn), Em, map_length; symmetry; now apply Permutation_length|].
      split; [exact I|].
      eapply dn_tmap; [eapply Permutation_NoDup; [apply Permutation_map; exact P|exact Nd]| |exact Dn]. rewrite Em. now apply Permutation_map.
  - (* pointer *) intros i l dep A Hs Ht HD _ [N0 H]. exists (S N0).
    intros fuel r d s Hf Hd. destruct fuel as [|fuel]; [lia|].
    apply (ptr_ok N0 i l dep A Hs Ht HD H fuel r d s); lia.
  - (* pointer to a Perl struct *) intros l dep A Hs _ [N0 H]. exists (S N0).
    intros fuel r d s Hf Hd. destruct fuel as [|fuel]; [lia|].
    assert (K : enc_at (encodePerlPointer (encode e h fuel) (hget h l) d) d (S dep) A (Qval r (GPtr false l)) s).
    { eapply perlptr_ok; [exact H| |lia|lia]. intros x Dn. now apply dn_ptr_perl. }
    cbn [encode encode_body]. unfold encodePointer, encodePerlPointer in *.
    destruct (hget h l); try discriminate; exact K.
  - (* nil pointer *) exists 1. intros fuel r d s Hf Hd. destruct fuel as [|fuel]; [lia|].
    apply (enc_level (fun s => Ok (emit [tagb typeREFN; tagb typeUNDEF] s))); auto.
    intros Hd1. apply enc_pure; auto.
    apply pure_emit. intros s0. rewrite emit_cons.
    eapply (step_seq (Qtag 40) (Qtag 37)); [apply st_tag|now apply step_tag|now apply step_tag|].
    intros b p q p' [H1 ->] [H2 ->]. exists (DRef DUndef). split; [constructor|].
    eapply i_refn; eauto. now constructor.
  - (* PerlUndef *) intros c. leafy (fun (_ : bool) => emit [tagb (if c then typeCANONICAL_UNDEF else typeUNDEF)]).
    destruct c.
    + eapply (pure_simple 57 DCanon); [reflexivity|discriminate|now constructor|apply (dn_undef _ _ _ _ r true)].
    + eapply (pure_simple 37 DUndef); [reflexivity|discriminate|now constructor|apply (dn_undef _ _ _ _ r false)].
  - (* the canonical undef *) exists 2. intros fuel r d s Hf Hd. destruct fuel as [|fuel]; [lia|].
    assert (H : Pn 1 (GUndefV true) 0 []).
    { eapply (leaf _ (fun (_ : bool) => emit [tagb typeCANONICAL_UNDEF])); [reflexivity|intros r'].
      eapply (pure_simple 57 DCanon); [reflexivity|discriminate|now constructor|apply (dn_undef _ _ _ _ r' true)]. }
    eapply (perlptr_ok 1 (GUndefV true)); [exact H| |lia|lia].
    intros x Dn. inversion Dn; subst. constructor.
  - (* PerlObject *) intros cls v dep A F _ [N0 H]. exists (S N0).
    intros fuel r d s Hf Hd. destruct fuel as [|fuel]; [lia|].
    apply (obj_ok N0); auto; lia.
  - (* *PerlObject *) intros cls l dep A F _ [N0 H]. exists (S (S N0)).
    intros fuel r d s Hf Hd. destruct fuel as [|fuel]; [lia|].
    assert (K : Pn (S N0) (GObjV cls (hget h l)) dep A).
    { intros fuel' r' d' s' Hf' Hd'. destruct fuel' as [|fuel']; [lia|]. apply (obj_ok N0); auto; lia. }
    eapply (perlptr_ok (S N0)); [exact K| |lia|lia].
    intros x Dn. inversion Dn; subst. now constructor.
  - (* PerlWeakRef *) intros v dep A _ [N0 H]. exists (S N0).
    intros fuel r d s Hf Hd. destruct fuel as [|fuel]; [lia|].
    eapply (enc_after (emit [tagb typeWEAKEN]) (Qtag 48) (encode e h fuel v false d)).
    + now apply (pure_tag 48).
    + apply st_tag.
    + apply H; lia.
    + intros b p q p' [Ht ->] (x & Dn & I). exists (DWeak x). split; [now constructor|].
      eapply i_weaken; eauto.
  - (* *PerlWeakRef *) intros l dep A _ [N0 H]. exists (S (S N0)).
    intros fuel r d s Hf Hd. destruct fuel as [|fuel]; [lia|].
    assert (K : Pn (S N0) (GWeakV (hget h l)) dep A).
    { intros fuel' r' d' s' Hf' Hd'. destruct fuel' as [|fuel']; [lia|].
      eapply (enc_after (emit [tagb typeWEAKEN]) (Qtag 48) (encode e h fuel' (hget h l) false d')).
      + now apply (pure_tag 48).
      + apply st_tag.
      + apply H; lia.
      + intros b p q p' [Ht ->] (x & Dn & I). exists (DWeak x). split; [now constructor|].
        eapply i_weaken; eauto. }
    eapply (perlptr_ok (S N0)); [exact K| |lia|lia].
    intros x Dn. inversion Dn; subst. now constructor.
  - (* regexp *) intros p mo F1 F2.
    leafy (fun (_ : bool) s => encodeBytes e (hview h mo) false (encodeBytes e (hview h p) false (emit [tagb typeREGEXP] s))).
    eapply (pure_seq (fun s => encodeBytes e (hview h p) false (emit [tagb typeREGEXP] s)) (encodeBytes e (hview h mo) false)
      (fun b x x' => tag_at b x x 49 /\ strlit g b (S x) false (hview h p) x') (Qlit false (hview h mo))).
    + intros b b' x x' E [Ht Hk]. split; [eapply (tag_ext g)|eapply strlit_ext]; eauto.
    + eapply (pure_seq (emit [tagb typeREGEXP]) (encodeBytes e (hview h p) false) (Qtag 49) (Qlit false (hview h p))).
      * apply st_tag.
      * now apply (pure_tag 49).
      * now apply pure_bval.
      * intros b x q x' [Ht ->] Hk. auto.
    + now apply pure_bval.
    + intros b x q x' [Ht Hp] Hm. eexists. split; [constructor|].
      eapply i_regexp; eauto; eapply str_lit; eauto.
  - (* PerlFreeze struct *) intros cls w F1 F2 L. exists 2.
    intros fuel r d s Hf Hd. destruct fuel as [|fuel]; [lia|].
    set (kvs := [(name_Class, GStr cls); (name_Data, GBytes w)]).
    assert (H : all (Pn 1) (map snd kvs) 0 []).
    { change (all (Pn 1) [GStr cls; GBytes w] (Nat.max 0 (Nat.max 0 0)) ([] ++ [] ++ [])).
      repeat (apply all_cons; [| |intros ? []]); [| |constructor].
      - eapply (leaf _ (fun (_ : bool) => encodeString e cls false)); [reflexivity|intros r'].
        eapply pure_lit; [now apply pure_sval|constructor].
      - eapply (leaf _ (fun (_ : bool) => encodeBytes e (hview h w) false)); [reflexivity|intros r'].
        eapply pure_lit; [now apply pure_bval|constructor]. }
    apply (struct_ok name_PerlFreeze kvs false 0 d 0 [] s (enc_pairs e (encode e h fuel))
             (den_ r (GFreezeV cls w))); [|cbn; lia|lia| |reflexivity].
    { unfold fits. cbn. lia. }
    intros t s1 Hd1. pose proof (Hshuf t _ kvs) as P.
    destruct (hash_body _ _ _ _ _ P H) as (A' & EA & H').
    eexists _, A'. split; [exact EA|]. split.
    + eapply (pairs_ok 1 _ 0 A' H'); [lia|lia|reflexivity|].
      intros k v Hin. apply (Permutation_in _ (Permutation_sym P)) in Hin.
      destruct Hin as [[= <- <-]|[[= <- <-]|[]]]; unfold fits; cbn; lia.
    + intros b p p' (ds & Dn & I). exists ds.
      split; [rewrite (denm_length _ _ Dn); symmetry; now apply Permutation_length|].
      split; [exact I|]. eapply dn_freezev; eauto.
  - (* BinaryMarshaler *) intros name by_ v Nf F1 F2 L1 Fz.
    leafy (fun (_ : bool) s => encodeBytes e by_ false
      (emit (tagb typeREFN :: tagb typeARRAY :: varint 1) (encodeString e name true (emit [tagb typeOBJECT_FREEZE] s)))).
    { intros. cbn [encode encode_body]. now rewrite Nf. }
    eapply (pure_seq (fun s => emit (tagb typeREFN :: tagb typeARRAY :: varint 1) (encodeString e name true (emit [tagb typeOBJECT_FREEZE] s)))
      (encodeBytes e by_ false)
      (fun b x x' => exists q, tag_at b x x 50 /\ stringish g b (copy_ok m) (S x) name q /\
          at_ b q [x28;x2b] /\ vint b (q + 2) 1 x') (Qlit false by_)).
    + intros b b' x x' E (q & H1 & H2 & H3 & H4). exists q.
      split; [eapply (tag_ext g); eauto|]. split; [eapply stringish_ext; eauto|].
      split; [eapply (at_ext g); eauto|eapply (vint_ext g); eauto].
    + eapply (pure_seq (fun s => encodeString e name true (emit [tagb typeOBJECT_FREEZE] s))
        (emit (tagb typeREFN :: tagb typeARRAY :: varint 1))
        (fun b x x' => tag_at b x x 50 /\ stringish g b (copy_ok m) (S x) name x')
        (fun b x x' => at_ b x [x28;x2b] /\ vint b (x + 2) 1 x')).
      * intros b b' x x' E [Ht Hk]. split; [eapply (tag_ext g)|eapply stringish_ext]; eauto.
      * eapply (pure_seq (emit [tagb typeOBJECT_FREEZE]) (encodeString e name true) (Qtag 50) (Qkey name)).
        -- apply st_tag.
        -- now apply (pure_tag 50).
        -- now apply pure_skey.
        -- intros b x q x' [Ht ->] Hk. auto.
      * apply pure_emit. intros s.
        change (tagb typeREFN :: tagb typeARRAY :: varint 1) with ([x28; x2b] ++ varint 1).
        rewrite emit_app. eapply (step_seq (Qat [x28;x2b]) (Qvint 1)); [apply st_at|apply step_at|now apply step_vint|].
        intros b x q x' [Ha ->] Hv. auto.
      * intros b x q x' [H1 H2] [H3 H4]. exists q. auto.
    + now apply pure_bval.
    + intros b x q x' (q' & H1 & H2 & H3 & H4) H5. eexists. split; [now constructor|].
      eapply i_freeze; eauto. apply (i_str g b m q false by_ x' H5).
  - (* BinaryMarshaler without freezing *) intros name o v dep A Nf _ [N0 H]. exists (S N0).
    intros fuel r d s Hf Hd. destruct fuel as [|fuel]; [lia|].
    cbn [encode encode_body]. unfold enc_at. rewrite Nf.
    assert (K : enc_at (encode e h fuel v r d) d dep A (Qval r v) s) by (apply H; lia).
    eapply enc_weaken in K; [exact K|].
    intros b p p' (x & Dn & I). exists x. split; auto. now apply dn_user_plain.
  - (* struct *) intros name fs base tags dep A F1 Tb F2 Fk _ IH. destruct (all_fuel _ _ _ IH) as [N0 H].
    exists (S N0). intros fuel r d s Hf Hd. destruct fuel as [|fuel]; [lia|].
    pose proof (field_table_perm _ _ _ Tb (tags_of_table fs)) as PT.
    apply (struct_ok name (tags_of fs) false 0 d dep A s (enc_fields e h (encode e h fuel) fs base)
             (den_ r (GStruct name fs base))); [exact F1| |lia| |reflexivity].
    { unfold ulen. rewrite <- (Permutation_length PT). exact F2. }
    intros t s1 Hd1. pose proof (Hshuf t _ (tags_of fs)) as P.
    set (tg := e_shuffle e t (bytes * nat) (tags_of fs)) in *.
    assert (PP : Permutation tags tg) by (eapply Permutation_trans; eauto).
    destruct (all_perm (Pn N0) _ _ (Permutation_map (fun kt : bytes * nat => hget h (base + snd kt)) PP) _ _ H)
      as (A' & EA & H').
    eexists _, A'. split; [intros a; symmetry; apply EA|]. split.
    + eapply (fields_ok N0 _ dep A' H'); [lia|lia|reflexivity|].
      intros k i Hin. apply Fk. eapply Permutation_in; [apply Permutation_sym; exact PP|exact Hin].
    + intros b p p' (ds & Dn & I). exists ds.
      split; [rewrite (denm_length _ _ Dn), map_length; symmetry; now apply Permutation_length|].
      split; [exact I|]. eapply dn_struct; [|exact Dn].
      destruct Tb as [Nd Tb]. split.
      * eapply Permutation_NoDup; [apply Permutation_map; exact PP|exact Nd].
      * intros k i. rewrite <- Tb. split; intros Hin; (eapply Permutation_in; [|exact Hin]); auto using Permutation_sym.
  - constructor.
  - intros v n A vs k B _ H1 _ H2 D. constructor; auto.
Qed.
End ES.
