(** What the merging loop does with the items of a document. *)
From Verif Require Import Base BaseFacts SpecVarint Varint VarintFacts Tags Codecs Encode Compress Header
  Spec GrammarFacts GoSlice RedocFacts Merge.
From Coq Require Import ZifyBool ZifyNat ZifyN.
Ltac Zify.zify_post_hook ::= Z.div_mod_to_equations.

(** * The grammar *)
Lemma vint_ends by_ p n q : vint by_ p n q -> p < q <= length by_.
Proof.
  intros (l & A & G & _ & _ & ->). apply at_iff in A as [A _]. apply vgroups_nonempty in G. lia.
Qed.
Lemma tag_ends by_ p q t : tag_at by_ p q t -> p <= q < length by_.
Proof. intros (L & _ & b & Hb & _). split; auto. eapply nth_error_Some_lt; eauto. Qed.
Lemma strlit_ends g by_ p u s e : strlit g by_ p u s e -> p < e <= length by_.
Proof.
  intros H. destruct H as [? ? ? ? Ht _ A _|? ? ? ? ? Ht V _ A _|? ? ? ? ? Ht V _ A _];
    apply at_iff in A as [A _]; apply tag_ends in Ht; try apply vint_ends in V; lia.
Qed.
Lemma stringish_ends g by_ ok p s e : stringish g by_ ok p s e -> p < e <= length by_.
Proof.
  intros H. destruct H as [p u s e H|p q n r u s e _ Ht Hv _ _ _].
  - eapply strlit_ends; eauto.
  - apply vint_ends in Hv. apply tag_ends in Ht. lia.
Qed.

Lemma grammar_ends g by_ :
  (forall m p d p', item g by_ m p d p' -> p < p' <= length by_) /\
  (forall m p ds p', items g by_ m p ds p' -> p + length ds <= p' /\ (p <= length by_ -> p' <= length by_)) /\
  (forall m p kvs p', pairs g by_ m p kvs p' -> p + 2 * length kvs <= p' /\ (p <= length by_ -> p' <= length by_)).
Proof.
  apply (grammar_mind g by_ (fun m p d p' _ => p < p' <= length by_)
           (fun m p ds p' _ => p + length ds <= p' /\ (p <= length by_ -> p' <= length by_))
           (fun m p kvs p' _ => p + 2 * length kvs <= p' /\ (p <= length by_ -> p' <= length by_)));
    intros;
    repeat match goal with
    | H : tag_at _ _ _ _ |- _ => apply tag_ends in H
    | H : vint _ _ _ _ |- _ => apply vint_ends in H
    | H : at_ _ _ _ |- _ => apply at_iff in H as [H _]
    | H : stringish _ _ _ _ _ _ |- _ => apply stringish_ends in H
    | H : strlit _ _ _ _ _ _ |- _ => apply strlit_ends in H
    end; cbn [length] in *; try lia.
Qed.

Lemma strlit_dialect g g' by_ p u s e : (g_max g <= g_max g')%N -> strlit g by_ p u s e -> strlit g' by_ p u s e.
Proof.
  intros L H. destruct H as [p q t s Ht Hr Ha El|p q n r s Ht Hv Hm Ha El|p q n r s Ht Hv Hm Ha El].
  - eapply lit_short; eauto.
  - eapply lit_binary; eauto. lia.
  - eapply lit_utf8; eauto. lia.
Qed.

(** padding before an item belongs to it *)
Definition pads (by_ : bytes) (p q : nat) : Prop :=
  p <= q /\ forall i, p <= i < q -> exists b, nth_error by_ i = Some b /\ pad_byte b.

Lemma tag_pads by_ r p q t : pads by_ r p -> tag_at by_ p q t -> tag_at by_ r q t.
Proof.
  intros (L & P) (L2 & P2 & B). split; [lia|]. split; [|exact B]. intros i Hi.
  destruct (Nat.lt_ge_cases i p); [apply P; lia|apply P2; lia].
Qed.
Lemma strlit_pads g by_ r p u s e : pads by_ r p -> strlit g by_ p u s e -> strlit g by_ r u s e.
Proof.
  intros P H. destruct H; [eapply lit_short|eapply lit_binary|eapply lit_utf8]; eauto using tag_pads.
Qed.
Lemma stringish_pads g by_ ok r p s e : pads by_ r p -> stringish g by_ ok p s e -> stringish g by_ ok r s e.
Proof.
  intros P H. destruct H; [eapply str_lit|eapply str_copy]; eauto using tag_pads, strlit_pads.
Qed.
Lemma item_pads g by_ m r p d e : pads by_ r p -> item g by_ m p d e -> item g by_ m r d e.
Proof.
  intros P H. destruct H; eauto using tag_pads, strlit_pads, item.
Qed.

(** the tag at its place *)
Lemma tag_self by_ p q t : tag_at by_ p q t -> tag_at by_ q q t.
Proof. intros (L & _ & B). split; [auto|]. split; [intros; lia|exact B]. Qed.

Lemma untrack_mod b : untrack b = (b2n b mod 128)%N.
Proof. unfold untrack. apply land_127. Qed.

Lemma at_bytes (b : bytes) p l : at_ b p l -> p + length l <= length b /\ firstn (length l) (skipn p b) = l.
Proof.
  intros (pre & post & -> & <-). rewrite !app_length. split; [lia|].
  rewrite skipn_app, skipn_all, Nat.sub_diag. cbn.
  now rewrite firstn_app, Nat.sub_diag, firstn_all, firstn_O, app_nil_r.
Qed.
Lemma at_here (a l : bytes) : at_ (a ++ l) (length a) l.
Proof. exists a, []. now rewrite app_nil_r. Qed.
Lemma at_next (a : bytes) b l : at_ (a ++ b :: l) (S (length a)) l.
Proof.
  exists (a ++ [b]), []. rewrite app_nil_r, <- app_assoc. split; [reflexivity|]. rewrite app_length. cbn. lia.
Qed.
Lemma tag_here (a : bytes) b l t : t = (b2n b mod 128)%N -> t <> 63%N -> tag_at (a ++ b :: l) (length a) (length a) t.
Proof.
  intros E N. split; [auto|]. split; [intros; lia|]. exists b. split; [|auto].
  rewrite nth_error_app2, Nat.sub_diag by lia. reflexivity.
Qed.
Lemma at_cons by_ p b l : nth_error by_ p = Some b -> at_ by_ (S p) l -> at_ by_ p (b :: l).
Proof.
  intros Hb A. apply at_iff in A as [L A]. apply at_iff. pose proof (nth_error_Some_lt _ _ _ _ Hb).
  cbn [length]. split; [lia|]. intros [|i] x Hx; cbn in Hx.
  - rewrite Nat.add_0_r. congruence.
  - replace (p + S i) with (S p + i) by lia. auto.
Qed.
Lemma at_join by_ p l l' : at_ by_ p l -> at_ by_ (p + length l) l' -> at_ by_ p (l ++ l').
Proof.
  intros A B. apply at_iff in A as [L A]. apply at_iff in B as [L' B]. apply at_iff.
  rewrite app_length. split; [lia|]. intros i x Hx. destruct (Nat.lt_ge_cases i (length l)) as [H|H].
  - rewrite nth_error_app1 in Hx by exact H. auto.
  - rewrite nth_error_app2 in Hx by exact H. replace (p + i) with (p + length l + (i - length l)) by lia. auto.
Qed.

(** ** Reading is deterministic *)
Lemma tag_det by_ p q t q' t' : tag_at by_ p q t -> tag_at by_ p q' t' -> q = q' /\ t = t'.
Proof.
  assert (H : forall q t q' t', tag_at by_ p q t -> tag_at by_ p q' t' -> q' <= q).
  { clear. intros q t q' t' (L & P & b & Hb & Et & Nt) (L' & P' & b' & Hb' & Et' & Nt').
    destruct (Nat.le_gt_cases q' q) as [|G]; auto. exfalso. destruct (P' q) as (y & Hy & Py); [lia|].
    rewrite Hb in Hy. injection Hy as ->. unfold pad_byte in Py. lia. }
  intros A B. pose proof (H _ _ _ _ A B). pose proof (H _ _ _ _ B A). assert (q = q') by lia. subst q'.
  split; [reflexivity|]. destruct A as (_ & _ & b & Hb & -> & _), B as (_ & _ & b' & Hb' & -> & _). congruence.
Qed.
Lemma vint_det by_ p n q n' q' : vint by_ p n q -> vint by_ p n' q' -> n = n' /\ q = q'.
Proof.
  assert (D : forall n q, vint by_ p n q -> varintdecode (skipn p by_) = VOk (to_int n) (q - p) /\ (n < 18446744073709551616)%N /\ p <= q).
  { clear. intros n q (l & (pre & post & -> & <-) & G & L & N & ->). split; [|split; [exact N|lia]].
    rewrite skipn_app, skipn_all, Nat.sub_diag. cbn [app skipn].
    replace (length pre + length l - length pre) with (length l) by lia. now apply varintdecode_groups. }
  intros A B. apply D in A as (A & An & Aq). apply D in B as (B & Bn & Bq). rewrite A in B. injection B as E1 E2.
  split; [|lia]. rewrite <- (to_uint_to_int n An), <- (to_uint_to_int n' Bn). congruence.
Qed.
Lemma at_det by_ p l l' : at_ by_ p l -> at_ by_ p l' -> length l = length l' -> l = l'.
Proof. intros A B E. apply at_bytes in A as [_ A]. apply at_bytes in B as [_ B]. congruence. Qed.

Lemma strlit_det g g' by_ p u s e u' s' e' : strlit g by_ p u s e -> strlit g' by_ p u' s' e' ->
  u = u' /\ s = s' /\ e = e'.
Proof.
  intros A B. destruct A as [p q t s Ht Hr Ha El|p q n r s Ht Hv Hm Ha El|p q n r s Ht Hv Hm Ha El];
    destruct B as [p q' t' s' Ht' Hr' Ha' El'|p q' n' r' s' Ht' Hv' Hm' Ha' El'|p q' n' r' s' Ht' Hv' Hm' Ha' El'];
    destruct (tag_det _ _ _ _ _ _ Ht Ht') as [Eq Et]; try lia; try discriminate.
  - subst q' t'. assert (s = s') by (eapply at_det; eauto; lia). subst. auto.
  - subst q'. destruct (vint_det _ _ _ _ _ _ Hv Hv') as [En Er]. subst n' r'.
    assert (s = s') by (eapply at_det; eauto; lia). subst. auto.
  - subst q'. destruct (vint_det _ _ _ _ _ _ Hv Hv') as [En Er]. subst n' r'.
    assert (s = s') by (eapply at_det; eauto; lia). subst. auto.
Qed.

Section Loop.
Variable w : mworld.
Variable g : mconfig.
Variable d : mdoc.
Notation buf := (md_buf d).
Notation src := (x00 :: md_buf d).

(** the merged document from its body on, with the byte before it *)
Definition view (mem : list bytes) (s : slice) : bytes := x00 :: skipn 6 (contents mem s).
Definition stv (st : mstate) : bytes := view (s_mem st) (s_buf st).
Definition good (hd : bytes) (st : mstate) : Prop :=
  slice_ok (s_mem st) (s_buf st) /\ 6 <= sl_len (s_buf st) /\ firstn 6 (contents (s_mem st) (s_buf st)) = hd.

Lemma view_length mem s : slice_ok mem s -> 6 <= sl_len s -> length (view mem s) = sl_len s - 5.
Proof.
  intros O L. unfold view. cbn [length]. rewrite skipn_length, contents_length by exact O. lia.
Qed.

Lemma append_ok grow mem s b : slice_ok mem s ->
  let '(s', mem') := append_slice grow mem s b in
  slice_ok mem' s' /\ sl_len s' = sl_len s + length b.
Proof.
  intros [L1 L2]. unfold append_slice. destruct (Nat.leb_spec (sl_len s + length b) (sl_cap s)) as [L|L].
  - cbn. split; [|reflexivity]. split; cbn; [exact L|]. destruct L2 as [L2|L2]; [now left|].
    destruct (Nat.eq_dec (sl_cap s) 0) as [C|C]; [now left|right].
    assert (sl_arr s < length mem) by (apply array_long; lia).
    rewrite array_upd_same by assumption. rewrite overwrite_length by lia. exact L2.
  - pose proof (make_with_contents mem (contents mem s ++ b) (grow (sl_len s + length b))) as M.
    destruct (make_with _ _ _) as [s' mem']. destruct M as (M1 & M2 & M3 & _). split; [exact M3|].
    rewrite M2, app_length, contents_length; [reflexivity|]. split; auto.
Qed.

Lemma append_view mem s b : slice_ok mem s -> 6 <= sl_len s ->
  let '(s', mem') := w_append w mem s b in
  slice_ok mem' s' /\ 6 <= sl_len s' /\ view mem' s' = view mem s ++ b /\
  firstn 6 (contents mem' s') = firstn 6 (contents mem s).
Proof.
  intros O L. unfold w_append.
  pose proof (append_ok (w_grow w (length mem)) mem s b O) as A.
  pose proof (append_contents (w_grow w (length mem)) mem s b O) as C.
  destruct (append_slice _ _ _ _) as [s' mem']. destruct A as [A1 A2]. split; [exact A1|]. split; [lia|].
  unfold view. rewrite C, skipn_app, firstn_app, contents_length by exact O.
  replace (6 - sl_len s) with 0 by lia. cbn [skipn firstn]. rewrite app_nil_r. split; reflexivity.
Qed.

(** ** The stack *)
Definition zero (c : N) : Prop := N.land c 2147483647 = 0%N.
Definition stk (s : list N) (c : N) (rest : list N) : Prop :=
  exists z, s = z ++ c :: rest /\ Forall zero z.

Lemma pop_zeros z s : Forall zero z -> pop_stack (z ++ s) = pop_stack s.
Proof.
  induction 1 as [|c z Hc _ IH]; [reflexivity|]. cbn [app pop_stack]. unfold zero in Hc. now rewrite Hc.
Qed.
Lemma pop_stk s c rest : stk s c rest -> ~ zero c -> pop_stack s = c :: rest.
Proof.
  intros (z & -> & Z) N. rewrite pop_zeros by exact Z. cbn [pop_stack].
  destruct (N.eqb_spec (N.land c 2147483647) 0); [now elim N|reflexivity].
Qed.
Lemma stk_here c rest : stk (c :: rest) c rest.
Proof. now exists []. Qed.
Lemma stk_zero s c c' rest : stk s c (c' :: rest) -> zero c -> stk s c' rest.
Proof.
  intros (z & -> & Z) H. exists (z ++ [c]). rewrite <- app_assoc. split; [reflexivity|].
  apply Forall_app. auto.
Qed.
Lemma zero_small c : (c < 2147483648)%N -> zero c -> c = 0%N.
Proof.
  intros L H. unfold zero in H. change 2147483647%N with (N.ones 31) in H. rewrite N.land_ones in H.
  change (2 ^ 31)%N with 2147483648%N in H. rewrite N.mod_small in H; auto.
Qed.
Lemma zero_mod c : zero c <-> (c mod 2147483648 = 0)%N.
Proof.
  unfold zero. change 2147483647%N with (N.ones 31). rewrite N.land_ones.
  change (2 ^ 31)%N with 2147483648%N. reflexivity.
Qed.

(** ** One round *)
Definition dedup (c : N) : bool := g_dedupe g || (negb (N.land c hashFlag =? 0)%N && N.even c).

Definition runs_to (fin st : mstate) : Prop := exists fuel, merge_loop w fuel g 5 d st = (Ok tt, fin).

Definition after (st : mstate) (f : effect) (c : N) (rest : list N) (st' : mstate) : Prop :=
  stv st' = stv st ++ f_out f /\
  s_str st' = match f_str f with Some v => (v, f_rel f) :: s_str st | None => s_str st end /\
  s_obj st' = match f_obj f with Some v => (v, f_rel f) :: s_obj st | None => s_obj st end /\
  s_idx st' = s_idx st + f_adv f /\
  s_stack st' = f_push f ++ (if f_fake f then c else N.pred c) :: rest /\
  (forall off t, tfind off (s_ttab st') = Some t ->
     tfind off (s_ttab st) = Some t \/ (off = S (s_idx st) /\ t = f_rel f)).

Lemma loop_step hd fin st b c rest : runs_to fin st -> good hd st -> nth_error buf (s_idx st) = Some b ->
  stk (s_stack st) c rest -> ~ zero c ->
  exists f, merge_tag d (s_str st) (s_obj st) (s_ttab st) (s_idx st) (length (stv st)) (dedup c) b = Ok f /\
    (f_track f = None -> exists st', runs_to fin st' /\ good hd st' /\ after st f c rest st').
Proof.
  intros [fuel R] (O & L & Hd) Hb K Z. pose proof (pop_stk _ _ _ K Z) as P.
  unfold stv at 1. rewrite view_length by assumption.
  assert (E : forall fuel, merge_loop w fuel g 5 d st =
     match merge_step w g 5 d st with
     | Ok None => (Ok tt, st)
     | Ok (Some st') => match fuel with O => (NoFuel, st) | S f => merge_loop w f g 5 d st' end
     | Err e => (Err e, st) | Panic e => (Panic e, st) | Crash => (Crash, st) | NoFuel => (NoFuel, st)
     end) by (intros [|?]; reflexivity).
  rewrite E in R. clear E. unfold merge_step in R. rewrite Hb, P in R. fold (dedup c) in R.
  destruct (merge_tag d (s_str st) (s_obj st) (s_ttab st) (s_idx st) (sl_len (s_buf st) - 5) (dedup c) b) as [f|e|e| |] eqn:T;
    cbn [bind] in R; try discriminate.
  exists f. split; [reflexivity|]. intros Tr. rewrite Tr in R.
  pose proof (append_view (s_mem st) (s_buf st) (f_out f) O L) as A.
  destruct (w_append w (s_mem st) (s_buf st) (f_out f)) as [s' mem']. destruct A as (A1 & A2 & A3 & A4).
  cbn [bind] in R. destruct fuel as [|fuel]; [discriminate|].
  match type of R with merge_loop _ _ _ _ _ ?x = _ => set (st' := x) in * end.
  exists st'. split; [now exists fuel|]. split; [split; [assumption|split; [assumption|etransitivity; [exact A4|exact Hd]]]|].
  unfold after, stv, st'. cbn [s_mem s_buf s_str s_obj s_idx s_stack s_ttab].
  repeat split; auto. intros off t.
  destruct (match s_tidx st with i :: _ => Nat.eqb i (S (s_idx st)) | [] => false end); [|auto].
  cbn [tfind]. destruct (Nat.eqb_spec (S (s_idx st)) off) as [->|]; [|auto].
  intros [= <-]. auto.
Qed.

(** the loop ends when nothing is left to do *)
Lemma loop_ends fin st z : runs_to fin st -> s_stack st = z -> Forall zero z -> fin = st.
Proof.
  intros [fuel R] E Z.
  assert (P : pop_stack (s_stack st) = []).
  { rewrite E, <- (app_nil_r z), pop_zeros by exact Z. reflexivity. }
  assert (X : merge_step w g 5 d st = Ok None).
  { unfold merge_step. rewrite P. now destruct (nth_error buf (s_idx st)). }
  destruct fuel; cbn [merge_loop] in R; rewrite X in R; congruence.
Qed.
End Loop.
