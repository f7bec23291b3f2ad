(** Moving items of the wire grammar between byte strings and dialects. *)
From Verif Require Import Base BaseFacts SpecVarint VarintFacts Spec.
From Coq Require Import ZifyBool ZifyNat ZifyN.

Scheme item_mind := Induction for item Sort Prop
  with items_mind := Induction for items Sort Prop
  with pairs_mind := Induction for pairs Sort Prop.
Combined Scheme grammar_mind from item_mind, items_mind, pairs_mind.

Lemma at_iff (b : bytes) p l : at_ b p l <->
  p + length l <= length b /\ forall i x, nth_error l i = Some x -> nth_error b (p + i) = Some x.
Proof.
  split.
  - intros (pre & post & -> & <-). rewrite !app_length. split; [lia|]. intros i x H.
    rewrite nth_error_app2 by lia. replace (length pre + i - length pre) with i by lia.
    now apply nth_error_app_l.
  - intros [L H]. exists (firstn p b), (skipn (p + length l) b).
    split; [|rewrite firstn_length; lia].
    assert (E : firstn (length l) (skipn p b) = l).
    { revert p b L H. induction l as [|x l IH]; intros p b L H; [reflexivity|].
      cbn [length] in *. specialize (H 0 x eq_refl) as H0.
      destruct (skipn p b) as [|y r] eqn:Es.
      - apply (f_equal (@length _)) in Es. rewrite skipn_length in Es. cbn in Es. lia.
      - assert (X : nth_error (skipn p b) 0 = Some x) by (rewrite nth_error_skipn; exact H0).
        rewrite Es in X. injection X as ->. cbn. f_equal.
        replace r with (skipn (S p) b).
        + apply IH; [lia|]. intros i y Hi. specialize (H (S i) y Hi).
          now replace (S p + i) with (p + S i) by lia.
        + replace (S p) with (p + 1) by lia. rewrite <- skipn_skipn_add, Es. reflexivity. }
    rewrite <- E at 1. rewrite <- (firstn_skipn p b) at 1. f_equal.
    rewrite <- (firstn_skipn (length l) (skipn p b)) at 1. now rewrite skipn_skipn_add.
Qed.

Lemma at_app (a l c : bytes) : at_ (a ++ l ++ c) (length a) l.
Proof. exists a, c. auto. Qed.

(** order of the COPY modes *)
Definition mle (m m' : cmode) : Prop :=
  match m, m' with CNone, _ => True | CKeys, CNone => False | CKeys, _ => True
                 | CAny, CAny => True | CAny, _ => False end.

Lemma mle_refl m : mle m m.
Proof. destruct m; exact I. Qed.

Lemma mle_ok m m' : mle m m' -> copy_ok m = true -> copy_ok m' = true.
Proof. destruct m, m'; cbn; easy. Qed.

Section Move.
Variable g g' : dialect.
Variable by_ by' : bytes.
Variable a a' : nat.
(** from [a] on, [by_] is found in [by'] from [a'] on *)
Hypothesis Hlen : length by_ + a' <= length by' + a.
Hypothesis Hby : forall i x, nth_error by_ (a + i) = Some x -> nth_error by' (a' + i) = Some x.
Hypothesis Hmax : (g_max g <= g_max g')%N.
Hypothesis Heven : g_even g = true -> g_even g' = true.
Hypothesis Hnest : mle (g_nest g) (g_nest g').
Hypothesis Hdirect : g_direct g' = true -> g_direct g = true.
Hypothesis Hfrz : forall c s, g_frz g c s -> g_frz g' c s.
(** back references: nothing moved, or there are none *)
Hypothesis Hback : (a' = a /\ a <= g_start g /\ g_start g' <= g_start g) \/ length by_ <= g_start g.

Definition mv (p : nat) : nat := p - a + a'.

Lemma mv_nth p x : a <= p -> nth_error by_ p = Some x -> nth_error by' (mv p) = Some x.
Proof.
  intros L H. unfold mv. replace (p - a + a') with (a' + (p - a)) by lia. apply Hby.
  now replace (a + (p - a)) with p by lia.
Qed.

Lemma mv_at p l : a <= p -> at_ by_ p l -> at_ by' (mv p) l.
Proof.
  intros L H. apply at_iff in H as [L2 H]. apply at_iff. split; [unfold mv; lia|].
  intros i x Hi. replace (mv p + i) with (mv (p + i)) by (unfold mv; lia).
  apply mv_nth; [lia|]. now apply H.
Qed.

Lemma vint_lt b p n q : vint b p n q -> p < q.
Proof. intros (l & _ & G & _ & _ & ->). apply vgroups_nonempty in G. lia. Qed.

Lemma mv_vint p n q : a <= p -> vint by_ p n q -> vint by' (mv p) n (mv q).
Proof.
  intros L (l & A & G & L2 & N & ->). exists l. split; [now apply mv_at|].
  repeat split; auto. unfold mv. lia.
Qed.

Lemma mv_tag p q t : a <= p -> tag_at by_ p q t -> tag_at by' (mv p) (mv q) t.
Proof.
  intros L (L2 & Pd & b & Hb & Ht & Nt). split; [unfold mv; lia|]. split.
  - intros i Hi. destruct (Pd (i - a' + a)) as (x & Hx & Px); [unfold mv in Hi; lia|].
    exists x. split; auto. apply mv_nth in Hx; [|unfold mv in Hi; lia].
    unfold mv in *. now replace (i - a' + a - a + a') with i in Hx by lia.
  - exists b. split; [apply mv_nth; auto; lia|auto].
Qed.

Lemma strlit_lt gg b p u s e : strlit gg b p u s e -> p < e.
Proof.
  destruct 1 as [? ? ? ? (? & _)|? ? ? ? ? (? & _) V|? ? ? ? ? (? & _) V];
    try apply vint_lt in V; lia.
Qed.

Lemma mv_strlit p u s e : a <= p -> strlit g by_ p u s e -> strlit g' by' (mv p) u s (mv e).
Proof.
  intros L H. destruct H as [p q t s Ht Hr Ha El|p q n r s Ht Hv Hm Ha El|p q n r s Ht Hv Hm Ha El];
    pose proof (proj1 Ht).
  - replace (mv (S q + length s)) with (S (mv q) + length s) by (unfold mv; lia).
    apply lit_short with (q := mv q) (t := t); auto; [now apply mv_tag|].
    replace (S (mv q)) with (mv (S q)) by (unfold mv; lia). apply mv_at; auto; lia.
  - pose proof (vint_lt _ _ _ _ Hv).
    replace (mv (r + length s)) with (mv r + length s) by (unfold mv; lia).
    apply lit_binary with (q := mv q) (n := n); auto; try lia; [now apply mv_tag| |].
    + replace (S (mv q)) with (mv (S q)) by (unfold mv; lia). apply mv_vint; auto; lia.
    + apply mv_at; auto; lia.
  - pose proof (vint_lt _ _ _ _ Hv).
    replace (mv (r + length s)) with (mv r + length s) by (unfold mv; lia).
    apply lit_utf8 with (q := mv q) (n := n); auto; try lia; [now apply mv_tag| |].
    + replace (S (mv q)) with (mv (S q)) by (unfold mv; lia). apply mv_vint; auto; lia.
    + apply mv_at; auto; lia.
Qed.

Lemma tag_lt p q t : tag_at by_ p q t -> p <= q /\ q < length by_.
Proof. intros (L & _ & b & Hb & _). split; auto. eapply nth_error_Some_lt; eauto. Qed.

(** a back reference is possible only when nothing moved *)
Lemma back n p q t : tag_at by_ p q t -> n < q -> refers g by_ n ->
  mv n = n /\ mv q = q /\ a <= n /\ refers g' by' n.
Proof.
  intros Ht L1 [L2 L3]. apply tag_lt in Ht. unfold mv, refers.
  destruct Hback as [(E & B1 & B2)|B]; [|lia]. subst a'.
  repeat (split; [lia|]). intros D x Hx. apply (L3 (Hdirect D)).
  destruct (nth_error by_ n) as [y|] eqn:Y; [|apply nth_error_None in Y; lia].
  replace n with (a + (n - a)) in Y, Hx by lia. apply Hby in Y. congruence.
Qed.

Lemma mv_stringish ok ok' p s e : (ok = true -> ok' = true) -> a <= p ->
  stringish g by_ ok p s e -> p < e /\ stringish g' by' ok' (mv p) s (mv e).
Proof.
  intros Ho L H. destruct H as [p u s e H|p q n r u s e Hok Ht Hv H1 H2 Hs].
  - split; [eapply strlit_lt; eauto|]. eapply str_lit. eapply mv_strlit; eauto.
  - pose proof (proj1 Ht). pose proof (vint_lt _ _ _ _ Hv).
    destruct (back _ _ _ _ Ht H1 H2) as (E1 & E2 & L3 & L4).
    split; [lia|]. eapply str_copy with (q := mv q) (n := n); auto.
    + now apply mv_tag.
    + replace (S (mv q)) with (mv (S q)) by (unfold mv; lia). apply mv_vint; auto; lia.
    + lia.
    + rewrite <- E1. eapply mv_strlit; eauto.
Qed.

Definition Mitem (m : cmode) (p : nat) (d : data) (p' : nat) : Prop :=
  a <= p -> p < p' /\ forall m', mle m m' -> item g' by' m' (mv p) d (mv p').
Definition Mitems (m : cmode) (p : nat) (ds : list data) (p' : nat) : Prop :=
  a <= p -> p + length ds <= p' /\ forall m', mle m m' -> items g' by' m' (mv p) ds (mv p').
Definition Mpairs (m : cmode) (p : nat) (kvs : list (bytes * data)) (p' : nat) : Prop :=
  a <= p -> p + length kvs <= p' /\ forall m', mle m m' -> pairs g' by' m' (mv p) kvs (mv p').

Lemma mvS q : a <= q -> S (mv q) = mv (S q).
Proof. unfold mv. lia. Qed.
Lemma mvA q n : a <= q -> mv q + n = mv (q + n).
Proof. unfold mv. lia. Qed.

Theorem grammar_move :
  (forall m p d p', item g by_ m p d p' -> Mitem m p d p') /\
  (forall m p ds p', items g by_ m p ds p' -> Mitems m p ds p') /\
  (forall m p kvs p', pairs g by_ m p kvs p' -> Mpairs m p kvs p').
Proof.
  apply (grammar_mind g by_ (fun m p d p' _ => Mitem m p d p')
           (fun m p ds p' _ => Mitems m p ds p') (fun m p kvs p' _ => Mpairs m p kvs p'));
    unfold Mitem, Mitems, Mpairs.
  - intros m p q t Ht Hr L. pose proof (proj1 Ht). split; [lia|]. intros m' Hm.
    rewrite <- mvS by lia. eapply i_pos; eauto. now apply mv_tag.
  - intros m p q t Ht Hr L. pose proof (proj1 Ht). split; [lia|]. intros m' Hm.
    rewrite <- mvS by lia. eapply i_neg; eauto. now apply mv_tag.
  - intros m p q n r Ht Hv L. pose proof (proj1 Ht). pose proof (vint_lt _ _ _ _ Hv).
    split; [lia|]. intros m' Hm. eapply i_varint with (q := mv q); [now apply mv_tag|].
    rewrite mvS by lia. apply mv_vint; auto; lia.
  - intros m p q n r Ht Hv He L. pose proof (proj1 Ht). pose proof (vint_lt _ _ _ _ Hv).
    split; [lia|]. intros m' Hm. eapply i_zigzag with (q := mv q); [now apply mv_tag| |tauto].
    rewrite mvS by lia. apply mv_vint; auto; lia.
  - intros m p q l Ht Ha El L. pose proof (proj1 Ht). split; [lia|]. intros m' Hm.
    rewrite <- mvA, <- mvS by lia. eapply i_float with (q := mv q); auto; [now apply mv_tag|].
    rewrite mvS by lia. apply mv_at; auto; lia.
  - intros m p q l Ht Ha El L. pose proof (proj1 Ht). split; [lia|]. intros m' Hm.
    rewrite <- mvA, <- mvS by lia. eapply i_double with (q := mv q); auto; [now apply mv_tag|].
    rewrite mvS by lia. apply mv_at; auto; lia.
  - intros m p q Ht L. pose proof (proj1 Ht). split; [lia|]. intros m' Hm.
    rewrite <- mvS by lia. eapply i_undef; eauto. now apply mv_tag.
  - intros m p q Ht L. pose proof (proj1 Ht). split; [lia|]. intros m' Hm.
    rewrite <- mvS by lia. eapply i_canon; eauto. now apply mv_tag.
  - intros m p q Ht L. pose proof (proj1 Ht). split; [lia|]. intros m' Hm.
    rewrite <- mvS by lia. eapply i_false; eauto. now apply mv_tag.
  - intros m p q Ht L. pose proof (proj1 Ht). split; [lia|]. intros m' Hm.
    rewrite <- mvS by lia. eapply i_true; eauto. now apply mv_tag.
  - intros m p u s p' Hs L. split; [eapply strlit_lt; eauto|]. intros m' Hm.
    eapply i_str. eapply mv_strlit; eauto.
  - intros m p q d p' Ht _ IH L. pose proof (proj1 Ht).
    destruct IH as [L2 IH]; [lia|]. split; [lia|]. intros m' Hm.
    eapply i_refn with (q := mv q); [now apply mv_tag|]. rewrite mvS by lia. auto.
  - intros m p q d p' Ht _ IH L. pose proof (proj1 Ht).
    destruct IH as [L2 IH]; [lia|]. split; [lia|]. intros m' Hm.
    eapply i_weaken with (q := mv q); [now apply mv_tag|]. rewrite mvS by lia. auto.
  - intros m p q n r ds p' Ht Hv Hn El _ IH L. pose proof (proj1 Ht).
    pose proof (vint_lt _ _ _ _ Hv). destruct IH as [L2 IH]; [lia|]. split; [lia|].
    intros m' Hm. eapply i_array with (q := mv q) (n := n) (r := mv r); auto; try lia.
    + now apply mv_tag.
    + rewrite mvS by lia. apply mv_vint; auto; lia.
  - intros m p q t ds p' Ht Hr El _ IH L. pose proof (proj1 Ht).
    destruct IH as [L2 IH]; [lia|]. split; [lia|].
    intros m' Hm. eapply i_arrayref with (q := mv q) (t := t); auto; try lia.
    + now apply mv_tag.
    + rewrite mvS by lia. auto.
  - intros m p q n r ds p' Ht Hv Hn El _ IH L. pose proof (proj1 Ht).
    pose proof (vint_lt _ _ _ _ Hv). destruct IH as [L2 IH]; [lia|]. split; [lia|].
    intros m' Hm. eapply i_hash with (q := mv q) (n := n) (r := mv r); auto; try lia.
    + now apply mv_tag.
    + rewrite mvS by lia. apply mv_vint; auto; lia.
  - intros m p q t ds p' Ht Hr El _ IH L. pose proof (proj1 Ht).
    destruct IH as [L2 IH]; [lia|]. split; [lia|].
    intros m' Hm. eapply i_hashref with (q := mv q) (t := t); auto; try lia.
    + now apply mv_tag.
    + rewrite mvS by lia. auto.
  - intros m p q cls r d p' Ht Hs _ IH L. pose proof (proj1 Ht).
    assert (Lr : S q < r) by (eapply (proj1 (mv_stringish (copy_ok m) true (S q) cls r ltac:(auto) ltac:(lia) Hs))).
    destruct IH as [L2 IH]; [lia|]. split; [lia|]. intros m' Hm.
    eapply i_object with (q := mv q) (r := mv r); auto.
    + now apply mv_tag.
    + rewrite mvS by lia. apply (mv_stringish (copy_ok m)); auto; [apply mle_ok; auto|lia].
  - intros m p q n r u cls e d p' Ht Hv H1 H2 Hs _ IH L. pose proof (proj1 Ht).
    pose proof (vint_lt _ _ _ _ Hv).
    destruct (back _ _ _ _ Ht H1 H2) as (E1 & E2 & L3 & L4).
    destruct IH as [L2 IH]; [lia|]. split; [lia|]. intros m' Hm.
    eapply i_objectv with (q := mv q) (n := n) (r := mv r); auto.
    + now apply mv_tag.
    + rewrite mvS by lia. apply mv_vint; auto; lia.
    + lia.
    + rewrite <- E1. eapply mv_strlit; eauto.
  - intros m p q s1 r s2 p' Ht H1 H2 L. pose proof (proj1 Ht).
    assert (L1 : S q < r) by (eapply (proj1 (mv_stringish (copy_ok m) true (S q) _ _ ltac:(auto) ltac:(lia) H1))).
    assert (L2 : r < p') by (eapply (proj1 (mv_stringish (copy_ok m) true r _ _ ltac:(auto) ltac:(lia) H2))).
    split; [lia|]. intros m' Hm.
    eapply i_regexp with (q := mv q) (r := mv r); auto.
    + now apply mv_tag.
    + rewrite mvS by lia. apply (mv_stringish (copy_ok m)); auto; [apply mle_ok; auto|lia].
    + apply (mv_stringish (copy_ok m)); auto; [apply mle_ok; auto|lia].
  - intros m p q cls r n r' s p' Ht Hs Ha Hv Hn _ IH Hz L. pose proof (proj1 Ht).
    pose proof (vint_lt _ _ _ _ Hv).
    assert (L1 : S q < r) by (eapply (proj1 (mv_stringish (copy_ok m) true (S q) _ _ ltac:(auto) ltac:(lia) Hs))).
    destruct IH as [L2 IH]; [lia|]. split; [lia|]. intros m' Hm.
    eapply i_freeze with (q := mv q) (r := mv r) (n := n) (r' := mv r'); auto.
    + now apply mv_tag.
    + rewrite mvS by lia. apply (mv_stringish (copy_ok m)); auto; [apply mle_ok; auto|lia].
    + apply mv_at; auto; lia.
    + rewrite mvA by lia. apply mv_vint; auto; lia.
  - intros m p q o r0 u cls e n r' s p' Ht Hv0 H1 H2 Hs Ha Hv Hn _ IH Hz L.
    pose proof (proj1 Ht). pose proof (vint_lt _ _ _ _ Hv). pose proof (vint_lt _ _ _ _ Hv0).
    destruct (back _ _ _ _ Ht H1 H2) as (E1 & E2 & L3 & L4).
    destruct IH as [L2 IH]; [lia|]. split; [lia|]. intros m' Hm.
    eapply i_freezev with (q := mv q) (o := o) (r0 := mv r0) (n := n) (r' := mv r'); auto.
    + now apply mv_tag.
    + rewrite mvS by lia. apply mv_vint; auto; lia.
    + lia.
    + rewrite <- E1. eapply mv_strlit; eauto.
    + apply mv_at; auto; lia.
    + rewrite mvA by lia. apply mv_vint; auto; lia.
  - intros p q n r d e Ht Hv H1 H2 _ IH L. pose proof (proj1 Ht).
    pose proof (vint_lt _ _ _ _ Hv).
    destruct (back _ _ _ _ Ht H1 H2) as (E1 & E2 & L3 & L4).
    destruct IH as [L5 IH]; [lia|]. split; [lia|]. intros m' Hm.
    destruct m'; cbn in Hm; try contradiction.
    eapply i_copy with (q := mv q) (n := n); auto.
    + now apply mv_tag.
    + rewrite mvS by lia. apply mv_vint; auto; lia.
    + lia.
    + rewrite E1 in IH. apply IH. exact Hnest.
  - intros m p L. split; [cbn; lia|]. intros. apply is_nil.
  - intros m p d r ds p' _ IH1 _ IH2 L. destruct IH1 as [L1 IH1]; [lia|].
    destruct IH2 as [L2 IH2]; [lia|]. cbn [length]. split; [lia|]. intros m' Hm.
    eapply is_cons; eauto.
  - intros m p L. split; [cbn; lia|]. intros. apply ps_nil.
  - intros m p k r d r' kvs p' Hs _ IH1 _ IH2 L.
    assert (L1 : p < r) by (eapply (proj1 (mv_stringish (copy_ok m) true p _ _ ltac:(auto) ltac:(lia) Hs))).
    destruct IH1 as [L2 IH1]; [lia|]. destruct IH2 as [L3 IH2]; [lia|].
    cbn [length]. split; [lia|]. intros m' Hm.
    eapply ps_cons; eauto. apply (mv_stringish (copy_ok m)); auto. apply mle_ok; auto.
Qed.
End Move.

(** Appending bytes. *)
Definition extends (by_ by' : bytes) : Prop := exists post, by' = by_ ++ post.

Section Ext.
Variable g : dialect.
Variable by_ by' : bytes.
Hypothesis He : extends by_ by'.

Lemma ext_len : length by_ <= length by'.
Proof. destruct He as [post ->]. rewrite app_length. lia. Qed.
Lemma ext_nth i x : nth_error by_ i = Some x -> nth_error by' i = Some x.
Proof. destruct He as [post ->]. apply nth_error_app_l. Qed.

Lemma mv0 p : mv 0 0 p = p.
Proof. unfold mv. lia. Qed.

Lemma item_ext m p d p' : item g by_ m p d p' -> item g by' m p d p'.
Proof.
  intros H. pose proof ext_len.
  destruct (grammar_move g g by_ by' 0 0) as (G & _); auto using mle_refl; try lia.
  { intros i x. cbn. apply ext_nth. }
  specialize (G _ _ _ _ H (Nat.le_0_l _)) as [_ G]. specialize (G m (mle_refl m)).
  now rewrite !mv0 in G.
Qed.
Lemma items_ext m p d p' : items g by_ m p d p' -> items g by' m p d p'.
Proof.
  intros H. pose proof ext_len.
  destruct (grammar_move g g by_ by' 0 0) as (_ & G & _); auto using mle_refl; try lia.
  { intros i x. cbn. apply ext_nth. }
  specialize (G _ _ _ _ H (Nat.le_0_l _)) as [_ G]. specialize (G m (mle_refl m)).
  now rewrite !mv0 in G.
Qed.
Lemma strlit_ext p u s e : strlit g by_ p u s e -> strlit g by' p u s e.
Proof.
  intros H. pose proof ext_len.
  apply (mv_strlit g g by_ by' 0 0) in H; auto; try lia; try (intros ? ?; cbn; apply ext_nth).
  now rewrite !mv0 in H.
Qed.
Lemma stringish_ext ok p s e : stringish g by_ ok p s e -> stringish g by' ok p s e.
Proof.
  intros H. pose proof ext_len.
  apply (mv_stringish g g by_ by' 0 0) with (ok' := ok) in H; auto; try lia; try (intros ? ?; cbn; apply ext_nth).
  now rewrite !mv0 in H.
Qed.
Lemma tag_ext p q t : tag_at by_ p q t -> tag_at by' p q t.
Proof.
  intros H. pose proof ext_len.
  apply (mv_tag g g by_ by' 0 0) in H; auto; try lia; try (intros ? ?; cbn; apply ext_nth). now rewrite !mv0 in H.
Qed.
Lemma vint_ext p n q : vint by_ p n q -> vint by' p n q.
Proof.
  intros H. pose proof ext_len.
  apply (mv_vint g g by_ by' 0 0) in H; auto; try lia; try (intros ? ?; cbn; apply ext_nth). now rewrite !mv0 in H.
Qed.
Lemma at_ext p l : at_ by_ p l -> at_ by' p l.
Proof.
  intros H. pose proof ext_len.
  apply (mv_at g g by_ by' 0 0) in H; auto; try lia; try (intros ? ?; cbn; apply ext_nth). now rewrite !mv0 in H.
Qed.
End Ext.
