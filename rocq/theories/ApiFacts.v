(** Unmarshal on arbitrary bytes. *)
From Verif Require Import Base BaseFacts SpecVarint Varint VarintFacts Tags GoMem Decode Codecs Compress
  Header Document DecodeSafe Sim SpecObserve Spec SpecDoc SpecHeader DocFacts HeaderFacts.
From Coq Require Import ZifyBool ZifyNat ZifyN.
Ltac Zify.zify_post_hook ::= Z.div_mod_to_equations.

(** * Observations and the simulation *)
(** the same bytes inside the bounds *)
Definition agree (bound : nat * nat) (b1 b2 : bytes) : Prop :=
  firstn (snd bound - fst bound) (skipn (fst bound) b1) = firstn (snd bound - fst bound) (skipn (fst bound) b2).
Lemma agree_firstn lo hi b1 b2 : firstn hi b1 = firstn hi b2 -> agree (lo, hi) b1 b2.
Proof.
  intros E. unfold agree. cbn [fst snd]. rewrite !firstn_skipn_comm.
  destruct (Nat.le_ge_cases lo hi) as [L|L].
  - replace (lo + (hi - lo)) with hi by lia. now rewrite E.
  - replace (hi - lo) with 0 by lia. rewrite Nat.add_0_r.
    rewrite !skipn_all2 by (rewrite firstn_length; lia). reflexivity.
Qed.
Section Obs.
Variable ib ibuf : loc.
Variable bound : nat * nat.
Variable h1 h2 : heap.
Variable b1 b2 : bytes.
Hypothesis H1 : nth_error h1 ib = Some (CBuf b1).
Hypothesis H2 : nth_error h2 ib = Some (CBuf b2).
Hypothesis Heq : forall l, l <> ib -> nth_error h1 l = nth_error h2 l.
Hypothesis Hc : clean_heap ib ibuf bound h1.

Lemma oget l : hget h2 l = hget h1 l.
Proof.
  unfold hget. destruct (Nat.eq_dec l ib) as [-> |N]; [now rewrite H1, H2|now rewrite (Heq l N)].
Qed.
Lemma omap l : hmap h2 l = hmap h1 l.
Proof.
  unfold hmap. destruct (Nat.eq_dec l ib) as [-> |N]; [now rewrite H1, H2|now rewrite (Heq l N)].
Qed.
Lemma otmap l : htmap h2 l = htmap h1 l.
Proof.
  unfold htmap. destruct (Nat.eq_dec l ib) as [-> |N]; [now rewrite H1, H2|now rewrite (Heq l N)].
Qed.
Lemma oview w : vloc w <> ib -> hview h2 w = hview h1 w.
Proof. intros N. unfold hview, hbuf. now rewrite (Heq _ N). Qed.
Lemma oview_in w : okw ib ibuf bound w -> (ib = ibuf -> agree bound b1 b2) ->
  hview h2 w = hview h1 w.
Proof.
  intros K F. destruct (Nat.eq_dec (vloc w) ib) as [E|N]; [|now apply oview].
  destruct (K E) as (Ei & L0 & L). specialize (F Ei). unfold agree in F. unfold hview, hbuf. rewrite E, H1, H2.
  assert (W : forall b : bytes, firstn (vlen w) (skipn (voff w) b) =
     firstn (vlen w) (skipn (voff w - fst bound) (firstn (snd bound - fst bound) (skipn (fst bound) b)))).
  { intros b. rewrite skipn_firstn_comm, firstn_firstn, skipn_skipn_add. f_equal; [lia|]. f_equal. lia. }
  rewrite (W b1), (W b2). now rewrite F.
Qed.
Lemma cget l : clean ib ibuf bound (hget h1 l).
Proof.
  unfold hget. destruct (nth_error h1 l) as [[v| | |]|] eqn:E; try exact I. exact (Hc _ _ E).
Qed.

(** equal up to any depth, when regular expressions agree or are absent *)
Lemma observe_same n : forall v, clean ib ibuf bound v ->
  (ib = ibuf -> agree bound b1 b2) \/ no_regexp (observe n h1 v) = true ->
  observe n h2 v = observe n h1 v.
Proof.
  induction n as [|n IH]; [reflexivity|]. intros v C F. cbn [observe].
  assert (Cells : forall base k,
    (ib = ibuf -> agree bound b1 b2) \/
      forallb no_regexp (map (fun i => observe n h1 (hget h1 (base + i))) (seq 0 k)) = true ->
    map (fun i => observe n h2 (hget h2 (base + i))) (seq 0 k) =
    map (fun i => observe n h1 (hget h1 (base + i))) (seq 0 k)).
  { intros base k G. apply map_ext_in. intros i Hi. rewrite oget. apply IH; [apply cget|].
    destruct G as [G|G]; [now left|right]. rewrite forallb_forall in G. apply G.
    apply in_map_iff. eauto. }
  destruct v; try reflexivity; cbn [clean observe no_regexp] in *; try (rewrite oget); try (f_equal; now auto using cget).
  - f_equal. now apply oview.
  - f_equal. rewrite omap. apply map_ext_in. intros [kk vv] Hi. cbn. f_equal. apply IH.
    + unfold hmap in Hi. destruct (nth_error h1 l) as [[|m| |]|] eqn:E; try contradiction.
      exact (Hc _ _ E _ _ Hi).
    + destruct F as [G|G]; [now left|right]. rewrite forallb_forall in G.
      apply (G (kk, observe n h1 vv)). apply in_map_iff. exists (kk, vv). auto.
  - destruct F as [G|G]; [|discriminate]. destruct C as [C1 C2]. f_equal; now apply oview_in.
  - f_equal. now apply oview.
  - f_equal. now apply oview.
  - f_equal. rewrite otmap. apply map_ext_in. intros [kk vv] Hi. cbn.
    assert (Ck : clean ib ibuf bound kk /\ clean ib ibuf bound vv).
    { unfold htmap in Hi. destruct (nth_error h1 l) as [[| |m|]|] eqn:E; try contradiction.
      exact (Hc _ _ E _ _ Hi). }
    destruct Ck. assert (Gg : (ib = ibuf -> agree bound b1 b2) \/
       (no_regexp (observe n h1 kk) = true /\ no_regexp (observe n h1 vv) = true)).
    { destruct F as [G|G]; [now left|right]. rewrite forallb_forall in G.
      apply andb_true_iff. apply (G (observe n h1 kk, observe n h1 vv)).
      apply in_map_iff. exists (kk, vv). auto. }
    f_equal; apply IH; tauto.
Qed.
End Obs.

(** * The shape of a call *)
Section Api.
Variable k : codecs.
Variable c : dconfig.

Definition reset (s : dstate) : dstate := mkDState (d_heap s) [] (d_copy s) (d_made s).

(** the decoding of an unpacked body *)
Definition body_run (ver : N) (b : bytes) (ib : loc) (bs : nat) (l : loc) : M unit :=
  if (ver =? 1)%N then run_decode c b ib 0 bs l ;; ret tt
  else if Nat.eqb bs 0 then crash
  else match slice_from b (bs - 1) with
       | None => crash
       | Some by_ => run_decode c by_ ib (bs - 1) 1 l ;; ret tt
       end.

Lemma raw_good b ib vh vb s ver typ l n rest dec : starts b ver typ l n rest ->
  documentDecompressor ver typ = Ok dec -> (0 <= bodyStart_of l n <= Z.of_nat (length b))%Z ->
  unmarshal_raw k c b ib vh vb s =
      (unmarshal_header c b ib (header_of ver typ l n) (Z.to_nat (bodyStart_of l n)) vh ;;
       unmarshal_body k c b ib (header_of ver typ l n) dec (Z.to_nat (bodyStart_of l n)) vb) s.
Proof.
  intros S D B. unfold unmarshal_raw. unfold mbind at 1. unfold lift at 1.
  rewrite (checkHeader_starts _ _ _ _ _ _ S).
  unfold mbind at 1. unfold lift at 1. cbn [header_of h_version h_doctype]. rewrite D.
  cbn [header_of h_suffixSize]. fold (bodyStart_of l n).
  destruct ((Z.of_nat (length b) <? bodyStart_of l n) || (bodyStart_of l n <? 0))%Z eqn:C; [lia|].
  reflexivity.
Qed.

Lemma raw_cases b ib vh vb s :
  (exists e, unmarshal_raw k c b ib vh vb s = (Err e, s) /\ ((Z.of_nat (length b) < two63)%Z -> ~ acceptable b)) \/
  exists ver typ l n rest dec, starts b ver typ l n rest /\ type_defined ver typ /\
    documentDecompressor ver typ = Ok dec /\ (0 <= bodyStart_of l n <= Z.of_nat (length b))%Z.
Proof.
  destruct (checkHeader_total b) as [[h Ch]|[e Ch]].
  2:{ left. exists e. split.
      - unfold unmarshal_raw. unfold mbind at 1. unfold lift at 1. now rewrite Ch.
      - intros _ (ver & typ & l & n & rest & S & _).
        rewrite (checkHeader_starts _ _ _ _ _ _ S) in Ch. discriminate. }
  destruct (checkHeader_inv _ _ Ch) as (ver & typ & l & n & rest & S & ->).
  destruct (decompressor_total ver typ) as [[dec D]|[e D]].
  2:{ left. exists e. split.
      - unfold unmarshal_raw. unfold mbind at 1. unfold lift at 1. rewrite Ch.
        unfold mbind at 1. unfold lift at 1. cbn [header_of h_version h_doctype]. now rewrite D.
      - intros _ (ver' & typ' & l' & n' & rest' & S' & T & _).
        destruct (starts_det _ _ _ _ _ _ _ _ _ _ _ S S') as (<- & <- & _).
        apply (decompressor_defined ver typ (proj1 S)) in T as [d T]. rewrite T in D. discriminate. }
  assert (T : type_defined ver typ) by (apply (decompressor_defined ver typ (proj1 S)); eauto).
  destruct ((Z.of_nat (length b) <? bodyStart_of l n) || (bodyStart_of l n <? 0))%Z eqn:B.
  { left. exists EBadOffset. split.
    - unfold unmarshal_raw. unfold mbind at 1. unfold lift at 1. rewrite Ch.
      unfold mbind at 1. unfold lift at 1. cbn [header_of h_version h_doctype]. rewrite D.
      cbn [header_of h_suffixSize]. fold (bodyStart_of l n). now rewrite B.
    - intros Lb (ver' & typ' & l' & n' & rest' & S' & _ & Bs).
      destruct (starts_det _ _ _ _ _ _ _ _ _ _ _ S S') as (<- & <- & <- & <- & _).
      apply (bodyStart_ok l n (length b)) in Bs; auto; [congruence|].
      destruct (starts_length _ _ _ _ _ _ S). lia. }
  right. exists ver, typ, l, n, rest, dec. repeat (split; [assumption|]). lia.
Qed.

(** a call for the body only, of a raw document *)
Lemma raw_body b ib l s ver ln n rest : starts b ver 0 ln n rest ->
  (0 <= bodyStart_of ln n <= Z.of_nat (length b))%Z ->
  unmarshal_raw k c b ib TgtNone (TgtIface l) s =
  body_run ver b ib (Z.to_nat (bodyStart_of ln n)) l (reset s).
Proof.
  intros S B. rewrite (raw_good _ _ _ _ _ _ _ _ _ _ None S (proj2 (decompressor_raw ver 0) eq_refl) B).
  reflexivity.
Qed.

(** an accepted header *)
Lemma raw_accepted b ib vh vb s s' : unmarshal_raw k c b ib vh vb s = (Ok tt, s') ->
  exists ver typ ln n rest, starts b ver typ ln n rest /\
    (0 <= bodyStart_of ln n <= Z.of_nat (length b))%Z.
Proof.
  intros U. destruct (raw_cases b ib vh vb s) as [(e & E & _)|(ver & typ & ln & n & rest & dec & S & _ & _ & B)].
  - rewrite E in U. discriminate.
  - eauto 10.
Qed.

(** * Appending bytes *)
Lemma run_decode_sim by1 x ib shift b1 b2 idx l : l <> ib ->
  sim by1 x ib ib shift b1 b2 (run_decode c by1 ib shift idx l ;; ret tt)
      (run_decode c (by1 ++ x) ib shift idx l ;; ret tt) (fun _ => True).
Proof.
  intros Hl. eapply sim_bind.
  - unfold run_decode. apply decode_sim; [|exact Hl]. unfold decode_fuel. rewrite app_length. lia.
  - intros i _. now apply sim_ret.
Qed.

Lemma fresh_R by1 ib ibuf shift b1 b2 : ib = 0 -> R by1 ib ibuf shift b1 b2 (reset (fresh_state b1)) (reset (fresh_state b2)).
Proof.
  intros ->. unfold R. cbn. repeat split; auto.
  - intros [|l] H; [congruence|reflexivity].
  - intros [|[|[|l]]] cl H; cbn in H; try (injection H as <-; exact I); destruct l; discriminate.
Qed.

(** success of an unpacked body does not depend on what follows *)
Lemma body_run_ext ver b x bs l s s1' : l <> 0 -> bs <= length b ->
  R (if (ver =? 1)%N then b else skipn (bs - 1) b) 0 0 (if (ver =? 1)%N then 0 else bs - 1) b (b ++ x) s s1' ->
  forall t, body_run ver b 0 bs l s = (Ok tt, t) ->
  exists t1, body_run ver (b ++ x) 0 bs l s1' = (Ok tt, t1) /\
    R (if (ver =? 1)%N then b else skipn (bs - 1) b) 0 0 (if (ver =? 1)%N then 0 else bs - 1) b (b ++ x) t t1.
Proof.
  intros Hl Hb Hr t. unfold body_run. destruct (ver =? 1)%N.
  - intros E. pose proof (run_decode_sim b x 0 0 b (b ++ x) bs l Hl s s1' Hr) as S.
    cbv zeta in S. rewrite E in S. cbn [fst snd] in S. destruct ((run_decode c (b ++ x) 0 0 bs l;; ret tt) s1') as [r t1].
    cbn [fst snd] in S. destruct S as (-> & Hr' & _). eauto.
  - destruct (Nat.eqb_spec bs 0); [discriminate|].
    assert (S1 : slice_from b (bs - 1) = Some (skipn (bs - 1) b)).
    { unfold slice_from. destruct (Nat.leb_spec (bs - 1) (length b)); [reflexivity|lia]. }
    assert (S2 : slice_from (b ++ x) (bs - 1) = Some (skipn (bs - 1) b ++ x)).
    { unfold slice_from. rewrite app_length. destruct (Nat.leb_spec (bs - 1) (length b + length x)); [|lia].
      rewrite skipn_app. replace (bs - 1 - length b) with 0 by lia. reflexivity. }
    rewrite S1, S2. intros E.
    pose proof (run_decode_sim (skipn (bs - 1) b) x 0 (bs - 1) b (b ++ x) 1 l Hl s s1' Hr) as S.
    cbv zeta in S. rewrite E in S. cbn [fst snd] in S.
    destruct ((run_decode c (skipn (bs - 1) b ++ x) 0 (bs - 1) 1 l;; ret tt) s1') as [r t1].
    cbn [fst snd] in S. destruct S as (-> & Hr' & _). eauto.
Qed.

Lemma unmarshal_fresh_Ok b h v : unmarshal_fresh k c b = Ok (h, v) ->
  exists s', unmarshal_raw k c b 0 TgtNone (TgtIface 2) (fresh_state b) = (Ok tt, s') /\
    h = d_heap s' /\ v = hget h 2.
Proof.
  unfold unmarshal_fresh, Unmarshal, UnmarshalHeaderBody.
  destruct (unmarshal_raw k c b 0 TgtNone (TgtIface 2) (fresh_state b)) as [[[]|e|e| |] s']; cbn; try discriminate.
  intros [= <- <-]. eauto.
Qed.
Lemma unmarshal_fresh_raw b s' : unmarshal_raw k c b 0 TgtNone (TgtIface 2) (fresh_state b) = (Ok tt, s') ->
  unmarshal_fresh k c b = Ok (d_heap s', hget (d_heap s') 2).
Proof. intros E. unfold unmarshal_fresh, Unmarshal, UnmarshalHeaderBody. now rewrite E. Qed.

Lemma unmarshal_ext b x h v ver ln n rest : starts b ver 0 ln n rest ->
  unmarshal_fresh k c b = Ok (h, v) ->
  exists h' v', unmarshal_fresh k c (b ++ x) = Ok (h', v') /\ forall n, observe n h' v' = observe n h v.
Proof.
  intros S U. destruct (unmarshal_fresh_Ok _ _ _ U) as (s' & E & -> & ->).
  destruct (raw_accepted _ _ _ _ _ _ E) as (ver' & typ' & ln' & n' & rest' & S' & B).
  destruct (starts_det _ _ _ _ _ _ _ _ _ _ _ S S') as (<- & <- & <- & <- & <-). clear S'.
  rewrite (raw_body _ _ _ _ _ _ _ _ S B) in E.
  set (bs := Z.to_nat (bodyStart_of ln n)) in *.
  assert (Hb : bs <= length b) by (unfold bs; lia).
  destruct (body_run_ext ver b x bs 2 (reset (fresh_state b)) (reset (fresh_state (b ++ x)))
     ltac:(lia) Hb (fresh_R _ _ _ _ _ _ eq_refl) _ E) as (t1 & E1 & Hr).
  assert (B2 : (0 <= bodyStart_of ln n <= Z.of_nat (length (b ++ x)))%Z) by (rewrite app_length; lia).
  pose proof (raw_body (b ++ x) 0 2 (fresh_state (b ++ x)) _ _ _ _ (starts_ext _ _ _ _ _ _ x S) B2) as E2.
  fold bs in E2. rewrite E1 in E2. apply unmarshal_fresh_raw in E2.
  eexists _, _. split; [exact E2|]. intros m.
  destruct Hr as (_ & _ & _ & A4 & A5 & A6 & A7).
  rewrite (oget 0 _ _ _ _ A4 A5 A6).
  eapply observe_same; eauto.
  - eapply cget. exact A7.
  - left. intros _. destruct (ver =? 1)%N; apply agree_firstn.
    + cbn [Nat.add]. rewrite firstn_all, firstn_app_len. reflexivity.
    + rewrite skipn_length. destruct (Nat.eq_dec bs 0) as [Z|Z].
      * rewrite Z. cbn [Nat.sub Nat.add]. rewrite Nat.sub_0_r, firstn_all, firstn_app_len. reflexivity.
      * replace (bs - 1 + (length b - (bs - 1))) with (length b) by lia.
        rewrite firstn_all, firstn_app_len. reflexivity.
Qed.
End Api.
