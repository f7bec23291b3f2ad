(** Unmarshal in two memories; calls in one memory; header and body in one call. *)
From Verif Require Import Base BaseFacts Varint Tags GoMem Decode Codecs Compress Header Document SpecObserve
  HeaderFacts ApiFacts DecodeSafe ApiSafe ApiProps Session SpecSession Reloc.
From Coq Require Import ZifyBool ZifyNat ZifyN.

Section Api.
Variable k : codecs.
Variable c : dconfig.
Section Two.
Variables n1 n2 : nat.
Variable dom0 : loc -> Prop.
Variable m0 : loc -> loc.
Variable old : heap.
Hypothesis dom0_in : forall l, dom0 l -> l < n1 /\ m0 l < n2.
Hypothesis m0_inj : forall l l', dom0 l -> dom0 l' -> m0 l = m0 l' -> l = l'.
Notation R2 := (Reloc.R n1 n2 dom0 m0 old).
Notation lr := (lrel n1 n2 dom0 m0).
Notation vr := (vrel n1 n2 dom0 m0).
Notation rl := (rel n1 n2 dom0 m0 old).
Notation move := (mv n1 n2 m0).

Lemma rel_lift {A} n0 (r : res A) : rl n0 (lift r) (lift r) same.
Proof. intros s1 s2 Hr L. unfold lift, same. cbn. destruct r; cbn; auto. Qed.
Lemma rel_fresh n0 : rl n0 fresh_tracked fresh_tracked same.
Proof.
  intros s1 s2 (A1 & A2 & A3 & A4 & A5 & A6) L. unfold fresh_tracked, Reloc.R, same. cbn. auto 10.
Qed.
Ltac re t := eapply rel_bindE; [exact dom0_in|exact m0_inj|t|].

Definition tgt (n : nat) (t1 t2 : target) : Prop :=
  match t1, t2 with
  | TgtNone, TgtNone | TgtNonPtr, TgtNonPtr => True
  | TgtIface l1, TgtIface l2 => lr n l1 l2
  | _, _ => False
  end.
Lemma tgt_mono n n' t1 t2 : n <= n' -> tgt n t1 t2 -> tgt n' t1 t2.
Proof. intros L. destruct t1, t2; cbn; auto. now apply lrel_mono. Qed.

Lemma rel_run n0 by_ ib1 ib2 shift idx l1 l2 : lr n0 ib1 ib2 -> lr n0 l1 l2 ->
  rl n0 (run_decode c by_ ib1 shift idx l1 ;; ret tt) (run_decode c by_ ib2 shift idx l2 ;; ret tt) same.
Proof.
  intros Hi Hl. re ltac:(unfold run_decode; apply decode_reloc; assumption). intros n a Hn. apply rel_same.
Qed.
Lemma rel_header n0 b ib1 ib2 h bs t1 t2 : lr n0 ib1 ib2 -> tgt n0 t1 t2 ->
  rl n0 (unmarshal_header c b ib1 h bs t1) (unmarshal_header c b ib2 h bs t2) same.
Proof.
  intros Hi Ht. unfold unmarshal_header. destruct t1 as [|l1|], t2 as [|l2|]; cbn in Ht; try contradiction; cbn [target_nil orb].
  - apply rel_same.
  - destruct (_ =? 1)%Z; [apply rel_same|]. re ltac:(apply rel_fresh). intros n [] Hn.
    destruct (nth_error b (h_suffixStart h)) as [fl|]; [|apply rel_crash].
    destruct (_ =? 1)%N; [|apply rel_same]. apply rel_run; eapply lrel_mono; eassumption.
  - destruct (_ =? 1)%Z; [apply rel_same|]. re ltac:(apply rel_fresh). intros n [] Hn. apply rel_fail.
Qed.
Lemma rel_ubody n0 b ib1 ib2 h dec bs t1 t2 : lr n0 ib1 ib2 -> tgt n0 t1 t2 ->
  rl n0 (unmarshal_body k c b ib1 h dec bs t1) (unmarshal_body k c b ib2 h dec bs t2) same.
Proof.
  intros Hi Ht. unfold unmarshal_body. replace (target_nil t2) with (target_nil t1) by (destruct t1, t2; cbn in *; tauto).
  destruct (target_nil t1); [apply rel_same|].
  eapply rel_bind with (Q := fun n r1 r2 => fst r1 = fst r2 /\ lr n (snd r1) (snd r2)); [exact dom0_in|exact m0_inj| |].
  - destruct dec as [dk|]; [|apply rel_ret; intros n Hn; split; [reflexivity|eapply lrel_mono; eassumption]].
    destruct (slice_from b bs) as [z|]; [|apply rel_crash].
    re ltac:(apply rel_lift). intros n d Hn. cbv zeta.
    eapply rel_bind; [exact dom0_in|exact m0_inj|apply rel_alloc; [exact dom0_in|exact m0_inj|constructor]|].
    intros m l1 l2 Hm (_ & L). apply rel_ret. intros q Hq. split; [reflexivity|]. eapply lrel_mono; eassumption.
  - intros n [b1 j1] [b2 j2] Hn [E L]. cbn in E, L. subst b2.
    re ltac:(apply rel_fresh). intros m [] Hm.
    assert (Ht' : tgt m t1 t2) by (eapply tgt_mono; [|exact Ht]; lia).
    assert (Lj : lr m j1 j2) by (eapply lrel_mono; eassumption).
    destruct t1 as [|l1|], t2 as [|l2|]; cbn in Ht'; try contradiction; [apply rel_same| |apply rel_fail].
    destruct (_ =? 1)%N; [now apply rel_run|]. destruct (_ =? 0); [apply rel_crash|].
    destruct (slice_from b1 (bs - 1)) as [by_|]; [|apply rel_crash]. now apply rel_run.
Qed.
Lemma rel_raw n0 b ib1 ib2 h1 h2 t1 t2 : lr n0 ib1 ib2 -> tgt n0 h1 h2 -> tgt n0 t1 t2 ->
  rl n0 (unmarshal_raw k c b ib1 h1 t1) (unmarshal_raw k c b ib2 h2 t2) same.
Proof.
  intros Hi Hh Ht. unfold unmarshal_raw. re ltac:(apply rel_lift). intros n h Hn.
  re ltac:(apply rel_lift). intros m dec Hm. cbv zeta. destruct (_ || _); [apply rel_fail|].
  re ltac:(apply rel_header; [eapply lrel_mono; [..|exact Hi]; try assumption; lia|eapply tgt_mono; [|exact Hh]; lia]). intros q [] Hq.
  apply rel_ubody; [eapply lrel_mono; [..|exact Hi]; try assumption; lia|eapply tgt_mono; [|exact Ht]; lia].
Qed.

(** What is seen is the same, also after the second memory has changed elsewhere. *)
Definition keeps_up (h1 h2 : heap) : Prop :=
  forall l, dom n1 dom0 l -> l < length h1 -> orel n1 n2 dom0 m0 (length h1) (nth_error h1 l) (nth_error h2 (move l)).
Lemma observe_reloc h1 h2 : keeps_up h1 h2 -> forall n v1 v2, vr (length h1) v1 v2 -> observe n h1 v1 = observe n h2 v2.
Proof.
  intros K.
  assert (G : forall l1 l2, lr (length h1) l1 l2 -> vr (length h1) (hget h1 l1) (hget h2 l2)).
  { intros l1 l2 (D & L & ->). specialize (K l1 D L). unfold hget.
    destruct (nth_error h1 l1) as [x|], (nth_error h2 (move l1)) as [y|]; cbn in K; try contradiction; [|constructor; exact I].
    destruct K; try (constructor; exact I). assumption. }
  assert (W : forall w1 w2, wrel n1 n2 dom0 m0 (length h1) w1 w2 -> hview h1 w1 = hview h2 w2).
  { intros w1 w2 ((D & L & E) & E1 & E2). specialize (K _ D L). unfold hview, hbuf. rewrite E1, E2, E.
    destruct (nth_error h1 (vloc w1)) as [x|], (nth_error h2 (move (vloc w1))) as [y|]; cbn in K; try contradiction; [|reflexivity].
    destruct K; reflexivity. }
  assert (Mp : forall l1 l2, lr (length h1) l1 l2 -> Forall2 (erel n1 n2 dom0 m0 (length h1)) (hmap h1 l1) (hmap h2 l2)).
  { intros l1 l2 (D & L & ->). specialize (K l1 D L). unfold hmap.
    destruct (nth_error h1 l1) as [x|], (nth_error h2 (move l1)) as [y|]; cbn in K; try contradiction; [|constructor].
    destruct K; try constructor. assumption. }
  induction n as [|n IH]; intros v1 v2 V; [reflexivity|].
  destruct V as [v F|w1 w2 H|b j Hb Hj|l1 l2 H|i l1 l2 H|cls l1 l2 H|l1 l2 H|p1 p2 q1 q2 H H'|cls w1 w2 H|t w1 w2 H]; cbn [observe].
  - destruct v; try contradiction; reflexivity.
  - now rewrite (W _ _ H).
  - f_equal. apply map_ext_in. intros i Hi. apply in_seq in Hi. apply IH, G.
    split; [left; unfold loc in *; lia|]. split; [unfold loc in *; lia|]. rewrite (mv_new n1 n2 m0 b Hb), (mv_new n1 n2 m0 (b + i)) by (clear - Hb; unfold loc in *; lia). clear - Hb. unfold loc in *; lia.
  - f_equal. specialize (Mp _ _ H). induction Mp as [|x y p q [E V] F IHp]; [reflexivity|]. cbn [map]. rewrite E, (IH _ _ V), IHp. reflexivity.
  - f_equal. auto.
  - f_equal. auto.
  - f_equal. auto.
  - now rewrite (W _ _ H), (W _ _ H').
  - now rewrite (W _ _ H).
  - now rewrite (W _ _ H).
Qed.

(** Related outcomes of a call, looked at in a memory that agrees with the second one on
    everything that existed after it. *)
Lemma seen_where s1 s2 h l1 l2 : R2 s1 s2 -> lr (length (d_heap s1)) l1 l2 ->
  (forall l, dom n1 dom0 l -> l < length (d_heap s1) -> nth_error h (move l) = nth_error (d_heap s2) (move l)) ->
  forall n, observe n h (hget h l2) = observe n (d_heap s1) (hget (d_heap s1) l1).
Proof.
  intros Hr Hl Up n. symmetry. apply observe_reloc.
  - intros l D L. rewrite Up by assumption. exact (R_cell n1 n2 dom0 m0 old s1 s2 l (move l) Hr (conj D (conj L eq_refl))).
  - destruct Hl as (D & L & ->). unfold hget at 2. rewrite Up by assumption.
    exact (R_hget n1 n2 dom0 m0 old s1 s2 l1 (move l1) Hr (conj D (conj L eq_refl))).
Qed.
Lemma seen_reloc s1 s2 h l1 l2 : R2 s1 s2 -> lr (length (d_heap s1)) l1 l2 ->
  (forall l, l < length (d_heap s2) -> nth_error h l = nth_error (d_heap s2) l) ->
  forall n, observe n h (hget h l2) = observe n (d_heap s1) (hget (d_heap s1) l1).
Proof.
  intros Hr Hl A. apply (seen_where s1 s2 h l1 l2 Hr Hl). intros l D L.
  pose proof (R_cell n1 n2 dom0 m0 old s1 s2 l (move l) Hr (conj D (conj L eq_refl))) as C.
  destruct (nth_error (d_heap s1) l) eqn:E1; [|apply nth_error_None in E1; lia].
  destruct (nth_error (d_heap s2) (move l)) eqn:E2; [|contradiction]. rewrite <- E2. apply A. now apply nth_error_Some_lt in E2.
Qed.
End Two.

(** ** Calls in one memory *)
(** cells 0, 1 and 2 of a call alone are the next three cells here *)
Definition alone (l : loc) : Prop := l < 3.
Lemma start_R n2 H copy tr1 tr2 b made : n2 = length H + 3 -> tr1 = [] -> tr2 = [] ->
  Reloc.R 3 n2 alone (fun l => length H + l) (H ++ [CBuf b; CV GNil; CV GNil])
    (mkDState [CBuf b; CV GNil; CV GNil] tr1 copy []) (mkDState (H ++ [CBuf b; CV GNil; CV GNil]) tr2 copy made).
Proof.
  intros -> -> ->. unfold Reloc.R. cbn [d_heap d_tracked d_copy length]. rewrite app_length. cbn [length].
  split; [lia|]. split; [lia|]. split; [|split; [constructor|split; [reflexivity|auto]]].
  intros l [D|D].
  - rewrite (proj2 (nth_error_None _ _)) by (cbn [length]; exact D).
    rewrite (proj2 (nth_error_None _ _)); [exact I|]. rewrite app_length. cbn [length]. rewrite mv_new by exact D. unfold loc in *; lia.
  - unfold alone in D. unfold mv. destruct (Nat.ltb_spec l 3); [|lia]. rewrite nth_error_app2 by lia.
    replace (length H + l - length H) with l by lia. destruct l as [|[|[|l]]]; [| | |lia]; cbn; constructor; constructor; exact I.
Qed.
Definition moved (n : nat) (t : target) : target := match t with TgtIface l => TgtIface (n + l) | t => t end.
Lemma session_call_eq q s : session_call k c q s =
  let '(b, vh, vb) := req_targets q in
  let n := length (d_heap s) in
  let '(r, s') := unmarshal_raw k c b n (moved n vh) (moved n vb) (with_heap s (d_heap s ++ [CBuf b; CV GNil; CV GNil])) in
  (recovered r, n, s').
Proof. destruct q; reflexivity. Qed.

(** one call: what it gives later, and what it leaves alone *)
Lemma one_call q s : d_copy s = 0 -> call_panics k c new_decoder q = false ->
  let '(o, s') := session_call k c q s in
  d_copy s' = 0 /\ length (d_heap s) <= length (d_heap s') /\
  (forall l, l < length (d_heap s) -> nth_error (d_heap s') l = nth_error (d_heap s) l) /\
  forall h, (forall l, l < length (d_heap s') -> nth_error h l = nth_error (d_heap s') l) ->
    same_results (seen_later h o) (call_result k c new_decoder q).
Proof.
  intros C0 Np. rewrite session_call_eq. unfold call_panics in Np. unfold call_result. pose proof (call_wpc k c new_decoder q) as Cw.
  rewrite call_raw_eq in *. unfold ready_d in *.
  assert (Tg : let '(b, vh, vb) := req_targets q in forall n0 n2 f, n0 = 3 -> n2 = length (d_heap s) + 3 ->
     f = (fun l => length (d_heap s) + l) ->
     tgt 3 n2 alone f n0 vh (moved (length (d_heap s)) vh) /\ tgt 3 n2 alone f n0 vb (moved (length (d_heap s)) vb)).
  { destruct q; cbn; intros n0 n2 f -> -> ->; split; try exact I; (split; [right; unfold alone; lia|split; [lia|reflexivity]]). }
  destruct (req_targets q) as [[b vh] vb]. cbv zeta. cbn [new_decoder de_tracked de_copy] in *.
  set (n := length (d_heap s)) in *. set (H := d_heap s) in *.
  destruct (Tg _ _ _ eq_refl eq_refl eq_refl) as [T1 T2]. clear Tg.
  set (f := fun l : loc => n + l) in *.
  pose proof (raw_eqt k c b n (moved n vh) (moved n vb)
    (with_heap s (H ++ [CBuf b; CV GNil; CV GNil])) (mkDState (H ++ [CBuf b; CV GNil; CV GNil]) [] 0 (d_made s))) as Eq.
  destruct Eq as [Eq1 (Eq2 & Eq3 & _)]. { unfold eqt. cbn. auto. }
  pose proof (rel_raw 3 (n + 3) alone f (H ++ [CBuf b; CV GNil; CV GNil])) as Rr.
  specialize (Rr ltac:(unfold alone, f; intros; split; lia) ltac:(unfold f, loc; intros; lia)).
  specialize (Rr 3 b 0 n vh (moved n vh) vb (moved n vb)).
  specialize (Rr ltac:(split; [right; unfold alone; lia|split; [lia|unfold mv, f; cbn; unfold loc; lia]]) T1 T2).
  specialize (Rr _ _ (start_R (n + 3) H 0 [] [] b (d_made s) eq_refl eq_refl eq_refl) ltac:(cbn; lia)).
  destruct Rr as (L & Rr & O).
  destruct (unmarshal_raw k c b n (moved n vh) (moved n vb) (with_heap s (H ++ [CBuf b; CV GNil; CV GNil]))) as [r s'].
  destruct (unmarshal_raw k c b n (moved n vh) (moved n vb) (mkDState (H ++ [CBuf b; CV GNil; CV GNil]) [] 0 (d_made s))) as [r2 s2].
  destruct (unmarshal_raw k c b 0 vh vb (mkDState [CBuf b; CV GNil; CV GNil] [] 0 [])) as [r1 s1].
  cbn [fst snd] in *. subst r. assert (Cs : d_copy s1 = 0) by (destruct r1; try tauto; discriminate).
  destruct Rr as (A1 & A2 & A3 & A4 & A5 & A6). rewrite Eq3, <- A5, Eq2. split; [exact Cs|]. split; [lia|]. split.
  { intros l Hl. rewrite A6; [apply nth_error_app1; exact Hl|lia|]. unfold f. intros l1 _ E. lia. }
  intros h Ag.
  assert (Rr : Reloc.R 3 (n + 3) alone f (H ++ [CBuf b; CV GNil; CV GNil]) s1 s2) by (unfold Reloc.R; auto 8).
  assert (Sn : forall l, l < 3 -> forall m, observe m h (hget h (n + l)) = observe m (d_heap s1) (hget (d_heap s1) l)).
  { intros l Hl m. eapply seen_reloc; [..|exact Rr| |exact Ag]; try (unfold alone, f, loc; intros; lia).
    split; [right; exact Hl|]. cbn in L. split; [lia|]. unfold mv, f. destruct (Nat.ltb_spec l 3); [reflexivity|lia]. }
  unfold seen_later. cbn [fst snd].
  destruct r1 as [u|e|e| |], r2 as [u2|e2|e2| |]; cbn in O |- *; try tauto; try discriminate; auto.
Qed.

Theorem session_results qs : (forall q, In q qs -> call_panics k c new_decoder q = false) -> forall s, d_copy s = 0 ->
  length (d_heap s) <= length (d_heap (snd (session k c qs s))) /\
  (forall l, l < length (d_heap s) -> nth_error (d_heap (snd (session k c qs s))) l = nth_error (d_heap s) l) /\
  Forall2 (fun q o => same_results (seen_later (d_heap (snd (session k c qs s))) o) (call_result k c new_decoder q))
    qs (fst (session k c qs s)).
Proof.
  induction qs as [|q qs IH]; intros Np s C0; cbn [session]; [cbn; auto|].
  pose proof (one_call q s C0 (Np q (or_introl eq_refl))) as O. destruct (session_call k c q s) as [o s1].
  destruct O as (C1 & L1 & K1 & S1). specialize (IH (fun q' H => Np q' (or_intror H)) s1 C1).
  destruct (session k c qs s1) as [os s2]. cbn [fst snd] in *. destruct IH as (L2 & K2 & S2). split; [lia|]. split.
  - intros l Hl. rewrite K2 by lia. auto.
  - constructor; auto.
Qed.

(** ** Header and body in one call *)
Definition idl (l : loc) : loc := l.
Lemma fresh_R (P : loc -> Prop) s : (forall l, P l -> l < 3) -> d_tracked s = [] -> d_copy s = 0 ->
  (forall b, nth_error (d_heap s) 0 = Some (CBuf b) -> 3 <= length (d_heap s) ->
   (forall l, P l -> l <> 0 -> nth_error (d_heap s) l = Some (CV GNil)) ->
   Reloc.R 3 (length (d_heap s)) P idl (d_heap s) (fresh_state b) s).
Proof.
  intros HP Ht Hc b E0 L3 El. unfold Reloc.R, fresh_state. cbn [d_heap d_tracked d_copy length]. rewrite Ht, Hc.
  split; [lia|]. split; [lia|]. split; [|split; [constructor|split; [reflexivity|auto]]].
  intros l [D|D].
  - rewrite (proj2 (nth_error_None _ _)) by (cbn [length]; exact D).
    rewrite (proj2 (nth_error_None _ _)); [exact I|]. rewrite mv_new by exact D. unfold loc in *; lia.
  - pose proof (HP l D). unfold mv, idl. destruct (Nat.ltb_spec l 3); [|lia].
    destruct l as [|[|[|l]]]; [| | |lia].
    + rewrite E0. constructor.
    + rewrite El by auto. constructor. constructor. exact I.
    + rewrite El by auto. constructor. constructor. exact I.
Qed.

Lemma raw_split b : (exists e, forall vh vb s, unmarshal_raw k c b 0 vh vb s = (Err e, s)) \/
  exists h dec bs, bs <= length b /\ forall vh vb s, unmarshal_raw k c b 0 vh vb s =
    (unmarshal_header c b 0 h bs vh ;; unmarshal_body k c b 0 h dec bs vb) s.
Proof.
  destruct (checkHeader_total b) as [[h Ch]|[e Ch]].
  2:{ left. exists e. intros. unfold unmarshal_raw. unfold mbind at 1. unfold lift at 1. now rewrite Ch. }
  destruct (decompressor_total (h_version h) (h_doctype h)) as [[dec D]|[e D]].
  2:{ left. exists e. intros. unfold unmarshal_raw. unfold mbind at 1. unfold lift at 1. rewrite Ch. unfold mbind at 1. unfold lift at 1. now rewrite D. }
  set (bs := wrap64 (Z.of_nat headerSize + h_suffixSize h)).
  destruct ((Z.of_nat (length b) <? bs) || (bs <? 0))%Z eqn:C; [left; exists EBadOffset|right; exists h, dec, (Z.to_nat bs); split; [lia|]];
    intros vh vb s; unfold unmarshal_raw; unfold mbind at 1; unfold lift at 1; rewrite Ch; unfold mbind at 1; unfold lift at 1; rewrite D; fold bs; now rewrite C.
Qed.

Theorem both_results b :
  header_then_body (unmarshal_header_fresh k c b) (unmarshal_fresh k c b) (call_result k c new_decoder (ReqBoth b)).
Proof.
  unfold unmarshal_header_fresh, unmarshal_fresh, call_result, call_raw, UnmarshalHeader, Unmarshal, UnmarshalHeaderBody.
  cbn [new_decoder de_tracked de_copy]. fold (fresh_state b).
  destruct (raw_split b) as [[e E]|(h & dec & bs & Lb & E)]; rewrite !E; [reflexivity|].
  set (s0 := fresh_state b).
  change (unmarshal_header c b 0 h bs TgtNone) with (@ret unit tt). unfold mbind, ret.
  change (fun s : dstate => unmarshal_body k c b 0 h dec bs TgtNone s) with (fun s : dstate => (Ok tt, s)).
  pose proof (header_wpc c b 0 h bs (TgtIface 1) s0) as Wh. specialize (Wh ltac:(split; [cbn; lia|reflexivity])). unfold wpc in Wh.
  assert (Hself : Reloc.R 3 3 (fun l => l < 2) idl (d_heap s0) s0 s0 ->
    Reloc.R 3 3 (fun l => l < 2) idl (d_heap s0) (snd (unmarshal_header c b 0 h bs (TgtIface 1) s0)) (snd (unmarshal_header c b 0 h bs (TgtIface 1) s0))).
  { intros R0.
    assert (D0 : forall l : loc, l < 2 -> l < 3 /\ idl l < 3) by (unfold idl, loc; intros; lia).
    assert (In : forall l, l < 2 -> lrel 3 3 (fun l => l < 2) idl 3 l l).
    { intros l H. split; [now right|]. split; [lia|]. unfold mv, idl. destruct (Nat.ltb_spec l 3); [reflexivity|lia]. }
    exact (proj1 (proj2 (rel_header 3 3 (fun l => l < 2) idl (d_heap s0) D0 (fun _ _ _ _ E => E) 3 b 0 0 h bs (TgtIface 1) (TgtIface 1)
      (In 0 Nat.lt_0_2) (In 1 Nat.lt_1_2) s0 s0 R0 (le_n 3)))). }
  specialize (Hself (fresh_R (fun l => l < 2) s0 ltac:(cbn beta; intros; lia) eq_refl eq_refl b eq_refl (le_n 3)
    ltac:(cbn beta; intros [|[|l]] H1 H2; [congruence|reflexivity|lia]))).
  destruct (unmarshal_header c b 0 h bs (TgtIface 1) s0) as [[[]|e|e| |] sh] eqn:Eh; cbn [recovered bind header_then_body]; try reflexivity; [|contradiction].
  cbn [snd] in Hself. destruct Wh as [(Lh & Th & _) Ch]. cbn in Lh, Ch.
  assert (T0 : nth_error (d_heap sh) 0 = Some (CBuf b)) by (rewrite Th; [reflexivity|cbn; lia|cbn; lia]).
  assert (T2 : nth_error (d_heap sh) 2 = Some (CV GNil)) by (rewrite Th; [reflexivity|cbn; lia|cbn; lia]).
  pose proof (body_eqt k c b 0 h dec bs (TgtIface 2) sh (reset sh)) as Eq.
  destruct Eq as [Eq1 (Eq2 & _)]. { unfold eqt, reset. cbn. auto. }
  pose proof (body_wpc k c b 0 h dec bs (TgtIface 2) (reset sh)) as Wb.
  destruct Wb as [Wb _]; [split; [cbn; lia|change (hget (d_heap sh) 2 = GNil); unfold hget; now rewrite T2]|exact Lb|].
  set (P := fun l : loc => l = 0 \/ l = 2).
  assert (Rb : Reloc.R 3 (length (d_heap sh)) P idl (d_heap sh) s0 (reset sh)).
  { apply (fresh_R P (reset sh)); try reflexivity; try assumption; unfold P.
    - intros l [->| ->]; lia.
    - intros l [->| ->] N; [congruence|exact T2]. }
  pose proof (rel_ubody 3 (length (d_heap sh)) P idl (d_heap sh)) as Hb.
  specialize (Hb ltac:(unfold P, idl; intros l [->| ->]; lia) ltac:(unfold idl; auto) 3 b 0 0 h dec bs (TgtIface 2) (TgtIface 2)).
  specialize (Hb ltac:(repeat split; [right; now left|lia]) ltac:(repeat split; [right; now right|lia]) _ _ Rb (le_n 3)).
  destruct Hb as (Lb' & Rf & O). unfold wpc in Wb.
  destruct (unmarshal_body k c b 0 h dec bs (TgtIface 2) s0) as [rb sb] eqn:Eb0.
  destruct (unmarshal_body k c b 0 h dec bs (TgtIface 2) (reset sh)) as [r2 s2] eqn:Eb2.
  destruct (unmarshal_body k c b 0 h dec bs (TgtIface 2) sh) as [r3 s3] eqn:Eb3.
  cbn [fst snd] in *. subst r3.
  destruct rb as [[]|e|e| |], r2 as [[]|e2|e2| |]; cbn in O; try contradiction; cbn [recovered bind]; try (subst; reflexivity).
  rewrite Eq2. eexists _, _, _. split; [reflexivity|]. intros n. destruct Wb as [(L2 & W2 & _) _]. cbn in L2, W2. split.
  - eapply (seen_where 3 3 (fun l => l < 2) idl (d_heap s0)); [..|exact Hself| |]; try (unfold idl, loc; intros; lia).
    + split; [right; lia|]. split; [lia|reflexivity].
    + intros l D L. assert (M : mv 3 3 idl l = l) by (unfold mv, idl; destruct (Nat.ltb_spec l 3); unfold loc in *; lia).
      rewrite M. apply W2; [exact L|]. unfold dom in D. intros <-. lia.
  - eapply (seen_where 3 (length (d_heap sh)) P idl (d_heap sh)); [..|exact Rf| |]; try (unfold P, idl; intros l [->| ->]; lia); try (unfold idl; auto; fail).
    + split; [right; now right|]. cbn in Lb'. split; [lia|reflexivity].
Qed.
End Api.
