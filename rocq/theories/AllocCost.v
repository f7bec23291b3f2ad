(** How much memory a decoding asks for: the elements of every make() and the cells of the
    heap, counted against the bytes read. *)
From Verif Require Import Base BaseFacts Varint VarintFacts Tags GoMem Decode DecodeSafe.
From Coq Require Import ZifyBool ZifyNat ZifyN.
Ltac Zify.zify_post_hook ::= Z.div_mod_to_equations.

Definition made_sum (m : list (nat * nat)) : nat := list_sum (map fst m).
Definition cost (s : dstate) : nat := made_sum (d_made s) + length (d_heap s).

(** Q after success, E after an error or a panic; crashes are excluded elsewhere *)
Definition pc {A} (m : M A) (Q : A -> dstate -> Prop) (E : dstate -> Prop) (s : dstate) : Prop :=
  match m s with
  | (Ok a, s') => Q a s'
  | (Err _, s') | (Panic _, s') => E s'
  | (Crash, _) | (NoFuel, _) => True
  end.

Lemma pc_bind A B (m : M A) (k : A -> M B) Q E s :
  pc m (fun a => pc (k a) Q E) E s -> pc (mbind m k) Q E s.
Proof. unfold pc, mbind. destruct (m s) as [[a|e|e| |] s']; auto. Qed.

Lemma pc_mono A (m : M A) (Q Q' : A -> dstate -> Prop) (E E' : dstate -> Prop) s :
  pc m Q E s -> (forall a s', Q a s' -> Q' a s') -> (forall s', E s' -> E' s') -> pc m Q' E' s.
Proof. unfold pc. destruct (m s) as [[a|e|e| |] s']; auto. Qed.

Lemma pc_wp A (m : M A) (Q : A -> dstate -> Prop) (E : dstate -> Prop) s : wp m Q E E s -> pc m Q E s.
Proof. unfold wp, pc. destruct (m s) as [[a|e|e| |] s']; auto. Qed.

Lemma cost_set s l x : cost (with_heap s (upd (d_heap s) l x)) = cost s.
Proof. unfold cost. cbn [with_heap d_made d_heap]. now rewrite upd_length. Qed.
Lemma cost_app s x : cost (with_heap s (d_heap s ++ x)) = cost s + length x.
Proof. unfold cost. cbn [with_heap d_made d_heap]. rewrite app_length. lia. Qed.

Section Cost.
Variable c : dconfig.
Variable by_ : bytes.
Variable ibuf : loc.
Variable ishift : nat.
Notation len := (length by_).

(** [w] for every byte read, [D] once at an error *)
Variables w D : nat.
Hypothesis w6 : 6 <= w.
Definition errs (idx : nat) : nat := (len - idx) * (w + 2 * len + 6) + D.

Lemma errs_mono i j : i <= j -> errs j <= errs i.
Proof. intros H. unfold errs. apply Nat.add_le_mono_r, Nat.mul_le_mono_r. lia. Qed.

(** an error at [j] after reading from [i] and setting up something of the size of the input *)
Lemma errs_step i j : i < j -> j <= len -> w * (j - i) + 2 * len + 6 + errs j <= errs i.
Proof.
  intros H L. unfold errs. replace (len - i) with ((len - j) + (j - i)) by lia.
  generalize (len - j). intros e. assert (H0 : 1 <= j - i) by lia. generalize dependent (j - i). intros d H0.
  replace (w + 2 * len + 6) with (w + (2 * len + 6)) by lia.
  rewrite Nat.mul_add_distr_r, (Nat.mul_add_distr_l d), (Nat.mul_comm d w).
  assert (E : 2 * len + 6 <= d * (2 * len + 6)) by (destruct d; [lia|cbn [Nat.mul]; lia]). lia.
Qed.

Lemma errs_step' i j : i < j -> j <= len -> 2 * len + 6 + errs j <= errs i.
Proof. intros H L. pose proof (errs_step i j H L). generalize dependent (w * (j - i)). intros. lia. Qed.

Ltac bylin := first [lia | match goal with |- context [w * ?x] => generalize (w * x); intros; lia end].

Definition crec (rec : nat -> loc -> M nat) (lo copy : nat) : Prop :=
  forall idx ptr s, lo <= idx -> d_copy s = copy ->
    pc (rec idx ptr)
       (fun i s' => idx < i <= len /\ d_copy s' = copy /\ cost s' + 2 <= cost s + w * (i - idx))
       (fun s' => cost s' <= cost s + errs idx) s.

(** what holds after the contents, from [idx] on, of an item; [extra] has been set up for it *)
Definition cpost (copy idx : nat) (s0 : dstate) (i : nat) (s' : dstate) : Prop :=
  idx <= i <= len /\ d_copy s' = copy /\ cost s' <= cost s0 + 3 + w * (i - idx).
Definition cerr (idx : nat) (s0 s' : dstate) : Prop := cost s' <= cost s0 + 2 * len + 6 + errs idx.

Lemma cerr_here idx s : cerr idx s s.
Proof. unfold cerr. lia. Qed.

Lemma pc_hash_loop rec copy lo n : crec rec lo copy ->
  forall m idx s, lo <= idx -> idx <= len -> d_copy s = copy ->
  pc (hash_loop by_ rec n m idx)
     (fun i s' => idx <= i <= len /\ d_copy s' = copy /\ cost s' + n <= cost s + w * (i - idx))
     (fun s' => cost s' <= cost s + errs idx) s.
Proof.
  intros R. induction n as [|n IH]; intros m idx s Hlo Hi Hc; cbn [hash_loop].
  - unfold pc. cbn [ret]. rewrite Nat.sub_diag, Nat.mul_0_r. split; [lia|split; [exact Hc|lia]].
  - apply pc_bind, pc_wp, (wp_decodeStringish by_ 0); [|apply Nat.le_add_r].
    intros x i _ Hi1 Hi2 _. rewrite Nat2Z.id in Hi1. apply pc_bind. unfold pc at 1. cbn [alloc].
    set (s1 := with_heap s (d_heap s ++ [CV GNil])).
    assert (C1 : cost s1 = cost s + 1) by (unfold s1; now rewrite cost_app).
    apply pc_bind. eapply pc_mono.
    { apply (R i (length (d_heap s)) s1); [lia|exact Hc]. }
    + intros j s2 (J & Hc2 & C2). apply pc_bind. unfold pc at 1. cbn [get_var].
      apply pc_bind. unfold pc at 1. cbn [map_set]. set (s3 := with_heap s2 _).
      assert (C3 : cost s3 = cost s2) by (apply cost_set).
      assert (W : w * (j - idx) >= w * (j - i)) by (apply Nat.mul_le_mono_l; lia).
      eapply pc_mono; [apply (IH m j s3); [lia|lia|exact Hc2]| |].
      * intros p s4 (P & Hc4 & C4). split; [lia|split; [exact Hc4|]].
        replace (p - idx) with ((p - j) + (j - idx)) by lia. rewrite Nat.mul_add_distr_l. lia.
      * intros s4 C4. cbv beta in C4. pose proof (errs_step idx j ltac:(lia) ltac:(lia)). lia.
    + intros s2 C2. cbv beta in C2. pose proof (errs_step' idx i ltac:(lia) ltac:(lia)). lia.
Qed.

Lemma pc_array_loop rec copy lo n : crec rec lo copy ->
  forall base idx s, lo <= idx -> idx <= len -> d_copy s = copy ->
  pc (array_loop rec n base idx)
     (fun i s' => idx <= i <= len /\ d_copy s' = copy /\ cost s' + 2 * n <= cost s + w * (i - idx))
     (fun s' => cost s' <= cost s + errs idx) s.
Proof.
  intros R. induction n as [|n IH]; intros base idx s Hlo Hi Hc; cbn [array_loop].
  - unfold pc. cbn [ret]. rewrite Nat.sub_diag, Nat.mul_0_r. split; [lia|split; [exact Hc|lia]].
  - apply pc_bind. eapply pc_mono; [apply (R idx base s); [lia|exact Hc]| |].
    + intros j s2 (J & Hc2 & C2).
      eapply pc_mono; [apply (IH (S base) j s2); [lia|lia|exact Hc2]| |].
      * intros p s4 (P & Hc4 & C4). split; [lia|split; [exact Hc4|]].
        replace (p - idx) with ((p - j) + (j - idx)) by lia. rewrite Nat.mul_add_distr_l. lia.
      * intros s4 C4. cbv beta in C4. pose proof (errs_step idx j ltac:(lia) ltac:(lia)). lia.
    + intros s2 C2. exact C2.
Qed.

Lemma pc_decodeHash rec copy idx ln ptr isRef s :
  crec rec idx copy -> idx <= len -> d_copy s = copy ->
  pc (decodeHash by_ rec idx ln ptr isRef) (cpost copy idx s) (cerr idx s) s.
Proof.
  intros R Hi Hc. unfold decodeHash, blen.
  destruct ((ln <? 0) || (maxInt32 <? ln))%Z eqn:B1; [apply cerr_here|].
  destruct (Z.of_nat len <? Z.of_nat idx + 2 * ln)%Z eqn:B2; [apply cerr_here|].
  assert (Hn : 2 * Z.to_nat ln <= len) by lia. set (n := Z.to_nat ln) in *.
  apply pc_bind. unfold pc at 1. cbn [log_make]. apply pc_bind. unfold pc at 1. cbn [alloc].
  set (s1 := with_heap _ _).
  assert (C1 : cost s1 = cost s + n + 1) by (unfold s1; rewrite cost_app; unfold cost, made_sum; cbn [d_made d_heap map fst list_sum fold_right length]; unfold list_sum; lia).
  assert (Next : forall s2, d_copy s2 = copy -> cost s2 <= cost s1 + 1 ->
    pc (hash_loop by_ rec n (length (d_heap s)) idx) (cpost copy idx s) (cerr idx s) s2).
  { intros s2 Hc2 C2. eapply pc_mono; [apply (pc_hash_loop rec copy idx n R); [lia|lia|exact Hc2]| |].
    - intros i s3 (I & Hc3 & C3). split; [lia|split; [exact Hc3|lia]].
    - intros s3 C3. cbv beta in C3. unfold cerr. lia. }
  apply pc_bind. destruct isRef.
  - apply pc_bind. unfold pc at 1. cbn [alloc]. unfold pc at 1. cbn [set_var]. apply Next; [exact Hc|].
    rewrite cost_set, cost_app. cbn [length]. lia.
  - unfold pc at 1. cbn [set_var]. apply Next; [exact Hc|]. rewrite cost_set. lia.
Qed.

Lemma pc_decodeArray rec copy idx ln ptr isRef s :
  crec rec idx copy -> idx <= len -> d_copy s = copy ->
  pc (decodeArray by_ rec idx ln ptr isRef) (cpost copy idx s) (cerr idx s) s.
Proof.
  intros R Hi Hc. unfold decodeArray, blen.
  destruct ((ln <? 0) || (maxInt32 <? ln))%Z eqn:B1; [apply cerr_here|].
  destruct (Z.of_nat len <? Z.of_nat idx + ln)%Z eqn:B2; [apply cerr_here|].
  assert (Hn : Z.to_nat ln <= len) by lia. set (n := Z.to_nat ln) in *.
  apply pc_bind. unfold pc at 1. cbn [log_make]. apply pc_bind. unfold pc at 1. cbn [alloc_n].
  set (s1 := with_heap _ _).
  assert (C1 : cost s1 <= cost s + 2 * n + 1)
    by (unfold s1; rewrite cost_app, repeat_length; unfold cost, made_sum; cbn [d_made d_heap map fst list_sum fold_right length]; unfold list_sum; lia).
  assert (Next : forall s2, d_copy s2 = copy -> cost s2 <= cost s1 + 1 ->
    pc (array_loop rec n (length (d_heap s)) idx) (cpost copy idx s) (cerr idx s) s2).
  { intros s2 Hc2 C2. eapply pc_mono; [apply (pc_array_loop rec copy idx n R); [lia|lia|exact Hc2]| |].
    - intros i s3 (I & Hc3 & C3). split; [lia|split; [exact Hc3|lia]].
    - intros s3 C3. cbv beta in C3. unfold cerr. lia. }
  apply pc_bind. destruct isRef.
  - apply pc_bind. unfold pc at 1. cbn [alloc]. unfold pc at 1. cbn [set_var]. apply Next; [exact Hc|].
    rewrite cost_set, cost_app. cbn [length]. lia.
  - unfold pc at 1. cbn [set_var]. apply Next; [exact Hc|]. rewrite cost_set. lia.
Qed.

(** *ptr = v, then done *)
Lemma pc_done copy idx i s0 s ptr v : idx <= i <= len -> d_copy s = copy ->
  cost s <= cost s0 + 3 + w * (i - idx) ->
  pc (set_var ptr v ;; ret i) (cpost copy idx s0) (cerr idx s0) s.
Proof. intros H1 H2 H3. cbn. split; [lia|split; [exact H2|]]. rewrite cost_set. bylin. Qed.

Lemma pc_new_done copy idx i s0 s ptr cl (f : loc -> gval) : idx <= i <= len -> d_copy s = copy ->
  cost s + 1 <= cost s0 + 3 + w * (i - idx) ->
  pc (let! l := alloc cl in (set_var ptr (f l) ;; ret i)) (cpost copy idx s0) (cerr idx s0) s.
Proof.
  intros H1 H2 H3. apply pc_bind. unfold pc at 1. cbn [alloc]. apply pc_done; [lia|exact H2|].
  rewrite cost_app. cbn [length]. bylin.
Qed.

(** the recursive call, with little set up before it *)
Lemma pc_rec rec copy idx j l s0 s (Q : nat -> dstate -> Prop) :
  crec rec idx copy -> d_copy s = copy -> idx <= j -> cost s <= cost s0 + 3 ->
  (forall i s', j < i <= len -> d_copy s' = copy -> cost s' + 2 <= cost s + w * (i - idx) -> Q i s') ->
  pc (rec j l) Q (cerr idx s0) s.
Proof.
  intros R Hc Hj C HQ. eapply pc_mono; [apply (R j l s); [lia|exact Hc]| |].
  - intros i s' (I & Hc' & C'). apply HQ; [lia|exact Hc'|].
    assert (w * (i - j) <= w * (i - idx)) by (apply Nat.mul_le_mono_l; lia). lia.
  - intros s' C'. cbv beta in C'. unfold cerr. pose proof (errs_mono idx j Hj). lia.
Qed.

Lemma pc_via_iface rec copy idx j ptr s :
  crec rec idx copy -> d_copy s = copy -> idx <= j ->
  pc (decode_via_iface by_ rec j ptr) (cpost copy idx s) (cerr idx s) s.
Proof.
  intros R Hc Hj. unfold decode_via_iface.
  destruct (Nat.leb_spec len j); [apply cerr_here|].
  apply pc_bind. unfold pc at 1. cbn [get_var]. destruct (hget (d_heap s) ptr); try exact I.
  apply pc_bind. unfold pc at 1. cbn [alloc]. apply pc_bind.
  apply pc_rec with (copy := copy); [exact R|exact Hc|lia|rewrite cost_app; cbn [length]; lia|].
  intros i s' Hi Hc' C'. rewrite cost_app in C'. cbn [length] in C'.
  apply pc_bind. unfold pc at 1. cbn [get_var].
  destruct (hget (d_heap s') _); try (apply pc_done; [lia|exact Hc'|bylin]).
  cbn. split; [lia|split; [exact Hc'|lia]].
Qed.

Lemma pc_decodeObject rec copy idx ptr v s :
  crec rec idx copy -> d_copy s = copy -> idx <= len ->
  pc (decodeObject c by_ rec idx ptr v) (cpost copy idx s) (cerr idx s) s.
Proof.
  intros R Hc Hi. unfold decodeObject. apply pc_bind, pc_wp.
  apply (wp_class_name by_ 0); [exact Hi|apply cerr_here|]. intros cls i H1 H2.
  destruct (d_perl c); [|apply pc_via_iface; auto; lia].
  apply pc_bind. unfold pc at 1. cbn [alloc]. apply pc_bind. unfold pc at 1. cbn [set_var].
  apply pc_rec with (copy := copy); [exact R|exact Hc|lia|rewrite cost_set, cost_app; cbn [length]; lia|].
  intros j s' Hj Hc' C'. rewrite cost_set, cost_app in C'. cbn [length] in C'.
  split; [lia|split; [exact Hc'|lia]].
Qed.

Lemma pc_decodeFreeze rec copy idx ptr v s :
  crec rec idx copy -> d_copy s = copy -> idx <= len ->
  pc (decodeFreeze c by_ rec idx ptr v) (cpost copy idx s) (cerr idx s) s.
Proof.
  intros R Hc Hi. unfold decodeFreeze. apply pc_bind, pc_wp.
  apply (wp_class_name by_ 0); [exact Hi|apply cerr_here|]. intros cls i H1 H2.
  destruct (Nat.leb_spec len (i + 1)); [apply cerr_here|].
  destruct (nth_error by_ i) eqn:E1; [|exact I].
  destruct (nth_error by_ (i + 1)) eqn:E2; [|exact I].
  destruct (negb _); [apply cerr_here|].
  apply pc_bind. unfold pc at 1. cbn [alloc]. apply pc_bind.
  apply pc_rec with (copy := copy); [exact R|exact Hc|lia|rewrite cost_app; cbn [length]; lia|].
  intros j s' Hj Hc' C'. rewrite cost_app in C'. cbn [length] in C'.
  assert (Ce : cerr idx s s').
  { unfold cerr. pose proof (errs_step idx j ltac:(lia) ltac:(lia)). lia. }
  apply pc_bind. unfold pc at 1. cbn [get_var].
  destruct (hget (d_heap s') (length (d_heap s))); try exact Ce.
  destruct (negb _); [exact Ce|].
  apply pc_bind. unfold pc at 1. cbn [get_var].
  destruct (hget (d_heap s') base); try exact Ce.
  destruct (d_perl c); [apply pc_new_done; [lia|exact Hc'|bylin]|].
  apply pc_bind. unfold pc at 1. cbn [get_var]. destruct (hget (d_heap s') ptr); try exact I.
  destruct (d_um c cls) as [[t|t]|].
  - unfold pc. destruct (d_unmarshal c t _); [|exact Ce]. apply pc_done; [lia|exact Hc'|bylin].
  - exact Ce.
  - apply pc_new_done; [lia|exact Hc'|bylin].
Qed.

Lemma pc_decodeREFP_ALIAS copy idx ptr r s : idx <= len -> d_copy s = copy ->
  pc (decodeREFP_ALIAS c by_ idx ptr r) (cpost copy idx s) (cerr idx s) s.
Proof.
  intros Hi Hc. unfold decodeREFP_ALIAS. apply pc_bind, pc_wp.
  apply wp_varint_at; [exact Hi| |apply cerr_here]. intros n sz _ B L.
  destruct ((n <? 0) || (Z.of_nat (idx + sz) <=? n))%Z; [apply cerr_here|].
  apply pc_bind. unfold pc at 1. cbn [get_tracked].
  destruct (assoc_nat _ _) as [rl|]; [|apply cerr_here].
  apply pc_bind. unfold pc at 1. cbn [get_var].
  destruct r; [|apply pc_done; [lia|exact Hc|bylin]].
  destruct (hget (d_heap s) rl); try apply cerr_here;
    destruct (d_noref c); try (apply pc_done; [lia|exact Hc|bylin]); (apply pc_new_done; [lia|exact Hc|bylin]).
Qed.

Lemma pc_decodeRegexp copy idx ptr s : idx <= len -> d_copy s = copy ->
  pc (decodeRegexp by_ ibuf ishift idx ptr) (cpost copy idx s) (cerr idx s) s.
Proof.
  intros Hi Hc. unfold decodeRegexp. apply pc_bind, pc_wp.
  apply (wp_decodeStringish by_ 0); [|apply cerr_here]. intros w1 i1 _ A1 A2 _. rewrite Nat2Z.id in A1.
  apply pc_bind, pc_wp. apply (wp_decodeStringish by_ 0); [|apply cerr_here].
  intros w2 i2 _ B1 B2 _. rewrite Nat2Z.id in B1.
  apply pc_new_done; [lia|exact Hc|bylin].
Qed.

Lemma pc_weaken copy idx j s0 (m : M nat) s : idx <= j ->
  pc m (cpost copy j s0) (cerr j s0) s -> pc m (cpost copy idx s0) (cerr idx s0) s.
Proof.
  intros L H. eapply pc_mono; [exact H| |].
  - intros i s' (A & B & C). split; [lia|split; [exact B|]].
    assert (w * (i - j) <= w * (i - idx)) by (apply Nat.mul_le_mono_l; lia). lia.
  - intros s' C. unfold cerr in *. pose proof (errs_mono idx j L). lia.
Qed.

Lemma pc_binary rec_copy idx i0 ln ptr s : i0 <= idx <= len -> d_copy s = rec_copy ->
  pc (let! (v, idx) := binary_copy by_ idx ln in set_var ptr (GBytes v) ;; ret idx)
     (cpost rec_copy i0 s) (cerr i0 s) s.
Proof.
  intros Hi Hc. apply pc_bind. unfold binary_copy. apply pc_bind, pc_wp, wp_binary_at; [lia|apply cerr_here|].
  intros b i A1 A2 A3. apply pc_bind. unfold pc at 1. cbn [log_make]. apply pc_bind. unfold pc at 1. cbn [alloc].
  unfold pc at 1. cbn [ret]. apply pc_done; [lia|exact Hc|].
  rewrite cost_app. unfold cost, made_sum. cbn [d_made d_heap map fst list_sum fold_right length].
  change (fold_right Nat.add 0 (map fst (d_made s))) with (list_sum (map fst (d_made s))).
  assert (i - idx <= w * (i - i0)) by nia. lia.
Qed.

Lemma pc_decode_tag rec copy k trk idx ptr s w1 :
  crec rec idx copy ->
  (k = TCopy -> copy = 0 -> w1 * len <= w /\
     forall t l s, d_copy s = 1 -> pc (rec t l)
       (fun i s' => i <= len /\ d_copy s' = 1 /\ cost s' <= cost s + w1 * len)
       (fun s' => cost s' <= cost s + D) s) ->
  idx <= len -> d_copy s = copy ->
  pc (decode_tag c by_ ibuf ishift rec k trk idx ptr) (cpost copy idx s) (cerr idx s) s.
Proof.
  intros R R0 Hi Hc.
  destruct k; cbn [decode_tag].
  - apply pc_done; [lia|exact Hc|bylin].
  - apply pc_bind, pc_wp, wp_varint_at; [exact Hi| |apply cerr_here]. intros n sz _ B L.
    apply pc_bind. destruct (n <? 0)%Z; unfold pc at 1; cbn [set_var ret]; cbn;
      (split; [lia|split; [exact Hc|rewrite cost_set; lia]]).
  - apply pc_bind, pc_wp, wp_varint_at; [exact Hi| |apply cerr_here]. intros n sz _ B L.
    apply pc_done; [lia|exact Hc|bylin].
  - apply pc_bind, pc_wp, wp_fixed_at; [lia|apply cerr_here|]. intros L n. apply pc_done; [lia|exact Hc|bylin].
  - apply pc_bind, pc_wp, wp_fixed_at; [lia|apply cerr_here|]. intros L n. apply pc_done; [lia|exact Hc|bylin].
  - apply pc_done; [lia|exact Hc|bylin].
  - apply pc_done; [lia|exact Hc|bylin].
  - apply pc_bind, pc_wp, wp_varint_at; [exact Hi| |apply cerr_here]. intros n sz _ B L.
    apply pc_weaken with (j := idx + sz); [lia|].
    apply pc_decodeHash; [|lia|exact Hc]. intros j l s' Hj. apply R. lia.
  - apply pc_decodeHash; auto.
  - apply pc_bind, pc_wp, wp_varint_at; [exact Hi| |apply cerr_here]. intros n sz _ B L.
    apply pc_weaken with (j := idx + sz); [lia|].
    apply pc_decodeArray; [|lia|exact Hc]. intros j l s' Hj. apply R. lia.
  - apply pc_decodeArray; auto.
  - apply pc_bind, pc_wp, wp_varint_at; [exact Hi| |apply cerr_here]. intros n sz _ B L.
    apply pc_bind, pc_wp, wp_binary_at; [lia|apply cerr_here|]. intros b i A1 A2 _.
    apply pc_done; [lia|exact Hc|bylin].
  - apply pc_bind, pc_wp, wp_varint_at; [exact Hi| |apply cerr_here]. intros n sz _ B L.
    apply pc_binary; [lia|exact Hc].
  - apply pc_binary; [lia|exact Hc].
  - apply pc_bind. destruct (d_perl c).
    + apply pc_bind. unfold pc at 1. cbn [alloc]. unfold pc at 1. cbn [set_var]. cbn.
      split; [lia|split; [exact Hc|]]. rewrite cost_set, cost_app. cbn [length]. bylin.
    + unfold pc at 1. cbn [set_var]. cbn. split; [lia|split; [exact Hc|]]. rewrite cost_set. bylin.
  - apply pc_bind. destruct (d_perl c); unfold pc at 1; cbn [set_var]; cbn;
      (split; [lia|split; [exact Hc|rewrite cost_set; lia]]).
  - (* COPY *)
    apply pc_bind. unfold pc at 1. cbn [get_copy].
    destruct (d_copy s) as [|dc] eqn:DC; cbn [Nat.ltb Nat.leb]; [|apply cerr_here].
    apply pc_bind, pc_wp, wp_varint_at; [exact Hi| |apply cerr_here]. intros n sz _ B L.
    destruct ((n <? 0) || (Z.of_nat idx <=? n))%Z eqn:B2; [apply cerr_here|].
    apply pc_bind. unfold pc at 1. cbn [set_copy].
    set (s1 := mkDState (d_heap s) (d_tracked s) 1 (d_made s)).
    apply pc_bind. destruct (R0 eq_refl (eq_sym Hc)) as (W1 & R1).
    specialize (R1 (Z.to_nat n) ptr s1 eq_refl). change (cost s1) with (cost s) in R1. unfold pc in R1 |- *.
    destruct (rec (Z.to_nat n) ptr s1) as [[a|e|e| |] s']; try exact I.
    + destruct R1 as (_ & Hc1 & C1). cbn. split; [lia|split; [rewrite Hc1, <- Hc; reflexivity|]].
      change (cost s' <= cost s + 3 + w * (idx + sz - idx)).
      assert (w <= w * (idx + sz - idx)) by (replace (idx + sz - idx) with (S (sz - 1)) by lia; nia). lia.
    + change (cost s' <= cost s + 2 * len + 6 + errs idx). unfold errs. lia.
    + unfold cerr, errs. lia.
  - (* REFN *)
    destruct (d_perl c).
    + apply pc_bind. unfold pc at 1. cbn [alloc]. apply pc_bind. unfold pc at 1. cbn [set_var].
      apply pc_bind.
      apply pc_rec with (copy := copy); [exact R|exact Hc|lia|rewrite cost_set, cost_app; cbn [length]; lia|].
      intros j s' Hj Hc' C'. rewrite cost_set, cost_app in C'. cbn [length] in C'.
      destruct trk; [cbn; split; [lia|split; [exact Hc'|lia]]|].
      apply pc_bind. unfold pc at 1. cbn [get_var].
      destruct (hget (d_heap s') _); try (apply pc_new_done; [lia|exact Hc'|bylin]).
      cbn. unfold cerr. pose proof (errs_step idx j ltac:(lia) ltac:(lia)). lia.
    + apply pc_rec with (copy := copy); [exact R|exact Hc|lia|lia|].
      intros j s' Hj Hc' C'. split; [lia|split; [exact Hc'|lia]].
  - apply pc_decodeREFP_ALIAS; auto.
  - apply pc_decodeREFP_ALIAS; auto.
  - (* WEAKEN *)
    destruct (d_perl c).
    + apply pc_bind. unfold pc at 1. cbn [alloc]. apply pc_bind. unfold pc at 1. cbn [set_var].
      apply pc_rec with (copy := copy); [exact R|exact Hc|lia|rewrite cost_set, cost_app; cbn [length]; lia|].
      intros j s' Hj Hc' C'. rewrite cost_set, cost_app in C'. cbn [length] in C'.
      split; [lia|split; [exact Hc'|lia]].
    + apply pc_rec with (copy := copy); [exact R|exact Hc|lia|lia|].
      intros j s' Hj Hc' C'. split; [lia|split; [exact Hc'|lia]].
  - apply pc_decodeRegexp; auto.
  - apply pc_decodeObject; auto.
  - apply pc_decodeObject; auto.
  - apply pc_decodeFreeze; auto.
  - apply pc_decodeFreeze; auto.
  - apply cerr_here.
Qed.

(** one level of decode *)
Lemma pc_body rec copy w1 idx ptr s :
  (forall j, idx < j -> crec rec j copy) ->
  ((exists i x, nth_error by_ i = Some x /\ tag_kind (untrack x) = TCopy) -> copy = 0 -> w1 * len <= w /\
     forall t l s, d_copy s = 1 -> pc (rec t l)
       (fun i s' => i <= len /\ d_copy s' = 1 /\ cost s' <= cost s + w1 * len)
       (fun s' => cost s' <= cost s + D) s) ->
  d_copy s = copy ->
  pc (decode_body c by_ ibuf ishift rec idx ptr)
       (fun i s' => idx < i <= len /\ d_copy s' = copy /\ cost s' + 2 <= cost s + w * (i - idx))
       (fun s' => cost s' <= cost s + errs idx) s.
Proof.
  intros R R0 Hc. unfold decode_body.
  destruct (Nat.leb_spec len idx); [cbn; lia|].
  destruct (skip_pads (skipn idx by_) idx) as [[tb i]|] eqn:SP; [|cbn; lia].
  apply skip_pads_bounds in SP. rewrite skipn_length in SP. destruct SP as (S1 & S2 & S3 & _).
  rewrite nth_error_skipn in S3. replace (idx + (i - idx)) with i in S3 by lia.
  apply pc_bind.
  assert (T : pc (if tracked_bit tb then track i ptr else ret tt)
                 (fun _ s' => d_copy s' = copy /\ cost s' = cost s)
                 (fun _ => False) s).
  { destruct (tracked_bit tb); cbn; auto. }
  eapply pc_mono; [exact T| |intros s' []].
  intros _ s1 (Hc1 & C1).
  eapply pc_mono; [apply (pc_decode_tag rec copy _ _ (S i) ptr s1 w1); [apply R; lia| |lia|exact Hc1]| |].
  - intros K. apply R0. exists i, tb. auto.
  - intros j s2 (J & Hc2 & C2). split; [lia|split; [exact Hc2|]].
    replace (j - idx) with ((j - S i) + (S i - idx)) by lia. rewrite Nat.mul_add_distr_l.
    assert (w <= w * (S i - idx)) by (replace (S i - idx) with (S (i - idx)) by lia; nia). lia.
  - intros s2 C2. unfold cerr in C2. pose proof (errs_step' idx (S i) ltac:(lia) ltac:(lia)). lia.
Qed.
End Cost.

Section Total.
Variable c : dconfig.
Variable by_ : bytes.
Variable ibuf : loc.
Variable ishift : nat.
Notation len := (length by_).

(** within a COPY *)
Lemma decode_cost_copy fuel : forall lo copy, crec by_ 6 0 (decode c by_ ibuf ishift fuel) lo (S copy).
Proof.
  induction fuel as [|fuel IH]; intros lo copy idx ptr s Hlo Hc; [exact I|]. cbn [decode].
  apply (pc_body c by_ ibuf ishift 6 0 ltac:(lia) _ (S copy) 0); [intros j _; apply IH| |exact Hc].
  intros _ H. discriminate H.
Qed.

(** [w] for every byte outside: much if there are COPY tags, little if there are none *)
Definition no_copy : Prop := forall i x, nth_error by_ i = Some x -> tag_kind (untrack x) <> TCopy.

Lemma decode_cost_out w fuel : 6 <= w -> no_copy \/ 6 * len <= w ->
  forall lo, crec by_ w (errs by_ 6 0 0) (decode c by_ ibuf ishift fuel) lo 0.
Proof.
  intros W6 W. induction fuel as [|fuel IH]; intros lo idx ptr s Hlo Hc; [exact I|]. cbn [decode].
  apply (pc_body c by_ ibuf ishift w (errs by_ 6 0 0) W6 _ 0 6); [intros j _; apply IH| |exact Hc].
  intros (i & x & Hx & K) _. destruct W as [W|W]; [now destruct (W i x Hx)|]. split; [exact W|].
  intros t l s1 Hc1. eapply pc_mono; [apply (decode_cost_copy fuel 0 0 t l s1 (Nat.le_0_l _) Hc1)| |].
  - intros j s2 (J & Hc2 & C2). split; [lia|split; [exact Hc2|]].
    assert (6 * (j - t) <= 6 * len) by lia. lia.
  - intros s2 C2. cbv beta in C2. pose proof (errs_mono by_ 6 0 ltac:(lia) 0 t (Nat.le_0_l _)). lia.
Qed.

(** whatever the outcome: a square of the input *)
Definition quadratic (n : nat) : nat := 10 * n * n + 24 * n.

Theorem decode_cost fuel idx ptr s :
  pc (decode c by_ ibuf ishift fuel idx ptr)
     (fun i s' => cost s' <= cost s + quadratic len) (fun s' => cost s' <= cost s + quadratic len) s.
Proof.
  unfold quadratic. destruct (d_copy s) as [|dc] eqn:DC.
  - eapply pc_mono; [apply (decode_cost_out (6 * len + 6) fuel ltac:(lia) ltac:(right; lia) 0 idx ptr s ltac:(lia) DC)| |].
    + intros i s' (I1 & _ & C). assert ((6 * len + 6) * (i - idx) <= (6 * len + 6) * len) by (apply Nat.mul_le_mono_l; lia). nia.
    + intros s' C. cbv beta in C. pose proof (errs_mono by_ (6 * len + 6) (errs by_ 6 0 0) ltac:(lia) 0 idx ltac:(lia)).
      unfold errs in *. rewrite !Nat.sub_0_r in *. nia.
  - eapply pc_mono; [apply (decode_cost_copy fuel 0 dc idx ptr s ltac:(lia) DC)| |].
    + intros i s' (I1 & _ & C). assert (6 * (i - idx) <= 6 * len) by lia. nia.
    + intros s' C. cbv beta in C. pose proof (errs_mono by_ 6 0 ltac:(lia) 0 idx ltac:(lia)).
      unfold errs in *. rewrite !Nat.sub_0_r in *. nia.
Qed.

(** accepted, without COPY: in proportion to the input *)
Theorem decode_cost_plain fuel idx ptr s : no_copy ->
  pc (decode c by_ ibuf ishift fuel idx ptr) (fun i s' => cost s' <= cost s + 6 * len) (fun _ => True) s.
Proof.
  intros NC. destruct (d_copy s) as [|dc] eqn:DC.
  - eapply pc_mono; [apply (decode_cost_out 6 fuel ltac:(lia) (or_introl NC) 0 idx ptr s ltac:(lia) DC)| |auto].
    intros i s' (I1 & _ & C). lia.
  - eapply pc_mono; [apply (decode_cost_copy fuel 0 dc idx ptr s ltac:(lia) DC)| |auto].
    intros i s' (I1 & _ & C). lia.
Qed.
End Total.
