(** Running the decoder on an input and on an extension of it, in memories that differ
    only in the input buffer: successful runs agree; when nothing is appended, all do. *)
From Verif Require Import Base BaseFacts SpecVarint Varint VarintFacts Tags GoMem Decode.
From Coq Require Import ZifyBool ZifyNat ZifyN.

(** [v] does not look into buffer [ib], except that regular expressions may have windows
    of it, inside [bound], when it is the buffer [ibuf] being decoded. *)
Definition okw (ib ibuf : loc) (bound : nat * nat) (w : view) : Prop :=
  vloc w = ib -> ib = ibuf /\ fst bound <= voff w /\ voff w + vlen w <= snd bound.
Fixpoint clean (ib ibuf : loc) (bound : nat * nat) (v : gval) : Prop :=
  match v with
  | GBytes w | GFreezeV _ w | GUserP _ w => vloc w <> ib
  | GRegexpV p m => okw ib ibuf bound p /\ okw ib ibuf bound m
  | GObjV _ v | GWeakV v | GUser _ _ v => clean ib ibuf bound v
  | _ => True
  end.
Definition clean_cell (ib ibuf : loc) (bound : nat * nat) (c : cell) : Prop :=
  match c with
  | CV v => clean ib ibuf bound v
  | CMap m => forall k v, In (k, v) m -> clean ib ibuf bound v
  | CTMap m => forall k v, In (k, v) m -> clean ib ibuf bound k /\ clean ib ibuf bound v
  | CBuf _ => True
  end.
Definition clean_heap (ib ibuf : loc) (bound : nat * nat) (h : heap) : Prop :=
  forall l c, nth_error h l = Some c -> clean_cell ib ibuf bound c.

Section Sim.
Variable c : dconfig.
Variable by1 x : bytes.
Variable ib ibuf : loc.
Variable shift : nat.
Variable b1 b2 : bytes.
Notation by2 := (by1 ++ x).
Notation strict := (x = []).
Notation cval := (clean ib ibuf (shift, shift + length by1)).
Notation ccell := (clean_cell ib ibuf (shift, shift + length by1)).

Definition R (s1 s2 : dstate) : Prop :=
  length (d_heap s1) = length (d_heap s2) /\ d_tracked s1 = d_tracked s2 /\ d_copy s1 = d_copy s2 /\
  nth_error (d_heap s1) ib = Some (CBuf b1) /\ nth_error (d_heap s2) ib = Some (CBuf b2) /\
  (forall l, l <> ib -> nth_error (d_heap s1) l = nth_error (d_heap s2) l) /\
  clean_heap ib ibuf (shift, shift + length by1) (d_heap s1).

Definition sim {A} (m1 m2 : M A) (P : A -> Prop) : Prop := forall s1 s2, R s1 s2 ->
  let r1 := m1 s1 in let r2 := m2 s2 in
  match fst r1 with
  | Ok a => fst r2 = Ok a /\ R (snd r1) (snd r2) /\ P a
  | NoFuel => True
  | _ => strict -> fst r2 = fst r1 /\ R (snd r1) (snd r2)
  end.

Lemma sim_bind {A B} (m1 m2 : M A) (k1 k2 : A -> M B) P Q : sim m1 m2 P ->
  (forall a, P a -> sim (k1 a) (k2 a) Q) -> sim (mbind m1 k1) (mbind m2 k2) Q.
Proof.
  intros H K s1 s2 Hr. specialize (H s1 s2 Hr). unfold mbind.
  destruct (m1 s1) as [r1 s1'], (m2 s2) as [r2 s2'].
  destruct r1 as [a| | | |]; cbn in *.
  { destruct H as (-> & R' & Pa). exact (K a Pa _ _ R'). }
  4: exact I.
  all: intros S; destruct (H S) as [-> R']; auto.
Qed.

Lemma sim_weaken {A} (m1 m2 : M A) (P Q : A -> Prop) : sim m1 m2 P -> (forall a, P a -> Q a) -> sim m1 m2 Q.
Proof.
  intros H K s1 s2 Hr. specialize (H s1 s2 Hr).
  destruct (m1 s1) as [[a| | | |] s1'], (m2 s2) as [r2 s2']; cbn in *; auto.
  destruct H as (-> & R' & Pa). auto.
Qed.

Lemma sim_ret {A} (a : A) (P : A -> Prop) : P a -> sim (ret a) (ret a) P.
Proof. intros H s1 s2 Hr. cbn. auto. Qed.
(** an error on the left *)
Lemma sim_fail {A} e (m : M A) P : (strict -> m = fail e) -> sim (fail e) m P.
Proof. intros H s1 s2 Hr. cbn. intros S. rewrite (H S). auto. Qed.
Lemma sim_panic {A} e P : sim (@panic A e) (panic e) P.
Proof. intros s1 s2 Hr. cbn. auto. Qed.
Lemma sim_crash {A} P : sim (@crash A) crash P.
Proof. intros s1 s2 Hr. cbn. auto. Qed.
Lemma sim_fail_same {A} e P : sim (@fail A e) (fail e) P.
Proof. now apply sim_fail. Qed.

Lemma R_ib s1 s2 : R s1 s2 -> ib < length (d_heap s1).
Proof. intros (_ & _ & _ & H & _). now apply nth_error_Some_lt in H. Qed.

Lemma R_set s1 s2 l cl : l <> ib -> ccell cl -> R s1 s2 ->
  R (with_heap s1 (upd (d_heap s1) l cl)) (with_heap s2 (upd (d_heap s2) l cl)).
Proof.
  intros Hl Hc (A1 & A2 & A3 & A4 & A5 & A6 & A7). unfold R. cbn.
  rewrite !upd_length, !nth_error_upd_other by auto. repeat split; auto.
  - intros l' Hl'. destruct (Nat.eq_dec l l') as [<-|N].
    + destruct (Nat.lt_ge_cases l (length (d_heap s1))) as [L|L].
      * rewrite !nth_error_upd_same by lia. reflexivity.
      * rewrite !upd_out by lia. auto.
    + rewrite !nth_error_upd_other by auto. auto.
  - intros l' c' H. destruct (Nat.eq_dec l l') as [<-|N].
    + destruct (Nat.lt_ge_cases l (length (d_heap s1))) as [L|L].
      * rewrite nth_error_upd_same in H by lia. now injection H as <-.
      * rewrite upd_out in H by lia. eauto.
    + rewrite nth_error_upd_other in H by auto. eauto.
Qed.

Lemma sim_set l v : l <> ib -> cval v -> sim (set_var l v) (set_var l v) (fun _ => True).
Proof. intros Hl Hv s1 s2 Hr. cbn. split; [reflexivity|]. split; [|exact I]. now apply R_set. Qed.

Lemma mput_in {A} (m : list (bytes * A)) k v k' v' : In (k', v') (mput m k v) -> v' = v \/ In (k', v') m.
Proof.
  induction m as [|[k0 v0] m IH]; cbn.
  - intros [[= <- <-]|[]]; auto.
  - destruct (bytes_eqb k0 k); cbn; intros [[= <- <-]|H]; auto. destruct (IH H); auto.
Qed.

Lemma sim_map_set l k v : l <> ib -> cval v -> sim (map_set l k v) (map_set l k v) (fun _ => True).
Proof.
  intros Hl Hv s1 s2 Hr. cbn. split; [reflexivity|]. split; [|exact I].
  assert (E : hmap (d_heap s2) l = hmap (d_heap s1) l).
  { destruct Hr as (_ & _ & _ & _ & _ & A6 & _). unfold hmap. now rewrite (A6 l Hl). }
  rewrite E. apply R_set; auto. cbn. intros k' v' Hin. apply mput_in in Hin as [-> |Hin]; auto.
  destruct Hr as (_ & _ & _ & _ & _ & _ & A7). unfold hmap in Hin.
  destruct (nth_error (d_heap s1) l) as [[|m| |]|] eqn:En; try contradiction.
  exact (A7 _ _ En _ _ Hin).
Qed.

Lemma R_alloc s1 s2 cs : (forall cl, In cl cs -> ccell cl) -> R s1 s2 ->
  R (with_heap s1 (d_heap s1 ++ cs)) (with_heap s2 (d_heap s2 ++ cs)).
Proof.
  intros Hc Hr. pose proof (R_ib _ _ Hr) as Li.
  destruct Hr as (A1 & A2 & A3 & A4 & A5 & A6 & A7). unfold R. cbn.
  rewrite !app_length. repeat split; auto using nth_error_app_l.
  - intros l Hl. destruct (Nat.lt_ge_cases l (length (d_heap s1))) as [L|L].
    + rewrite !nth_error_app1 by lia. auto.
    + rewrite !nth_error_app2 by lia. now rewrite A1.
  - intros l cl H. destruct (Nat.lt_ge_cases l (length (d_heap s1))) as [L|L].
    + rewrite nth_error_app1 in H by lia. eauto.
    + rewrite nth_error_app2 in H by lia. apply Hc. eapply nth_error_In; eauto.
Qed.

Lemma sim_alloc cl : ccell cl -> sim (alloc cl) (alloc cl) (fun l => ib < l).
Proof.
  intros Hc s1 s2 Hr. cbn. pose proof (R_ib _ _ Hr).
  split; [|split; [|assumption]].
  - destruct Hr as (-> & _). reflexivity.
  - apply R_alloc; auto. intros ? [<-|[]]. auto.
Qed.
Lemma sim_alloc_n n cl : ccell cl -> sim (alloc_n n cl) (alloc_n n cl) (fun l => ib < l).
Proof.
  intros Hc s1 s2 Hr. cbn. pose proof (R_ib _ _ Hr).
  split; [|split; [|assumption]].
  - destruct Hr as (-> & _). reflexivity.
  - apply R_alloc; auto. intros c' Hin. apply repeat_spec in Hin as ->. auto.
Qed.

Lemma hget_R s1 s2 l : R s1 s2 -> hget (d_heap s2) l = hget (d_heap s1) l.
Proof.
  intros (_ & _ & _ & A4 & A5 & A6 & _). unfold hget. destruct (Nat.eq_dec l ib) as [-> |N].
  - now rewrite A4, A5.
  - now rewrite (A6 l N).
Qed.
Lemma sim_get l : sim (get_var l) (get_var l) (cval).
Proof.
  intros s1 s2 Hr. cbn. rewrite (hget_R _ _ l Hr). split; [reflexivity|]. split; [exact Hr|].
  unfold hget. destruct Hr as (_ & _ & _ & _ & _ & _ & A7).
  destruct (nth_error (d_heap s1) l) as [[| | |]|] eqn:E; cbn; auto. exact (A7 _ _ E).
Qed.
Lemma sim_track i l : sim (track i l) (track i l) (fun _ => True).
Proof.
  intros s1 s2 (A1 & A2 & A3 & A4 & A5 & A6 & A7). cbn. unfold R. cbn. rewrite A2.
  repeat split; auto.
Qed.
Lemma sim_get_tracked i : sim (get_tracked i) (get_tracked i) (fun _ => True).
Proof. intros s1 s2 Hr. cbn. pose proof Hr as (A1 & A2 & _). rewrite A2. auto. Qed.
Lemma sim_get_copy : sim get_copy get_copy (fun _ => True).
Proof. intros s1 s2 Hr. cbn. pose proof Hr as (A1 & A2 & A3 & _). rewrite A3. auto. Qed.
Lemma sim_set_copy n : sim (set_copy n) (set_copy n) (fun _ => True).
Proof. intros s1 s2 (A1 & A2 & A3 & A). cbn. unfold R. cbn. tauto. Qed.
Lemma sim_log n l n' l' : sim (log_make n l) (log_make n' l') (fun _ => True).
Proof. intros s1 s2 (A1 & A2 & A3 & A). cbn. unfold R. cbn. tauto. Qed.

(** leaving a COPY *)
Definition uncopy {A} (m : M A) : M A := fun s =>
  match m s with
  | (Ok r, s') => (Ok r, mkDState (d_heap s') (d_tracked s') (pred (d_copy s')) (d_made s'))
  | (Err e, s') => (Err e, mkDState (d_heap s') (d_tracked s') (pred (d_copy s')) (d_made s'))
  | r => r
  end.
Lemma sim_uncopy {A} (m1 m2 : M A) P : sim m1 m2 P -> sim (uncopy m1) (uncopy m2) P.
Proof.
  intros H s1 s2 Hr. specialize (H s1 s2 Hr). unfold uncopy.
  destruct (m1 s1) as [r1 s1'], (m2 s2) as [r2 s2'].
  assert (K : R s1' s2' -> R (mkDState (d_heap s1') (d_tracked s1') (pred (d_copy s1')) (d_made s1'))
                (mkDState (d_heap s2') (d_tracked s2') (pred (d_copy s2')) (d_made s2'))).
  { intros (A1 & A2 & A3 & A4). unfold R. cbn. rewrite A3. tauto. }
  destruct r1 as [a| | | |]; cbn in H |- *.
  { destruct H as (-> & R' & Pa). cbn. auto. }
  4: exact I.
  all: intros S; destruct (H S) as [-> R']; cbn; auto.
Qed.

(** * Reading the input *)
Lemma len2 : length by1 <= length by2.
Proof. rewrite app_length. lia. Qed.

Lemma slice_from2 idx s : slice_from by1 idx = Some s -> slice_from by2 idx = Some (s ++ x).
Proof.
  intros H. apply slice_from_Some in H as [L ->]. unfold slice_from. rewrite app_length.
  destruct (Nat.leb_spec idx (length by1 + length x)); [|lia].
  rewrite skipn_app. replace (idx - length by1) with 0 by lia. reflexivity.
Qed.
Lemma slice_range2 i j s : slice_range by1 i j = Some s -> slice_range by2 i j = Some s.
Proof.
  intros H. apply slice_range_Some in H as (L1 & L2 & ->). apply slice_range_Some.
  rewrite app_length. repeat split; try lia. rewrite skipn_app, firstn_app.
  rewrite skipn_length. replace (j - i - (length by1 - i)) with 0 by lia. cbn. now rewrite app_nil_r.
Qed.
Lemma strict_by : strict -> by2 = by1.
Proof. intros ->. apply app_nil_r. Qed.

Lemma sim_varint idx : sim (varint_at by1 idx) (varint_at by2 idx) (fun _ => True).
Proof.
  intros s1 s2 Hr.
  assert (W : forall b s, varint_at b idx s = (fst (varint_at b idx s), s)).
  { intros b s. unfold varint_at. destruct (slice_from b idx); [|reflexivity].
    destruct (varintdecode _); reflexivity. }
  assert (W2 : forall b s s', fst (varint_at b idx s) = fst (varint_at b idx s')).
  { intros b s s'. unfold varint_at. destruct (slice_from b idx); [|reflexivity].
    destruct (varintdecode _); reflexivity. }
  rewrite (W by1 s1), (W by2 s2). cbn. destruct (fst (varint_at by1 idx s1)) as [a| | | |] eqn:E.
  5: exact I.
  2-4: intros S; rewrite (strict_by S), (W2 by1 s2 s1), E; auto.
  split; [|auto]. unfold varint_at in *.
  destruct (slice_from by1 idx) as [sl|] eqn:Sl; [|discriminate].
  rewrite (slice_from2 _ _ Sl). destruct (varintdecode sl) as [z sz|] eqn:V; [|discriminate].
  rewrite (varintdecode_ext _ x _ _ V). exact E.
Qed.

Lemma sim_fixed idx k : 0 < k -> sim (fixed_at by1 idx k) (fixed_at by2 idx k) (fun _ => True).
Proof.
  intros Hk. unfold fixed_at. rewrite app_length.
  destruct (Nat.leb_spec (length by1) (idx + k - 1)) as [L|L].
  - apply sim_fail. intros ->. rewrite app_nil_r. cbn.
    destruct (Nat.leb_spec (length by1 + 0) (idx + k - 1)); [reflexivity|lia].
  - destruct (Nat.leb_spec (length by1 + length x) (idx + k - 1)); [lia|].
    destruct (slice_range by1 idx (idx + k)) as [s|] eqn:E.
    + rewrite (slice_range2 _ _ _ E). now apply sim_ret.
    + exfalso. unfold slice_range in E.
      destruct (Nat.leb_spec idx (idx + k)), (Nat.leb_spec (idx + k) (length by1)); cbn in E; try discriminate; lia.
Qed.

Lemma slice_range_in i j : i <= j -> j <= length by1 -> slice_range by1 i j <> None.
Proof.
  intros A B C. unfold slice_range in C.
  destruct (Nat.leb_spec i j), (Nat.leb_spec j (length by1)); cbn in C; try discriminate; lia.
Qed.

Lemma sim_binary idx ln : sim (binary_at by1 idx ln) (binary_at by2 idx ln) (fun _ => True).
Proof.
  unfold binary_at, blen. rewrite app_length.
  destruct ((ln <? 0) || (maxInt32 <? ln))%Z eqn:C; [apply sim_fail_same|].
  destruct (Z.ltb_spec (Z.of_nat (length by1)) (Z.of_nat idx + ln)) as [L|L].
  - apply sim_fail. intros ->. rewrite app_nil_r. cbn.
    destruct (Z.ltb_spec (Z.of_nat (length by1 + 0)) (Z.of_nat idx + ln)); [reflexivity|lia].
  - destruct (Z.ltb_spec (Z.of_nat (length by1 + length x)) (Z.of_nat idx + ln)); [lia|].
    destruct (slice_range by1 idx (idx + Z.to_nat ln)) as [s|] eqn:E.
    + rewrite (slice_range2 _ _ _ E). now apply sim_ret.
    + exfalso. revert E. apply slice_range_in; lia.
Qed.

Lemma sim_binary_copy idx ln : sim (binary_copy by1 idx ln) (binary_copy by2 idx ln) (fun r => vloc (fst r) <> ib).
Proof.
  unfold binary_copy. eapply sim_bind; [apply sim_binary|]. intros [s idx'] _.
  eapply sim_bind; [apply sim_log|]. intros _ _.
  eapply sim_bind; [apply sim_alloc; exact I|]. intros l Hl. apply sim_ret. cbn. unfold loc in *; lia.
Qed.

Lemma skip_pads_app l : forall idx r, skip_pads l idx = Some r -> skip_pads (l ++ x) idx = Some r.
Proof.
  induction l as [|b l IH]; cbn; intros idx r H; [discriminate|].
  destruct (is_pad b); auto.
Qed.
Lemma skip2 idx r : skip_pads (skipn idx by1) idx = Some r -> skip_pads (skipn idx by2) idx = Some r.
Proof.
  intros H. rewrite skipn_app. destruct (Nat.le_gt_cases idx (length by1)) as [L|L].
  - replace (idx - length by1) with 0 by lia. cbn. now apply skip_pads_app.
  - rewrite skipn_all2 in H by lia. discriminate.
Qed.

Definition win_in (r : window * nat) : Prop := w_off (fst r) + w_len (fst r) <= length by1.

Lemma sim_string_body rec1 rec2 z : (forall o, sim (rec1 o) (rec2 o) win_in) ->
  sim (stringish_body by1 rec1 z) (stringish_body by2 rec2 z) win_in.
Proof.
  intros Hrec. unfold stringish_body, blen. rewrite app_length.
  destruct (Z.ltb_spec z 0) as [L0|L0]; [apply sim_fail_same|]. cbn [orb].
  destruct (Z.leb_spec (Z.of_nat (length by1)) z) as [L1|L1].
  { apply sim_fail. intros ->. cbn. destruct (Z.leb_spec (Z.of_nat (length by1 + 0)) z); [reflexivity|lia]. }
  destruct (Z.leb_spec (Z.of_nat (length by1 + length x)) z) as [L2|L2]; [lia|].
  destruct (skip_pads (skipn (Z.to_nat z) by1) (Z.to_nat z)) as [[tagb idx]|] eqn:Sk.
  2:{ apply sim_fail. intros ->. now rewrite app_nil_r, Sk. }
  rewrite (skip2 _ _ Sk).
  assert (Long : sim
     (let! (ln, sz) := varint_at by1 (S idx) in
          let idx := S idx + sz in
          if ((ln <? 0) || (maxInt32 <? ln))%Z then fail EBadStringSize
          else if (Z.of_nat (length by1) <? Z.of_nat idx + ln)%Z then fail ETruncated
          else let n := Z.to_nat ln in
               match slice_range by1 idx (idx + n) with
               | None => crash
               | Some _ => ret (mkWin idx n, idx + n)
               end)
     (let! (ln, sz) := varint_at by2 (S idx) in
          let idx := S idx + sz in
          if ((ln <? 0) || (maxInt32 <? ln))%Z then fail EBadStringSize
          else if (Z.of_nat (length by1 + length x) <? Z.of_nat idx + ln)%Z then fail ETruncated
          else let n := Z.to_nat ln in
               match slice_range by2 idx (idx + n) with
               | None => crash
               | Some _ => ret (mkWin idx n, idx + n)
               end) win_in).
  { eapply sim_bind; [apply sim_varint|]. intros [ln sz] _. cbv zeta.
    destruct ((ln <? 0) || (maxInt32 <? ln))%Z eqn:C; [apply sim_fail_same|].
    destruct (Z.ltb_spec (Z.of_nat (length by1)) (Z.of_nat (S idx + sz) + ln)) as [L|L].
    { apply sim_fail. intros ->. cbn [length].
      destruct (Z.ltb_spec (Z.of_nat (length by1 + 0)) (Z.of_nat (S idx + sz) + ln)); [reflexivity|lia]. }
    destruct (Z.ltb_spec (Z.of_nat (length by1 + length x)) (Z.of_nat (S idx + sz) + ln)); [lia|].
    destruct (slice_range by1 (S idx + sz) (S idx + sz + Z.to_nat ln)) as [s|] eqn:E.
    + rewrite (slice_range2 _ _ _ E). apply sim_ret. unfold win_in. cbn [w_off w_len fst]. lia.
    + exfalso. revert E. apply slice_range_in; lia. }
  destruct (tag_kind (untrack tagb)) as [| | | | | | | | | | | | |n| | | | | | | | | | | | |]; try exact Long; try apply sim_fail_same.
  - destruct (Nat.ltb_spec (length by1) (S idx + n)) as [L|L].
    { apply sim_fail. intros ->. cbn [length].
      destruct (Nat.ltb_spec (length by1 + 0) (S idx + n)); [reflexivity|lia]. }
    destruct (Nat.ltb_spec (length by1 + length x) (S idx + n)); [lia|].
    destruct (slice_range by1 (S idx) (S idx + n)) as [s|] eqn:E.
    + rewrite (slice_range2 _ _ _ E). apply sim_ret. unfold win_in. cbn [w_off w_len fst]. lia.
    + exfalso. revert E. apply slice_range_in; lia.
  - eapply sim_bind; [apply sim_get_copy|]. intros d _.
    destruct (0 <? d); [apply sim_fail_same|].
    eapply sim_bind; [apply sim_varint|]. intros [offs sz] _.
    destruct ((offs <? 0) || (Z.of_nat (S idx) <=? offs))%Z; [apply sim_fail_same|].
    eapply sim_bind; [apply sim_set_copy|]. intros _ _.
    eapply sim_bind; [apply (sim_uncopy _ _ _ (Hrec offs))|]. intros r Hr. apply sim_ret. exact Hr.
Qed.

Lemma sim_string_fuel f : forall z, sim (stringish_fuel by1 f z) (stringish_fuel by2 f z) win_in.
Proof.
  induction f as [|f IH]; intros z.
  - intros s1 s2 Hr. cbn. auto.
  - cbn [stringish_fuel]. now apply sim_string_body.
Qed.
Lemma sim_string z : sim (decodeStringish by1 z) (decodeStringish by2 z) win_in.
Proof. apply sim_string_fuel. Qed.

Lemma win2 r : win_in r -> win_bytes by2 (fst r) = win_bytes by1 (fst r).
Proof.
  unfold win_in, win_bytes. destruct r as [[o l] i]. cbn. intros L.
  rewrite skipn_app, firstn_app, skipn_length.
  replace (l - (length by1 - o)) with 0 by lia. cbn. now rewrite app_nil_r.
Qed.

(** * The decoder *)
Section Body.
Variable rec1 rec2 : nat -> loc -> M nat.
Hypothesis Hrec : forall i l, l <> ib -> sim (rec1 i l) (rec2 i l) (fun _ => True).

Ltac sbind L := eapply sim_bind; [L|].
Ltac neq := match goal with H : ib < _ |- _ <> ib => lia | H : ib < _ |- S _ <> ib => lia end.

Lemma sim_hash_loop n : forall m idx, m <> ib ->
  sim (hash_loop by1 rec1 n m idx) (hash_loop by2 rec2 n m idx) (fun _ => True).
Proof.
  induction n as [|n IH]; intros m idx Hm; cbn [hash_loop]; [now apply sim_ret|].
  sbind ltac:(apply sim_string). intros [key i1] Hk.
  sbind ltac:(apply sim_alloc; exact I). intros vl Hvl.
  sbind ltac:(apply Hrec; unfold loc in *; lia). intros i2 _.
  sbind ltac:(apply sim_get). intros v Hv.
  rewrite (win2 _ Hk : win_bytes by2 key = win_bytes by1 key).
  sbind ltac:(apply sim_map_set; auto). intros _ _. now apply IH.
Qed.

Lemma sim_array_loop n : forall base idx, ib < base ->
  sim (array_loop rec1 n base idx) (array_loop rec2 n base idx) (fun _ => True).
Proof.
  induction n as [|n IH]; intros base idx Hb; cbn [array_loop]; [now apply sim_ret|].
  sbind ltac:(apply Hrec; unfold loc in *; lia). intros i _. apply IH. lia.
Qed.

Lemma sim_hash idx ln ptr isRef : ptr <> ib ->
  sim (decodeHash by1 rec1 idx ln ptr isRef) (decodeHash by2 rec2 idx ln ptr isRef) (fun _ => True).
Proof.
  intros Hp. unfold decodeHash, blen. rewrite app_length.
  destruct ((ln <? 0) || (maxInt32 <? ln))%Z eqn:C; [apply sim_fail_same|].
  destruct (Z.ltb_spec (Z.of_nat (length by1)) (Z.of_nat idx + 2 * ln)) as [L|L].
  { apply sim_fail. intros ->. cbn [length].
    destruct (Z.ltb_spec (Z.of_nat (length by1 + 0)) (Z.of_nat idx + 2 * ln)); [reflexivity|lia]. }
  destruct (Z.ltb_spec (Z.of_nat (length by1 + length x)) (Z.of_nat idx + 2 * ln)); [lia|].
  cbv zeta. sbind ltac:(apply sim_log). intros _ _.
  sbind ltac:(apply sim_alloc; intros ? ? []). intros m Hm.
  eapply (sim_bind _ _ _ _ (fun _ => True)).
  { destruct isRef; [|now apply sim_set].
    sbind ltac:(apply sim_alloc; exact I). intros p Hpp. now apply sim_set. }
  intros _ _. apply sim_hash_loop. unfold loc in *; lia.
Qed.

Lemma sim_array idx ln ptr isRef : ptr <> ib ->
  sim (decodeArray by1 rec1 idx ln ptr isRef) (decodeArray by2 rec2 idx ln ptr isRef) (fun _ => True).
Proof.
  intros Hp. unfold decodeArray, blen. rewrite app_length.
  destruct ((ln <? 0) || (maxInt32 <? ln))%Z eqn:C; [apply sim_fail_same|].
  destruct (Z.ltb_spec (Z.of_nat (length by1)) (Z.of_nat idx + ln)) as [L|L].
  { apply sim_fail. intros ->. cbn [length].
    destruct (Z.ltb_spec (Z.of_nat (length by1 + 0)) (Z.of_nat idx + ln)); [reflexivity|lia]. }
  destruct (Z.ltb_spec (Z.of_nat (length by1 + length x)) (Z.of_nat idx + ln)); [lia|].
  cbv zeta. sbind ltac:(apply sim_log). intros _ _.
  sbind ltac:(apply sim_alloc_n; exact I). intros m Hm.
  eapply (sim_bind _ _ _ _ (fun _ => True)).
  { destruct isRef; [|now apply sim_set].
    sbind ltac:(apply sim_alloc; exact I). intros p Hpp. now apply sim_set. }
  intros _ _. apply sim_array_loop. exact Hm.
Qed.

Lemma trunc_sim {A} i (m1 m2 : M A) P : sim m1 m2 P ->
  sim (if Nat.leb (length by1) i then fail ETruncated else m1)
      (if Nat.leb (length by2) i then fail ETruncated else m2) P.
Proof.
  intros H. rewrite app_length. destruct (Nat.leb_spec (length by1) i).
  - apply sim_fail. intros ->. cbn [length]. destruct (Nat.leb_spec (length by1 + 0) i); [reflexivity|lia].
  - destruct (Nat.leb_spec (length by1 + length x) i); [lia|exact H].
Qed.

Lemma sim_iface idx ptr : ptr <> ib ->
  sim (decode_via_iface by1 rec1 idx ptr) (decode_via_iface by2 rec2 idx ptr) (fun _ => True).
Proof.
  intros Hp. unfold decode_via_iface. apply trunc_sim.
  sbind ltac:(apply sim_get). intros cur _.
  destruct cur; try apply sim_crash.
  sbind ltac:(apply sim_alloc; exact I). intros l Hl.
  sbind ltac:(apply Hrec; unfold loc in *; lia). intros i _.
  sbind ltac:(apply sim_get). intros v Hv.
  destruct v; try (now apply sim_ret);
    (sbind ltac:(apply sim_set; [exact Hp|exact Hv]); intros _ _; now apply sim_ret).
Qed.

Lemma sim_class idx v : sim (class_name by1 idx v) (class_name by2 idx v) (fun _ => True).
Proof.
  unfold class_name. destruct v.
  - sbind ltac:(apply sim_varint). intros [offs sz] _.
    sbind ltac:(apply sim_string). intros r Hr. rewrite (win2 _ Hr). now apply sim_ret.
  - sbind ltac:(apply sim_string). intros [w i] Hr. rewrite (win2 _ Hr : win_bytes by2 w = win_bytes by1 w).
    now apply sim_ret.
Qed.

Lemma sim_object idx ptr v : ptr <> ib ->
  sim (decodeObject c by1 rec1 idx ptr v) (decodeObject c by2 rec2 idx ptr v) (fun _ => True).
Proof.
  intros Hp. unfold decodeObject. sbind ltac:(apply sim_class). intros [cls i] _.
  destruct (d_perl c); [|now apply sim_iface].
  sbind ltac:(apply sim_alloc; exact I). intros l Hl.
  sbind ltac:(apply sim_set; [exact Hp|exact I]). intros _ _. apply Hrec. unfold loc in *; lia.
Qed.

Lemma sim_freeze idx ptr v : ptr <> ib ->
  sim (decodeFreeze c by1 rec1 idx ptr v) (decodeFreeze c by2 rec2 idx ptr v) (fun _ => True).
Proof.
  intros Hp. unfold decodeFreeze. sbind ltac:(apply sim_class). intros [cls i] _.
  rewrite app_length. destruct (Nat.leb_spec (length by1) (i + 1)) as [L|L].
  { apply sim_fail. intros ->. cbn [length]. destruct (Nat.leb_spec (length by1 + 0) (i + 1)); [reflexivity|lia]. }
  destruct (Nat.leb_spec (length by1 + length x) (i + 1)); [lia|].
  rewrite !nth_error_app1 by lia.
  destruct (nth_error by1 i) as [t0|]; [|apply sim_crash].
  destruct (nth_error by1 (i + 1)) as [t1|]; [|apply sim_crash].
  destruct (negb _); [apply sim_fail_same|].
  sbind ltac:(apply sim_alloc; exact I). intros l Hl.
  sbind ltac:(apply Hrec; unfold loc in *; lia). intros i2 _.
  sbind ltac:(apply sim_get). intros w Hw.
  destruct w; try apply sim_fail_same.
  destruct (negb _); [apply sim_fail_same|].
  sbind ltac:(apply sim_get). intros w Hw2.
  destruct w; try apply sim_fail_same. rename v0 into data. cbn [clean] in Hw2.
  assert (Frz : forall cls, sim
     (let! l2 := alloc (CV (GFreezeV cls data)) in set_var ptr (GPtr false l2) ;; ret i2)
     (let! l2 := alloc (CV (GFreezeV cls data)) in set_var ptr (GPtr false l2) ;; ret i2) (fun _ => True)).
  { intros cl. sbind ltac:(apply sim_alloc; exact Hw2). intros l2 Hl2.
    sbind ltac:(apply sim_set; [exact Hp|exact I]). intros _ _. now apply sim_ret. }
  destruct (d_perl c); [apply Frz|].
  sbind ltac:(apply sim_get). intros cur _.
  destruct cur; try apply sim_crash.
  destruct (d_um c cls) as [[t|t]|]; [| |apply Frz].
  - intros s1 s2 Hr.
    assert (Ev : hview (d_heap s2) data = hview (d_heap s1) data).
    { destruct Hr as (_ & _ & _ & _ & _ & A6 & _). unfold hview, hbuf.
      now rewrite (A6 (vloc data) Hw2). }
    rewrite Ev. destruct (d_unmarshal c t (hview (d_heap s1) data)).
    + assert (K : sim (set_var ptr (GUserP t data) ;; ret i2) (set_var ptr (GUserP t data) ;; ret i2) (fun _ => True)).
      { sbind ltac:(apply sim_set; [exact Hp|exact Hw2]). intros _ _. now apply sim_ret. }
      exact (K s1 s2 Hr).
    + cbn. auto.
  - apply sim_panic.
Qed.

Lemma sim_refp idx ptr r : ptr <> ib ->
  sim (decodeREFP_ALIAS c by1 idx ptr r) (decodeREFP_ALIAS c by2 idx ptr r) (fun _ => True).
Proof.
  intros Hp. unfold decodeREFP_ALIAS. sbind ltac:(apply sim_varint). intros [offs sz] _. cbv zeta.
  destruct ((offs <? 0) || (Z.of_nat (idx + sz) <=? offs))%Z; [apply sim_fail_same|].
  sbind ltac:(apply sim_get_tracked). intros t _. destruct t as [rl|]; [|apply sim_fail_same].
  sbind ltac:(apply sim_get). intros v Hv.
  assert (S1 : sim (set_var ptr v ;; ret (idx + sz)) (set_var ptr v ;; ret (idx + sz)) (fun _ => True)).
  { sbind ltac:(apply sim_set; [exact Hp|exact Hv]). intros _ _. now apply sim_ret. }
  assert (S2 : sim (let! l := alloc (CV v) in set_var ptr (GPtr false l) ;; ret (idx + sz))
                   (let! l := alloc (CV v) in set_var ptr (GPtr false l) ;; ret (idx + sz)) (fun _ => True)).
  { sbind ltac:(apply sim_alloc; exact Hv). intros l Hl.
    sbind ltac:(apply sim_set; [exact Hp|exact I]). intros _ _. now apply sim_ret. }
  destruct r; [|exact S1]. destruct v; try apply sim_panic; destruct (d_noref c); assumption.
Qed.

Lemma sim_regexp idx ptr : ptr <> ib ->
  sim (decodeRegexp by1 ibuf shift idx ptr) (decodeRegexp by2 ibuf shift idx ptr) (fun _ => True).
Proof.
  intros Hp. unfold decodeRegexp.
  sbind ltac:(apply sim_string). intros [p i1] W1.
  sbind ltac:(apply sim_string). intros [m i2] W2. unfold win_in in W1, W2. cbn in W1, W2.
  sbind ltac:(apply sim_alloc; cbn; unfold okw, win_view; cbn; repeat split; auto; lia). intros l Hl.
  sbind ltac:(apply sim_set; [exact Hp|exact I]). intros _ _. now apply sim_ret.
Qed.

Lemma sim_tag k t idx ptr : ptr <> ib ->
  sim (decode_tag c by1 ibuf shift rec1 k t idx ptr) (decode_tag c by2 ibuf shift rec2 k t idx ptr) (fun _ => True).
Proof.
  intros Hp.
  assert (Set_ : forall v (i : nat), cval v -> sim (set_var ptr v ;; ret i) (set_var ptr v ;; ret i) (fun _ => True)).
  { intros v i Hv. sbind ltac:(apply sim_set; [exact Hp|exact Hv]). intros _ _. now apply sim_ret. }
  destruct k; cbn [decode_tag]; try (apply Set_; exact I).
  - sbind ltac:(apply sim_varint). intros [v sz] _. destruct (v <? 0)%Z; apply Set_; exact I.
  - sbind ltac:(apply sim_varint). intros [v sz] _. apply Set_; exact I.
  - sbind ltac:(apply sim_fixed; lia). intros n _. apply Set_; exact I.
  - sbind ltac:(apply sim_fixed; lia). intros n _. apply Set_; exact I.
  - sbind ltac:(apply sim_varint). intros [v sz] _. now apply sim_hash.
  - now apply sim_hash.
  - sbind ltac:(apply sim_varint). intros [v sz] _. now apply sim_array.
  - now apply sim_array.
  - sbind ltac:(apply sim_varint). intros [v sz] _.
    sbind ltac:(apply sim_binary). intros [s i] _. apply Set_; exact I.
  - sbind ltac:(apply sim_varint). intros [v sz] _.
    sbind ltac:(apply sim_binary_copy). intros [s i] Hs. apply Set_; exact Hs.
  - sbind ltac:(apply sim_binary_copy). intros [s i] Hs. apply Set_; exact Hs.
  - destruct (d_perl c); [|apply Set_; exact I].
    eapply (sim_bind _ _ _ _ (fun _ => True)); [|intros _ _; now apply sim_ret].
    sbind ltac:(apply sim_alloc; exact I). intros l Hl. apply sim_set; [exact Hp|exact I].
  - destruct (d_perl c); apply Set_; exact I.
  - sbind ltac:(apply sim_get_copy). intros d _.
    destruct (0 <? d); [apply sim_fail_same|].
    sbind ltac:(apply sim_varint). intros [offs sz] _.
    destruct ((offs <? 0) || (Z.of_nat idx <=? offs))%Z; [apply sim_fail_same|]. cbv zeta.
    sbind ltac:(apply sim_set_copy). intros _ _.
    sbind ltac:(apply (sim_uncopy _ _ _ (Hrec (Z.to_nat offs) ptr Hp))). intros r _. now apply sim_ret.
  - destruct (d_perl c); [|now apply Hrec].
    sbind ltac:(apply sim_alloc; exact I). intros l Hl.
    sbind ltac:(apply sim_set; [exact Hp|exact I]). intros _ _.
    sbind ltac:(apply Hrec; unfold loc in *; lia). intros i _.
    destruct t; [now apply sim_ret|].
    sbind ltac:(apply sim_get). intros v Hv.
    assert (S2 : sim (let! l2 := alloc (CV v) in set_var ptr (GPtr false l2) ;; ret i)
                   (let! l2 := alloc (CV v) in set_var ptr (GPtr false l2) ;; ret i) (fun _ => True)).
    { sbind ltac:(apply sim_alloc; exact Hv). intros l2 Hl2. apply Set_; exact I. }
    destruct v; try apply sim_panic; exact S2.
  - now apply sim_refp.
  - now apply sim_refp.
  - destruct (d_perl c); [|now apply Hrec].
    sbind ltac:(apply sim_alloc; exact I). intros l Hl.
    sbind ltac:(apply sim_set; [exact Hp|exact I]). intros _ _. apply Hrec. unfold loc in *; lia.
  - now apply sim_regexp.
  - now apply sim_object.
  - now apply sim_object.
  - now apply sim_freeze.
  - now apply sim_freeze.
  - apply sim_fail_same.
Qed.

Lemma sim_body idx ptr : ptr <> ib ->
  sim (decode_body c by1 ibuf shift rec1 idx ptr) (decode_body c by2 ibuf shift rec2 idx ptr) (fun _ => True).
Proof.
  intros Hp. unfold decode_body. apply trunc_sim.
  destruct (skip_pads (skipn idx by1) idx) as [[tagb i]|] eqn:Sk.
  2:{ apply sim_fail. intros ->. now rewrite app_nil_r, Sk. }
  rewrite (skip2 _ _ Sk). cbv zeta.
  eapply (sim_bind _ _ _ _ (fun _ => True)).
  { destruct (tracked_bit tagb); [apply sim_track|now apply sim_ret]. }
  intros _ _. now apply sim_tag.
Qed.
End Body.

Theorem decode_sim f1 : forall f2 idx ptr, f1 <= f2 -> ptr <> ib ->
  sim (decode c by1 ibuf shift f1 idx ptr) (decode c by2 ibuf shift f2 idx ptr) (fun _ => True).
Proof.
  induction f1 as [|f1 IH]; intros f2 idx ptr L Hp.
  - intros s1 s2 Hr. cbn [decode]. exact I.
  - destruct f2 as [|f2]; [lia|]. cbn [decode]. apply sim_body; [|exact Hp].
    intros i l Hl. apply IH; [lia|exact Hl].
Qed.
End Sim.
