(** What the decoder leaves in memory can be written again: lengths fit, numbers are within the range of
    their kinds, keys of maps are different. *)
From Verif Require Import Base BaseFacts SpecVarint Varint VarintFacts Tags GoMem Codecs Encode Compress Header Decode Document
  Spec SpecValue SpecOptions SpecKnot DecodeSpec JsonFacts KnotMarshal WireFacts.
From Coq Require Import ZifyBool ZifyNat ZifyN.

Definition small_n (n : nat) : Prop := (N.of_nat n <= 2147483647)%N.
Definition vok (v : gval) : Prop :=
  match v with
  | GNil | GBool _ | GMap _ | GPtr _ _ | GUndefV _ | GCanonUndef | GWeakP _ | GUserP _ _ => True
  | GInt k false z => ikind_in k z
  | GF32 u => (u < 2 ^ 32)%N
  | GF64 u => (u < 2 ^ 64)%N
  | GStr s => small_n (length s)
  | GBytes w => small_n (vlen w)
  | GSlice _ n => small_n n
  | GObjP cls _ => small_n (length cls)
  | GRegexpV p m => small_n (vlen p) /\ small_n (vlen m)
  | GFreezeV cls w => small_n (length cls) /\ small_n (vlen w)
  | _ => False
  end.
Definition cell_ok (c : cell) : Prop :=
  match c with
  | CV v => vok v
  | CMap m => NoDup (map fst m) /\ small_n (length m) /\ forall k v, In (k, v) m -> small_n (length k) /\ vok v
  | CTMap _ => False
  | CBuf _ => True
  end.
Definition hok (h : heap) : Prop := Forall cell_ok h.

(** [fr m0 h h']: from [h] to [h'], no map other than [m0] has grown *)
Definition fr (m0 : option loc) (h h' : heap) : Prop :=
  hok h' /\ length h <= length h' /\
  forall l, l < length h -> Some l <> m0 -> length (hmap h' l) <= length (hmap h l).
Definition hp {A} (m : M A) (Q : A -> Prop) : Prop := forall s, hok (d_heap s) ->
  fr None (d_heap s) (d_heap (snd (m s))) /\ forall a, fst (m s) = Ok a -> Q a.
Notation hpt m := (hp m (fun _ => True)).

Lemma fr_refl m0 h : hok h -> fr m0 h h. Proof. intros H. split; [exact H|]. split; auto. Qed.
Lemma fr_trans m0 h1 h2 h3 : fr m0 h1 h2 -> fr m0 h2 h3 -> fr m0 h1 h3.
Proof.
  intros (_ & L1 & F1) (H & L2 & F2). split; [exact H|]. split; [lia|]. intros l Hl Ne.
  etransitivity; [apply F2; [lia|exact Ne]|auto].
Qed.
Lemma fr_weaken m0 h1 h2 : fr None h1 h2 -> fr m0 h1 h2.
Proof. intros (H & L & F). split; [exact H|]. split; [exact L|]. intros. apply F; [auto|discriminate]. Qed.

Lemma hp_bind A B (m : M A) (k : A -> M B) P Q : hp m P -> (forall a, P a -> hp (k a) Q) -> hp (mbind m k) Q.
Proof.
  intros H K s I. specialize (H s I). unfold mbind. destruct (m s) as [[a|e|e| |] s'];
    try (split; [exact (proj1 H)|discriminate]). destruct H as [I' H].
  destruct (K a (H a eq_refl) s' (proj1 I')) as [F G]. split; [|exact G]. eapply fr_trans; eauto.
Qed.
Lemma hp_mono A (m : M A) (P Q : A -> Prop) : hp m P -> (forall a, P a -> Q a) -> hp m Q.
Proof. intros H K s I. destruct (H s I). auto. Qed.
Lemma hp_ret A (a : A) (Q : A -> Prop) : Q a -> hp (ret a) Q.
Proof. intros H s I. split; [now apply fr_refl|]. intros b E. injection E as <-. exact H. Qed.
Lemma hp_fail A e (Q : A -> Prop) : hp (fail e) Q.
Proof. intros s I. split; [now apply fr_refl|]. discriminate. Qed.
Lemma hp_panic A e (Q : A -> Prop) : hp (panic e) Q.
Proof. intros s I. split; [now apply fr_refl|]. discriminate. Qed.
Lemma hp_crash A (Q : A -> Prop) : hp crash Q.
Proof. intros s I. split; [now apply fr_refl|]. discriminate. Qed.
Lemma hp_lift A (r : res A) : hpt (lift r).
Proof. intros s I. split; [now apply fr_refl|auto]. Qed.

Lemma hok_app h h' : hok h -> hok h' -> hok (h ++ h').
Proof. intros. now apply Forall_app. Qed.
Lemma fr_new h h' : hok h -> hok h' -> fr None h (h ++ h').
Proof.
  intros A B. split; [now apply hok_app|]. split; [rewrite app_length; lia|]. intros l Hl _.
  unfold hmap. rewrite nth_error_app1 by exact Hl. auto.
Qed.
Lemma hp_alloc c : cell_ok c -> hpt (alloc c).
Proof. intros C s I. split; [|auto]. cbn. apply fr_new; [exact I|]. repeat constructor. exact C. Qed.
Lemma hp_alloc_n n c : cell_ok c -> hpt (alloc_n n c).
Proof. intros C s I. split; [|auto]. cbn. apply fr_new; [exact I|]. apply Forall_forall. intros x Hx. apply repeat_spec in Hx. now subst. Qed.
Lemma hok_upd h l c : hok h -> cell_ok c -> hok (upd h l c).
Proof.
  intros H C. revert l. induction H as [|a t Ha Ht IH]; intros l; [constructor|]. destruct l; cbn [upd]; constructor; auto. apply IH.
Qed.
Lemma hmap_upd h l c l' : hmap (upd h l c) l' = hmap h l' \/ (l' = l /\ hmap (upd h l c) l' = match c with CMap m => m | _ => [] end).
Proof.
  unfold hmap. destruct (Nat.eq_dec l' l) as [->|N].
  - destruct (Nat.lt_ge_cases l (length h)).
    + right. split; [reflexivity|]. now rewrite nth_error_upd_same.
    + left. rewrite (proj2 (nth_error_None h l)) by lia. rewrite (proj2 (nth_error_None _ l)); [reflexivity|]. rewrite upd_length. lia.
  - left. rewrite nth_error_upd_other; auto.
Qed.
Lemma hp_set l x : vok x -> hpt (set_var l x).
Proof.
  intros C s I. split; [|auto]. cbn. split; [now apply hok_upd|]. split; [now rewrite upd_length|].
  intros l' Hl _. destruct (hmap_upd (d_heap s) l (CV x) l') as [-> | [_ ->]]; cbn; lia.
Qed.
Lemma hok_get h l : hok h -> vok (hget h l).
Proof.
  intros H. unfold hget. destruct (nth_error h l) as [[]|] eqn:E; try exact I.
  apply nth_error_In in E. exact (proj1 (Forall_forall _ _) H _ E).
Qed.
Lemma hok_map h l : hok h -> cell_ok (CMap (hmap h l)).
Proof.
  intros H. unfold hmap. destruct (nth_error h l) as [c|] eqn:E; [|split; [constructor|]; split; [vm_compute; discriminate|intros k v []]].
  apply nth_error_In in E. pose proof (proj1 (Forall_forall _ _) H _ E) as K.
  destruct c; try exact K; (split; [constructor|]; split; [vm_compute; discriminate|intros k v' []]).
Qed.
Lemma hp_get l : hp (get_var l) vok.
Proof. intros s I. split; [now apply fr_refl|]. intros a E. injection E as <-. now apply hok_get. Qed.
Lemma mput_length {A} (m : list (bytes * A)) k x : length (mput m k x) <= S (length m).
Proof. induction m as [|[k1 y1] m IH]; cbn; [lia|]. destruct (bytes_eqb k1 k); cbn; lia. Qed.
Lemma in_mput {A} (m : list (bytes * A)) k x k' y : In (k', y) (mput m k x) -> (k' = k /\ y = x) \/ In (k', y) m.
Proof.
  induction m as [|[k1 y1] m IH]; cbn; [intros [E|[]]; injection E as <- <-; auto|].
  destruct (bytes_eqb k1 k) eqn:B; cbn; intros [E|J]; try (injection E as <- <-); auto; [|destruct (IH J); auto].
  apply bytes_eqb_true in B. auto.
Qed.
Lemma map_set_ok h l k x : hok h -> small_n (S (length (hmap h l))) -> small_n (length k) -> vok x ->
  let h' := upd h l (CMap (mput (hmap h l) k x)) in
  fr (Some l) h h' /\ length (hmap h' l) <= S (length (hmap h l)).
Proof.
  intros H L Lk V h'. destruct (hok_map h l H) as (N & _ & E). pose proof (mput_length (hmap h l) k x) as Lm.
  split; [split; [|split]|].
  - apply hok_upd; [exact H|]. split; [now apply mput_NoDup|]. split; [unfold small_n in *; lia|].
    intros k' v' I. apply in_mput in I as [[-> ->]|I]; auto.
  - unfold h'. now rewrite upd_length.
  - intros l' _ Ne. unfold h'. destruct (hmap_upd h l (CMap (mput (hmap h l) k x)) l') as [-> | [-> _]]; [lia|now destruct Ne].
  - unfold h'. destruct (hmap_upd h l (CMap (mput (hmap h l) k x)) l) as [-> | [_ ->]]; [lia|exact Lm].
Qed.
Lemma hp_track i l : hpt (track i l). Proof. intros s I. split; [now apply fr_refl|auto]. Qed.
Lemma hp_tracked i : hpt (get_tracked i). Proof. intros s I. split; [now apply fr_refl|auto]. Qed.
Lemma hp_gcopy : hpt get_copy. Proof. intros s I. split; [now apply fr_refl|auto]. Qed.
Lemma hp_scopy n : hpt (set_copy n). Proof. intros s I. split; [now apply fr_refl|auto]. Qed.
Lemma hp_log n m : hpt (log_make n m). Proof. intros s I. split; [now apply fr_refl|auto]. Qed.
#[local] Hint Resolve hp_fail hp_panic hp_crash hp_lift hp_track hp_tracked hp_gcopy hp_scopy hp_log : hp.

Section Dec.
Variable c : dconfig.
Variable by_ : bytes.
Variable ibuf : loc.
Variable ishift : nat.
Definition int64_ok (z : Z) : Prop := (- two63 <= z < two63)%Z.
Lemma hp_varint i : hp (varint_at by_ i) (fun r => int64_ok (fst r)).
Proof.
  unfold varint_at. destruct (slice_from by_ i); [|auto with hp]. destruct (varintdecode _) eqn:E; [|auto with hp].
  apply hp_ret. exact (proj1 (varintdecode_range _ _ _ E)).
Qed.
Lemma hp_varint' i : hpt (varint_at by_ i).
Proof. eapply hp_mono; [apply hp_varint|auto]. Qed.
Lemma le_num_lt l : (le_num l < 256 ^ N.of_nat (length l))%N.
Proof.
  induction l as [|b l IH]; [reflexivity|]. cbn [le_num length]. rewrite Nat2N.inj_succ, N.pow_succ_r'.
  assert (b2n b < 256)%N by (destruct b; reflexivity). lia.
Qed.
Lemma range_length (l : bytes) i j r : slice_range l i j = Some r -> length r = j - i.
Proof.
  unfold slice_range. destruct (Nat.leb_spec i j); [|discriminate]. destruct (Nat.leb_spec j (length l)); [|discriminate].
  intros [= <-]. rewrite firstn_length, skipn_length. lia.
Qed.
Lemma hp_fixed i k : hp (fixed_at by_ i k) (fun n => (n < 256 ^ N.of_nat k)%N).
Proof.
  unfold fixed_at. destruct (Nat.leb _ _); [auto with hp|]. destruct (slice_range _ _ _) as [bb|] eqn:E; [|auto with hp]. apply hp_ret.
  apply range_length in E. pose proof (le_num_lt bb) as H. now replace (length bb) with k in H by lia.
Qed.
Lemma hp_binary i ln : hp (binary_at by_ i ln) (fun r => small_n (length (fst r))).
Proof.
  unfold binary_at. destruct (Z.ltb_spec ln 0); cbn [orb]; [auto with hp|]. destruct (Z.ltb_spec maxInt32 ln); [auto with hp|].
  destruct (_ <? _)%Z; [auto with hp|]. destruct (slice_range _ _ _) as [bb|] eqn:E; [|auto with hp]. apply hp_ret.
  apply range_length in E. unfold small_n, maxInt32 in *. cbn [fst]. lia.
Qed.
Ltac hb := eapply hp_bind; [solve [auto with hp | apply hp_gcopy | apply hp_varint']|intros].
Lemma hp_binary_copy i ln : hp (binary_copy by_ i ln) (fun r => small_n (vlen (fst r))).
Proof.
  unfold binary_copy. eapply hp_bind; [apply hp_binary|]. intros [s j] L. hb. eapply hp_bind; [apply hp_alloc; exact I|]. intros.
  apply hp_ret. exact L.
Qed.
Notation wok := (fun r : window * nat => small_n (w_len (fst r))).
Lemma short_small b n : tag_kind (untrack b) = TShort n -> small_n n.
Proof.
  destruct b; intros E; vm_compute in E; try discriminate E; injection E as <-; vm_compute; discriminate.
Qed.
Lemma hp_stringish_body rec z : (forall z, hp (rec z) wok) -> hp (stringish_body by_ rec z) wok.
Proof.
  intros R. unfold stringish_body. destruct (_ || _)%bool; [auto with hp|].
  destruct (skip_pads _ _) as [[tagb i]|]; [|auto with hp].
  destruct (tag_kind (untrack tagb)) eqn:K; auto with hp.
  1,2: hb; destruct a as [ln sz]; destruct (Z.ltb_spec ln 0); cbn [orb]; [auto with hp|];
    destruct (Z.ltb_spec maxInt32 ln); [auto with hp|]; destruct (_ <? _)%Z; [auto with hp|];
    destruct (slice_range _ _ _); [|auto with hp]; apply hp_ret; cbn [fst w_len]; unfold small_n, maxInt32 in *; lia.
  - destruct (Nat.ltb _ _); [auto with hp|]. destruct (slice_range _ _ _); [|auto with hp]. apply hp_ret. exact (short_small _ _ K).
  - hb. destruct (Nat.ltb _ _); [auto with hp|]. hb. destruct a0 as [offs sz]. destruct (_ || _)%bool; [auto with hp|]. hb.
    eapply hp_bind with (P := wok); [|intros; now apply hp_ret].
    intros s I. destruct (R offs s I) as [I' Q]. destruct (rec offs s) as [[r|e|e| |] s']; (split; [exact I'|]);
      try discriminate. intros a1 [= <-]. apply Q. reflexivity.
Qed.
Lemma hp_stringish z : hp (decodeStringish by_ z) wok.
Proof.
  unfold decodeStringish. cbn [stringish_fuel]. apply hp_stringish_body. intros. apply hp_stringish_body.
  intros z1 s I. split; [now apply fr_refl|discriminate].
Qed.
Lemma win_small w : small_n (w_len w) -> small_n (length (win_bytes by_ w)).
Proof. unfold small_n, win_bytes. rewrite firstn_length. lia. Qed.
Lemma hp_class i b : hp (class_name by_ i b) (fun r => small_n (length (fst r))).
Proof.
  unfold class_name. destruct b.
  - hb. destruct a. eapply hp_bind; [apply hp_stringish|]. intros [w j] Hw. apply hp_ret. now apply win_small.
  - eapply hp_bind; [apply hp_stringish|]. intros [w j] Hw. apply hp_ret. now apply win_small.
Qed.
Lemma hp_then A (m : M unit) (a : A) : hpt m -> hpt (m ;; ret a).
Proof. intros H. eapply hp_bind; [exact H|]. intros. now apply hp_ret. Qed.
Lemma hp_regexp i p : hpt (decodeRegexp by_ ibuf ishift i p).
Proof.
  unfold decodeRegexp. eapply hp_bind; [apply hp_stringish|]. intros [w j] Hw. eapply hp_bind; [apply hp_stringish|]. intros [w2 j2] Hw2.
  eapply hp_bind; [apply hp_alloc; split; assumption|]. intros. apply hp_then, hp_set. exact I.
Qed.
Lemma hp_refp i p b : hpt (decodeREFP_ALIAS c by_ i p b).
Proof.
  unfold decodeREFP_ALIAS. hb. destruct a as [offs sz]. destruct (_ || _)%bool; [auto with hp|]. hb.
  destruct a as [l|]; [|auto with hp]. eapply hp_bind; [apply hp_get|]. intros x Ix. destruct b; [|now apply hp_then, hp_set].
  assert (G : hpt (if d_noref c then set_var p x ;; ret (i + sz) else let! l0 := alloc (CV x) in set_var p (GPtr false l0) ;; ret (i + sz))).
  { destruct (d_noref c); [now apply hp_then, hp_set|]. eapply hp_bind; [now apply hp_alloc|]. intros. apply hp_then, hp_set. exact I. }
  destruct x; try exact G. auto with hp.
Qed.

Section Body.
Variable rec : nat -> loc -> M nat.
Hypothesis R : forall i l, hpt (rec i l).
Ltac al := eapply hp_bind; [apply hp_alloc; first [exact I|assumption|cbn; contradiction]|intros].
Lemma bind_step A B (m : M A) (k : A -> M B) P X h (Q : heap -> Prop) s : hp m P -> hok (d_heap s) ->
  fr X h (d_heap s) -> (forall h', fr X h h' -> fr None (d_heap s) h' -> Q h') ->
  (forall a s', P a -> fr X h (d_heap s') -> fr None (d_heap s) (d_heap s') -> Q (d_heap (snd (k a s')))) ->
  Q (d_heap (snd (mbind m k s))).
Proof.
  intros H I F D K. destruct (H s I) as [G Pa]. unfold mbind. destruct (m s) as [[a|e|e| |] s']; cbn [snd fst] in *.
  1: apply K; auto; eapply fr_trans; eauto; now apply fr_weaken.
  all: apply D; auto; eapply fr_trans; eauto; now apply fr_weaken.
Qed.
Lemma hash_loop_ok n m : forall i s, hok (d_heap s) -> m < length (d_heap s) ->
  small_n (length (hmap (d_heap s) m) + n) ->
  fr (Some m) (d_heap s) (d_heap (snd (hash_loop by_ rec n m i s))).
Proof.
  induction n as [|n IH]; intros i s Hk Hm Hn; cbn [hash_loop]; [now apply fr_refl|].
  eapply (bind_step _ _ _ _ _ (Some m) (d_heap s)); [apply hp_stringish|exact Hk|now apply fr_refl|auto|].
  intros [w j] s1 Hw F1 G1. cbn [fst] in Hw.
  eapply (bind_step _ _ _ _ _ (Some m) (d_heap s)); [apply (hp_alloc (CV GNil)); exact I|apply G1|exact F1|auto|].
  intros vl s2 _ F2 G2.
  eapply (bind_step _ _ _ _ _ (Some m) (d_heap s)); [apply R|apply G2|exact F2|auto|].
  intros j2 s3 _ F3 G3.
  eapply (bind_step _ _ _ _ _ (Some m) (d_heap s)); [apply hp_get|apply G3|exact F3|auto|].
  intros x s4 Hx F4 G4.
  assert (L4 : length (hmap (d_heap s4) m) <= length (hmap (d_heap s) m)).
  { pose proof (fr_trans _ _ _ _ (fr_trans _ _ _ _ G1 G2) (fr_trans _ _ _ _ G3 G4)) as (_ & _ & F). apply F; [exact Hm|discriminate]. }
  unfold mbind at 1. unfold map_set. cbn [snd d_heap with_heap].
  destruct (map_set_ok (d_heap s4) m (win_bytes by_ w) x) as [F5 L5].
  { apply G4. } { unfold small_n in *. lia. } { now apply win_small. } { exact Hx. }
  eapply fr_trans; [exact F4|]. eapply fr_trans; [exact F5|].
  match goal with |- fr _ _ (d_heap (snd (hash_loop _ _ _ _ _ ?st))) => apply (IH j2 st) end.
  - apply F5.
  - cbn [with_heap d_heap]. rewrite upd_length. destruct F4 as (_ & L & _). lia.
  - cbn [with_heap d_heap]. unfold small_n in *. lia.
Qed.
Lemma hp_hash i ln p b : hpt (decodeHash by_ rec i ln p b).
Proof.
  unfold decodeHash. destruct (Z.ltb_spec ln 0); cbn [orb]; [auto with hp|]. destruct (Z.ltb_spec maxInt32 ln); [auto with hp|].
  destruct (_ <? _)%Z; [auto with hp|]. cbv zeta. hb.
  intros s Hk. split; [|auto]. unfold mbind at 1. cbn [alloc].
  set (s1 := with_heap s (d_heap s ++ [CMap []])). set (m := length (d_heap s)).
  assert (F1 : fr None (d_heap s) (d_heap s1)).
  { apply fr_new; [exact Hk|]. constructor; [|constructor]. split; [constructor|]. split; [vm_compute; discriminate|intros k v []]. }
  assert (Hm : m < length (d_heap s1)) by (unfold m, s1; cbn [with_heap d_heap]; rewrite app_length; cbn; lia).
  assert (Em : hmap (d_heap s1) m = []) by (unfold hmap, m, s1; cbn [with_heap d_heap]; rewrite nth_error_app2, Nat.sub_diag by lia; reflexivity).
  assert (S1 : hpt (if b then let! p0 := alloc (CV (GMap m)) in set_var p (GPtr false p0) else set_var p (GMap m))).
  { destruct b; [al|]; apply hp_set; exact I. }
  assert (W : forall h', fr (Some m) (d_heap s1) h' -> fr None (d_heap s) h').
  { intros h' (Hk' & L & F). split; [exact Hk'|]. destruct F1 as (_ & L1 & F1). split; [lia|]. intros l Hl _.
    etransitivity; [apply F; [lia|intros [= ->]; unfold m in Hl; lia]|]. apply F1; [exact Hl|discriminate]. }
  apply W. eapply (bind_step _ _ _ _ _ (Some m) (d_heap s1)); [exact S1|apply F1|apply fr_refl, F1|auto|].
  intros u s2 _ F2 G2. eapply fr_trans; [exact F2|]. apply hash_loop_ok; [apply F2|destruct F2 as (_ & L & _); lia|].
  destruct G2 as (_ & _ & F). specialize (F m Hm ltac:(discriminate)). rewrite Em in F. cbn [length] in F.
  unfold small_n, maxInt32 in *. lia.
Qed.
Lemma hp_array_loop n : forall l i, hpt (array_loop rec n l i).
Proof.
  induction n as [|n IH]; intros l i; cbn [array_loop]; [now apply hp_ret|]. eapply hp_bind; [apply R|]. intros. apply IH.
Qed.
Lemma hp_array i ln p b : hpt (decodeArray by_ rec i ln p b).
Proof.
  unfold decodeArray. destruct (Z.ltb_spec ln 0); cbn [orb]; [auto with hp|]. destruct (Z.ltb_spec maxInt32 ln); [auto with hp|].
  destruct (_ <? _)%Z; [auto with hp|]. cbv zeta.
  assert (L : small_n (Z.to_nat ln)) by (unfold small_n, maxInt32 in *; lia).
  hb. eapply hp_bind; [apply hp_alloc_n; exact I|]. intros. eapply hp_bind with (P := fun _ => True); [|intros; apply hp_array_loop].
  destruct b; [|apply hp_set; exact L]. eapply hp_bind; [apply hp_alloc; exact L|]. intros. apply hp_set; exact I.
Qed.
Lemma hp_via i p : hpt (decode_via_iface by_ rec i p).
Proof.
  unfold decode_via_iface. destruct (Nat.leb _ _); [auto with hp|]. eapply hp_bind; [apply hp_get|]. intros x Ix.
  destruct x; auto with hp. al. eapply hp_bind; [apply R|]. intros. eapply hp_bind; [apply hp_get|]. intros y Iy.
  destruct y; try (now apply hp_ret); apply hp_then, hp_set; exact Iy.
Qed.
Lemma hp_object i p b : hpt (decodeObject c by_ rec i p b).
Proof.
  unfold decodeObject. eapply hp_bind; [apply hp_class|]. intros [cls j] Hc. destruct (d_perl c); [|apply hp_via].
  al. eapply hp_bind; [apply hp_set; exact Hc|]. intros. apply R.
Qed.
Lemma hp_freeze i p b : hpt (decodeFreeze c by_ rec i p b).
Proof.
  unfold decodeFreeze. eapply hp_bind; [apply hp_class|]. intros [cls j] Hc. cbn [fst] in Hc. destruct (Nat.leb _ _); [auto with hp|].
  destruct (nth_error by_ j), (nth_error by_ (j + 1)); auto with hp. destruct (negb _); [auto with hp|].
  al. eapply hp_bind; [apply R|]. intros k _. eapply hp_bind; [apply hp_get|]. intros x _. destruct x; auto with hp.
  destruct (negb _); [auto with hp|]. eapply hp_bind; [apply hp_get|]. intros x Hx. destruct x; auto with hp. cbn [vok] in Hx.
  destruct (d_perl c). { eapply hp_bind; [apply hp_alloc; split; assumption|]. intros. apply hp_then, hp_set. exact I. }
  eapply hp_bind; [apply hp_get|]. intros x _. destruct x; auto with hp. destruct (d_um c cls) as [[t|t]|].
  - intros s Is. destruct (d_unmarshal _ _ _); [|split; [now apply fr_refl|auto]]. apply (hp_then _ _ k (hp_set p (GUserP t v) I)). exact Is.
  - auto with hp.
  - eapply hp_bind; [apply hp_alloc; split; assumption|]. intros. apply hp_then, hp_set. exact I.
Qed.
Lemma small_ok b t : tag_kind (untrack b) = TSmall t -> int64_ok (decodeInt t).
Proof.
  intros E. assert (t < 32)%N.
  { revert E. unfold tag_kind. destruct (N.ltb_spec (untrack b) typeVARINT); [intros [= <-]; exact H|].
    repeat match goal with |- context [if ?x then _ else _] => destruct x end; discriminate. }
  unfold decodeInt, int64_ok, two63. destruct (N.land t 16 =? 16)%N; lia.
Qed.
Lemma int64_in z : int64_ok z -> vok (GInt KInt false z).
Proof. intros H. exact H. Qed.
Lemma hp_tag b tr i p : hpt (decode_tag c by_ ibuf ishift rec (tag_kind (untrack b)) tr i p).
Proof.
  destruct (tag_kind (untrack b)) eqn:K; cbn [decode_tag];
    try apply hp_object; try apply hp_freeze; try apply hp_refp; try apply hp_regexp; try apply hp_hash; try apply hp_array;
    try solve [auto with hp]; try (apply hp_then, hp_set; exact I).
  - apply hp_then, hp_set, int64_in, (small_ok _ _ K).
  - eapply hp_bind; [apply hp_varint|]. intros [z sz] Hz. cbn [fst] in Hz. apply hp_then.
    destruct (Z.ltb_spec z 0); apply hp_set; [|exact Hz]. cbn. unfold to_uint, int64_ok, two63, two64 in *.
    change (Z.pow_pos 2 64) with 18446744073709551616%Z. pose proof (Z.mod_pos_bound z 18446744073709551616 eq_refl). lia.
  - eapply hp_bind; [apply hp_varint|]. intros [z sz] Hz. apply hp_then, hp_set. apply int64_in. unfold zigzag_value, wrap64. apply to_int_range.
  - eapply hp_bind; [apply hp_fixed|]. intros n Hn. apply hp_then, hp_set; exact Hn.
  - eapply hp_bind; [apply hp_fixed|]. intros n Hn. apply hp_then, hp_set; exact Hn.
  - hb. destruct a. apply hp_hash.
  - hb. destruct a. apply hp_array.
  - hb. destruct a. eapply hp_bind; [apply hp_binary|]. intros [s j] Hs. apply hp_then, hp_set; exact Hs.
  - hb. destruct a. eapply hp_bind; [apply hp_binary_copy|]. intros [? ?] Hs. apply hp_then, hp_set; exact Hs.
  - eapply hp_bind; [apply hp_binary_copy|]. intros [? ?] Hs. apply hp_then, hp_set; exact Hs.
  - apply hp_then. destruct (d_perl c); [al|]; apply hp_set; exact I.
  - apply hp_then. destruct (d_perl c); apply hp_set; exact I.
  - hb. destruct (Nat.ltb _ _); [auto with hp|]. hb. destruct a0 as [offs sz]. destruct (_ || _)%bool; [auto with hp|]. hb.
    eapply hp_bind with (P := fun _ => True); [|intros; now apply hp_ret].
    intros s I. destruct (R (Z.to_nat offs) p s I) as [I' _]. destruct (rec (Z.to_nat offs) p s) as [[r|e|e| |] s']; (split; [exact I'|auto]).
  - destruct (d_perl c); [|apply R]. al. eapply hp_bind; [apply hp_set; exact I|]. intros. eapply hp_bind; [apply R|]. intros.
    destruct tr; [now apply hp_ret|]. eapply hp_bind; [apply hp_get|]. intros x Ix.
    destruct x; auto with hp; (al; apply hp_then, hp_set; exact I).
  - destruct (d_perl c); [|apply R]. al. eapply hp_bind; [apply hp_set; exact I|]. intros. apply R.
Qed.
Lemma hp_body i p : hpt (decode_body c by_ ibuf ishift rec i p).
Proof.
  unfold decode_body. destruct (Nat.leb _ _); [auto with hp|]. destruct (skip_pads _ _) as [[b j]|]; [|auto with hp].
  eapply hp_bind with (P := fun _ => True); [|intros; apply hp_tag]. destruct (tracked_bit b); [apply hp_track|now apply hp_ret].
Qed.
End Body.
Lemma hp_decode fuel : forall i p, hpt (decode c by_ ibuf ishift fuel i p).
Proof. induction fuel as [|f IH]; intros i p; [intros s I; split; [now apply fr_refl|discriminate]|]. cbn [decode]. now apply hp_body. Qed.
End Dec.

Lemma hp_unmarshal k c b ib vh vb : hpt (unmarshal_raw k c b ib vh vb).
Proof.
  unfold unmarshal_raw. eapply hp_bind; [apply hp_lift|]. intros h _. eapply hp_bind; [apply hp_lift|]. intros dec _. cbv zeta.
  destruct (_ || _)%bool; [auto with hp|].
  assert (T : hpt fresh_tracked) by (intros s I; split; [now apply fr_refl|auto]).
  eapply hp_bind with (P := fun _ => True).
  - unfold unmarshal_header. destruct (_ || _)%bool; [now apply hp_ret|]. eapply hp_bind; [exact T|]. intros _ _.
    destruct vh; [now apply hp_ret| |auto with hp]. destruct (nth_error _ _); [|auto with hp]. destruct (_ =? _)%N; [|now apply hp_ret].
    eapply hp_bind; [apply hp_decode|]. intros. now apply hp_ret.
  - intros _ _. unfold unmarshal_body. destruct (target_nil vb); [now apply hp_ret|]. eapply hp_bind with (P := fun _ => True).
    + destruct dec; [|now apply hp_ret]. destruct (slice_from _ _); [|auto with hp]. eapply hp_bind; [apply hp_lift|]. intros ? _. cbv zeta.
      eapply hp_bind; [apply hp_alloc; exact I|]. intros. now apply hp_ret.
    + intros [b' ib'] _. eapply hp_bind; [exact T|]. intros _ _. destruct vb; [now apply hp_ret| |auto with hp].
      destruct (_ =? _)%N.
      { eapply hp_bind; [apply hp_decode|]. intros. now apply hp_ret. }
      destruct (Nat.eqb _ _); [auto with hp|]. destruct (slice_from _ _); [|auto with hp].
      eapply hp_bind; [apply hp_decode|]. intros. now apply hp_ret.
Qed.
Lemma unmarshal_hok k c b h v : unmarshal_fresh k c b = Ok (h, v) -> hok h /\ vok v.
Proof.
  unfold unmarshal_fresh, Unmarshal, UnmarshalHeaderBody. intros U.
  assert (I0 : hok (d_heap (fresh_state b))) by (repeat constructor).
  destruct (hp_unmarshal k c b 0 TgtNone (TgtIface 2) _ I0) as [F _].
  destruct (unmarshal_raw k c b 0 TgtNone (TgtIface 2) (fresh_state b)) as [r s]. cbn [snd] in F.
  destruct r as [[]|e|e| |]; cbn [recovered bind] in U; try discriminate U. injection U as <- <-.
  split; [apply F|]. apply hok_get, F.
Qed.
Lemma hview_small h w : small_n (vlen w) -> small_n (length (hview h w)).
Proof. unfold small_n, hview. rewrite firstn_length. lia. Qed.
Lemma vok_proper M F nf h v : (2147483647 <= M)%N -> hok h -> vok v -> proper M F nf h v.
Proof.
  intros L H V.
  assert (S : forall n, small_n n -> (N.of_nat n <= M)%N) by (unfold small_n; intros; lia).
  destruct v; try (exfalso; exact V); cbn [vok] in V; try (constructor; unfold fits; auto; fail);
    try (constructor; apply S; exact V).
  - destruct named; [contradiction|]. now constructor.
  - constructor. apply S, hview_small, V.
  - destruct (hok_map h l H) as (N & Lm & E). constructor; [exact N|apply S, Lm|]. intros k x Hx. apply S. now apply (E k x).
  - destruct V. constructor; apply S, hview_small; assumption.
  - destruct V. constructor; [apply S; assumption|apply S, hview_small; assumption|lia].
Qed.
Lemma hok_proper M F nf h : (2147483647 <= M)%N -> hok h -> proper_memory M F nf h.
Proof.
  intros L H. split; [|split].
  - intros l. apply vok_proper; auto. now apply hok_get.
  - intros l k v Hv. apply vok_proper; auto. destruct (hok_map h l H) as (_ & _ & E). now apply (E k v).
  - intros l k v Hv. exfalso. unfold htmap in Hv. destruct (nth_error h l) as [[]|] eqn:E; try contradiction Hv.
    apply nth_error_In in E. exact (proj1 (Forall_forall _ _) H _ E).
Qed.
(** what Unmarshal leaves for any accepted bytes *)
Theorem unmarshal_proper k c c2 e b h v : unmarshal_fresh k c b = Ok (h, v) -> any_proper e h v /\ go_proper c2 e h v.
Proof.
  intros U. destruct (unmarshal_hok _ _ _ _ _ U) as [H V].
  split; (split; [apply hok_proper|apply vok_proper]; auto; lia).
Qed.
