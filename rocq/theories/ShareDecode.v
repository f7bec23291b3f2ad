(** The decoder implements the wire format with references to earlier items: what REFP
    and ALIAS read is the value of the item referred to. *)
From Verif Require Import Base BaseFacts SpecVarint Varint VarintFacts Tags GoMem Decode DecodeSafe
  Spec SpecShare DecodeSpec MergeFacts.
From Coq Require Import ZifyBool ZifyNat ZifyN.
Ltac Zify.zify_post_hook ::= Z.div_mod_to_equations.

Scheme sitem_ind4 := Induction for sitem Sort Prop
  with sbody_ind4 := Induction for sbody Sort Prop
  with sitems_ind4 := Induction for sitems Sort Prop
  with spairs_ind4 := Induction for spairs Sort Prop.
Combined Scheme shared_ind from sitem_ind4, sbody_ind4, sitems_ind4, spairs_ind4.

(** items without references elsewhere describe data without them *)
Lemma item_unback g by_ :
  (forall m p d p', item g by_ m p d p' -> unback d = d) /\
  (forall m p ds p', items g by_ m p ds p' -> map unback ds = ds) /\
  (forall m p kvs p', pairs g by_ m p kvs p' ->
     map (fun kd => (fst kd, unback (snd kd))) kvs = kvs).
Proof.
  apply (grammar_ind g by_ (fun m p d p' _ => unback d = d)
    (fun m p ds p' _ => map unback ds = ds)
    (fun m p kvs p' _ => map (fun kd => (fst kd, unback (snd kd))) kvs = kvs));
    intros; cbn [unback map fst snd]; try reflexivity; try congruence.
  now destruct u.
Qed.

Lemma backs_arr ds d : backs_ok (DArr ds) -> In d ds -> backs_ok d.
Proof. intros H I x W. apply H. eapply w_arr; eauto. Qed.
Lemma backs_hash kvs k d : backs_ok (DHash kvs) -> In (k, d) kvs -> backs_ok d.
Proof. intros H I x W. apply H. eapply w_hash; eauto. Qed.
Lemma backs_ref d : backs_ok (DRef d) -> backs_ok d.
Proof. intros H x W. apply H. now apply w_ref. Qed.
Lemma backs_weak d : backs_ok (DWeak d) -> backs_ok d.
Proof. intros H x W. apply H. now apply w_weak. Qed.
Lemma backs_obj cls d : backs_ok (DObj cls d) -> backs_ok d.
Proof. intros H x W. apply H. now apply w_obj. Qed.

Lemma repr_nil_nilish reg P h v d : repr false reg P h v d -> v = GNil -> nilish d.
Proof.
  induction 1; intros E; try discriminate; try (constructor; auto; fail).
Qed.

Lemma nilish_unback d : nilish (unback d) -> nilish d.
Proof.
  induction d; cbn; intros H; try (inversion H; subst; constructor; auto; fail); auto.
Qed.

Section SD.
Variable c : dconfig.
Variable by_ : bytes.
Variable ibuf : loc.
Variable ishift : nat.
Variable buf : bytes.
Variable start : nat.
Hypothesis Hlen : (Z.of_nat (length by_) < two63)%Z.
Hypothesis Hbuf : at_ buf ishift by_.

Notation len := (length by_).
Notation g := (go_dialect c start).
Notation rp := (repr (d_perl c) (reg_of c)).
Notation rps := (reprs (d_perl c) (reg_of c)).
Notation rpm := (reprm (d_perl c) (reg_of c)).
Notation dec := (decode c by_ ibuf ishift).

(** the data as the decoder shows it: with DisableReferentialIntegrity a reference to an
    earlier item is the item itself *)
Definition vw (d : data) : data := if d_noref c then unback d else d.
Definition vwm (kvs : list (bytes * data)) := map (fun kd => (fst kd, vw (snd kd))) kvs.

Lemma vw_arr ds : vw (DArr ds) = DArr (map vw ds).
Proof. unfold vw. destruct (d_noref c); [reflexivity|now rewrite map_id]. Qed.
Lemma vw_hash kvs : vw (DHash kvs) = DHash (vwm kvs).
Proof.
  unfold vw, vwm, vw. destruct (d_noref c); [reflexivity|]. f_equal.
  induction kvs as [|[k d] kvs IH]; cbn; congruence.
Qed.
Lemma vw_ref d : vw (DRef d) = DRef (vw d).
Proof. unfold vw. now destruct (d_noref c). Qed.
Lemma vw_weak d : vw (DWeak d) = DWeak (vw d).
Proof. unfold vw. now destruct (d_noref c). Qed.
Lemma vw_obj cls d : vw (DObj cls d) = DObj cls (vw d).
Proof. unfold vw. now destruct (d_noref c). Qed.
Lemma vw_freeze cls d : vw (DFreeze cls d) = DFreeze cls d.
Proof. unfold vw. now destruct (d_noref c). Qed.
Lemma vw_bin d : vw (DBin d) = DBin d.
Proof. unfold vw. now destruct (d_noref c). Qed.
Lemma vwm_app a b : vwm (a ++ b) = vwm a ++ vwm b.
Proof. apply map_app. Qed.

(** ** Finished cells *)

Definition good (C : loc -> Prop) (h : heap) (l : loc) (d : data) : Prop :=
  C l /\ exists v, nth_error h l = Some (CV v) /\ rp C h v (vw d).

(** the tracked offsets and where their items are *)
Inductive alx (C : loc -> Prop) (h : heap) : env -> list (nat * loc) -> Prop :=
| al_nil : alx C h [] []
| al_on n o l E T : marked by_ n -> (forall d, o = Some d -> good C h l d) -> alx C h E T ->
    alx C h ((n, o) :: E) ((n, l) :: T)
| al_off n o E T : ~ marked by_ n -> alx C h E T -> alx C h ((n, o) :: E) T.

Definition kept (C C' : loc -> Prop) (h h' : heap) : Prop :=
  forall l, C l -> C' l /\ nth_error h' l = nth_error h l.

Lemma good_kept C C' h h' l d : kept C C' h h' -> good C h l d -> good C' h' l d.
Proof.
  intros K (Cl & v & E & R). split; [now apply K|]. exists v.
  split; [rewrite (proj2 (K l Cl)); exact E|]. eapply repr_stable; [exact K|exact R].
Qed.

Lemma alx_kept C C' h h' E T : kept C C' h h' -> alx C h E T -> alx C' h' E T.
Proof.
  intros K. induction 1; constructor; auto.
  intros d Hd. eapply good_kept; eauto.
Qed.

Lemma alx_app C h E T E' T' : alx C h E T -> alx C h E' T' -> alx C h (E ++ E') (T ++ T').
Proof. induction 1; intros H'; cbn [app]; [exact H'|constructor; auto|constructor; auto]. Qed.

Lemma alx_look C h E T n d : alx C h E T -> look E n = Some (Some d) -> marked by_ n ->
  exists l, assoc_nat n T = Some l /\ good C h l d.
Proof.
  intros H L M. induction H as [|n' o l E T M' G H IH|n' o E T M' H IH]; cbn [look] in L; [discriminate| |].
  - cbn [assoc_nat]. destruct (Nat.eqb_spec n' n); [|auto].
    injection L as ->. exists l. split; auto.
  - destruct (Nat.eqb_spec n' n); [subst; contradiction|auto].
Qed.

(** from s to s' the finished cells become C' and the items X are met *)
Definition grow (C : loc -> Prop) (s : dstate) (C' : loc -> Prop) (s' : dstate) (X : env) : Prop :=
  kept C C' (d_heap s) (d_heap s') /\ (forall l, C' l -> l < length (d_heap s')) /\
  exists Y, d_tracked s' = Y ++ d_tracked s /\ alx C' (d_heap s') X Y.

Lemma kept_trans C C1 C2 h h1 h2 : kept C C1 h h1 -> kept C1 C2 h1 h2 -> kept C C2 h h2.
Proof.
  intros K1 K2 l H. destruct (K1 l H) as [H1 E1]. destruct (K2 l H1) as [H2 E2].
  split; congruence.
Qed.

Lemma grow_trans C s C1 s1 X1 C2 s2 X2 : grow C s C1 s1 X1 -> grow C1 s1 C2 s2 X2 ->
  grow C s C2 s2 (X2 ++ X1).
Proof.
  intros (K1 & A1 & Y1 & T1 & G1) (K2 & A2 & Y2 & T2 & G2).
  split; [eapply kept_trans; eauto|]. split; [exact A2|].
  exists (Y2 ++ Y1). split; [rewrite T2, T1; now rewrite app_assoc|].
  apply alx_app; [exact G2|]. eapply alx_kept; eauto.
Qed.

(** nothing met, only other cells written *)
Lemma grow_frm (C : loc -> Prop) s s' (W : loc -> Prop) : (forall l, C l -> l < length (d_heap s)) -> (forall l, C l -> ~ W l) ->
  frm W s s' -> d_tracked s' = d_tracked s -> grow C s C s' [].
Proof.
  intros A N (L & F & _) T. split; [|split].
  - intros l H. split; auto.
  - intros l H. specialize (A l H). lia.
  - exists []. split; [exact T|constructor].
Qed.

Lemma grow_more C s C' s' X (D : loc -> Prop) : grow C s C' s' X ->
  (forall l, D l -> l < length (d_heap s')) -> grow C s (fun l => C' l \/ D l) s' X.
Proof.
  intros (K & A & Y & T & G) HD.
  assert (K' : kept C' (fun l => C' l \/ D l) (d_heap s') (d_heap s')) by (intros l H; auto).
  split; [eapply kept_trans; eauto|]. split; [intros l [H|H]; auto|].
  exists Y. split; [exact T|]. eapply alx_kept; eauto.
Qed.

Definition inv (E : env) (C : loc -> Prop) (s : dstate) : Prop :=
  nth_error (d_heap s) ibuf = Some (CBuf buf) /\ C ibuf /\
  (forall l, C l -> l < length (d_heap s)) /\ alx C (d_heap s) E (d_tracked s).

Lemma inv_grow E C s C' s' X : inv E C s -> grow C s C' s' X -> inv (X ++ E) C' s'.
Proof.
  intros (I1 & I2 & I3 & I4) (K & A & Y & T & G). split; [|split; [|split]].
  - rewrite (proj2 (K _ I2)). exact I1.
  - now apply K.
  - exact A.
  - rewrite T. apply alx_app; [exact G|]. eapply alx_kept; eauto.
Qed.

Lemma inv_frm E (C : loc -> Prop) s s' (W : loc -> Prop) : inv E C s -> frm W s s' -> (forall l, C l -> ~ W l) ->
  d_tracked s' = d_tracked s -> inv E C s'.
Proof.
  intros I F N T. apply (inv_grow E C s C s' []); [exact I|].
  eapply grow_frm; eauto. apply I.
Qed.

(** the outcome of decoding one item into ptr *)
Definition decoded (m : M nat) (ptr : loc) (C : loc -> Prop) (s : dstate) (d : data) (p' : nat)
  (X : env) : Prop :=
  exists s' v C', runs m s p' s' /\ frm (eq ptr) s s' /\ grow C s C' s' X /\ C' ptr /\
    (forall l, C' l -> C l \/ l = ptr \/ length (d_heap s) <= l) /\
    nth_error (d_heap s') ptr = Some (CV v) /\ rp C' (d_heap s') v (vw d).

Definition fine (d : data) : Prop := d_perl c = false -> backs_ok d.

Definition Pitem (E : env) (m : cmode) (p : nat) (d : data) (p' : nat) (X : env) : Prop :=
  p < p' /\ p' <= len /\
  forall fuel ptr C s, fine d -> mode_ok m s -> need by_ p (d_copy s) <= fuel -> nilcell s ptr ->
    ~ C ptr -> inv E C s -> decoded (dec fuel p ptr) ptr C s d p' X.

Definition Ptag (E : env) (m : cmode) (q : nat) (t : N) (d : data) (p' : nat) (X : env) : Prop :=
  S q <= p' /\ p' <= len /\
  forall f ptr C s trk, fine d -> mode_ok m s -> need by_ (S q) (d_copy s) <= f ->
     (d_copy s = 0 -> len + 1 <= f) -> nilcell s ptr -> ~ C ptr -> inv E C s ->
     decoded (decode_tag c by_ ibuf ishift (dec f) (tag_kind t) trk (S q) ptr) ptr C s d p' X.

Definition Pbody (E : env) (m : cmode) (q : nat) (t : N) (d : data) (p' : nat) (X : env) : Prop :=
  tag_at by_ q q t -> forall E0, E = (q, None) :: E0 -> Pitem E0 m q d p' (X ++ [(q, Some d)]).

Definition Pitems (E : env) (m : cmode) (p : nat) (ds : list data) (p' : nat) (X : env) : Prop :=
  p + length ds <= p' /\ (p <= len -> p' <= len) /\
  forall fuel base C s, (forall d, In d ds -> fine d) -> mode_ok m s ->
    need by_ p (d_copy s) <= fuel -> inv E C s ->
    (forall i, i < length ds -> nilcell s (base + i) /\ ~ C (base + i)) ->
    exists s' C', runs (array_loop (dec fuel) (length ds) base p) s p' s' /\
      frm (fun l => base <= l < base + length ds) s s' /\ grow C s C' s' X /\
      (forall l, C' l -> C l \/ base <= l < base + length ds \/ length (d_heap s) <= l) /\
      rps C' (d_heap s') base (map vw ds).

Definition Ppairs (E : env) (m : cmode) (p : nat) (kvs : list (bytes * data)) (p' : nat) (X : env) : Prop :=
  p + 2 * length kvs <= p' /\ (p <= len -> p' <= len) /\
  forall fuel ml C s m0 kvs0, (forall k d, In (k, d) kvs -> fine d) -> mode_ok m s ->
    need by_ p (d_copy s) <= fuel -> inv E C s ->
    ~ C ml -> nth_error (d_heap s) ml = Some (CMap m0) -> rpm C (d_heap s) m0 (vwm kvs0) ->
    exists s' m1 C', runs (hash_loop by_ (dec fuel) (length kvs) ml p) s p' s' /\
      frm (eq ml) s s' /\ grow C s C' s' X /\
      (forall l, C' l -> C l \/ length (d_heap s) <= l) /\
      nth_error (d_heap s') ml = Some (CMap m1) /\ rpm C' (d_heap s') m1 (vwm (kvs0 ++ kvs)).

Lemma marked_bit n b : nth_error by_ n = Some b -> (marked by_ n <-> tracked_bit b = true).
Proof.
  intros H. unfold marked. split.
  - intros (b' & H' & L). rewrite H in H'. injection H' as <-. revert L. clear. destruct b; cbn; (reflexivity || lia).
  - intros T. exists b. split; [exact H|]. revert T. clear. destruct b; cbn; (discriminate || lia).
Qed.

Lemma tag_here p q t : tag_at by_ p q t -> tag_at by_ q q t.
Proof. intros (L & Pd & B). split; [lia|]. split; [intros; lia|exact B]. Qed.

Lemma tag_reduce E m p q t d p' X :
  tag_at by_ p q t -> Ptag ((q, None) :: E) m q t d p' X -> Pitem E m p d p' (X ++ [(q, Some d)]).
Proof.
  intros Ht (L1 & L2 & HB).
  destruct (tag_skip _ _ _ _ Ht) as (b & E1 & E2 & L3 & L4 & Eb).
  split; [lia|split; [lia|]].
  intros fuel ptr C s Fd Hm Hf Hn Nc Hi.
  destruct fuel as [|f]; [unfold need in Hf; destruct (d_copy s); lia|].
  set (s1 := if tracked_bit b then mkDState (d_heap s) ((q, ptr) :: d_tracked s) (d_copy s) (d_made s) else s).
  assert (Eh : d_heap s1 = d_heap s) by (unfold s1; destruct (tracked_bit b); auto).
  assert (Ec : d_copy s1 = d_copy s) by (unfold s1; destruct (tracked_bit b); auto).
  assert (Hi1 : inv ((q, None) :: E) C s1).
  { destruct Hi as (I1 & I2 & I3 & I4). unfold inv. rewrite Eh.
    split; [exact I1|]. split; [exact I2|]. split; [exact I3|].
    unfold s1. destruct (tracked_bit b) eqn:TB; cbn [d_tracked].
    - apply al_on; [now apply (marked_bit q b)|discriminate|exact I4].
    - apply al_off; [|exact I4]. intros M. apply (marked_bit q b Eb) in M. congruence. }
  destruct (HB f ptr C s1 (tracked_bit b)) as (s' & v & C' & R & F & G & Cp & Bd & Hv & V); auto.
  - destruct m; cbn in *; congruence.
  - rewrite Ec. unfold need in *. destruct (d_copy s); lia.
  - rewrite Ec. intros C0. unfold need in Hf. rewrite C0 in Hf. lia.
  - unfold nilcell. now rewrite Eh.
  - exists s', v, C'. split; [|split; [|split; [|split; [exact Cp|split; [|split; [exact Hv|exact V]]]]]].
    + unfold runs in *. cbn [decode]. unfold decode_body.
      destruct (Nat.leb_spec len p); [lia|]. rewrite E1, E2.
      unfold mbind at 1.
      destruct (tracked_bit b) eqn:TB; cbn [track ret]; exact R.
    + unfold frm in *. now rewrite <- Eh, <- Ec.
    + destruct G as (K & A & Y & T & G). rewrite Eh in K. split; [exact K|]. split; [exact A|].
      unfold s1 in T. destruct (tracked_bit b) eqn:TB; cbn [d_tracked] in T.
      * exists (Y ++ [(q, ptr)]). split; [rewrite T, <- app_assoc; reflexivity|].
        apply alx_app; [exact G|]. apply al_on; [now apply (marked_bit q b)| |constructor].
        intros d' [= <-]. split; [exact Cp|]. eauto.
      * exists Y. split; [exact T|]. rewrite <- (app_nil_r Y). apply alx_app; [exact G|].
        apply al_off; [|constructor]. intros M. apply (marked_bit q b Eb) in M. congruence.
    + intros l Hl. rewrite <- Eh. auto.
Qed.

(** ** Items without other items inside *)


Definition keeps {A} (m : M A) : Prop := forall s a s', m s = (Ok a, s') -> d_tracked s' = d_tracked s.

Lemma keeps_ret A (a : A) : keeps (ret a).
Proof. intros s b s' [= _ <-]. reflexivity. Qed.
Lemma keeps_bind A B (m : M A) (k : A -> M B) : keeps m -> (forall a, keeps (k a)) -> keeps (mbind m k).
Proof.
  intros H K s b s' R. unfold mbind in R. destruct (m s) as [[a|e|e| |] s1] eqn:E; try discriminate.
  rewrite (K _ _ _ _ R). eapply H; eauto.
Qed.
Lemma keeps_fail A e : keeps (@fail A e).
Proof. intros s a s' [=]. Qed.
Lemma keeps_crash A : keeps (@crash A).
Proof. intros s a s' [=]. Qed.
Lemma keeps_set l v : keeps (set_var l v).
Proof. intros s a s' [= _ <-]. reflexivity. Qed.
Lemma keeps_alloc x : keeps (alloc x).
Proof. intros s a s' [= _ <-]. reflexivity. Qed.
Lemma keeps_log n k : keeps (log_make n k).
Proof. intros s a s' [= _ <-]. reflexivity. Qed.
Lemma keeps_varint i : keeps (varint_at by_ i).
Proof.
  unfold varint_at. destruct (slice_from by_ i); [|apply keeps_crash].
  destruct (varintdecode _); [apply keeps_ret|apply keeps_fail].
Qed.
Lemma keeps_fixed i k : keeps (fixed_at by_ i k).
Proof.
  unfold fixed_at. destruct (Nat.leb _ _); [apply keeps_fail|].
  destruct (slice_range _ _ _); [apply keeps_ret|apply keeps_crash].
Qed.
Lemma keeps_binary i n : keeps (binary_at by_ i n).
Proof.
  unfold binary_at. destruct (_ || _); [apply keeps_fail|]. destruct (_ <? _)%Z; [apply keeps_fail|].
  destruct (slice_range _ _ _); [apply keeps_ret|apply keeps_crash].
Qed.
Lemma keeps_binary_copy i n : keeps (binary_copy by_ i n).
Proof.
  unfold binary_copy. apply keeps_bind; [apply keeps_binary|]. intros [x j].
  apply keeps_bind; [apply keeps_log|]. intros _. apply keeps_bind; [apply keeps_alloc|].
  intros l. apply keeps_ret.
Qed.
Lemma keeps_stringish_body (rec : Z -> M (window * nat)) z : (forall z, keeps (rec z)) ->
  keeps (stringish_body by_ rec z).
Proof.
  intros K. unfold stringish_body. destruct (_ || _); [apply keeps_fail|].
  destruct (skip_pads _ _) as [[tb i]|]; [|apply keeps_fail].
  assert (B : keeps (let! (ln, sz) := varint_at by_ (S i) in
          let idx := S i + sz in
          if ((ln <? 0) || (maxInt32 <? ln))%Z then fail EBadStringSize
          else if (blen by_ <? Z.of_nat idx + ln)%Z then fail ETruncated
          else let n := Z.to_nat ln in
               match slice_range by_ idx (idx + n) with
               | None => crash
               | Some _ => ret (mkWin idx n, idx + n)
               end)).
  { apply keeps_bind; [apply keeps_varint|]. intros [ln sz]. cbn zeta.
    destruct (_ || _); [apply keeps_fail|]. destruct (_ <? _)%Z; [apply keeps_fail|].
    destruct (slice_range _ _ _); [apply keeps_ret|apply keeps_crash]. }
  destruct (tag_kind (untrack tb)); try exact B; try apply keeps_fail.
  - destruct (Nat.ltb _ _); [apply keeps_fail|].
    destruct (slice_range _ _ _); [apply keeps_ret|apply keeps_crash].
  - apply keeps_bind; [intros s a s' [= _ <-]; reflexivity|]. intros d.
    destruct (Nat.ltb _ _); [apply keeps_fail|].
    apply keeps_bind; [apply keeps_varint|]. intros [o sz].
    destruct (_ || _); [apply keeps_fail|].
    apply keeps_bind; [intros s a s' [= _ <-]; reflexivity|]. intros _.
    apply keeps_bind; [|intros r; apply keeps_ret].
    intros s a s' R. destruct (rec o s) as [[r|e|e| |] s1] eqn:E; try discriminate.
    injection R as _ <-. cbn. eapply K; eauto.
Qed.
Lemma keeps_stringish z : keeps (decodeStringish by_ z).
Proof.
  unfold decodeStringish. cbn [stringish_fuel]. apply keeps_stringish_body. intros z1.
  apply keeps_stringish_body. intros z2 s a s' [=].
Qed.

Lemma plain_tracked rec trk i ptr t s a s' : plain_tag t ->
  runs (decode_tag c by_ ibuf ishift rec (tag_kind t) trk i ptr) s a s' -> d_tracked s' = d_tracked s.
Proof.
  intros Pt. revert s a s'.
  change (keeps (decode_tag c by_ ibuf ishift rec (tag_kind t) trk i ptr)).
  assert (SR : forall v (j : nat), keeps (set_var ptr v ;; ret j)).
  { intros v j. apply keeps_bind; [apply keeps_set|]. intros _. apply keeps_ret. }
  unfold plain_tag in Pt.
  destruct (N.ltb_spec t 32) as [L|L].
  { rewrite (tk_small by_) by exact L. apply SR. }
  destruct (N.leb_spec 96 t) as [L2|L2].
  { rewrite (tk_short by_) by lia. cbn [decode_tag]. apply keeps_bind; [apply keeps_binary_copy|].
    intros [v j]. apply SR. }
  assert (T : (t = 32 \/ t = 33 \/ t = 34 \/ t = 35 \/ t = 37 \/ t = 38 \/ t = 39 \/ t = 49 \/ t = 57 \/ t = 58 \/ t = 59)%N) by lia.
  clear Pt L L2.
  decompose [or] T; subst t;
    match goal with |- context [tag_kind ?n] => let k := eval vm_compute in (tag_kind n) in change (tag_kind n) with k end;
    cbn [decode_tag]; try apply SR.
  - apply keeps_bind; [apply keeps_varint|]. intros [v sz].
    apply keeps_bind; [destruct (_ <? _)%Z; apply keeps_set|]. intros _. apply keeps_ret.
  - apply keeps_bind; [apply keeps_varint|]. intros [v sz]. apply SR.
  - apply keeps_bind; [apply keeps_fixed|]. intros v. apply SR.
  - apply keeps_bind; [apply keeps_fixed|]. intros v. apply SR.
  - apply keeps_bind; [|intros _; apply keeps_ret]. destruct (d_perl c); [|apply keeps_set].
    apply keeps_bind; [apply keeps_alloc|]. intros l. apply keeps_set.
  - apply keeps_bind; [apply keeps_varint|]. intros [v sz].
    apply keeps_bind; [apply keeps_binary_copy|]. intros [w j]. apply SR.
  - apply keeps_bind; [apply keeps_varint|]. intros [v sz].
    apply keeps_bind; [apply keeps_binary|]. intros [w j]. apply SR.
  - unfold decodeRegexp. apply keeps_bind; [apply keeps_stringish|]. intros [w j].
    apply keeps_bind; [apply keeps_stringish|]. intros [w' j'].
    apply keeps_bind; [apply keeps_alloc|]. intros l. apply SR.
  - apply keeps_bind; [|intros _; apply keeps_ret]. destruct (d_perl c); apply keeps_set.
Qed.


Lemma Pitem_pad E m p q t d p' X : tag_at by_ p q t -> Pitem E m q d p' X -> Pitem E m p d p' X.
Proof.
  intros Ht (L1 & L2 & H).
  destruct (tag_skip _ _ _ _ Ht) as (b & E1 & E2 & L3 & L4 & Eb).
  destruct (tag_skip _ _ _ _ (tag_here _ _ _ Ht)) as (b' & E1' & E2' & _ & _ & Eb').
  assert (b' = b) by congruence. subst b'.
  split; [lia|split; [exact L2|]]. intros fuel ptr C s Fd Hm Hf Hn Nc Hi.
  destruct (H fuel ptr C s) as (s' & v & C' & R & X1); auto.
  { eapply need_mono; eauto. }
  exists s', v, C'. split; [|exact X1].
  destruct fuel as [|f]; [discriminate|]. unfold runs in *. cbn [decode] in *. unfold decode_body in *.
  destruct (Nat.leb_spec len p); [lia|]. destruct (Nat.leb_spec len q); [lia|].
  rewrite E1. rewrite E1' in R. exact R.
Qed.

Lemma Pbody_at E m q t d p' X : (tag_at by_ q q t -> Ptag E m q t d p' X) -> Pbody E m q t d p' X.
Proof. intros H Ht E0 ->. eapply tag_reduce; eauto. Qed.
Lemma Pbody_tag E m q t d p' X : Ptag E m q t d p' X -> Pbody E m q t d p' X.
Proof. intros H Ht E0 ->. eapply tag_reduce; eauto. Qed.

Lemma Pbody_plain E m q t d p' : plain_tag t -> item g by_ m q d p' -> Pbody E m q t d p' [].
Proof.
  intros Pt It Ht E0 ->. cbn [app].
  destruct (proj1 (decode_implements_grammar c by_ ibuf ishift buf start Hlen Hbuf) _ _ _ _ It) as (L1 & L2 & H).
  split; [lia|split; [exact L2|]].
  intros fuel ptr C s Fd Hm Hf Hn Nc Hi.
  destruct (tag_skip _ _ _ _ Ht) as (b & E1 & E2 & L3 & L4 & Eb).
  pose proof Hi as (I1 & I2 & I3 & I4).
  destruct (H fuel ptr s) as (s' & v & R & F & Hv & V); auto.
  assert (T : d_tracked s' = (if tracked_bit b then [(q, ptr)] else []) ++ d_tracked s).
  { destruct fuel as [|f]; [discriminate|]. unfold runs in R. cbn [decode] in R. unfold decode_body in R.
    destruct (Nat.leb_spec len q); [lia|]. rewrite E1, E2 in R. unfold mbind at 1 in R.
    destruct (tracked_bit b); cbn [track ret] in R; apply (plain_tracked _ _ _ _ _ _ _ _ Pt) in R; exact R. }
  pose proof (nth_error_Some_lt _ _ _ _ Hv) as Lp.
  set (C' := fun l => C l \/ l = ptr \/ length (d_heap s) <= l < length (d_heap s')).
  assert (Kp : kept C C' (d_heap s) (d_heap s')).
  { intros l Hl. split; [now left|]. destruct F as (_ & F & _). apply F; [now apply I3|].
    intros <-. contradiction. }
  assert (V' : rp C' (d_heap s') v (vw d)).
  { replace (vw d) with d.
    - eapply repr_stable; [|exact V]. intros l [->|Hl]; split; auto; [now left|right; now right].
    - unfold vw. destruct (d_noref c); auto. symmetry. eapply (item_unback g by_); eauto. }
  exists s', v, C'. split; [exact R|]. split; [exact F|]. split; [|split; [|split; [|split; [exact Hv|exact V']]]].
  - split; [exact Kp|]. split.
    + intros l [Hl|[->|Hl]]; [|exact Lp|lia]. pose proof (frm_len _ _ _ F). specialize (I3 l Hl). lia.
    + eexists. split; [exact T|]. destruct (tracked_bit b) eqn:TB.
      * apply al_on; [now apply (marked_bit q b)| |constructor].
        intros d' [= <-]. split; [right; now left|]. eauto.
      * apply al_off; [|constructor]. intros M. apply (marked_bit q b Eb) in M. congruence.
  - right; now left.
  - intros l [Hl|[->|Hl]]; auto. right; right; lia.
Qed.

(** ** Items behind references *)

Lemma nil_notin C s ptr l : nilcell s ptr -> ~ C ptr -> C l -> l <> ptr.
Proof. congruence. Qed.

Lemma rec_fresh E m p d p' X f C s : Pitem E m p d p' X -> fine d ->
  mode_ok m s -> need by_ p (d_copy s) <= f -> inv E C s ->
  exists s' v C', runs (let! l := alloc (CV GNil) in dec f p l) s p' s' /\
    (forall W, frm W s s') /\ nth_error (d_heap s') (length (d_heap s)) = Some (CV v) /\
    grow C s C' s' X /\ C' (length (d_heap s)) /\
    (forall l, C' l -> C l \/ length (d_heap s) <= l) /\ rp C' (d_heap s') v (vw d).
Proof.
  intros (P1 & P2 & PI) Fd Hm Hf Hi.
  set (s1 := with_heap s (d_heap s ++ [CV GNil])).
  assert (F1 : forall W, frm W s s1) by (intros; apply (frm_alloc by_ 0)).
  assert (L1 : length (d_heap s1) = S (length (d_heap s))) by (cbn; rewrite app_length; cbn; lia).
  pose proof Hi as (I1 & I2 & I3 & I4).
  destruct (PI f (length (d_heap s)) C s1) as (s2 & v & C' & R & F & G & Cp & Bd & Hv & V); auto.
  - unfold nilcell, s1. cbn. rewrite nth_error_app2, Nat.sub_diag by lia. reflexivity.
  - intros Hc. specialize (I3 _ Hc). lia.
  - eapply inv_frm; [exact Hi|apply (F1 (fun _ => False))|auto|reflexivity].
  - exists s2, v, C'. split; [|split; [|split; [exact Hv|split; [|split; [exact Cp|split; [|exact V]]]]]].
    + eapply runs_bind; [reflexivity|]. exact R.
    + intros W. eapply (frm_comp by_ 0); [apply F1|exact F|]. intros; lia.
    + rewrite <- (app_nil_r X). eapply grow_trans; [|exact G].
      eapply grow_frm; [exact I3| |apply (F1 (fun _ => False))|reflexivity]. auto.
    + intros l Hl. destruct (Bd l Hl) as [H|[->|H]]; auto. right. lia.
Qed.

(** an item behind a new cell to which ptr already points *)
Lemma rec_under E m p d p' X f ptr C s (mk : loc -> gval) : Pitem E m p d p' X -> fine d ->
  mode_ok m s -> need by_ p (d_copy s) <= f -> inv E C s -> nilcell s ptr -> ~ C ptr ->
  exists s' v C', runs (let! l := alloc (CV GNil) in (set_var ptr (mk l) ;; dec f p l)) s p' s' /\
    frm (eq ptr) s s' /\ nth_error (d_heap s') ptr = Some (CV (mk (length (d_heap s)))) /\
    nth_error (d_heap s') (length (d_heap s)) = Some (CV v) /\
    grow C s C' s' X /\ C' (length (d_heap s)) /\
    (forall l, C' l -> C l \/ length (d_heap s) <= l) /\ rp C' (d_heap s') v (vw d).
Proof.
  intros (P1 & P2 & PI) Fd Hm Hf Hi Hn Nc.
  pose proof (nil_lt _ _ Hn) as Lp. pose proof Hi as (I1 & I2 & I3 & I4).
  set (l := length (d_heap s)).
  set (s1 := with_heap s (d_heap s ++ [CV GNil])).
  set (s2 := with_heap s1 (upd (d_heap s1) ptr (CV (mk l)))).
  assert (F1 : frm (eq ptr) s s2).
  { eapply (frm_comp by_ 0); [apply (frm_alloc by_ 0)|apply (frm_set by_)|auto]. }
  assert (L1 : length (d_heap s1) = S l) by (unfold s1, l; cbn; rewrite app_length; cbn; lia).
  assert (L2 : length (d_heap s2) = S l) by (unfold s2; cbn [d_heap with_heap]; rewrite upd_length; exact L1).
  assert (G1 : grow C s C s2 []).
  { eapply grow_frm; [exact I3| |exact F1|reflexivity]. intros x Hx <-. contradiction. }
  destruct (PI f l C s2) as (s3 & v & C' & R & F & G & Cp & Bd & Hv & V); auto.
  - unfold nilcell, s2. cbn [d_heap with_heap]. rewrite nth_error_upd_other by (unfold l; lia).
    unfold s1, l. cbn. rewrite nth_error_app2, Nat.sub_diag by lia. reflexivity.
  - intros Hc. specialize (I3 _ Hc). unfold l in I3. lia.
  - apply (inv_grow E C s C s2 []); auto.
  - exists s3, v, C'. split; [|split; [|split; [|split; [exact Hv|split; [|split; [exact Cp|split; [|exact V]]]]]]].
    + eapply runs_bind; [reflexivity|]. eapply runs_bind; [reflexivity|]. exact R.
    + eapply (frm_comp by_ 0); [exact F1|exact F|]. intros; unfold l in *; lia.
    + eapply frm_cell; [exact F| |unfold l; lia]. apply set_same. lia.
    + rewrite <- (app_nil_r X). eapply grow_trans; eauto.
    + intros x Hx. destruct (Bd x Hx) as [H|[->|H]]; auto. right. unfold l. lia.
Qed.

(** writing ptr at the end *)
Lemma write_last (m : M nat) ptr C s C1 s1 v d i X :
  (forall W : loc -> Prop, frm W s s1) \/ frm (eq ptr) s s1 ->
  grow C s C1 s1 X -> ptr < length (d_heap s) -> ~ C ptr ->
  (forall l, C1 l -> C l \/ length (d_heap s) <= l) ->
  rp C1 (d_heap s1) v (vw d) ->
  m s = (set_var ptr v ;; ret i) s1 -> decoded m ptr C s d i X.
Proof.
  intros F0 G Lp Nc Bd V Em.
  assert (F : frm (eq ptr) s s1) by (destruct F0; auto).
  pose proof (frm_len _ _ _ F) as L.
  set (s2 := with_heap s1 (upd (d_heap s1) ptr (CV v))).
  assert (Nc1 : forall l, C1 l -> l <> ptr).
  { intros l Hl ->. destruct (Bd _ Hl); [contradiction|lia]. }
  assert (G2 : grow C1 s1 C1 s2 []).
  { eapply grow_frm; [apply G| |apply (frm_set by_)|reflexivity]. intros x Hx E. now apply (Nc1 x). }
  pose proof (grow_trans _ _ _ _ _ _ _ _ G G2) as G3. cbn [app] in G3.
  assert (Lp2 : ptr < length (d_heap s2)) by (unfold s2; cbn [d_heap with_heap]; rewrite upd_length; lia).
  assert (G4 := grow_more _ _ _ _ _ (fun l => l = ptr) G3 ltac:(intros l ->; exact Lp2)).
  exists s2, v, (fun l => C1 l \/ l = ptr). split; [exact Em|]. split.
  { eapply (frm_comp by_ 0); [exact F|apply (frm_set by_)|auto]. }
  split; [exact G4|]. split; [now right|]. split.
  { intros l [H|H]; auto. destruct (Bd l H); auto. }
  split; [apply set_same; lia|].
  eapply repr_stable; [|exact V]. intros l Hl. split; [now left|]. now apply G2.
Qed.

Lemma alloc_grow C s x C0 s0 X : grow C s C0 s0 X ->
  grow C s (fun l => C0 l \/ l = length (d_heap s0)) (with_heap s0 (d_heap s0 ++ [x])) X.
Proof.
  intros G.
  assert (G2 : grow C0 s0 C0 (with_heap s0 (d_heap s0 ++ [x])) []).
  { eapply grow_frm; [apply G| |apply (frm_alloc by_ 0 (fun _ => False))|reflexivity]. auto. }
  pose proof (grow_trans _ _ _ _ _ _ _ _ G G2) as G3.
  apply (grow_more _ _ _ _ _ (fun l => l = length (d_heap s0)) G3).
  intros l ->. cbn. rewrite app_length. cbn. lia.
Qed.

Lemma Ptag_refn E m q d p' X : Pitem E m (S q) d p' X -> Ptag E m q 40 (DRef d) p' X.
Proof.
  intros PP. pose proof PP as (P1 & P2 & PI). split; [lia|split; [exact P2|]].
  intros f ptr C s trk Fd Hm Hf Hf0 Hn Nc Hi. change (tag_kind 40) with TRefn. cbn [decode_tag].
  pose proof (nil_lt _ _ Hn) as Lp.
  assert (Fd' : fine d) by (intros H; apply backs_ref, Fd, H).
  destruct (d_perl c) eqn:Pl.
  - destruct (rec_under E m (S q) d p' X f ptr C s (GPtr true)) as (s' & v & C' & R & F & Hp & Hl & G & Cl & Bd & V); auto.
    assert (Np : v <> GNil) by (rewrite Pl in V; eapply repr_not_nil; eauto).
    destruct trk.
    + pose proof (frm_len _ _ _ F) as L.
      assert (G4 := grow_more _ _ _ _ _ (fun l => l = ptr) G ltac:(intros l ->; lia)).
      exists s', (GPtr true (length (d_heap s))), (fun l => C' l \/ l = ptr).
      split; [unfold runs; rewrite (under_bind _ _ _ _ _ _ _ _ R); reflexivity|].
      split; [exact F|]. split; [exact G4|]. split; [now right|]. split.
      { intros l [H|H]; auto. destruct (Bd l H); auto. }
      split; [exact Hp|]. rewrite vw_ref. eapply r_ref_perl; eauto.
      eapply repr_stable; [|exact V]. intros l H. split; auto.
    + set (s2 := with_heap s' (d_heap s' ++ [CV v])).
      eapply (write_last _ ptr C s (fun l => C' l \/ l = length (d_heap s')) s2 (GPtr false (length (d_heap s')))); eauto.
      * right. eapply (frm_comp by_ 0); [exact F|apply (frm_alloc by_ 0 (fun _ => False))|easy].
      * apply alloc_grow; auto.
      * intros l [H| ->]; [destruct (Bd l H); auto|]. right. apply (frm_len _ _ _ F).
      * rewrite vw_ref. eapply r_ref_perl; [auto|now right| |].
        -- unfold s2. cbn. rewrite nth_error_app2, Nat.sub_diag by lia. reflexivity.
        -- eapply repr_stable; [|exact V]. intros l H. split; [now left|]. unfold s2. cbn.
           apply nth_error_app1. apply G, H.
      * rewrite (under_bind _ _ _ _ _ _ _ _ R). unfold mbind at 1. cbn [get_var].
        rewrite (hget_cell _ _ _ Hl). destruct v; try contradiction; reflexivity.
  - destruct (PI f ptr C s) as (s' & v & C' & R & F & G & Cp & Bd & Hv & V); auto.
    exists s', v, C'. split; [exact R|]. split; [exact F|]. split; [exact G|]. split; [exact Cp|].
    split; [exact Bd|]. split; [exact Hv|]. rewrite vw_ref. now apply r_ref.
Qed.

Lemma Ptag_weaken E m q d p' X : Pitem E m (S q) d p' X -> Ptag E m q 48 (DWeak d) p' X.
Proof.
  intros PP. pose proof PP as (P1 & P2 & PI). split; [lia|split; [exact P2|]].
  intros f ptr C s trk Fd Hm Hf Hf0 Hn Nc Hi. change (tag_kind 48) with TWeaken. cbn [decode_tag].
  pose proof (nil_lt _ _ Hn) as Lp.
  assert (Fd' : fine d) by (intros H; apply backs_weak, Fd, H).
  destruct (d_perl c) eqn:Pl.
  - destruct (rec_under E m (S q) d p' X f ptr C s GWeakP) as (s' & v & C' & R & F & Hp & Hl & G & Cl & Bd & V); auto.
    pose proof (frm_len _ _ _ F) as L.
    assert (G4 := grow_more _ _ _ _ _ (fun l => l = ptr) G ltac:(intros l ->; lia)).
    exists s', (GWeakP (length (d_heap s))), (fun l => C' l \/ l = ptr).
    split; [exact R|]. split; [exact F|]. split; [exact G4|]. split; [now right|]. split.
    { intros l [H|H]; auto. destruct (Bd l H); auto. }
    split; [exact Hp|]. rewrite vw_weak. eapply r_weak_perl; eauto.
    eapply repr_stable; [|exact V]. intros l H. split; auto.
  - destruct (PI f ptr C s) as (s' & v & C' & R & F & G & Cp & Bd & Hv & V); auto.
    exists s', v, C'. split; [exact R|]. split; [exact F|]. split; [exact G|]. split; [exact Cp|].
    split; [exact Bd|]. split; [exact Hv|]. rewrite vw_weak. now apply r_weak.
Qed.

Lemma decoded_bind A (m : M A) (k : A -> M nat) s a ptr C d i X :
  runs m s a s -> decoded (k a) ptr C s d i X -> decoded (mbind m k) ptr C s d i X.
Proof.
  intros R (s' & v & C' & R2 & H). exists s', v, C'. split; [|exact H].
  eapply runs_bind; eauto.
Qed.

Lemma not_eq_ptr (C : loc -> Prop) ptr : ~ C ptr -> forall l, C l -> ptr <> l.
Proof. congruence. Qed.

Lemma array_decoded E m p ds p' X f ptr C s isRef :
  Pitems E m p ds p' X -> p <= len -> (Z.of_nat (length ds) <= 2147483647)%Z ->
  (forall d, In d ds -> fine d) ->
  mode_ok m s -> need by_ p (d_copy s) <= f -> nilcell s ptr -> ~ C ptr -> inv E C s ->
  (isRef = true -> d_perl c = true) ->
  decoded (decodeArray by_ (dec f) p (Z.of_nat (length ds)) ptr isRef)
          ptr C s (if isRef then DRef (DArr ds) else DArr ds) p' X.
Proof.
  intros (P1 & P2 & PI) Hp Hl Fd Hm Hf Hn Nc Hi Hr. specialize (P2 Hp).
  pose proof (nil_lt _ _ Hn) as Lp.
  pose proof Hi as (I1 & I2 & I3 & I4).
  set (n := length ds) in *.
  set (s0 := mkDState (d_heap s) (d_tracked s) (d_copy s) ((n, len - p) :: d_made s)).
  set (base := length (d_heap s)).
  assert (Eb : base = length (d_heap s)) by reflexivity.
  set (s1 := with_heap s0 (d_heap s0 ++ repeat (CV GNil) (Nat.max 1 n))).
  assert (L1 : length (d_heap s1) = base + Nat.max 1 n).
  { unfold s1. cbn. rewrite app_length, repeat_length. reflexivity. }
  assert (F1 : frm (eq ptr) s s1) by (apply (frm_alloc by_ 0 (eq ptr) s0)).
  assert (N1 : forall i, i < n -> nilcell s1 (base + i)).
  { intros i H. apply (nil_repeat by_ s0 _ n); lia. }
  assert (Pre : exists s2 v, frm (eq ptr) s1 s2 /\ length (d_heap s1) <= length (d_heap s2) /\
     d_tracked s2 = d_tracked s1 /\
     nth_error (d_heap s2) ptr = Some (CV v) /\
     runs ((if isRef then let! q := alloc (CV (GSlice base n)) in set_var ptr (GPtr false q)
            else set_var ptr (GSlice base n))) s1 tt s2 /\
     (if isRef then v = GPtr false (base + Nat.max 1 n) /\
                    nth_error (d_heap s2) (base + Nat.max 1 n) = Some (CV (GSlice base n))
      else v = GSlice base n)).
  { destruct isRef.
    - set (s2 := with_heap (with_heap s1 (d_heap s1 ++ [CV (GSlice base n)]))
                   (upd (d_heap s1 ++ [CV (GSlice base n)]) ptr (CV (GPtr false (length (d_heap s1)))))).
      exists s2, (GPtr false (length (d_heap s1))).
      assert (F : frm (eq ptr) s1 s2).
      { eapply (frm_comp by_ 0); [apply (frm_alloc by_ 0 _ s1 [CV (GSlice base n)])|apply (frm_set by_)|auto]. }
      split; [exact F|]. split; [apply (frm_len _ _ _ F)|]. split; [reflexivity|]. split.
      + unfold s2. cbn [d_heap with_heap]. apply nth_error_upd_same. rewrite app_length. lia.
      + split; [reflexivity|]. rewrite L1. split; [reflexivity|].
        unfold s2. cbn [d_heap with_heap]. rewrite nth_error_upd_other by lia.
        rewrite nth_error_app2 by lia.
        replace (base + Nat.max 1 n - length (d_heap s1)) with 0 by lia. reflexivity.
    - set (s2 := with_heap s1 (upd (d_heap s1) ptr (CV (GSlice base n)))).
      exists s2, (GSlice base n).
      assert (F : frm (eq ptr) s1 s2) by apply (frm_set by_).
      split; [exact F|]. split; [apply (frm_len _ _ _ F)|]. split; [reflexivity|]. split.
      + apply set_same. lia.
      + split; reflexivity. }
  destruct Pre as (s2 & v & F2 & L2 & T2 & C2 & R2 & V2).
  assert (F02 : frm (eq ptr) s s2) by (eapply (frm_comp by_ 0); eauto).
  assert (G02 : grow C s C s2 []).
  { eapply grow_frm; [exact I3|apply (not_eq_ptr _ _ Nc)|exact F02|exact T2]. }
  destruct (PI f base C s2) as (s3 & C3 & R3 & F3 & G3 & B3 & RP).
  - exact Fd.
  - eapply mode_frm; eauto.
  - rewrite (frm_copy _ _ _ F02). exact Hf.
  - apply (inv_grow E C s C s2 []); auto.
  - intros i H. split; [eapply frm_cell; [exact F2|now apply N1|lia]|].
    intros Hc. specialize (I3 _ Hc). lia.
  - assert (F03 : frm (eq ptr) s s3).
    { eapply (frm_comp by_ 0); [exact F02|exact F3|]. intros l H1 H2. fold base in H2. cbn beta in H1. lia. }
    assert (G03 : grow C s C3 s3 X) by (rewrite <- (app_nil_r X); eapply grow_trans; eauto).
    pose proof (frm_len _ _ _ F3) as L3.
    assert (Hp3 : nth_error (d_heap s3) ptr = Some (CV v)).
    { eapply frm_cell; [exact F3|exact C2|]. cbn beta. lia. }
    set (D := fun l : loc => l = ptr \/ (isRef = true /\ l = base + Nat.max 1 n)).
    assert (HD : forall l, D l -> l < length (d_heap s3)).
    { intros l [->|[Er ->]]; [lia|]. rewrite Er in V2. destruct V2 as [_ V2].
      apply nth_error_Some_lt in V2. lia. }
    exists s3, v, (fun l => C3 l \/ D l). split; [|split; [exact F03|split; [|split; [|split; [|split; [exact Hp3|]]]]]].
    + unfold decodeArray, blen, maxInt32.
      destruct ((Z.of_nat n <? 0) || (2147483647 <? Z.of_nat n))%Z eqn:B; [lia|].
      destruct (Z.of_nat len <? Z.of_nat p + Z.of_nat n)%Z eqn:B2; [lia|].
      rewrite Nat2Z.id.
      eapply runs_bind; [reflexivity|]. fold s0.
      eapply runs_bind; [reflexivity|]. fold s1.
      eapply runs_bind; [exact R2|]. exact R3.
    + now apply grow_more.
    + right; now left.
    + intros l [H|[H|[_ H]]]; auto; [|right; right; fold base; lia].
      destruct (B3 l H) as [H1|[H1|H1]]; auto; right; right; fold base; lia.
    + assert (RPa : rp (fun l => C3 l \/ D l) (d_heap s3) (GSlice base n) (DArr (map vw ds))).
      { constructor; [now rewrite map_length|].
        eapply (repr_stable _ _ _ _ (d_heap s3) (d_heap s3)); [|exact RP]. auto. }
      destruct isRef.
      * destruct V2 as [-> V2]. rewrite vw_ref, vw_arr. econstructor; [auto| | |exact RPa].
        -- right; right; auto.
        -- eapply frm_cell; [exact F3|exact V2|]. cbn beta. lia.
      * subst v. rewrite vw_arr. exact RPa.
Qed.

Lemma hash_decoded E m p kvs p' X f ptr C s isRef :
  Ppairs E m p kvs p' X -> p <= len -> (Z.of_nat (length kvs) <= 2147483647)%Z ->
  (forall k d, In (k, d) kvs -> fine d) ->
  mode_ok m s -> need by_ p (d_copy s) <= f -> nilcell s ptr -> ~ C ptr -> inv E C s ->
  (isRef = true -> d_perl c = true) ->
  decoded (decodeHash by_ (dec f) p (Z.of_nat (length kvs)) ptr isRef)
          ptr C s (if isRef then DRef (DHash kvs) else DHash kvs) p' X.
Proof.
  intros (P1 & P2 & PI) Hp Hl Fd Hm Hf Hn Nc Hi Hr. specialize (P2 Hp).
  pose proof (nil_lt _ _ Hn) as Lp.
  pose proof Hi as (I1 & I2 & I3 & I4).
  set (n := length kvs) in *.
  set (s0 := mkDState (d_heap s) (d_tracked s) (d_copy s) ((n, len - p) :: d_made s)).
  set (ml := length (d_heap s)).
  assert (Eb : ml = length (d_heap s)) by reflexivity.
  set (s1 := with_heap s0 (d_heap s0 ++ [CMap []])).
  assert (L1 : length (d_heap s1) = ml + 1).
  { unfold s1. cbn. rewrite app_length. reflexivity. }
  assert (F1 : frm (eq ptr) s s1) by (apply (frm_alloc by_ 0 (eq ptr) s0)).
  assert (N1 : nth_error (d_heap s1) ml = Some (CMap [])).
  { unfold s1, ml. cbn. rewrite nth_error_app2, Nat.sub_diag by lia. reflexivity. }
  assert (Pre : exists s2 v, frm (eq ptr) s1 s2 /\ d_tracked s2 = d_tracked s1 /\
     nth_error (d_heap s2) ptr = Some (CV v) /\
     runs ((if isRef then let! q := alloc (CV (GMap ml)) in set_var ptr (GPtr false q)
            else set_var ptr (GMap ml))) s1 tt s2 /\
     (if isRef then v = GPtr false (ml + 1) /\
                    nth_error (d_heap s2) (ml + 1) = Some (CV (GMap ml))
      else v = GMap ml)).
  { destruct isRef.
    - set (s2 := with_heap (with_heap s1 (d_heap s1 ++ [CV (GMap ml)]))
                   (upd (d_heap s1 ++ [CV (GMap ml)]) ptr (CV (GPtr false (length (d_heap s1)))))).
      exists s2, (GPtr false (length (d_heap s1))).
      assert (F : frm (eq ptr) s1 s2).
      { eapply (frm_comp by_ 0); [apply (frm_alloc by_ 0 _ s1 [CV (GMap ml)])|apply (frm_set by_)|auto]. }
      split; [exact F|]. split; [reflexivity|]. split.
      + unfold s2. cbn [d_heap with_heap]. apply nth_error_upd_same. rewrite app_length. lia.
      + split; [reflexivity|]. rewrite L1. split; [reflexivity|].
        unfold s2. cbn [d_heap with_heap]. rewrite nth_error_upd_other by lia.
        rewrite nth_error_app2 by lia.
        replace (ml + 1 - length (d_heap s1)) with 0 by lia. reflexivity.
    - set (s2 := with_heap s1 (upd (d_heap s1) ptr (CV (GMap ml)))).
      exists s2, (GMap ml).
      assert (F : frm (eq ptr) s1 s2) by apply (frm_set by_).
      split; [exact F|]. split; [reflexivity|]. split.
      + apply set_same. lia.
      + split; reflexivity. }
  destruct Pre as (s2 & v & F2 & T2 & C2 & R2 & V2).
  assert (F02 : frm (eq ptr) s s2) by (eapply (frm_comp by_ 0); eauto).
  assert (G02 : grow C s C s2 []).
  { eapply grow_frm; [exact I3|apply (not_eq_ptr _ _ Nc)|exact F02|exact T2]. }
  pose proof (frm_len _ _ _ F2) as L2.
  destruct (PI f ml C s2 [] []) as (s3 & m1 & C3 & R3 & F3 & G3 & B3 & Cm & RP).
  - exact Fd.
  - eapply mode_frm; eauto.
  - rewrite (frm_copy _ _ _ F02). exact Hf.
  - apply (inv_grow E C s C s2 []); auto.
  - intros Hc. specialize (I3 _ Hc). lia.
  - eapply frm_cell; [exact F2|exact N1|lia].
  - constructor.
  - assert (F03 : frm (eq ptr) s s3).
    { eapply (frm_comp by_ 0); [exact F02|exact F3|]. intros l H1 H2. fold ml in H2. lia. }
    assert (G03 : grow C s C3 s3 X) by (rewrite <- (app_nil_r X); eapply grow_trans; eauto).
    pose proof (frm_len _ _ _ F3) as L3.
    assert (Hp3 : nth_error (d_heap s3) ptr = Some (CV v)).
    { eapply frm_cell; [exact F3|exact C2|]. cbn beta. lia. }
    set (D := fun l : loc => l = ptr \/ l = ml \/ (isRef = true /\ l = ml + 1)).
    assert (HD : forall l, D l -> l < length (d_heap s3)).
    { intros l [->|[->|[Er ->]]]; [lia|lia|]. rewrite Er in V2. destruct V2 as [_ V2].
      apply nth_error_Some_lt in V2. lia. }
    exists s3, v, (fun l => C3 l \/ D l). split; [|split; [exact F03|split; [|split; [|split; [|split; [exact Hp3|]]]]]].
    + unfold decodeHash, blen, maxInt32.
      destruct ((Z.of_nat n <? 0) || (2147483647 <? Z.of_nat n))%Z eqn:B; [lia|].
      destruct (Z.of_nat len <? Z.of_nat p + 2 * Z.of_nat n)%Z eqn:B2; [lia|].
      rewrite Nat2Z.id.
      eapply runs_bind; [reflexivity|]. fold s0.
      eapply runs_bind; [reflexivity|]. fold s1.
      eapply runs_bind; [exact R2|]. exact R3.
    + now apply grow_more.
    + right; now left.
    + intros l [H|[H|[H|[_ H]]]]; auto; try (right; right; fold ml; lia).
      destruct (B3 l H) as [H1|H1]; auto; right; right; fold ml; lia.
    + assert (RPa : rp (fun l => C3 l \/ D l) (d_heap s3) (GMap ml) (DHash (vwm kvs))).
      { econstructor; [|exact Cm|].
        - right; right; now left.
        - eapply (repr_stable _ _ _ _ (d_heap s3) (d_heap s3)); [|exact RP]. auto. }
      destruct isRef.
      * destruct V2 as [-> V2]. rewrite vw_ref, vw_hash. econstructor; [auto| | |exact RPa].
        -- right; right; right; auto.
        -- eapply frm_cell; [exact F3|exact V2|]. cbn beta. lia.
      * subst v. rewrite vw_hash. exact RPa.
Qed.

Lemma fine_arr ds : fine (DArr ds) -> forall d, In d ds -> fine d.
Proof. intros H d Hd Pl. eapply backs_arr; eauto. Qed.
Lemma fine_hash kvs : fine (DHash kvs) -> forall k d, In (k, d) kvs -> fine d.
Proof. intros H k d Hd Pl. eapply backs_hash; eauto. Qed.
Lemma fine_ref d : fine (DRef d) -> fine d.
Proof. intros H Pl. apply backs_ref; auto. Qed.

Lemma Ptag_array E m q n r ds p' X : vint by_ (S q) n r ->
  (n <= 2147483647)%N -> N.of_nat (length ds) = n -> Pitems E m r ds p' X -> Ptag E m q 43 (DArr ds) p' X.
Proof.
  intros Hv Hn En PP. pose proof PP as (P1 & P2 & _).
  destruct (vint_at _ Hlen _ _ _ (mkDState [] [] 0 []) Hv) as (_ & L1 & L2 & L3). specialize (P2 L2).
  split; [lia|split; [exact P2|]].
  intros f ptr C s trk Fd Hm Hf Hf0 Hnil Nc Hi. change (tag_kind 43) with TArray. cbn [decode_tag].
  destruct (vint_at _ Hlen _ _ _ s Hv) as (V & _).
  eapply decoded_bind; [exact V|]. cbn [fst snd].
  replace (S q + (r - S q)) with r by lia.
  rewrite to_int_small by (unfold two63; lia).
  replace (Z.of_N n) with (Z.of_nat (length ds)) by lia.
  apply (array_decoded E m r ds p' X f ptr C s false); auto; try lia; try discriminate.
  - now apply fine_arr.
  - eapply need_mono; eauto. lia.
Qed.

Lemma decoded_ref m ptr C s d p' X : d_perl c = false -> decoded m ptr C s d p' X ->
  decoded m ptr C s (DRef d) p' X.
Proof.
  intros Pl (s' & v & C' & R & F & G & Cp & Bd & Hv & V). exists s', v, C'.
  split; [exact R|]. split; [exact F|]. split; [exact G|]. split; [exact Cp|].
  split; [exact Bd|]. split; [exact Hv|]. rewrite vw_ref. now apply r_ref.
Qed.

Lemma Ptag_arrayref E m q t ds p' X : tag_at by_ q q t -> (64 <= t < 80)%N ->
  N.of_nat (length ds) = (t - 64)%N -> Pitems E m (S q) ds p' X -> Ptag E m q t (DRef (DArr ds)) p' X.
Proof.
  intros Ht Hr En PP. pose proof PP as (P1 & P2 & _).
  destruct (tag_skip _ _ _ _ Ht) as (b & _ & _ & L3 & L4 & _).
  specialize (P2 L4). split; [lia|split; [exact P2|]].
  intros f ptr C s trk Fd Hm Hf Hf0 Hnil Nc Hi. rewrite (tk_arrayref by_) by assumption. cbn [decode_tag].
  replace (N.to_nat (t - 64)) with (length ds) by lia.
  assert (D := array_decoded E m (S q) ds p' X f ptr C s (d_perl c) PP L4 ltac:(lia)
    (fine_arr _ (fine_ref _ Fd)) Hm Hf Hnil Nc Hi (fun x => x)).
  destruct (d_perl c) eqn:Pl; [exact D|]. now apply decoded_ref.
Qed.

Lemma Ptag_hash E m q n r kvs p' X : vint by_ (S q) n r ->
  (n <= 2147483647)%N -> N.of_nat (length kvs) = n -> Ppairs E m r kvs p' X -> Ptag E m q 42 (DHash kvs) p' X.
Proof.
  intros Hv Hn En PP. pose proof PP as (P1 & P2 & _).
  destruct (vint_at _ Hlen _ _ _ (mkDState [] [] 0 []) Hv) as (_ & L1 & L2 & L3). specialize (P2 L2).
  split; [lia|split; [exact P2|]].
  intros f ptr C s trk Fd Hm Hf Hf0 Hnil Nc Hi. change (tag_kind 42) with THash. cbn [decode_tag].
  destruct (vint_at _ Hlen _ _ _ s Hv) as (V & _).
  eapply decoded_bind; [exact V|]. cbn [fst snd].
  replace (S q + (r - S q)) with r by lia.
  rewrite to_int_small by (unfold two63; lia).
  replace (Z.of_N n) with (Z.of_nat (length kvs)) by lia.
  apply (hash_decoded E m r kvs p' X f ptr C s false); auto; try lia; try discriminate.
  - now apply fine_hash.
  - eapply need_mono; eauto. lia.
Qed.

Lemma Ptag_hashref E m q t kvs p' X : tag_at by_ q q t -> (80 <= t < 96)%N ->
  N.of_nat (length kvs) = (t - 80)%N -> Ppairs E m (S q) kvs p' X -> Ptag E m q t (DRef (DHash kvs)) p' X.
Proof.
  intros Ht Hr En PP. pose proof PP as (P1 & P2 & _).
  destruct (tag_skip _ _ _ _ Ht) as (b & _ & _ & L3 & L4 & _).
  specialize (P2 L4). split; [lia|split; [exact P2|]].
  intros f ptr C s trk Fd Hm Hf Hf0 Hnil Nc Hi. rewrite (tk_hashref by_) by assumption. cbn [decode_tag].
  replace (N.to_nat (t - 80)) with (length kvs) by lia.
  assert (D := hash_decoded E m (S q) kvs p' X f ptr C s (d_perl c) PP L4 ltac:(lia)
    (fine_hash _ (fine_ref _ Fd)) Hm Hf Hnil Nc Hi (fun x => x)).
  destruct (d_perl c) eqn:Pl; [exact D|]. now apply decoded_ref.
Qed.

Lemma Pitems_nil E m p : Pitems E m p [] p [].
Proof.
  split; [cbn; lia|split; [auto|]]. intros f base C s _ Hm Hf Hi Hn.
  exists s, C. split; [reflexivity|]. split; [apply frm_refl|]. split; [|split; [auto|constructor]].
  eapply (grow_frm C s s (fun _ => False)); auto; [apply Hi|apply frm_refl].
Qed.

Lemma Pitems_cons E m p d r X ds p' Y : Pitem E m p d r X -> Pitems (X ++ E) m r ds p' Y ->
  Pitems E m p (d :: ds) p' (Y ++ X).
Proof.
  intros (P1 & P2 & PI) (Q1 & Q2 & QI). specialize (Q2 P2).
  split; [cbn; lia|split; [auto|]]. intros f base C s Fd Hm Hf Hi Hn.
  assert (Hn0 : nilcell s base /\ ~ C base) by (rewrite <- (Nat.add_0_r base); apply Hn; cbn; lia).
  destruct Hn0 as [Hn0 Nc0].
  destruct (PI f base C s) as (s1 & v & C1 & R1 & F1 & G1 & Cp1 & B1 & H1 & V1); auto.
  { apply Fd. now left. }
  assert (Lall : forall i, i < length ds -> S base + i < length (d_heap s)).
  { intros i Hi'. replace (S base + i) with (base + S i) by lia. apply nil_lt, Hn. cbn. lia. }
  destruct (QI f (S base) C1 s1) as (s2 & C2 & R2 & F2 & G2 & B2 & V2).
  - intros x Hx. apply Fd. now right.
  - eapply mode_frm; eauto.
  - rewrite (frm_copy _ _ _ F1). eapply need_mono; eauto. lia.
  - eapply inv_grow; eauto.
  - intros i Hi'. destruct (Hn (S i)) as [A1 A2]; [cbn; lia|]. replace (S base + i) with (base + S i) by lia.
    split; [eapply frm_cell; [exact F1|exact A1|lia]|].
    intros Hc. specialize (Lall _ Hi'). destruct (B1 _ Hc) as [?|[?|?]]; [contradiction|lia|lia].
  - pose proof (frm_len _ _ _ F1) as L1. pose proof (frm_len _ _ _ F2) as L2.
    pose proof (nil_lt _ _ Hn0) as Lb.
    destruct G2 as (K2 & A2 & X2) eqn:EG. clear EG.
    exists s2, C2. split; [|split; [|split; [|split]]].
    + cbn [length array_loop]. eapply runs_bind; eauto.
    + eapply (frm_comp by_ 0).
      * eapply (frm_comp by_ 0) with (W1 := fun l => base <= l < base + length (d :: ds));
          [apply frm_refl|exact F1|]. intros l <- _. cbn. lia.
      * exact F2.
      * cbn. intros l H _. lia.
    + eapply grow_trans; [exact G1|]. split; [exact K2|]. split; [exact A2|exact X2].
    + intros l Hl. cbn [length]. destruct (B2 l Hl) as [Hl1|[Hl1|Hl1]]; [|right; left; lia|right; right; lia].
      destruct (B1 l Hl1) as [?|[?|?]]; auto. right; left; lia.
    + cbn [map]. econstructor.
      * apply (K2 base Cp1).
      * rewrite (proj2 (K2 base Cp1)). exact H1.
      * eapply repr_stable; [exact K2|exact V1].
      * exact V2.
Qed.

Lemma Ppairs_nil E m p : Ppairs E m p [] p [].
Proof.
  split; [cbn; lia|split; [auto|]]. intros f ml C s m0 kvs0 _ Hm Hf Hi Hml Cm V.
  exists s, m0, C. split; [reflexivity|]. split; [apply frm_refl|]. split; [|split; [auto|]].
  - eapply (grow_frm C s s (fun _ => False)); auto; [apply Hi|apply frm_refl].
  - rewrite app_nil_r. auto.
Qed.

Lemma Ppairs_cons E m p k r d r' X kvs p' Y :
  stringish g by_ (copy_ok m) p k r -> Pitem E m r d r' X -> Ppairs (X ++ E) m r' kvs p' Y ->
  Ppairs E m p ((k, d) :: kvs) p' (Y ++ X).
Proof.
  intros Hk PP (Q1 & Q2 & QI). pose proof PP as (P1 & P2 & PI). specialize (Q2 P2).
  destruct (stringish_runs c by_ start Hlen _ _ _ _ (mkDState [] [] 0 []) Hk) as (_ & _ & _ & _ & _ & L1 & L2); [reflexivity|].
  split; [cbn; lia|split; [auto|]]. intros f ml C s m0 kvs0 Fd Hm Hf Hi Hml Cm V.
  destruct (stringish_runs c by_ start Hlen _ _ _ _ s Hk (mode_copy _ _ Hm)) as (w & Rk & Ew & _ & _ & _ & _).
  destruct (rec_fresh E m r d r' X f C s PP (Fd _ _ (or_introl eq_refl)) Hm ltac:(eapply need_mono; eauto; lia) Hi)
    as (s1 & v & C1 & R1 & F1 & H1 & G1 & Cl1 & B1 & V1).
  pose proof (nth_error_Some_lt _ _ _ _ Cm) as Lm.
  set (s2 := with_heap s1 (upd (d_heap s1) ml (CMap (mput (hmap (d_heap s1) ml) k v)))).
  assert (F12 : frm (eq ml) s1 s2) by apply (frm_set by_).
  assert (C1m : nth_error (d_heap s1) ml = Some (CMap m0)).
  { eapply frm_cell; [apply (F1 (fun _ => False))|exact Cm|auto]. }
  assert (Em : hmap (d_heap s1) ml = m0) by (unfold hmap; now rewrite C1m).
  pose proof (frm_len _ _ _ F12) as L12. pose proof (nth_error_Some_lt _ _ _ _ H1) as L3.
  assert (F02 : frm (eq ml) s s2) by (eapply (frm_comp by_ 0); [apply F1|exact F12|auto]).
  assert (Nm : ~ C1 ml).
  { intros Hc. destruct (B1 _ Hc); [contradiction|lia]. }
  assert (G12 : grow C1 s1 C1 s2 []).
  { eapply grow_frm; [apply G1|apply (not_eq_ptr _ _ Nm)|exact F12|reflexivity]. }
  pose proof (grow_trans _ _ _ _ _ _ _ _ G1 G12) as G02. cbn [app] in G02.
  destruct (QI f ml C1 s2 (mput m0 k v) (kvs0 ++ [(k, d)])) as (s3 & m1 & C3 & R3 & F3 & G3 & B3 & C3m & V3).
  - intros k' x Hx. apply (Fd k'). now right.
  - eapply mode_frm; eauto.
  - rewrite (frm_copy _ _ _ F02). eapply need_mono; eauto. lia.
  - eapply inv_grow; eauto.
  - exact Nm.
  - unfold s2. cbn [d_heap with_heap]. rewrite nth_error_upd_same by lia. now rewrite Em.
  - rewrite vwm_app. constructor.
    + eapply repr_stable; [apply G02|exact V].
    + eapply repr_stable; [apply G12|exact V1].
  - exists s3, m1, C3. split; [|split; [|split; [|split; [|split; [exact C3m|]]]]].
    + cbn [length hash_loop]. eapply runs_bind; [exact Rk|]. cbn [fst snd].
      unfold runs.
      erewrite (fresh_bind (CV GNil) (fun l => dec f r l)
        (fun idx vl => let! v0 := get_var vl in (map_set ml (win_bytes by_ w) v0 ;;
            hash_loop by_ (dec f) (length kvs) ml idx))); [|exact R1].
      eapply runs_bind; [reflexivity|]. rewrite (hget_cell _ _ _ H1), Ew.
      eapply runs_bind; [reflexivity|]. exact R3.
    + eapply (frm_comp by_ 0); [exact F02|exact F3|auto].
    + eapply grow_trans; eauto.
    + intros l Hl. pose proof (frm_len _ _ _ F02). destruct (B3 l Hl) as [Hl1|Hl1]; auto. right; lia.
    + rewrite <- app_assoc in V3. exact V3.
Qed.

Lemma object_decoded E m r d p' X f ptr C s isV q cls : Pitem E m r d p' X -> fine d ->
  runs (class_name by_ q isV) s (cls, r) s ->
  mode_ok m s -> need by_ r (d_copy s) <= f -> nilcell s ptr -> ~ C ptr -> inv E C s ->
  decoded (decodeObject c by_ (dec f) q ptr isV) ptr C s (DObj cls d) p' X.
Proof.
  intros PP Fd R Hm Hf Hn Nc Hi. pose proof PP as (P1 & P2 & _).
  pose proof (nil_lt _ _ Hn) as Lp.
  unfold decodeObject. eapply decoded_bind; [exact R|]. cbn [fst snd].
  destruct (d_perl c) eqn:Pl.
  - destruct (rec_under E m r d p' X f ptr C s (GObjP cls)) as (s' & v & C' & R1 & F & Hp & Hl & G & Cl & Bd & V); auto.
    pose proof (frm_len _ _ _ F) as L.
    assert (G4 := grow_more _ _ _ _ _ (fun l => l = ptr) G ltac:(intros l ->; lia)).
    exists s', (GObjP cls (length (d_heap s))), (fun l => C' l \/ l = ptr).
    split; [exact R1|]. split; [exact F|]. split; [exact G4|]. split; [now right|]. split.
    { intros l [H|H]; auto. destruct (Bd l H); auto. }
    split; [exact Hp|]. rewrite vw_obj. eapply r_obj_perl; eauto.
    eapply repr_stable; [|exact V]. intros l H. split; auto.
  - unfold decode_via_iface. destruct (Nat.leb_spec len r); [lia|].
    eapply decoded_bind; [reflexivity|]. rewrite (hget_cell _ _ _ Hn).
    destruct (rec_fresh E m r d p' X f C s PP Fd Hm Hf Hi) as (s1 & v & C1 & R1 & F1 & H1 & G1 & Cl1 & B1 & V1).
    assert (V2 : rp C1 (d_heap s1) v (vw (DObj cls d))) by (rewrite vw_obj; now apply r_obj).
    assert (Ev : (let! l := alloc (CV GNil) in let! idx := dec f r l in let! v := get_var l in
                 match v with GNil => ret idx | _ => set_var ptr v ;; ret idx end) s =
                 (match v with GNil => ret p' | _ => set_var ptr v ;; ret p' end) s1).
    { rewrite (fresh_bind (CV GNil) (fun l => dec f r l)
        (fun idx l => let! v := get_var l in
                      match v with GNil => ret idx | _ => set_var ptr v ;; ret idx end) _ _ _ R1).
      unfold mbind at 1. cbn [get_var]. now rewrite (hget_cell _ _ _ H1). }
    destruct v; try (eapply write_last; [left; exact F1|exact G1|exact Lp|exact Nc|exact B1|exact V2|exact Ev]).
    pose proof (frm_len _ _ _ (F1 (fun _ => False))) as L1.
    assert (G4 := grow_more _ _ _ _ _ (fun l => l = ptr) G1 ltac:(intros l ->; lia)).
    exists s1, GNil, (fun l => C1 l \/ l = ptr). split; [exact Ev|]. split; [apply F1|]. split; [exact G4|].
    split; [now right|]. split; [intros l [H2|H2]; auto; destruct (B1 l H2); auto|].
    split; [eapply frm_cell; [apply (F1 (fun _ => False))|exact Hn|auto]|].
    eapply repr_stable; [|exact V2]. intros l Hl. split; auto.
Qed.

Lemma fine_bin str : fine (DRef (DArr [DBin str])).
Proof.
  intros _ x W. inversion W; subst. inversion H0; subst. destruct H1 as [<-|[]]. inversion H2.
Qed.

Lemma freeze_decoded E m r str p' X f ptr C s isV q cls :
  at_ by_ r [x28; x2b] -> Pitem E m r (DRef (DArr [DBin str])) p' X ->
  g_frz g cls str ->
  runs (class_name by_ q isV) s (cls, r) s ->
  mode_ok m s -> need by_ r (d_copy s) <= f -> nilcell s ptr -> ~ C ptr -> inv E C s ->
  decoded (decodeFreeze c by_ (dec f) q ptr isV) ptr C s (DFreeze cls str) p' X.
Proof.
  intros Ha PP [Pl Hum] R Hm Hf Hn Nc Hi.
  assert (B0 : nth_error by_ r = Some x28)
    by (rewrite <- (Nat.add_0_r r); eapply (at_nth by_ Hlen); [exact Ha|reflexivity]).
  assert (B1 : nth_error by_ (r + 1) = Some x2b)
    by (eapply (at_nth by_ Hlen); [exact Ha|reflexivity]).
  pose proof (proj1 (at_range by_ _ _ _ Ha)) as La. cbn in La.
  pose proof (nil_lt _ _ Hn) as Lp.
  destruct (rec_fresh E m r _ p' X f C s PP (fine_bin str) Hm Hf Hi) as (s1 & v & C1 & R1 & F1 & H1 & G1 & Cl1 & Bd1 & V1).
  replace (vw (DRef (DArr [DBin str]))) with (DRef (DArr [DBin str])) in V1
    by (rewrite vw_ref, vw_arr; cbn [map]; now rewrite vw_bin).
  destruct (repr_single_bin c _ _ _ _ Pl V1) as (base & w & -> & Hb & Pw & Ew).
  assert (Cp : nth_error (d_heap s1) ptr = Some (CV GNil))
    by (eapply frm_cell; [apply (F1 (fun _ => False))|exact Hn|auto]).
  assert (Lw : vloc w < length (d_heap s1)) by (apply G1, Pw).
  unfold decodeFreeze. eapply decoded_bind; [exact R|]. cbn [fst snd].
  destruct (Nat.leb_spec len (r + 1)); [lia|]. rewrite B0, B1.
  change (negb ((b2n x28 =? typeREFN) && (b2n x2b =? typeARRAY))%N) with false. cbv iota.
  assert (D : reg_of c cls = None -> forall mm, mm s = (let! l2 := alloc (CV (GFreezeV cls w)) in (set_var ptr (GPtr false l2) ;; ret p')) s1 ->
     decoded mm ptr C s (DFreeze cls str) p' X).
  { intros Rg mm Em.
    set (s2 := with_heap s1 (d_heap s1 ++ [CV (GFreezeV cls w)])).
    eapply (write_last mm ptr C s (fun l => C1 l \/ l = length (d_heap s1)) s2 (GPtr false (length (d_heap s1)))); auto.
    - left. intros W. eapply (frm_comp by_ 0); [apply F1|apply (frm_alloc by_ 0 (fun _ => False))|easy].
    - apply alloc_grow. exact G1.
    - intros l [Hl| ->]; auto. right. apply (frm_len _ _ _ (F1 (fun _ => False))).
    - rewrite vw_freeze. eapply r_freeze; [exact Pl|now right| |exact Rg|left; exact Pw|].
      + unfold s2. cbn. rewrite nth_error_app2, Nat.sub_diag by lia. reflexivity.
      + rewrite <- Ew. apply hview_same. unfold s2. cbn. now apply nth_error_app1. }
  assert (D0 : d_um c cls = None -> reg_of c cls = None)
    by (unfold reg_of; now intros ->).
  destruct (d_um c cls) as [[t|t]|] eqn:U; [|contradiction|].
  - eapply (write_last _ ptr C s C1 s1 (GUserP t w)); [left; exact F1|exact G1|exact Lp|exact Nc|exact Bd1| |].
    + rewrite vw_freeze. eapply r_user; auto. unfold reg_of. now rewrite U.
    + erewrite (fresh_bind (CV GNil) (fun l => dec f r l)); [|exact R1].
      unfold mbind at 1. cbn [get_var]. rewrite (hget_cell _ _ _ H1).
      cbn [Nat.eqb negb]. unfold mbind at 1. cbn [get_var]. rewrite Hb, Pl.
      unfold mbind at 1. cbn [get_var]. rewrite (hget_cell _ _ _ Cp).
      rewrite Ew, Hum. reflexivity.
  - apply (D (D0 eq_refl)).
    erewrite (fresh_bind (CV GNil) (fun l => dec f r l)); [|exact R1].
    unfold mbind at 1. cbn [get_var]. rewrite (hget_cell _ _ _ H1).
    cbn [Nat.eqb negb]. unfold mbind at 1. cbn [get_var]. rewrite Hb, Pl.
    unfold mbind at 1. cbn [get_var]. rewrite (hget_cell _ _ _ Cp).
    reflexivity.
Qed.

Lemma Ptag_copy E q n r d e X : tag_at by_ q q 47 -> vint by_ (S q) n r -> N.to_nat n < q ->
  Pitem E (g_nest g) (N.to_nat n) d e X -> Ptag E CAny q 47 d r X.
Proof.
  intros Ht Hv Hlt PP. pose proof PP as (P1 & P2 & PI).
  pose proof (tag_skip _ _ _ _ Ht) as (_ & _ & _ & _ & L & _).
  destruct (vint_at _ Hlen _ _ _ (mkDState [] [] 0 []) Hv) as (_ & L1 & L2 & _).
  split; [lia|split; [lia|]].
  intros f ptr C s trk Fd Hm Hf Hf0 Hn Nc Hi. change (tag_kind 47) with TCopy. cbn [decode_tag].
  cbn in Hm. destruct (vint_at _ Hlen _ _ _ s Hv) as (V & _).
  set (s1 := mkDState (d_heap s) (d_tracked s) 1 (d_made s)).
  destruct (PI f ptr C s1) as (s2 & v & C' & R & F & G & Cp & Bd & Hc & Vr); auto.
  { exact Logic.I. }
  { unfold need. cbn. specialize (Hf0 Hm). lia. }
  exists (mkDState (d_heap s2) (d_tracked s2) (pred (d_copy s2)) (d_made s2)), v, C'.
  split; [|split; [|split; [exact G|split; [exact Cp|split; [exact Bd|split; [exact Hc|exact Vr]]]]]].
  + unfold runs. unfold mbind at 1. cbn [get_copy]. rewrite Hm. cbn [Nat.ltb Nat.leb].
    unfold mbind at 1. rewrite V. rewrite to_int_small by lia.
    destruct ((Z.of_N n <? 0) || (Z.of_nat (S q) <=? Z.of_N n))%Z eqn:B; [lia|].
    unfold mbind at 1. cbn [set_copy]. fold s1. unfold mbind at 1.
    replace (Z.to_nat (Z.of_N n)) with (N.to_nat n) by lia.
    unfold runs in R. rewrite R. unfold ret. now replace (S q + (r - S q)) with r by lia.
  + destruct F as (F1 & F2 & F3). split; [exact F1|split; [exact F2|]].
    cbn. rewrite F3. cbn. now rewrite Hm.
Qed.

(** ** References to earlier items *)

Lemma back_runs isP n r q s C l d : vint by_ (S q) n r -> N.to_nat n < q -> q < len ->
  assoc_nat (N.to_nat n) (d_tracked s) = Some l -> good C (d_heap s) l d ->
  exists v, nth_error (d_heap s) l = Some (CV v) /\ rp C (d_heap s) v (vw d) /\ forall ptr,
  decodeREFP_ALIAS c by_ (S q) ptr isP s =
    (if isP then match v with
                 | GNil => panic EReflect
                 | _ => if d_noref c then set_var ptr v ;; ret r
                        else let! l := alloc (CV v) in (set_var ptr (GPtr false l) ;; ret r)
                 end
     else set_var ptr v ;; ret r) s.
Proof.
  intros Hv Lt Lq As (Cl & v & Ev & Rv). exists v. split; [exact Ev|]. split; [exact Rv|]. intros ptr.
  destruct (vint_at _ Hlen _ _ _ s Hv) as (V & L1 & L2 & _).
  unfold decodeREFP_ALIAS. rewrite (bind_run _ _ _ _ _ _ _ V).
  replace (S q + (r - S q)) with r by lia.
  rewrite to_int_small by lia.
  destruct ((Z.of_N n <? 0) || (Z.of_nat r <=? Z.of_N n))%Z eqn:B; [lia|].
  replace (Z.to_nat (Z.of_N n)) with (N.to_nat n) by lia.
  unfold mbind at 1. cbn [get_tracked]. rewrite As.
  unfold mbind at 1. cbn [get_var]. rewrite (hget_cell _ _ _ Ev).
  destruct isP; [destruct v|]; reflexivity.
Qed.

Lemma same_frm W s : frm W s s.
Proof. apply frm_refl. Qed.

Lemma same_grow E C s : inv E C s -> grow C s C s [].
Proof.
  intros Hi. eapply (grow_frm C s s (fun _ => False)); auto; [apply Hi|apply frm_refl].
Qed.

Lemma Ptag_refp E m q n r d : tag_at by_ q q 41 -> vint by_ (S q) n r -> N.to_nat n < q ->
  marked by_ (N.to_nat n) -> look E (N.to_nat n) = Some (Some d) -> Ptag E m q 41 (DBack d) r [].
Proof.
  intros Ht Hv Hlt Mk Lk.
  pose proof (tag_skip _ _ _ _ Ht) as (_ & _ & _ & _ & L & _).
  destruct (vint_at _ Hlen _ _ _ (mkDState [] [] 0 []) Hv) as (_ & L1 & L2 & _).
  split; [lia|split; [lia|]].
  intros f ptr C s trk Fd Hm Hf Hf0 Hn Nc Hi. change (tag_kind 41) with TRefp. cbn [decode_tag].
  pose proof (nil_lt _ _ Hn) as Lp. pose proof Hi as (_ & _ & I3 & I4).
  destruct (alx_look _ _ _ _ _ _ I4 Lk Mk) as (l & As & Gd).
  destruct (back_runs true n r q s C l d Hv Hlt ltac:(lia) As Gd) as (v & Ev & Rv & Run).
  assert (Nn : v <> GNil).
  { intros ->. destruct (d_perl c) eqn:Pl; [now apply (repr_not_nil _ _ _ _ _ Rv)|].
    apply repr_nil_nilish in Rv; [|reflexivity]. apply (Fd Pl d (w_here _)).
    unfold vw in Rv. destruct (d_noref c); [now apply nilish_unback|exact Rv]. }
  assert (Run' : forall ptr, decodeREFP_ALIAS c by_ (S q) ptr true s =
    (if d_noref c then set_var ptr v ;; ret r
     else let! l := alloc (CV v) in (set_var ptr (GPtr false l) ;; ret r)) s).
  { intros p0. rewrite Run. destruct v; try contradiction; reflexivity. }
  assert (Evw : vw (DBack d) = if d_noref c then vw d else DBack (vw d)).
  { unfold vw. now destruct (d_noref c). }
  destruct (d_noref c) eqn:Nr.
  - eapply (write_last _ ptr C s C s v); [left; intros; apply frm_refl|eapply same_grow; eauto|exact Lp|exact Nc|auto| |apply Run'].
    rewrite Evw. exact Rv.
  - set (s2 := with_heap s (d_heap s ++ [CV v])).
    eapply (write_last _ ptr C s (fun l => C l \/ l = length (d_heap s)) s2 (GPtr false (length (d_heap s))));
      [left; intros; apply (frm_alloc by_ 0)|apply alloc_grow; eapply same_grow; eauto|exact Lp|exact Nc| | |apply Run'].
    + intros x [H| ->]; auto.
    + rewrite Evw. eapply r_back; [now right| |].
      * unfold s2. cbn. rewrite nth_error_app2, Nat.sub_diag by lia. reflexivity.
      * eapply repr_stable; [|exact Rv]. intros x Hx. split; [now left|]. unfold s2. cbn.
        now apply nth_error_app1, I3.
Qed.

Lemma Ptag_alias E m q n r d : tag_at by_ q q 46 -> vint by_ (S q) n r -> N.to_nat n < q ->
  marked by_ (N.to_nat n) -> look E (N.to_nat n) = Some (Some d) -> Ptag E m q 46 d r [].
Proof.
  intros Ht Hv Hlt Mk Lk.
  pose proof (tag_skip _ _ _ _ Ht) as (_ & _ & _ & _ & L & _).
  destruct (vint_at _ Hlen _ _ _ (mkDState [] [] 0 []) Hv) as (_ & L1 & L2 & _).
  split; [lia|split; [lia|]].
  intros f ptr C s trk Fd Hm Hf Hf0 Hn Nc Hi. change (tag_kind 46) with TAlias. cbn [decode_tag].
  pose proof (nil_lt _ _ Hn) as Lp. pose proof Hi as (_ & _ & I3 & I4).
  destruct (alx_look _ _ _ _ _ _ I4 Lk Mk) as (l & As & Gd).
  destruct (back_runs false n r q s C l d Hv Hlt ltac:(lia) As Gd) as (v & Ev & Rv & Run).
  eapply (write_last _ ptr C s C s v); [left; intros; apply frm_refl|eapply same_grow; eauto|exact Lp|exact Nc|auto|exact Rv|apply Run].
Qed.

(** ** Every document *)

Theorem decode_implements_shared :
  (forall E m p d p' X, sitem g by_ E m p d p' X -> Pitem E m p d p' X) /\
  (forall E m q t d p' X, sbody g by_ E m q t d p' X -> Pbody E m q t d p' X) /\
  (forall E m p ds p' X, sitems g by_ E m p ds p' X -> Pitems E m p ds p' X) /\
  (forall E m p kvs p' X, spairs g by_ E m p kvs p' X -> Ppairs E m p kvs p' X).
Proof.
  apply (shared_ind g by_ (fun E m p d p' X _ => Pitem E m p d p' X)
    (fun E m q t d p' X _ => Pbody E m q t d p' X)
    (fun E m p ds p' X _ => Pitems E m p ds p' X) (fun E m p kvs p' X _ => Ppairs E m p kvs p' X)).
  - intros E m p q t d p' X Ht _ H. eapply Pitem_pad; [exact Ht|]. apply H; [|reflexivity].
    eapply tag_here; eauto.
  - intros. now apply Pbody_plain.
  - intros. now apply Pbody_tag, Ptag_refn.
  - intros. now apply Pbody_tag, Ptag_weaken.
  - intros. eapply Pbody_tag, Ptag_array; eauto.
  - intros. apply Pbody_at. intros Ht. eapply Ptag_arrayref; eauto.
  - intros. eapply Pbody_tag, Ptag_hash; eauto.
  - intros. apply Pbody_at. intros Ht. eapply Ptag_hashref; eauto.
  - (* object *)
    intros E m q cls r d p' X Hs _ PP. pose proof PP as (P1 & P2 & _).
    destruct (stringish_runs c by_ start Hlen _ _ _ _ (mkDState [] [] 0 []) Hs) as (_ & _ & _ & _ & _ & L1 & L2); [reflexivity|].
    apply Pbody_tag. split; [lia|split; [lia|]].
    intros f ptr C s trk Fd Hm Hf Hf0 Hn Nc Hi. change (tag_kind 44) with TObject. cbn [decode_tag].
    eapply object_decoded; eauto.
    + intros Pl. eapply backs_obj; eauto.
    + eapply (class_lit c by_ start Hlen); eauto. now apply mode_copy.
    + eapply need_mono; eauto. lia.
  - (* objectv *)
    intros E m q n r u cls e d p' X Hv Hlt Hst Hs _ PP. apply Pbody_at. intros Ht. pose proof PP as (P1 & P2 & _).
    pose proof (tag_skip _ _ _ _ Ht) as (_ & _ & _ & _ & L & _).
    destruct (vint_at _ Hlen _ _ _ (mkDState [] [] 0 []) Hv) as (_ & L1 & L2 & _).
    split; [lia|split; [lia|]].
    intros f ptr C s trk Fd Hm Hf Hf0 Hn Nc Hi. change (tag_kind 45) with TObjectV. cbn [decode_tag].
    eapply object_decoded; eauto.
    + intros Pl. eapply backs_obj; eauto.
    + eapply (class_off c by_ start Hlen); eauto.
    + eapply need_mono; eauto. lia.
  - (* freeze *)
    intros E m q cls r str p' X Hs Ha _ PP Hz. pose proof PP as (P1 & P2 & _).
    destruct (stringish_runs c by_ start Hlen _ _ _ _ (mkDState [] [] 0 []) Hs) as (_ & _ & _ & _ & _ & L1 & L2); [reflexivity|].
    apply Pbody_tag. split; [lia|split; [lia|]].
    intros f ptr C s trk Fd Hm Hf Hf0 Hn Nc Hi. change (tag_kind 50) with TFreeze. cbn [decode_tag].
    eapply freeze_decoded; eauto.
    + eapply (class_lit c by_ start Hlen); eauto. now apply mode_copy.
    + eapply need_mono; eauto. lia.
  - (* freezev *)
    intros E m q o r u cls e str p' X Hv Hlt Hst Hs Ha _ PP Hz. apply Pbody_at. intros Ht.
    pose proof PP as (P1 & P2 & _).
    pose proof (tag_skip _ _ _ _ Ht) as (_ & _ & _ & _ & L & _).
    destruct (vint_at _ Hlen _ _ _ (mkDState [] [] 0 []) Hv) as (_ & L1 & L2 & _).
    split; [lia|split; [lia|]].
    intros f ptr C s trk Fd Hm Hf Hf0 Hn Nc Hi. change (tag_kind 51) with TFreezeV. cbn [decode_tag].
    eapply freeze_decoded; eauto.
    + eapply (class_off c by_ start Hlen); eauto.
    + eapply need_mono; eauto. lia.
  - intros E q n r d e X Hv Hlt Hst _ PP. apply Pbody_at. intros Ht.
    eapply Ptag_copy; eauto.
  - intros E m q n r d Hv Hlt Mk Lk. apply Pbody_at. intros Ht.
    eapply Ptag_refp; eauto.
  - intros E m q n r d Hv Hlt Mk Lk. apply Pbody_at. intros Ht.
    eapply Ptag_alias; eauto.
  - intros. apply Pitems_nil.
  - intros. eapply Pitems_cons; eauto.
  - intros. apply Ppairs_nil.
  - intros. eapply Ppairs_cons; eauto.
Qed.
End SD.
