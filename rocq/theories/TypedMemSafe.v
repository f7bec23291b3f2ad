(** Unmarshal into typed variables in memory on arbitrary bytes: no crash, termination, allocation. *)
From Verif Require Import Base BaseFacts SpecVarint Varint VarintFacts Tags GoMem GoTypes TagsCache Codecs Encode Compress Header Decode
  Document Typed TypedMem SpecHeader SpecShape HeaderFacts ApiFacts ShapeFacts DecodeSafe ApiSafe TypedSafe.
From Coq Require Import ZifyBool ZifyNat ZifyN.

(** Like [wp]: of the state, only what belongs to the Decoder and the interface{} parts *)
Definition wm {A} (m : TM A) (Q : A -> dstate -> Prop) (E X : dstate -> Prop) (s : mstate) : Prop :=
  match m s with
  | (Ok a, s') => Q a (m_d s')
  | (Err _, s') => E (m_d s')
  | (Panic _, s') => X (m_d s')
  | _ => False
  end.

Lemma wm_bind A B (m : TM A) (f : A -> TM B) Q E X s :
  wm m (fun a d => forall s', m_d s' = d -> wm (f a) Q E X s') E X s -> wm (tbind m f) Q E X s.
Proof. unfold wm, tbind. destruct (m s) as [[a|e|e| |] s']; auto. intros H. exact (H s' eq_refl). Qed.
Lemma wm_mono A (m : TM A) (Q Q' : A -> dstate -> Prop) (E E' X X' : dstate -> Prop) s : wm m Q E X s ->
  (forall a s', Q a s' -> Q' a s') -> (forall s', E s' -> E' s') -> (forall s', X s' -> X' s') -> wm m Q' E' X' s.
Proof. unfold wm. destruct (m s) as [[a|e|e| |] s']; auto. Qed.
Lemma wm_lift A (m : M A) (Q : A -> dstate -> Prop) E X s : wp m Q E X (m_d s) -> wm (lift_ m) Q E X s.
Proof. unfold wp, wm, lift_. destruct (m (m_d s)) as [[a|e|e| |] s']; auto. Qed.
Lemma wm_ret A (a : A) (Q : A -> dstate -> Prop) E X s : Q a (m_d s) -> wm (tret a) Q E X s.
Proof. auto. Qed.
Lemma wm_fail A e (Q : A -> dstate -> Prop) (E X : dstate -> Prop) s : E (m_d s) -> wm (tfail e) Q E X s.
Proof. auto. Qed.
Lemma wm_panic A e (Q : A -> dstate -> Prop) (E X : dstate -> Prop) s : X (m_d s) -> wm (tpanic e) Q E X s.
Proof. auto. Qed.

Notation fix_ := (keeps (fun _ => False)).
Notation fixX := (touches (fun _ => False)).

Lemma fix_keep a b n : fix_ a b -> d_copy a = n -> d_copy b = n.
Proof. intros [_ E] <-. exact E. Qed.

(** a step that leaves the Decoder alone *)
Definition quiet {A} (m : TM A) : Prop := forall s, match m s with
  | (Ok _, s') | (Err _, s') | (Panic _, s') => m_d s' = m_d s | _ => False end.
Lemma quiet_w A (m : TM A) (Q : A -> dstate -> Prop) s0 s : quiet m -> fix_ s0 (m_d s) -> (forall a, Q a (m_d s)) ->
  wm m Q (fix_ s0) (fixX s0) s.
Proof.
  intros S F HQ. pose proof (proj1 F) as F1. unfold wm. specialize (S s). destruct (m s) as [[a|e|e| |] s']; try rewrite S; auto; contradiction.
Qed.
Lemma quiet_bind A B (m : TM A) (k : A -> TM B) : quiet m -> (forall a, quiet (k a)) -> quiet (tbind m k).
Proof.
  intros H K s. unfold tbind. specialize (H s). destruct (m s) as [[a|e|e| |] s']; auto.
  specialize (K a s'). destruct (k a s') as [[b|e|e| |] s2]; congruence || auto.
Qed.
Lemma quiet_ret A (a : A) : quiet (tret a). Proof. intros s; reflexivity. Qed.
Lemma quiet_fail A e : quiet (tfail (A := A) e). Proof. intros s; reflexivity. Qed.
Lemma quiet_panic A e : quiet (tpanic (A := A) e). Proof. intros s; reflexivity. Qed.
Lemma quiet_new x : quiet (new_cell x). Proof. intros s; reflexivity. Qed.
Lemma quiet_cell l x : quiet (set_cell l x). Proof. intros s; reflexivity. Qed.
Lemma quiet_mem : quiet get_mem. Proof. intros s; reflexivity. Qed.
Lemma quiet_ref l : quiet (get_ref l). Proof. intros s; reflexivity. Qed.
Lemma quiet_get l : quiet (lift_ (get_var l)). Proof. intros s; reflexivity. Qed.
Lemma quiet_write v r x : quiet (write v r x). Proof. intros s; reflexivity. Qed.
Lemma quiet_read v r : quiet (read v r). Proof. intros s; reflexivity. Qed.
Lemma quiet_check md : quiet (mcheck md). Proof. destruct md; intros s; reflexivity. Qed.
Create HintDb quiet.
#[export] Hint Resolve quiet_ret quiet_fail quiet_panic quiet_new quiet_cell quiet_mem quiet_ref quiet_get quiet_write
  quiet_read quiet_check : quiet.
Ltac q := repeat first [ solve [auto with quiet] | apply quiet_bind; [|intros]
  | match goal with |- quiet (match ?x with _ => _ end) => destruct x end ].
Lemma quiet_mset v md r x : quiet (mset v md r x). Proof. unfold mset. q. Qed.
#[export] Hint Resolve quiet_mset : quiet.
Lemma quiet_setInt v ty md r i : quiet (msetInt v ty md r i). Proof. unfold msetInt. q. Qed.
Lemma quiet_setFloat v ty md r i : quiet (msetFloat v ty md r i). Proof. unfold msetFloat. q. Qed.
Lemma quiet_setBool v ty md r i : quiet (msetBool v ty md r i). Proof. unfold msetBool. q. Qed.
Lemma quiet_setString v ty md r i : quiet (msetString v ty md r i). Proof. unfold msetString. q. Qed.
Lemma quiet_iface v ty md r i : quiet (mset_iface v ty md r i). Proof. unfold mset_iface. q. Qed.
Lemma quiet_gval v ty md r x : quiet (set_gval v ty md r x).
Proof.
  unfold set_gval. apply quiet_bind; [q|]. intros _ s. destruct (of_gval _ ty x); [|reflexivity].
  destruct (build t (m_mem s)). reflexivity.
Qed.
#[export] Hint Resolve quiet_setInt quiet_setFloat quiet_setBool quiet_setString quiet_iface quiet_gval : quiet.
Lemma quiet_refi c v ty md r x b : quiet (ref_iface c v ty md r x b).
Proof. unfold ref_iface. destruct x; q. Qed.
Lemma quiet_index v r i : quiet (index_ref v r i). Proof. unfold index_ref. q. Qed.
#[export] Hint Resolve quiet_refi quiet_index : quiet.

Section TSafe.
Variable c : dconfig.
Variable v : goenv.
Variable by_ : bytes.
Variable ibuf : loc.
Variable ishift : nat.
Notation len := (length by_).

Definition mpost (idx : nat) (s : dstate) (r : nat) (s' : dstate) : Prop := idx <= r <= len /\ fix_ s s'.
Notation wt m idx s0 s := (wm m (mpost idx s0) (fix_ s0) (fixX s0) s).
Definition mrec_ok (rec : gtype -> mref -> amode -> nat -> TM nat) (lo copy : nat) : Prop :=
  forall ty r md idx s, lo <= idx -> d_copy (m_d s) = copy -> wt (rec ty r md idx) (S idx) (m_d s) s.

Lemma quiet_done A (m : TM A) idx i s0 s : quiet m -> fix_ s0 (m_d s) -> idx <= i <= len ->
  wt (do! _ := m in tret i) idx s0 s.
Proof. intros S F L. apply wm_bind. apply quiet_w; auto. intros x s' E. apply wm_ret. rewrite E. split; auto. Qed.
Lemma log_fix n m s0 s : n <= m -> fix_ s0 s -> fix_ s0 (mkDState (d_heap s) (d_tracked s) (d_copy s) ((n, m) :: d_made s)).
Proof.
  intros L [(A1 & A2 & A3) A4]. split; [|exact A4]. split; [exact A1|]. split; [exact A2|].
  cbn. intros Hm. apply made_cons; auto.
Qed.
Lemma wm_log n m s0 s (Q : unit -> dstate -> Prop) : n <= m -> fix_ s0 (m_d s) -> (forall d, fix_ s0 d -> Q tt d) ->
  wm (lift_ (log_make n m)) Q (fix_ s0) (fixX s0) s.
Proof. intros L F HQ. unfold wm. cbn. apply HQ. now apply log_fix. Qed.

Lemma setBinary_safe ty md r val idx i s0 s : fix_ s0 (m_d s) -> idx <= i <= len ->
  wt (do! _ := msetBinary v ty md r val in tret i) idx s0 s.
Proof.
  intros F L. apply wm_bind. unfold msetBinary.
  assert (K : forall m : TM unit, quiet m -> forall s, fix_ s0 (m_d s) -> wm m (fun a d => forall s', m_d s' = d -> wt (tret i) idx s0 s') (fix_ s0) (fixX s0) s).
  { intros m Hq s1 F1. apply quiet_w; auto. intros _ s' E. apply wm_ret. rewrite E. split; auto. }
  apply wm_bind, quiet_w; [q|exact F|]. intros cur s1 E1. rewrite <- E1 in F. clear E1 s.
  destruct ty; try (apply K; [solve [q]|exact F]).
  destruct ty; try (apply K; [solve [q]|exact F]). destruct k; try (apply K; [solve [q]|exact F]).
  destruct cur as [| | | | | |o| | | |]; try (apply K; [solve [q]|exact F]).
  destruct o; [apply K; [q|exact F]|]. apply wm_bind, wm_log; auto. intros d Fd s2 E2. rewrite <- E2 in Fd.
  apply K; [q|exact Fd].
Qed.

Section Rec.
Variable rec : gtype -> mref -> amode -> nat -> TM nat.
Variable urec : nat -> loc -> M nat.
Variable copy lo : nat.
Hypothesis R : mrec_ok rec lo copy.
Hypothesis U : rec_ok by_ urec lo copy.

Lemma w_urec idx l s0 s (Q : nat -> dstate -> Prop) : fix_ s0 (m_d s) -> d_copy (m_d s) = copy -> lo <= idx ->
  length (d_heap s0) <= l < length (d_heap (m_d s)) -> hget (d_heap (m_d s)) l = GNil ->
  (forall i s', idx < i <= len -> fix_ s0 s' -> Q i s') -> wm (lift_ (urec idx l)) Q (fix_ s0) (fixX s0) s.
Proof.
  intros F Hc Hl Ll Hn HQ. eapply wm_lift, wp_mono; [apply U; auto; lia|..].
  - intros i s' (A & B & G). apply HQ; [lia|]. eapply good_fix; [exact F| |exact G]. lia.
  - intros s' G. eapply good_fix; [exact F| |exact G]. lia.
  - intros s' G. eapply goodX_fix; [exact F| |exact G]. lia.
Qed.
Lemma w_alloc cl s0 s (Q : loc -> dstate -> Prop) : fix_ s0 (m_d s) ->
  (forall l s', l = length (d_heap (m_d s)) -> length (d_heap s0) <= l < length (d_heap s') -> nth_error (d_heap s') l = Some cl ->
     fix_ s0 s' -> d_copy s' = d_copy (m_d s) -> Q l s') ->
  wm (lift_ (alloc cl)) Q (fix_ s0) (fixX s0) s.
Proof.
  intros F HQ. unfold wm. cbn. pose proof F as [(L & _) _]. apply HQ; auto.
  - cbn. rewrite app_length. cbn. lia.
  - cbn. rewrite nth_error_app2, Nat.sub_diag by lia. reflexivity.
  - eapply fix_trans; [exact F|apply fix_alloc].
Qed.
Lemma w_discard idx s0 s (Q : nat -> dstate -> Prop) : fix_ s0 (m_d s) -> d_copy (m_d s) = copy -> lo <= idx ->
  (forall i s', idx < i <= len -> fix_ s0 s' -> Q i s') -> wm (lift_ (discard urec idx)) Q (fix_ s0) (fixX s0) s.
Proof.
  intros F Hc Hl HQ.
  enough (W : wm (do! l := lift_ (alloc (CV GNil)) in lift_ (urec idx l)) Q (fix_ s0) (fixX s0) s).
  { unfold wm, lift_, discard, mbind, tbind in *. destruct (alloc (CV GNil) (m_d s)) as [[a|e|e| |] d]; exact W. }
  apply wm_bind, w_alloc; [exact F|]. intros l d _ Ll Hg F1 Hc1 s' <-. apply hget_is in Hg.
  apply w_urec; auto. congruence.
Qed.
Lemma w_rec ty r md idx s0 s (Q : nat -> dstate -> Prop) : fix_ s0 (m_d s) -> d_copy (m_d s) = copy -> lo <= idx ->
  (forall i s', idx < i <= len -> fix_ s0 s' -> Q i s') -> wm (rec ty r md idx) Q (fix_ s0) (fixX s0) s.
Proof.
  intros F Hc Hl HQ. eapply wm_mono; [apply R; auto|..].
  - intros i s' [A B]. apply HQ; [cbn in A; lia|]. eapply fix_trans; eauto.
  - intros s' B. eapply fix_trans; eauto.
  - intros s' B. eapply fix_transX; eauto.
Qed.

Lemma w_array n t md r ln : forall i idx s0 s, fix_ s0 (m_d s) -> d_copy s0 = copy -> lo <= idx <= len ->
  wt (marray_loop v rec urec n t md r i ln idx) idx s0 s.
Proof.
  induction n as [|n IH]; intros i idx s0 s F Hc Hl; cbn [marray_loop].
  - apply wm_ret. split; [lia|auto].
  - apply wm_bind. pose proof (fix_keep _ _ _ F Hc) as Hc'.
    assert (N : forall j d, idx < j <= len -> fix_ s0 d -> forall s', m_d s' = d -> wt (marray_loop v rec urec n t md r (S i) ln j) idx s0 s').
    { intros j d L F' s' <-. eapply wm_mono; [apply IH; eauto; lia|..]; auto. intros x s2 [A B]. split; [lia|auto]. }
    destruct (Nat.ltb i ln).
    + apply wm_bind, quiet_w; [q|exact F|]. intros e s1 E1. rewrite <- E1 in F, Hc'. apply w_rec; auto. lia.
    + apply w_discard; auto. lia.
Qed.

Lemma w_mdecodeArray idx ln ty r md s0 s : fix_ s0 (m_d s) -> d_copy s0 = copy -> lo <= idx <= len ->
  wt (mdecodeArray v by_ rec urec idx ln ty r md) idx s0 s.
Proof.
  intros F Hc Hl. unfold mdecodeArray, blen.
  destruct ((ln <? 0) || (maxInt32 <? ln))%Z eqn:B1; [now apply wm_fail|].
  destruct (Z.of_nat len <? Z.of_nat idx + ln)%Z eqn:B2; [now apply wm_fail|]. cbv zeta.
  apply wm_bind, quiet_w; [q|exact F|]. intros mem s1 E1. rewrite <- E1 in F. clear s E1.
  assert (A : forall t md n, wt (marray_loop v rec urec (Z.to_nat ln) t md r 0 n idx) idx s0 s1) by (intros; now apply w_array).
  assert (B : forall t, wt (do! _ := mcheck md in
      do! _ := lift_ (log_make (Z.to_nat ln) (len - idx)) in
      do! l := new_cell (MCell (MArr (repeat (mzero t) (Z.to_nat ln)))) in
      do! _ := write v r (MSlice (Some l)) in
      marray_loop v rec urec (Z.to_nat ln) t Settable r 0 (Z.to_nat ln) idx) idx s0 s1).
  { intros t. apply wm_bind, quiet_w; [q|exact F|]. intros _ s2 E2. rewrite <- E2 in F.
    apply wm_bind, wm_log; [lia|exact F|]. intros d Fd s3 <-.
    apply wm_bind, quiet_w; [q|exact Fd|]. intros l s4 E4. rewrite <- E4 in Fd.
    apply wm_bind, quiet_w; [q|exact Fd|]. intros _ s5 E5. rewrite <- E5 in Fd. now apply w_array. }
  destruct ty; try (now apply wm_fail); destruct (rd v mem r) as [| | | | | |o| | | |]; try (now apply wm_fail); auto.
  destruct o as [l|]; [|apply B]. destruct (mvar mem l) as [| | | | | | |ms| | |]; try (now apply wm_fail).
  destruct ms; [apply B|apply A].
Qed.

Lemma w_map n t md r : forall idx s0 s, fix_ s0 (m_d s) -> d_copy s0 = copy -> lo <= idx <= len ->
  wt (mmap_loop v by_ rec n t md r idx) idx s0 s.
Proof.
  induction n as [|n IH]; intros idx s0 s F Hc Hl; cbn [mmap_loop].
  - apply wm_ret. split; [lia|auto].
  - apply wm_bind. apply wm_lift. apply wp_decodeStringish; auto. intros kw i _ L1 L2 _ s1 E1.
    rewrite Nat2Z.id in L1. cbv zeta. rewrite <- E1 in F. clear s E1.
    assert (N : forall j d, i < j <= len -> fix_ s0 d -> forall s', m_d s' = d -> wt (mmap_loop v by_ rec n t md r j) idx s0 s').
    { intros j d L F' s' <-. eapply wm_mono; [apply IH; eauto; lia|..]; auto. intros x s2 [A B]. split; [lia|auto]. }
    apply wm_bind, quiet_w; [q|exact F|]. intros mem s2 E2. rewrite <- E2 in F. clear s1 E2.
    apply wm_bind. destruct (match rd v mem r with MMap (Some l) => mget (mentries mem l) (win_bytes by_ kw) | _ => None end).
    + apply wm_bind, quiet_w; [q|exact F|]. intros e s3 E3. rewrite <- E3 in F.
      apply w_rec; auto; [exact (fix_keep _ _ _ F Hc)|lia].
    + apply wm_bind, quiet_w; [q|exact F|]. intros e s3 E3. rewrite <- E3 in F.
      apply wm_bind. apply w_rec; auto; [exact (fix_keep _ _ _ F Hc)|lia|]. intros j d L F' s4 <-.
      assert (G : wm (do! mem := get_mem in
                match rd v mem r with
                | MMap (Some l) =>
                    do! _ := set_cell l (MEntries (mput (mentries mem l) (win_bytes by_ kw) (mvar mem e))) in tret j
                | _ => tpanic EReflect
                end) (fun a d => forall s', m_d s' = d -> wt (mmap_loop v by_ rec n t md r a) idx s0 s') (fix_ s0) (fixX s0) s4).
      { apply wm_bind, quiet_w; [q|exact F'|]. intros mem' s5 E5. rewrite <- E5 in F'.
        destruct (rd v mem' r) as [| | | | | | | |[l|]| |]; try (apply wm_panic; exact (proj1 F')).
        apply wm_bind, quiet_w; [q|exact F'|]. intros _ s6 E6. apply wm_ret. rewrite E6. apply N; auto. }
      destruct md; [exact G|exact G|apply wm_panic; exact (proj1 F')].
Qed.

Lemma w_struct id n md r : forall idx s0 s, fix_ s0 (m_d s) -> d_copy s0 = copy -> lo <= idx <= len ->
  wt (mstruct_loop v by_ rec urec n id md r idx) idx s0 s.
Proof.
  induction n as [|n IH]; intros idx s0 s F Hc Hl; cbn [mstruct_loop].
  - apply wm_ret. split; [lia|auto].
  - apply wm_bind. apply wm_lift. apply wp_decodeStringish; auto. intros kw i _ L1 L2 _ s1 E1.
    rewrite Nat2Z.id in L1. rewrite <- E1 in F. clear s E1.
    assert (N : forall j d, i < j <= len -> fix_ s0 d -> forall s', m_d s' = d -> wt (mstruct_loop v by_ rec urec n id md r j) idx s0 s').
    { intros j d L F' s' <-. eapply wm_mono; [apply IH; eauto; lia|..]; auto. intros x s2 [A B]. split; [lia|auto]. }
    pose proof (fix_keep _ _ _ F Hc).
    apply wm_bind. destruct (find_field v id (win_bytes by_ kw)) as [[fi [f t]]|].
    + apply w_rec; auto. lia.
    + apply w_discard; auto. lia.
Qed.

Lemma w_mdecodeHash ty : forall idx ln r md s0 s, fix_ s0 (m_d s) -> d_copy s0 = copy -> lo <= idx <= len ->
  wt (mdecodeHash v by_ rec urec ty idx ln r md) idx s0 s.
Proof.
  induction ty; intros idx ln r md s0 s F Hc Hl; cbn [mdecodeHash]; unfold blen;
    (destruct ((ln <? 0) || (maxInt32 <? ln))%Z eqn:B1; [now apply wm_fail|]);
    (destruct (Z.of_nat len <? Z.of_nat idx + 2 * ln)%Z eqn:B2; [now apply wm_fail|]); cbv zeta;
    (apply wm_bind, quiet_w; [q|exact F|]; intros cur s1 E1; rewrite <- E1 in F; clear s E1);
    try (now apply wm_fail); destruct cur; try (now apply wm_fail).
  - apply wm_bind, quiet_w; [q|exact F|]. intros _ s2 E2. rewrite <- E2 in F. now apply w_map.
  - apply wm_bind, quiet_w; [q|exact F|]. intros l s2 E2. rewrite <- E2 in F. now apply IHty.
  - now apply w_struct.
Qed.

Lemma w_refp ty md r idx b s0 s : fix_ s0 (m_d s) -> d_copy s0 = copy -> idx <= len ->
  wt (mdecodeRefp c v by_ ty md r idx b) idx s0 s.
Proof.
  intros F Hc L. unfold mdecodeRefp. apply wm_bind, wm_lift. apply wp_varint_at; auto. intros n sz _ B Ls s1 E1.
  rewrite <- E1 in F. clear s E1. cbv zeta.
  destruct ((n <? 0) || (Z.of_nat (idx + sz) <=? n))%Z; [now apply wm_fail|].
  apply wm_bind, wm_lift. unfold wp, get_tracked. intros s2 E2. rewrite <- E2 in F.
  destruct (assoc_nat _ _); [|now apply wm_fail].
  assert (D : forall A (m : TM A) s, quiet m -> fix_ s0 (m_d s) -> wt (do! _ := m in tret (idx + sz)) idx s0 s)
    by (intros; apply quiet_done; auto; lia).
  apply wm_bind, quiet_w; [q|exact F|]. intros o s3 E3. rewrite <- E3 in F. clear s1 s2 E2 E3.
  destruct o as [t|].
  - apply wm_bind, quiet_w; [q|exact F|]. intros x s4 E4. rewrite <- E4 in F. clear s3 E4.
    destruct (tr_md t); [| |apply wm_panic; exact (proj1 F)].
    all: assert (G : wt (if gtype_eqb (tr_ty t) ty then do! _ := mset v md r x in tret (idx + sz)
                  else match ty with
                       | TyIface => do! _ := mset v md r (MIface GOpaque) in tret (idx + sz)
                       | _ => tpanic EReflect
                       end) idx s0 s4) by
      (destruct (gtype_eqb (tr_ty t) ty); [apply D; [q|exact F]|];
       destruct ty; try (apply wm_panic; exact (proj1 F)); apply D; [q|exact F]).
    all: destruct (tr_ty t) as [| | | | | | | | |t0|]; try exact G; destruct t0; try exact G;
      destruct x as [| | | | | | | | |[l'|]|]; try exact G.
    all: apply wm_bind, quiet_w; [q|exact F|]; intros mem s5 E5; rewrite <- E5 in F;
      destruct (mvar mem l'); try (apply wm_panic; exact (proj1 F)); apply D; [q|exact F].
  - apply wm_bind, quiet_w; [q|exact F|]. intros x s4 E4. rewrite <- E4 in F. apply D; [q|exact F].
Qed.

Lemma w_freeze ty r md idx b s0 s : fix_ s0 (m_d s) -> d_copy s0 = copy -> lo <= idx <= len ->
  wt (mdecodeFreeze c v by_ urec ty r md idx b) idx s0 s.
Proof.
  intros F Hc L. pose proof (fix_keep _ _ _ F Hc) as Hc'. unfold mdecodeFreeze. apply wm_bind, wm_lift.
  apply (wp_class_name by_ 0); [lia|auto|]. intros cls i L1 L2 s1 E1. rewrite <- E1 in F, Hc'. clear s E1.
  destruct (Nat.leb_spec len (i + 1)); [now apply wm_fail|].
  destruct (nth_error by_ i) eqn:N0; [|apply nth_error_None in N0; lia].
  destruct (nth_error by_ (i + 1)) eqn:N1; [|apply nth_error_None in N1; lia].
  destruct (negb _); [now apply wm_fail|].
  apply wm_bind, w_alloc; auto. intros l d _ Ll Hg F1 Hc1 s2 <-. apply hget_is in Hg.
  apply wm_bind, w_urec; auto; [congruence|lia|]. intros j d Lj F2 s3 <-.
  apply wm_bind, quiet_w; [q|exact F2|]. intros x s4 E4. rewrite <- E4 in F2. destruct x; try (now apply wm_fail).
  destruct (negb _); [now apply wm_fail|].
  apply wm_bind, quiet_w; [q|exact F2|]. intros e s5 E5. rewrite <- E5 in F2. destruct e; try (now apply wm_fail).
  destruct (d_perl c).
  - apply wm_bind, w_alloc; auto. intros l2 d _ _ _ F3 _ s6 <-. apply quiet_done; auto with quiet. lia.
  - apply wm_bind, quiet_w; [q|exact F2|]. intros cur s6 E6. rewrite <- E6 in F2.
    assert (D : wt (do! _ := mcheck md in tfail ECannotUnpack) idx s0 s6)
      by (apply wm_bind, quiet_w; [q|exact F2|]; intros _ s7 E7; apply wm_fail; now rewrite E7).
    destruct ty; try exact D.
    + destruct cur; try exact D. match goal with x : gval |- _ => destruct x; try exact D end.
      match goal with |- context [GUserP ?t ?dd] => set (t0 := t); set (dd0 := dd) end.
      assert (Z : wt (fun s7 => if d_unmarshal c t0 (hview (d_heap (m_d s7)) dd0)
          then (do! _ := write v r (MIface (GUserP t0 dd0)) in tret j) s7 else (Err EUser, s7)) idx s0 s6).
      { unfold wm. destruct (d_unmarshal c t0 _); cbn; [|exact F2]. split; [lia|exact F2]. }
      destruct md; [exact Z|exact Z|apply wm_panic; exact (proj1 F2)].
    + destruct ty; try exact D. destruct k; try exact D.
      destruct cur; try exact D. destruct o; try exact D.
      apply wm_bind, quiet_w; [q|exact F2|]. intros _ s7 E7. unfold wm. cbn. rewrite E7. split; [lia|exact F2].
    + destruct cur; try exact D. destruct o; try exact D.
      apply wm_bind, quiet_w; [q|exact F2|]. intros _ s7 E7. unfold wm. cbn. rewrite E7. exact F2.
Qed.

Hypothesis C0 : copy = 0 -> mrec_ok rec 0 1.

Lemma w_tag k ty r md idx s0 s : fix_ s0 (m_d s) -> d_copy s0 = copy -> lo <= idx <= len ->
  wt (mdecode_tag c v by_ ibuf ishift rec urec k ty r md idx) idx s0 s.
Proof.
  intros F Hc L. pose proof (fix_keep _ _ _ F Hc) as Hc'.
  assert (Rc : forall s, fix_ s0 (m_d s) -> d_copy (m_d s) = copy -> forall i, idx <= i -> wt (rec ty r md i) idx s0 s)
    by (intros s1 F1 H1 i Li; apply w_rec; auto; [lia|]; intros j s' Lj F'; split; [lia|auto]).
  assert (Un : forall k0, wt (if d_perl c then do! x := lift_ k0 in do! _ := mset_iface v ty md r x in tret idx
     else match ty with
          | TyPtr _ | TyMap _ | TySlice _ => do! _ := mset v md r (mzero ty) in tret idx
          | _ => tret idx
          end) idx s0 s <-> (d_perl c = true -> wt (do! x := lift_ k0 in do! _ := mset_iface v ty md r x in tret idx) idx s0 s)).
  { intros k0. destruct (d_perl c); [split; auto|]. split; [intros _ H; discriminate|intros _].
    destruct ty; try (apply wm_ret; split; [lia|auto]); apply quiet_done; auto with quiet; lia. }
  destruct k; cbn [mdecode_tag]; try (apply Rc; auto).
  all: try (apply quiet_done; auto with quiet; lia).
  all: try (apply wm_bind, wm_lift; apply wp_varint_at; [lia| |assumption]; intros m sz _ Bs Ls s1 E1; rewrite <- E1 in F;
    first [apply quiet_done; auto with quiet; lia
          |eapply wm_mono; [first [apply w_mdecodeHash|apply w_mdecodeArray]; eauto; lia|..]; auto; intros i s' [A B]; split; [lia|auto]
          |apply wm_bind, wm_lift; apply wp_binary_at; [lia|assumption|]; intros bs i L1 L2 _ s2 E2; rewrite <- E2 in F;
           first [apply setBinary_safe; auto; lia|apply quiet_done; auto with quiet; lia]]).
  all: try (apply wm_bind, wm_lift; apply wp_fixed_at; [lia|assumption|]; intros L2 x s1 E1; rewrite <- E1 in F; apply quiet_done; auto with quiet; lia).
  all: try (apply wm_bind, wm_lift; apply wp_binary_at; [lia|assumption|]; intros bs i L1 L2 _ s1 E1; rewrite <- E1 in F; apply setBinary_safe; auto; lia).
  all: try (apply w_mdecodeHash; auto).
  all: try (apply w_mdecodeArray; auto).
  all: try (apply w_refp; auto; lia).
  all: try (apply w_freeze; auto).
  all: try (now apply wm_fail).
  - apply Un. intros _.
    enough (W : wt (do! l := lift_ (alloc (CV (GUndefV false))) in do! _ := mset_iface v ty md r (GPtr false l) in tret idx) idx s0 s) by exact W.
    apply wm_bind, w_alloc; auto. intros l d _ _ _ F1 _ s1 <-. apply quiet_done; auto with quiet. lia.
  - apply Un. intros _. apply wm_bind. unfold wm at 1. cbn. intros s1 E1. rewrite <- E1 in F. apply quiet_done; auto with quiet. lia.
  - apply wm_bind. unfold wm at 1. cbn [lift_ get_copy m_d]. intros s1 E1. rewrite <- E1 in *. clear Un s E1.
    destruct (Nat.ltb_spec 0 (d_copy (m_d s1))); [now apply wm_fail|].
    apply wm_bind, wm_lift. apply wp_varint_at; [lia| |assumption]. intros m sz _ Bs Ls s2 E2. rewrite <- E2 in *. clear s1 E2.
    destruct ((m <? 0) || (Z.of_nat idx <=? m))%Z; [now apply wm_fail|]. cbv zeta.
    apply wm_bind. unfold wm at 1. cbn [lift_ set_copy m_d]. intros s1 E1. apply wm_bind.
    assert (W : wt (rec ty r md (Z.to_nat m)) (S (Z.to_nat m)) (m_d s1) s1) by (apply C0; [lia|lia|rewrite E1; cbn; lia]).
    assert (K : forall s', fix_ (m_d s1) s' -> fix_ s0 (mkDState (d_heap s') (d_tracked s') (pred (d_copy s')) (d_made s'))).
    { rewrite E1. intros s' [(A1 & A2 & A3) A4]. cbn in A1, A2, A3, A4. eapply fix_trans; [exact F|]. split; [|cbn; lia]. repeat split; auto. }
    assert (KX : forall s', fixX (m_d s1) s' -> fixX s0 s').
    { rewrite E1. intros s' (A1 & A2 & A3). eapply fix_transX; [exact F|]. repeat split; auto. }
    unfold wm in W |- *. destruct (rec ty r md (Z.to_nat m) s1) as [[i|e|e| |] s']; auto.
    + destruct W as [_ W]. cbn. intros s3 E3. rewrite E3. split; [lia|auto].
    + cbn. auto.
  - destruct (d_perl c); [|apply Rc; auto].
    apply wm_bind, w_alloc; auto. intros l d _ Ll Hg F1 Hc1 s1 <-. apply hget_is in Hg.
    apply wm_bind, quiet_w; [q|exact F1|]. intros _ s2 E2. rewrite <- E2 in *.
    apply w_urec; auto; [congruence|lia|]. intros i s3 Li F2. split; [lia|auto].
  - apply wm_bind, w_alloc; auto. intros l d _ Ll Hg F1 Hc1 s1 <-.
    apply wm_bind. eapply wm_lift, wp_mono; [apply wp_decodeRegexp; lia|..].
    + intros i s2 (A & B & G). eapply good_fix in G; [|exact F1|lia]. intros s3 <-.
      apply wm_bind, quiet_w; [q|exact G|]. intros x s4 E4. rewrite <- E4 in G. apply quiet_done; auto with quiet.
    + intros s2 G. eapply good_fix; [exact F1| |exact G]. lia.
    + intros s2 G. eapply goodX_fix; [exact F1| |exact G]. lia.
  - apply wm_bind, wm_lift. apply (wp_class_name by_ 0); [lia|auto|]. intros cls i L1 L2 s1 E1. rewrite <- E1 in *.
    destruct (d_perl c); [|apply Rc; auto; lia].
    apply wm_bind, w_alloc; auto. intros l d _ Ll Hg F1 Hc1 s2 <-. apply hget_is in Hg.
    apply wm_bind, quiet_w; [q|exact F1|]. intros _ s3 E3. rewrite <- E3 in *.
    apply w_urec; auto; [congruence|lia|]. intros j s4 Li F2. split; [lia|auto].
  - apply wm_bind, wm_lift. apply (wp_class_name by_ 0); [lia|auto|]. intros cls i L1 L2 s1 E1. rewrite <- E1 in *.
    destruct (d_perl c); [|apply Rc; auto; lia].
    apply wm_bind, w_alloc; auto. intros l d _ Ll Hg F1 Hc1 s2 <-. apply hget_is in Hg.
    apply wm_bind, quiet_w; [q|exact F1|]. intros _ s3 E3. rewrite <- E3 in *.
    apply w_urec; auto; [congruence|lia|]. intros j s4 Li F2. split; [lia|auto].
Qed.
End Rec.

Lemma mdecode_safe : forall fuel ty r md idx s, tneed by_ idx (d_copy (m_d s)) <= fuel ->
  wt (mdecode c v by_ ibuf ishift fuel ty r md idx) (S idx) (m_d s) s.
Proof.
  induction fuel as [|fuel IH]; intros ty r md idx s Hf; [unfold tneed in Hf; lia|].
  cbn [mdecode]. unfold mdecode_body.
  destruct (Nat.leb_spec len idx); [apply wm_fail, keeps_refl|].
  set (d0 := m_d s) in *. assert (F0 : fix_ d0 (m_d s)) by apply keeps_refl. clearbody d0.
  assert (R : mrec_ok (mdecode c v by_ ibuf ishift fuel) (S idx) (d_copy d0)).
  { intros ty' cur' md' idx' s' L C. apply IH. rewrite C. unfold tneed, need in *. destruct (d_copy d0); lia. }
  assert (U : rec_ok by_ (decode c by_ ibuf ishift fuel) idx (d_copy d0)).
  { intros idx' l' s' L C Ll Hg. apply decode_safe; auto. rewrite C. unfold tneed, need in *. destruct (d_copy d0); lia. }
  assert (C0 : d_copy d0 = 0 -> mrec_ok (mdecode c v by_ ibuf ishift fuel) 0 1).
  { intros E0 ty' cur' md' idx' s' L C. apply IH. rewrite C. rewrite E0 in Hf. unfold tneed, need in *. lia. }
  apply wm_bind, quiet_w; [q|exact F0|]. intros cur s1 E1. rewrite <- E1 in F0. clear s E1.
  assert (T : wt (match skip_pads (skipn idx by_) idx with
      | None => tfail ETruncated
      | Some (tagb, idx) =>
          do! _ := (if tracked_bit tagb then mtrack idx r ty md else tret tt) in
          mdecode_tag c v by_ ibuf ishift (mdecode c v by_ ibuf ishift fuel) (decode c by_ ibuf ishift fuel) (tag_kind (untrack tagb)) ty r md (S idx)
      end) (S idx) d0 s1).
  { destruct (skip_pads (skipn idx by_) idx) as [[tb i]|] eqn:SP; [|apply wm_fail, F0].
    apply skip_pads_bounds in SP. rewrite skipn_length in SP. destruct SP as (S1 & S2 & S3 & _).
    assert (Ht : forall s1, fix_ d0 (m_d s1) -> wt (mdecode_tag c v by_ ibuf ishift (mdecode c v by_ ibuf ishift fuel) (decode c by_ ibuf ishift fuel) (tag_kind (untrack tb)) ty r md (S i)) (S idx) d0 s1).
    { intros s2 F1. eapply wm_mono.
      - apply (w_tag _ _ (d_copy d0) (S i)); auto; try lia.
        + intros ty' cur' md' idx' s' L C. apply R; auto. lia.
        + eapply rec_ok_weaken; [exact U|lia].
        + exact F1.
      - intros j s' [A B]. split; [lia|auto].
      - auto.
      - auto. }
    apply wm_bind. destruct (tracked_bit tb); [|apply wm_ret; intros s' E'; apply Ht; now rewrite E'].
    unfold mtrack. apply wm_bind, (w_alloc 0); [exact F0|]. intros l d _ _ _ F1 _ s2 <-.
    apply wm_bind. unfold wm at 1. cbn [lift_ track m_d]. intros s3 E3. unfold wm at 1. cbn [m_d]. intros s4 E4.
    apply Ht. rewrite E4, E3. exact F1. }
  destruct ty; try exact T. destruct cur; try exact T. match goal with x : gval |- _ => destruct x; try exact T end. clear T.
  apply wm_bind, (w_alloc 0); [exact F0|]. intros l d _ Ll Hg F1 Hc1 s2 <-. apply hget_is in Hg.
  apply wm_bind. apply (w_urec _ (d_copy d0) idx); auto.
  { rewrite Hc1. exact (proj2 F0). }
  intros j d Lj F2 s3 <-.
  apply wm_bind, quiet_w; [q|exact F2|]. intros x s4 E4. rewrite <- E4 in F2.
  destruct x; try (apply quiet_done; auto with quiet; lia). apply wm_ret. split; [lia|auto].
Qed.
End TSafe.

(** * The whole call *)
Section Call.
Variable k : codecs.
Variable c : dconfig.
Variable v : goenv.

Lemma mem_cases b ib ty r s :
  (exists e, unmarshal_mem_raw k c v b ib ty r s = (Err e, s)) \/
  exists ver typ l n rest dec, starts b ver typ l n rest /\ documentDecompressor ver typ = Ok dec /\
    (0 <= bodyStart_of l n <= Z.of_nat (length b))%Z /\
    unmarshal_mem_raw k c v b ib ty r s =
    unmarshal_mbody k c v b ib (header_of ver typ l n) dec (Z.to_nat (bodyStart_of l n)) ty r s.
Proof.
  unfold unmarshal_mem_raw. unfold tbind at 1 3. unfold lift_ at 1 3. unfold lift at 1 3.
  destruct (checkHeader_total b) as [[h Ch]|[e Ch]]; rewrite Ch; [|left; exists e; destruct s; reflexivity].
  destruct (checkHeader_inv _ _ Ch) as (ver & typ & l & n & rest & S & ->).
  cbn [header_of h_version h_doctype h_suffixSize]. unfold tbind at 1 2. unfold lift_ at 1 2. unfold lift at 1 2. cbn [m_d m_mem m_refs].
  destruct (decompressor_total ver typ) as [[dec D]|[e D]]; rewrite D; [|left; exists e; destruct s; reflexivity].
  fold (bodyStart_of l n). cbv zeta.
  destruct ((Z.of_nat (length b) <? bodyStart_of l n) || (bodyStart_of l n <? 0))%Z eqn:B;
    [left; eexists; destruct s; reflexivity|].
  right. exists ver, typ, l, n, rest, dec. split; [exact S|]. split; [exact D|]. split; [lia|]. destruct s. reflexivity.
Qed.

Lemma mem_safe b ib ty r h mem : harmless TgtNone (TgtIface 0) b ->
  wm (unmarshal_mem_raw k c v b ib ty r) (fun _ => keeps (fun _ => False) (mkDState h [] 0 []))
    (keeps (fun _ => False) (mkDState h [] 0 [])) (touches (fun _ => False) (mkDState h [] 0 []))
    (mkM (mkDState h [] 0 []) mem []).
Proof.
  intros Hm. set (s := mkDState h [] 0 []).
  destruct (mem_cases b ib ty r (mkM s mem [])) as [(e & E)|(ver & typ & l & n & rest & dec & S & D & B & E)].
  { unfold wm. rewrite E. apply keeps_refl. }
  unfold wm at 1. rewrite E. clear E.
  destruct (Hm _ _ _ _ _ S) as [_ Mb]. destruct (Mb ltac:(discriminate)) as [M1 M2]. clear Mb.
  destruct (starts_length _ _ _ _ _ _ S) as [Len L10].
  set (bs := Z.to_nat (bodyStart_of l n)).
  assert (Lb : bs <= length b) by (unfold bs; lia).
  assert (Eb : bs = N.to_nat (body_start l n)) by (apply start_zero; lia).
  change (wm (unmarshal_mbody k c v b ib (header_of ver typ l n) dec bs ty r) (fun _ => keeps (fun _ => False) s)
    (keeps (fun _ => False) s) (touches (fun _ => False) s) (mkM s mem [])).
  unfold unmarshal_mbody. cbn [header_of h_version]. apply wm_bind.
  assert (Un : wm (match dec with
    | None => tret (b, ib)
    | Some dk =>
        match slice_from b bs with
        | None => lift_ crash
        | Some z =>
            do! d := lift_ (lift (decompress k dk z)) in
            let nb := firstn bs b ++ d in
            do! l := lift_ (alloc (CBuf nb)) in
            tret (nb, l)
        end
    end) (fun r s' => keeps (fun _ => False) s s' /\ bs <= length (fst r))
    (keeps (fun _ => False) s) (touches (fun _ => False) s) (mkM s mem [])).
  { unfold wm. destruct dec as [dk|].
    - rewrite (slice_from_le b bs Lb). unfold tbind, lift_, lift. cbn [m_d].
      destruct (decompress_cases k dk (skipn bs b)) as [[d Ed]|[[e Ed]|(Ed & -> & Z)]]; rewrite Ed; [|apply keeps_refl|].
      + cbn. split; [apply fix_alloc|]. rewrite app_length, firstn_length; lia.
      + apply Z. rewrite Eb. apply M2. revert D. unfold documentDecompressor.
        unfold serealRaw, serealSnappy, serealSnappyIncremental, serealZlib, serealZstd.
        repeat match goal with |- context [if ?x then _ else _] => destruct x eqn:? end; try discriminate; lia.
    - cbn. split; [apply keeps_refl|]. exact Lb. }
  eapply wm_mono; [exact Un|..]; auto. clear Un. intros [b' ib'] s1 (K & L') s2 E2. cbn [fst] in L'.
  apply wm_bind. unfold wm at 1. cbn [lift_ fresh_tracked m_d]. intros s3 E3.
  assert (K2 : keeps (fun _ => False) s (m_d s3)) by (rewrite E3; cbn; rewrite E2; exact K). clear E3.
  assert (T : forall by_ sh idx, 
    wm (do! _ := mdecode c v by_ ib' sh (decode_fuel by_) ty r Settable idx in tret tt) (fun _ => keeps (fun _ => False) s)
      (keeps (fun _ => False) s) (touches (fun _ => False) s) s3).
  { intros by_ sh idx. apply wm_bind. eapply wm_mono; [apply (mdecode_safe c v by_ ib' sh)|..].
    - rewrite (proj2 K2). unfold tneed, need, decode_fuel. cbn [d_copy s]. lia.
    - intros i d [_ A] s4 E4. apply wm_ret. rewrite E4. eapply fix_trans; eauto.
    - intros s4 A. eapply fix_trans; eauto.
    - intros s4 A. eapply fix_transX; eauto. }
  destruct (N.eqb_spec ver 1); [apply T; eauto|].
  destruct (Nat.eqb_spec bs 0) as [Z|Z]; [exfalso; specialize (M1 ltac:(assumption)); lia|].
  rewrite slice_from_le by lia. apply T.
Qed.
End Call.
