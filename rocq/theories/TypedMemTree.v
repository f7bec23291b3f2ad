(** Variables without sharing: the memory model of typed variables (TypedMem.v) does what the
    model with trees (Typed.v) says. *)
From Verif Require Import Base BaseFacts Varint Tags GoMem GoTypes TagsCache Codecs Compress Header Decode Document
  Typed TypedMem SpecMem TypedMemFacts.
From Coq Require Import ZifyBool ZifyNat ZifyN.

Section Sim.
Variable c : dconfig.
Variable v : goenv.
Variable by_ : bytes.
Variable ibuf : loc.
Variable ishift : nat.
Notation at_ := (at_ v).
Notation ats := (ats v).
Notation atf := (atf v).
Notation rd := (rd v).
Notation vref := (vref v).
Notation chg := (chg v).
Notation pre := (pre v).
Notation post := (post v).

Definition done (mem : memory) (r : mref) (ty : gtype) (md : amode) (F : list mloc) (a : tval * nat) (b : nat)
  (mem' : memory) : Prop := snd a = b /\ post mem r ty md F (fst a) mem'.

(** storing a value without cells *)
Lemma sim_plain md y x idx s r ty ty' cur F : pre (m_mem s) r ty' cur F -> at_ (m_mem s) ty y x [] ->
  sim (let! x := Typed.set md x in ret (x, idx)) (do! _ := mset v md r y in tret idx) s (done (m_mem s) r ty md F).
Proof.
  intros (V & _ & N) A. eapply (sim_set v _ _ md y x _ _ s r ty F []); [exact V|reflexivity|intros l []| |exact A|].
  - constructor; [auto|constructor].
  - intros d mem refs P. apply sim_ret. split; [reflexivity|exact P].
Qed.
Lemma sim_setInt ty md i idx s r cur F : pre (m_mem s) r ty cur F ->
  sim (let! x := setInt ty md i in ret (x, idx)) (do! _ := msetInt v ty md r i in tret idx) s (done (m_mem s) r ty md F).
Proof. intros P. destruct ty; cbn [setInt msetInt]; try apply sim_panic. apply (sim_plain md _ _ _ _ _ _ _ _ _ P). constructor. Qed.
Lemma sim_setFloat ty md i idx s r cur F : pre (m_mem s) r ty cur F ->
  sim (let! x := setFloat v ty md i in ret (x, idx)) (do! _ := msetFloat v ty md r i in tret idx) s (done (m_mem s) r ty md F).
Proof.
  intros P. destruct ty; cbn [setFloat msetFloat]; try apply sim_panic;
    apply (sim_plain md _ _ _ _ _ _ _ _ _ P); constructor.
Qed.
Lemma sim_setBool ty md i idx s r cur F : pre (m_mem s) r ty cur F ->
  sim (let! x := setBool ty md i in ret (x, idx)) (do! _ := msetBool v ty md r i in tret idx) s (done (m_mem s) r ty md F).
Proof. intros P. destruct ty; cbn [setBool msetBool]; try apply sim_panic. apply (sim_plain md _ _ _ _ _ _ _ _ _ P). constructor. Qed.
Lemma sim_setString ty md i idx s r cur F : pre (m_mem s) r ty cur F ->
  sim (let! x := setString ty md i in ret (x, idx)) (do! _ := msetString v ty md r i in tret idx) s (done (m_mem s) r ty md F).
Proof. intros P. destruct ty; cbn [setString msetString]; try apply sim_panic. apply (sim_plain md _ _ _ _ _ _ _ _ _ P). constructor. Qed.
Lemma sim_iface ty md g idx s r cur F : pre (m_mem s) r ty cur F ->
  sim (let! x := set_iface ty md g in ret (x, idx)) (do! _ := mset_iface v ty md r g in tret idx) s (done (m_mem s) r ty md F).
Proof. intros P. destruct ty; cbn [set_iface mset_iface]; try apply sim_panic. apply (sim_plain md _ _ _ _ _ _ _ _ _ P). constructor. Qed.

Lemma ats_bytes mem s : ats mem (repeat (TyInt KUint8) (length s)) (map byte_mval s) (map byte_val s) [].
Proof. induction s; cbn; [constructor|]. change (@nil mloc) with (@nil mloc ++ []). constructor; [constructor|assumption]. Qed.
Lemma ats_ints mem t n ms xs F : ats mem (repeat (TyInt t) n) ms xs F -> F = [].
Proof.
  revert ms xs F. induction n; intros ms xs F A; cbn in A; inversion A; subst; [reflexivity|].
  match goal with K : SpecMem.at_ _ _ _ _ _ _ |- _ => inversion K; subst end. cbn. eauto.
Qed.
Lemma ats_copy mem val : forall ms xs F, ats mem (repeat (TyInt KUint8) (length ms)) ms xs F ->
  ats mem (repeat (TyInt KUint8) (length (mcopy_over ms val))) (mcopy_over ms val) (copy_over xs val) [].
Proof.
  unfold mcopy_over, copy_over. induction val as [|b val IH]; intros ms xs F A.
  - cbn. rewrite ?firstn_nil. cbn. now rewrite <- (ats_ints _ _ _ _ _ _ A).
  - destruct ms as [|m ms]; cbn in A; inversion A; subst; cbn; [constructor|].
    change (@nil mloc) with (@nil mloc ++ []). constructor; [constructor|]. eapply IH. eassumption.
Qed.

(** a new slice *)
Lemma new_slice t ms xs mem r cur F : pre mem r (TySlice t) cur F -> ats mem (repeat t (length ms)) ms xs [] ->
  post mem r (TySlice t) Settable F (VSlice (Some xs))
    (after_write v (mem ++ [MCell (MArr ms)]) r (MSlice (Some (length mem)))).
Proof.
  intros (V & _ & N) A. pose proof (vref_in v _ _ V) as L.
  apply (post_store v mem r _ Settable F _ _ _ [length mem] V (chg_new v mem r F _ V) eq_refl).
  - intros l [<-|[]]. right. lia.
  - constructor; [intros [H|[]]; lia|]. constructor; [auto|constructor].
  - apply at_slice with ms; [rewrite nth_error_app2, Nat.sub_diag; [reflexivity|lia]|].
    eapply ats_frame; [exact A|intros l []].
Qed.
Ltac unf := unfold sim, mbind, Typed.set, ret, panic, fail, tbind, mcheck, tret, tpanic, tfail, new_cell, write, get_mem, set_cell; cbn.
Ltac give := do 3 eexists; split; [reflexivity|].

Lemma sim_eq A B (mt : M A) (mm mm' : TM B) s P : mm s = mm' s -> sim mt mm' s P -> sim mt mm s P.
Proof. unfold sim. now intros ->. Qed.
Lemma sim_teq A B (mt mt' : M A) (mm : TM B) s P : mt (m_d s) = mt' (m_d s) -> sim mt' mm s P -> sim mt mm s P.
Proof. unfold sim. now intros ->. Qed.
Lemma tbind_assoc A B B' (m : TM A) (k : A -> TM B) (k' : B -> TM B') s :
  tbind (tbind m k) k' s = tbind m (fun a => tbind (k a) k') s.
Proof. unfold tbind. destruct (m s) as [[a|e|e| |] s']; reflexivity. Qed.
Lemma mbind_assoc A B B' (m : M A) (k : A -> M B) (k' : B -> M B') s :
  mbind (mbind m k) k' s = mbind m (fun a => mbind (k a) k') s.
Proof. unfold mbind. destruct (m s) as [[a|e|e| |] s']; reflexivity. Qed.
Lemma sim_read_bind A B B' (mt : M A) (k : mval -> TM B) (k' : B -> TM B') s P r :
  sim mt (tbind (k (rd (m_mem s) r)) k') s P -> sim mt (tbind (tbind (read v r) k) k') s P.
Proof. intros H. exact H. Qed.
Lemma sim_post A A' B (mt : M A) (k : A -> M A') (mm : TM B) s P Q : sim mt mm s P ->
  (forall a b mem, P a b mem -> exists a', (forall d, k a d = (Ok a', d)) /\ Q a' b mem) -> sim (mbind mt k) mm s Q.
Proof.
  unfold sim, mbind. intros H K. destruct (mt (m_d s)) as [[a|e|e| |] d]; auto.
  destruct H as (b & mem & refs & E & H). destruct (K _ _ _ H) as (a' & -> & H'). eauto 6.
Qed.
Ltac rewrite_assoc := (eapply sim_teq; [apply mbind_assoc|]); (eapply sim_eq; [apply tbind_assoc|]).

Lemma sim_setBinary ty md cur val idx s r F : pre (m_mem s) r ty cur F ->
  sim (let! x := setBinary ty md cur val in ret (x, idx)) (do! _ := msetBinary v ty md r val in tret idx) s
    (done (m_mem s) r ty md F).
Proof.
  intros P. pose proof P as (V & A & N). destruct s as [d mem refs]. cbn [m_mem] in *.
  unfold msetBinary. apply sim_read_bind. cbn [m_mem]. remember (rd mem r) as m eqn:Em. destruct A; try apply sim_panic.
  - eapply sim_plain; [exact P|constructor].
  - destruct t as [[]| | | | | | | | | |]; try apply sim_panic. cbn [setBinary].
    rewrite_assoc. apply sim_lift_bind. intros _ d1 refs1. cbn [m_mem].
    destruct md; [|apply sim_panic|apply sim_panic].
    unf. give. split; [reflexivity|]. apply (new_slice (TyInt KUint8) _ (map byte_val val) _ _ _ _ P).
    rewrite map_length. apply ats_bytes.
  - destruct t as [[]| | | | | | | | | |]; try apply sim_panic. cbn [setBinary].
    pose proof (ats_ints _ _ _ _ _ _ H0) as ->.
    assert (Q : forall md, post mem r (TySlice (TyInt KUint8)) md [l] (VSlice (Some (copy_over xs val)))
      (upd mem l (MCell (MArr (mcopy_over ms val))))).
    { intros md0. assert (Nl : l <> fst r) by (inversion N; subst; intros ->; apply H3; now left).
      assert (Ll : l < length mem) by (apply nth_error_Some; congruence).
      assert (C : chg mem (l, []) [] (upd mem l (MCell (MArr (mcopy_over ms val))))).
      { split; [rewrite upd_length; lia|]. split; [intros k _ Nk _; apply nth_error_upd_other; cbn in Nk; congruence|].
        do 2 eexists. split; [exact H|]. split; [now apply nth_error_upd_same|]. right. eexists. reflexivity. }
      destruct (chg_through v mem r [l] l [] (upd mem l (MCell (MArr (mcopy_over ms val)))) V Nl) as (C1 & C2 & C3); auto; [now left|intros k []|].
      split; [exact C1|]. split; [auto|]. exists [l]. split; [|split; [exact N|auto]].
      rewrite C3, <- Em. apply at_slice with (mcopy_over ms val); [now apply nth_error_upd_same|].
      eapply ats_frame; [eapply ats_copy; exact H0|intros k []]. }
    destruct md; [| |apply sim_panic]; unf; rewrite (mvar_is _ _ _ H); give; (split; [reflexivity|]); apply Q.
  - destruct t as [[]| | | | | | | | | |]; try apply sim_panic. cbn [setBinary].
    eapply sim_plain; [exact P|]. constructor. eapply ats_copy. eassumption.
Qed.

(** the entries of a map *)
Definition ents (mem : memory) (t : gtype) (ms : list (bytes * mval)) (xs : list (bytes * tval)) (F : list mloc) : Prop :=
  map fst ms = map fst xs /\ ats mem (repeat t (length ms)) (map snd ms) (map snd xs) F.
Lemma ents_none mem t key : forall ms xs F, ents mem t ms xs F -> mget ms key = None -> mget xs key = None.
Proof.
  induction ms as [|(k, m) ms IH]; intros [|(k', x) xs] F (E & A); try discriminate; cbn in *; [reflexivity|].
  injection E as -> E. inversion A; subst. destruct (bytes_eqb k' key); [discriminate|]. intros H.
  eapply IH; [split; [exact E|eassumption]|exact H].
Qed.
Lemma ents_get mem t key m : forall ms xs F, ents mem t ms xs F -> mget ms key = Some m ->
  exists x F1 Fi F2, mget xs key = Some x /\ F = F1 ++ Fi ++ F2 /\ at_ mem t m x Fi /\
    forall mem' x' Fi', same_on mem mem' (F1 ++ F2) -> at_ mem' t m x' Fi' ->
      ents mem' t ms (mput xs key x') (F1 ++ Fi' ++ F2).
Proof.
  induction ms as [|(k, m1) ms IH]; intros [|(k', x) xs] F (E & A) G; try discriminate; cbn in *; try discriminate.
  injection E as -> E. inversion A as [|? ? ? ? ? ? Fi F2 A1 A2]; subst. destruct (bytes_eqb k' key).
  - injection G as ->. exists x, [], Fi, F2. split; [reflexivity|]. split; [reflexivity|]. split; [assumption|].
    intros mem' x' Fi' Same A'. cbn in *. split; cbn; [now rewrite E|]. apply ats_cons; [exact A'|].
    eapply ats_frame; [exact A2|exact Same].
  - destruct (IH xs F2 (conj E A2) G) as (y & G1 & Gi & G2 & Ey & -> & Ay & K).
    exists y, (Fi ++ G1), Gi, G2. split; [exact Ey|]. split; [now rewrite <- app_assoc|]. split; [exact Ay|].
    intros mem' x' Fi' Same A'. destruct (K mem' x' Fi') as (K1 & K2); [|exact A'|].
    { intros l I. apply Same. rewrite <- app_assoc. apply in_or_app. auto. }
    split; cbn; [now rewrite K1|]. rewrite <- app_assoc. apply ats_cons; [|exact K2].
    eapply at_frame; [exact A1|]. intros l I. apply Same. apply in_or_app. left. apply in_or_app. auto.
Qed.
Lemma ents_new mem t key m x G : at_ mem t m x G -> forall ms xs F, ents mem t ms xs F -> mget ms key = None ->
  ents mem t (mput ms key m) (mput xs key x) (F ++ G).
Proof.
  intros A. induction ms as [|(k, m1) ms IH]; intros [|(k', y) xs] F (E & B) H; try discriminate; cbn in *.
  - inversion B; subst. split; [reflexivity|]. cbn. rewrite <- (app_nil_r G). constructor; [exact A|constructor].
  - injection E as -> E. inversion B as [|? ? ? ? ? ? Fi F2 A1 A2]; subst. destruct (bytes_eqb k' key); [discriminate|].
    destruct (IH xs F2 (conj E A2) H) as (K1 & K2). split; cbn; [now rewrite K1|].
    rewrite <- app_assoc. apply ats_cons; assumption.
Qed.
Lemma ents_frame mem mem' t ms xs F : ents mem t ms xs F -> same_on mem mem' F -> ents mem' t ms xs F.
Proof. intros (E & A) S. split; [exact E|]. eapply ats_frame; eassumption. Qed.
Lemma at_ents mem t l ms xs F : nth_error mem l = Some (MEntries ms) -> ents mem t ms xs F ->
  at_ mem (TyMap t) (MMap (Some l)) (VMap (Some xs)) (l :: F).
Proof. intros E (A & B). apply at_map with ms; assumption. Qed.

Section Rec.
Variable rec : gtype -> tval -> amode -> nat -> M (tval * nat).
Variable mrec : gtype -> mref -> amode -> nat -> TM nat.
Variable urec : nat -> loc -> M nat.
Hypothesis Hrec : forall ty r md idx cur F s, pre (m_mem s) r ty cur F ->
  sim (rec ty cur md idx) (mrec ty r md idx) s (done (m_mem s) r ty md F).

Definition loop_done (mem : memory) (R : mref) (t : gtype) (md : amode) (n : nat) (F : list mloc) (pre_ : list tval)
  (a : list tval * nat) (b : nat) (mem' : memory) : Prop :=
  snd a = b /\ chg mem R F mem' /\ (md <> Settable -> nth_error mem' (fst R) = nth_error mem (fst R)) /\
  exists ms F', rd mem' R = MArr ms /\ length ms = n /\ ats mem' (repeat t n) ms (pre_ ++ fst a) F' /\
    NoDup (fst R :: F') /\ (forall l, In l F' -> In l F \/ length mem <= l).

Lemma sim_array t md r R n : forall i idx s ms xs F, vref (m_mem s) R -> rd (m_mem s) R = MArr ms ->
  ats (m_mem s) (repeat t (length ms)) ms xs F -> NoDup (fst R :: F) ->
  (forall d mem refs ms' j, chg (m_mem s) R F mem -> rd mem R = MArr ms' -> length ms' = length ms -> j < length ms ->
     index_ref v r j (mkM d mem refs) = (Ok (inside R (SElem j)), mkM d mem refs)) ->
  sim (tarray_loop rec urec n t md (skipn i xs) idx) (marray_loop v mrec urec n t md r i (length ms) idx) s
    (loop_done (m_mem s) R t md (length ms) F (firstn i xs)).
Proof.
  induction n as [|n IH]; intros i idx s ms xs F V Er A N St; cbn [tarray_loop marray_loop].
  - apply sim_ret. split; [reflexivity|]. split; [now apply chg_refl|]. split; [auto|].
    exists ms, F. cbn [fst]. rewrite firstn_skipn. repeat (split; [auto|]). auto.
  - destruct (ats_lengths v _ _ _ _ _ A) as (_ & Lx).
    destruct (Nat.ltb_spec i (length ms)) as [Li|Li].
    + destruct (ats_split v _ i _ _ _ _ A Li) as (t' & m & x & F1 & Fi & F2 & E1 & E2 & E3 & EF & Ai & A1 & A2).
      assert (t' = t) as -> by (apply nth_error_In, repeat_spec in E1; congruence).
      assert (Sk : skipn i xs = x :: skipn (S i) xs).
      { clear - E3. revert i E3. induction xs; intros [|i] E; cbn in *; try discriminate; [congruence|]. auto. }
      rewrite Sk.
      assert (P : pre (m_mem s) (inside R (SElem i)) t x Fi).
      { apply (part_pre v _ R (SElem i) t x F Fi V) with F1 F2; auto; rewrite Er; cbn; [auto|].
        now rewrite (nth_error_nth ms i (MStruct []) E2). }
      eapply sim_eq; [apply tbind_assoc|]. eapply sim_skip.
      { destruct s as [d mem refs]. eapply St; [now apply chg_refl|exact Er|reflexivity|exact Li]. }
      { reflexivity. }
      replace (mkM (m_d s) (m_mem s) (m_refs s)) with s by (destruct s; reflexivity).
      eapply sim_bind; [apply Hrec; exact P|]. intros (x1, idx1) b d mem refs (Eb & Q). cbn in Eb, Q. subst b.
      cbn [fst snd].
      destruct (elem_done v _ R t md ms xs F i x1 mem V Er Li A N m x F1 Fi F2 EF E2 E3 A1 A2 Q)
        as (ms1 & F' & C1 & M1 & Er1 & L1 & As1 & N1 & S1).
      set (xs1 := firstn i xs ++ x1 :: skipn (S i) xs) in *.
      assert (Lf : length (firstn i xs) = i) by (rewrite firstn_length; lia).
      assert (K1 : skipn (S i) xs1 = skipn (S i) xs).
      { unfold xs1. rewrite skipn_app, Lf. replace (S i - i) with 1 by lia. rewrite skipn_all2 by lia. reflexivity. }
      assert (K2 : firstn (S i) xs1 = firstn i xs ++ [x1]).
      { unfold xs1. rewrite firstn_app, Lf. replace (S i - i) with 1 by lia. rewrite firstn_all2 by lia. reflexivity. }
      rewrite <- L1. 
      specialize (IH (S i) idx1 (mkM d mem refs) ms1 xs1 F'). cbn [m_mem] in IH. rewrite K1, K2 in IH.
      assert (V1 : vref mem R) by exact (chg_vref v _ _ _ _ V C1).
      eapply sim_post; [apply IH|]; auto.
      { now rewrite L1. }
      { intros d' mem' refs' ms' j C2 Er2 Lm Lj. apply (St d' mem' refs' ms'); [|auto|lia|lia].
        now apply (chg_trans v _ R F mem F' _ V C1). }
      intros (xs2, idx2) b mem' (Eb & C2 & M2 & ms2 & F2' & Er2 & L2 & As2 & N2 & S2). cbn [fst snd] in *. subst b.
      eexists. split; [reflexivity|]. split; [reflexivity|].
      split; [now apply (chg_trans v _ R F mem F' _ V C1)|]. split; [intros H; rewrite M2, M1; auto|].
      exists ms2, F2'. cbn [fst]. rewrite L1 in *. rewrite <- app_assoc in As2. repeat (split; [auto|]).
      intros l I. destruct (S2 l I) as [J|J]; [auto|]. destruct C1 as (LL & _). right. lia.
    + rewrite (skipn_all2 xs) by lia. cbn [tarray_loop].
      apply sim_lift_bind. intros idx1 d refs.
      specialize (IH (S i) idx1 (mkM d (m_mem s) refs) ms xs F V Er A N St). cbn [m_mem] in IH.
      rewrite skipn_all2, firstn_all2 in IH by lia. rewrite firstn_all2 by lia. exact IH.
Qed.

Lemma sim_struct id md r n : forall idx s fs F, pre (m_mem s) r (TyStruct id) (VStruct fs) F ->
  sim (tstruct_loop v by_ rec urec n id md fs idx) (mstruct_loop v by_ mrec urec n id md r idx) s
    (fun a b mem => snd a = b /\ post (m_mem s) r (TyStruct id) md F (VStruct (fst a)) mem).
Proof.
  induction n as [|n IH]; intros idx s fs F P; cbn [tstruct_loop mstruct_loop].
  - apply sim_ret. split; [reflexivity|]. now apply post_refl.
  - apply sim_lift_bind. intros (kw, idx1) d refs.
    destruct (find_field v id (win_bytes by_ kw)) as [(i, (f, t))|] eqn:Ef.
    + assert (Ei : nth_error (st_fields (decls v id)) i = Some (f, t)).
      { clear - Ef. unfold find_field in Ef. repeat match type of Ef with
          | match ?x with _ => _ end = _ => destruct x eqn:?; try discriminate end; injection Ef as <- <-; assumption. }
      destruct P as (V & A & N). inversion A as [| | | | | | | | | | | | |id' ms fs' F' Af Q1 Q2]; subst.
      symmetry in Q2.
      assert (Li : i < length (st_fields (decls v id))) by (apply nth_error_Some; congruence).
      destruct (atf_split v _ _ _ _ i _ _ Af) as (f' & t' & F1 & Fi & F2 & is1 & is2 & E1 & E2 & EF & Ai & A1 & A2);
        [apply in_seq; lia|apply seq_NoDup|exact Li|].
      rewrite Ei in E1. injection E1 as <- <-.
      assert (P : pre (m_mem s) (inside r (SField id i)) t (sfield v id i fs) Fi).
      { apply (part_pre v _ r (SField id i) t _ F Fi V) with F1 F2; auto; rewrite Q2; cbn; auto. }
      eapply sim_bind; [apply (Hrec t (inside r (SField id i)) (md_field md f) idx1 _ Fi (mkM d (m_mem s) refs)); exact P|].
      intros (x1, idx2) b d1 mem refs1 (Eb & Q). cbn in Eb, Q. subst b.
      assert (Md : md <> Settable -> md_field md f <> Settable) by (unfold md_field; destruct (f_exported f); congruence).
      pose proof (field_done v _ r id md _ ms fs F i t x1 mem V Q2 Af N f F1 Fi F2 is1 is2 E2 Ei EF A1 A2 Md Q) as Q'.
      destruct (post_pre v _ _ _ _ _ _ _ V Q') as (F' & P' & S').
      eapply sim_mono; [apply (IH idx2 (mkM d1 mem refs1) _ F'); exact P'|].
      intros (fs2, idx3) b mem' (Eb & Q2'). split; [exact Eb|]. cbn in *.
      destruct Q' as (C & M & _). eapply post_trans; eauto.
    + eapply sim_bind; [apply sim_lift|]. intros idx2 b d1 mem refs1 (-> & ->).
      apply (IH b (mkM d1 (m_mem s) refs1) fs F P).
Qed.

Lemma sim_map t md r l n : forall idx s xs F, rd (m_mem s) r = MMap (Some l) ->
  pre (m_mem s) r (TyMap t) (VMap (Some xs)) F ->
  sim (tmap_loop by_ rec n t md xs idx) (mmap_loop v by_ mrec n t md r idx) s
    (fun a b mem => snd a = b /\ post (m_mem s) r (TyMap t) md F (VMap (Some (fst a))) mem).
Proof.
  induction n as [|n IH]; intros idx s xs F Er P; cbn [tmap_loop mmap_loop].
  - apply sim_ret. split; [reflexivity|]. now apply post_refl.
  - apply sim_lift_bind. intros (kw, idx1) d refs. set (key := win_bytes by_ kw).
    destruct s as [d0 mem0 refs0]. cbn [m_mem] in *. clear d0 refs0.
    eapply sim_skip; [reflexivity|reflexivity|]. cbv beta. cbn [m_mem].
    rewrite Er.
    pose proof P as (V & A & N). rewrite Er in A.
    inversion A as [| | | | | | | | | |t' l' ms xs' G El Ek Am| | |]; subst.
    unfold mentries at 1. rewrite El.
    assert (En : ents mem0 t ms xs G) by (split; assumption).
    pose proof (vref_in v _ _ V) as Lr.
    assert (Ll : l < length mem0) by (apply nth_error_Some; congruence).
    inversion N as [|? ? Nr N1]; subst. inversion N1 as [|? ? Nl N2]; subst.
    assert (Ing : forall j, In j G -> j < length mem0) by (intros j J; exact (ats_in v _ _ _ _ _ _ Am J)).
    destruct (mget ms key) as [m|] eqn:Eg.
    + destruct (ents_get _ _ _ _ _ _ _ En Eg) as (x & F1 & Fi & F2 & Ex & EG & Ai & K).
      rewrite Ex. eapply sim_eq; [apply tbind_assoc|]. eapply sim_skip; [reflexivity|reflexivity|]. cbn [m_d m_mem m_refs].
      set (mem1 := mem0 ++ [MCell m]). set (e := length mem0).
      assert (Ee : nth_error mem1 e = Some (MCell m)) by (unfold mem1, e; rewrite nth_error_app2, Nat.sub_diag; [reflexivity|lia]).
      assert (Old : forall j, j < length mem0 -> nth_error mem1 j = nth_error mem0 j) by (intros j J; apply nth_error_app1; exact J).
      assert (InFi : forall j, In j Fi -> In j G) by (intros j J; subst G; apply in_or_app; right; apply in_or_app; auto).
      assert (Pe : pre mem1 (e, []) t x Fi).
      { split; [exists m; split; [exact Ee|exact Logic.I]|]. split.
        - unfold TypedMem.rd, mvar. cbn [fst snd]. rewrite Ee. cbn. eapply at_frame; [exact Ai|].
          intros j J. apply Old. auto.
        - constructor; [intros J; specialize (Ing e (InFi e J)); unfold e in Ing; lia|].
          subst G. apply NoDup_tail in N2. clear - N2. induction Fi; [constructor|]. inversion N2; subst.
          constructor; [intros J; apply H1, in_or_app; auto|auto]. }
      eapply sim_bind; [apply (Hrec t (e, []) (md_entry md) idx1 x Fi (mkM d mem1 refs)); exact Pe|].
      intros (x1, idx2) b d1 mem2 refs1 (Eb & Q). cbn [fst snd m_mem] in Eb, Q. subst b.
      destruct Q as (C & Mo & Fi' & Ai' & Ni' & Si').
      assert (Me : md_entry md <> Settable) by (destruct md; discriminate). specialize (Mo Me). cbn in Mo.
      assert (L1 : length mem1 = S e) by (unfold mem1; rewrite app_length; cbn; unfold e; lia).
      assert (Keep : forall j, j < length mem0 -> ~ In j Fi -> nth_error mem2 j = nth_error mem0 j).
      { intros j J I. destruct C as (_ & K' & _). rewrite K'; [auto|lia|cbn; unfold e; lia|exact I]. }
      assert (Dis : forall j, In j (F1 ++ F2) -> ~ In j Fi).
      { intros j J I. subst G. clear - N2 I J. apply in_app_or in J. induction F1.
        - destruct J as [[]|J]. cbn in N2. induction Fi; [contradiction|]. cbn in N2. inversion N2; subst.
          destruct I as [->|I]; [apply H1, in_or_app; auto|auto].
        - cbn in N2. inversion N2; subst. destruct J as [[->|J]|J]; [|apply IHF1; auto|apply IHF1; auto].
          apply H1. apply in_or_app. right. apply in_or_app. auto. }
      assert (Q : post mem0 r (TyMap t) md (l :: G) (VMap (Some (mput xs key x1))) mem2).
      { assert (Er2 : nth_error mem2 (fst r) = nth_error mem0 (fst r)) by (apply Keep; [exact Lr|intros J; apply Nr; right; auto]).
        split; [|split; [intros _; exact Er2|]].
        - split; [|split].
          + destruct C as (LL & _). lia.
          + intros j J1 J2 J3. apply Keep; [exact J1|]. intros I. apply J3. right. auto.
          + destruct V as (X & E & _). exists X, X. rewrite Er2. auto.
        - exists (l :: F1 ++ Fi' ++ F2). split; [|split].
          + replace (rd mem2 r) with (MMap (Some l)) by (rewrite <- Er; unfold TypedMem.rd, mvar; now rewrite Er2).
            apply at_ents with ms; [rewrite Keep; [exact El|exact Ll|intros J; apply Nl; auto]|].
            apply K.
            * intros j J. apply Keep; [|auto]. apply Ing. subst G. apply in_app_or in J. apply in_or_app.
              destruct J; [auto|right; apply in_or_app; auto].
            * replace m with (rd mem2 (e, [])); [exact Ai'|]. unfold TypedMem.rd, mvar. cbn. rewrite Mo, Ee. reflexivity.
          + inversion Ni' as [|? ? Ne' Ni2]; subst.
            assert (Sub : forall j, In j (F1 ++ Fi' ++ F2) -> In j (F1 ++ Fi ++ F2) \/ length mem0 <= j).
            { intros j J. apply in_app_or in J as [J|J]; [left; apply in_or_app; auto|].
              apply in_app_or in J as [J|J]; [|left; apply in_or_app; right; apply in_or_app; auto].
              destruct (Si' j J) as [I|I]; [left; apply in_or_app; right; apply in_or_app; auto|right; lia]. }
            assert (Nd : NoDup (F1 ++ Fi' ++ F2)).
            { apply (NoDup_mid F1 Fi F2 Fi' (fun j => length mem0 <= j)); auto.
              - intros j J. destruct (Si' j J); [auto|right; lia].
              - intros j J I. specialize (Ing j J). lia. }
            constructor; [intros [J|J]; [apply Nr; left; exact J|destruct (Sub _ J); [apply Nr; right; assumption|lia]]|].
            constructor; [|exact Nd]. intros J. destruct (Sub _ J); [auto|lia].
          + intros j [->|J]; [left; left; reflexivity|]. subst G.
            apply in_app_or in J as [J|J]; [left; right; apply in_or_app; auto|].
            apply in_app_or in J as [J|J]; [|left; right; apply in_or_app; right; apply in_or_app; auto].
            destruct (Si' j J) as [I|I]; [left; right; apply in_or_app; right; apply in_or_app; auto|right; lia]. }
      destruct (post_pre v _ _ _ _ _ _ _ V Q) as (F' & P' & S').
      assert (Er2 : rd mem2 r = MMap (Some l)).
      { unfold TypedMem.rd, mvar. rewrite Keep; [exact Er|exact Lr|intros J; apply Nr; right; auto]. }
      eapply sim_mono; [apply (IH idx2 (mkM d1 mem2 refs1) _ F'); [exact Er2|exact P']|].
      intros (fs2, idx3) b mem' (Eb & Q2'). split; [exact Eb|]. cbn in *.
      destruct Q as (C' & M' & _). eapply post_trans; eauto.
    + rewrite (ents_none _ _ _ _ _ _ En Eg).
      eapply sim_eq; [apply tbind_assoc|]. eapply sim_skip; [reflexivity|reflexivity|]. cbn [m_d m_mem m_refs].
      set (mem1 := mem0 ++ [MCell (mzero t)]). set (e := length mem0).
      assert (Ee : nth_error mem1 e = Some (MCell (mzero t))) by (unfold mem1, e; rewrite nth_error_app2, Nat.sub_diag; [reflexivity|lia]).
      assert (Old : forall j, j < length mem0 -> nth_error mem1 j = nth_error mem0 j) by (intros j J; apply nth_error_app1; exact J).
      assert (Pe : pre mem1 (e, []) t (zero t) []).
      { split; [eexists; split; [exact Ee|exact Logic.I]|]. split.
        - unfold TypedMem.rd, mvar. cbn [fst snd]. rewrite Ee. cbn. apply at_zero.
        - constructor; [auto|constructor]. }
      eapply sim_eq; [apply tbind_assoc|].
      eapply sim_bind; [apply (Hrec t (e, []) Settable idx1 _ [] (mkM d mem1 refs)); exact Pe|].
      intros (x1, idx2) b d1 mem2 refs1 (Eb & Q). cbn [fst snd m_mem] in Eb, Q. subst b.
      destruct Q as (C & _ & Fi' & Ai' & Ni' & Si').
      assert (L1 : length mem1 = S e) by (unfold mem1; rewrite app_length; cbn; unfold e; lia).
      assert (Keep : forall j, j < length mem0 -> nth_error mem2 j = nth_error mem0 j).
      { intros j J. destruct C as (_ & K' & _). rewrite K'; [auto|lia|cbn; unfold e; lia|auto]. }
      assert (New : forall j, In j Fi' -> length mem0 < j).
      { intros j J. destruct (Si' j J) as [[]|I]. unfold e in L1. lia. }
      assert (Er2 : rd mem2 r = MMap (Some l)).
      { unfold TypedMem.rd, mvar. rewrite Keep; [exact Er|exact Lr]. }
      assert (El2 : nth_error mem2 l = Some (MEntries ms)) by (rewrite Keep; auto).
      set (mem3 := upd mem2 l (MEntries (mput ms key (mvar mem2 e)))).
      assert (Oth : forall j, j <> l -> nth_error mem3 j = nth_error mem2 j) by (intros j J; apply nth_error_upd_other; auto).
      assert (El3 : nth_error mem3 l = Some (MEntries (mput ms key (mvar mem2 e)))).
      { apply nth_error_upd_same. destruct C as (LL & _). unfold e in *. lia. }
      assert (Nrl : fst r <> l) by (intros E; apply Nr; left; auto).
      assert (Er3 : rd mem3 r = MMap (Some l)) by (unfold TypedMem.rd, mvar; rewrite Oth by exact Nrl; exact Er2).
      assert (Q : post mem0 r (TyMap t) md (l :: G) (VMap (Some (mput xs key x1))) mem3).
      { assert (Er4 : nth_error mem3 (fst r) = nth_error mem0 (fst r)) by (rewrite Oth by exact Nrl; apply Keep; exact Lr).
        inversion Ni' as [|? ? Ne' Ni2]; subst.
        split; [|split; [intros _; exact Er4|]].
        - split; [|split].
          + unfold mem3. rewrite upd_length. destruct C as (LL & _). lia.
          + intros j J1 J2 J3. rewrite Oth; [apply Keep; exact J1|]. intros ->. apply J3. left. reflexivity.
          + destruct V as (X & E & _). exists X, X. rewrite Er4. auto.
        - exists (l :: G ++ Fi'). split; [|split].
          + rewrite Er3. apply at_ents with (mput ms key (mvar mem2 e)); [exact El3|].
            apply ents_new; [| |exact Eg].
            * replace (mvar mem2 e) with (rd mem2 (e, [])) by reflexivity.
              eapply at_frame; [exact Ai'|]. intros j J. apply Oth. specialize (New j J). lia.
            * eapply ents_frame; [exact En|]. intros j J. rewrite Oth; [apply Keep; auto|]. intros ->. auto.
          + assert (Nd : NoDup (G ++ Fi')).
            { clear - N2 Ni2 Ing New. induction G; [exact Ni2|]. cbn. inversion N2; subst. constructor.
              - intros J. apply in_app_or in J as [J|J]; [auto|]. specialize (New a J). specialize (Ing a (or_introl eq_refl)). lia.
              - apply IHG; auto. intros j J. apply Ing. right. exact J. }
            constructor; [intros [J|J]; [apply Nr; left; exact J|apply in_app_or in J as [J|J]; [apply Nr; right; assumption|specialize (New _ J); lia]]|].
            constructor; [|exact Nd]. intros J. apply in_app_or in J as [J|J]; [auto|specialize (New _ J); lia].
          + intros j [->|J]; [left; left; reflexivity|]. apply in_app_or in J as [J|J]; [left; right; exact J|].
            specialize (New j J). right. lia. }
      destruct (post_pre v _ _ _ _ _ _ _ V Q) as (F' & P' & S').
      assert (Go : sim (tmap_loop by_ rec n t md (mput xs key x1) idx2) (mmap_loop v by_ mrec n t md r idx2) (mkM d1 mem3 refs1)
        (fun a b mem => snd a = b /\ post mem0 r (TyMap t) md (l :: G) (VMap (Some (fst a))) mem)).
      { eapply sim_mono; [apply (IH idx2 (mkM d1 mem3 refs1) _ F'); [exact Er3|exact P']|].
        intros (fs2, idx3) b mem' (Eb & Q2'). split; [exact Eb|]. cbn in *.
        destruct Q as (C' & M' & _). eapply post_trans; eauto. }
      destruct md; [| |apply sim_panic];
        (eapply sim_eq; [apply tbind_assoc|]; eapply sim_skip; [reflexivity|reflexivity|]; cbv beta; cbn [m_mem];
         rewrite Er2; eapply sim_eq; [apply tbind_assoc|]; eapply sim_skip; [reflexivity|reflexivity|];
         unfold mentries; rewrite El2; exact Go).
Qed.

Lemma sim_slice t md md' r n idx s l ms xs F : pre (m_mem s) r (TySlice t) (VSlice (Some xs)) F ->
  rd (m_mem s) r = MSlice (Some l) -> mvar (m_mem s) l = MArr ms ->
  sim (let! (xs, idx) := tarray_loop rec urec n t md' xs idx in ret (VSlice (Some xs), idx))
    (marray_loop v mrec urec n t md' r 0 (length ms) idx) s (done (m_mem s) r (TySlice t) md F).
Proof.
  intros (V & A & N) Er Em. rewrite Er in A. inversion A as [| | | | | | |t' l' ms' xs' G El As| | | | | |]; subst.
  rewrite (mvar_is _ _ _ El) in Em. injection Em as ->.
  inversion N as [|? ? Nr N1]; subst.
  assert (Nrl : l <> fst r) by (intros E; apply Nr; left; auto).
  assert (Nrg : ~ In (fst r) G) by (intros E; apply Nr; right; auto).
  assert (Th : forall mem', chg (m_mem s) (l, []) G mem' -> chg (m_mem s) r (l :: G) mem' /\
     nth_error mem' (fst r) = nth_error (m_mem s) (fst r) /\ rd mem' r = rd (m_mem s) r).
  { intros mem' C. apply (chg_through v _ _ _ l G _ V Nrl Nrg); [left; reflexivity|intros j J; right; exact J|exact C]. }
  eapply sim_post; [apply (sim_array t md' r (l, []) n 0 idx s ms xs G)|].
  - exists (MArr ms). split; [exact El|exact Logic.I].
  - unfold TypedMem.rd, mvar. cbn. now rewrite El.
  - exact As.
  - exact N1.
  - intros d mem refs ms' j C E L J. destruct (Th _ C) as (_ & _ & E2). unfold index_ref, tbind, get_mem. cbn [m_mem].
    rewrite E2, Er. unfold TypedMem.rd in E. cbn in E. rewrite E. destruct (Nat.ltb_spec j (length ms')); [reflexivity|lia].
  - intros (xs2, idx2) b mem (Eb & C & Mo & ms2 & F' & Er2 & L2 & A2 & N2 & S2). cbn in Eb. subst b.
    eexists. split; [reflexivity|]. split; [reflexivity|]. destruct (Th _ C) as (C' & K & E2).
    cbn in *. split; [exact C'|]. split; [auto|]. exists (l :: F'). rewrite E2, Er. split; [|split].
    + apply at_slice with ms2; [|now rewrite L2]. destruct C as (_ & _ & X & X' & EX & EX' & _). cbn in EX'.
      rewrite EX'. unfold TypedMem.rd, mvar in Er2. cbn in Er2. rewrite EX' in Er2. now subst.
    + constructor; [|exact N2]. intros [J|J]; [auto|]. destruct (S2 _ J) as [I|I]; [auto|].
      pose proof (vref_in v _ _ V). lia.
    + intros j [->|J]; [left; left; reflexivity|]. destruct (S2 _ J); [left; right; assumption|auto].
Qed.

Lemma sim_arr k t md r n idx s ms xs F : pre (m_mem s) r (TyArr k t) (VArr xs) F -> rd (m_mem s) r = MArr ms ->
  sim (let! (xs, idx) := tarray_loop rec urec n t md xs idx in ret (VArr xs, idx))
    (marray_loop v mrec urec n t md r 0 (length ms) idx) s (done (m_mem s) r (TyArr k t) md F).
Proof.
  intros (V & A & N) Er. rewrite Er in A. inversion A as [| | | | | | | |? ? ? ? ? As| | | | |]; subst.
  eapply sim_post; [apply (sim_array t md r r n 0 idx s ms xs F); auto|].
  - intros d mem refs ms' j C E L J. unfold index_ref, tbind, get_mem. cbn [m_mem].
    rewrite E. destruct (Nat.ltb_spec j (length ms')); [reflexivity|lia].
  - intros (xs2, idx2) b mem (Eb & C & Mo & ms2 & F' & Er2 & L2 & A2 & N2 & S2). cbn in Eb. subst b.
    eexists. split; [reflexivity|]. split; [reflexivity|]. cbn in *. split; [exact C|]. split; [auto|]. exists F'.
    rewrite Er2. split; [|split; [exact N2|exact S2]]. constructor. now rewrite L2.
Qed.

Lemma done_trans mem r ty md F mem1 F1 : vref mem r -> chg mem r F mem1 ->
  (md <> Settable -> nth_error mem1 (fst r) = nth_error mem (fst r)) ->
  (forall l, In l F1 -> In l F \/ length mem <= l) -> forall a b mem2, done mem1 r ty md F1 a b mem2 ->
  done mem r ty md F a b mem2.
Proof. intros V C M S a b mem2 (E & P). split; [exact E|]. eapply post_trans; eauto. Qed.

Lemma sim_decodeArray idx ln ty md r s cur F : pre (m_mem s) r ty cur F ->
  sim (tdecodeArray by_ rec urec idx ln ty cur md) (mdecodeArray v by_ mrec urec idx ln ty r md) s
    (done (m_mem s) r ty md F).
Proof.
  intros P. unfold tdecodeArray, mdecodeArray.
  destruct ((ln <? 0) || (maxInt32 <? ln))%Z; [apply sim_fail|].
  destruct (blen by_ <? Z.of_nat idx + ln)%Z; [apply sim_fail|].
  cbv zeta. eapply sim_skip; [reflexivity|reflexivity|]. cbv beta.
  assert (Mk : forall t, ty = TySlice t ->
    sim (Typed.set md cur ;; log_make (Z.to_nat ln) (length by_ - idx) ;;
         let! (xs, idx) := tarray_loop rec urec (Z.to_nat ln) t Settable (repeat (zero t) (Z.to_nat ln)) idx in
         ret (VSlice (Some xs), idx))
      (do! _ := mcheck md in
       do! _ := lift_ (log_make (Z.to_nat ln) (length by_ - idx)) in
       do! l := new_cell (MCell (MArr (repeat (mzero t) (Z.to_nat ln)))) in
       do! _ := write v r (MSlice (Some l)) in
       marray_loop v mrec urec (Z.to_nat ln) t Settable r 0 (Z.to_nat ln) idx) s (done (m_mem s) r ty md F)).
  { intros t ->. destruct md; [|apply sim_panic|apply sim_panic].
    eapply (sim_bind _ _ _ _ _ _ _ _ _ (fun _ _ mem => mem = m_mem s)); [apply sim_ret; reflexivity|].
    intros _ _ d1 mem refs1 ->. apply sim_lift_bind. intros _ d2 refs2. cbn [m_mem].
    eapply sim_skip; [reflexivity|reflexivity|]. eapply sim_skip; [apply write_eq|reflexivity|]. cbn [m_mem m_d m_refs].
    pose proof P as (V & _ & _).
    pose proof (new_slice t (repeat (mzero t) (Z.to_nat ln)) (repeat (zero t) (Z.to_nat ln)) (m_mem s) r cur F P) as Q.
    rewrite repeat_length in Q. specialize (Q (ats_zero v _ _ _)).
    set (mem1 := after_write v _ r _) in *.
    destruct (post_pre v _ _ _ _ _ _ _ V Q) as (F' & P' & S'). destruct Q as (C & M & _).
    eapply sim_mono; [|apply (done_trans (m_mem s) r (TySlice t) Settable F mem1 F' V C M S')].
    pose proof (sim_slice t Settable Settable r (Z.to_nat ln) idx (mkM d2 mem1 refs2) (length (m_mem s))
      (repeat (mzero t) (Z.to_nat ln)) (repeat (zero t) (Z.to_nat ln)) F' P') as G. rewrite repeat_length in G.
    apply G; cbn [m_mem].
    - apply rd_after. now apply vref_new.
    - apply mvar_is. unfold mem1. rewrite after_other; [|pose proof (vref_in v _ _ V); lia].
      rewrite nth_error_app2, Nat.sub_diag; [reflexivity|lia]. }
  pose proof P as (V & A & N). remember (rd (m_mem s) r) as x eqn:Er. symmetry in Er.
  destruct A; try apply sim_fail.
  - apply (Mk t eq_refl).
  - rewrite (mvar_is _ _ _ H). destruct xs as [|x xs], ms as [|m ms]; try (inversion H0; fail).
    + apply (Mk t eq_refl).
    + apply (sim_slice t md (md_elem md) r _ idx s l (m :: ms) (x :: xs) (l :: F) P Er (mvar_is _ _ _ H)).
  - apply (sim_arr n t md r _ idx s ms xs F P Er).
Qed.

Lemma ptr_pre mem r t l x F : pre mem r (TyPtr t) (VPtr (Some x)) F -> rd mem r = MPtr (Some l) ->
  exists G, F = l :: G /\ pre mem (l, []) t x G /\
  forall md md' x' mem', post mem (l, []) t md' G x' mem' -> post mem r (TyPtr t) md F (VPtr (Some x')) mem'.
Proof.
  intros (V & A & N) Er. rewrite Er in A. inversion A as [| | | | | | | | | | | |t' l' m x' G El Am|]; subst.
  exists G. split; [reflexivity|]. inversion N as [|? ? Nr N1]; subst.
  assert (Nrl : l <> fst r) by (intros E; apply Nr; left; auto).
  assert (Nrg : ~ In (fst r) G) by (intros E; apply Nr; right; auto).
  split.
  - split; [exists m; split; [exact El|exact Logic.I]|]. split; [|exact N1].
    unfold TypedMem.rd, mvar. cbn. now rewrite El.
  - intros md md' x' mem' (C & Mo & F' & A' & N' & S').
    destruct (chg_through v _ _ (l :: G) l G mem' V Nrl Nrg (or_introl eq_refl) (fun j J => or_intror J) C) as (C' & K & E2).
    split; [exact C'|]. split; [auto|]. exists (l :: F'). rewrite E2, Er. split; [|split].
    + destruct C as (_ & _ & X & X' & EX & EX' & _). cbn in EX'.
      apply at_ptr with X'; [exact EX'|]. unfold TypedMem.rd, mvar in A'. cbn in A'. now rewrite EX' in A'.
    + constructor; [|exact N']. intros [J|J]; [auto|]. destruct (S' _ J) as [I|I]; [auto|].
      pose proof (vref_in v _ _ V). lia.
    + intros j [->|J]; [left; left; reflexivity|]. destruct (S' _ J); [left; right; assumption|auto].
Qed.

Lemma new_ptr t mem r cur F : pre mem r (TyPtr t) cur F ->
  post mem r (TyPtr t) Settable F (VPtr (Some (zero t)))
    (after_write v (mem ++ [MCell (mzero t)]) r (MPtr (Some (length mem)))).
Proof.
  intros (V & _ & N). pose proof (vref_in v _ _ V) as L.
  apply (post_store v mem r _ Settable F _ _ _ [length mem] V (chg_new v mem r F _ V) eq_refl).
  - intros l [<-|[]]. right. lia.
  - constructor; [intros [H|[]]; lia|]. constructor; [auto|constructor].
  - apply at_ptr with (mzero t); [rewrite nth_error_app2, Nat.sub_diag; [reflexivity|lia]|]. apply at_zero.
Qed.
Lemma new_map t mem r cur F : pre mem r (TyMap t) cur F ->
  post mem r (TyMap t) Settable F (VMap (Some []))
    (after_write v (mem ++ [MEntries []]) r (MMap (Some (length mem)))).
Proof.
  intros (V & _ & N). pose proof (vref_in v _ _ V) as L.
  apply (post_store v mem r _ Settable F _ _ _ [length mem] V (chg_new v mem r F _ V) eq_refl).
  - intros l [<-|[]]. right. lia.
  - constructor; [intros [H|[]]; lia|]. constructor; [auto|constructor].
  - apply at_map with []; [rewrite nth_error_app2, Nat.sub_diag; [reflexivity|lia]|reflexivity|constructor].
Qed.

Lemma sim_decodeHash ty : forall idx ln md r s cur F, pre (m_mem s) r ty cur F ->
  sim (tdecodeHash v by_ rec urec ty idx ln cur md) (mdecodeHash v by_ mrec urec ty idx ln r md) s
    (done (m_mem s) r ty md F).
Proof.
  induction ty; intros idx ln md r s cur F P; cbn [tdecodeHash mdecodeHash];
    (destruct ((ln <? 0) || (maxInt32 <? ln))%Z; [apply sim_fail|]);
    (destruct (blen by_ <? Z.of_nat idx + 2 * ln)%Z; [apply sim_fail|]);
    (eapply sim_skip; [reflexivity|reflexivity|]); try apply sim_fail; cbv zeta; fold (rd (m_mem s) r);
    pose proof P as (V & A & N).
  - inversion A as [| | | | | | | | |t'|t' l ms xs G El Ek As| | |]; subst;
    match goal with H : _ = TypedMem.rd _ _ _ |- _ => symmetry in H; rename H into Er end.
    + destruct md; [|apply sim_panic|apply sim_panic].
      eapply sim_bind with (P := fun _ _ mem => mem = after_write v (m_mem s ++ [MEntries []]) r (MMap (Some (length (m_mem s))))).
      { unf. give. reflexivity. }
      intros _ _ d mem refs ->. set (mem1 := after_write v _ r _).
      pose proof (new_map ty (m_mem s) r _ [] P) as Q. fold mem1 in Q.
      destruct (post_pre v _ _ _ _ _ _ _ V Q) as (F' & P' & S'). destruct Q as (C & M & _).
      assert (Er1 : rd mem1 r = MMap (Some (length (m_mem s)))) by (apply rd_after; now apply vref_new).
      eapply sim_post; [apply (sim_map ty Settable r _ (Z.to_nat ln) idx (mkM d mem1 refs) [] F' Er1 P')|].
      intros (m, idx1) b mem (Eb & Q). eexists. split; [reflexivity|]. split; [exact Eb|]. cbn [fst snd m_mem] in *.
      eapply post_trans; eauto.
    + eapply sim_bind with (P := fun _ _ mem => mem = m_mem s); [apply sim_ret; reflexivity|].
      intros _ _ d mem refs ->.
      eapply sim_post; [apply (sim_map ty md r l (Z.to_nat ln) idx (mkM d (m_mem s) refs) xs (l :: G) Er P)|].
      intros (m, idx1) b mem (Eb & Q). eexists. split; [reflexivity|]. split; [exact Eb|]. exact Q.
  - inversion A as [| | | | | | | | | | |t'|t' l m x G El Am|]; subst;
    match goal with H : _ = TypedMem.rd _ _ _ |- _ => symmetry in H; rename H into Er end.
    + destruct md; [|apply sim_panic|apply sim_panic].
      eapply sim_bind with (P := fun _ l mem => l = length (m_mem s) /\
        mem = after_write v (m_mem s ++ [MCell (mzero ty)]) r (MPtr (Some (length (m_mem s))))).
      { unf. give. auto. }
      intros _ l d mem refs (-> & ->). set (mem1 := after_write v _ r _).
      pose proof (new_ptr ty (m_mem s) r _ [] P) as Q. fold mem1 in Q.
      destruct (post_pre v _ _ _ _ _ _ _ V Q) as (F' & P' & S'). destruct Q as (C & M & _).
      assert (Er1 : rd mem1 r = MPtr (Some (length (m_mem s)))) by (apply rd_after; now apply vref_new).
      destruct (ptr_pre _ _ _ _ _ _ P' Er1) as (G & EF & P1 & Back).
      eapply sim_post; [apply (IHty idx ln Settable (length (m_mem s), []) (mkM d mem1 refs) _ G P1)|].
      intros (m, idx1) b mem (Eb & Q). eexists. split; [reflexivity|]. split; [exact Eb|]. cbn [fst snd m_mem] in *.
      eapply post_trans with (F1 := F'); eauto.
    + destruct (ptr_pre _ _ _ _ _ _ P Er) as (G' & EF & P1 & Back). injection EF as <-.
      eapply sim_bind with (P := fun _ b mem => b = l /\ mem = m_mem s); [apply sim_ret; auto|].
      intros _ b d mem refs (-> & ->).
      eapply sim_post; [apply (IHty idx ln (md_elem md) (l, []) (mkM d (m_mem s) refs) x G P1)|].
      intros (m', idx1) b mem (Eb & Q). eexists. split; [reflexivity|]. split; [exact Eb|]. cbn [fst snd m_mem] in *.
      eapply Back; eassumption.
  - inversion A as [| | | | | | | | | | | | |id' ms fs G Af]; subst;
    match goal with H : _ = TypedMem.rd _ _ _ |- _ => symmetry in H; rename H into Er end.
    eapply sim_post; [apply (sim_struct id md r (Z.to_nat ln) idx s fs F P)|].
    intros (m', idx1) b mem (Eb & Q). eexists. split; [reflexivity|]. split; [exact Eb|]. exact Q.
Qed.

Lemma sim_stop A B md cur e s (P : A -> B -> memory -> Prop) :
  sim (Typed.set md cur ;; fail e) (do! _ := mcheck md in tfail e) s P.
Proof. destruct md; [apply sim_fail|apply sim_panic|apply sim_panic]. Qed.

Lemma sim_freeze ty r md idx ov s cur F : pre (m_mem s) r ty cur F ->
  sim (tdecodeFreeze c by_ urec ty cur md idx ov) (mdecodeFreeze c v by_ urec ty r md idx ov) s (done (m_mem s) r ty md F).
Proof.
  intros P. unfold tdecodeFreeze, mdecodeFreeze. apply sim_lift_bind. intros (cls, idx1) d refs.
  destruct (Nat.leb (length by_) (idx1 + 1)); [apply sim_fail|].
  destruct (nth_error by_ idx1) as [b0|]; [|apply sim_crash].
  destruct (nth_error by_ (idx1 + 1)) as [b1|]; [|apply sim_crash].
  destruct (negb ((b2n b0 =? typeREFN) && (b2n b1 =? typeARRAY))%N); [apply sim_fail|].
  apply sim_lift_bind. intros l d1 refs1. apply sim_lift_bind. intros idx2 d2 refs2.
  apply sim_lift_bind. intros x d3 refs3. cbn [m_mem].
  destruct x; try apply sim_fail.
  destruct (negb (Nat.eqb _ 1)); [apply sim_fail|]. apply sim_lift_bind. intros e d4 refs4. cbn [m_mem].
  destruct e; try apply sim_fail.
  destruct (d_perl c).
  { apply sim_lift_bind. intros l2 d5 refs5. cbn [m_mem]. 
    apply (sim_iface ty md _ idx2 (mkM d5 (m_mem s) refs5) r cur F P). }
  eapply sim_skip; [reflexivity|reflexivity|]. fold (rd (m_mem s) r). cbn [m_mem].
  pose proof P as (V & A & N).
  destruct ty; try (inversion A; subst;
    match goal with H : _ = TypedMem.rd _ _ _ |- _ => clear H end; apply sim_stop).
  - exact Logic.I.
  - inversion A as [| | | | | |t'|t' l' ms xs G El As| | | | | |]; subst;
      match goal with H : _ = TypedMem.rd _ _ _ |- _ => symmetry in H; rename H into Er end.
    + destruct (match ty with TyInt KUint8 => true | _ => false end) eqn:Et.
      2:{ destruct ty as [k| | | | | | | | | |]; try destruct k; try discriminate; apply sim_stop. }
      destruct ty as [k| | | | | | | | | |]; try destruct k; try discriminate.
      destruct md; [|apply sim_panic|apply sim_panic]. unf. give. split; [reflexivity|]. cbn.
      apply (new_slice (TyInt KUint8) _ _ _ r _ _ P). rewrite map_length. apply ats_bytes.
    + destruct ty as [k| | | | | | | | | |]; try destruct k; apply sim_stop.
  - inversion A as [| | | | | | | | | | |t'|t' l' m x G El Am|]; subst;
      match goal with H : _ = TypedMem.rd _ _ _ |- _ => symmetry in H; rename H into Er end.
    + destruct md; [|apply sim_panic|apply sim_panic]. unf. do 2 eexists. reflexivity.
    + apply sim_stop.
Qed.

Lemma sim_undef k ty r md idx s cur F : pre (m_mem s) r ty cur F ->
  sim
    (if d_perl c then let! x := k in let! x := set_iface ty md x in ret (x, idx)
     else match ty with
          | TyPtr _ | TyMap _ | TySlice _ => let! x := Typed.set md (zero ty) in ret (x, idx)
          | _ => ret (cur, idx)
          end)
    (if d_perl c then do! x := lift_ k in do! _ := mset_iface v ty md r x in tret idx
     else match ty with
          | TyPtr _ | TyMap _ | TySlice _ => do! _ := mset v md r (mzero ty) in tret idx
          | _ => tret idx
          end) s (done (m_mem s) r ty md F).
Proof.
  intros P. destruct (d_perl c).
  - apply sim_lift_bind. intros x d refs. apply (sim_iface ty md x idx (mkM d (m_mem s) refs) r cur F P).
  - destruct ty; try (apply sim_ret; split; [reflexivity|now apply post_refl]);
      apply (sim_plain _ _ _ _ s _ _ _ _ _ P); constructor.
Qed.
Lemma sim_refp ty md r idx isp s P : sim (decodeRefpTyped by_ idx isp) (mdecodeRefp c v by_ ty md r idx isp) s P.
Proof.
  unfold decodeRefpTyped, mdecodeRefp. apply sim_lift_bind. intros (offs, sz) d refs. cbv zeta.
  destruct ((offs <? 0) || (Z.of_nat (idx + sz) <=? offs))%Z; [apply sim_fail|].
  apply sim_lift_bind. intros [l|] d1 refs1; [exact Logic.I|apply sim_fail].
Qed.
Lemma sim_obj ty md g idx l s r cur F : pre (m_mem s) r ty cur F ->
  sim (let! x := set_iface ty md g in let! idx := urec idx l in ret (x, idx))
    (do! _ := mset_iface v ty md r g in lift_ (urec idx l)) s (done (m_mem s) r ty md F).
Proof.
  intros P. destruct ty; cbn [set_iface mset_iface]; try apply sim_panic. destruct P as (V & _ & N).
  eapply (sim_set v _ _ md _ _ _ _ s r TyIface F []); [exact V|reflexivity|intros ? []| |constructor|].
  - constructor; [auto|constructor].
  - intros d mem refs P. eapply sim_post; [apply sim_lift|]. intros a b mem' (<- & ->).
    eexists. split; [reflexivity|]. split; [reflexivity|exact P].
Qed.

Lemma sim_tag k ty r md idx s cur F : pre (m_mem s) r ty cur F ->
  sim (tdecode_tag c v by_ ibuf ishift rec urec k ty cur md idx) (mdecode_tag c v by_ ibuf ishift mrec urec k ty r md idx) s
    (done (m_mem s) r ty md F).
Proof.
  intros P. destruct k; cbn [tdecode_tag mdecode_tag];
    try (apply (sim_setInt _ _ _ _ s _ _ _ P)); try (apply (sim_setBool _ _ _ _ s _ _ _ P));
    try apply sim_refp; try (apply (sim_freeze _ _ _ _ _ s _ _ P));
    try (apply sim_lift_bind; intros a d refs);
    try (apply (sim_setInt _ _ _ _ (mkM d (m_mem s) refs) _ _ _ P));
    try (apply (sim_setFloat _ _ _ _ (mkM d (m_mem s) refs) _ _ _ P));
    try (destruct a as (a, sz));
    try (apply (sim_setInt _ _ _ _ (mkM d (m_mem s) refs) _ _ _ P));
    try (apply (sim_decodeHash _ _ _ _ _ s _ _ P));
    try (apply (sim_decodeHash _ _ _ _ _ (mkM d (m_mem s) refs) _ _ P));
    try (apply (sim_decodeArray _ _ _ _ _ s _ _ P));
    try (apply (sim_decodeArray _ _ _ _ _ (mkM d (m_mem s) refs) _ _ P));
    try (apply (Hrec _ _ _ _ _ _ s P));
    try apply sim_fail.
  - apply sim_lift_bind. intros (w, idx1) d1 refs1. first [apply (sim_setString ty md w idx1 (mkM d1 (m_mem s) refs1) r cur F P)|apply (sim_setBinary ty md cur w idx1 (mkM d1 (m_mem s) refs1) r F P)].
  - apply sim_lift_bind. intros (w, idx1) d1 refs1. first [apply (sim_setString ty md w idx1 (mkM d1 (m_mem s) refs1) r cur F P)|apply (sim_setBinary ty md cur w idx1 (mkM d1 (m_mem s) refs1) r F P)].
  - apply (sim_setBinary ty md cur a sz (mkM d (m_mem s) refs) r F P).
  - apply (sim_undef _ ty r md idx s cur F P).
  - apply (sim_undef _ ty r md idx s cur F P).
  - destruct (Nat.ltb 0 a); [apply sim_fail|]. apply sim_lift_bind. intros (offs, sz) d1 refs1.
    destruct ((offs <? 0) || (Z.of_nat idx <=? offs))%Z; [apply sim_fail|].
    apply sim_lift_bind. intros _ d2 refs2. cbn [m_mem].
    eapply sim_bind with (P := fun x _ mem => post (m_mem s) r ty md F (fst x) mem);
      [|intros x b d3 mem refs3 Q; apply sim_ret; split; [reflexivity|exact Q]].
    pose proof (Hrec ty r md (Z.to_nat offs) cur F (mkM d2 (m_mem s) refs2) P) as H.
    unfold sim in *. cbn [m_d] in *. destruct (rec ty cur md (Z.to_nat offs) d2) as [[x|e|e| |] d3]; auto.
    + destruct H as (b & mem & refs3 & -> & H). give. exact (proj2 H).
    + destruct H as (mem & refs3 & ->). do 2 eexists. reflexivity.
    + destruct H as (mem & refs3 & ->). do 2 eexists. reflexivity.
    + destruct H as (mem & refs3 & ->). do 2 eexists. reflexivity.
  - destruct (d_perl c); [|apply (Hrec _ _ _ _ _ _ s P)].
    apply sim_lift_bind. intros l d refs. apply (sim_obj ty md _ idx l (mkM d (m_mem s) refs) r cur F P).
  - apply sim_lift_bind. intros idx1 d1 refs1. apply sim_lift_bind. intros x d2 refs2.
    apply (sim_iface ty md x idx1 (mkM d2 (m_mem s) refs2) r cur F P).
  - destruct (d_perl c); [|apply (Hrec _ _ _ _ _ _ (mkM d (m_mem s) refs) P)].
    apply sim_lift_bind. intros l d1 refs1. apply (sim_obj ty md _ _ l (mkM d1 (m_mem s) refs1) r cur F P).
  - destruct (d_perl c); [|apply (Hrec _ _ _ _ _ _ (mkM d (m_mem s) refs) P)].
    apply sim_lift_bind. intros l d1 refs1. apply (sim_obj ty md _ _ l (mkM d1 (m_mem s) refs1) r cur F P).
Qed.

Lemma sim_body ty r md idx s cur F : pre (m_mem s) r ty cur F ->
  sim (tdecode_body c v by_ ibuf ishift rec urec ty cur md idx) (mdecode_body c v by_ ibuf ishift mrec urec ty r md idx) s
    (done (m_mem s) r ty md F).
Proof.
  intros P. unfold tdecode_body, mdecode_body. destruct (Nat.leb (length by_) idx); [apply sim_fail|].
  eapply sim_skip; [reflexivity|reflexivity|]. fold (rd (m_mem s) r).
  assert (Gen : sim
     (match skip_pads (skipn idx by_) idx with
      | None => fail ETruncated
      | Some (tagb, idx) =>
          (if tracked_bit tagb then poison idx else ret tt) ;;
          tdecode_tag c v by_ ibuf ishift rec urec (tag_kind (untrack tagb)) ty cur md (S idx)
      end)
     (match skip_pads (skipn idx by_) idx with
      | None => tfail ETruncated
      | Some (tagb, idx) =>
          do! _ := (if tracked_bit tagb then mtrack idx r ty md else tret tt) in
          mdecode_tag c v by_ ibuf ishift mrec urec (tag_kind (untrack tagb)) ty r md (S idx)
      end) s (done (m_mem s) r ty md F)).
  { destruct (skip_pads (skipn idx by_) idx) as [(tagb, idx1)|]; [|apply sim_fail].
    eapply sim_bind with (P := fun _ _ mem => mem = m_mem s).
    - destruct (tracked_bit tagb); [|apply sim_ret; reflexivity]. unfold poison, mtrack.
      apply sim_lift_bind. intros l d refs.
      unfold sim, tbind, lift_, track. cbn. give. reflexivity.
    - intros _ _ d mem refs ->. apply (sim_tag _ _ _ _ _ (mkM d (m_mem s) refs) _ _ P). }
  pose proof P as (V & A & N).
  destruct ty; try (inversion A; subst; exact Gen).
  inversion A as [| | | | |g| | | | | | | |]; subst.
  match goal with H : _ = TypedMem.rd _ _ _ |- _ => symmetry in H; rename H into Er end.
  destruct g; try exact Gen.
  apply sim_lift_bind. intros l d refs. apply sim_lift_bind. intros idx1 d1 refs1.
  apply sim_lift_bind. intros x d2 refs2. cbn [m_mem].
  destruct x; try (apply (sim_plain _ _ _ _ (mkM d2 (m_mem s) refs2) _ _ _ _ _ P); constructor).
  apply sim_ret. split; [reflexivity|]. now apply post_refl.
Qed.
End Rec.

Theorem tdecode_mem fuel : forall ty r md idx cur F s, pre (m_mem s) r ty cur F ->
  sim (tdecode c v by_ ibuf ishift fuel ty cur md idx) (mdecode c v by_ ibuf ishift fuel ty r md idx) s
    (done (m_mem s) r ty md F).
Proof.
  induction fuel as [|fuel IH]; intros; [exact Logic.I|]. cbn [tdecode mdecode]. apply sim_body; assumption.
Qed.
End Sim.

Section Top.
Variable k : codecs.
Variable c : dconfig.
Variable v : goenv.

Lemma sim_top b ib ty r cur F s : pre v (m_mem s) r ty cur F ->
  sim (unmarshal_typed_raw k c v b ib ty cur) (unmarshal_mem_raw k c v b ib ty r) s
    (fun x _ mem => post v (m_mem s) r ty Settable F x mem).
Proof.
  intros P. unfold unmarshal_typed_raw, unmarshal_mem_raw. apply sim_lift_bind. intros h d refs.
  apply sim_lift_bind. intros dec d1 refs1. cbv zeta.
  destruct ((Z.of_nat (length b) <? wrap64 (Z.of_nat headerSize + h_suffixSize h)) ||
            (wrap64 (Z.of_nat headerSize + h_suffixSize h) <? 0))%Z; [apply sim_fail|].
  unfold unmarshal_tbody, unmarshal_mbody. cbn [m_mem].
  eapply sim_bind with (P := fun x y mem => x = y /\ mem = m_mem s).
  - destruct dec as [dk|]; [|apply sim_ret; auto].
    destruct (slice_from b _) as [z0|]; [|apply sim_crash]. apply sim_lift_bind. intros z d2 refs2.
    apply sim_lift_bind. intros l d3 refs3. apply sim_ret. auto.
  - intros (b1, ib1) (b2, ib2) d2 mem refs2 (E & ->). injection E as <- <-.
    apply sim_lift_bind. intros _ d3 refs3. cbn [m_mem].
    destruct (h_version h =? 1)%N.
    + eapply sim_bind; [apply (tdecode_mem c v b1 ib1 0 _ ty r Settable _ cur F (mkM d3 (m_mem s) refs3)); exact P|].
      intros x y d4 mem refs4 (_ & Q). apply sim_ret. exact Q.
    + destruct (Nat.eqb _ 0); [apply sim_crash|]. destruct (slice_from b1 _) as [by_|]; [|apply sim_crash].
      eapply sim_bind; [apply (tdecode_mem c v by_ ib1 _ _ ty r Settable _ cur F (mkM d3 (m_mem s) refs3)); exact P|].
      intros x y d4 mem refs4 (_ & Q). apply sim_ret. exact Q.
Qed.

Theorem unmarshal_mem_tree h mem b ib ty l m x F : nth_error mem l = Some (MCell m) -> at_ v mem ty m x F ->
  NoDup (l :: F) ->
  match unmarshal_typed k c v h b ib ty x with
  | Ok (h', y) => exists mem', unmarshal_mem k c v h mem b ib ty (l, []) = (Ok (h', mem'), mem') /\
      holds v mem' l ty y /\
      (forall l', l' < length mem -> ~ In l' (l :: F) -> nth_error mem' l' = nth_error mem l')
  | Err e => fst (unmarshal_mem k c v h mem b ib ty (l, [])) = Err e
  | Panic e => fst (unmarshal_mem k c v h mem b ib ty (l, [])) = Panic e
  | Crash => fst (unmarshal_mem k c v h mem b ib ty (l, [])) = Crash
  | NoFuel => True
  end.
Proof.
  intros E A N.
  assert (P : pre v mem (l, []) ty x F).
  { split; [exists m; split; [exact E|exact Logic.I]|]. split; [|exact N]. unfold rd, mvar. cbn. now rewrite E. }
  pose proof (sim_top b ib ty (l, []) x F (mkM (mkDState h [] 0 []) mem []) P) as S.
  unfold sim in S. unfold unmarshal_typed, unmarshal_mem. cbn [m_d] in S.
  destruct (unmarshal_typed_raw k c v b ib ty x (mkDState h [] 0 [])) as [[y|e|e| |] d]; cbn [recovered bind]; [| | | |exact Logic.I].
  - destruct S as (u & mem' & refs & -> & C & _ & F' & A' & N' & S'). cbn [recovered bind m_d m_mem]. exists mem'. split; [reflexivity|]. split.
    + destruct C as (_ & _ & X & X' & _ & EX' & _). cbn in EX'. exists X', F'. split; [exact EX'|]. split; [|exact N'].
      unfold rd, mvar in A'. cbn in A'. now rewrite EX' in A'.
    + intros l' L I. destruct C as (_ & K & _). apply K; [exact L| |]; cbn; intros J; apply I; cbn; auto.
  - destruct S as (mem' & refs & ->). reflexivity.
  - destruct S as (mem' & refs & ->). reflexivity.
  - destruct S as (mem' & refs & ->). reflexivity.
Qed.
End Top.
