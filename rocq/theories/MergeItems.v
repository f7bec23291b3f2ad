(** Merging keeps the data: the items of a document are found again in the merged document. *)
From Verif Require Import Base BaseFacts SpecVarint Varint VarintFacts Tags Codecs Encode Compress Header
  Spec GrammarFacts GoSlice RedocFacts Merge SpecMerge MergeFacts.
From Coq Require Import ZifyBool ZifyNat ZifyN.
Ltac Zify.zify_post_hook ::= Z.div_mod_to_equations.

Section Items.
Variable w : mworld.
Variable g : mconfig.
Variable d : mdoc.
(** the first six bytes of the result *)
Variable hd : bytes.
Notation buf := (md_buf d).
Notation src := (x00 :: md_buf d).
(** the dialect of the document and of the result *)
Variable start lo : nat.
Variable mx : N.
Variable ev : bool.
Variable nest : cmode.
Variable frz : bytes -> bytes -> Prop.
Notation gs := (mkDialect start mx ev nest true frz).
Notation gm := (mkDialect lo mx ev nest true frz).
Hypothesis Hlen : (Z.of_nat (length buf) < 2147483647)%Z.
Hypothesis Hded : g_dedupe g = false.

(** the tables point at strings of the merged document *)
Definition tables (st : mstate) : Prop :=
  (forall v o, assoc v (s_str st) = Some o -> refers gm (stv st) o /\ exists u e, strlit gm (stv st) o u v e) /\
  (forall v o, assoc v (s_obj st) = Some o -> refers gm (stv st) o /\ exists u e, strlit gm (stv st) o u v e) /\
  (forall off t b, tfind off (s_ttab st) = Some t -> nth_error src off = Some b -> ~ pad_byte b ->
     forall u s e, strlit gs src off u s e -> refers gm (stv st) t /\ exists u' e', strlit gm (stv st) t u' s e').

Definition ok (st : mstate) : Prop := good hd st /\ tables st /\ lo <= length (stv st).

(** the rest of the run, from a state at which [p] has been reached *)
Definition at_pos (fin st : mstate) (p : nat) (c : N) (rest : list N) : Prop :=
  runs_to w g d fin st /\ ok st /\ S (s_idx st) = p /\ stk (s_stack st) c rest.

Definition Mitem (p : nat) (dd : data) (p' : nat) : Prop :=
  forall fin st c rest, at_pos fin st p c rest -> ~ zero c -> dedup g c = false ->
  exists st', at_pos fin st' p' (N.pred c) rest /\ extends (stv st) (stv st') /\
    item gm (stv st') CKeys (length (stv st)) dd (length (stv st')).

Definition Mkey (p : nat) (s : bytes) (p' : nat) : Prop :=
  forall fin st c rest, at_pos fin st p c rest -> ~ zero c -> dedup g c = true ->
  exists st', at_pos fin st' p' (N.pred c) rest /\ extends (stv st) (stv st') /\
    stringish gm (stv st') true (length (stv st)) s (length (stv st')).

Lemma extends_refl (a : bytes) : extends a a.
Proof. exists []. now rewrite app_nil_r. Qed.
Lemma extends_trans (a b c : bytes) : extends a b -> extends b c -> extends a c.
Proof. intros [x ->] [y ->]. exists (x ++ y). now rewrite app_assoc. Qed.
Lemma extends_app (a b : bytes) : extends a (a ++ b).
Proof. now exists b. Qed.
Lemma extends_len (a b : bytes) : extends a b -> length a <= length b.
Proof. intros [x ->]. rewrite app_length. lia. Qed.

Lemma refers_ext a b n : extends a b -> n < length a -> refers gm a n -> refers gm b n.
Proof.
  intros [x ->] L [T1 T2]. split; [exact T1|]. intros D c Hc. rewrite nth_error_app1 in Hc by exact L. eauto.
Qed.
Lemma refers_lit a b n u s e : extends a b -> strlit gm a n u s e -> refers gm a n -> refers gm b n.
Proof. intros X H. apply strlit_ends in H. apply refers_ext; [exact X|lia]. Qed.
Lemma refers_here a b l : lo <= length a -> ~ pad_byte b -> refers gm (a ++ b :: l) (length a).
Proof.
  intros L N. split; [exact L|]. intros _ c. rewrite nth_error_app2, Nat.sub_diag by lia. now intros [= <-].
Qed.

(** the tables after one round *)
Lemma tables_after st f c rest st' : ok st -> after st f c rest st' ->
  (forall v, f_str f = Some v -> refers gm (stv st') (f_rel f) /\ exists u e, strlit gm (stv st') (f_rel f) u v e) ->
  (forall v, f_obj f = Some v -> refers gm (stv st') (f_rel f) /\ exists u e, strlit gm (stv st') (f_rel f) u v e) ->
  (forall u s e b, nth_error src (S (s_idx st)) = Some b -> ~ pad_byte b -> strlit gs src (S (s_idx st)) u s e ->
     refers gm (stv st') (f_rel f) /\ exists u' e', strlit gm (stv st') (f_rel f) u' s e') ->
  tables st' /\ lo <= length (stv st').
Proof.
  intros (_ & (T1 & T2 & T3) & L) (Av & As & Ao & _ & _ & At) H1 H2 H3.
  assert (X : extends (stv st) (stv st')) by (rewrite Av; apply extends_app).
  split; [|apply extends_len in X; lia]. split; [|split].
  - intros v o. rewrite As. destruct (f_str f) as [x|].
    + cbn [assoc]. destruct (bytes_eqb x v) eqn:E.
      * apply bytes_eqb_true in E as ->. intros [= <-]. now apply H1.
      * intros H. apply T1 in H as (Lo & u & e & H). split; [eapply refers_lit; eauto|]. exists u, e. eapply strlit_ext; eauto.
    + intros H. apply T1 in H as (Lo & u & e & H). split; [eapply refers_lit; eauto|]. exists u, e. eapply strlit_ext; eauto.
  - intros v o. rewrite Ao. destruct (f_obj f) as [x|].
    + cbn [assoc]. destruct (bytes_eqb x v) eqn:E.
      * apply bytes_eqb_true in E as ->. intros [= <-]. now apply H2.
      * intros H. apply T2 in H as (Lo & u & e & H). split; [eapply refers_lit; eauto|]. exists u, e. eapply strlit_ext; eauto.
    + intros H. apply T2 in H as (Lo & u & e & H). split; [eapply refers_lit; eauto|]. exists u, e. eapply strlit_ext; eauto.
  - intros off t b H Hb Np u s e Hs. apply At in H as [H|[-> ->]].
    + destruct (T3 _ _ _ H Hb Np _ _ _ Hs) as (Lo & u' & e' & H'). split; [eapply refers_lit; eauto|]. exists u', e'. eapply strlit_ext; eauto.
    + eapply H3; eauto.
Qed.

(** a literal starts with its tag *)
Lemma strlit_tag gg by_ p u s e b : strlit gg by_ p u s e -> nth_error by_ p = Some b -> ~ pad_byte b ->
  (b2n b mod 128 = 38 \/ b2n b mod 128 = 39 \/ 96 <= b2n b mod 128 < 128)%N.
Proof.
  assert (T : forall q t, tag_at by_ p q t -> nth_error by_ p = Some b -> ~ pad_byte b -> (b2n b mod 128 = t)%N).
  { intros q t (L & P & x & Hx & -> & _) Hb Np. destruct (Nat.eq_dec p q) as [->|].
    - rewrite Hx in Hb. now injection Hb as ->.
    - destruct (P p) as (y & Hy & Py); [lia|]. rewrite Hy in Hb. injection Hb as ->. contradiction. }
  intros H Hb Np. destruct H as [p q t s Ht Hr Ha El|p q n r s Ht Hv Hm Ha El|p q n r s Ht Hv Hm Ha El];
    specialize (T _ _ Ht Hb Np); lia.
Qed.

Lemma src_nth i : nth_error src (S i) = nth_error buf i.
Proof. reflexivity. Qed.

Lemma not_pad b : (b2n b mod 128 <> 63)%N -> ~ pad_byte b.
Proof. intros N [H|H]; rewrite H in N; apply N; reflexivity. Qed.

(** reading from the document *)
Lemma drange_at i s : at_ src (S i) s -> drange d i (i + length s) = Ok s.
Proof.
  intros A. apply at_bytes in A as [L E]. cbn [length skipn] in *. unfold drange.
  assert (X : slice_range (buf ++ md_spare d) i (i + length s) = Some s).
  { apply slice_range_Some. rewrite app_length. repeat split; try lia.
    replace (i + length s - i) with (length s) by lia.
    rewrite skipn_app, firstn_app, skipn_length.
    replace (length s - (length buf - i)) with 0 by lia. cbn [firstn]. rewrite app_nil_r. now symmetry. }
  now rewrite X.
Qed.

Lemma vint_dec i n r : vint src (S (S i)) n r -> exists l, at_ src (S (S i)) l /\ vgroups l n /\ length l <= 10 /\
  r = S (S i) + length l /\ varintdecode (skipn (S i) buf) = VOk (to_int n) (length l) /\ (n < 18446744073709551616)%N.
Proof.
  intros (l & A & G & L & N & ->). exists l. repeat split; auto.
  destruct A as (pre & post & E & Ep). destruct pre as [|x pre]; [discriminate|]. cbn in E, Ep.
  injection E as _ E. injection Ep as Ep. rewrite E, skipn_app, <- Ep, skipn_all, Nat.sub_diag. cbn [app skipn].
  now apply varintdecode_groups.
Qed.

Lemma vint_here a b l n : vgroups l n -> length l <= 10 -> (n < 18446744073709551616)%N ->
  vint (a ++ b :: l) (S (length a)) n (length (a ++ b :: l)).
Proof.
  intros G L N. exists l. split; [apply at_next|]. repeat split; auto. rewrite app_length. cbn. lia.
Qed.

(** ** Padding *)
Lemma fake_kind t : (t = 63 \/ t = 40 \/ t = 48)%N -> merge_kind t = KFake.
Proof. intros [->|[->| ->]]; reflexivity. Qed.

Lemma fake_step fin st p c rest b t : at_pos fin st p c rest -> ~ zero c -> nth_error src p = Some b ->
  t = (b2n b mod 128)%N -> (t = 63 \/ t = 40 \/ t = 48)%N ->
  exists st', at_pos fin st' (S p) c rest /\ stv st' = stv st ++ [b].
Proof.
  intros (R & O & E & K) Z Hb Et Ht. subst p. rewrite src_nth in Hb.
  destruct (loop_step w g d hd _ _ _ _ _ R (proj1 O) Hb K Z) as (f & Hf & H).
  unfold merge_tag in Hf. rewrite untrack_mod, <- Et, (fake_kind _ Ht) in Hf. injection Hf as <-.
  destruct (H eq_refl) as (st' & R' & G' & A). clear H. exists st'.
  pose proof (tables_after _ _ _ _ _ O A) as T. destruct A as (Av & _ & _ & Ai & Ak & _).
  cbn [f_out f_str f_obj f_rel f_adv f_push f_fake] in *.
  split; [|exact Av]. split; [exact R'|]. split.
  - split; [exact G'|]. apply T; try discriminate.
    intros u s e b' Hb' Np Hs. rewrite src_nth, Hb in Hb'. injection Hb' as <-.
    pose proof (strlit_tag _ _ _ _ _ _ _ Hs Hb Np). lia.
  - split; [lia|]. rewrite Ak. apply stk_here.
Qed.

Lemma pads_step fin c rest : ~ zero c -> forall n st p, at_pos fin st p c rest -> pads src p (p + n) ->
  exists st', at_pos fin st' (p + n) c rest /\ extends (stv st) (stv st') /\
    pads (stv st') (length (stv st)) (length (stv st')).
Proof.
  intros Z. induction n as [|n IH]; intros st p At P.
  - rewrite Nat.add_0_r in *. exists st. split; [exact At|]. split; [apply extends_refl|].
    split; [lia|]. intros; lia.
  - destruct (proj2 P p) as (b & Hb & Pb); [lia|].
    assert (Et : (b2n b mod 128 = 63)%N) by (unfold pad_byte in Pb; lia).
    destruct (fake_step _ _ _ _ _ _ _ At Z Hb eq_refl ltac:(auto)) as (st1 & At1 & V1).
    destruct (IH st1 (S p) At1) as (st2 & At2 & X2 & P2).
    { split; [lia|]. intros i Hi. apply (proj2 P). lia. }
    exists st2. replace (p + S n) with (S p + n) by lia. split; [exact At2|].
    assert (X1 : extends (stv st) (stv st1)) by (rewrite V1; apply extends_app).
    split; [eapply extends_trans; eauto|]. pose proof (extends_len _ _ X1). pose proof (extends_len _ _ X2).
    split; [lia|]. intros i Hi. assert (L1 : length (stv st1) = S (length (stv st))) by (rewrite V1, app_length; cbn; lia).
    destruct (Nat.eq_dec i (length (stv st))) as [->|].
    + exists b. split; [|exact Pb]. eapply ext_nth; [exact X2|].
      rewrite V1, nth_error_app2, Nat.sub_diag by lia. reflexivity.
    + apply (proj2 P2). lia.
Qed.

Lemma tag_is_pads by_ p q t : tag_at by_ p q t -> pads by_ p q.
Proof. intros (L & P & _). split; auto. Qed.

Lemma item_after_pads p q t dd p' : tag_at src p q t -> Mitem q dd p' -> Mitem p dd p'.
Proof.
  intros Ht H fin st c rest At Z D.
  destruct (pads_step fin c rest Z (q - p) st p At) as (st1 & At1 & X1 & P1).
  { replace (p + (q - p)) with q by (apply tag_ends in Ht; lia). eapply tag_is_pads; eauto. }
  replace (p + (q - p)) with q in At1 by (apply tag_ends in Ht; lia).
  destruct (H fin st1 c rest At1 Z D) as (st2 & At2 & X2 & I2).
  exists st2. split; [exact At2|]. split; [eapply extends_trans; eauto|].
  eapply item_pads; [|exact I2]. destruct P1 as [L1 P1]. split; [exact L1|].
  intros i Hi. destruct (P1 i Hi) as (b & Hb & Pb). exists b. split; [|exact Pb]. eapply ext_nth; eauto.
Qed.
Lemma key_after_pads p q t s p' : tag_at src p q t -> Mkey q s p' -> Mkey p s p'.
Proof.
  intros Ht H fin st c rest At Z D.
  destruct (pads_step fin c rest Z (q - p) st p At) as (st1 & At1 & X1 & P1).
  { replace (p + (q - p)) with q by (apply tag_ends in Ht; lia). eapply tag_is_pads; eauto. }
  replace (p + (q - p)) with q in At1 by (apply tag_ends in Ht; lia).
  destruct (H fin st1 c rest At1 Z D) as (st2 & At2 & X2 & I2).
  exists st2. split; [exact At2|]. split; [eapply extends_trans; eauto|].
  eapply stringish_pads; [|exact I2]. destruct P1 as [L1 P1]. split; [exact L1|].
  intros i Hi. destruct (P1 i Hi) as (b & Hb & Pb). exists b. split; [|exact Pb]. eapply ext_nth; eauto.
Qed.

(** ** Tags that are copied with what follows them *)
(** a round that appends [out], moves on by as much, and remembers its place *)
Lemma leaf_step fin st p c rest b f : at_pos fin st p c rest -> nth_error src p = Some b ->
  ~ zero c ->
  merge_tag d (s_str st) (s_obj st) (s_ttab st) (s_idx st) (length (stv st)) (dedup g c) b = Ok f ->
  f_track f = None -> f_fake f = false ->
  (forall v, f_str f = Some v -> refers gm (stv st ++ f_out f) (f_rel f) /\ exists u e, strlit gm (stv st ++ f_out f) (f_rel f) u v e) ->
  (forall v, f_obj f = Some v -> refers gm (stv st ++ f_out f) (f_rel f) /\ exists u e, strlit gm (stv st ++ f_out f) (f_rel f) u v e) ->
  (forall u s e, ~ pad_byte b -> strlit gs src p u s e ->
     refers gm (stv st ++ f_out f) (f_rel f) /\ exists u' e', strlit gm (stv st ++ f_out f) (f_rel f) u' s e') ->
  exists st', runs_to w g d fin st' /\ ok st' /\ S (s_idx st') = p + f_adv f /\
    s_stack st' = f_push f ++ N.pred c :: rest /\ stv st' = stv st ++ f_out f.
Proof.
  intros (R & O & E & K) Hb Z Hf Tr Fk H1 H2 H3. subst p. rewrite src_nth in Hb.
  destruct (loop_step w g d hd _ _ _ _ _ R (proj1 O) Hb K Z) as (f' & Hf' & H).
  rewrite Hf in Hf'. injection Hf' as <-. destruct (H Tr) as (st' & R' & G' & A). clear H. exists st'.
  pose proof (tables_after _ _ _ _ _ O A) as T. destruct A as (Av & _ & _ & Ai & Ak & _). rewrite Av in *.
  rewrite Fk in Ak. split; [exact R'|]. split.
  - split; [exact G'|]. rewrite Av. apply T; auto. intros u s e b' Hb' Np Hs. rewrite src_nth, Hb in Hb'. injection Hb' as <-. eauto.
  - split; [lia|]. auto.
Qed.

Lemma no_string p b : nth_error src p = Some b -> (b2n b mod 128 <> 38)%N -> (b2n b mod 128 <> 39)%N ->
  ~ (96 <= b2n b mod 128)%N -> forall u s e, ~ pad_byte b -> strlit gs src p u s e -> False.
Proof. intros Hb N1 N2 N3 u s e Np Hs. pose proof (strlit_tag _ _ _ _ _ _ _ Hs Hb Np). lia. Qed.

(** from a leaf to an item *)
Lemma leaf_item p dd b out : nth_error src p = Some b -> (b2n b mod 128 <> 63)%N ->
  (b2n b mod 128 <> 38)%N -> (b2n b mod 128 <> 39)%N -> ~ (96 <= b2n b mod 128)%N ->
  (forall strs objs tt_ rel dd, merge_tag d strs objs tt_ (p - 1) rel dd b = Ok (plain out (length out) rel)) ->
  (forall V, item gm (V ++ out) CKeys (length V) dd (length V + length out)) ->
  1 <= p -> Mitem p dd (p + length out).
Proof.
  intros Hb N0 N1 N2 N3 Hm Hi Lp fin st c rest At Z D. pose proof At as (_ & _ & E & _).
  destruct (leaf_step _ _ _ _ _ _ (plain out (length out) (length (stv st))) At Hb Z) as (st' & R' & O' & E' & K' & V');
    try reflexivity; try discriminate.
  - replace (s_idx st) with (p - 1) by lia. apply Hm.
  - intros u s e Np Hs. exfalso. eapply no_string; eauto.
  - unfold plain in *. cbn [f_out f_adv f_push] in *. cbn [app] in K'. exists st'. rewrite V'. split; [split; auto; split; auto; split; auto; rewrite K'; apply stk_here|].
    split; [apply extends_app|]. rewrite app_length. apply Hi.
Qed.

Lemma kind_byte t : (t < 32 \/ t = 37 \/ t = 57 \/ t = 58 \/ t = 59 \/ t = 96)%N -> merge_kind t = KByte.
Proof.
  intros [H|[->|[->|[->|[->| ->]]]]]; try reflexivity.
  unfold merge_kind, typeVARINT. destruct (N.ltb_spec t 32); [reflexivity|lia].
Qed.
Ltac by_cases t H :=
  destruct t as [|p]; [cbn in H; lia|];
  do 7 (destruct p as [p|p|]; try (cbn in H; lia); try reflexivity).
Lemma kind_short t : (98 <= t < 128)%N -> merge_kind t = KString.
Proof. intros H. by_cases t H. Qed.
Lemma kind_containerref t : (64 <= t < 96)%N -> merge_kind t = KContainerRef.
Proof. intros H. by_cases t H. Qed.
Lemma short_len t : (96 <= t < 128)%N -> N.land t 31 = (t - 96)%N.
Proof. intros H. by_cases t H. Qed.

(** a literal string at the place of its tag *)
Lemma lit_tag i u s e b : strlit gs src (S i) u s e -> nth_error src (S i) = Some b -> ~ pad_byte b ->
  exists l, at_ src (S i) (b :: l) /\ e = S i + S (length l) /\
    (forall V, strlit gm (V ++ b :: l) (length V) u s (length V + S (length l))) /\
    (forall strs objs tt_ rel dd,
       merge_tag d strs objs tt_ i rel dd b = Ok (plain (b :: l) (S (length l)) rel) \/
       (dd = true /\ merge_tag d strs objs tt_ i rel dd b =
          match assoc s strs with
          | Some saved => bind (tagVarint (n2b typeCOPY) saved) (fun out => Ok (plain out (S (length l)) saved))
          | None => Ok (mkEffect (b :: l) (S (length l)) [] false rel (Some s) None None)
          end)) /\
    (s <> [] -> exists sz, (if (typeSHORT_BINARY_0 <? untrack b)%N then Ok (Z.of_N (N.land (untrack b) 31), 0)
        else match varintdecode (skipn (S i) buf) with VBad _ => Err EBadVarint | VOk ln sz => Ok (ln, sz) end) =
        Ok (Z.of_nat (length s), sz) /\ length l = sz + length s /\ skipn sz l = s).
Proof.
  intros Hs Hb Np.
  assert (Tq : forall q t, tag_at src (S i) q t -> q = S i /\ t = (b2n b mod 128)%N /\ t <> 63%N).
  { intros q t (L & P & x & Hx & Et & Nt). destruct (Nat.eq_dec (S i) q) as [<-|].
    - rewrite Hx in Hb. injection Hb as ->. auto.
    - destruct (P (S i)) as (y & Hy & Py); [lia|]. rewrite Hy in Hb. injection Hb as ->. contradiction. }
  (* the string case of the switch *)
  assert (Str : forall l z sz, merge_kind (untrack b) = KString -> at_ src (S i) (b :: l) ->
     (if (typeSHORT_BINARY_0 <? untrack b)%N then Ok (Z.of_N (N.land (untrack b) 31), 0)
      else match varintdecode (skipn (S i) buf) with VBad _ => Err EBadVarint | VOk ln sz => Ok (ln, sz) end) = Ok (z, sz) ->
     z = Z.of_nat (length s) -> length l = sz + length s -> skipn sz l = s ->
     forall strs objs tt_ rel dd,
       merge_tag d strs objs tt_ i rel dd b = Ok (plain (b :: l) (S (length l)) rel) \/
       (dd = true /\ merge_tag d strs objs tt_ i rel dd b =
          match assoc s strs with
          | Some saved => bind (tagVarint (n2b typeCOPY) saved) (fun out => Ok (plain out (S (length l)) saved))
          | None => Ok (mkEffect (b :: l) (S (length l)) [] false rel (Some s) None None)
          end)).
  { intros l z sz Hk A Hr Ez El Es strs objs tt_ rel dd. unfold merge_tag. rewrite Hk, Hr. cbn [bind].
    pose proof (proj1 (at_bytes _ _ _ A)) as La. cbn [length] in La.
    destruct ((z <? 0) || (maxUint32 <? z))%Z eqn:B1; [unfold maxUint32 in B1; lia|].
    replace (sz + Z.to_nat z + 1) with (length (b :: l)) by (cbn [length]; lia).
    destruct (Nat.ltb_spec (length buf) (i + length (b :: l))) as [B2|B2]; [cbn [length] in B2; lia|].
    rewrite (drange_at _ _ A). cbn [bind skipn]. rewrite Es. destruct dd; [right; auto|left; reflexivity]. }
  remember (S i) as p0 eqn:Ep.
  destruct Hs as [p q t s Ht Hr Ha El|p q n r s Ht Hv Hm Ha El|p q n r s Ht Hv Hm Ha El];
    destruct (Tq _ _ Ht) as (-> & Et & Nt); subst p.
  - assert (A : at_ src (S i) (b :: s)) by (now apply at_cons).
    exists s. split; [exact A|]. split; [lia|]. split.
    { intros V. replace (length V + S (length s)) with (S (length V) + length s) by lia.
      eapply lit_short; [apply tag_here; eauto|exact Hr|apply at_next|exact El]. }
    split.
    2:{ intros Ns. exists 0. split; [|auto]. rewrite untrack_mod, <- Et. change typeSHORT_BINARY_0 with 96%N.
        destruct s; [contradiction|]. cbn [length] in *. destruct (N.ltb_spec 96 t); [|lia]. rewrite short_len by lia. do 2 f_equal. lia. }
    destruct (N.eq_dec t 96) as [E96|N96]; [|destruct (N.eq_dec t 97) as [E97|N97]].
    + intros. left. destruct s; [|cbn in El; lia]. unfold merge_tag. rewrite untrack_mod, <- Et, kind_byte by lia. reflexivity.
    + intros. left. destruct s as [|x [|]]; cbn in El; try lia. unfold merge_tag. rewrite untrack_mod, <- Et, E97.
      change (merge_kind 97) with (KFixed 2). cbn match. replace (i + 2) with (i + length [b; x]) by reflexivity.
      rewrite (drange_at _ _ A). reflexivity.
    + apply (Str s (Z.of_N (N.land (untrack b) 31)) 0); auto.
      * rewrite untrack_mod, <- Et. apply kind_short. lia.
      * rewrite untrack_mod, <- Et. change typeSHORT_BINARY_0 with 96%N. destruct (N.ltb_spec 96 t); [reflexivity|lia].
      * rewrite untrack_mod, <- Et, short_len; lia.
  - destruct (vint_dec _ _ _ Hv) as (l & Al & G & L & -> & D & N). cbn [g_max] in Hm.
    assert (A : at_ src (S i) (b :: l ++ s)) by (apply at_cons; auto; now apply at_join).
    pose proof (proj1 (at_bytes _ _ _ A)) as La. cbn [length] in La. rewrite app_length in La.
    exists (l ++ s). rewrite app_length. split; [exact A|]. split; [lia|]. split.
    { intros V. replace (length V + S (length l + length s)) with (length V + S (length l) + length s) by lia.
      eapply lit_binary; [apply tag_here; eauto| |exact Hm| |exact El].
      - exists l. split; [|repeat split; auto; lia]. exists (V ++ [b]), s. rewrite <- app_assoc. split; [reflexivity|]. rewrite app_length. cbn. lia.
      - exists (V ++ b :: l), []. rewrite app_nil_r, <- app_assoc. split; [reflexivity|]. rewrite app_length. reflexivity. }
    split.
    2:{ intros _. exists (length l). split; [|split; [reflexivity|]].
        - rewrite untrack_mod, <- Et, D. rewrite to_int_small by (unfold two63; lia). cbn match. replace (Z.of_N n) with (Z.of_nat (length s)) by lia. reflexivity.
        - rewrite skipn_app, skipn_all, Nat.sub_diag. reflexivity. }
    rewrite <- app_length. apply (Str (l ++ s) (to_int n) (length l)); auto.
    + rewrite untrack_mod, <- Et. reflexivity.
    + rewrite untrack_mod, <- Et, D. reflexivity.
    + rewrite to_int_small by (unfold two63; lia). lia.
    + apply app_length.
    + rewrite skipn_app, skipn_all, Nat.sub_diag. reflexivity.
  - destruct (vint_dec _ _ _ Hv) as (l & Al & G & L & -> & D & N). cbn [g_max] in Hm.
    assert (A : at_ src (S i) (b :: l ++ s)) by (apply at_cons; auto; now apply at_join).
    pose proof (proj1 (at_bytes _ _ _ A)) as La. cbn [length] in La. rewrite app_length in La.
    exists (l ++ s). rewrite app_length. split; [exact A|]. split; [lia|]. split.
    { intros V. replace (length V + S (length l + length s)) with (length V + S (length l) + length s) by lia.
      eapply lit_utf8; [apply tag_here; eauto| |exact Hm| |exact El].
      - exists l. split; [|repeat split; auto; lia]. exists (V ++ [b]), s. rewrite <- app_assoc. split; [reflexivity|]. rewrite app_length. cbn. lia.
      - exists (V ++ b :: l), []. rewrite app_nil_r, <- app_assoc. split; [reflexivity|]. rewrite app_length. reflexivity. }
    split.
    2:{ intros _. exists (length l). split; [|split; [reflexivity|]].
        - rewrite untrack_mod, <- Et, D. rewrite to_int_small by (unfold two63; lia). cbn match. replace (Z.of_N n) with (Z.of_nat (length s)) by lia. reflexivity.
        - rewrite skipn_app, skipn_all, Nat.sub_diag. reflexivity. }
    rewrite <- app_length. apply (Str (l ++ s) (to_int n) (length l)); auto.
    + rewrite untrack_mod, <- Et. reflexivity.
    + rewrite untrack_mod, <- Et, D. reflexivity.
    + rewrite to_int_small by (unfold two63; lia). lia.
    + apply app_length.
    + rewrite skipn_app, skipn_all, Nat.sub_diag. reflexivity.
Qed.

Lemma strlit_at p u s e : strlit gs src p u s e -> exists q t b, tag_at src p q t /\ strlit gs src q u s e /\
  nth_error src q = Some b /\ ~ pad_byte b.
Proof.
  assert (X : forall q t, tag_at src p q t -> exists b, nth_error src q = Some b /\ ~ pad_byte b).
  { intros q t (_ & _ & b & Hb & -> & Nt). exists b. split; [exact Hb|now apply not_pad]. }
  intros H. destruct H as [p q t s Ht Hr Ha El|p q n r s Ht Hv Hm Ha El|p q n r s Ht Hv Hm Ha El];
    destruct (X _ _ Ht) as (b & Hb & Np); exists q; eexists; exists b; (split; [exact Ht|]); (split; [|auto]);
    apply tag_self in Ht.
  - eapply lit_short; eauto.
  - eapply lit_binary; eauto.
  - eapply lit_utf8; eauto.
Qed.

(** ** Strings as values *)
Lemma string_item p u s e : strlit gs src p u s e -> Mitem p (if u then DStr s else DBin s) e.
Proof.
  intros Hs. destruct (strlit_at _ _ _ _ Hs) as (q & t & b & Ht & Hq & Hb & Np).
  eapply item_after_pads; [exact Ht|]. intros fin st c rest At Z D. pose proof At as (_ & O & E & _). subst q.
  destruct (lit_tag _ _ _ _ _ Hq Hb Np) as (l & A & Ee & Hg & Hm & _).
  destruct (leaf_step _ _ _ _ _ _ (plain (b :: l) (S (length l)) (length (stv st))) At Hb Z) as (st' & R' & O' & E' & K' & V');
    try reflexivity; try discriminate.
  - rewrite D. destruct (Hm (s_str st) (s_obj st) (s_ttab st) (length (stv st)) false) as [H|[H _]]; [exact H|discriminate].
  - intros u' s' e' _ Hs'. destruct (strlit_det _ _ _ _ _ _ _ _ _ _ Hq Hs') as (-> & -> & _).
    split; [apply refers_here; [apply O|exact Np]|]. cbn [f_rel f_out plain]. eauto.
  - unfold plain in *. cbn [f_out f_adv f_push] in *. cbn [app] in K'. exists st'. rewrite V'.
    split; [split; auto; split; auto; split; [lia|rewrite K'; apply stk_here]|].
    split; [apply extends_app|]. rewrite app_length. apply i_str, Hg.
Qed.

(** ** Back references *)
Lemma tagVarint_inv tb n out : tagVarint tb n = Ok out -> out = tb :: varint (N.of_nat n) /\ (Z.of_nat n < two63)%Z.
Proof. unfold tagVarint. destruct (Z.ltb_spec (Z.of_nat n) two63); [|discriminate]. intros [= <-]. auto. Qed.

Lemma vint_back V tb n : (Z.of_nat n < two63)%Z ->
  vint (V ++ tb :: varint (N.of_nat n)) (S (length V)) (N.of_nat n) (length (V ++ tb :: varint (N.of_nat n))).
Proof.
  intros L. unfold two63 in L. destruct (varint_groups (N.of_nat n)) as [G Lv]; [lia|].
  apply vint_here; auto; lia.
Qed.

(** a COPY, OBJECTV or OBJECTV_FREEZE tag of the document that refers to a string *)
Lemma back_tag fin st i c rest b n r u s e : at_pos fin st (S i) c rest -> ~ zero c ->
  nth_error src (S i) = Some b -> (b2n b mod 128 = 47 \/ b2n b mod 128 = 45 \/ b2n b mod 128 = 51)%N ->
  vint src (S (S i)) n r -> N.to_nat n < S i -> refers gs src (N.to_nat n) -> strlit gs src (N.to_nat n) u s e ->
  exists st' target, runs_to w g d fin st' /\ ok st' /\ S (s_idx st') = r /\
    s_stack st' = (if (b2n b mod 128 =? 47)%N then [] else [1%N]) ++ N.pred c :: rest /\
    stv st' = stv st ++ b :: varint (N.of_nat target) /\ (Z.of_nat target < two63)%Z /\
    refers gm (stv st) target /\ exists u' e', strlit gm (stv st) target u' s e'.
Proof.
  intros At Z Hb Ht Hv Hn [_ Hpad] Hs. pose proof At as (R & O & E & K). assert (Ei : s_idx st = i) by lia.
  destruct (vint_dec _ _ _ Hv) as (l & Al & G & L & -> & Dv & N).
  pose proof (proj2 (strlit_ends _ _ _ _ _ _ Hs)) as Le. cbn [length] in Le.
  assert (Hx : exists x, nth_error src (N.to_nat n) = Some x).
  { destruct (nth_error src (N.to_nat n)) eqn:X; [eauto|]. apply nth_error_None in X. apply strlit_ends in Hs. lia. }
  destruct Hx as (x & Hx). pose proof (Hpad eq_refl _ Hx) as Np.
  pose proof Hb as Hb'. rewrite src_nth in Hb'. pose proof (nth_error_Some_lt _ _ _ _ Hb') as Li.
  destruct (loop_step w g d hd _ _ b _ _ R (proj1 O) ltac:(now rewrite Ei) K Z) as (f & Hf & _).
  assert (Hk : merge_kind (untrack b) = KBack) by (rewrite untrack_mod; destruct Ht as [->|[->| ->]]; reflexivity).
  pose proof Hf as Hf0. unfold merge_tag in Hf. rewrite Hk in Hf. rewrite Ei, Dv in Hf.
  rewrite to_int_small in Hf by (unfold two63; lia).
  destruct (Z.ltb_spec (Z.of_N n) 0) as [|_]; [lia|].
  replace (Z.to_nat (Z.of_N n)) with (N.to_nat n) in Hf by lia.
  destruct (tfind (N.to_nat n) (s_ttab st)) as [target|] eqn:Et; [|discriminate].
  destruct (tagVarint b target) as [out|e'|e'| |] eqn:Ev; cbn [bind] in Hf; try discriminate.
  apply tagVarint_inv in Ev as [-> Lt].
  assert (Al2 : ((untrack b =? typeALIAS) || (untrack b =? typeREFP))%N = false).
  { rewrite untrack_mod. unfold typeALIAS, typeREFP. lia. }
  rewrite Al2 in Hf. apply (f_equal (fun r => match r with Ok x => x | _ => f end)) in Hf.
  destruct (leaf_step _ _ _ _ _ _ f At Hb Z Hf0) as (st' & R' & O' & E' & K' & V'); try (rewrite <- Hf; reflexivity).
  - intros v. rewrite <- Hf. discriminate.
  - intros v. rewrite <- Hf. discriminate.
  - intros u' s' e' _ Hs'. exfalso. pose proof (strlit_tag _ _ _ _ _ _ _ Hs' Hb ltac:(apply not_pad; lia)). lia.
  - rewrite <- Hf in *. cbn [f_out f_adv f_push] in *. exists st', target. split; [exact R'|]. split; [exact O'|].
    split; [lia|]. split.
    { rewrite K'. f_equal. rewrite untrack_mod. unfold typeOBJECTV, typeOBJECTV_FREEZE.
      destruct Ht as [->|[->| ->]]; reflexivity. }
    split; [exact V'|]. split; [exact Lt|]. destruct O as (_ & (_ & _ & T3) & _). exact (T3 _ _ _ Et Hx Np _ _ _ Hs).
Qed.

(** ** Hash keys *)
Lemma key_item kk p s e : stringish gs src kk p s e -> Mkey p s e.
Proof.
  intros H. destruct H as [p u s e Hs|p q n r u s e _ Ht Hv Hn Hr Hs].
  - destruct (strlit_at _ _ _ _ Hs) as (q & t & b & Ht & Hq & Hb & Np).
    eapply key_after_pads; [exact Ht|]. intros fin st c rest At Z D. pose proof At as (R & O & E & K). subst q.
    destruct (lit_tag _ _ _ _ _ Hq Hb Np) as (l & A & Ee & Hg & Hm & _).
    destruct (loop_step w g d hd _ _ b _ _ R (proj1 O) Hb K Z) as (f & Hf & _).
    rewrite D in Hf.
    (* a string that is copied *)
    assert (Cp : forall fs, f = mkEffect (b :: l) (S (length l)) [] false (length (stv st)) fs None None ->
                 (forall v, fs = Some v -> v = s) ->
       exists st', at_pos fin st' e (N.pred c) rest /\ extends (stv st) (stv st') /\
         stringish gm (stv st') true (length (stv st)) s (length (stv st'))).
    { intros fs -> Hfs.
      destruct (leaf_step _ _ _ _ _ _ _ At Hb Z ltac:(rewrite D; exact Hf)) as (st' & R' & O' & E' & K' & V');
        try reflexivity; try discriminate.
      - intros v Ev. cbn [f_str f_rel f_out] in *. rewrite (Hfs _ Ev). split; [apply refers_here; [apply O|exact Np]|eauto].
      - intros u' s' e' _ Hs'. destruct (strlit_det _ _ _ _ _ _ _ _ _ _ Hq Hs') as (-> & -> & _).
        split; [apply refers_here; [apply O|exact Np]|]. cbn [f_rel f_out]. eauto.
      - cbn [f_out f_adv f_push] in *. cbn [app] in K'. exists st'. rewrite V'.
        split; [split; auto; split; auto; split; [lia|rewrite K'; apply stk_here]|].
        split; [apply extends_app|]. rewrite app_length. eapply str_lit, Hg. }
    destruct (Hm (s_str st) (s_obj st) (s_ttab st) (length (stv st)) true) as [H|[_ H]]; rewrite Hf in H.
    + injection H as ->. eapply Cp; [reflexivity|discriminate].
    + destruct (assoc s (s_str st)) as [saved|] eqn:Ea.
      2:{ injection H as ->. eapply Cp; [reflexivity|]. now intros v [= <-]. }
      destruct (tagVarint (n2b typeCOPY) saved) as [out|e'|e'| |] eqn:Ev; cbn [bind] in H; try discriminate.
      apply tagVarint_inv in Ev as [-> Lt]. injection H as ->.
      destruct O as (O1 & (T1 & T23) & O3). destruct (T1 _ _ Ea) as (Lo & u1 & e1 & Hs1).
      assert (X : extends (stv st) (stv st ++ n2b typeCOPY :: varint (N.of_nat saved))) by apply extends_app.
      destruct (leaf_step _ _ _ _ _ _ _ At Hb Z ltac:(rewrite D; exact Hf)) as (st' & R' & O' & E' & K' & V');
        try reflexivity; try discriminate.
      * intros u' s' e' _ Hs'. destruct (strlit_det _ _ _ _ _ _ _ _ _ _ Hq Hs') as (-> & -> & _).
        cbn [f_rel f_out plain]. split; [eapply refers_lit; eauto|]. exists u1, e1. eapply strlit_ext; eauto.
      * unfold plain in *. cbn [f_out f_adv f_push f_rel] in *. cbn [app] in K'. exists st'. rewrite V'.
        split; [split; auto; split; auto; split; [lia|rewrite K'; apply stk_here]|]. split; [exact X|].
        eapply str_copy with (q := length (stv st)) (n := N.of_nat saved); [reflexivity|now apply tag_here|now apply vint_back| | |].
        -- rewrite Nat2N.id. apply strlit_ends in Hs1. lia.
        -- rewrite Nat2N.id. eapply refers_lit; eauto.
        -- rewrite Nat2N.id. eapply strlit_ext; eauto.
  - eapply key_after_pads; [exact Ht|]. intros fin st c rest At Z D. pose proof At as (R & O & E & K). subst q.
    destruct Ht as (_ & _ & b & Hb & Et & _).
    destruct (back_tag _ _ _ _ _ _ _ _ _ _ _ At Z Hb ltac:(left; auto) Hv Hn Hr Hs) as (st' & tg & R' & O' & E' & K' & V' & Lt & Lo & u1 & e1 & Hs1).
    rewrite <- Et in K'. cbn in K'.
    assert (X : extends (stv st) (stv st')) by (rewrite V'; apply extends_app).
    exists st'. split; [split; auto; split; auto; split; [lia|rewrite K'; apply stk_here]|]. split; [exact X|].
    eapply str_copy with (q := length (stv st)) (n := N.of_nat tg); [reflexivity| | | | |].
    + rewrite V'. now apply tag_here.
    + rewrite V'. now apply vint_back.
    + rewrite Nat2N.id. apply strlit_ends in Hs1. lia.
    + rewrite Nat2N.id. eapply refers_lit; eauto.
    + rewrite Nat2N.id. eapply strlit_ext; eauto.
Qed.

(** ** Class names and regexps *)
Lemma shallow t : isShallowStringish t = true -> (t = 38 \/ t = 39 \/ 96 <= t < 128)%N.
Proof. unfold isShallowStringish, typeBINARY, typeSTR_UTF8, typeSHORT_BINARY_0. lia. Qed.

Lemma readString_lit kk i cls r off s' : stringish gs src kk (S i) cls r -> cls <> [] ->
  readString (skipn i buf) = Ok (off, s') ->
  exists u b l, at_ src (S i) (b :: l) /\ r = S i + S (length l) /\ off + length s' = S (length l) /\ s' = cls /\ ~ pad_byte b /\
    (forall V, strlit gm (V ++ b :: l) (length V) u cls (length V + S (length l))).
Proof.
  intros Hs Nc Hr. unfold readString in Hr.
  destruct (skipn i buf) as [|b rest] eqn:Es; [discriminate|].
  assert (Hb : nth_error src (S i) = Some b).
  { rewrite src_nth. replace i with (i + 0) by lia. rewrite <- nth_error_skipn, Es. reflexivity. }
  assert (Er : rest = skipn (S i) buf).
  { replace (S i) with (i + 1) by lia. rewrite <- skipn_skipn_add, Es. reflexivity. }
  destruct (isShallowStringish (untrack b)) eqn:Sh; cbn [negb] in Hr; [|discriminate].
  apply shallow in Sh. rewrite untrack_mod in *.
  assert (Np : ~ pad_byte b) by (apply not_pad; lia).
  assert (Hl : exists u, strlit gs src (S i) u cls r).
  { destruct Hs as [p u s e Hs|p q n r u s e _ Ht _ _ _ _]; [eauto|]. exfalso.
    destruct Ht as (L & P & x & Hx & Et & Nt). destruct (Nat.eq_dec p q) as [<-|].
    - rewrite Hx in Hb. injection Hb as ->. lia.
    - destruct (P p) as (y & Hy & Py); [lia|]. rewrite Hy in Hb. injection Hb as ->. contradiction. }
  destruct Hl as (u & Hl). destruct (lit_tag _ _ _ _ _ Hl Hb Np) as (l & A & Ee & Hg & _ & Hz).
  destruct (Hz Nc) as (sz & Hr' & El & Esk). clear Hz. rewrite untrack_mod, <- Er in Hr'.
  exists u, b, l. split; [exact A|]. split; [exact Ee|].
  assert (X : off + length s' = S (length l) /\ s' = cls); [|tauto].
  apply at_bytes in A as [La A]. change (skipn (S i) src) with (skipn i buf) in A. rewrite Es in A.
  change (length (b :: l)) with (S (length l)) in A. cbn [firstn] in A. injection A as A.
  rewrite Hr' in Hr. cbn [bind] in Hr.
  destruct ((Z.of_nat (length cls) <? 0) || (maxUint32 <? Z.of_nat (length cls)))%Z; [discriminate|].
  rewrite Nat2Z.id in Hr. destruct (Nat.ltb _ _); [discriminate|].
  apply (f_equal (fun r => match r with Ok x => x | _ => (0, []) end)) in Hr. cbn [skipn] in Hr.
  assert (Ef : firstn (length cls) (skipn sz rest) = cls).
  { rewrite <- (firstn_skipn (length l) rest), A, skipn_app, Esk, firstn_app, firstn_all, Nat.sub_diag. apply app_nil_r. }
  rewrite Ef in Hr. injection Hr as <- <-. split; [lia|reflexivity].
Qed.

Lemma object_tag fin st i c rest b kk cls r : at_pos fin st (S i) c rest -> ~ zero c ->
  nth_error src (S i) = Some b -> (b2n b mod 128 = 44 \/ b2n b mod 128 = 50)%N ->
  stringish gs src kk (S (S i)) cls r -> cls <> [] ->
  exists st', at_pos fin st' r 1 (N.pred c :: rest) /\ extends (stv st) (stv st') /\
    ((tag_at (stv st') (length (stv st)) (length (stv st)) (b2n b mod 128) /\
      stringish gm (stv st') true (S (length (stv st))) cls (length (stv st'))) \/
     (exists target u e, tag_at (stv st') (length (stv st)) (length (stv st)) (b2n b mod 128 + 1) /\
        vint (stv st') (S (length (stv st))) target (length (stv st')) /\
        N.to_nat target < length (stv st) /\ refers gm (stv st') (N.to_nat target) /\ strlit gm (stv st') (N.to_nat target) u cls e)).
Proof.
  intros At Z Hb Ht Hs Nc. pose proof At as (R & O & E & K). assert (Ei : s_idx st = i) by lia.
  pose proof Hb as Hb'. rewrite src_nth in Hb'.
  destruct (loop_step w g d hd _ _ b _ _ R (proj1 O) ltac:(now rewrite Ei) K Z) as (f & Hf & _).
  assert (Hk : merge_kind (untrack b) = KObject) by (rewrite untrack_mod; destruct Ht as [->| ->]; reflexivity).
  pose proof Hf as Hf0. unfold merge_tag in Hf. rewrite Hk, Ei in Hf.
  destruct (readString (skipn (S i) buf)) as [[off cls']|x|x| |] eqn:Er; cbn [bind] in Hf; try discriminate.
  destruct (readString_lit _ _ _ _ _ _ Hs Nc Er) as (u & b2 & l & A & -> & Eo & -> & Np2 & Hg).
  assert (A2 : at_ src (S i) (b :: b2 :: l)) by (now apply at_cons).
  replace (off + length cls + 1) with (length (b :: b2 :: l)) in Hf by (cbn [length]; lia).
  assert (Nos : forall u s e, ~ pad_byte b -> strlit gs src (S i) u s e -> False)
    by (eapply no_string; eauto; lia).
  destruct (assoc cls (s_obj st)) as [saved|] eqn:Ea.
  - destruct (tagVarint _ saved) as [out|x|x| |] eqn:Ev; cbn [bind] in Hf; try discriminate.
    apply tagVarint_inv in Ev as [-> Lt]. rewrite untrack_mod in Hf.
    apply (f_equal (fun r => match r with Ok x => x | _ => f end)) in Hf.
    destruct (leaf_step _ _ _ _ _ _ f At Hb Z Hf0) as (st' & R' & O' & E' & K' & V'); try (rewrite <- Hf; reflexivity);
      try (intros v; rewrite <- Hf; discriminate).
    { intros u' s' e' Np Hs'. exfalso. eauto. }
    rewrite <- Hf in *. cbn [f_out f_adv f_push] in *. cbn [app] in K'. cbn [length] in E'.
    assert (X : extends (stv st) (stv st')) by (rewrite V'; apply extends_app).
    exists st'. split; [split; auto; split; auto; split; [lia|rewrite K'; apply stk_here]|]. split; [exact X|]. right.
    destruct O as (O1 & (T1 & T2 & T3) & O3). destruct (T2 _ _ Ea) as (Lo & u1 & e1 & Hs1).
    exists (N.of_nat saved), u1, e1. rewrite Nat2N.id. split; [|split; [|split; [|split]]]; auto.
    + rewrite V'. apply tag_here; [|destruct Ht as [->| ->]; lia].
      unfold typeOBJECT, typeOBJECTV, typeOBJECTV_FREEZE. destruct Ht as [->| ->]; reflexivity.
    + rewrite V'. now apply vint_back.
    + apply strlit_ends in Hs1. lia.
    + eapply refers_lit; eauto.
    + eapply strlit_ext; eauto.
  - rewrite (drange_at _ _ A2) in Hf. cbn [bind] in Hf.
    apply (f_equal (fun r => match r with Ok x => x | _ => f end)) in Hf.
    assert (Hg' : strlit gm (stv st ++ b :: b2 :: l) (S (length (stv st))) u cls (length (stv st ++ b :: b2 :: l))).
    { specialize (Hg (stv st ++ [b])). rewrite <- app_assoc in Hg. cbn [app] in Hg.
      rewrite app_length in *. cbn [length] in *.
      replace (length (stv st) + 1) with (S (length (stv st))) in Hg by lia.
      now replace (S (length (stv st)) + S (length l)) with (length (stv st) + S (S (length l))) in Hg by lia. }
    destruct (leaf_step _ _ _ _ _ _ f At Hb Z Hf0) as (st' & R' & O' & E' & K' & V'); try (rewrite <- Hf; reflexivity);
      try (intros v; rewrite <- Hf; discriminate).
    { intros v. rewrite <- Hf. cbn [f_obj f_rel f_out]. intros [= <-]. split; [|eauto].
      pose proof (refers_here (stv st ++ [b]) b2 l) as Rh. rewrite app_length, <- app_assoc in Rh. cbn [length app] in Rh.
      replace (length (stv st) + 1) with (S (length (stv st))) in Rh by lia. apply Rh; [destruct O as (_ & _ & O); lia|exact Np2]. }
    { intros u' s' e' Np Hs'. exfalso. eauto. }
    rewrite <- Hf in *. cbn [f_out f_adv f_push] in *. cbn [app] in K'. cbn [length] in E'.
    assert (X : extends (stv st) (stv st')) by (rewrite V'; apply extends_app).
    exists st'. split; [split; auto; split; auto; split; [lia|rewrite K'; apply stk_here]|]. split; [exact X|]. left.
    split; rewrite V'; [apply tag_here; lia|]. eapply str_lit. exact Hg'.
Qed.

(** ** Containers *)
Definition hash_count (n : N) : N := N.lor ((2 * n) mod 4294967296) hashFlag.

Lemma container_tag fin st i c rest b n r : at_pos fin st (S i) c rest -> ~ zero c ->
  nth_error src (S i) = Some b -> (b2n b mod 128 = 43 \/ b2n b mod 128 = 42)%N ->
  vint src (S (S i)) n r -> (n < 2147483648)%N ->
  exists st', at_pos fin st' r (if (b2n b mod 128 =? 42)%N then hash_count n else n) (N.pred c :: rest) /\
    extends (stv st) (stv st') /\
    tag_at (stv st') (length (stv st)) (length (stv st)) (b2n b mod 128) /\
    vint (stv st') (S (length (stv st))) n (length (stv st')) /\
    nth_error (stv st') (length (stv st)) = Some b.
Proof.
  intros At Z Hb Ht Hv Ln. pose proof At as (R & O & E & K). assert (Ei : s_idx st = i) by lia.
  destruct (vint_dec _ _ _ Hv) as (l & Al & G & L & -> & Dv & N).
  assert (A : at_ src (S i) (b :: l)) by (now apply at_cons).
  assert (Hf : merge_tag d (s_str st) (s_obj st) (s_ttab st) (s_idx st) (length (stv st)) (dedup g c) b =
     Ok (mkEffect (b :: l) (S (length l)) [if (b2n b mod 128 =? 42)%N then hash_count n else n] false (length (stv st)) None None None)).
  { unfold merge_tag. assert (Hk : merge_kind (untrack b) = KContainer) by (rewrite untrack_mod; destruct Ht as [->| ->]; reflexivity).
    rewrite Hk, Ei, Dv. rewrite to_int_small by (unfold two63; lia).
    destruct (Z.ltb_spec (Z.of_N n) 0); [lia|].
    replace (i + length l + 1) with (i + length (b :: l)) by (cbn [length]; lia). rewrite (drange_at _ _ A). cbn [bind].
    rewrite N2Z.id, untrack_mod. unfold typeHASH, hash_count. replace (length l + 1) with (S (length l)) by lia.
    rewrite (N.mod_small n) by lia. reflexivity. }
  destruct (leaf_step _ _ _ _ _ _ _ At Hb Z Hf) as (st' & R' & O' & E' & K' & V'); try reflexivity; try discriminate.
  { intros u' s' e' Np Hs'. exfalso. eapply no_string; eauto; lia. }
  cbn [f_out f_adv f_push] in *. cbn [app] in K'. exists st'. split; [|split; [|split; [|split]]].
  - split; auto; split; auto; split; [lia|rewrite K'; apply stk_here].
  - rewrite V'. apply extends_app.
  - rewrite V'. apply tag_here; lia.
  - rewrite V'. now apply vint_here.
  - rewrite V', nth_error_app2, Nat.sub_diag by lia. reflexivity.
Qed.

Lemma containerref_tag fin st i c rest b : at_pos fin st (S i) c rest -> ~ zero c ->
  nth_error src (S i) = Some b -> (64 <= b2n b mod 128 < 96)%N ->
  exists st', at_pos fin st' (S (S i)) (if (80 <=? b2n b mod 128)%N then hash_count (b2n b mod 128 - 80) else b2n b mod 128 - 64)%N
      (N.pred c :: rest) /\
    extends (stv st) (stv st') /\ length (stv st') = S (length (stv st)) /\
    tag_at (stv st') (length (stv st)) (length (stv st)) (b2n b mod 128).
Proof.
  intros At Z Hb Ht. pose proof At as (R & O & E & K). assert (Ei : s_idx st = i) by lia.
  set (t := (b2n b mod 128)%N) in *.
  assert (Hf : merge_tag d (s_str st) (s_obj st) (s_ttab st) (s_idx st) (length (stv st)) (dedup g c) b =
     Ok (mkEffect [b] 1 [if (80 <=? t)%N then hash_count (t - 80) else (t - 64)%N] false (length (stv st)) None None None)).
  { unfold merge_tag. rewrite untrack_mod. fold t. rewrite (kind_containerref _ Ht). cbn match.
    clearbody t. assert (El : N.land t 15 = if (80 <=? t)%N then (t - 80)%N else (t - 64)%N).
    { change 15%N with (N.ones 4). rewrite N.land_ones. change (2 ^ 4)%N with 16%N. destruct (N.leb_spec 80 t); lia. }
    rewrite El. change typeHASHREF_0 with 80%N. unfold hash_count. destruct (N.leb_spec 80 t); [|reflexivity].
    rewrite (N.mod_small (2 * (t - 80))) by lia. reflexivity. }
  destruct (leaf_step _ _ _ _ _ _ _ At Hb Z Hf) as (st' & R' & O' & E' & K' & V'); try reflexivity; try discriminate.
  { intros u' s' e' Np Hs'. exfalso. eapply no_string; eauto; fold t; lia. }
  cbn [f_out f_adv f_push] in *. cbn [app] in K'. exists st'. split; [|split; [|split]].
  - split; auto; split; auto; split; [lia|rewrite K'; apply stk_here].
  - rewrite V'. apply extends_app.
  - rewrite V', app_length. cbn. lia.
  - rewrite V'. apply tag_here; [reflexivity|lia].
Qed.

Lemma hash_count_is n : (n < 1073741824)%N -> hash_count n = (2 * n + 2147483648)%N.
Proof.
  intros L. unfold hash_count, hashFlag. rewrite N.mod_small by lia.
  change 2147483648%N with (N.shiftl 1 31) at 1. rewrite lor_disjoint; [reflexivity|]. change (2 ^ 31)%N with 2147483648%N. lia.
Qed.
Lemma land_flag_small n : (n < 2147483648)%N -> N.land n hashFlag = 0%N.
Proof.
  intros L. unfold hashFlag. change 2147483648%N with (2 ^ 31)%N in *. apply N.bits_inj. intros i.
  rewrite N.land_spec, N.bits_0, N.pow2_bits_eqb. destruct (N.eqb_spec 31 i) as [<-|]; [|apply andb_false_r].
  destruct (N.testbit n 31) eqn:T; [|reflexivity]. exfalso. apply N.testbit_true in T.
  rewrite N.div_small in T by exact L. discriminate.
Qed.
Lemma land_flag_big n : (n < 2147483648)%N -> N.land (n + 2147483648) hashFlag <> 0%N.
Proof.
  intros L. assert (E : (n + 2147483648)%N = N.lor n hashFlag).
  { change hashFlag with (N.shiftl 1 31). rewrite lor_disjoint; [reflexivity|exact L]. }
  rewrite E, N.land_lor_distr_l, N.land_diag, land_flag_small by exact L. discriminate.
Qed.
Lemma dedup_small n : (n < 2147483648)%N -> dedup g n = false.
Proof. intros L. unfold dedup. rewrite Hded, land_flag_small by exact L. reflexivity. Qed.
Lemma dedup_hash n : (n < 2147483648)%N -> dedup g (n + 2147483648) = N.even n.
Proof.
  intros L. unfold dedup. rewrite Hded. destruct (N.eqb_spec (N.land (n + 2147483648) hashFlag) 0) as [E|_].
  - now apply land_flag_big in E.
  - cbn [negb andb orb]. rewrite N.even_add. change (N.even 2147483648) with true. now destruct (N.even n).
Qed.

Definition Mitems (p : nat) (ds : list data) (p' : nat) : Prop :=
  forall fin st rest, at_pos fin st p (N.of_nat (length ds)) rest ->
  exists st', at_pos fin st' p' 0 rest /\ extends (stv st) (stv st') /\
    items gm (stv st') CKeys (length (stv st)) ds (length (stv st')).
Definition Mpairs (p : nat) (kvs : list (bytes * data)) (p' : nat) : Prop :=
  forall fin st rest, at_pos fin st p (2 * N.of_nat (length kvs) + 2147483648) rest ->
  exists st', at_pos fin st' p' 2147483648 rest /\ extends (stv st) (stv st') /\
    pairs gm (stv st') CKeys (length (stv st)) kvs (length (stv st')).

Lemma at_zero fin st p c c' rest : at_pos fin st p c (c' :: rest) -> zero c -> at_pos fin st p c' rest.
Proof. intros (R & O & E & K) Z. split; [auto|]. split; [auto|]. split; [auto|]. eapply stk_zero; eauto. Qed.

Lemma tag_byte p q t : tag_at src p q t -> exists b, nth_error src q = Some b /\ t = (b2n b mod 128)%N /\ t <> 63%N /\ q < S (length buf).
Proof.
  intros (_ & _ & b & Hb & Et & Nt). exists b. repeat split; auto. apply nth_error_Some_lt in Hb. exact Hb.
Qed.

Lemma item_at p q t dd p' : tag_at src p q t ->
  (forall i b, q = S i -> nth_error src (S i) = Some b -> t = (b2n b mod 128)%N ->
     (exists x, x = b) -> Mitem (S i) dd p') -> Mitem p dd p'.
Proof.
  intros Ht H. eapply item_after_pads; [exact Ht|]. destruct (tag_byte _ _ _ Ht) as (b & Hb & Et & _).
  intros fin st c rest At Z D. pose proof At as (_ & _ & E & _). subst q.
  exact (H _ _ eq_refl Hb Et (ex_intro _ _ eq_refl) _ _ _ _ At Z D).
Qed.

(** a tag of one byte *)
Lemma byte_item p q t dd : tag_at src p q t -> (t < 32 \/ t = 37 \/ t = 57 \/ t = 58 \/ t = 59)%N ->
  (forall by_ q, tag_at by_ q q t -> item gm by_ CKeys q dd (S q)) -> Mitem p dd (S q).
Proof.
  intros Ht Hk Hi. eapply item_at; [exact Ht|]. intros i b -> Hb Et _.
  replace (S (S i)) with (S i + length [b]) by (cbn; lia).
  apply leaf_item with (b := b); auto; try lia.
  - intros. unfold merge_tag. rewrite untrack_mod, <- Et, kind_byte by lia. reflexivity.
  - intros V. replace (length V + length [b]) with (S (length V)) by (cbn; lia). apply Hi. apply tag_here; auto. lia.
Qed.

(** a tag with bytes after it *)
Lemma bytes_item p q t dd l : tag_at src p q t -> (t = 32 \/ t = 33 \/ t = 34 \/ t = 35)%N ->
  at_ src (S q) l ->
  (forall i strs objs tt_ rel dd b, q = S i -> nth_error src (S i) = Some b -> t = (b2n b mod 128)%N ->
     merge_tag d strs objs tt_ i rel dd b = Ok (plain (b :: l) (length (b :: l)) rel)) ->
  (forall V b, tag_at (V ++ b :: l) (length V) (length V) t ->
     item gm (V ++ b :: l) CKeys (length V) dd (length V + S (length l))) -> Mitem p dd (S q + length l).
Proof.
  intros Ht Hk A Hm Hi. eapply item_at; [exact Ht|]. intros i b -> Hb Et _.
  replace (S (S i) + length l) with (S i + length (b :: l)) by (cbn; lia).
  apply leaf_item with (b := b); auto; try lia.
  - intros. replace (S i - 1) with i by lia. now apply Hm.
  - intros V. apply Hi. apply tag_here; auto. lia.
Qed.

Lemma merge_varint t l n i b : t = (b2n b mod 128)%N -> (t = 32 \/ t = 33)%N -> nth_error src (S i) = Some b ->
  at_ src (S (S i)) l -> vgroups l n -> length l <= 10 ->
  forall strs objs tt_ rel dd, merge_tag d strs objs tt_ i rel dd b = Ok (plain (b :: l) (length (b :: l)) rel).
Proof.
  intros Et Hk Hb A G L strs objs tt_ rel dd. unfold merge_tag. rewrite untrack_mod, <- Et.
  replace (merge_kind t) with KVarint by (destruct Hk as [->| ->]; reflexivity). cbn match.
  assert (D : varintdecode (skipn (S i) buf) = VOk (to_int n) (length l)).
  { destruct A as (pre & post & E & Ep). destruct pre as [|x pre]; [discriminate|]. cbn in E, Ep.
    injection E as _ E. injection Ep as Ep. rewrite E, skipn_app, <- Ep, skipn_all, Nat.sub_diag. cbn [app skipn].
    now apply varintdecode_groups. }
  rewrite D. assert (A2 : at_ src (S i) (b :: l)) by (now apply at_cons).
  replace (i + length l + 1) with (i + length (b :: l)) by (cbn [length]; lia). rewrite (drange_at _ _ A2).
  cbn [bind length]. now replace (length l + 1) with (S (length l)) by lia.
Qed.

Lemma merge_fixed t l i b : t = (b2n b mod 128)%N -> merge_kind t = KFixed (S (length l)) -> nth_error src (S i) = Some b ->
  at_ src (S (S i)) l ->
  forall strs objs tt_ rel dd, merge_tag d strs objs tt_ i rel dd b = Ok (plain (b :: l) (length (b :: l)) rel).
Proof.
  intros Et Hk Hb A strs objs tt_ rel dd. unfold merge_tag. rewrite untrack_mod, <- Et, Hk.
  assert (A2 : at_ src (S i) (b :: l)) by (now apply at_cons).
  change (S (length l)) with (length (b :: l)). rewrite (drange_at _ _ A2). reflexivity.
Qed.

Lemma regexp_item p q kk s1 r s2 p' : tag_at src p q 49 -> stringish gs src kk (S q) s1 r -> stringish gs src kk r s2 p' ->
  s1 <> [] -> s2 <> [] -> Mitem p (DRegexp s1 s2) p'.
Proof.
  intros Ht H1 H2 N1 N2. eapply item_at; [exact Ht|]. intros i b -> Hb Et _.
  intros fin st c rest At Z D. pose proof At as (R & O & E & K). assert (Ei : s_idx st = i) by lia.
  pose proof Hb as Hb'. rewrite src_nth in Hb'.
  destruct (loop_step w g d hd _ _ b _ _ R (proj1 O) ltac:(now rewrite Ei) K Z) as (f & Hf & _).
  pose proof Hf as Hf0. unfold merge_tag in Hf. rewrite untrack_mod, <- Et in Hf. change (merge_kind 49) with KRegexp in Hf.
  cbn match in Hf. rewrite Ei in Hf.
  destruct (readString (skipn (S i) buf)) as [[off1 x1]|x|x| |] eqn:E1; cbn [bind] in Hf; try discriminate.
  destruct (readString_lit _ _ _ _ _ _ H1 N1 E1) as (u1 & b1 & l1 & A1 & -> & Eo1 & -> & _ & G1).
  replace (i + (off1 + length s1 + 1)) with (S i + S (length l1)) in Hf by lia.
  destruct (readString (skipn (S i + S (length l1)) buf)) as [[off2 x2]|x|x| |] eqn:E2; cbn [bind] in Hf; try discriminate.
  destruct (readString_lit kk (S i + S (length l1)) _ _ _ _ H2 N2 E2) as (u2 & b2 & l2 & A2 & -> & Eo2 & -> & _ & G2).
  set (out := b :: (b1 :: l1) ++ (b2 :: l2)).
  assert (Ao : at_ src (S i) out) by (apply at_cons; [exact Hb|]; apply at_join; auto).
  assert (Lo : length out = S (S (length l1) + S (length l2))) by (unfold out; cbn [length]; rewrite app_length; cbn [length]; lia).
  replace (off1 + length s1 + 1 + (off2 + length s2)) with (length out) in Hf by lia.
  rewrite (drange_at _ _ Ao) in Hf. cbn [bind] in Hf. apply (f_equal (fun r => match r with Ok x => x | _ => f end)) in Hf.
  destruct (leaf_step _ _ _ _ _ _ f At Hb Z Hf0) as (st' & R' & O' & E' & K' & V'); try (rewrite <- Hf; reflexivity);
    try (intros v; rewrite <- Hf; discriminate).
  { intros u' s' e' Np Hs'. exfalso. eapply no_string; eauto; lia. }
  rewrite <- Hf in *. unfold plain in *. cbn [f_out f_adv f_push] in *. cbn [app] in K'.
  exists st'. split; [split; auto; split; auto; split; [rewrite E', Lo; lia|rewrite K'; apply stk_here]|].
  rewrite V'. split; [apply extends_app|]. rewrite app_length.
  eapply i_regexp with (q := length (stv st)) (r := S (length (stv st)) + S (length l1)).
  - unfold out. apply tag_here; auto. lia.
  - eapply str_lit. specialize (G1 (stv st ++ [b])). rewrite <- app_assoc in G1. cbn [app] in G1.
    rewrite app_length in G1. cbn [length] in G1. replace (length (stv st) + 1) with (S (length (stv st))) in G1 by lia.
    eapply strlit_ext; [|exact G1]. exists (b2 :: l2). unfold out. rewrite <- !app_assoc. reflexivity.
  - eapply str_lit. specialize (G2 (stv st ++ b :: b1 :: l1)). rewrite <- app_assoc in G2. cbn [app] in G2.
    rewrite app_length in G2. cbn [length] in G2. unfold out. cbn [app].
    replace (S (length (stv st)) + S (length l1)) with (length (stv st) + S (S (length l1))) by lia.
    replace (length (stv st) + length (b :: b1 :: l1 ++ b2 :: l2)) with (length (stv st) + S (S (length l1)) + S (length l2)); [exact G2|].
    cbn [length]. rewrite app_length. cbn [length]. lia.
Qed.

(** after the class: the item in the object *)
Lemma one_more c rest fin st p dd p' : Mitem p dd p' -> at_pos fin st p 1 (c :: rest) ->
  exists st', at_pos fin st' p' c rest /\ extends (stv st) (stv st') /\
    item gm (stv st') CKeys (length (stv st)) dd (length (stv st')).
Proof.
  intros H At. destruct (H _ _ _ _ At ltac:(discriminate) ltac:(now apply dedup_small)) as (st' & At' & X & I).
  exists st'. split; [|auto]. eapply at_zero; [exact At'|reflexivity].
Qed.

(** the array with one string of a frozen object *)
Lemma frozen c rest fin st r n r' s p' : at_ src r [x28; x2b] -> vint src (r + 2) n r' -> n = 1%N ->
  Mitem r' (DBin s) p' -> at_pos fin st r 1 (c :: rest) ->
  exists st' e, at_pos fin st' p' c rest /\ extends (stv st) (stv st') /\
    at_ (stv st') (length (stv st)) [x28; x2b] /\ vint (stv st') (length (stv st) + 2) 1 e /\
    item gm (stv st') CKeys e (DBin s) (length (stv st')).
Proof.
  intros A Hv -> H At. pose proof At as (_ & _ & E & _). set (i := s_idx st) in *.
  assert (B0 : nth_error src r = Some x28).
  { apply at_iff in A as [_ A]. specialize (A 0 _ eq_refl). now rewrite Nat.add_0_r in A. }
  assert (B1 : nth_error src (S r) = Some x2b).
  { apply at_iff in A as [_ A]. specialize (A 1 _ eq_refl). now rewrite Nat.add_1_r in A. }
  destruct (fake_step _ _ _ _ _ _ 40 At ltac:(discriminate) B0 eq_refl ltac:(auto)) as (st1 & At1 & V1).
  replace (r + 2) with (S (S r)) in Hv by lia.
  destruct (container_tag _ _ _ _ _ _ _ _ At1 ltac:(discriminate) B1 ltac:(left; reflexivity) Hv ltac:(lia))
    as (st2 & At2 & X2 & T2 & V2 & N2).
  change (if (b2n x2b mod 128 =? 42)%N then hash_count 1 else 1%N) with 1%N in At2. change (N.pred 1) with 0%N in At2.
  destruct (one_more _ _ _ _ _ _ _ H At2) as (st3 & At3 & X3 & I3).
  assert (X1 : extends (stv st) (stv st1)) by (rewrite V1; apply extends_app).
  assert (L1 : length (stv st1) = S (length (stv st))) by (rewrite V1, app_length; cbn; lia).
  exists st3, (length (stv st2)). split; [eapply at_zero; [exact At3|reflexivity]|].
  split; [eapply extends_trans; [exact X1|]; eapply extends_trans; eauto|].
  split; [|split].
  - eapply (at_ext gm); [exact X3|]. pose proof (nth_error_Some_lt _ _ _ _ N2). apply at_cons.
    + eapply ext_nth; [exact X2|]. rewrite V1, nth_error_app2, Nat.sub_diag by lia. reflexivity.
    + apply at_cons; [rewrite <- L1; exact N2|]. apply at_iff. cbn [length]. split; [lia|]. intros [|]; discriminate.
  - rewrite L1 in V2. replace (length (stv st) + 2) with (S (S (length (stv st)))) by lia. eapply (vint_ext gm); eauto.
  - exact I3.
Qed.

Lemma nz n : (0 < n < 2147483648)%N -> ~ zero n.
Proof. intros L H. apply zero_small in H; lia. Qed.

Theorem merged_items :
  (forall m p dd p', item gs src m p dd p' -> m <> CAny -> named dd -> Mitem p dd p') /\
  (forall m p ds p', items gs src m p ds p' -> m <> CAny -> named (DArr ds) -> Mitems p ds p') /\
  (forall m p kvs p', pairs gs src m p kvs p' -> m <> CAny -> named (DHash kvs) -> Mpairs p kvs p').
Proof.
  assert (Ln : (N.of_nat (length src) < 2147483648)%N) by (cbn [length]; lia).
  assert (Cn : forall m p ds p', items gs src m p ds p' -> p <= length src -> (N.of_nat (length ds) < 2147483648)%N).
  { intros m p ds p' H Lp. apply (proj2 (grammar_ends gs src)) in H as [L1 L2]. specialize (L2 Lp). lia. }
  assert (Cp : forall m p ds p', pairs gs src m p ds p' -> p <= length src -> (N.of_nat (length ds) < 1073741824)%N).
  { intros m p ds p' H Lp. apply (proj2 (proj2 (grammar_ends gs src))) in H as [L1 L2]. specialize (L2 Lp). lia. }
  apply (grammar_mind gs src (fun m p dd p' _ => m <> CAny -> named dd -> Mitem p dd p')
           (fun m p ds p' _ => m <> CAny -> named (DArr ds) -> Mitems p ds p')
           (fun m p kvs p' _ => m <> CAny -> named (DHash kvs) -> Mpairs p kvs p')).
  - intros m p q t Ht Hr _ _. eapply byte_item; [exact Ht|lia|]. intros. now apply i_pos.
  - intros m p q t Ht Hr _ _. eapply byte_item; [exact Ht|lia|]. intros. now apply i_neg.
  - intros m p q n r Ht (l & A & G & L & N & ->) _ _. eapply bytes_item; [exact Ht|lia|exact A| |].
    + intros i strs objs tt_ rel dd b -> Hb Et. eapply merge_varint; eauto; lia.
    + intros V b T. replace (length V + S (length l)) with (length (V ++ b :: l)) by (rewrite app_length; reflexivity).
      eapply i_varint; [exact T|now apply vint_here].
  - intros m p q n r Ht (l & A & G & L & N & ->) He _ _. eapply bytes_item; [exact Ht|lia|exact A| |].
    + intros i strs objs tt_ rel dd b -> Hb Et. eapply merge_varint; eauto; lia.
    + intros V b T. replace (length V + S (length l)) with (length (V ++ b :: l)) by (rewrite app_length; reflexivity).
      eapply i_zigzag; [exact T|now apply vint_here|exact He].
  - intros m p q l Ht A El _ _. rewrite <- El. eapply bytes_item; [exact Ht|lia|exact A| |].
    + intros i strs objs tt_ rel dd b -> Hb Et. eapply merge_fixed; eauto. now rewrite El.
    + intros V b T. replace (length V + S (length l)) with (S (length V) + 4) by lia.
      eapply i_float; [exact T|apply at_next|exact El].
  - intros m p q l Ht A El _ _. rewrite <- El. eapply bytes_item; [exact Ht|lia|exact A| |].
    + intros i strs objs tt_ rel dd b -> Hb Et. eapply merge_fixed; eauto. now rewrite El.
    + intros V b T. replace (length V + S (length l)) with (S (length V) + 8) by lia.
      eapply i_double; [exact T|apply at_next|exact El].
  - intros m p q Ht _ _. eapply byte_item; [exact Ht|lia|]. intros. now apply i_undef.
  - intros m p q Ht _ _. eapply byte_item; [exact Ht|lia|]. intros. now apply i_canon.
  - intros m p q Ht _ _. eapply byte_item; [exact Ht|lia|]. intros. now apply i_false.
  - intros m p q Ht _ _. eapply byte_item; [exact Ht|lia|]. intros. now apply i_true.
  - intros m p u s p' Hs _ _. now apply string_item.
  - (* REFN *)
    intros m p q dd p' Ht _ IH Hm Hn. eapply item_at; [exact Ht|]. intros i b -> Hb Et _ fin st c rest At Z D.
    destruct (fake_step _ _ _ _ _ _ _ At Z Hb Et ltac:(auto)) as (st1 & At1 & V1).
    destruct (IH Hm Hn _ _ _ _ At1 Z D) as (st2 & At2 & X2 & I2). exists st2. split; [exact At2|].
    assert (L1 : length (stv st1) = S (length (stv st))) by (rewrite V1, app_length; cbn; lia).
    split; [eapply extends_trans; [|exact X2]; rewrite V1; apply extends_app|].
    eapply i_refn; [|rewrite <- L1; exact I2]. eapply (tag_ext gm); [exact X2|]. rewrite V1. apply tag_here; [auto|lia].
  - (* WEAKEN *)
    intros m p q dd p' Ht _ IH Hm Hn. eapply item_at; [exact Ht|]. intros i b -> Hb Et _ fin st c rest At Z D.
    destruct (fake_step _ _ _ _ _ _ _ At Z Hb Et ltac:(auto)) as (st1 & At1 & V1).
    destruct (IH Hm Hn _ _ _ _ At1 Z D) as (st2 & At2 & X2 & I2). exists st2. split; [exact At2|].
    assert (L1 : length (stv st1) = S (length (stv st))) by (rewrite V1, app_length; cbn; lia).
    split; [eapply extends_trans; [|exact X2]; rewrite V1; apply extends_app|].
    eapply i_weaken; [|rewrite <- L1; exact I2]. eapply (tag_ext gm); [exact X2|]. rewrite V1. apply tag_here; [auto|lia].
  - (* ARRAY *)
    intros m p q n r ds p' Ht Hv Hx El Hi IH Hm Hn. eapply item_at; [exact Ht|]. intros i b -> Hb Et _ fin st c rest At Z D.
    pose proof (vint_ends _ _ _ _ Hv). pose proof (Cn _ _ _ _ Hi ltac:(lia)) as Lc.
    destruct (container_tag _ _ _ _ _ _ _ _ At Z Hb ltac:(lia) Hv ltac:(lia)) as (st1 & At1 & X1 & T1 & V1 & _).
    rewrite <- Et in *. cbn [N.eqb Pos.eqb] in At1. rewrite <- El in At1.
    destruct (IH Hm Hn _ _ _ At1) as (st2 & At2 & X2 & I2). exists st2.
    split; [eapply at_zero; [exact At2|reflexivity]|]. split; [eapply extends_trans; eauto|].
    eapply i_array; [eapply (tag_ext gm); eauto|eapply (vint_ext gm); eauto|exact Hx|exact El|exact I2].
  - (* ARRAYREF *)
    intros m p q t ds p' Ht Hr El Hi IH Hm Hn. eapply item_at; [exact Ht|]. intros i b -> Hb Et _ fin st c rest At Z D.
    pose proof (tag_ends _ _ _ _ Ht). pose proof (Cn _ _ _ _ Hi ltac:(lia)) as Lc.
    destruct (containerref_tag _ _ _ _ _ _ At Z Hb ltac:(lia)) as (st1 & At1 & X1 & L1 & T1).
    rewrite <- Et in *. destruct (N.leb_spec 80 t); [lia|]. rewrite <- El in At1.
    destruct (IH Hm Hn _ _ _ At1) as (st2 & At2 & X2 & I2). exists st2.
    split; [eapply at_zero; [exact At2|reflexivity]|]. split; [eapply extends_trans; eauto|]. rewrite L1 in I2.
    eapply i_arrayref; [eapply (tag_ext gm); eauto|exact Hr|exact El|exact I2].
  - (* HASH *)
    intros m p q n r ds p' Ht Hv Hx El Hi IH Hm Hn. eapply item_at; [exact Ht|]. intros i b -> Hb Et _ fin st c rest At Z D.
    pose proof (vint_ends _ _ _ _ Hv). pose proof (Cp _ _ _ _ Hi ltac:(lia)) as Lc.
    destruct (container_tag _ _ _ _ _ _ _ _ At Z Hb ltac:(lia) Hv ltac:(lia)) as (st1 & At1 & X1 & T1 & V1 & _).
    rewrite <- Et in *. cbn [N.eqb Pos.eqb] in At1. rewrite <- El, hash_count_is in At1 by lia.
    destruct (IH Hm Hn _ _ _ At1) as (st2 & At2 & X2 & I2). exists st2.
    split; [eapply at_zero; [exact At2|reflexivity]|]. split; [eapply extends_trans; eauto|].
    eapply i_hash; [eapply (tag_ext gm); eauto|eapply (vint_ext gm); eauto|exact Hx|exact El|exact I2].
  - (* HASHREF *)
    intros m p q t ds p' Ht Hr El Hi IH Hm Hn. eapply item_at; [exact Ht|]. intros i b -> Hb Et _ fin st c rest At Z D.
    pose proof (tag_ends _ _ _ _ Ht). pose proof (Cp _ _ _ _ Hi ltac:(lia)) as Lc.
    destruct (containerref_tag _ _ _ _ _ _ At Z Hb ltac:(lia)) as (st1 & At1 & X1 & L1 & T1).
    rewrite <- Et in *. destruct (N.leb_spec 80 t); [|lia]. rewrite <- El, hash_count_is in At1 by lia.
    destruct (IH Hm Hn _ _ _ At1) as (st2 & At2 & X2 & I2). exists st2.
    split; [eapply at_zero; [exact At2|reflexivity]|]. split; [eapply extends_trans; eauto|]. rewrite L1 in I2.
    eapply i_hashref; [eapply (tag_ext gm); eauto|exact Hr|exact El|exact I2].
  - (* OBJECT *)
    intros m p q cls r dd p' Ht Hs _ IH Hm [Nc Hn]. eapply item_at; [exact Ht|]. intros i b -> Hb Et _ fin st c rest At Z D.
    destruct (object_tag _ _ _ _ _ _ _ _ _ At Z Hb ltac:(lia) Hs Nc) as (st1 & At1 & X1 & C1).
    destruct (one_more _ _ _ _ _ _ _ (IH Hm Hn) At1) as (st2 & At2 & X2 & I2). exists st2. split; [exact At2|].
    split; [eapply extends_trans; eauto|]. rewrite <- Et in C1. destruct C1 as [[T1 S1]|(tg & u & e & T1 & V1 & L1 & L2 & S1)].
    + eapply i_object; [eapply (tag_ext gm); eauto|eapply stringish_ext; eauto|exact I2].
    + eapply i_objectv; [eapply (tag_ext gm); eauto|eapply (vint_ext gm); eauto|exact L1|eapply refers_lit; eauto|eapply strlit_ext; eauto|exact I2].
  - (* OBJECTV *)
    intros m p q n r u cls e dd p' Ht Hv Hq Hr Hs _ IH Hm [Nc Hn]. eapply item_at; [exact Ht|]. intros i b -> Hb Et _ fin st c rest At Z D.
    destruct (back_tag _ _ _ _ _ _ _ _ _ _ _ At Z Hb ltac:(lia) Hv Hq Hr Hs) as (st1 & tg & R1 & O1 & E1 & K1 & V1 & Lt & Lo & u1 & e1 & S1).
    rewrite <- Et in K1. cbn in K1.
    assert (At1 : at_pos fin st1 r 1 (N.pred c :: rest)) by (split; auto; split; auto; split; [lia|rewrite K1; apply stk_here]).
    assert (X1 : extends (stv st) (stv st1)) by (rewrite V1; apply extends_app).
    destruct (one_more _ _ _ _ _ _ _ (IH Hm Hn) At1) as (st2 & At2 & X2 & I2). exists st2. split; [exact At2|].
    split; [eapply extends_trans; eauto|].
    eapply i_objectv with (q := length (stv st)) (n := N.of_nat tg); [| | | | |exact I2].
    + eapply (tag_ext gm); [exact X2|]. rewrite V1. apply tag_here; [auto|lia].
    + eapply (vint_ext gm); [exact X2|]. rewrite V1. now apply vint_back.
    + rewrite Nat2N.id. apply strlit_ends in S1. lia.
    + rewrite Nat2N.id. eapply (refers_lit (stv st)); [eapply extends_trans; eauto|exact S1|exact Lo].
    + rewrite Nat2N.id. eapply strlit_ext; [exact X2|]. eapply strlit_ext; eauto.
  - intros m p q s1 r s2 p' Ht H1 H2 _ [N1 N2]. eapply regexp_item; eauto.
  - (* FREEZE *)
    intros m p q cls r n r' s p' Ht Hs Ha Hv Hn1 _ IH Hf Hm Nc. eapply item_at; [exact Ht|]. intros i b -> Hb Et _ fin st c rest At Z D.
    destruct (object_tag _ _ _ _ _ _ _ _ _ At Z Hb ltac:(lia) Hs Nc) as (st1 & At1 & X1 & C1).
    destruct (frozen _ _ _ _ _ _ _ _ _ Ha Hv Hn1 (IH Hm I) At1) as (st2 & e & At2 & X2 & A2 & V2 & I2).
    exists st2. split; [exact At2|]. split; [eapply extends_trans; eauto|]. rewrite <- Et in C1.
    destruct C1 as [[T1 S1]|(tg & u & e1 & T1 & V1 & L1 & L2 & S1)].
    + eapply i_freeze; [eapply (tag_ext gm); eauto|eapply stringish_ext; eauto|exact A2|exact V2|reflexivity|exact I2|exact Hf].
    + eapply i_freezev; [eapply (tag_ext gm); eauto|eapply (vint_ext gm); eauto|exact L1|eapply refers_lit; eauto|eapply strlit_ext; eauto|exact A2|exact V2|reflexivity|exact I2|exact Hf].
  - (* FREEZEV *)
    intros m p q o r0 u cls e n r' s p' Ht Hv0 Hq Hr Hs Ha Hv Hn1 _ IH Hf Hm Nc. eapply item_at; [exact Ht|]. intros i b -> Hb Et _ fin st c rest At Z D.
    destruct (back_tag _ _ _ _ _ _ _ _ _ _ _ At Z Hb ltac:(lia) Hv0 Hq Hr Hs) as (st1 & tg & R1 & O1 & E1 & K1 & V1 & Lt & Lo & u1 & e1 & S1).
    rewrite <- Et in K1. cbn in K1.
    assert (At1 : at_pos fin st1 r0 1 (N.pred c :: rest)) by (split; auto; split; auto; split; [lia|rewrite K1; apply stk_here]).
    assert (X1 : extends (stv st) (stv st1)) by (rewrite V1; apply extends_app).
    destruct (frozen _ _ _ _ _ _ _ _ _ Ha Hv Hn1 (IH Hm I) At1) as (st2 & e2 & At2 & X2 & A2 & V2 & I2).
    exists st2. split; [exact At2|]. split; [eapply extends_trans; eauto|].
    eapply i_freezev with (q := length (stv st)) (o := N.of_nat tg); [| | | | |exact A2|exact V2|reflexivity|exact I2|exact Hf].
    + eapply (tag_ext gm); [exact X2|]. rewrite V1. apply tag_here; [auto|lia].
    + eapply (vint_ext gm); [exact X2|]. rewrite V1. now apply vint_back.
    + rewrite Nat2N.id. apply strlit_ends in S1. lia.
    + rewrite Nat2N.id. eapply (refers_lit (stv st)); [eapply extends_trans; eauto|exact S1|exact Lo].
    + rewrite Nat2N.id. eapply strlit_ext; [exact X2|]. eapply strlit_ext; eauto.
  - intros p q n r dd e _ _ _ _ _ _ Hm. now elim Hm.
  - intros m p _ _ fin st rest At. exists st. split; [exact At|]. split; [apply extends_refl|apply is_nil].
  - intros m p dd r ds p' Hi IH1 Hl IH2 Hm [Hn1 Hn2] fin st rest At. cbn [length] in At.
    assert (Lr : r <= length src) by (apply (proj1 (grammar_ends gs src)) in Hi; lia).
    pose proof (Cn _ _ _ _ Hl Lr) as Lc.
    assert (Lc2 : (N.of_nat (S (length ds)) < 2147483648)%N).
    { apply (proj1 (grammar_ends gs src)) in Hi. apply (proj2 (grammar_ends gs src)) in Hl as [L1 L2]. specialize (L2 Lr). lia. }
    destruct (IH1 Hm Hn1 _ _ _ _ At ltac:(apply nz; lia) ltac:(apply dedup_small; lia)) as (st1 & At1 & X1 & I1).
    replace (N.pred (N.of_nat (S (length ds)))) with (N.of_nat (length ds)) in At1 by lia.
    destruct (IH2 Hm Hn2 _ _ _ At1) as (st2 & At2 & X2 & I2). exists st2. split; [exact At2|].
    split; [eapply extends_trans; eauto|]. eapply is_cons; [eapply item_ext; eauto|exact I2].
  - intros m p _ _ fin st rest At. exists st. split; [exact At|]. split; [apply extends_refl|apply ps_nil].
  - intros m p key r dd r' kvs p' Hs Hi IH1 Hl IH2 Hm [Hn1 Hn2] fin st rest At. cbn [length] in At.
    assert (Lr : r' <= length src) by (apply (proj1 (grammar_ends gs src)) in Hi; lia).
    assert (Lc : (2 * N.of_nat (S (length kvs)) < 2147483648)%N).
    { apply (proj1 (grammar_ends gs src)) in Hi. apply (proj2 (proj2 (grammar_ends gs src))) in Hl as [L1 L2].
      specialize (L2 Lr). apply stringish_ends in Hs. lia. }
    remember (2 * N.of_nat (S (length kvs)))%N as k2 eqn:Ek. assert (K0 : (1 < k2)%N) by lia.
    assert (Kz : forall x, (0 < x < 2147483648)%N -> ~ zero (x + 2147483648)).
    { intros x Lx H. apply zero_mod in H. lia. }
    assert (Ev : N.even k2 = true) by (rewrite Ek, N.even_mul; reflexivity).
    destruct (key_item _ _ _ _ Hs _ _ _ _ At (Kz k2 ltac:(lia)) ltac:(rewrite dedup_hash; [exact Ev|lia])) as (st1 & At1 & X1 & S1).
    replace (N.pred (k2 + 2147483648)) with (N.pred k2 + 2147483648)%N in At1 by lia.
    destruct (IH1 Hm Hn1 _ _ _ _ At1 (Kz (N.pred k2) ltac:(lia))) as (st2 & At2 & X2 & I2).
    { rewrite dedup_hash by lia. rewrite <- N.negb_odd, N.odd_pred by lia. now rewrite Ev. }
    replace (N.pred (N.pred k2 + 2147483648)) with (2 * N.of_nat (length kvs) + 2147483648)%N in At2 by lia.
    destruct (IH2 Hm Hn2 _ _ _ At2) as (st3 & At3 & X3 & I3). exists st3. split; [exact At3|].
    split; [eapply extends_trans; [exact X1|]; eapply extends_trans; eauto|].
    eapply ps_cons; [|eapply item_ext; eauto|exact I3]. eapply stringish_ext; [exact X3|]. eapply stringish_ext; eauto.
Qed.
End Items.
