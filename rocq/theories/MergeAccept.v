(** The Merger accepts the documents of SpecAccept. *)
From Verif Require Import Base BaseFacts SpecVarint Varint VarintFacts Tags Codecs Encode Compress Header
  Spec GrammarFacts GoSlice RedocFacts Merge SpecMerge MergeFacts MergeItems SpecAccept.
From Coq Require Import ZifyBool ZifyNat ZifyN Sorted.
Ltac Zify.zify_post_hook ::= Z.div_mod_to_equations.

(** * The layout *)
Lemma string_ends by_ p b s e : string_at by_ p b s e -> p < e <= length by_.
Proof. intros (_ & _ & u & H). eapply strlit_ends; eauto. Qed.
Lemma name_ends by_ p e : name_at by_ p e -> p < e <= length by_.
Proof. intros (b & s & H & _). eapply string_ends; eauto. Qed.

Lemma laid_ends by_ n s p s' p' : laid by_ n s p s' p' ->
  p + n <= p' /\ (p <= length by_ -> p' <= length by_) /\
  exists l, s' = l ++ s /\ forall x, In x l -> p <= x < p'.
Proof.
  assert (One : forall p q p' (l s s' : list nat), s' = l ++ p :: s -> (forall x, In x l -> q <= x < p') -> p < q -> q <= p' ->
    exists l', s' = l' ++ s /\ forall x, In x l' -> p <= x < p').
  { intros q0 q p0 l s0 s1 -> H L1 L2. exists (l ++ [q0]). rewrite <- app_assoc. split; [reflexivity|].
    intros x Hx. apply in_app_or in Hx as [Hx|[<-|[]]]; [apply H in Hx|]; lia. }
  assert (Two : forall p q p1 p' (l l1 s s1 s' : list nat), s1 = l1 ++ p :: s -> s' = l ++ s1 ->
    (forall x, In x l1 -> q <= x < p1) -> (forall x, In x l -> p1 <= x < p') -> p < q -> q <= p1 -> p1 <= p' ->
    exists l', s' = l' ++ s /\ forall x, In x l' -> p <= x < p').
  { intros q0 q p1 p0 l l1 s0 s1 s2 -> -> H1 H2 L1 L2 L3. exists (l ++ l1 ++ [q0]). rewrite <- !app_assoc. split; [reflexivity|].
    intros x Hx. apply in_app_or in Hx as [Hx|Hx]; [apply H2 in Hx; lia|].
    apply in_app_or in Hx as [Hx|[<-|[]]]; [apply H1 in Hx|]; lia. }
  induction 1;
    repeat match goal with
    | H : vint _ _ _ _ |- _ => apply vint_ends in H
    | H : at_ _ _ _ |- _ => apply at_iff in H as [H _]
    | H : string_at _ _ _ _ _ |- _ => apply string_ends in H
    | H : name_at _ _ _ |- _ => apply name_ends in H
    | H : nth_error _ _ = Some _ |- _ => apply nth_error_Some_lt in H
    | H : _ /\ _ |- _ => destruct H
    | H : exists _, _ |- _ => destruct H
    end; (split; [lia|split; [lia|]]);
    try solve [eapply One; eauto; lia]; try solve [eapply Two; eauto; lia].
  exists []. split; [reflexivity|]. intros x [].
Qed.

Lemma laid_incl by_ n s p s' p' x : laid by_ n s p s' p' -> In x s -> In x s'.
Proof. intros H Hx. destruct (laid_ends _ _ _ _ _ _ H) as (_ & _ & l & -> & _). apply in_or_app. auto. Qed.

Section Accept.
Variable w : mworld.
Variable g : mconfig.
Variable d : mdoc.
Notation buf := (md_buf d).
Notation src := (x00 :: md_buf d).
Hypothesis Hlen : (Z.of_nat (length buf) < 2147483647)%Z.

Let F0 := fun _ _ : bytes => True.
Let short_len' := short_len g d [] F0.
Let strlit_tag' := strlit_tag g d F0.
Let lit_tag' := lit_tag g d [] 1 1 18446744073709551615 true CKeys F0 Hlen.
Let merge_varint' := merge_varint g d F0.
Let merge_fixed' := merge_fixed g d F0.
Let drange_at' := drange_at g d F0.
Let kind_byte' := kind_byte g d [] F0.
Let kind_containerref' := kind_containerref g d [] F0.
Let hash_count_is' := hash_count_is g d [] F0.

Lemma nth_src i b : nth_error src (S i) = Some b -> nth_error buf i = Some b.
Proof. intros H. exact H. Qed.

Lemma vint_read i n r : vint src (S (S i)) n r ->
  varintdecode (skipn (S i) buf) = VOk (to_int n) (r - S (S i)) /\ S (S i) < r <= length src.
Proof.
  intros H. pose proof (vint_ends _ _ _ _ H). split; [|lia].
  destruct H as (l & (pre & post & E & Ep) & G & L & N & ->). destruct pre as [|x pre]; [discriminate|]. cbn in E, Ep.
  injection E as _ E. injection Ep as Ep. rewrite E, skipn_app, <- Ep, skipn_all, Nat.sub_diag. cbn [app skipn].
  replace (S (length pre) + length l - S (length pre)) with (length l) by lia. now apply varintdecode_groups.
Qed.

(** a tag that refers back *)
Definition back_at (q : nat) (o : nat) : Prop :=
  exists b n r, nth_error src q = Some b /\ (tag_of b = 47 \/ tag_of b = 41 \/ tag_of b = 46 \/ tag_of b = 45 \/ tag_of b = 51)%N /\
    vint src (S q) n r /\ o = N.to_nat n.
Lemma back_det q b n r o : nth_error src q = Some b -> vint src (S q) n r -> back_at q o -> o = N.to_nat n.
Proof.
  intros Hb Hv (b' & n' & r' & Hb' & _ & Hv' & ->). destruct (vint_det _ _ _ _ _ _ Hv Hv') as [-> _]. reflexivity.
Qed.

(** * The table of tracked tags *)
(** one round of the scan *)
Lemma track_round f i acc b offs n : nth_error buf i = Some b -> track_tag buf i (untrack b) = Ok (offs, n) ->
  track_loop (S f) buf i acc = track_loop f buf (i + n) (offs ++ if tracked_bit b then S i :: acc else acc).
Proof. intros Hb Ht. cbn [track_loop]. rewrite Hb, Ht. reflexivity. Qed.

Definition scans (p p' : nat) (acc acc' : list nat) (j : nat) : Prop :=
  j + p <= p' /\ forall f, track_loop (j + f) buf (p - 1) acc = track_loop f buf (p' - 1) acc'.
Lemma scans_trans p q r a b c j k : scans p q a b j -> scans q r b c k -> scans p r a c (j + k).
Proof.
  intros [L1 H1] [L2 H2]. split; [lia|]. intros f. replace (j + k + f) with (j + (k + f)) by lia. now rewrite H1, H2.
Qed.
Lemma scans_refl p a : scans p p a a 0.
Proof. split; [lia|reflexivity]. Qed.
Lemma scans_one p b n offs acc : nth_error src p = Some b -> 1 <= p -> 1 <= n -> track_tag buf (p - 1) (tag_of b) = Ok (offs, n) ->
  scans p (p + n) acc (offs ++ if tracked_bit b then p :: acc else acc) 1.
Proof.
  intros Hb Lp Ln Ht. split; [lia|]. intros f. destruct p as [|p]; [lia|]. cbn [plus].
  replace (S p - 1) with p in * by lia. rewrite (track_round f p acc b offs n (nth_src _ _ Hb)) by (rewrite untrack_mod; exact Ht).
  now replace (S (p + n) - 1) with (p + n) by lia.
Qed.

(** what the scan finds *)
Definition found (s s' acc acc' : list nat) : Prop :=
  incl acc acc' /\ (forall o, In o acc' -> In o acc \/ In o s') /\
  (forall q o, In q s' -> back_at q o -> In q s \/ In o acc').
Lemma found_refl s a : found s s a a.
Proof. split; [apply incl_refl|]. split; auto. Qed.
Lemma found_trans s s1 s2 a a1 a2 : incl s1 s2 -> found s s1 a a1 -> found s1 s2 a1 a2 -> found s s2 a a2.
Proof.
  intros Hi (A1 & A2 & A3) (B1 & B2 & B3). split; [eapply incl_tran; eauto|]. split.
  - intros o Ho. destruct (B2 _ Ho) as [H|H]; auto. destruct (A2 _ H); auto.
  - intros q o Hq Hb. destruct (B3 _ _ Hq Hb) as [H|H]; auto. destruct (A3 _ _ H Hb); auto.
Qed.
(** a tag that is no back reference *)
Lemma found_tag s p b acc : nth_error src p = Some b ->
  (tag_of b <> 47 /\ tag_of b <> 41 /\ tag_of b <> 46 /\ tag_of b <> 45 /\ tag_of b <> 51)%N ->
  found s (p :: s) acc ([] ++ if tracked_bit b then p :: acc else acc).
Proof.
  intros Hb Nt. cbn [app]. split; [destruct (tracked_bit b); [apply incl_tl|]; apply incl_refl|]. split.
  - intros o. destruct (tracked_bit b); cbn; tauto.
  - intros q o [<-|Hq]; [|auto]. intros (b' & n & r & Hb' & Ht & _). rewrite Hb in Hb'. injection Hb' as <-. lia.
Qed.
Lemma found_back s p b n r acc : nth_error src p = Some b -> vint src (S p) n r -> In (N.to_nat n) s ->
  found s (p :: s) acc ([N.to_nat n] ++ if tracked_bit b then p :: acc else acc).
Proof.
  intros Hb Hv Hs. cbn [app]. split; [apply incl_tl; destruct (tracked_bit b); [apply incl_tl|]; apply incl_refl|]. split.
  - intros o. destruct (tracked_bit b); cbn; intros H; repeat destruct H as [<-|H]; tauto.
  - intros q o [<-|Hq]; [|auto]. intros Hk. right. rewrite (back_det _ _ _ _ _ Hb Hv Hk). cbn. auto.
Qed.
(** a tag that is skipped *)
Lemma found_skip s b p acc : (b2n b < 128)%N -> found s s acc ([] ++ if tracked_bit b then p :: acc else acc).
Proof.
  intros L. cbn [app]. assert (E : tracked_bit b = false).
  { unfold tracked_bit. change trackFlag with 128%N. destruct (N.eqb_spec (N.land (b2n b) 128) 0) as [E|E]; [reflexivity|].
    exfalso. apply E. apply N.bits_inj_0. intros i. rewrite N.land_spec. change 128%N with (2 ^ 7)%N.
    destruct (N.eq_dec i 7) as [->|Ni]; [|rewrite N.pow2_bits_false by congruence; apply andb_false_r].
    rewrite (N.bits_above_log2 (b2n b) 7); [reflexivity|]. destruct (N.eq_dec (b2n b) 0) as [->|]; [reflexivity|]. apply N.log2_lt_pow2; lia. }
  rewrite E. apply found_refl.
Qed.

Ltac tags := unfold typeVARINT, typePAD, typeREFN, typeWEAKEN, typeUNDEF, typeCANONICAL_UNDEF, typeTRUE, typeFALSE,
  typeEXTEND, typeREGEXP, typeOBJECT, typeOBJECT_FREEZE, typeZIGZAG, typeFLOAT, typeDOUBLE, typeLONG_DOUBLE, typeBINARY,
  typeSTR_UTF8, typeARRAY, typeHASH, typeCOPY, typeALIAS, typeREFP, typeOBJECTV, typeOBJECTV_FREEZE, typeARRAYREF_0,
  typeHASHREF_0, typeSHORT_BINARY_0, typePACKET_START in *.

Lemma track_one i t : (t < 32 \/ t = 63 \/ t = 40 \/ t = 48 \/ t = 37 \/ t = 57 \/ t = 58 \/ t = 59 \/ t = 49 \/ t = 44 \/ t = 50 \/ 64 <= t < 96)%N ->
  track_tag buf i t = Ok ([], 1).
Proof.
  intros H. unfold track_tag. tags.
  repeat match goal with |- (if ?c then _ else _) = _ => destruct c eqn:?; [try reflexivity; lia|] end. lia.
Qed.
Lemma track_fixed i t n : (t = 34 /\ n = 5 \/ t = 35 /\ n = 9 \/ t = 36 /\ n = 17)%N -> track_tag buf i t = Ok ([], N.to_nat n).
Proof. intros [[-> ->]|[[-> ->]|[-> ->]]]; reflexivity. Qed.
Lemma track_vint i t n r : (t = 32 \/ t = 33 \/ t = 43 \/ t = 42)%N -> vint src (S (S i)) n r -> track_tag buf i t = Ok ([], r - S i).
Proof.
  intros H Hv. destruct (vint_read _ _ _ Hv) as [E L]. unfold track_tag. rewrite E.
  destruct H as [->|[->|[->| ->]]]; change (Ok (@nil nat, r - S (S i) + 1) = Ok ([], r - S i)); now replace (r - S (S i) + 1) with (r - S i) by lia.
Qed.
Lemma track_back i t n r : (t = 47 \/ t = 41 \/ t = 46 \/ t = 45 \/ t = 51)%N -> vint src (S (S i)) n r -> N.to_nat n < i ->
  i < length buf -> track_tag buf i t = Ok ([N.to_nat n], r - S i).
Proof.
  intros H Hv L1 L2. destruct (vint_read _ _ _ Hv) as [E L]. unfold track_tag. rewrite E.
  rewrite to_int_small by (unfold two63; lia).
  assert (C : ((Z.of_N n <? 0) || (Z.of_nat i <=? Z.of_N n))%Z = false) by lia. rewrite C.
  replace (Z.to_nat (Z.of_N n)) with (N.to_nat n) by lia.
  destruct H as [->|[->|[->|[->| ->]]]]; change (Ok ([N.to_nat n], r - S (S i) + 1) = Ok ([N.to_nat n], r - S i)); now replace (r - S (S i) + 1) with (r - S i) by lia.
Qed.
Lemma track_string i b s e : string_at src (S i) b s e -> track_tag buf i (tag_of b) = Ok ([], e - S i).
Proof.
  intros (Hb & Nt & u & H).
  assert (Tq : forall q t, tag_at src (S i) q t -> q = S i /\ t = tag_of b).
  { intros q t (L & P & x & Hx & Et & Nt'). destruct (Nat.eq_dec (S i) q) as [<-|].
    - rewrite Hx in Hb. injection Hb as ->. auto.
    - destruct (P (S i)) as (y & Hy & Py); [lia|]. rewrite Hy in Hb. injection Hb as ->. unfold tag_of, pad_byte in *. lia. }
  remember (S i) as p eqn:Ep.
  destruct H as [p q t s Ht Hr Ha El|p q n r s Ht Hv Hm Ha El|p q n r s Ht Hv Hm Ha El];
    destruct (Tq _ _ Ht) as [-> <-]; subst p.
  - unfold track_tag. tags.
    repeat match goal with |- (if ?c then _ else _) = _ => destruct c eqn:?; [try lia|] end; [|lia..].
    rewrite short_len' by lia. f_equal. f_equal. lia.
  - destruct (vint_read _ _ _ Hv) as [E L]. apply at_iff in Ha as [Ha _]. cbn [length] in *.
    unfold track_tag. rewrite E, to_int_small by (unfold two63; lia).
    cbn [N.ltb N.eqb N.compare Pos.eqb Pos.compare Pos.compare_cont orb typeVARINT typePAD typeREFN typeWEAKEN typeUNDEF typeCANONICAL_UNDEF typeTRUE typeFALSE
      typeEXTEND typeREGEXP typeOBJECT typeOBJECT_FREEZE typeZIGZAG typeFLOAT typeDOUBLE typeLONG_DOUBLE typeBINARY typeSTR_UTF8].
    destruct ((Z.of_N n <? 0) || (maxUint32 <? Z.of_N n))%Z eqn:C; [unfold maxUint32 in C; lia|].
    destruct (Nat.ltb_spec (length buf) (i + (r - S (S i)) + Z.to_nat (Z.of_N n) + 1)) as [C2|_]; [lia|]. f_equal. f_equal. lia.
  - destruct (vint_read _ _ _ Hv) as [E L]. apply at_iff in Ha as [Ha _]. cbn [length] in *.
    unfold track_tag. rewrite E, to_int_small by (unfold two63; lia).
    cbn [N.ltb N.eqb N.compare Pos.eqb Pos.compare Pos.compare_cont orb typeVARINT typePAD typeREFN typeWEAKEN typeUNDEF typeCANONICAL_UNDEF typeTRUE typeFALSE
      typeEXTEND typeREGEXP typeOBJECT typeOBJECT_FREEZE typeZIGZAG typeFLOAT typeDOUBLE typeLONG_DOUBLE typeBINARY typeSTR_UTF8].
    destruct ((Z.of_N n <? 0) || (maxUint32 <? Z.of_N n))%Z eqn:C; [unfold maxUint32 in C; lia|].
    destruct (Nat.ltb_spec (length buf) (i + (r - S (S i)) + Z.to_nat (Z.of_N n) + 1)) as [C2|_]; [lia|]. f_equal. f_equal. lia.
Qed.

Lemma string_tag p b s e : string_at src p b s e -> (tag_of b = 38 \/ tag_of b = 39 \/ 96 <= tag_of b < 128)%N.
Proof.
  intros (Hb & Nt & u & H). unfold tag_of in *. eapply strlit_tag' in H; [|exact Hb|now apply not_pad]. lia.
Qed.

Lemma number_tag t l : number t l -> (t <= 37 \/ t = 57 \/ t = 58 \/ t = 59)%N.
Proof. intros [[H _]|[[H _]|[[H _]|[[H _]|[H _]]]]]; lia. Qed.
Lemma number_track i b l : number (tag_of b) l -> at_ src (S (S i)) l -> track_tag buf i (tag_of b) = Ok ([], S (length l)).
Proof.
  intros Hn A. destruct Hn as [[Ht ->]|[[Ht (n & G & L & N)]|[[Ht El]|[[Ht El]|[Ht El]]]]].
  - apply track_one. lia.
  - rewrite (track_vint i _ n (S (S i) + length l)); [f_equal; f_equal; lia|lia|]. exists l. auto.
  - rewrite (track_fixed i _ 5), El by lia. reflexivity.
  - rewrite (track_fixed i _ 9), El by lia. reflexivity.
  - rewrite (track_fixed i _ 17), El by lia. reflexivity.
Qed.

Lemma scan_laid n s p s' p' : laid src n s p s' p' -> 1 <= p -> forall acc, exists acc' j,
  scans p p' acc acc' j /\ found s s' acc acc'.
Proof.
  assert (Step : forall b p n offs acc s s1 s' q p' acc1 j, nth_error src p = Some b -> 1 <= p -> q = p + n -> 1 <= n ->
    track_tag buf (p - 1) (tag_of b) = Ok (offs, n) ->
    found s s1 acc (offs ++ if tracked_bit b then p :: acc else acc) -> incl s1 s' ->
    scans q p' (offs ++ if tracked_bit b then p :: acc else acc) acc1 j /\ found s1 s' (offs ++ if tracked_bit b then p :: acc else acc) acc1 ->
    exists acc' j, scans p p' acc acc' j /\ found s s' acc acc').
  { intros b q n0 offs acc s0 s1 s2 r p0 acc1 j Hb Lp -> Ln Ht F Hi [H1 H2]. exists acc1, (1 + j). split.
    - eapply scans_trans; [apply scans_one; eauto|exact H1].
    - eapply found_trans; eauto. }
  assert (Name : forall p e acc s, 1 <= p -> name_at src p e -> exists acc' j, scans p e acc acc' j /\ found s s acc acc').
  { intros q e acc s0 Lq (b & x & H & _ & Lb). pose proof (string_ends _ _ _ _ _ H) as Le. destruct q as [|i]; [lia|].
    pose proof (track_string _ _ _ _ H) as Ht. destruct H as (Hb & _). do 2 eexists. split.
    - replace e with (S i + (e - S i)) by lia. eapply scans_one; [exact Hb|lia|lia|]. replace (S i - 1) with i by lia. exact Ht.
    - now apply found_skip. }
  induction 1 as [s p|n s p b s' p' Hb Ht L IH|n s p b l s' p' Hb Hn A L IH|n s p b x e s' p' Hs L IH
    |n s p b o r s' p' Hb Ht Hv Ho Lo L IH|n s p b m r s1 p1 s' p' Hb Ht Hv L1 IH1 L2 IH2
    |n s p b m s1 p1 s' p' Hb Ht Hm L1 IH1 L2 IH2|n s p b m r s1 p1 s' p' Hb Ht Hv L1 IH1 L2 IH2
    |n s p b m s1 p1 s' p' Hb Ht Hm L1 IH1 L2 IH2|n s p b e s1 p1 s' p' Hb Ht Hn L1 IH1 L2 IH2
    |n s p b o r s1 p1 s' p' Hb Ht Hv Ho Lo L1 IH1 L2 IH2|n s p b r e s' p' Hb Ht H1 H2 L IH]; intros Lp acc.
  - exists acc, 0. split; [apply scans_refl|apply found_refl].
  - destruct (IH ltac:(lia) ([] ++ if tracked_bit b then p :: acc else acc)) as (acc1 & j & H).
    eapply (Step b p 1 [] _ _ _ _ (S p)); [exact Hb|exact Lp|lia|lia|apply track_one; lia|apply found_tag; [exact Hb|lia]| |exact H].
    intros y Hy. eapply laid_incl; eauto.
  - destruct p as [|i]; [lia|].
    destruct (IH ltac:(lia) ([] ++ if tracked_bit b then S i :: acc else acc)) as (acc1 & j & H).
    eapply (Step b (S i) (S (length l)) [] _ _ _ _ (S (S i) + length l)); [exact Hb|exact Lp|lia|lia| | | |exact H].
    + replace (S i - 1) with i by lia. now apply number_track.
    + apply found_tag; [exact Hb|]. apply number_tag in Hn. lia.
    + intros y Hy. eapply laid_incl; eauto.
  - destruct p as [|i]; [lia|]. pose proof (string_ends _ _ _ _ _ Hs) as Le. pose proof (string_tag _ _ _ _ Hs) as Tg.
    pose proof (track_string _ _ _ _ Hs) as Ht. destruct Hs as (Hb & _).
    destruct (IH ltac:(lia) ([] ++ if tracked_bit b then S i :: acc else acc)) as (acc1 & j & H).
    eapply (Step b (S i) (e - S i) [] _ _ _ _ e); [exact Hb|exact Lp|lia|lia| | | |exact H].
    + replace (S i - 1) with i by lia. exact Ht.
    + apply found_tag; [exact Hb|lia].
    + intros y Hy. eapply laid_incl; eauto.
  - destruct p as [|i]; [lia|]. pose proof (vint_ends _ _ _ _ Hv) as Le. pose proof (nth_error_Some_lt _ _ _ _ Hb) as Li. cbn [length] in Li.
    destruct (IH ltac:(lia) ([N.to_nat o] ++ if tracked_bit b then S i :: acc else acc)) as (acc1 & j & H).
    eapply (Step b (S i) (r - S i) [N.to_nat o] _ _ _ _ r); [exact Hb|exact Lp|lia|lia| | | |exact H].
    + replace (S i - 1) with i by lia. eapply track_back; [lia|exact Hv|lia|lia].
    + eapply found_back; eauto.
    + intros y Hy. eapply laid_incl; eauto.
  - destruct p as [|i]; [lia|]. pose proof (vint_ends _ _ _ _ Hv) as Le.
    destruct (laid_ends _ _ _ _ _ _ L1) as (E1 & _).
    destruct (IH1 ltac:(lia) ([] ++ if tracked_bit b then S i :: acc else acc)) as (acc1 & j1 & S1 & F1).
    destruct (IH2 ltac:(lia) acc1) as (acc2 & j2 & S2 & F2).
    eapply (Step b (S i) (r - S i) [] _ _ _ _ r); [exact Hb|exact Lp|lia|lia| | | |split; [eapply scans_trans; eauto|eapply found_trans; [|exact F1|exact F2]]].
    + replace (S i - 1) with i by lia. eapply track_vint; [lia|exact Hv].
    + apply found_tag; [exact Hb|lia].
    + intros y Hy. eapply laid_incl; [exact L2|]. eapply laid_incl; eauto.
    + intros y Hy. eapply laid_incl; eauto.
  - destruct p as [|i]; [lia|]. destruct (laid_ends _ _ _ _ _ _ L1) as (E1 & _).
    destruct (IH1 ltac:(lia) ([] ++ if tracked_bit b then S i :: acc else acc)) as (acc1 & j1 & S1 & F1).
    destruct (IH2 ltac:(lia) acc1) as (acc2 & j2 & S2 & F2).
    eapply (Step b (S i) 1 [] _ _ _ _ (S (S i))); [exact Hb|exact Lp|lia|lia| | | |split; [eapply scans_trans; eauto|eapply found_trans; [|exact F1|exact F2]]].
    + apply track_one. lia.
    + apply found_tag; [exact Hb|lia].
    + intros y Hy. eapply laid_incl; [exact L2|]. eapply laid_incl; eauto.
    + intros y Hy. eapply laid_incl; eauto.
  - destruct p as [|i]; [lia|]. pose proof (vint_ends _ _ _ _ Hv) as Le.
    destruct (laid_ends _ _ _ _ _ _ L1) as (E1 & _).
    destruct (IH1 ltac:(lia) ([] ++ if tracked_bit b then S i :: acc else acc)) as (acc1 & j1 & S1 & F1).
    destruct (IH2 ltac:(lia) acc1) as (acc2 & j2 & S2 & F2).
    eapply (Step b (S i) (r - S i) [] _ _ _ _ r); [exact Hb|exact Lp|lia|lia| | | |split; [eapply scans_trans; eauto|eapply found_trans; [|exact F1|exact F2]]].
    + replace (S i - 1) with i by lia. eapply track_vint; [lia|exact Hv].
    + apply found_tag; [exact Hb|lia].
    + intros y Hy. eapply laid_incl; [exact L2|]. eapply laid_incl; eauto.
    + intros y Hy. eapply laid_incl; eauto.
  - destruct p as [|i]; [lia|]. destruct (laid_ends _ _ _ _ _ _ L1) as (E1 & _).
    destruct (IH1 ltac:(lia) ([] ++ if tracked_bit b then S i :: acc else acc)) as (acc1 & j1 & S1 & F1).
    destruct (IH2 ltac:(lia) acc1) as (acc2 & j2 & S2 & F2).
    eapply (Step b (S i) 1 [] _ _ _ _ (S (S i))); [exact Hb|exact Lp|lia|lia| | | |split; [eapply scans_trans; eauto|eapply found_trans; [|exact F1|exact F2]]].
    + apply track_one. lia.
    + apply found_tag; [exact Hb|lia].
    + intros y Hy. eapply laid_incl; [exact L2|]. eapply laid_incl; eauto.
    + intros y Hy. eapply laid_incl; eauto.
  - destruct p as [|i]; [lia|]. pose proof (name_ends _ _ _ Hn) as Le. destruct (laid_ends _ _ _ _ _ _ L1) as (E1 & _).
    destruct (Name (S (S i)) _ ([] ++ if tracked_bit b then S i :: acc else acc) (S i :: s) ltac:(lia) Hn) as (acc0 & j0 & S0 & G0).
    destruct (IH1 ltac:(lia) acc0) as (acc1 & j1 & S1 & F1).
    destruct (IH2 ltac:(lia) acc1) as (acc2 & j2 & S2 & F2).
    eapply (Step b (S i) 1 [] _ s (S i :: s) _ (S (S i))); [exact Hb|exact Lp|lia|lia|apply track_one; lia|apply found_tag; [exact Hb|lia]| |].
    + intros y Hy. eapply laid_incl; [exact L2|]. eapply laid_incl; eauto.
    + split.
      * eapply scans_trans; [exact S0|]. eapply scans_trans; eauto.
      * eapply found_trans; [|exact G0|eapply found_trans; [|exact F1|exact F2]]; intros y Hy.
        -- eapply laid_incl; [exact L2|]. eapply laid_incl; eauto.
        -- eapply laid_incl; eauto.
  - destruct p as [|i]; [lia|]. pose proof (vint_ends _ _ _ _ Hv) as Le. pose proof (nth_error_Some_lt _ _ _ _ Hb) as Li. cbn [length] in Li.
    destruct (laid_ends _ _ _ _ _ _ L1) as (E1 & _).
    destruct (IH1 ltac:(lia) ([N.to_nat o] ++ if tracked_bit b then S i :: acc else acc)) as (acc1 & j1 & S1 & F1).
    destruct (IH2 ltac:(lia) acc1) as (acc2 & j2 & S2 & F2).
    eapply (Step b (S i) (r - S i) [N.to_nat o] _ _ _ _ r); [exact Hb|exact Lp|lia|lia| | | |split; [eapply scans_trans; eauto|eapply found_trans; [|exact F1|exact F2]]].
    + replace (S i - 1) with i by lia. eapply track_back; [lia|exact Hv|lia|lia].
    + eapply found_back; eauto.
    + intros y Hy. eapply laid_incl; [exact L2|]. eapply laid_incl; eauto.
    + intros y Hy. eapply laid_incl; eauto.
  - destruct p as [|i]; [lia|]. pose proof (name_ends _ _ _ H1) as Le1. pose proof (name_ends _ _ _ H2) as Le2.
    destruct (Name (S (S i)) _ ([] ++ if tracked_bit b then S i :: acc else acc) (S i :: s) ltac:(lia) H1) as (acc0 & j0 & S0 & G0).
    destruct (Name r _ acc0 (S i :: s) ltac:(lia) H2) as (acc1 & j1 & S1 & F1).
    destruct (IH ltac:(lia) acc1) as (acc2 & j2 & S2 & F2).
    eapply (Step b (S i) 1 [] _ s (S i :: s) _ (S (S i))); [exact Hb|exact Lp|lia|lia|apply track_one; lia|apply found_tag; [exact Hb|lia]| |].
    + intros y Hy. eapply laid_incl; eauto.
    + split.
      * eapply scans_trans; [exact S0|]. eapply scans_trans; eauto.
      * eapply found_trans; [|exact G0|eapply found_trans; [|exact F1|exact F2]]; intros y Hy; auto; eapply laid_incl; eauto.
Qed.

(** * The merging loop *)
(** the places to be tracked, in order *)
Variable T : list nat.
Hypothesis HT : StronglySorted lt T.
(** the length the merged document may reach *)
Variable B : Z.
Hypothesis HB : (B <= two63)%Z.
(** and the length it had *)
Variable Lw : nat.
Hypothesis HLw : 6 <= Lw.

Record inv (p : nat) (st : mstate) : Prop := mkInv {
  v_slice : slice_ok (s_mem st) (s_buf st); v_low : Lw <= sl_len (s_buf st); v_idx : S (s_idx st) = p;
  v_tidx : s_tidx st = filter (Nat.leb p) T;
  v_ttab : forall o, In o T -> o < p -> exists t, tfind o (s_ttab st) = Some t /\ t < sl_len (s_buf st) - 5;
  v_str : forall v o, assoc v (s_str st) = Some o -> o < sl_len (s_buf st) - 5;
  v_obj : forall v o, assoc v (s_obj st) = Some o -> o < sl_len (s_buf st) - 5;
  v_room : (Z.of_nat (sl_len (s_buf st)) + 11 * Z.of_nat (length src - p) < B)%Z }.

Lemma v_six p st : inv p st -> 6 <= sl_len (s_buf st).
Proof. intros I. pose proof (v_low _ _ I). lia. Qed.

Lemma filter_gap p q l : StronglySorted lt l -> (forall o, In o l -> o < p \/ q <= o) -> p <= q ->
  filter (Nat.leb p) l = filter (Nat.leb q) l.
Proof.
  intros _ H L. induction l as [|x l IH]; [reflexivity|]. cbn [filter].
  rewrite IH by (intros o Ho; apply H; now right). destruct (H x (or_introl eq_refl)); destruct (Nat.leb_spec p x), (Nat.leb_spec q x); try lia; reflexivity.
Qed.
Lemma filter_all p l : (forall o, In o l -> p <= o) -> filter (Nat.leb p) l = l.
Proof.
  induction l as [|x l IH]; [reflexivity|]. intros H. cbn [filter]. pose proof (H x (or_introl eq_refl)).
  destruct (Nat.leb_spec p x); [|lia]. f_equal. apply IH. intros o Ho. apply H. now right.
Qed.
Lemma filter_head p l : StronglySorted lt l -> In p l -> filter (Nat.leb p) l = p :: filter (Nat.leb (S p)) l.
Proof.
  induction 1 as [|x l Hl IH Hx]; [intros []|]. intros [->|Hp]; cbn [filter].
  - rewrite Forall_forall in Hx. destruct (Nat.leb_spec p p); [|lia]. destruct (Nat.leb_spec (S p) p); [lia|]. f_equal.
    rewrite !filter_all; auto; intros o Ho; apply Hx in Ho; lia.
  - rewrite Forall_forall in Hx. pose proof (Hx _ Hp). destruct (Nat.leb_spec p x), (Nat.leb_spec (S p) x); try lia. auto.
Qed.
Lemma filter_in p l x t : filter (Nat.leb p) l = x :: t -> In x l /\ p <= x.
Proof.
  intros E. assert (H : In x (filter (Nat.leb p) l)) by (rewrite E; now left). apply filter_In in H as [H1 H2].
  apply Nat.leb_le in H2. auto.
Qed.

Lemma step st p b c rest f : inv p st -> nth_error src p = Some b -> stk (s_stack st) c rest -> ~ zero c ->
  merge_tag d (s_str st) (s_obj st) (s_ttab st) (s_idx st) (sl_len (s_buf st) - 5) (dedup g c) b = Ok f ->
  (forall i, f_track f = Some i -> i < sl_len (s_buf st)) -> f_rel f < sl_len (s_buf st) + length (f_out f) - 5 ->
  length (f_out f) <= 11 * f_adv f -> 1 <= f_adv f -> p + f_adv f <= length src ->
  (forall o, In o T -> o <= p \/ p + f_adv f <= o) ->
  exists st', merge_step w g 5 d st = Ok (Some st') /\ inv (p + f_adv f) st' /\
    s_stack st' = f_push f ++ (if f_fake f then c else N.pred c) :: rest.
Proof.
  intros I Hb K Z Hf Ht Hr Lo La Le Hg. pose proof (v_idx _ _ I) as Ei. pose proof (v_six _ _ I) as L6. pose proof (v_low _ _ I) as Lw6.
  subst p. pose proof (pop_stk _ _ _ K Z) as P. unfold merge_step. rewrite (nth_src _ _ Hb), P. fold (dedup g c). rewrite Hf. cbn [bind].
  unfold w_append. pose proof (append_ok (w_grow w (length (s_mem st))) (s_mem st) (s_buf st) (f_out f) (v_slice _ _ I)) as A.
  destruct (append_slice _ (s_mem st) (s_buf st) (f_out f)) as [s' mem']. destruct A as [A1 A2].
  assert (X : exists mem2, match f_track f with Some i => set_track mem' s' i | None => Ok mem' end = Ok mem2 /\ slice_ok mem2 s').
  { destruct (f_track f) as [i|]; [|eauto]. unfold set_track. destruct (Nat.ltb_spec i (sl_len s')) as [_|C]; [|specialize (Ht _ eq_refl); lia].
    eexists. split; [reflexivity|]. destruct A1 as [B1 B2]. split; [exact B1|]. destruct B2 as [B2|B2]; [now left|right].
    destruct (Nat.eq_dec (sl_arr s') (sl_arr s')) as [_|]; [|congruence].
    specialize (Ht _ eq_refl). assert (sl_arr s' < length mem') by (apply array_long; lia).
    rewrite array_upd_same by assumption. rewrite upd_length. exact B2. }
  destruct X as (mem2 & -> & O2). cbn [bind]. eexists. split; [reflexivity|].
  assert (Tr : (match s_tidx st with i :: _ => Nat.eqb i (S (s_idx st)) | [] => false end) = true <-> In (S (s_idx st)) T).
  { rewrite (v_tidx _ _ I). split.
    - destruct (filter _ T) as [|x l] eqn:E; [discriminate|]. intros H. apply Nat.eqb_eq in H. subst x. eapply filter_in; eauto.
    - intros H. rewrite (filter_head _ _ HT H). apply Nat.eqb_refl. }
  split.
  2:{ reflexivity. }
  set (trackme := match s_tidx st with i :: _ => Nat.eqb i (S (s_idx st)) | [] => false end) in *. clearbody trackme.
  split; cbn [s_mem s_buf s_str s_obj s_idx s_tidx s_ttab].
  - exact O2.
  - lia.
  - lia.
  - rewrite (v_tidx _ _ I). destruct trackme.
    + rewrite (filter_head _ _ HT (proj1 Tr eq_refl)). cbn [tl]. apply filter_gap; [exact HT| |lia].
      intros o Ho. destruct (Hg o Ho); lia.
    + apply filter_gap; [exact HT| |lia]. intros o Ho. destruct (Hg o Ho); [|lia].
      destruct (Nat.eq_dec o (S (s_idx st))) as [->|]; [|lia]. apply Tr in Ho. discriminate.
  - intros o Ho Lp. destruct (Nat.eq_dec o (S (s_idx st))) as [->|No].
    + apply Tr in Ho as ->. exists (f_rel f). cbn [tfind]. rewrite Nat.eqb_refl. split; [reflexivity|lia].
    + destruct (Hg o Ho) as [H|H]; [|lia]. destruct (v_ttab _ _ I o Ho ltac:(lia)) as (t & Et & Lt). exists t.
      split; [|lia]. destruct trackme; [|exact Et]. cbn [tfind]. destruct (Nat.eqb_spec (S (s_idx st)) o); [congruence|exact Et].
  - intros v o. destruct (f_str f) as [x|]; [|intros H; apply (v_str _ _ I) in H; lia].
    cbn [assoc]. destruct (bytes_eqb x v); [intros [= <-]; lia|intros H; apply (v_str _ _ I) in H; lia].
  - intros v o. destruct (f_obj f) as [x|]; [|intros H; apply (v_obj _ _ I) in H; lia].
    cbn [assoc]. destruct (bytes_eqb x v); [intros [= <-]; lia|intros H; apply (v_obj _ _ I) in H; lia].
  - pose proof (v_room _ _ I). lia.
Qed.

(** several rounds *)
Definition steps (j : nat) (st st' : mstate) : Prop := forall f, merge_loop w (j + f) g 5 d st = merge_loop w f g 5 d st'.
Lemma steps_refl st : steps 0 st st.
Proof. intros f. reflexivity. Qed.
Lemma steps_trans j k a b c : steps j a b -> steps k b c -> steps (j + k) a c.
Proof. intros H1 H2 f. replace (j + k + f) with (j + (k + f)) by lia. now rewrite H1, H2. Qed.
Lemma steps_one st st' : merge_step w g 5 d st = Ok (Some st') -> steps 1 st st'.
Proof. intros H f. cbn [plus merge_loop]. now rewrite H. Qed.

(** what a round does with a tag that is accepted *)
Definition fine (st : mstate) (p : nat) (b : byte) (c : N) (q : nat) (push : list N) (fake : bool) : Prop :=
  exists f, merge_tag d (s_str st) (s_obj st) (s_ttab st) (s_idx st) (sl_len (s_buf st) - 5) (dedup g c) b = Ok f /\
    p + f_adv f = q /\ f_push f = push /\ f_fake f = fake /\
    (forall i, f_track f = Some i -> i < sl_len (s_buf st)) /\ f_rel f < sl_len (s_buf st) + length (f_out f) - 5 /\
    length (f_out f) <= 11 * f_adv f.

Lemma fine_step st p b c rest q push fake : inv p st -> nth_error src p = Some b -> stk (s_stack st) c rest -> ~ zero c ->
  fine st p b c q push fake -> p < q <= length src -> (forall o, In o T -> o <= p \/ q <= o) ->
  exists st', steps 1 st st' /\ inv q st' /\ s_stack st' = push ++ (if fake then c else N.pred c) :: rest.
Proof.
  intros I Hb K Z (f & Hf & <- & <- & <- & H1 & H2 & H3) L Hg.
  destruct (step _ _ _ _ _ _ I Hb K Z Hf H1 H2 H3 ltac:(lia) ltac:(lia) Hg) as (st' & S' & I' & K').
  exists st'. split; [now apply steps_one|]. auto.
Qed.

(** a piece of the document that is copied as it is *)
Lemma fine_plain st p b c l : inv p st ->
  merge_tag d (s_str st) (s_obj st) (s_ttab st) (s_idx st) (sl_len (s_buf st) - 5) (dedup g c) b =
    Ok (plain (b :: l) (S (length l)) (sl_len (s_buf st) - 5)) ->
  fine st p b c (S p + length l) [] false.
Proof.
  intros I H. eexists. split; [exact H|]. pose proof (v_six _ _ I). cbn [plain f_adv f_push f_fake f_track f_rel f_out length].
  repeat split; try discriminate; lia.
Qed.

Lemma fine_number st i b c l : inv (S i) st -> nth_error src (S i) = Some b -> number (tag_of b) l -> at_ src (S (S i)) l ->
  fine st (S i) b c (S (S i) + length l) [] false.
Proof.
  intros I Hb Hn A. pose proof (v_idx _ _ I) as E. assert (E' : s_idx st = i) by lia.
  apply fine_plain; [exact I|]. rewrite E'. unfold tag_of in Hn.
  destruct Hn as [[Ht ->]|[[Ht (n & G & L & N)]|[[Ht El]|[[Ht El]|[Ht El]]]]].
  - unfold merge_tag. rewrite untrack_mod, kind_byte' by lia. reflexivity.
  - eapply merge_varint'; eauto.
  - eapply merge_fixed'; eauto. now rewrite Ht, El.
  - eapply merge_fixed'; eauto. now rewrite Ht, El.
  - eapply merge_fixed'; eauto. now rewrite Ht, El.
Qed.

Lemma varint_short (n : nat) : (Z.of_nat n < two63)%Z -> length (varint (N.of_nat n)) <= 10.
Proof. intros L. unfold two63 in L. destruct (varint_groups (N.of_nat n)) as [_ H]; [lia|apply H]. Qed.

Lemma fine_string st i b c s e : inv (S i) st -> string_at src (S i) b s e -> fine st (S i) b c e [] false.
Proof.
  intros I (Hb & Nt & u & H). pose proof (v_idx _ _ I) as E. assert (E' : s_idx st = i) by lia. pose proof (v_six _ _ I) as L6.
  destruct (lit_tag' i u s e b) as (l & A & -> & _ & Hm & _); [eapply strlit_dialect; [|exact H]; cbn; lia|exact Hb|now apply not_pad|].
  replace (S i + S (length l)) with (S (S i) + length l) by lia.
  destruct (Hm (s_str st) (s_obj st) (s_ttab st) (sl_len (s_buf st) - 5) (dedup g c)) as [H1|[_ H1]]; rewrite <- E' in H1.
  - now apply fine_plain.
  - destruct (assoc s (s_str st)) as [saved|] eqn:Ea.
    + pose proof (v_str _ _ I _ _ Ea) as Ls. pose proof (v_room _ _ I) as Lr.
      unfold tagVarint in H1. destruct (Z.ltb_spec (Z.of_nat saved) two63) as [L63|]; [|lia]. cbn [bind] in H1.
      eexists. split; [exact H1|]. cbn [plain f_adv f_push f_fake f_track f_rel f_out length].
      pose proof (varint_short _ L63). repeat split; try discriminate; lia.
    + eexists. split; [exact H1|]. cbn [f_adv f_push f_fake f_track f_rel f_out length]. repeat split; try discriminate; lia.
Qed.

Lemma fine_prefix st p b c : inv p st -> (tag_of b = 63 \/ tag_of b = 40 \/ tag_of b = 48)%N -> fine st p b c (S p) [] true.
Proof.
  intros I Ht. pose proof (v_six _ _ I). eexists. split.
  - unfold merge_tag. rewrite untrack_mod, fake_kind by exact Ht. reflexivity.
  - cbn [f_adv f_push f_fake f_track f_rel f_out length]. repeat split; try discriminate; lia.
Qed.

Lemma fine_back st i b c o r : inv (S i) st -> nth_error src (S i) = Some b ->
  (tag_of b = 47 \/ tag_of b = 41 \/ tag_of b = 46 \/ tag_of b = 45 \/ tag_of b = 51)%N ->
  vint src (S (S i)) o r -> In (N.to_nat o) T -> N.to_nat o < S i ->
  fine st (S i) b c r (if ((tag_of b =? 45) || (tag_of b =? 51))%N then [1%N] else []) false.
Proof.
  intros I Hb Ht Hv HoT Lo. pose proof (v_idx _ _ I) as E. assert (E' : s_idx st = i) by lia. pose proof (v_six _ _ I) as L6.
  destruct (v_ttab _ _ I _ HoT Lo) as (t & Et & Lt). destruct (vint_read _ _ _ Hv) as [Ev Lv]. pose proof (v_room _ _ I) as Lr.
  pose proof (nth_error_Some_lt _ _ _ _ Hb) as Li. cbn [length] in Li.
  eexists. split.
  - unfold merge_tag. rewrite untrack_mod, E', Ev. fold (tag_of b).
    replace (merge_kind (tag_of b)) with KBack by (destruct Ht as [->|[->|[->|[->| ->]]]]; reflexivity).
    rewrite to_int_small by (unfold two63; lia). destruct (Z.ltb_spec (Z.of_N o) 0) as [|_]; [lia|].
    replace (Z.to_nat (Z.of_N o)) with (N.to_nat o) by lia. rewrite Et.
    unfold tagVarint. destruct (Z.ltb_spec (Z.of_nat t) two63) as [_|]; [|lia]. cbn [bind]. reflexivity.
  - pose proof (varint_short t ltac:(lia)). cbn [f_adv f_push f_fake f_track f_rel f_out length].
    split; [lia|]. split; [reflexivity|]. split; [reflexivity|]. split; [|lia].
    intros x. match goal with |- (if ?c then _ else _) = _ -> _ => destruct c end; [|discriminate]. intros [= <-]. lia.
Qed.

Lemma fine_container st i b c (n : nat) r : inv (S i) st -> nth_error src (S i) = Some b -> (tag_of b = 43 \/ tag_of b = 42)%N ->
  vint src (S (S i)) (N.of_nat n) r -> (Z.of_nat n < 1073741824 \/ tag_of b = 43%N /\ Z.of_nat n < 2147483648)%Z ->
  fine st (S i) b c r [if (tag_of b =? 42)%N then (2147483648 + N.of_nat (2 * n))%N else N.of_nat n] false.
Proof.
  intros I Hb Ht Hv Ln. pose proof (v_idx _ _ I) as E. assert (E' : s_idx st = i) by lia. pose proof (v_six _ _ I) as L6.
  destruct (vint_read _ _ _ Hv) as [Ev Lv]. pose proof Hv as (l & Al & _ & _ & _ & Er).
  assert (A : at_ src (S i) (b :: l)) by (now apply at_cons).
  eexists. split.
  - unfold merge_tag. rewrite untrack_mod, E', Ev. fold (tag_of b).
    replace (merge_kind (tag_of b)) with KContainer by (destruct Ht as [->| ->]; reflexivity).
    rewrite to_int_small by (unfold two63; lia). destruct (Z.ltb_spec (Z.of_N (N.of_nat n)) 0) as [|_]; [lia|].
    replace (i + (r - S (S i)) + 1) with (i + length (b :: l)) by (cbn [length]; lia).
    rewrite (drange_at' _ _ A). cbn [bind]. reflexivity.
  - cbn [f_adv f_push f_fake f_track f_rel f_out length]. split; [lia|]. split; [|split; [reflexivity|split; [discriminate|lia]]].
    replace (Z.to_N (Z.of_N (N.of_nat n))) with (N.of_nat n) by lia. change typeHASH with 42%N. f_equal.
    destruct (N.eqb_spec (tag_of b) 42) as [T42|T42].
    + fold (hash_count (N.of_nat n)). rewrite hash_count_is' by lia. lia.
    + apply N.mod_small. lia.
Qed.

Lemma fine_containerref st i b c n : inv (S i) st -> (tag_of b = 64 + N.of_nat n \/ tag_of b = 80 + N.of_nat n)%N -> n < 16 ->
  fine st (S i) b c (S (S i)) [if (80 <=? tag_of b)%N then (2147483648 + N.of_nat (2 * n))%N else N.of_nat n] false.
Proof.
  intros I Ht Ln. pose proof (v_six _ _ I) as L6. eexists. split.
  - unfold merge_tag. rewrite untrack_mod. fold (tag_of b). rewrite kind_containerref' by lia. reflexivity.
  - cbn [f_adv f_push f_fake f_track f_rel f_out length]. split; [lia|]. split; [|split; [reflexivity|split; [discriminate|lia]]].
    f_equal. change typeHASHREF_0 with 80%N. destruct (N.leb_spec 80 (tag_of b)) as [L|L].
    + destruct Ht as [Ht|Ht]; [lia|]. rewrite Ht. clear - Ln hash_count_is'.
      assert (E : N.land (80 + N.of_nat n) 15 = N.of_nat n).
      { change 15%N with (N.ones 4). rewrite N.land_ones. change (2 ^ 4)%N with 16%N. lia. }
      rewrite E. pose proof (hash_count_is' (N.of_nat n)) as H. unfold hash_count in H. rewrite N.mod_small in H by lia. rewrite H by lia. lia.
    + destruct Ht as [Ht|Ht]; [|lia]. rewrite Ht. clear - Ln. change 15%N with (N.ones 4). rewrite N.land_ones. change (2 ^ 4)%N with 16%N. lia.
Qed.

Lemma name_read i e : name_at src (S i) e -> exists off s l, readString (skipn i buf) = Ok (off, s) /\ off + length s = e - S i /\
  at_ src (S i) l /\ length l = e - S i.
Proof.
  intros (b & s & (Hb & Nt & u & H) & Ns & _).
  destruct (lit_tag' i u s e b) as (l & A & -> & _ & _ & Hz); [eapply strlit_dialect; [|exact H]; cbn; lia|exact Hb|now apply not_pad|].
  destruct (Hz Ns) as (sz & Hr & El & Es). clear Hz.
  assert (Sk : skipn i buf = b :: skipn (S i) buf).
  { clear - Hb. apply nth_src in Hb. revert i Hb. induction (md_buf d) as [|x t IH]; intros [|i] H; try discriminate; cbn in *.
    - now injection H as ->.
    - auto. }
  exists (S sz), s, (b :: l). split; [|split; [lia|split; [exact A|cbn [length]; lia]]].
  pose proof (proj1 (at_bytes _ _ _ A)) as La. cbn [length] in La.
  unfold readString. rewrite Sk. rewrite untrack_mod in *.
  assert (Sh : isShallowStringish (b2n b mod 128) = true).
  { unfold isShallowStringish. tags. pose proof (strlit_tag' _ _ _ _ _ _ _ H Hb ltac:(now apply not_pad)). lia. }
  rewrite Sh. cbn [negb]. rewrite Hr. cbn [bind].
  destruct ((Z.of_nat (length s) <? 0) || (maxUint32 <? Z.of_nat (length s)))%Z eqn:C; [unfold maxUint32 in C; lia|].
  rewrite Nat2Z.id. destruct (Nat.ltb_spec (length (b :: skipn (S i) buf)) (S sz + length s)) as [C2|_].
  { cbn [length] in C2. rewrite skipn_length in C2. lia. }
  assert (A' : firstn (length l) (skipn (S i) buf) = l).
  { apply at_bytes in A as [_ A]. change (skipn (S i) src) with (skipn i buf) in A. rewrite Sk in A. cbn [length firstn] in A. now injection A. }
  f_equal. f_equal. revert A'. generalize (skipn (S i) buf). intros R A'. cbn [skipn].
  rewrite <- (firstn_skipn (length l) R), A', skipn_app, Es, firstn_app, firstn_all, Nat.sub_diag. apply app_nil_r.
Qed.

Lemma fine_object st i b c e : inv (S i) st -> nth_error src (S i) = Some b -> (tag_of b = 44 \/ tag_of b = 50)%N ->
  name_at src (S (S i)) e -> fine st (S i) b c e [1%N] false.
Proof.
  intros I Hb Ht Hn. pose proof (v_idx _ _ I) as E. assert (E' : s_idx st = i) by lia. pose proof (v_six _ _ I) as L6.
  pose proof (v_room _ _ I) as Lr. pose proof (name_ends _ _ _ Hn) as Le.
  destruct (name_read _ _ Hn) as (off & cls & l & Hr & Ho & Al & Ll).
  assert (A : at_ src (S i) (b :: l)) by (now apply at_cons).
  assert (Hk : merge_kind (untrack b) = KObject) by (rewrite untrack_mod; unfold tag_of in Ht; destruct Ht as [->| ->]; reflexivity).
  destruct (assoc cls (s_obj st)) as [saved|] eqn:Ea.
  - pose proof (v_obj _ _ I _ _ Ea) as Ls. eexists. split.
    + unfold merge_tag. rewrite Hk, E', Hr. cbn [bind]. rewrite Ea. unfold tagVarint.
      destruct (Z.ltb_spec (Z.of_nat saved) two63) as [_|]; [|lia]. cbn [bind]. reflexivity.
    + pose proof (varint_short saved ltac:(lia)). cbn [f_adv f_push f_fake f_track f_rel f_out length].
      repeat split; try discriminate; lia.
  - eexists. split.
    + unfold merge_tag. rewrite Hk, E', Hr. cbn [bind]. rewrite Ea.
      replace (i + (off + length cls + 1)) with (i + length (b :: l)) by (cbn [length]; lia).
      rewrite (drange_at' _ _ A). cbn [bind]. reflexivity.
    + cbn [f_adv f_push f_fake f_track f_rel f_out length]. repeat split; try discriminate; lia.
Qed.

Lemma fine_regexp st i b c r e : inv (S i) st -> nth_error src (S i) = Some b -> tag_of b = 49%N ->
  name_at src (S (S i)) r -> name_at src r e -> fine st (S i) b c e [] false.
Proof.
  intros I Hb Ht H1 H2. pose proof (v_idx _ _ I) as E. assert (E' : s_idx st = i) by lia. pose proof (v_six _ _ I) as L6.
  pose proof (name_ends _ _ _ H1) as Le1. pose proof (name_ends _ _ _ H2) as Le2.
  destruct (name_read _ _ H1) as (off1 & s1 & l1 & Hr1 & Ho1 & A1 & Ll1).
  destruct r as [|r]; [lia|]. destruct (name_read _ _ H2) as (off2 & s2 & l2 & Hr2 & Ho2 & A2 & Ll2).
  assert (A : at_ src (S i) (b :: l1 ++ l2)).
  { apply at_cons; [exact Hb|]. apply at_join; [exact A1|]. now replace (S (S i) + length l1) with (S r) by lia. }
  eexists. split.
  - unfold merge_tag. rewrite untrack_mod, E'. fold (tag_of b). rewrite Ht. change (merge_kind 49) with KRegexp. cbn match.
    rewrite Hr1. cbn [bind]. replace (i + (off1 + length s1 + 1)) with r by lia. rewrite Hr2. cbn [bind].
    replace (i + (off1 + length s1 + 1 + (off2 + length s2))) with (i + length (b :: l1 ++ l2)) by (cbn [length]; rewrite app_length; lia).
    rewrite (drange_at' _ _ A). cbn [bind]. reflexivity.
  - cbn [plain f_adv f_push f_fake f_track f_rel f_out length]. rewrite app_length. repeat split; try discriminate; lia.
Qed.

(** * All elements *)
Lemma nonzero h n : (h = 0 \/ h = 2147483648)%N -> (0 < n < 2147483648)%N -> ~ zero (h + n).
Proof. intros H L Z. apply zero_mod in Z. lia. Qed.

Lemma merge_laid n s p s' p' : laid src n s p s' p' -> 1 <= p -> p' <= length src ->
  (forall o, In o T -> In o s' \/ p' <= o) -> (forall q o, In q s' -> back_at q o -> In o T) -> (forall o, In o s -> o < p) ->
  forall h st rest, (h = 0 \/ h = 2147483648)%N -> inv p st -> stk (s_stack st) (h + N.of_nat n) rest ->
  exists st' j, steps j st st' /\ j + p <= p' /\ inv p' st' /\ stk (s_stack st') h rest.
Proof.
  (* one round, then the rest *)
  assert (Gap : forall n s p q s' p', laid src n (p :: s) q s' p' -> (forall o, In o T -> In o s' \/ p' <= o) ->
     (forall o, In o s -> o < p) -> forall o, In o T -> o <= p \/ q <= o).
  { intros n0 s0 p0 q s1 p1 L H1 H2 o Ho. destruct (laid_ends _ _ _ _ _ _ L) as (Lq & _ & l & -> & Hl).
    destruct (H1 o Ho) as [H|H]; [|lia]. apply in_app_or in H as [H|[<-|H]]; [apply Hl in H; lia|lia|apply H2 in H; lia]. }
  assert (Gap2 : forall n m s p q s1 p1 s' p', laid src m (p :: s) q s1 p1 -> laid src n s1 p1 s' p' ->
     (forall o, In o T -> In o s' \/ p' <= o) ->
     (forall o, In o s -> o < p) -> forall o, In o T -> o <= p \/ q <= o).
  { intros n0 m0 s0 p0 q s1 p1 s2 p2 L1 L2 H1 H2 o Ho. eapply (Gap _ _ _ _ _ _ L1); [|exact H2|exact Ho].
    intros o' Ho'. destruct (laid_ends _ _ _ _ _ _ L2) as (Lq & _ & l & -> & Hl).
    destruct (H1 o' Ho') as [H|H]; [|lia]. apply in_app_or in H as [H|H]; [apply Hl in H; lia|auto]. }
  (* a round that pushes nothing *)
  assert (One : forall n s p b q s' p', nth_error src p = Some b -> laid src n (p :: s) q s' p' -> p < q ->
     (forall h st, (h = 0 \/ h = 2147483648)%N -> inv p st -> fine st p b (h + N.of_nat (S n)) q [] false) ->
     (1 <= q -> p' <= length src ->
       (forall o, In o T -> In o s' \/ p' <= o) -> (forall q o, In q s' -> back_at q o -> In o T) -> (forall o, In o (p :: s) -> o < q) ->
       forall h st rest, (h = 0 \/ h = 2147483648)%N -> inv q st -> stk (s_stack st) (h + N.of_nat n) rest ->
       exists st' j, steps j st st' /\ j + q <= p' /\ inv p' st' /\ stk (s_stack st') h rest) ->
     1 <= p -> p' <= length src ->
     (forall o, In o T -> In o s' \/ p' <= o) -> (forall q o, In q s' -> back_at q o -> In o T) -> (forall o, In o s -> o < p) ->
     forall h st rest, (h = 0 \/ h = 2147483648)%N -> inv p st -> stk (s_stack st) (h + N.of_nat (S n)) rest ->
     exists st' j, steps j st st' /\ j + p <= p' /\ inv p' st' /\ stk (s_stack st') h rest).
  { intros n0 s0 p0 b q s1 p1 Hb L Lq Fi IH Lp Lp' H1 H2 H3 h st rest Hh I K.
    destruct (laid_ends _ _ _ _ _ _ L) as (E1 & E2 & _). cbn [length] in *.
    assert (Nz : ~ zero (h + N.of_nat (S n0))) by (apply nonzero; [exact Hh|lia]).
    assert (Lqs : q <= length src) by (cbn [length]; lia).
    destruct (fine_step _ _ _ _ _ _ _ _ I Hb K Nz (Fi h st Hh I) (conj Lq Lqs) (Gap _ _ _ _ _ _ L H1 H3))
      as (st1 & S1 & I1 & K1).
    replace (N.pred (h + N.of_nat (S n0))) with (h + N.of_nat n0)%N in K1 by lia. cbn [app] in K1.
    destruct (IH ltac:(lia) ltac:(lia) H1 H2 ltac:(intros o [<-|Ho]; [lia|apply H3 in Ho; lia]) h st1 rest Hh I1 ltac:(rewrite K1; apply stk_here))
      as (st2 & j & S2 & J2 & I2 & K2).
    exists st2, (1 + j). split; [eapply steps_trans; eauto|]. split; [lia|]. auto. }
  (* a round that pushes a counter *)
  assert (Two : forall n m h' s p b q s1 p1 s' p', nth_error src p = Some b -> laid src m (p :: s) q s1 p1 -> laid src n s1 p1 s' p' -> p < q ->
     (h' = 0 \/ h' = 2147483648)%N ->
     (forall h st, (h = 0 \/ h = 2147483648)%N -> inv p st -> fine st p b (h + N.of_nat (S n)) q [(h' + N.of_nat m)%N] false) ->
     (1 <= q -> p1 <= length src ->
       (forall o, In o T -> In o s1 \/ p1 <= o) -> (forall q o, In q s1 -> back_at q o -> In o T) -> (forall o, In o (p :: s) -> o < q) ->
       forall h st rest, (h = 0 \/ h = 2147483648)%N -> inv q st -> stk (s_stack st) (h + N.of_nat m) rest ->
       exists st' j, steps j st st' /\ j + q <= p1 /\ inv p1 st' /\ stk (s_stack st') h rest) ->
     (1 <= p1 -> p' <= length src ->
       (forall o, In o T -> In o s' \/ p' <= o) -> (forall q o, In q s' -> back_at q o -> In o T) -> (forall o, In o s1 -> o < p1) ->
       forall h st rest, (h = 0 \/ h = 2147483648)%N -> inv p1 st -> stk (s_stack st) (h + N.of_nat n) rest ->
       exists st' j, steps j st st' /\ j + p1 <= p' /\ inv p' st' /\ stk (s_stack st') h rest) ->
     1 <= p -> p' <= length src ->
     (forall o, In o T -> In o s' \/ p' <= o) -> (forall q o, In q s' -> back_at q o -> In o T) -> (forall o, In o s -> o < p) ->
     forall h st rest, (h = 0 \/ h = 2147483648)%N -> inv p st -> stk (s_stack st) (h + N.of_nat (S n)) rest ->
     exists st' j, steps j st st' /\ j + p <= p' /\ inv p' st' /\ stk (s_stack st') h rest).
  { intros n0 m0 h' s0 p0 b q s1 p1 s2 p2 Hb L1 L2 Lq Hh' Fi IH1 IH2 Lp Lp' H1 H2 H3 h st rest Hh I K.
    destruct (laid_ends _ _ _ _ _ _ L1) as (E1 & E2 & l1 & El1 & Hl1).
    destruct (laid_ends _ _ _ _ _ _ L2) as (E3 & E4 & l2 & El2 & Hl2). cbn [length] in *.
    assert (Nz : ~ zero (h + N.of_nat (S n0))) by (apply nonzero; [exact Hh|lia]).
    assert (Lqs : q <= length src) by (cbn [length]; lia).
    destruct (fine_step _ _ _ _ _ _ _ _ I Hb K Nz (Fi h st Hh I) (conj Lq Lqs) (Gap2 _ _ _ _ _ _ _ _ _ L1 L2 H1 H3))
      as (st1 & S1 & I1 & K1).
    replace (N.pred (h + N.of_nat (S n0))) with (h + N.of_nat n0)%N in K1 by lia. cbn [app] in K1.
    destruct (IH1 ltac:(lia) ltac:(lia)) with (h := h') (st := st1) (rest := (h + N.of_nat n0)%N :: rest) as (st2 & j & S2 & J2 & I2 & K2).
    - intros o Ho. destruct (H1 o Ho) as [H|H]; [|lia]. rewrite El2 in H. apply in_app_or in H as [H|H]; [apply Hl2 in H; lia|auto].
    - intros q' o Hq. apply H2. rewrite El2. apply in_or_app. auto.
    - intros o [<-|Ho]; [lia|apply H3 in Ho; lia].
    - exact Hh'.
    - exact I1.
    - rewrite K1. apply stk_here.
    - destruct (IH2 ltac:(lia) Lp' H1 H2) with (h := h) (st := st2) (rest := rest) as (st3 & j3 & S3 & J3 & I3 & K3); [|exact Hh|exact I2| |].
      + intros o Ho. rewrite El1 in Ho. apply in_app_or in Ho as [Ho|[<-|Ho]]; [apply Hl1 in Ho; lia|lia|apply H3 in Ho; lia].
      + eapply stk_zero; [exact K2|]. apply zero_mod. destruct Hh' as [->| ->]; reflexivity.
      + exists st3, (1 + (j + j3)). split; [eapply steps_trans; [exact S1|]; eapply steps_trans; eauto|]. split; [lia|]. auto. }
  induction 1 as [s p|n s p b s' p' Hb Ht L IH|n s p b l s' p' Hb Hn A L IH|n s p b x e s' p' Hs L IH
    |n s p b o r s' p' Hb Ht Hv Ho Lo L IH|n s p b m r s1 p1 s' p' Hb Ht Hv L1 IH1 L2 IH2
    |n s p b m s1 p1 s' p' Hb Ht Hm L1 IH1 L2 IH2|n s p b m r s1 p1 s' p' Hb Ht Hv L1 IH1 L2 IH2
    |n s p b m s1 p1 s' p' Hb Ht Hm L1 IH1 L2 IH2|n s p b e s1 p1 s' p' Hb Ht Hn L1 IH1 L2 IH2
    |n s p b o r s1 p1 s' p' Hb Ht Hv Ho Lo L1 IH1 L2 IH2|n s p b r e s' p' Hb Ht H1 H2 L IH];
    intros Lp Lp' HT1 HT2 Hs0.
  - intros h st rest Hh I K. rewrite N.add_0_r in K. exists st, 0. split; [apply steps_refl|]. split; [lia|]. auto.
  - intros h st rest Hh I K. destruct (laid_ends _ _ _ _ _ _ L) as (E1 & E2 & _). cbn [length] in *.
    assert (Nz : ~ zero (h + N.of_nat (S n))) by (apply nonzero; [exact Hh|lia]).
    assert (Lqs : S p <= length src) by (cbn [length]; lia).
    destruct (fine_step _ _ _ _ _ _ _ _ I Hb K Nz (fine_prefix _ _ _ _ I Ht) (conj (le_n _) Lqs) (Gap _ _ _ _ _ _ L HT1 Hs0))
      as (st1 & S1 & I1 & K1). cbn [app] in K1.
    destruct (IH ltac:(lia) Lp' HT1 HT2 ltac:(intros o [<-|Ho]; [lia|apply Hs0 in Ho; lia]) h st1 rest Hh I1 ltac:(rewrite K1; apply stk_here))
      as (st2 & j & S2 & J2 & I2 & K2).
    exists st2, (1 + j). split; [eapply steps_trans; eauto|]. split; [lia|]. auto.
  - destruct p as [|i]; [lia|]. eapply (One n s (S i) b _ s' p' Hb L); auto; [lia|]. intros h st _ I. now apply fine_number.
  - destruct p as [|i]; [lia|]. pose proof (string_ends _ _ _ _ _ Hs) as Le. eapply (One n s (S i) b _ s' p' (proj1 Hs) L); auto; [lia|].
    intros h st _ I. now apply fine_string with (s := x).
  - destruct p as [|i]; [lia|]. pose proof (vint_ends _ _ _ _ Hv) as Le. eapply (One n s (S i) b r s' p' Hb L); auto; [lia|].
    intros h st _ I. replace [] with (if ((tag_of b =? 45) || (tag_of b =? 51))%N then [1%N] else []) by (destruct Ht as [->|[->| ->]]; reflexivity).
    apply (fine_back st i b _ o r I Hb); [tauto|exact Hv| |lia].
    apply HT2 with (q := S i); [eapply laid_incl; [exact L|now left]|]. exists b, o, r. split; [exact Hb|]. tauto.
  - destruct p as [|i]; [lia|]. pose proof (vint_ends _ _ _ _ Hv) as Le. destruct (laid_ends _ _ _ _ _ _ L1) as (E1 & _).
    destruct (laid_ends _ _ _ _ _ _ L2) as (E2 & _).
    eapply (Two n m 0%N s (S i) b r s1 p1 s' p' Hb L1 L2); auto; [lia|].
    intros h st _ I. pose proof (fine_container st i b (h + N.of_nat (S n)) m r I Hb ltac:(lia) Hv ltac:(right; cbn [length] in *; lia)) as F.
    rewrite Ht in F. exact F.
  - destruct p as [|i]; [lia|]. eapply (Two n m 0%N s (S i) b _ s1 p1 s' p' Hb L1 L2); auto.
    intros h st _ I. pose proof (fine_containerref st i b (h + N.of_nat (S n)) m I ltac:(auto) Hm) as F.
    destruct (N.leb_spec 80 (tag_of b)); [lia|]. exact F.
  - destruct p as [|i]; [lia|]. pose proof (vint_ends _ _ _ _ Hv) as Le. destruct (laid_ends _ _ _ _ _ _ L1) as (E1 & _).
    destruct (laid_ends _ _ _ _ _ _ L2) as (E2 & _).
    eapply (Two n (2 * m) 2147483648%N s (S i) b r s1 p1 s' p' Hb L1 L2); auto; [lia|].
    intros h st _ I. pose proof (fine_container st i b (h + N.of_nat (S n)) m r I Hb ltac:(lia) Hv ltac:(left; cbn [length] in *; lia)) as F.
    rewrite Ht in F. exact F.
  - destruct p as [|i]; [lia|]. eapply (Two n (2 * m) 2147483648%N s (S i) b _ s1 p1 s' p' Hb L1 L2); auto.
    intros h st _ I. pose proof (fine_containerref st i b (h + N.of_nat (S n)) m I ltac:(auto) Hm) as F.
    destruct (N.leb_spec 80 (tag_of b)); [|lia]. exact F.
  - destruct p as [|i]; [lia|]. pose proof (name_ends _ _ _ Hn) as Le.
    eapply (Two n 1 0%N s (S i) b e s1 p1 s' p' Hb L1 L2); auto; [lia|]. intros h st _ I. now apply fine_object.
  - destruct p as [|i]; [lia|]. pose proof (vint_ends _ _ _ _ Hv) as Le.
    eapply (Two n 1 0%N s (S i) b r s1 p1 s' p' Hb L1 L2); auto; [lia|]. intros h st _ I.
    change [(0 + N.of_nat 1)%N] with [1%N].
    replace [1%N] with (if ((tag_of b =? 45) || (tag_of b =? 51))%N then [1%N] else []) by (destruct Ht as [->| ->]; reflexivity).
    apply (fine_back st i b _ o r I Hb); [tauto|exact Hv| |lia].
    apply HT2 with (q := S i); [eapply laid_incl; [exact L2|]; eapply laid_incl; [exact L1|now left]|]. exists b, o, r. split; [exact Hb|]. tauto.
  - destruct p as [|i]; [lia|]. pose proof (name_ends _ _ _ H1) as Le1. pose proof (name_ends _ _ _ H2) as Le2.
    eapply (One n s (S i) b e s' p' Hb L); auto; [lia|]. intros h st _ I. now apply fine_regexp with (r := r).
Qed.
End Accept.
