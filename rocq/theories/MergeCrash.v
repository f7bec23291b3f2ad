(** When Append does not crash, and does not depend on what lies beyond the document. *)
From Verif Require Import Base BaseFacts SpecVarint Varint VarintFacts Tags Codecs Encode Compress Header
  GoMem Spec SpecDoc SpecOptions GrammarFacts DocFacts GoSlice RedocFacts
  Merge SpecMerge MergeFacts MergeItems MergeRun MergeSafe MergeProps MergeFinish MergeSim
  SpecShape SpecAccept SpecTaken SpecCut HeaderFacts ShapeFacts SpecHeader ApiSafe MergeShape.
From Coq Require Import ZifyBool ZifyNat ZifyN.
Ltac Zify.zify_post_hook ::= Z.div_mod_to_equations.

Lemma drange_inside buf sp i j : i <= j -> j <= length buf -> drange (mkMDoc buf sp) i j = Ok (firstn (j - i) (skipn i buf)).
Proof.
  intros L1 L2. unfold drange, slice_range. cbn [md_buf md_spare].
  destruct (Nat.leb_spec i j); [|lia]. rewrite app_length. destruct (Nat.leb_spec j (length buf + length sp)); [|lia]. cbn [andb].
  rewrite skipn_app, firstn_app, skipn_length. replace (j - i - (length buf - i)) with 0 by lia. now rewrite firstn_O, app_nil_r.
Qed.

Definition no_crash {A} (r : res A) : Prop := match r with Ok _ | Err _ => True | _ => False end.
Lemma no_crash_bind {A B} (r : res A) (f : A -> res B) : no_crash r -> (forall x, r = Ok x -> no_crash (f x)) -> no_crash (bind r f).
Proof. destruct r; cbn; auto. Qed.

Lemma readString_safe b : b <> [] -> no_crash (readString b).
Proof.
  intros Hb. unfold readString. destruct b as [|t b]; [congruence|]. destruct (negb _); [exact I|].
  apply no_crash_bind.
  - destruct (_ <? _)%N; [exact I|]. destruct (varintdecode b); exact I.
  - intros [ln sz] _. destruct (_ || _); [exact I|]. destruct (Nat.ltb _ _); exact I.
Qed.
Lemma readString_inside b off s : readString b = Ok (off, s) -> off + length s <= length b.
Proof.
  unfold readString. destruct b as [|t b]; [discriminate|]. destruct (negb _); [discriminate|].
  intros H. apply bind_Ok in H as ([ln sz] & _ & H). destruct (_ || _); [discriminate|].
  destruct (Nat.ltb_spec (length (t :: b)) (S sz + Z.to_nat ln)); [discriminate|]. injection H as <- <-.
  rewrite firstn_length, skipn_length. lia.
Qed.
Lemma tagVarint_safe b n : (Z.of_nat n < two63)%Z -> no_crash (tagVarint b n).
Proof. intros L. unfold tagVarint. destruct (Z.ltb_spec (Z.of_nat n) two63); [exact I|lia]. Qed.
Lemma tagVarint_size b n out : tagVarint b n = Ok out -> length out <= 11.
Proof.
  unfold tagVarint. destruct (Z.ltb_spec (Z.of_nat n) two63) as [L|]; [|discriminate]. intros [= <-]. cbn [length].
  destruct (varint_groups (N.of_nat n)) as [_ G]; [unfold two63 in L; lia|]. lia.
Qed.

(** Every case of the switch on a tag that is not [cut]: no crash, the same whatever lies
    beyond the body, and not much output. *)
Lemma uncut_tag buf sp strs objs tt_ i rel dd b : ~ cut (x00 :: buf) (S i) -> nth_error buf i = Some b ->
  (forall v o, assoc v strs = Some o -> (Z.of_nat o < two63)%Z) -> (forall v o, assoc v objs = Some o -> (Z.of_nat o < two63)%Z) ->
  (forall v o, tfind v tt_ = Some o -> (Z.of_nat o < two63)%Z) ->
  let r := merge_tag (mkMDoc buf sp) strs objs tt_ i rel dd b in
  no_crash r /\ (forall sp', merge_tag (mkMDoc buf sp') strs objs tt_ i rel dd b = r) /\
  (forall f, r = Ok f -> length (f_out f) <= 11 * f_adv f).
Proof.
  intros Hw Hb T1 T2 T3. pose proof (nth_error_Some_lt _ _ _ _ Hb) as Li.
  assert (Tg : tag_on (x00 :: buf) (S i) (tag_of b)) by (exists b; auto).
  assert (Lt : (tag_of b < 128)%N) by (unfold tag_of; lia). pose proof (kind_tags _ Lt) as Kt.
  unfold merge_tag. cbn [md_buf]. rewrite tag_untrack.
  destruct (merge_kind (tag_of b)) as [| | |n| | | | | | | |] eqn:Kd.
  - repeat split. intros f [= <-]. cbn. lia.
  - repeat split. intros f [= <-]. cbn. lia.
  - destruct (varintdecode (skipn (S i) buf)) as [z sz|] eqn:V; [|repeat split; discriminate].
    apply varintdecode_range in V as (_ & _ & Lv). rewrite skipn_length in Lv.
    rewrite drange_inside by lia. cbn [bind]. split; [exact I|]. split.
    + intros sp'. now rewrite drange_inside by lia.
    + intros f [= <-]. cbn [plain f_out f_adv]. rewrite firstn_length. lia.
  - assert (Ln : i + n <= length buf).
    { destruct (Nat.le_gt_cases (i + n) (length buf)); [assumption|]. elim Hw.
      eapply cut_fixed; [exact Tg|exact Kt|]. cbn [length]. lia. }
    rewrite drange_inside by lia. cbn [bind]. split; [exact I|]. split.
    + intros sp'. now rewrite drange_inside by lia.
    + intros f [= <-]. cbn [plain f_out f_adv]. rewrite firstn_length. lia.
  - set (h := if (typeSHORT_BINARY_0 <? tag_of b)%N then Ok (Z.of_N (N.land (tag_of b) 31), 0) else _).
    assert (Hh : no_crash h) by (unfold h; destruct (_ <? _)%N; [exact I|]; destruct (varintdecode _); exact I).
    destruct h as [[ln sz]|? |? | |]; cbn [bind]; try contradiction; [|repeat split; discriminate].
    destruct (_ || _); [repeat split; discriminate|].
    destruct (Nat.ltb_spec (length buf) (i + (sz + Z.to_nat ln + 1))); [repeat split; discriminate|].
    rewrite drange_inside by lia. cbn [bind].
    set (s := firstn _ _). assert (Ls : length s = sz + Z.to_nat ln + 1) by (unfold s; rewrite firstn_length, skipn_length; lia).
    destruct dd; [destruct (assoc (skipn (S sz) s) strs) as [saved|] eqn:As|].
    + pose proof (T1 _ _ As) as Bd. pose proof (tagVarint_safe (n2b typeCOPY) saved Bd) as Sf.
      split; [|split].
      * apply no_crash_bind; [exact Sf|intros; exact I].
      * intros sp'. rewrite drange_inside by lia. cbn [bind]. fold s. now rewrite As.
      * intros f Hf. apply bind_Ok in Hf as (o & Ho & [= <-]). apply tagVarint_size in Ho. cbn [plain f_out f_adv]. lia.
    + split; [exact I|]. split; [intros sp'; rewrite drange_inside by lia; cbn [bind]; fold s; now rewrite As|].
      intros f [= <-]. cbn [f_out f_adv]. lia.
    + split; [exact I|]. split; [intros sp'; now rewrite drange_inside by lia|].
      intros f [= <-]. cbn [plain f_out f_adv]. lia.
  - destruct (varintdecode (skipn (S i) buf)) as [off sz|]; [|repeat split; discriminate].
    destruct (if (off <? 0)%Z then None else tfind (Z.to_nat off) tt_) as [target|] eqn:T; [|repeat split; discriminate].
    assert (Bd : (Z.of_nat target < two63)%Z) by (destruct (off <? 0)%Z; [discriminate|eauto]).
    split; [apply no_crash_bind; [apply tagVarint_safe; exact Bd|intros; exact I]|]. split; [reflexivity|].
    intros f H. apply bind_Ok in H as (o & Ho & [= <-]). apply tagVarint_size in Ho. cbn [f_out f_adv]. lia.
  - destruct (varintdecode (skipn (S i) buf)) as [ln sz|] eqn:V; [|repeat split; discriminate].
    apply varintdecode_range in V as (_ & _ & Lv). rewrite skipn_length in Lv.
    destruct (ln <? 0)%Z; [repeat split; discriminate|].
    rewrite drange_inside by lia. cbn [bind]. split; [exact I|]. split.
    + intros sp'. now rewrite drange_inside by lia.
    + intros f [= <-]. cbn [f_out f_adv]. rewrite firstn_length. lia.
  - repeat split. intros f [= <-]. cbn. lia.
  - assert (Lo : i + 1 < length buf).
    { destruct (Nat.le_gt_cases (length buf) (i + 1)); [|assumption]. elim Hw.
      eapply cut_name; [exact Tg|auto|]. cbn [length]. lia. }
    assert (Ne : skipn (S i) buf <> []) by (intros E; apply (f_equal (@length byte)) in E; rewrite skipn_length in E; cbn in E; lia).
    pose proof (readString_safe _ Ne) as Sf.
    destruct (readString (skipn (S i) buf)) as [[off cls]|? |? | |] eqn:R; cbn [bind]; try contradiction; [|repeat split; discriminate].
    destruct (read_name (mkMDoc buf []) (S i) off cls R) as [Nt _]. apply readString_inside in R. rewrite skipn_length in R.
    assert (Lo2 : i + (off + length cls + 1) < length buf).
    { destruct (Nat.le_gt_cases (length buf) (i + (off + length cls + 1))); [|assumption]. elim Hw. rewrite Kt in Tg.
      eapply cut_flags; [exact Tg|exact Nt|]. cbn [length]. lia. }
    assert (Ne2 : skipn (i + (off + length cls + 1)) buf <> [])
      by (intros E; apply (f_equal (@length byte)) in E; rewrite skipn_length in E; cbn [length] in E; lia).
    pose proof (readString_safe _ Ne2) as Sf2.
    destruct (readString (skipn (i + (off + length cls + 1)) buf)) as [[off2 cls2]|? |? | |] eqn:R2; cbn [bind]; try contradiction; [|repeat split; discriminate].
    apply readString_inside in R2. rewrite skipn_length in R2.
    rewrite drange_inside by lia. cbn [bind]. split; [exact Logic.I|]. split; [intros sp'; now rewrite drange_inside by lia|].
    intros f [= <-]. cbn [plain f_out f_adv]. rewrite firstn_length. lia.
  - assert (Lo : i + 1 < length buf).
    { destruct (Nat.le_gt_cases (length buf) (i + 1)); [|assumption]. elim Hw.
      eapply cut_name; [exact Tg|intuition|]. cbn [length]. lia. }
    assert (Ne : skipn (S i) buf <> []) by (intros E; apply (f_equal (@length byte)) in E; rewrite skipn_length in E; cbn in E; lia).
    pose proof (readString_safe _ Ne) as Sf.
    destruct (readString (skipn (S i) buf)) as [[off cls]|? |? | |] eqn:R; cbn [bind]; try contradiction; [|repeat split; discriminate].
    apply readString_inside in R. rewrite skipn_length in R.
    destruct (assoc cls objs) as [saved|] eqn:As.
    + split; [apply no_crash_bind; [apply tagVarint_safe; eauto|intros; exact I]|]. split; [reflexivity|].
      intros f H. apply bind_Ok in H as (o & Ho & [= <-]). apply tagVarint_size in Ho. cbn [f_out f_adv]. lia.
    + rewrite drange_inside by lia. cbn [bind]. split; [exact I|]. split; [intros sp'; now rewrite drange_inside by lia|].
      intros f [= <-]. cbn [f_out f_adv]. rewrite firstn_length. lia.
  - repeat split; discriminate.
  - repeat split; discriminate.
Qed.

Section Crash.
Variable k : codecs.
Variable w : mworld.

(** tables point into the merged document, which is not too long; the next tag is met *)
Definition Sinv (buf : bytes) (s0 L0 : nat) (st : mstate) : Prop :=
  met (x00 :: buf) s0 (S (s_idx st)) /\
  slice_ok (s_mem st) (s_buf st) /\ 5 < sl_len (s_buf st) /\ tabs (fun o => o < sl_len (s_buf st)) st /\
  sl_len (s_buf st) <= L0 + 11 * s_idx st.

Lemma step_safe s0 L0 g buf sp st : (forall p, met (x00 :: buf) s0 p -> ~ cut (x00 :: buf) p) -> (Z.of_nat (L0 + 11 * length buf) < two63)%Z -> Sinv buf s0 L0 st ->
  let r := merge_step w g 5 (mkMDoc buf sp) st in
  no_crash r /\ (forall sp', merge_step w g 5 (mkMDoc buf sp') st = r) /\
  (forall st', r = Ok (Some st') -> Sinv buf s0 L0 st' /\ s_idx st < s_idx st').
Proof.
  intros Hw B (Mt & O & L5 & T & Lx) r.
  assert (St : forall st', r = Ok (Some st') -> exists b out mem1, nth_error buf (s_idx st) = Some b /\
    w_append w (s_mem st) (s_buf st) out = (s_buf st', mem1) /\
    (s_mem st' = mem1 \/ exists i, i < sl_len (s_buf st) /\ set_track mem1 (s_buf st') i = Ok (s_mem st')) /\
    tabs (fun o => o < sl_len (s_buf st)) st' /\ s_idx st < s_idx st').
  { intros st' H. destruct (step_facts w (fun o => o < sl_len (s_buf st)) g 5 _ st st' O T ltac:(cbv beta; lia) ltac:(cbv beta; lia) H)
      as (b & out & mem1 & Hb & A & M & T' & Lt & _). exists b, out, mem1. repeat split; auto; try apply T'.
    destruct M as [M|(i & Li & _ & M)]; eauto. }
  unfold r in *. clear r. unfold merge_step in *. cbn [md_buf] in *.
  destruct (nth_error buf (s_idx st)) as [b|] eqn:Hb; [|repeat split; discriminate].
  pose proof (nth_error_Some_lt _ _ _ _ Hb) as Li.
  destruct (pop_stack (s_stack st)) as [|c rest]; [repeat split; discriminate|].
  set (dd := g_dedupe g || _) in *. set (rel := sl_len (s_buf st) - 5) in *.
  assert (Sm : forall o, o < sl_len (s_buf st) -> (Z.of_nat o < two63)%Z) by (intros; lia).
  destruct T as (T1 & T2 & T3).
  destruct (uncut_tag buf sp (s_str st) (s_obj st) (s_ttab st) (s_idx st) rel dd b (Hw _ Mt) Hb) as (W1 & W2 & W3);
    [eauto|eauto|eauto|].
  destruct (merge_tag (mkMDoc buf sp) (s_str st) (s_obj st) (s_ttab st) (s_idx st) rel dd b) as [f|? |? | |] eqn:E; cbn [bind] in *; try contradiction.
  2:{ split; [exact I|]. split; [intros sp'; now rewrite W2|discriminate]. }
  specialize (W3 f eq_refl).
  destruct (merge_tag_gen (fun o => o < sl_len (s_buf st)) (mkMDoc buf sp) (s_str st) (s_obj st) (s_ttab st) (s_idx st) rel dd b f T1 T2 T3 ltac:(unfold rel; cbv beta; lia) ltac:(unfold rel; cbv beta; lia) E) as (_ & Fa & Ft).
  destruct (w_append w (s_mem st) (s_buf st) (f_out f)) as [s mem1] eqn:A.
  pose proof (w_append_ok w _ _ _ _ _ O A) as (O1 & L1 & _).
  assert (Nt : no_crash (match f_track f with Some i => set_track mem1 s i | None => Ok mem1 end)).
  { destruct (f_track f) as [i|]; [|exact I]. destruct (Ft i eq_refl) as [Fi _]. unfold set_track.
    destruct (Nat.ltb_spec i (sl_len s)); [exact I|lia]. }
  split; [apply no_crash_bind; [exact Nt|intros; exact I]|]. split.
  { intros sp'. rewrite W2. cbn [bind]. now rewrite A. }
  intros st' H. destruct (St st' H) as (b' & out & mem2 & _ & A' & M & (U1 & U2 & U3) & Lt). split; [|exact Lt].
  apply bind_Ok in H as (mem & Hm & [= <-]). cbn [s_buf s_mem s_idx] in *.
  assert (Ok2 : slice_ok mem s).
  { destruct (f_track f) as [i|]; [|now injection Hm as <-]. now apply (set_track_ok _ _ _ _ O1) in Hm as (Q & _). }
  split.
  { cbn [s_idx]. eapply (met_tag (mkMDoc buf sp)); eassumption. }
  split; [exact Ok2|]. cbn [s_buf s_idx]. split; [lia|]. split; [|lia].
  split; [|split]; intros v o Q; [specialize (U1 v o Q)|specialize (U2 v o Q)|specialize (U3 v o Q)]; cbv beta in *; lia.
Qed.

Lemma loop_safe s0 L0 g buf sp : (forall p, met (x00 :: buf) s0 p -> ~ cut (x00 :: buf) p) -> (Z.of_nat (L0 + 11 * length buf) < two63)%Z -> forall fuel st, Sinv buf s0 L0 st ->
  length buf < fuel + s_idx st ->
  no_crash (fst (merge_loop w fuel g 5 (mkMDoc buf sp) st)) /\
  (forall sp', merge_loop w fuel g 5 (mkMDoc buf sp') st = merge_loop w fuel g 5 (mkMDoc buf sp) st) /\
  (Sinv buf s0 L0 (snd (merge_loop w fuel g 5 (mkMDoc buf sp) st))).
Proof.
  intros Hw B. induction fuel as [|fuel IH]; intros st Si Lf; destruct (step_safe s0 L0 g buf sp st Hw B Si) as (N & Sp & Nx); rewrite loop_unfold;
    destruct (merge_step w g 5 (mkMDoc buf sp) st) as [[st'|]|? |? | |] eqn:E; try contradiction;
    try (split; [exact I|]; split; [intros sp'; rewrite loop_unfold, Sp; reflexivity|exact Si]).
  - exfalso. unfold merge_step in E. cbn [md_buf] in E. destruct (nth_error buf (s_idx st)) eqn:Q; [|discriminate].
    apply nth_error_Some_lt in Q. lia.
  - destruct (Nx st' eq_refl) as [Si' Lt]. destruct (IH st' Si' ltac:(lia)) as (I1 & I2 & I3).
    split; [exact I1|]. split; [|exact I3]. intros sp'. rewrite loop_unfold, Sp. apply I2.
Qed.

Lemma track_tag_safe buf idx t : no_crash (track_tag buf idx t).
Proof.
  unfold track_tag. repeat match goal with
  | |- no_crash (if ?c then _ else _) => destruct c
  | |- no_crash (match varintdecode ?x with VOk _ _ => _ | VBad _ => _ end) => destruct (varintdecode x)
  end; exact I.
Qed.
Lemma track_loop_safe buf : forall fuel idx acc, length buf <= fuel + idx -> no_crash (track_loop fuel buf idx acc).
Proof.
  induction fuel as [|fuel IH]; intros idx acc L; cbn [track_loop]; destruct (nth_error buf idx) as [b|] eqn:N; try exact I.
  - apply nth_error_Some_lt in N. cbn in L. lia.
  - apply no_crash_bind; [apply track_tag_safe|]. intros [l n] E. apply track_tag_moves in E. apply IH. lia.
Qed.

(** the tables of a Merger point into its bytes *)
Definition sound (m : merger) : Prop :=
  (forall v o, assoc v (m_str m) = Some o -> o < sl_len (m_buf m)) /\
  (forall v o, assoc v (m_obj m) = Some o -> o < sl_len (m_buf m)).

Lemma append_safe top ver sum g m buf b f : ready top ver sum m -> m_finished m = false -> sound m ->
  (forall sp, merger_doc k w b sp = Ok (mkMDoc buf (f sp))) ->
  (forall n s0 p, elements (x00 :: buf) (g_flat g) (g_top g) n s0 -> met (x00 :: buf) s0 p -> ~ cut (x00 :: buf) p) -> (g_flat g = true -> 2 <= length buf) ->
  (Z.of_nat (sl_len (m_buf m) + 11 * length buf) < two63)%Z ->
  forall sp, no_crash (fst (Append k w g m b sp)) /\ forall sp', Append k w g m b sp' = Append k w g m b sp.
Proof.
  intros (T & In & Ve & Bo & Le & O & L & F & S1 & S2 & Sm) Fi [So1 So2] Hd Hw Hf B sp.
  pose proof (track_loop_safe buf (length buf) 0 [] ltac:(lia)) as Tk. fold (buildTrackTable buf) in Tk.
  destruct (buildTrackTable buf) as [tracked|? |? | |] eqn:Et; try contradiction.
  2:{ assert (E : forall sp, Append k w g m b sp = (Err e, m)).
      { intros sp0. unfold Append, initMerger. rewrite In, Fi, Hd. cbn [bind md_buf]. now rewrite Et. }
      rewrite E. split; [exact I|]. intros sp'. now rewrite E. }
  destruct (w_append w (m_mem m) (m_buf m) buf) as [s mem] eqn:A.
  pose proof (w_append_ok w _ _ _ _ _ O A) as (O1 & L1 & _).
  set (m1 := with_buf m (mkSlice (sl_arr s) (sl_off s) (sl_len (m_buf m)) (sl_cap s)) mem).
  assert (E : forall sp, Append k w g m b sp = match mergeItems w g m1 (mkMDoc buf (f sp)) tracked with
          | (Ok _, m2) => (Ok (wrap64 (m_length m2 - m_length m)), m2)
          | (r, m2) => (bind r (fun _ => NoFuel), m2)
          end).
  { intros sp0. unfold Append, initMerger. rewrite In, Fi, Hd. cbn [bind md_buf]. rewrite Et. cbn [bind md_buf]. now rewrite A. }
  rewrite E. cut (no_crash (fst (mergeItems w g m1 (mkMDoc buf (f sp)) tracked)) /\
    forall sp', mergeItems w g m1 (mkMDoc buf (f sp')) tracked = mergeItems w g m1 (mkMDoc buf (f sp)) tracked).
  { intros [N Q]. split; [|intros sp'; now rewrite E, Q].
    destruct (mergeItems w g m1 (mkMDoc buf (f sp)) tracked) as [[[]|? |? | |] fin]; cbn [fst] in N; try contradiction; exact I. }
  clear E. unfold mergeItems. cbn [md_buf].
  assert (Ex : no_crash (expectedElements g buf)).
  { unfold expectedElements. destruct (g_flat g); [|exact I]. specialize (Hf eq_refl).
    destruct buf as [|b0 [|b1 bs]]; try (cbn in Hf; lia).
    repeat match goal with
    | |- no_crash (if ?c then _ else _) => destruct c
    | |- no_crash (match varintdecode ?x with VOk _ _ => _ | VBad _ => _ end) => destruct (varintdecode x)
    end; exact I. }
  destruct (expectedElements g buf) as [[n skip]|? |? | |] eqn:Ee; try contradiction; [|split; [exact I|reflexivity]].
  destruct ((n <? 0) || (maxUint32 <? n))%Z eqn:Rn; [split; [exact I|reflexivity]|].
  assert (Hw' : forall p, met (x00 :: buf) (S skip) p -> ~ cut (x00 :: buf) p).
  { intros p. eapply Hw. apply (elements_of (mkMDoc buf []) g 0 n skip Ee). lia. }
  set (st := mkMState _ _ _ _ _ _ _ _). change (m_bodyOffset m1) with (m_bodyOffset m). rewrite Bo.
  assert (Lg : 7 <= lo top) by (destruct T as [->| ->]; cbn; lia).
  assert (Si : Sinv buf (S skip) (sl_len (m_buf m)) st).
  { destruct O1 as [Oa Ob]. split; [cbn [st s_idx]; apply mt_start|]. split; [split; cbn; [lia|exact Ob]|]. cbn [st s_buf s_idx m1 with_buf m_buf sl_len].
    split; [lia|]. split; [|lia]. split; [exact So1|]. split; [exact So2|]. intros v o Fd. now apply tfind_new in Fd. }
  destruct (loop_safe (S skip) (sl_len (m_buf m)) g buf (f sp) Hw' B (S (length buf)) st Si ltac:(lia)) as (N & Sp & _).
  split.
  - destruct (merge_loop w (S (length buf)) g 5 (mkMDoc buf (f sp)) st) as [[[]|? |? | |] fin]; cbn [fst] in N; try contradiction; exact I.
  - intros sp'. now rewrite Sp.
Qed.

Lemma no_crash_append_err g m b e : m_inited m = true -> (forall sp, merger_doc k w b sp = Err e) ->
  forall sp, no_crash (fst (Append k w g m b sp)) /\ forall sp', Append k w g m b sp' = Append k w g m b sp.
Proof.
  intros In Hd sp. unfold Append, initMerger. rewrite In. destruct (m_finished m); [split; [exact Logic.I|reflexivity]|].
  rewrite Hd. split; [exact Logic.I|]. intros sp'. now rewrite Hd.
Qed.

(** taking the header off and decompressing *)
Lemma merger_cases flat top b : (Z.of_nat (length b) < two63)%Z -> ~ hazard k flat top b ->
  (exists e, forall sp, merger_doc k w b sp = Err e) \/
  exists buf f, forall sp, merger_doc k w b sp = Ok (mkMDoc buf (f sp)).
Proof.
  intros Lb Hz. unfold merger_doc, readHeader. destruct (Nat.leb_spec (length b) headerSize) as [L|L]; [left; eexists; reflexivity|].
  unfold headerSize in L.
  destruct b as [|b0 [|b1 [|b2 [|b3 [|vt t]]]]]; cbn [length] in L; try lia.
  cbn [skipn nth].
  destruct (varintdecode t) as [z sz|] eqn:V.
  2:{ left. destruct (_ =? _)%N; [destruct (_ && _)%bool; eexists; reflexivity|].
      destruct (_ =? _)%N; [destruct (_ <=? _)%N; eexists; reflexivity|]. destruct (_ =? _)%N; eexists; reflexivity. }
  apply varintdecode_inv in V as (l & rest & n & -> & -> & Bs & G & ->).
  assert (Hs : N.shiftr (b2n vt) 4 = (b2n vt / 16)%N) by (now rewrite N.shiftr_div_pow2).
  assert (Hl : N.land (b2n vt) 15 = (b2n vt mod 16)%N).
  { change 15%N with (N.ones 4). now rewrite N.land_ones. }
  rewrite Hs, Hl. pose proof (b2n_lt vt). set (b := b0 :: b1 :: b2 :: b3 :: vt :: l ++ rest) in *.
  assert (L10 : length l <= 10) by lia.
  set (R := fun sp => bind (Ok (mkHeader (b2n vt / 16) (b2n vt mod 16) (5 + length l) (wrap64 (to_int n + Z.of_nat (length l))))) (fun h =>
      let start := wrap64 (Z.of_nat headerSize + h_suffixSize h) in
      if ((start <? 0) || (Z.of_nat (length b) <? start))%Z then Crash else
      let body := skipn (Z.to_nat start) b in
      match documentDecompressor (h_version h) (h_doctype h) with
      | Ok (Some dk) => bind (decompress k dk body) (fun d => Ok (mkMDoc d (w_spare w d)))
      | _ => Ok (mkMDoc body sp)
      end)).
  assert (Done : magic (b2n vt mod 16) = [b0; b1; b2; b3] -> (1 <= b2n vt mod 16)%N ->
    (exists e, forall sp, R sp = Err e) \/ exists buf f, forall sp, R sp = Ok (mkMDoc buf (f sp))).
  { intros Em Hv. unfold R. cbn [bind h_suffixSize h_version h_doctype]. cbv zeta. fold (bodyStart_of l n).
    assert (Hd : headed b (b2n vt mod 16) (b2n vt / 16) l n).
    { exists vt, rest. rewrite Em. repeat (split; auto); lia. }
    destruct ((bodyStart_of l n <? 0) || (Z.of_nat (length b) <? bodyStart_of l n))%Z eqn:B.
    { elim Hz. eapply hz_header; [exact Hd|]. apply N.lt_nge. intros C. apply (bodyStart_ok l n (length b) L10 Lb) in C.
      rewrite orb_comm in C. congruence. }
    assert (Bn : (body_start l n <= N.of_nat (length b))%N).
    { apply (bodyStart_ok l n (length b) L10 Lb). rewrite orb_comm. exact B. }
    rewrite (bodyStart_nat _ _ _ L10 Lb Bn).
    destruct (documentDecompressor (b2n vt mod 16) (b2n vt / 16)) as [[dk|]| | | |] eqn:Dd;
      try (right; eexists _, (fun sp => sp); reflexivity).
    destruct (decompress_cases k dk (skipn (N.to_nat (body_start l n)) b)) as [[z ->]|[[e ->]|(_ & -> & Zm)]]; cbn [bind].
    - right. eexists _, (fun sp => _). reflexivity.
    - left. eexists. reflexivity.
    - elim Hz. assert (Ty : (b2n vt / 16 = 3 /\ 3 <= b2n vt mod 16)%N).
      { clear -Dd. unfold documentDecompressor in Dd. revert Dd.
        repeat match goal with |- context [if ?c then _ else _] => destruct c eqn:?; try discriminate end.
        all: intros _; unfold serealRaw, serealSnappy, serealSnappyIncremental, serealZlib, serealZstd in *; lia. }
      destruct Ty as [Ty Tv]. rewrite Ty in Hd. eapply hz_zlib; eauto. }
  destruct (N.eqb_spec (le32 b) magicHeaderBytes) as [E|_].
  - destruct ((1 <=? b2n vt mod 16) && (b2n vt mod 16 <=? 2))%N eqn:C; [|left; eexists; reflexivity]. apply Done; [|lia].
    rewrite (le32_inv _ _ _ _ (vt :: l ++ rest) x3d x73 x72 x6c E).
    unfold magic. destruct (N.ltb_spec (b2n vt mod 16) 3); [reflexivity|lia].
  - destruct (N.eqb_spec (le32 b) magicHeaderBytesHighBit) as [E|_].
    + destruct (3 <=? b2n vt mod 16)%N eqn:C; [|left; eexists; reflexivity]. apply Done; [|lia].
      rewrite (le32_inv _ _ _ _ (vt :: l ++ rest) x3d xf3 x72 x6c E).
      unfold magic. destruct (N.ltb_spec (b2n vt mod 16) 3); [lia|reflexivity].
    + left. destruct (_ =? _)%N; eexists; reflexivity.
Qed.

Lemma hazard_safe top ver sum g m b : ready top ver sum m -> m_finished m = false -> sound m ->
  (Z.of_nat (length b) < two63)%Z -> ~ hazard k (g_flat g) (g_top g) b ->
  (forall body, body_taken k b body -> Z.of_nat (sl_len (m_buf m) + 11 * length body) < two63)%Z ->
  forall sp, no_crash (fst (Append k w g m b sp)) /\ forall sp', Append k w g m b sp' = Append k w g m b sp.
Proof.
  intros R Fi So Lb Hz B. destruct (merger_cases _ _ _ Lb Hz) as [[e E]|(buf & f & E)].
  - eapply no_crash_append_err; eauto. apply R.
  - pose proof (doc_taken k w b [] _ Lb (E [])) as Tk. cbn [md_buf] in Tk.
    eapply append_safe; eauto.
    + intros n s0 p El Mt C. apply Hz. eapply hz_cut; eauto.
    + intros Fl. destruct (Nat.le_gt_cases 2 (length buf)); [assumption|]. elim Hz. eapply hz_flat; eauto.
Qed.

(** a successful Append keeps the tables sound, whatever the document *)
Lemma append_sound top ver sum g m b sp n m' : ready top ver sum m -> m_finished m = false -> sound m ->
  Append k w g m b sp = (Ok n, m') -> sound m'.
Proof.
  intros R Fi So H. pose proof R as (T & In & Ve & Bo & Le & O & L & F & S1 & S2 & Sm).
  destruct (append_cases k w g m b sp _ m' In Fi O H) as [(_ & Nr & _)|(d & tracked & m1 & r1 & _ & _ & Bg & M & E)].
  { now elim (Nr n). }
  destruct Bg as [Bc Bl Bs Ba (E1 & E2 & E3 & E4 & E5 & E6 & E7 & E8)].
  unfold mergeItems in M. destruct (expectedElements g (md_buf d)) as [[n1 skip]|? |? | |];
    try (injection M as <- <-; discriminate).
  destruct (_ || _)%Z; [injection M as <- <-; discriminate|].
  rewrite E6, Bo in M. set (st := mkMState _ _ _ _ _ _ _ _) in M.
  destruct (merge_loop w (Datatypes.S (length (md_buf d))) g 5 d st) as [r2 fin] eqn:Lp.
  set (J := fun st => slice_ok (s_mem st) (s_buf st) /\ 5 < sl_len (s_buf st) /\ tabs (fun o => o < sl_len (s_buf st)) st).
  assert (Js : forall st st', J st -> merge_step w g 5 d st = Ok (Some st') -> J st').
  { clear. intros st st' (O & L5 & T) H.
    destruct (step_facts w (fun o => o < sl_len (s_buf st)) g 5 _ st st' O T ltac:(cbv beta; lia) ltac:(cbv beta; lia) H)
      as (b & out & mem1 & Hb & A & M & (U1 & U2 & U3) & Lt & _).
    apply (w_append_ok w _ _ _ _ _ O) in A as (O1 & L1 & _). split; [|split; [lia|]].
    - destruct M as [->|(i & _ & _ & M)]; [exact O1|]. now apply (set_track_ok _ _ _ _ O1) in M as (Q & _).
    - split; [|split]; intros v o Q; [specialize (U1 v o Q)|specialize (U2 v o Q)|specialize (U3 v o Q)]; cbv beta in *; lia. }
  assert (Lg : 7 <= lo top) by (destruct T as [->| ->]; cbn; lia).
  assert (J0 : J st).
  { destruct So as [So1 So2]. split; [exact Bs|]. cbn [st s_buf]. rewrite Bl. split; [lia|].
    split; [|split]; cbn [st s_str s_obj s_ttab]; rewrite ?E1, ?E2; auto. intros v o Fd. now apply tfind_new in Fd. }
  pose proof (loop_keeps w _ g 5 d Js _ _ _ _ J0 Lp) as (_ & _ & U1 & U2 & _).
  destruct r2 as [[]|? |? | |]; injection M as <- <-; try discriminate. split; assumption.
Qed.

Definition safe_hist (v : N) (m : merger) : Prop :=
  m_finished m = false /\ (raw v m \/ exists top sum, ready top (out_version v) sum m /\ sound m).

Lemma init_sound g v m u m1 : (v = 0 \/ v = 2 \/ v = 3)%N -> raw v m -> initMerger w g m = (Ok u, m1) -> sound m1.
Proof.
  intros Hv (R1 & _) H. unfold initMerger in H. rewrite R1 in H.
  destruct (Nat.ltb 0 (g_expected g) && _); [discriminate|].
  destruct (_ <? _)%N; [destruct (make_with _ _ _); discriminate|]. destruct (make_with _ _ _). destruct (w_append _ _ _ _).
  match type of H with match ?x with Some _ => _ | None => _ end = _ => destruct x end; [|discriminate].
  destruct (w_append _ _ _ _). destruct (w_append _ _ _ _). injection H as _ <-. split; intros ? ? [=].
Qed.

Lemma all_safe_hist v : (v = 0 \/ v = 2 \/ v = 3)%N -> forall calls m m', safe_hist v m -> append_all k w m calls = Some m' -> safe_hist v m'.
Proof.
  intros Hv. induction calls as [|c calls IH]; intros m m' Hi H; cbn [append_all] in H; [now injection H as <-|].
  destruct (Append k w (c_conf c) m (c_doc c) (c_spare c)) as [[n|? |? | |] m1] eqn:A; try discriminate.
  apply (IH m1 m'); [|exact H].
  destruct Hi as (Fi & [R|(top & sum & R & So)]).
  - destruct (initMerger w (c_conf c) m) as [ri m2] eqn:E. pose proof (init_raw w (c_conf c) v m ri m2 Hv R E) as K.
    destruct ri as [u|? |? | |]; try (unfold Append in A; rewrite E in A; discriminate).
    destruct K as [K F1]. rewrite (append_init_any k w _ _ _ _ _ _ E) in A by apply K.
    pose proof (init_sound _ _ _ _ _ Hv R E) as So.
    destruct (append_ready k w _ _ _ _ _ _ _ _ _ K F1 A) as (K2 & F2 & _). split; [exact F2|]. right.
    exists (g_top (c_conf c)), (0 + n)%Z. split; [exact K2|]. exact (append_sound _ _ _ _ _ _ _ _ _ K F1 So A).
  - destruct (append_ready k w _ _ _ _ _ _ _ _ _ R Fi A) as (K2 & F2 & _). split; [exact F2|]. right.
    exists top, (sum + n)%Z. split; [exact K2|]. exact (append_sound _ _ _ _ _ _ _ _ _ R Fi So A).
Qed.
End Crash.
