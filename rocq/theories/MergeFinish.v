(** Finish with a compressor. *)
From Verif Require Import Base BaseFacts SpecVarint Varint VarintFacts Tags Codecs Encode Compress Header
  GoMem Spec SpecDoc SpecOptions GrammarFacts DocFacts GoSlice RedocFacts Document MarshalFacts
  Merge SpecMerge MergeFacts MergeItems MergeRun MergeSafe MergeProps.
From Coq Require Import ZifyBool ZifyNat ZifyN.
Ltac Zify.zify_post_hook ::= Z.div_mod_to_equations.

Lemma overwrite_twice (a z : bytes) i n : i + length z <= length a ->
  overwrite (overwrite a i z) i (firstn n z) = overwrite a i z.
Proof.
  intros L. unfold overwrite at 1. unfold overwrite at 1 3.
  rewrite firstn_app, firstn_firstn, Nat.min_id, firstn_length, Nat.min_l, Nat.sub_diag by lia. cbn [firstn]. rewrite app_nil_r. f_equal.
  unfold overwrite. rewrite skipn_app, (skipn_all2 (firstn i a)) by (rewrite firstn_length; lia). cbn [app].
  rewrite !firstn_length, (Nat.min_l i) by lia. replace (i + Nat.min n (length z) - i) with (Nat.min n (length z)) by lia.
  rewrite skipn_app. replace (Nat.min n (length z) - length z) with 0 by lia. cbn [skipn]. rewrite app_assoc. f_equal.
  destruct (Nat.le_ge_cases n (length z)).
  - rewrite Nat.min_l by lia. apply firstn_skipn.
  - rewrite Nat.min_r by lia. rewrite skipn_all, app_nil_r. now apply firstn_all2.
Qed.

Lemma nth_plus (l : bytes) i o d : nth (o + i) l d = nth i (skipn o l) d.
Proof. revert l. induction o as [|o IH]; intros [|x l]; cbn [skipn Nat.add nth]; auto. now destruct i. Qed.

Section Comp.
Variable k : codecs.
Variable w : mworld.

(** header of a compressed document *)
Definition marked (ver typ : N) : bytes := magic ver ++ [n2b (ver + 16 * typ); x00].
Definition comp_type (c : compressor) : N := match c with CSnappy _ => 2 | _ => 3 end.

Lemma finish_comp_result g m c ver body out m' : slice_ok (m_mem m) (m_buf m) -> m_bodyOffset m = 5 -> m_version m = ver ->
  (ver = 2 \/ ver = 3)%N ->
  contents (m_mem m) (m_buf m) = hdr ver ++ body ->
  finish_comp k g m c = (Ok (Some out), m') ->
  supported ver (Some c) /\
  exists z, compress k c body = Ok z /\ (length z <= length body \/ c = CSnappy true -> out = marked ver (comp_type c) ++ z).
Proof.
  intros O Bo Ve Hv C H. unfold finish_comp in H. rewrite Bo in H.
  assert (Lh : length (hdr ver) = 6) by (destruct Hv as [->| ->]; reflexivity).
  pose proof (contents_length _ _ O) as Lc. rewrite C, app_length, Lh in Lc.
  destruct O as [O1 O2]. destruct O2 as [O2|O2]; [lia|].
  assert (La : sl_arr (m_buf m) < length (m_mem m)) by (apply array_long; lia).
  unfold reslice at 1 in H. destruct (Nat.leb_spec 6 (sl_len (m_buf m))); [|lia]. destruct (Nat.leb_spec (sl_len (m_buf m)) (sl_cap (m_buf m))); [|lia].
  cbn [andb] in H. set (sb := mkSlice _ _ _ _) in H.
  assert (Cb : contents (m_mem m) sb = body).
  { assert (E : body = skipn 6 (contents (m_mem m) (m_buf m)))
      by (rewrite C, skipn_app, (skipn_all2 (hdr ver)), Lh by lia; reflexivity).
    rewrite E. unfold contents, sb. cbn [sl_arr sl_off sl_len]. now rewrite skipn_firstn_comm, skipn_add. }
  unfold compress_at in H. rewrite Cb in H.
  destruct (compress k c body) as [z|? |? | |] eqn:Ez; cbn [bind] in H; try discriminate.
  set (mem1 := match c with CSnappy true => _ | _ => _ end) in H.
  cbn [with_buf m_buf m_mem m_bodyOffset] in H. unfold reslice in H. rewrite Bo in H.
  destruct (Nat.leb_spec 0 (length z + 5 + 1)); [|lia]. cbn [andb] in H.
  destruct (Nat.leb_spec (length z + 5 + 1) (sl_cap (m_buf m))) as [Lz|]; [|discriminate].
  set (A := array (m_mem m) (sl_arr (m_buf m))) in *. set (o := sl_off (m_buf m)) in *.
  set (s := mkSlice (sl_arr (m_buf m)) (o + 0) (length z + 5 + 1 - 0) (sl_cap (m_buf m) - 0)) in H.
  set (mem2 := copy_into mem1 sb z) in *.
  assert (M2 : length z <= length body \/ c = CSnappy true -> array mem2 (sl_arr (m_buf m)) = overwrite A (o + 6) z).
  { intros Cd. unfold mem2, copy_into. change (sl_arr sb) with (sl_arr (m_buf m)). change (sl_off sb) with (o + 6).
    change (sl_len sb) with (sl_len (m_buf m) - 6).
    assert (Z : mem1 = m_mem m /\ length z <= length body \/ mem1 = upd (m_mem m) (sl_arr (m_buf m)) (overwrite A (o + 6) z)).
    { unfold mem1. destruct c as [[]| |]; try (left; split; [reflexivity|]; destruct Cd as [Cd|Cd]; [exact Cd|discriminate]).
      right. change (sl_cap sb) with (sl_cap (m_buf m) - 6). destruct (Nat.leb_spec (length z) (sl_cap (m_buf m) - 6)); [|lia]. reflexivity. }
    destruct Z as [[-> Z]| ->].
    - rewrite array_upd_same by exact La. rewrite firstn_all2 by lia. reflexivity.
    - rewrite array_upd_same by (rewrite upd_length; exact La). rewrite array_upd_same by exact La.
      apply overwrite_twice. lia. }
  assert (L2 : length mem2 = length (m_mem m)).
  { unfold mem2, copy_into. rewrite upd_length. unfold mem1. destruct c as [[]| |]; rewrite ?upd_length; reflexivity. }
  assert (Fin : forall t, (t = 2 \/ t = 3)%N -> length z <= length body \/ c = CSnappy true ->
    contents (upd mem2 (sl_arr s) (upd (array mem2 (sl_arr s)) (sl_off s + 4)
      (n2b (N.lor (b2n (nth (sl_off s + 4) (array mem2 (sl_arr s)) x00)) (N.shiftl t 4))))) s = marked ver t ++ z).
  { intros t Ht Cd. specialize (M2 Cd). unfold contents. change (sl_arr s) with (sl_arr (m_buf m)).
    rewrite array_upd_same by lia. rewrite M2. change (sl_off s) with (o + 0). change (sl_len s) with (length z + 5 + 1 - 0).
    rewrite Nat.add_0_r, Nat.sub_0_r.
    assert (E : skipn o (overwrite A (o + 6) z) = hdr ver ++ z ++ skipn (6 + length z) (skipn o A)).
    { rewrite skipn_overwrite by lia. unfold overwrite. f_equal.
      assert (F6 : firstn 6 (contents (m_mem m) (m_buf m)) = hdr ver)
        by (rewrite C, firstn_app, (firstn_all2 (hdr ver)), Lh by lia; cbn; now rewrite app_nil_r).
      rewrite <- F6. unfold contents. rewrite firstn_firstn, Nat.min_l by lia. reflexivity. }
    rewrite skipn_upd, E.
    assert (En : nth (o + 4) (overwrite A (o + 6) z) x00 = nth 4 (hdr ver ++ z ++ skipn (6 + length z) (skipn o A)) x00).
    { rewrite <- E. apply nth_plus. }
    rewrite En. rewrite firstn_upd. replace (length z + 5 + 1) with (6 + length z) by lia.
    rewrite app_assoc, firstn_app, firstn_all2 by (rewrite app_length; lia).
    rewrite app_length, Lh, Nat.sub_diag, firstn_O, app_nil_r.
    unfold marked, hdr. destruct Hv as [->| ->]; destruct Ht as [->| ->]; reflexivity. }
  cbn [with_buf m_version] in H. rewrite Ve in H.
  destruct c as [[]| |]; try discriminate.
  - split; [cbn; destruct Hv as [->| ->]; reflexivity|]. exists z. split; [reflexivity|]. intros Cd. injection H as <- _. cbn [comp_type].
    apply (Fin 2%N); auto.
  - destruct (N.ltb_spec ver 3); [discriminate|]. split; [cbn; lia|]. exists z. split; [reflexivity|].
    intros Cd. injection H as <- _. apply (Fin 3%N); auto.
Qed.

(** Finish with a compressor, against Finish without *)
Theorem finish_compressed top ver sum g g0 m c out m' out0 m0 : ready top ver sum m -> m_finished m = false ->
  (0 <= sum < 34359738368)%Z -> (ver = 2 \/ ver = 3)%N ->
  g_comp g0 = None -> Finish k w g0 m = (Ok out0, m0) ->
  g_comp g = Some c -> Finish k w g m = (Ok out, m') ->
  exists body, out0 = hdr ver ++ body /\
    (out = out0 \/ supported ver (Some c) /\
      exists z, compress k c body = Ok z /\ (length z <= length body \/ c = CSnappy true -> out = marked ver (comp_type c) ++ z)).
Proof.
  intros R F Hs Hv G0 F0 G H. unfold Finish in F0, H. rewrite (init_ready w _ _ _ _ _ R), F in F0. rewrite (init_ready w _ _ _ _ _ R), F in H.
  pose proof (put_ready _ _ _ _ R Hs Hv) as (mem & rest & Pu & O & C & _). rewrite Pu, G0 in F0. rewrite Pu, G in H.
  injection F0 as <- <-. cbn [set_finished m_mem m_buf] in H |- *.
  exists (opening top ++ varint (Z.to_N sum) ++ rest). rewrite C. split; [reflexivity|].
  destruct (_ || _)%Z; [|injection H as <- <-; left; exact C].
  right. destruct (finish_comp k g (set_finished m mem) c) as [[[o|]|? |? | |] m2] eqn:Fc; try discriminate.
  - cbn [bind] in H. injection H as <- <-.
    destruct (finish_comp_result g (set_finished m mem) c ver (opening top ++ varint (Z.to_N sum) ++ rest) o m2) as [Su K];
      [exact O|apply R|apply R|exact Hv|exact C|exact Fc|]. split; [exact Su|exact K].
  - exfalso. clear - Fc. unfold finish_comp in Fc. destruct (reslice _ _ _); [|discriminate].
    destruct (compress_at _ _ _ _) as [[]| | | |]; try discriminate. destruct (reslice _ _ _); [|discriminate].
    destruct c as [[]| |]; try discriminate. destruct (_ <? _)%N; discriminate.
Qed.

Lemma hist_ready top v sum g m out m' : (v = 0 \/ v = 2 \/ v = 3)%N -> hist top v sum m -> g_top g = top ->
  Finish k w g m = (Ok out, m') ->
  exists m1, ready top (out_version v) sum m1 /\ m_finished m1 = false /\ Finish k w g m1 = (Ok out, m') /\
    (m1 = m \/ exists u, initMerger w g m = (Ok u, m1)).
Proof.
  intros Hv (Fi & [[R Z]|R]) Ht H; [|exists m; auto].
  destruct (initMerger w g m) as [ri m1] eqn:E. pose proof (init_raw w g v m ri m1 Hv R E) as K.
  destruct ri as [u|? |? | |]; try (unfold Finish in H; rewrite E in H; discriminate).
  destruct K as [K F1]. rewrite Ht, <- Z in K. exists m1. split; [exact K|]. split; [exact F1|].
  split; [|eauto]. now rewrite <- (finish_init_any k w _ _ _ _ E) by apply K.
Qed.

Lemma compressed_document rd m c ver body z d e : lossless k -> (ver = 2 \/ ver = 3)%N -> supported ver (Some c) ->
  compress k c body = Ok z -> document_in m rd k (hdr ver ++ body) ver 0 [] d body e ->
  (N.of_nat (length z) <= r_packed rd < 18446744073709551616)%N -> (Z.of_nat (length body) < two63)%Z ->
  (N.of_nat (length (marked ver (comp_type c) ++ z)) <= r_memory rd)%N ->
  document_in m rd k (marked ver (comp_type c) ++ z) ver (comp_type c) [] d body e.
Proof.
  intros Ll Hv Su Ez (pre & packed & Eb & Pr & Pk & M1 & M2 & It) Lz Lb Lm.
  assert (E : pre = hdr ver /\ packed = body).
  { inversion Pk; subst. destruct Pr as (_ & _ & vt & len & -> & Hvt & Gr & _).
    destruct len as [|x len]; [inversion Gr|].
    assert (Ex : x = x00 /\ vt = n2b ver).
    { unfold hdr in Eb. destruct Hv as [->| ->]; cbn in Eb; injection Eb; auto. }
    destruct Ex as [-> ->]. inversion Gr as [|? ? ? B]; subst; [|cbn in B; lia].
    unfold hdr in *. split; [now rewrite app_nil_r|reflexivity]. }
  destruct E as [-> ->].
  set (ec := mkEConfig false (Some c) 0 false false 0 ver (fun _ _ l => l) (mkLayout Addr (fun _ => None)) (fun _ => None)).
  assert (Mc : marshal_compress k ec (hdr ver) body = Ok (marked ver (comp_type c), z)).
  { unfold marshal_compress. cbn [ec e_comp e_threshold e_version]. cbn [Z.eqb orb]. rewrite Ez. cbn [bind].
    destruct c as [inc| |]; cbn [supported] in Su; [| |contradiction].
    - subst inc. destruct Hv as [->| ->]; reflexivity.
    - destruct Hv as [->| ->]; [lia|reflexivity]. }
  destruct (compress_packs k ec [] (hdr ver) body _ _ Ll Su ltac:(cbn [ec e_version]; lia) (hdr_preamble ver Hv) Mc)
    as (typ & P2 & Len & K).
  assert (Et : typ = comp_type c).
  { destruct P2 as (_ & T & vt & len & Em & Hvt & _).
    assert (Evt : vt = n2b (ver + 16 * comp_type c)).
    { unfold marked in Em. cbn [ec e_version] in Em. destruct Hv as [Hv|Hv]; rewrite Hv in Em; cbn in Em; injection Em; intros; subst; reflexivity. }
    rewrite Evt in Hvt. cbn [ec e_version] in Hvt.
    assert (Ct : (comp_type c = 2 \/ comp_type c = 3)%N) by (destruct c; cbn; auto).
    rewrite b2n_n2b_small in Hvt by lia. lia. }
  subst typ. exists (marked ver (comp_type c)), z. split; [reflexivity|]. split; [exact P2|]. split; [apply K; auto|].
  split; [exact Lm|]. split.
  - rewrite Len. exact M2.
  - unfold body_item in *. destruct (N.eqb_spec ver 1); [lia|exact It].
Qed.
End Comp.
