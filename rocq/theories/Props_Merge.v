(** Merging documents (properties C27-C33). *)
From Verif Require Import Base BaseFacts SpecVarint Varint VarintFacts Tags GoMem Codecs Encode Compress Header Decode Document
  Spec SpecDoc SpecOptions GrammarFacts DecodeSpec DocFacts Roundtrip WireFacts GoSlice RedocFacts Merge SpecMerge MergeRun MergeSafe
  MergeProps MergeFinish MergeSim SpecHeader SpecShape SpecAccept SpecTaken SpecCut MergeCrash MergeApi Cases.
From Coq Require Import ZifyBool ZifyNat ZifyN.

(** a call of Append with a document for [d] as described in SpecMerge *)
Definition appends (rd : reader) (k : codecs) (top : N) (c : call) (d : data) : Prop :=
  g_top (c_conf c) = top /\ g_dedupe (c_conf c) = false /\ source rd k (g_flat (c_conf c)) (c_doc c) d.

(** the sum of the counts the successful calls returned *)
Definition sum_of (rs : list (res Z)) : Z := fold_right (fun r s => match r with Ok n => (n + s)%Z | _ => s end) 0%Z rs.
Lemma sum_total rs : sum_of rs = total rs.
Proof. induction rs as [|x rs IH]; [reflexivity|]. cbn [sum_of fold_right total]. fold (sum_of rs) (total rs). rewrite IH. destruct x; reflexivity. Qed.

(** * Settings for the cases *)
Definition w0 : mworld := mkMWorld (fun _ n => 2 * n) (fun _ => []).
(** TopLevelElement ARRAY, compression, KeepFlat, ExpectedSize *)
Definition mg (comp : option compressor) (flat : bool) (expected : nat) : mconfig := mkMConfig 0 comp 0 false flat expected.
Definition g0 : mconfig := mg None false 0.
Definition with3 (body : bytes) : bytes := [x3d; xf3; x72; x6c; x03; x00] ++ body.
Definition app (b : bytes) : call := mkCall g0 b [].
Definition appf (b : bytes) : call := mkCall (mg None true 0) b [].
Definition merge_all (docs : list bytes) : option bytes :=
  match append_all k0 w0 (new_merger 3) (map app docs) with
  | None => None
  | Some m => match Finish k0 w0 g0 m with (Ok out, _) => Some out | _ => None end
  end.
Definition decodable (k : codecs) (c : dconfig) (b : bytes) : Prop := exists h v, unmarshal_fresh k c b = Ok (h, v).

(** what is read of documents of this form *)
Lemma headed3 body ver typ l n : headed (with3 body) ver typ l n -> ver = 3%N /\ typ = 0%N /\ l = [x00] /\ n = 0%N.
Proof.
  intros (vt & rest & V & E & Hb & G & _). unfold with3, magic in E. destruct (ver <? 3)%N; [discriminate|].
  cbn [app] in E. injection E as <- E. change (b2n x03) with 3%N in Hb.
  inversion G; subst; cbn [app] in E; injection E as <- E; [change (b2n x00) with 0%N in *; repeat split; lia|].
  match goal with K : (128 <= b2n x00)%N |- _ => vm_compute in K; now elim K end.
Qed.
Lemma taken3 k body b : body_taken k (with3 body) b -> b = body.
Proof.
  intros (ver & typ & l & n & rest & vt & V & E & Hb & G & L & _ & U).
  destruct (headed3 body ver typ l n) as (-> & -> & -> & ->); [exists vt, rest; auto|].
  cbv zeta in U. change (skipn (N.to_nat (body_start [x00] 0)) (with3 body)) with body in U.
  destruct U as [U|[U _]]; [now inversion U|]. elim U. now left.
Qed.
Lemma lvint1 by_ p n r b : lvint by_ p n r -> nth_error by_ p = Some b -> (b2n b < 128)%N -> n = b2n b /\ r = S p.
Proof.
  intros (l & m & (x & y & -> & <-) & G & _ & -> & ->) Hb Lb. rewrite nth_error_app2, Nat.sub_diag in Hb by lia.
  inversion G; subst; cbn in Hb; injection Hb as ->; [|lia].
  split; [unfold wrap_u64; lia|cbn; lia].
Qed.

(** {"aa": i} *)
Definition hash1 (i : byte) : bytes := [x2a; x01; x62; x61; x61; i].
Lemma hash1_source rd k flat i : (b2n i < 16)%N -> (forall s, 2 <= g_max (r_dialect rd s))%N -> (20 <= r_memory rd)%N ->
  source rd k flat (with3 (hash1 i)) (DHash [([x61; x61], DInt (Z.of_N (b2n i)))]).
Proof.
  intros Li Lx Lr. split; [cbn; auto|].
  exists 3%N, 0%N, [], (hash1 i), 6. split; [|split; [discriminate|split; [cbn; lia|]]].
  - exists [x3d; xf3; x72; x6c; x03; x00], (hash1 i). split; [reflexivity|]. split.
    { repeat split; try lia. exists x03, [x00]. repeat split; try (cbn; lia). apply (vg_last x00). cbn. lia. }
    split; [constructor|]. cbn [direct r_memory]. split; [cbn; lia|]. split; [cbn; lia|].
    unfold body_item. cbn [N.eqb Pos.eqb direct r_dialect].
    set (g := mkDialect _ _ _ _ _ _).
    eapply (i_hash g (x00 :: hash1 i) CKeys 1 1 1 3); [tag_here| | |reflexivity|].
    + exact (vint1 (x00 :: hash1 i) 2 x01 eq_refl eq_refl).
    + cbn. specialize (Lx 1). lia.
    + apply (ps_cons _ _ CKeys 3 [x61; x61] 6 _ 7); [| |apply ps_nil].
      * eapply str_lit. eapply (lit_short _ _ 3 3 98 [x61; x61]); [tag_here|lia| |reflexivity].
        exists [x00; x2a; x01; x62], [i]. split; reflexivity.
      * apply (i_pos _ _ CKeys 6 6 (b2n i)); [|exact Li].
        split; [lia|]. split; [intros; lia|]. exists i. split; [reflexivity|]. split; [|lia].
        rewrite N.mod_small by lia. reflexivity.
  - intros _. split; [intros [P|P]; discriminate P|discriminate].
Qed.

(** * C27 *)
(** Documents with item-level COPY tags (or of version 1, with padding before a shared string,
    or with empty class names), and runs with DedupeStrings, are not covered. *)
Theorem C27_merge_decodes_partial k w c top v calls ds m g out m' :
  (v = 0 \/ v = 2 \/ v = 3)%N -> Forall2 (appends (go_reader c) k top) calls ds ->
  append_all k w (new_merger v) calls = Some m -> g_top g = top -> g_comp g = None ->
  Finish k w g m = (Ok out, m') ->
  let elements := concat (map (fun cd => parts (g_flat (c_conf (fst cd))) top (snd cd)) (combine calls ds)) in
  (N.of_nat (length elements) <= 2147483647)%N -> (N.of_nat (length out) <= 281474976710656)%N ->
  reads k c out (merged top elements) /\
  exists body e, document_in CKeys (direct (go_reader c)) k out (if (v =? 0)%N then 3 else v)%N 0 [] (merged top elements) body e.
Proof.
  intros Hv F A Ht Hc Fi elements L1 L2.
  assert (E : elements = added top calls ds).
  { unfold elements. clear. revert ds. induction calls as [|c0 calls IH]; intros [|d ds]; cbn; auto. now rewrite IH. }
  clearbody elements. subst elements.
  destruct (merge_document k w 2147483647 false CNone (g_frz (go_dialect c 0)) top v calls ds m g out m' Hv F A Ht Hc Fi L1 ltac:(lia) L2)
    as (body & e & D).
  change (document_in CKeys (direct (go_reader c)) k out (out_version v) 0 [] (merged top (added top calls ds)) body e) in D.
  split; [|exists body, e; exact D].
  eapply document_reads, document_any, document_indirect, D.
Qed.
Print Assumptions C27_merge_decodes_partial.

(** two documents {"aa": 5} and {"aa": 6}: the second key becomes a COPY of the first *)
Example C27_case :
  let ds := [DHash [([x61; x61], DInt 5)]; DHash [([x61; x61], DInt 6)]] in
  let docs := [with3 (hash1 x05); with3 (hash1 x06)] in
  let out := with3 [x2b; x02; x3f; x3f; x3f; x3f; x2a; x01; x62; x61; x61; x05; x2a; x01; x2f; x09; x06] in
  Forall2 (appends (go_reader c0) k0 0) (map app docs) ds /\
  merge_all docs = Some out /\ reads k0 c0 out (DArr ds).
Proof.
  cbn zeta. assert (F : Forall2 (appends (go_reader c0) k0 0) (map app [with3 (hash1 x05); with3 (hash1 x06)])
     [DHash [([x61; x61], DInt 5)]; DHash [([x61; x61], DInt 6)]]).
  { constructor; [|constructor; [|constructor]]; (split; [reflexivity|split; [reflexivity|]]);
      (apply (hash1_source (go_reader c0) k0 false); [reflexivity|intros; cbn; lia|cbn; lia]). }
  split; [exact F|]. split; [vm_compute; reflexivity|].
  assert (A : exists m m', append_all k0 w0 (new_merger 3) (map app [with3 (hash1 x05); with3 (hash1 x06)]) = Some m /\
    Finish k0 w0 g0 m = (Ok (with3 [x2b; x02; x3f; x3f; x3f; x3f; x2a; x01; x62; x61; x61; x05; x2a; x01; x2f; x09; x06]), m')).
  { do 2 eexists. split; [vm_compute; reflexivity|vm_compute; reflexivity]. }
  destruct A as (m & m' & A & Fi).
  apply (C27_merge_decodes_partial k0 w0 c0 0 3 _ _ m g0 _ m' ltac:(auto) F A eq_refl eq_refl Fi); cbn; lia.
Qed.

(** The claim without the restriction: documents this package decodes, merged without an error,
    give a document this package decodes. *)
Theorem C27_merge_decodes_refuted : exists k w c docs out,
  Forall (decodable k c) docs /\
  (exists m m', append_all k w (new_merger 3) (map app docs) = Some m /\ Finish k w g0 m = (Ok out, m')) /\
  unmarshal_fresh k c out = Err ENestedCOPY.
Proof.
  (* {"aa": 1} and [{"aa": 1}, COPY of that hash] *)
  exists k0, w0, c0, [with3 [x51; x62; x61; x61; x01]; with3 [x2b; x02; x51; x62; x61; x61; x01; x2f; x03]].
  eexists. split; [|split].
  - repeat constructor; do 2 eexists; vm_compute; reflexivity.
  - do 2 eexists. split; [vm_compute; reflexivity|vm_compute; reflexivity].
  - vm_compute. reflexivity.
Qed.
Print Assumptions C27_merge_decodes_refuted.

(** A version 1 document, whose offsets count from the start of the document, is merged
    without an error into a document with other contents: the COPY of "aa" becomes one of "bb". *)
Example C27_version1 :
  let v1 := [x3d; x73; x72; x6c; x01; x00; x2b; x05; x62; x61; x61; x00; x00; x62; x62; x62; x2f; x08] in
  decodable k0 c0 v1 /\
  merge_all [v1] = Some (with3 [x2b; x01; x3f; x3f; x3f; x3f; x2b; x05; x62; x61; x61; x00; x00; x62; x62; x62; x2f; x0e]).
Proof. split; [do 2 eexists; vm_compute; reflexivity|vm_compute; reflexivity]. Qed.

(** COPY of a string with padding before it *)
Example C27_padding :
  let docs := [with3 [x51; x62; x61; x61; x01]; with3 [x2b; x02; x51; x3f; x62; x61; x61; x01; x51; x2f; x04; x02]] in
  Forall (decodable k0 c0) docs /\
  exists out, merge_all docs = Some out /\ unmarshal_fresh k0 c0 out = Err ENestedCOPY.
Proof.
  split; [repeat constructor; do 2 eexists; vm_compute; reflexivity|].
  eexists. split; [vm_compute; reflexivity|vm_compute; reflexivity].
Qed.

(** DedupeStrings: a byte string and a text with the same bytes become two byte strings *)
Example C27_dedupe :
  let g := mkMConfig 0 None 0 true false 0 in
  exists m m', append_all k0 w0 (new_merger 3) (map (fun b => mkCall g b []) [with3 [x26; x01; x61]; with3 [x27; x01; x61]]) = Some m /\
  Finish k0 w0 g m = (Ok (with3 [x2b; x02; x3f; x3f; x3f; x3f; x26; x01; x61; x2f; x07]), m').
Proof. do 2 eexists. split; [vm_compute; reflexivity|vm_compute; reflexivity]. Qed.

(** * C28 *)
(** Missing: totals of 2^35 and more, which do not fit the five bytes reserved. *)
Theorem C28_merged_count_partial k w v top calls rs m g r m' :
  (v = 0 \/ v = 2 \/ v = 3)%N -> (top = 0 \/ top = 1)%N ->
  Forall (fun c => g_top (c_conf c) = top) calls ->
  append_each k w (new_merger v) calls = (rs, m) ->
  g_top g = top -> g_comp g = None -> (g_expected g = 0 \/ 5 <= g_expected g) ->
  (sum_of rs < 34359738368)%Z -> Finish k w g m = (r, m') ->
  exists version count rest, r = Ok (magic version ++ [n2b version; x00] ++ (if (top =? 0)%N then [x2b] else [x28; x2b]) ++ count ++ rest) /\
    version = (if (v =? 0)%N then 3 else v)%N /\ vgroups count (Z.to_N (sum_of rs)).
Proof.
  intros Hv Ht F A Hg Hc He Hs Fi. rewrite sum_total in *. destruct (each_new k w top v calls rs m Hv F A) as (H & P & _).
  destruct (finish_hist k w top v (total rs) g m r m' Hv Ht H Hg Hc He ltac:(lia) Fi) as (rest & ->).
  exists (out_version v), (varint (Z.to_N (total rs))), rest. split; [|split; [reflexivity|apply varint_groups; lia]].
  unfold hdr. rewrite <- !app_assoc. reflexivity.
Qed.
Print Assumptions C28_merged_count_partial.

(** one document, one that is rejected, and one whose three elements are merged *)
Example C28_case : let calls := [app (with3 [x05]); app (with3 [x34]); appf (with3 [x2b; x03; x01; x02; x03])] in
  fst (append_each k0 w0 (new_merger 3) calls) = [Ok 1%Z; Err (EUnknownTag 52); Ok 3%Z] /\
  fst (Finish k0 w0 g0 (snd (append_each k0 w0 (new_merger 3) calls))) =
    Ok (with3 [x2b; x04; x3f; x3f; x3f; x3f; x05; x01; x02; x03]).
Proof. split; [vm_compute; reflexivity|vm_compute; reflexivity]. Qed.

(** Nine documents that claim to be arrays of 2^32-1 elements, then [5]: every Append succeeds,
    and the count overwrites the item. *)
Theorem C28_merged_count_refuted : exists k w calls rs m out m',
  append_each k w (new_merger 3) calls = (rs, m) /\ Forall (fun r => exists n, r = Ok n) rs /\
  Finish k w g0 m = (Ok out, m') /\
  exists it, Append k w g0 (new_merger 3) it [] = (Ok 1%Z, snd (Append k w g0 (new_merger 3) it [])) /\
    In (app it) calls /\ it = with3 [x05] /\ ~ In x05 out.
Proof.
  exists k0, w0, (repeat (appf (with3 [x2b; xff; xff; xff; xff; x0f])) 9 ++ [app (with3 [x05])]).
  do 4 eexists. split; [vm_compute; reflexivity|]. split; [repeat constructor; eexists; reflexivity|].
  split; [vm_compute; reflexivity|]. exists (with3 [x05]). split; [vm_compute; reflexivity|].
  split; [apply in_or_app; right; left; reflexivity|]. split; [reflexivity|].
  cbn. intuition discriminate.
Qed.
Print Assumptions C28_merged_count_refuted.
(** without the last one, Finish panics *)
Example C28_panic : fst (Finish k0 w0 g0 (snd (append_each k0 w0 (new_merger 3) (repeat (appf (with3 [x2b; xff; xff; xff; xff; x0f])) 9)))) = Crash.
Proof. vm_compute. reflexivity. Qed.

(** * C29 *)
(** Missing: the error status after a Finish that failed. *)
Theorem C29_finish_final_partial k w g m out m' :
  Finish k w g m = (Ok out, m') ->
  forall g', (forall b spare, Append k w g' m' b spare = (Err EFinished, m')) /\ Finish k w g' m' = (Ok out, m').
Proof.
  intros H g'. destruct (finish_final k w g m out m' H) as (I & F & E). split.
  - intros b spare. now apply finished_append.
  - rewrite (finished_finish k w g' m' I F), E. reflexivity.
Qed.
Print Assumptions C29_finish_final_partial.

Example C29_case :
  let m := snd (append_each k0 w0 (new_merger 3) [app (with3 [x05])]) in
  let m' := snd (Finish k0 w0 g0 m) in
  fst (Finish k0 w0 g0 m) = Ok (with3 [x2b; x01; x3f; x3f; x3f; x3f; x05]) /\
  fst (Append k0 w0 g0 m' (with3 [x06]) []) = Err EFinished /\
  fst (Finish k0 w0 (mg (Some (CZlib 0)) false 0) m') = Ok (with3 [x2b; x01; x3f; x3f; x3f; x3f; x05]).
Proof. repeat split; vm_compute; reflexivity. Qed.

(** The first Finish fails (compression), the second returns a document and no error. *)
Theorem C29_finish_final_refuted : exists k w g m m' e out,
  Finish k w g m = (Err e, m') /\ Finish k w g m' = (Ok out, m').
Proof.
  exists k0, w0, (mg (Some (CZstd 0)) false 0), (new_merger 3). do 3 eexists. split; [vm_compute; reflexivity|vm_compute; reflexivity].
Qed.
Print Assumptions C29_finish_final_refuted.

(** * C30 *)
(** Missing: rejected documents in which hashes or class names are read before the error (these
    stay registered), or REFP or ALIAS tags; Finish with compression. *)
Theorem C30_failed_append_partial k w v top before rs m g doc spare r m' later gf :
  (v = 0 \/ v = 2 \/ v = 3)%N -> (top = 0 \/ top = 1)%N ->
  (forall c, In c before \/ In c later -> startable top (c_conf c)) -> startable top g -> startable top gf ->
  append_each k w (new_merger v) before = (rs, m) ->
  (Z.of_nat (length doc) < two63)%Z -> ~ names k (g_flat g) top doc -> ~ refers k (g_flat g) top doc -> g_dedupe g = false ->
  Append k w g m doc spare = (r, m') -> (forall n, r <> Ok n) ->
  Forall (fun c => (Z.of_nat (length (c_doc c)) < two63)%Z /\ ~ refers k (g_flat (c_conf c)) top (c_doc c)) later -> g_comp gf = None ->
  let '(r1, m1) := append_each k w m later in
  let '(r2, m2) := append_each k w m' later in
  r1 = r2 /\ fst (Finish k w gf m1) = fst (Finish k w gf m2).
Proof.
  intros Hv Ht St Sg Sf A Rd Nb Ub Hd Ap Nr Fl Hc. pose proof Sg as [Tg _]. rewrite <- Tg in Nb, Ub.
  assert (Fc : Forall (fun c => calm k w (c_conf c) (c_doc c) (c_spare c)) later).
  { rewrite Forall_forall in *. intros c Hin. destruct (Fl c Hin) as [Lc Un]. apply quiet_calm; [exact Lc|].
    destruct (St c (or_intror Hin)) as [-> _]. exact Un. }
  destruct (each_new k w top v before rs m Hv) as ((Fi & [[R Z]|R]) & _); [|exact A| |].
  - apply Forall_forall. intros c Hin. now apply St; left.
  - destruct (init_succeeds w g v m Hv R ltac:(destruct Sg as [-> _]; exact Ht) ltac:(apply Sg)) as (mi & E).
    pose proof (init_raw w g v m _ mi Hv R E) as [Ri Fii]. rewrite (append_init_any k w _ _ _ mi doc spare E) in Ap by apply Ri.
    destruct (nameless_append k w g mi doc spare r m' ltac:(apply Ri) Fii ltac:(apply Ri) (nameless_doc k w g doc spare Rd Nb) Hd Ap) as [S1 S2].
    pose proof (failed_is_forgotten k w _ v 0 mi g doc spare r m' later gf Hv Ri Fii Ap Nr (quiet_calm k w g doc spare Rd Ub) S1 S2 Fc Hc) as K1.
    pose proof (fresh_each k w top v g m tt mi later gf Hv Ht R Sg E) as K2.
    destruct (append_each k w m later) as [ra ma], (append_each k w mi later) as [rb mb], (append_each k w m' later) as [rc mc].
    destruct K1 as [-> K1]. destruct K2 as [-> K2]; auto; [|split; congruence].
    apply Forall_forall. intros c Hin. split; [now apply St; right|]. rewrite Forall_forall in Fc. now apply Fc.
  - destruct (nameless_append k w g m doc spare r m' ltac:(apply R) Fi ltac:(apply R) (nameless_doc k w g doc spare Rd Nb) Hd Ap) as [S1 S2].
    apply (failed_is_forgotten k w top v (total rs) m g doc spare r m' later gf Hv R Fi Ap Nr (quiet_calm k w g doc spare Rd Ub) S1 S2); [|exact Hc].
    exact Fc.
Qed.
Print Assumptions C30_failed_append_partial.

(** an array with a string, whose bytes look like tags for a hash, a reference and an object, and
    a COPY of its middle *)
Example C30_case :
  let bad := [x2b; x02; x63; x2a; x29; x2c; x2f; x04] in
  ~ names k0 false 0 (with3 bad) /\ ~ refers k0 false 0 (with3 bad) /\
  fst (append_each k0 w0 (new_merger 3) [app (with3 [x05]); app (with3 bad); app (with3 (hash1 x06))]) =
    [Ok 1%Z; Err EBadTarget; Ok 1%Z] /\
  fst (Finish k0 w0 g0 (snd (append_each k0 w0 (new_merger 3) [app (with3 [x05]); app (with3 bad); app (with3 (hash1 x06))]))) =
    Ok (with3 [x2b; x02; x3f; x3f; x3f; x3f; x05; x2a; x01; x62; x61; x61; x06]).
Proof.
  cbn zeta. set (bad := [x2b; x02; x63; x2a; x29; x2c; x2f; x04]).
  assert (P : forall n s p, elements (x00 :: bad) false 0 n s -> met (x00 :: bad) s p -> n = 1%N /\ (p = 1 \/ p = 3 \/ p = 7 \/ p = 9)).
  { intros n s p El M. inversion El; subst; try discriminate. split; [reflexivity|]. clear El.
    induction M as [|p t _ IH (b & Hb & ->) Ht|p t E r _ IH (b & Hb & ->) Ht|p t E m r _ IH (b & Hb & ->) Ht]; auto;
      destruct IH as [->|[->|[->| ->]]]; cbn in Hb; try discriminate; injection Hb as <-; unfold tag_of in *; cbn in Ht; try lia.
    all: inversion Ht; subst; try lia; try (change (99 - 96)%N with 3%N; right; right; left; reflexivity).
    all: match goal with K : count_at _ _ _ _ |- _ => destruct K as [K _] end.
    - destruct (lvint1 _ _ _ _ x04 ltac:(eassumption) eq_refl eq_refl) as [_ ->]. auto.
    - destruct (lvint1 _ _ _ _ x02 ltac:(eassumption) eq_refl eq_refl) as [_ ->]. auto. }
  assert (T : forall t, meets k0 false 0 (with3 bad) t -> (t = 43 \/ t = 99 \/ t = 47)%N).
  { intros t (b & n & s & p & Tk & El & M & (x & Hx & ->)). apply taken3 in Tk as ->.
    destruct (P _ _ _ El M) as [_ [->|[->|[->| ->]]]]; cbn in Hx; try discriminate; injection Hx as <-; cbn; auto. }
  split; [|split; [|split; [vm_compute; reflexivity|vm_compute; reflexivity]]].
  - intros [t M Q|b n s p m r Tk El M Tg C Q|b n s Tk El Q].
    + apply T in M. lia.
    + apply taken3 in Tk as ->. destruct Tg as (x & Hx & Tx).
      destruct (P _ _ _ El M) as [_ [->|[->|[->| ->]]]]; cbn in Hx; try discriminate; injection Hx as <-; cbn in Tx; try discriminate.
      destruct C as [C _]. destruct (lvint1 _ _ _ _ x02 C eq_refl eq_refl) as [-> _]. cbn in Q. lia.
    + apply taken3 in Tk as ->. destruct (P _ _ _ El (mt_start _ _)) as [-> _]. lia.
  - intros [M|M]; apply T in M; lia.
Qed.

(** After a rejected document with the key "aaaa", {"aaaa": 1} is merged into a document that
    cannot be decoded; without that call it can. *)
Theorem C30_failed_append_refuted : exists k w c bad good m e m1 m2 m2' out m3 m3' out',
  m = new_merger 3 /\ Append k w g0 m bad [] = (Err e, m1) /\
  Append k w g0 m1 good [] = (Ok 1%Z, m2) /\ Finish k w g0 m2 = (Ok out, m2') /\
  Append k w g0 m good [] = (Ok 1%Z, m3) /\ Finish k w g0 m3 = (Ok out', m3') /\
  unmarshal_fresh k c out = Err ENestedCOPY /\ decodable k c out'.
Proof.
  exists k0, w0, c0, (with3 [x51; x64; x61; x61; x61; x61; x2f; x04]), (with3 [x51; x64; x61; x61; x61; x61; x01]), (new_merger 3).
  do 8 eexists. do 7 (split; [vm_compute; reflexivity|]). do 2 eexists. vm_compute. reflexivity.
Qed.
Print Assumptions C30_failed_append_refuted.

(** * C31 *)
(** Missing: documents in which REFP or ALIAS tags are read; see below.  (C27 covers COPY, OBJECTV and
    OBJECTV_FREEZE.)  The first bytes hold the header, the tags and the count. *)
Theorem C31_appended_only_partial k w v top before rs m g doc spare n m' gf out1 m1 out2 m2 :
  (v = 0 \/ v = 2 \/ v = 3)%N -> (top = 0 \/ top = 1)%N -> Forall (fun c => g_top (c_conf c) = top) before ->
  append_each k w (new_merger v) before = (rs, m) ->
  (Z.of_nat (length doc) < two63)%Z -> ~ refers k (g_flat g) top doc -> g_top g = top -> g_top gf = top -> g_comp gf = None ->
  Append k w g m doc spare = (Ok n, m') ->
  Finish k w gf m = (Ok out1, m1) -> Finish k w gf m' = (Ok out2, m2) ->
  (sum_of rs + n < 34359738368)%Z ->
  exists more, skipn (if (top =? 0)%N then 12 else 13) out2 = skipn (if (top =? 0)%N then 12 else 13) out1 ++ more.
Proof.
  intros Hv Ht F A Rd Ub Hg Hgf Hc Ap F1 F2 Hs. rewrite <- Hg in Ub. rewrite sum_total in Hs.
  destruct (each_new k w top v before rs m Hv F A) as (Hi & Pn & _).
  destruct (append_hist k w top v (total rs) g m doc spare (Ok n) m' Hv Hi Hg Ap) as [Hi2 Bn]. cbn [reported] in *.
  destruct (finish_after k w top v _ gf m out1 m1 Hv Hi Hgf Hc ltac:(lia) F1) as (ma & Ra & Fa & Ea & Sa).
  destruct (finish_after k w top v _ gf m' out2 m2 Hv Hi2 Hgf Hc ltac:(lia) F2) as (mb & Rb & Fb & Eb & Sb).
  assert (El : (if (top =? 0)%N then 12 else 13) = lo top + 5) by (unfold lo; destruct (top =? 0)%N; reflexivity).
  rewrite El, Sa, Sb.
  assert (X : exists mi, ready top (out_version v) (total rs) mi /\ m_finished mi = false /\
     Append k w g mi doc spare = (Ok n, m') /\ contents (m_mem mi) (m_buf mi) = contents (m_mem ma) (m_buf ma)).
  { destruct Hi as (Fi & [[R Z]|R]).
    - destruct (initMerger w g m) as [ri mi] eqn:E. pose proof (init_raw w g v m ri mi Hv R E) as K.
      destruct ri as [u|? |? | |]; try (unfold Append in Ap; rewrite E in Ap; discriminate).
      destruct K as [K Fk]. rewrite Hg, <- Z in K. exists mi. split; [exact K|]. split; [exact Fk|].
      split; [now rewrite <- (append_init_any k w _ _ _ _ _ _ E) by apply K|].
      destruct Ea as [->|[u' Ea]]; [destruct R as (R & _), Ra as (_ & Ra & _); congruence|].
      destruct (init_state w g v m u mi Hv R E) as [-> _], (init_state w gf v m u' ma Hv R Ea) as [-> _]. congruence.
    - exists m. split; [exact R|]. split; [exact Fi|]. split; [exact Ap|].
      destruct Ea as [->|[u' Ea]]; [reflexivity|]. rewrite (init_ready w _ _ _ _ _ R) in Ea. now injection Ea as _ <-. }
  destruct X as (mi & Ri & Fi & Ai & Ei).
  pose proof (calm_append k w g mi doc spare (Ok n) m' ltac:(apply Ri) Fi ltac:(apply Ri) ltac:(destruct Ri as (_ & _ & _ & _ & _ & _ & Q & _); lia)
    (quiet_calm k w g doc spare Rd Ub) Ai) as (_ & _ & _ & _ & _ & _ & _ & _ & (x & Ex)).
  assert (Eb2 : contents (m_mem mb) (m_buf mb) = contents (m_mem m') (m_buf m')).
  { destruct Eb as [->|[u Eb]]; [reflexivity|]. unfold initMerger in Eb. destruct Hi2 as (_ & [[R Z]|R]).
    - exfalso. destruct R as (R & _). pose proof (calm_append k w g mi doc spare (Ok n) m' ltac:(apply Ri) Fi ltac:(apply Ri) ltac:(destruct Ri as (_ & _ & _ & _ & _ & _ & Q & _); lia)
       (quiet_calm k w g doc spare Rd Ub) Ai) as (_ & Q & _). congruence.
    - destruct R as (_ & R & _). rewrite R in Eb. now injection Eb as _ <-. }
  rewrite Eb2, Ex, <- Ei. exists x. rewrite skipn_app. f_equal.
  replace (lo top + 5 - length (contents (m_mem mi) (m_buf mi))) with 0; [reflexivity|].
  destruct Ri as (_ & _ & _ & _ & _ & O & Q & _). rewrite (contents_length _ _ O). lia.
Qed.
Print Assumptions C31_appended_only_partial.

(** 5, then {"a)": 6}, whose key looks as if it held a reference *)
Example C31_case :
  let good := [x2a; x01; x62; x61; x29; x06] in
  ~ refers k0 false 0 (with3 good) /\
  fst (Finish k0 w0 g0 (snd (append_each k0 w0 (new_merger 3) [app (with3 [x05])]))) =
    Ok (with3 [x2b; x01; x3f; x3f; x3f; x3f] ++ [x05]) /\
  fst (Finish k0 w0 g0 (snd (append_each k0 w0 (new_merger 3) [app (with3 [x05]); app (with3 good)]))) =
    Ok (with3 [x2b; x02; x3f; x3f; x3f; x3f] ++ [x05] ++ good).
Proof.
  cbn zeta. split; [|split; [vm_compute; reflexivity|vm_compute; reflexivity]].
  set (good := [x2a; x01; x62; x61; x29; x06]).
  assert (T : forall t, meets k0 false 0 (with3 good) t -> (t = 42 \/ t = 98 \/ t = 6)%N).
  { intros t (b & n & s & p & Tk & El & M & (x & Hx & ->)). apply taken3 in Tk as ->. inversion El; subst; try discriminate.
    assert (P : p = 1 \/ p = 3 \/ p = 6 \/ p = 7).
    { clear El x Hx. induction M as [|p t _ IH (b & Hb & ->) Ht|p t E r _ IH (b & Hb & ->) Ht|p t E m r _ IH (b & Hb & ->) Ht]; auto;
        destruct IH as [->|[->|[->| ->]]]; cbn in Hb; try discriminate; injection Hb as <-; unfold tag_of in *; cbn in Ht; try lia.
      all: inversion Ht; subst; try lia; try (change (98 - 96)%N with 2%N; auto; fail).
      match goal with K : count_at _ _ _ _ |- _ => destruct K as [K _]; destruct (lvint1 _ _ _ _ x01 K eq_refl eq_refl) as [_ ->] end. auto. }
    destruct P as [->|[->|[->| ->]]]; cbn in Hx; try discriminate; injection Hx as <-; cbn; auto. }
  intros [M|M]; apply T in M; lia.
Qed.

(** "aaaaaa", then an array of an integer and a reference to it: the track bit is set on a
    letter of the string of the first document. *)
Theorem C31_appended_only_refuted : exists k w c docs m m1 out s x,
  append_all k w (new_merger 3) (map app docs) = Some m /\ Finish k w g0 m = (Ok out, m1) /\
  Forall (decodable k c) docs /\ nth_error docs 0 = Some (with3 (x66 :: s)) /\ length s = 6 /\
  firstn 7 (skipn 12 out) = x66 :: firstn 3 s ++ x :: skipn 4 s /\ nth_error s 3 <> Some x /\ decodable k c out.
Proof.
  exists k0, w0, c0, [with3 [x66; x61; x61; x61; x61; x61; x61]; with3 [x2b; x02; xa8; x01; x29; x03]].
  do 5 eexists. split; [vm_compute; reflexivity|]. split; [vm_compute; reflexivity|].
  split; [repeat constructor; do 2 eexists; vm_compute; reflexivity|].
  split; [reflexivity|]. split; [reflexivity|]. split; [reflexivity|]. split; [discriminate|].
  do 2 eexists. vm_compute. reflexivity.
Qed.
Print Assumptions C31_appended_only_refuted.

(** * C32 *)
(** Missing: a compressor's output longer than its input, other than Snappy's. *)
Theorem C32_finish_compressed_partial k w v top calls rs m g c out m' out0 m0 :
  (v = 0 \/ v = 2 \/ v = 3)%N -> Forall (fun c => g_top (c_conf c) = top) calls ->
  append_each k w (new_merger v) calls = (rs, m) -> (sum_of rs < 34359738368)%Z ->
  g_top g = top -> g_comp g = Some c -> Finish k w g m = (Ok out, m') ->
  (* the same call without compression *)
  Finish k w (mkMConfig (g_top g) None (g_threshold g) (g_dedupe g) (g_flat g) (g_expected g)) m = (Ok out0, m0) ->
  let version := (if (v =? 0)%N then 3 else v)%N in
  exists body, out0 = magic version ++ [n2b version; x00] ++ body /\
    (out = out0 \/
     supported version (Some c) /\ exists z, compress k c body = Ok z /\
       (length z <= length body \/ c = CSnappy true ->
        out = magic version ++ [n2b (version + 16 * match c with CSnappy _ => 2 | _ => 3 end); x00] ++ z)).
Proof.
  intros Hv F A Hs Ht Hc Fi F0. cbn zeta. rewrite sum_total in Hs. destruct (each_new k w top v calls rs m Hv F A) as (Hi & Pn & _).
  destruct (hist_ready k w top v _ g m out m' Hv Hi Ht Fi) as (m1 & R & Fn & F1 & E).
  set (g' := mkMConfig _ _ _ _ _ _) in F0.
  assert (F0' : Finish k w g' m1 = (Ok out0, m0)).
  { destruct E as [->|[u E]]; [exact F0|]. rewrite <- F0. symmetry. eapply finish_init_any; [|eapply init_inited; exact E].
    exact E. }
  assert (Hv' : (out_version v = 2 \/ out_version v = 3)%N) by (unfold out_version; destruct Hv as [->|[->| ->]]; cbn; auto).
  destruct (finish_compressed k w top _ _ g g' m1 c out m' out0 m0 R Fn ltac:(lia) Hv' eq_refl F0' Hc F1) as (body & E0 & D).
  exists body. split; [rewrite E0; unfold hdr; now rewrite <- app_assoc|].
  destruct D as [D|(Su & z & Cz & D)]; [now left|right]. split; [exact Su|]. exists z. split; [exact Cz|].
  intros L. rewrite (D L). unfold marked. rewrite <- app_assoc. destruct c; reflexivity.
Qed.
Print Assumptions C32_finish_compressed_partial.

(** What Finish returns is then a document for the same data; [out0]: the result without
    compression. *)
Theorem C32_compressed_merge_partial k w dc top v calls ds rs m g c out m' out0 m0 :
  lossless k -> (v = 0 \/ v = 2 \/ v = 3)%N -> Forall2 (appends (go_reader dc) k top) calls ds ->
  append_each k w (new_merger v) calls = (rs, m) -> Forall (fun r => exists n, r = Ok n) rs ->
  (sum_of rs < 34359738368)%Z ->
  g_top g = top -> g_comp g = Some c -> Finish k w g m = (Ok out, m') ->
  Finish k w (mkMConfig (g_top g) None (g_threshold g) (g_dedupe g) (g_flat g) (g_expected g)) m = (Ok out0, m0) ->
  let elements := concat (map (fun cd => parts (g_flat (c_conf (fst cd))) top (snd cd)) (combine calls ds)) in
  (N.of_nat (length elements) <= 2147483647)%N -> (N.of_nat (length out0) <= 281474976710656)%N ->
  (forall z, compress k c (skipn 6 out0) = Ok z ->
     (N.of_nat (length z) <= 2147483647)%N /\ (length z <= length (skipn 6 out0) \/ c = CSnappy true)) ->
  reads k dc out (merged top elements).
Proof.
  intros Lk Hv F A Ok_ Hs Ht Hc Fi F0 elements Le Lo Lz.
  assert (Aa : append_all k w (new_merger v) calls = Some m).
  { clear - A Ok_. revert A Ok_. generalize (new_merger v). revert rs. induction calls as [|c calls IH]; intros rs m1 A Ok_; cbn in *.
    - now injection A as _ <-.
    - destruct (Append k w (c_conf c) m1 (c_doc c) (c_spare c)) as [r m2].
      destruct (append_each k w m2 calls) as [rs' m3] eqn:E. injection A as <- <-. inversion Ok_ as [|? ? [n ->] Ok2]; subst.
      eapply IH; eauto. }
  assert (Ft : Forall (fun c => g_top (c_conf c) = top) calls).
  { clear - F. induction F as [|? ? ? ? [H _]]; constructor; auto. }
  destruct (C27_merge_decodes_partial k w dc top v calls ds m
    (mkMConfig (g_top g) None (g_threshold g) (g_dedupe g) (g_flat g) (g_expected g)) out0 m0 Hv F Aa Ht eq_refl F0 Le Lo) as (Rd & body & e & D).
  destruct (C32_finish_compressed_partial k w v top calls rs m g c out m' out0 m0 Hv Ft A Hs Ht Hc Fi F0) as (body' & E0 & K).
  destruct K as [->|(Su & z & Cz & K)]; [exact Rd|].
  set (ver := (if (v =? 0)%N then 3 else v)%N) in *.
  assert (Hv' : (ver = 2 \/ ver = 3)%N) by (unfold ver; destruct Hv as [->|[->| ->]]; cbn; auto).
  assert (Eb : body' = skipn 6 out0) by (rewrite E0; destruct Hv' as [->| ->]; reflexivity).
  rewrite Eb in Cz, K. destruct (Lz z Cz) as [Lz1 Lz2]. specialize (K Lz2).
  assert (Ebody : out0 = hdr ver ++ body /\ body = skipn 6 out0).
  { destruct D as (pre & packed & P1 & P2 & P3 & _).
    assert (Pb : packed = body) by (inversion P3; subst; auto; discriminate). subst packed.
    assert (Pp : pre = hdr ver).
    { destruct P2 as (_ & _ & vt & len & P4 & P5 & P6 & _). rewrite app_nil_r in P4. rewrite P4. unfold hdr. f_equal.
      rewrite P4, E0, <- !app_assoc in P1. apply app_inv_head in P1. cbn [List.app] in P1. injection P1 as P7 P8. subst vt.
      f_equal. inversion P6; subst; cbn [List.app] in P8; injection P8; intros; subst; [reflexivity|].
      match goal with H : (128 <= _)%N |- _ => cbn in H; lia end. }
    subst pre. split; [exact P1|]. rewrite P1. destruct Hv' as [->| ->]; reflexivity. }
  destruct Ebody as [Eo Eb2]. rewrite <- Eb2 in Cz. rewrite Eo in D.
  pose proof (compressed_document k (direct (go_reader dc)) CKeys c ver body z _ e Lk Hv' Su Cz D) as D2.
  assert (Lb : length body <= length out0) by (rewrite Eb2, skipn_length; lia).
  apply document_indirect, document_any, document_reads in D2.
  - rewrite K. unfold marked in D2. rewrite <- app_assoc in D2. unfold comp_type in D2. destruct c; exact D2.
  - cbn [direct r_packed go_reader]. lia.
  - unfold two63. lia.
  - unfold marked. rewrite !app_length. cbn [direct r_memory go_reader]. destruct Hv' as [->| ->]; cbn; lia.
Qed.
Print Assumptions C32_compressed_merge_partial.

(** k1: "compresses" to the first bytes *)
Definition k1 : codecs :=
  mkCodecs (fun b => firstn 3 b) (fun b => Some b) (fun _ b => Some (firstn 2 b)) (fun _ => true) (fun b => Some b) (fun _ _ => None) (fun _ => None).
Example C32_case :
  let m := snd (append_each k1 w0 (new_merger 3) [app (with3 [x05])]) in
  exists z, compress k1 (CZlib 0) [x2b; x01; x3f; x3f; x3f; x3f; x05] = Ok z /\
  fst (Finish k1 w0 (mg (Some (CZlib 0)) false 0) m) = Ok ([x3d; xf3; x72; x6c; x33; x00] ++ z).
Proof. eexists. split; [vm_compute; reflexivity|vm_compute; reflexivity]. Qed.

(** k0 and Snappy, two documents *)
Example C32_merge_case :
  let docs := [with3 (hash1 x05); with3 (hash1 x06)] in
  exists rs m m' out, append_each k0 w0 (new_merger 3) (map app docs) = (rs, m) /\ rs = [Ok 1%Z; Ok 1%Z] /\
    Finish k0 w0 (mg (Some (CSnappy true)) false 0) m = (Ok out, m') /\ nth_error out 4 = Some x23 /\
    reads k0 c0 out (DArr [DHash [([x61; x61], DInt 5)]; DHash [([x61; x61], DInt 6)]]).
Proof.
  assert (A : exists rs m m' out m0 out0, append_each k0 w0 (new_merger 3) (map app [with3 (hash1 x05); with3 (hash1 x06)]) = (rs, m) /\
    rs = [Ok 1%Z; Ok 1%Z] /\ Finish k0 w0 (mg (Some (CSnappy true)) false 0) m = (Ok out, m') /\ nth_error out 4 = Some x23 /\
    Finish k0 w0 (mg None false 0) m = (Ok out0, m0) /\ length out0 = 23 /\
    exists z, compress k0 (CSnappy true) (skipn 6 out0) = Ok z /\ length z = 19).
  { do 6 eexists. do 5 (split; [vm_compute; reflexivity|]). split; [reflexivity|]. eexists. split; [vm_compute; reflexivity|reflexivity]. }
  destruct A as (rs & m & m' & out & m0 & out0 & A & Er & Fi & N4 & F0 & L0 & z & Cz & Lz). exists rs, m, m', out.
  split; [exact A|]. split; [exact Er|]. split; [exact Fi|]. split; [exact N4|].
  destruct C27_case as [F _].
  apply (C32_compressed_merge_partial k0 w0 c0 0 3 _ _ rs m (mg (Some (CSnappy true)) false 0) (CSnappy true) out m' out0 m0
    k0_lossless ltac:(auto) F A ltac:(subst rs; repeat constructor; eexists; reflexivity) ltac:(subst rs; cbn; lia) eq_refl eq_refl Fi F0).
  - cbn. lia.
  - rewrite L0. lia.
  - intros z' Hz. split; [|now right]. rewrite Cz in Hz. injection Hz as <-. rewrite Lz. lia.
Qed.

(** An output longer than the input is cut off and padded. *)
Theorem C32_finish_compressed_refuted : exists k w g c body z out m',
  g_comp g = Some c /\ Finish k w (mg None false 40) (new_merger 3) = (Ok (with3 body), snd (Finish k w (mg None false 40) (new_merger 3))) /\
  compress k c body = Ok z /\ Finish k w g (new_merger 3) = (Ok out, m') /\
  forall h, length h = 6 -> out <> h ++ z.
Proof.
  exists k0, w0, (mg (Some (CZlib 0)) false 40), (CZlib 0), [x2b; x00; x3f; x3f; x3f; x3f].
  do 3 eexists. split; [reflexivity|]. split; [vm_compute; reflexivity|]. split; [vm_compute; reflexivity|].
  split; [vm_compute; reflexivity|]. intros h L E.
  do 6 (destruct h as [|? h]; [discriminate L|]). destruct h; [|discriminate L]. cbn in E. discriminate E.
Qed.
Print Assumptions C32_finish_compressed_refuted.
(** or, with a smaller capacity, Finish panics *)
Example C32_panic : fst (Finish k0 w0 (mg (Some (CZlib 0)) false 0) (new_merger 3)) = Crash.
Proof. vm_compute. reflexivity. Qed.

(** * C33 *)
(** For all bytes, clear of the hazards listed in SpecCut.v.  Missing: after an Append that failed
    ([C33_after_failure_refuted]). *)
Theorem C33_append_safe_partial k w v before m g doc :
  (v = 0 \/ v = 2 \/ v = 3)%N -> append_all k w (new_merger v) before = Some m ->
  (Z.of_nat (length doc) < two63)%Z -> ~ hazard k (g_flat g) (g_top g) doc ->
  (g_expected g = 0 \/ 5 <= g_expected g) ->
  (* what is merged so far and the document fit in memory *)
  (forall body, body_taken k doc body -> N.of_nat (sl_len (m_buf m) + 11 * length body) < 9223372036854775000)%N ->
  forall spare, match fst (Append k w g m doc spare) with Ok _ | Err _ => True | _ => False end /\
    forall spare', Append k w g m doc spare' = Append k w g m doc spare.
Proof.
  intros Hv A Ld Hz Ex Sz.
  assert (Hi : safe_hist v m).
  { eapply all_safe_hist; [exact Hv| |exact A]. split; [reflexivity|]. left. apply raw_new. }
  destruct Hi as (Fi & [R|(top & sum & R & So)]).
  - destruct (initMerger w g m) as [ri mi] eqn:E. pose proof (init_raw w g v m ri mi Hv R E) as K.
    destruct ri as [u|e|e| |].
    2:{ intros spare. unfold Append. rewrite E. cbn. split; [exact I|reflexivity]. }
    2-4: exfalso; clear K; unfold initMerger in E; destruct R as (R1 & R2 & R3 & R4); rewrite R1 in E;
      destruct (Nat.ltb 0 (g_expected g) && Nat.ltb (g_expected g) headerSize) eqn:Eb;
      [apply andb_prop in Eb as [B1 B2]; apply Nat.ltb_lt in B1; apply Nat.ltb_lt in B2; unfold headerSize in *; lia|];
      destruct (_ <? _)%N; [destruct (make_with _ _ _); discriminate|]; destruct (make_with _ _ _); destruct (w_append _ _ _ _);
      match type of E with match ?x with Some _ => _ | None => _ end = _ => destruct x end; [|discriminate];
      destruct (w_append _ _ _ _); destruct (w_append _ _ _ _); discriminate.
    destruct K as [K Fk]. destruct (init_state w g v m u mi Hv R E) as [C _].
    assert (Ls : sl_len (m_buf mi) <= 13).
    { rewrite <- (contents_length (m_mem mi) (m_buf mi)) by apply K. rewrite C. unfold hdr, opening. rewrite !app_length.
      destruct (g_top g =? 0)%N, Hv as [->|[->| ->]]; cbn; lia. }
    intros spare. rewrite (append_init_any k w _ _ _ _ doc spare E) by apply K.
    destruct (hazard_safe k w _ _ _ g mi doc K Fk (init_sound w _ _ _ _ _ Hv R E) Ld Hz
      ltac:(intros body Bt; specialize (Sz body Bt); unfold two63; lia) spare) as [P1 P2].
    split; [exact P1|]. intros sp'. rewrite (append_init_any k w _ _ _ _ doc sp' E) by apply K. apply P2.
  - exact (hazard_safe k w _ _ _ g m doc R Fi So Ld Hz ltac:(intros body Bt; specialize (Sz body Bt); unfold two63; lia)).
Qed.
Print Assumptions C33_append_safe_partial.

(** An array of three elements that ends after the first, a string in which tags seem to be cut
    short: clear of the hazards.  Append takes it (see also C61). *)
Example C33_case : ~ hazard k0 false 0 (with3 [x2b; x03; x63; x31; x22; x2c]) /\
  fst (Append k0 w0 g0 (new_merger 3) (with3 [x2b; x03; x63; x31; x22; x2c]) [x73]) = Ok 1%Z.
Proof.
  split; [|vm_compute; reflexivity]. set (body := [x2b; x03; x63; x31; x22; x2c]).
  intros [ver typ l n H L|ver l n H V _|b T|b n s p T El M C].
  - apply headed3 in H as (_ & _ & -> & ->). vm_compute in L. discriminate.
  - apply headed3 in H as (_ & K & _). discriminate.
  - discriminate.
  - apply taken3 in T as ->. inversion El; subst; try discriminate.
    assert (P : p = 1 \/ p = 3 \/ p = 7).
    { clear El C. revert p M. induction 1 as [|p t _ IH (b & Hb & ->) Ht|p t E r _ IH (b & Hb & ->) Ht|p t E m r _ IH (b & Hb & ->) Ht]; auto;
        destruct IH as [->|[->| ->]]; cbn in Hb; try discriminate; injection Hb as <-; unfold tag_of in *; cbn in Ht; try lia.
      all: inversion Ht; subst; try lia; try (change (99 - 96)%N with 3%N; right; right; reflexivity).
      match goal with K : count_at _ _ _ _ |- _ => destruct K as [K _]; destruct (lvint1 _ _ _ _ x03 K eq_refl eq_refl) as [_ ->] end. auto. }
    destruct C as [t m (b & Hb & ->) K L|t (b & Hb & ->) K L|e (b & Hb & K) _ _];
      destruct P as [->|[->| ->]]; cbn in Hb; try discriminate; injection Hb as <-; unfold tag_of in *; cbn in K; lia.
Qed.

(** A number cut short: a run-time panic, or what lies beyond the slice becomes part of the
    merged document. *)
Theorem C33_append_safe_refuted : exists k w m doc out m1 m2,
  fst (Append k w g0 m doc []) = Crash /\
  Append k w g0 m doc [x73; x65; x63; x72] = (Ok 1%Z, m1) /\
  Finish k w g0 m1 = (Ok (out ++ [x73; x65; x63]), m2).
Proof.
  exists k0, w0, (new_merger 3), (with3 [x22; x01]), (with3 [x2b; x01; x3f; x3f; x3f; x3f; x22; x01]).
  do 2 eexists. do 2 (split; [vm_compute; reflexivity|]). vm_compute. reflexivity.
Qed.
Print Assumptions C33_append_safe_refuted.
(** After an Append that failed, which left offsets behind it in the table of strings, Append
    panics on a document without hazards. *)
Theorem C33_after_failure_refuted : exists k w m bad good e m1,
  append_all k w (new_merger 3) [] = Some m /\ Append k w g0 m bad [] = (Err e, m1) /\
  ~ hazard k (g_flat g0) (g_top g0) good /\ fst (Append k w g0 m good []) = Ok 1%Z /\ fst (Append k w g0 m1 good []) = Crash.
Proof.
  exists k0, w0, (new_merger 3),
    (with3 [x42; x68; x62; x62; x62; x62; x62; x62; x62; x62; x51; x64; x61; x61; x61; x61; x2f; x07]), (with3 [x51; xe4; x61; x61; x61; x61; x29; x02]).
  do 2 eexists. split; [reflexivity|]. split; [vm_compute; reflexivity|].
  split; [|split; vm_compute; reflexivity].
  set (body := [x51; xe4; x61; x61; x61; x61; x29; x02]).
  intros [ver typ l n H L|ver l n H V _|b T|b n s p T El M C].
  - apply headed3 in H as (_ & _ & -> & ->). vm_compute in L. discriminate.
  - apply headed3 in H as (_ & K & _). discriminate.
  - discriminate.
  - apply taken3 in T as ->. inversion El; subst; try discriminate.
    assert (P : p = 1 \/ p = 2 \/ p = 7 \/ p = 9).
    { clear El C. revert p M. induction 1 as [|p t _ IH (b & Hb & ->) Ht|p t E r _ IH (b & Hb & ->) Ht|p t E m r _ IH (b & Hb & ->) Ht]; auto;
        destruct IH as [->|[->|[->| ->]]]; cbn in Hb; try discriminate; injection Hb as <-; unfold tag_of in *; cbn in Ht; try lia.
      all: inversion Ht; subst; try lia; try (change (100 - 96)%N with 4%N; right; right; left; reflexivity).
      match goal with K : count_at _ _ _ _ |- _ => destruct K as [K _]; destruct (lvint1 _ _ _ _ x02 K eq_refl eq_refl) as [_ ->] end. auto. }
    destruct C as [t m (b & Hb & ->) K L|t (b & Hb & ->) K L|e (b & Hb & K) _ _];
      destruct P as [->|[->|[->| ->]]]; cbn in Hb; try discriminate; injection Hb as <-; unfold tag_of in *; cbn in K; lia.
Qed.
Print Assumptions C33_after_failure_refuted.
(** further panics: a suffix beyond the end, one byte with KeepFlat, an object or a regexp
    without a string, an ExpectedSize of 3 *)
Example C33_panics :
  fst (Append k0 w0 g0 (new_merger 3) [x3d; xf3; x72; x6c; x03; x05] []) = Crash /\
  fst (Append k0 w0 (mg None true 0) (new_merger 3) (with3 [x05]) []) = Crash /\
  fst (Append k0 w0 g0 (new_merger 3) (with3 [x2c]) []) = Crash /\
  fst (Append k0 w0 g0 (new_merger 3) (with3 [x31]) []) = Crash /\
  fst (Append k0 w0 (mg None false 3) (new_merger 3) (with3 [x05]) []) = Crash.
Proof. repeat split; vm_compute; reflexivity. Qed.
