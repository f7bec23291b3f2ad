(** Which documents a Merger accepts (property C51). *)
From Verif Require Import Base BaseFacts SpecVarint Varint VarintFacts Tags GoMem Codecs Encode Compress Header Decode Document
  Spec SpecDoc SpecOptions GrammarFacts DecodeSpec DocFacts Roundtrip WireFacts GoSlice RedocFacts Merge SpecMerge MergeRun MergeSafe
  MergeProps MergeApi Cases Props_Merge SpecAccept MergeTotal.
From Coq Require Import ZifyBool ZifyNat ZifyN.

(** * C51 *)
(** Append does not accept every document Marshal writes and Unmarshal reads: a second object
    of a class has its name written as a COPY tag, which readString rejects. *)
Definition struct1 (i : nat) : gval := GStruct [x50; x51; x52] [mkField [x41; x42] [] true] i.
(** []interface{}{PQR{AB: 5}, PQR{AB: 6}} *)
Definition h_two : heap := [CV (struct1 2); CV (struct1 3); CV (GInt KInt false 5); CV (GInt KInt false 6)].
Theorem C51_append_accepts_refuted : ~ (forall k w g e h v fuel b spare, g_top g = 0%N -> g_flat g = false -> g_expected g = 0 ->
  Marshal k fuel e h v = Ok b -> decodable k c0 b -> exists n m, Append k w g (new_merger 3) b spare = (Ok n, m)).
Proof.
  intros H. destruct (Marshal k0 10 e0 h_two (GSlice 0 2)) as [b| | | |] eqn:E; try (vm_compute in E; discriminate).
  vm_compute in E. injection E as <-.
  destruct (H k0 w0 g0 e0 h_two (GSlice 0 2) 10 _ [] eq_refl eq_refl eq_refl eq_refl) as (n & m & A).
  - do 2 eexists. vm_compute. reflexivity.
  - vm_compute in A. discriminate A.
Qed.
Print Assumptions C51_append_accepts_refuted.

(** a call of Append with a document to be accepted; its body and number of elements *)
Definition acceptable (k : codecs) (c : call) (bn : bytes * nat) : Prop :=
  carries k (c_doc c) (fst bn) /\ mergeable (g_flat (c_conf c)) (g_top (c_conf c)) (fst bn) (snd bn).
(** a Merger with valid settings *)
Definition valid (g : mconfig) : Prop := (g_top g = 0 \/ g_top g = 1)%N /\ (g_expected g = 0 \/ 5 <= g_expected g).

(** Documents laid out as in SpecAccept: every Append succeeds and returns the number of
    elements, whatever was appended before; Finish succeeds; the result is at most eleven times
    as long as the documents. *)
Theorem C51_append_accepts_partial k w v calls docs g :
  (v <= 3)%N -> Forall2 (acceptable k) calls docs -> Forall (fun c => valid (c_conf c)) calls -> valid g -> g_comp g = None ->
  let total := list_sum (map (fun bn => length (fst bn)) docs) in (N.of_nat total < 34359738368)%N ->
  exists m out m', append_each k w (new_merger v) calls = (map (fun bn => Ok (Z.of_nat (snd bn))) docs, m) /\
    Finish k w g m = (Ok out, m') /\ length out <= 13 + 11 * total.
Proof.
  intros Hv F Hs Hg Hc total L. destruct (merge_total k w v calls docs g Hv F Hs Hg Hc L) as (m & out & m' & A & _ & Fi & Lo).
  exists m, out, m'. auto.
Qed.
Print Assumptions C51_append_accepts_partial.

(** With C27: merging such documents succeeds and yields a document for all of their elements. *)
Theorem C51_merge_total_partial k w c top v calls docs ds g :
  (v = 0 \/ v = 2 \/ v = 3)%N -> Forall2 (acceptable k) calls docs -> Forall2 (appends (go_reader c) k top) calls ds ->
  Forall (fun c => valid (c_conf c)) calls -> valid g -> g_top g = top -> g_comp g = None ->
  (N.of_nat (list_sum (map (fun bn => length (fst bn)) docs)) < 34359738368)%N ->
  let elements := concat (map (fun cd => parts (g_flat (c_conf (fst cd))) top (snd cd)) (combine calls ds)) in
  (N.of_nat (length elements) <= 2147483647)%N ->
  exists m out m', append_all k w (new_merger v) calls = Some m /\ Finish k w g m = (Ok out, m') /\
    reads k c out (merged top elements).
Proof.
  intros Hv F Fa Hs Hg Ht Hc L elements Le.
  destruct (merge_total k w v calls docs g ltac:(lia) F Hs Hg Hc L) as (m & out & m' & _ & A & Fi & Lo).
  exists m, out, m'. split; [exact A|]. split; [exact Fi|].
  eapply (C27_merge_decodes_partial k w c top v calls ds m g out m' Hv Fa A Ht Hc Fi Le).
  unfold bytes_in in Lo. lia.
Qed.
Print Assumptions C51_merge_total_partial.

(** ["ab", COPY of it, &5, REFP to it], a hash, and, with KeepFlat, [7, 8] *)
Definition body_refs : bytes := [x2b; x04; x62; x61; x62; x2f; x03; xa8; x05; x29; x08].
Lemma at_here (a b c : bytes) p l : a = b ++ l ++ c -> length b = p -> at_ a p l.
Proof. intros -> <-. exists b, c. auto. Qed.
Lemma refs_mergeable : mergeable false 0 body_refs 1.
Proof.
  set (by_ := x00 :: body_refs).
  assert (V : forall p b, nth_error by_ p = Some b -> (b2n b < 128)%N -> vint by_ p (b2n b) (S p)) by (intros; now apply vint1).
  exists 1. eexists. split; [|left; auto].
  eapply (ld_array _ 0 [] 1 x2b 4 3); [reflexivity|reflexivity|exact (V 2 x04 eq_refl eq_refl)| |apply ld_none].
  eapply (ld_string _ 3 _ 3 x62 [x61; x62] 6).
  { split; [reflexivity|]. split; [discriminate|]. exists false.
    eapply (lit_short _ _ 3 3 98 [x61; x62]); [tag_here|lia| |reflexivity].
    apply (at_here _ [x00; x2b; x04; x62] [x2f; x03; xa8; x05; x29; x08]); reflexivity. }
  eapply (ld_back _ 2 _ 6 x2f 3 8); [reflexivity|left; reflexivity|exact (V 7 x03 eq_refl eq_refl)|now left|cbn; lia|].
  eapply (ld_prefix _ 1 _ 8 xa8); [reflexivity|right; left; reflexivity|].
  eapply (ld_number _ 1 _ 9 x05 []); [reflexivity|left; split; [cbn; lia|reflexivity]| |].
  { apply (at_here _ (firstn 10 by_) (skipn 10 by_)); reflexivity. }
  eapply (ld_back _ 0 _ 10 x29 8 12); [reflexivity|right; left; reflexivity|exact (V 11 x08 eq_refl eq_refl)|cbn; auto|cbn; lia|apply ld_none].
Qed.
Lemma hash_mergeable i : (b2n i < 16)%N -> mergeable false 0 (hash1 i) 1.
Proof.
  intros Li. set (by_ := x00 :: hash1 i).
  exists 1. eexists. split; [|left; auto].
  eapply (ld_hash _ 0 [] 1 x2a 1 3); [reflexivity|reflexivity|exact (vint1 by_ 2 x01 eq_refl eq_refl)| |apply ld_none].
  eapply (ld_string _ 1 _ 3 x62 [x61; x61] 6).
  { split; [reflexivity|]. split; [discriminate|]. exists false.
    eapply (lit_short _ _ 3 3 98 [x61; x61]); [tag_here|lia| |reflexivity].
    apply (at_here _ [x00; x2a; x01; x62] [i]); reflexivity. }
  eapply (ld_number _ 0 _ 6 i []); [reflexivity|left; split; [left; unfold tag_of; rewrite N.mod_small; lia|reflexivity]| |apply ld_none].
  exists by_, []. split; [rewrite app_nil_r; reflexivity|reflexivity].
Qed.
Lemma flat_mergeable : mergeable true 0 [x2b; x02; x07; x08] 2.
Proof.
  set (by_ := [x00; x2b; x02; x07; x08]). exists 3. eexists. split.
  2:{ right. right. left. split; [reflexivity|]. split; [reflexivity|]. split; [reflexivity|]. exact (vint1 by_ 2 x02 eq_refl eq_refl). }
  eapply (ld_number _ 1 _ 3 x07 []); [reflexivity|left; split; [cbn; lia|reflexivity]| |].
  { exists [x00; x2b; x02; x07], [x08]. split; reflexivity. }
  eapply (ld_number _ 0 _ 4 x08 []); [reflexivity|left; split; [cbn; lia|reflexivity]| |apply ld_none].
  exists by_, []. split; reflexivity.
Qed.
Lemma carries3 body : (N.of_nat (length body) < 1000)%N -> carries k0 (with3 body) body.
Proof.
  intros L. exists 3%N, 0%N, [], [x3d; xf3; x72; x6c; x03; x00], body.
  split; [reflexivity|]. split; [|split; [constructor|split; [cbn [with3 List.app length]; lia|lia]]].
  repeat split; try lia. exists x03, [x00]. repeat split; try (cbn; lia). apply (vg_last x00). cbn. lia.
Qed.

Example C51_case :
  let calls := [app (with3 body_refs); app (with3 (hash1 x07)); appf (with3 [x2b; x02; x07; x08]); app (with3 (hash1 x08))] in
  Forall2 (acceptable k0) calls [(body_refs, 1); (hash1 x07, 1); ([x2b; x02; x07; x08], 2); (hash1 x08, 1)] /\
  Forall (fun c => valid (c_conf c)) calls /\
  match append_each k0 w0 (new_merger 3) calls with
  | (rs, m) => rs = [Ok 1; Ok 1; Ok 2; Ok 1]%Z /\
      match Finish k0 w0 g0 m with (Ok out, _) => decodable k0 c0 out | _ => False end
  end /\
  Forall2 (appends (go_reader c0) k0 0) [app (with3 (hash1 x07)); app (with3 (hash1 x08))]
    [DHash [([x61; x61], DInt 7)]; DHash [([x61; x61], DInt 8)]].
Proof.
  cbn zeta. split; [|split; [|split]].
  - repeat apply Forall2_cons; try apply Forall2_nil; (split; [apply carries3; cbn; lia|]); cbn [fst snd].
    + exact refs_mergeable.
    + apply hash_mergeable. cbn. lia.
    + exact flat_mergeable.
    + apply hash_mergeable. cbn. lia.
  - repeat constructor.
  - vm_compute. split; [reflexivity|]. do 2 eexists. reflexivity.
  - repeat apply Forall2_cons; try apply Forall2_nil; (split; [reflexivity|split; [reflexivity|]]); apply hash1_source; cbn; try lia;
      intros; cbn; lia.
Qed.
