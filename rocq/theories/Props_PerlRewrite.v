(** C66: a document that is read and written again with PerlCompat.

    [document (go_reader c) k b ver typ suffix d body e] (SpecDoc.v): [b] is a document with data [d]
    within the reader's limits (C07).  [alike h h' v v'] (SpecPerlRewrite.v): the values [v] in memory [h] and
    [v'] in memory [h'] are deeply equal.  [outcome f r] (SpecOutcome.v): the call [f] ends with
    result [r]. *)
From Verif Require Import Base BaseFacts SpecVarint Varint VarintFacts Tags GoMem GoTypes TagsCache Codecs Encode Compress Header Decode
  Document Spec SpecValue SpecDoc SpecOptions SpecOutcome SpecRewrite SpecPerlRewrite DecodeSpec DocFacts MarshalFacts Roundtrip OutcomeFacts RoundtripFacts
  WireFacts PerlRewrite PerlApart Cases.
From Coq Require Import ZifyBool ZifyNat ZifyN Permutation.

(** A reference with the track flag to the string "hi". *)
Definition marked_ref : bytes := [xa8; x27; x02; x68; x69].
Lemma marked_ref_document c k : document (go_reader c) k (raw_document 3 marked_ref) 3 0 [] (DRef (DStr [x68; x69])) marked_ref 5.
Proof.
  apply raw_is_document; [lia|cbn; lia|]. unfold body_item. cbn [N.eqb Pos.eqb]. unfold marked_ref. set (by_ := x00 :: _).
  eapply (i_refn _ _ _ 1 1); [tag_here|]. apply (i_str _ _ _ 2 true [x68; x69] 6).
  eapply (lit_utf8 _ _ 2 2 2 4); [tag_here|apply (vint1 by_ 3 x02); reflexivity|cbn; lia|at_here 4|reflexivity].
Qed.

(** References to an empty array and to an empty binary string, in an array. *)
Definition two_empty : bytes := [x42; x28; x2b; x00; x28; x60].
Lemma two_empty_document c k : document (go_reader c) k (raw_document 3 two_empty) 3 0 []
  (DRef (DArr [DRef (DArr []); DRef (DBin [])])) two_empty 6.
Proof.
  apply raw_is_document; [lia|cbn; lia|]. unfold body_item. cbn [N.eqb Pos.eqb]. unfold two_empty. set (by_ := x00 :: _).
  eapply (i_arrayref _ _ _ 1 1 66); [tag_here|lia|reflexivity|].
  eapply (is_cons _ _ _ 2 _ 5).
  { eapply (i_refn _ _ _ 2 2); [tag_here|]. eapply (i_array _ _ _ 3 3 0 5); [tag_here|apply (vint1 by_ 4 x00); reflexivity|cbn; lia|reflexivity|apply is_nil]. }
  eapply (is_cons _ _ _ 5 _ 7); [|apply is_nil].
  eapply (i_refn _ _ _ 5 5); [tag_here|]. apply (i_str _ _ _ 6 false [] 7). apply (lit_short _ _ 6 6 96 []); [tag_here|lia|at_here 7|reflexivity].
Qed.
(** addresses as Go gives them: the elements of an empty slice are where those of every empty slice are *)
Definition zero_base : layout := mkLayout (at_cell lay0) (fun p =>
  match p with PSlice 7 | PBuf 10 0 => Some (Addr 1) | _ => at_place lay0 p end).
Definition e_zero : econfig := mkEConfig true None 0 false false 0 0 (fun _ _ l => l) zero_base (fun _ => None).
Lemma e_zero_sane : sane_world e_zero.
Proof. split; [intros; apply Permutation_refl|discriminate]. Qed.

(** Marshal fails on what was read in the first case, and in the second writes two references to the
    empty array. *)
Theorem C66_perl_rewrite_refuted :
  ~ (forall k c e b ver typ suffix d body x h v,
     document (go_reader c) k b ver typ suffix d body x -> d_perl c = true -> e_perl e = true ->
     behind_refs false d = true -> sane_world e -> (1 <= proto e <= 3)%N ->
     (Z.of_nat (levels d) < depth_limit e)%Z -> unmarshal_fresh k c b = Ok (h, v) ->
     exists b0, outcome (fun n => Marshal k n (without_compression e) h v) (Ok b0)) /\
  ~ (forall k c e b ver typ suffix d body x h v b0,
     document (go_reader c) k b ver typ suffix d body x -> d_perl c = true -> e_perl e = true ->
     behind_refs false d = true -> sane_world e -> (1 <= proto e <= 3)%N ->
     (Z.of_nat (levels d) < depth_limit e)%Z -> unmarshal_fresh k c b = Ok (h, v) ->
     outcome (fun n => Marshal k n (without_compression e) h v) (Ok b0) -> (N.of_nat (length b0) <= 1000)%N ->
     exists h' v', unmarshal_fresh k c b0 = Ok (h', v') /\ alike h h' v v').
Proof.
  split; intros H.
  - destruct (unmarshal_fresh k0 c1 (raw_document 3 marked_ref)) as [[h v]| | | |] eqn:U; try (vm_compute in U; discriminate).
    destruct (H k0 c1 (eopt true None 0 0) _ _ _ _ _ _ _ h v (marked_ref_document c1 k0) eq_refl eq_refl eq_refl (eopt_sane _ _ _ _)
      ltac:(cbn; lia) ltac:(cbn; lia) U) as (b0 & O).
    assert (O' : outcome (fun n => Marshal k0 n (without_compression (eopt true None 0 0)) h v) (Err EReflect)).
    { vm_compute in U. injection U as <- <-. eapply (mono_outcome _ 5); [apply mono_marshal|vm_compute; reflexivity|discriminate]. }
    discriminate (outcome_unique _ _ _ O O').
  - destruct (unmarshal_fresh k0 c1 (raw_document 3 two_empty)) as [[h v]| | | |] eqn:U; try (vm_compute in U; discriminate).
    assert (Mh : exists b0, Marshal k0 9 (without_compression e_zero) h v = Ok b0 /\ (N.of_nat (length b0) <= 1000)%N).
    { vm_compute in U. injection U as <- <-. eexists. split; [vm_compute; reflexivity|cbn; lia]. }
    destruct Mh as (b0 & Mh & Lb).
    destruct (H k0 c1 e_zero _ _ _ _ _ _ _ h v b0 (two_empty_document c1 k0) eq_refl eq_refl eq_refl e_zero_sane
      ltac:(cbn; lia) ltac:(cbn; lia) U (outcome_marshal k0 _ _ None _ 9 _ Mh) Lb) as (h' & v' & U' & A).
    vm_compute in U. injection U as <- <-. vm_compute in Mh. injection Mh as <-. vm_compute in U'. injection U' as <- <-.
    inversion A as [| | | | | | | |? ? ? ? A1| | | | |]; subst. cbn in A1.
    inversion A1 as [| | | | | |? ? ? A2| | | | | | |]; subst. cbn in A2.
    inversion A2 as [|? ? ? ? _ A3]; subst. inversion A3 as [|? ? ? ? A4 _]; subst.
    inversion A4 as [| | | | | | | |? ? ? ? A5| | | | |]; subst. cbn in A5. inversion A5; subst.
Qed.
Print Assumptions C66_perl_rewrite_refuted.

(** Every other document without references between items: Marshal succeeds on what was read unless it
    nests too deep, and reading the result gives a deeply equal value, also if it is compressed.
    [apart] excludes what the two refutations use.  With PerlCompat, arrays and hashes that are not
    behind references are excluded, as Marshal puts them there.  Missing: REFP and ALIAS. *)
Theorem C66_perl_rewrite_partial : forall k c c2 e b ver typ suffix d body x,
  document (go_reader c) k b ver typ suffix d body x -> (e_perl e = true -> behind_refs false d = true) ->
  d_perl c = true -> d_perl c2 = true -> sane_world e -> (1 <= proto e <= 3)%N ->
  (Z.of_nat (levels d) < depth_limit e)%Z ->
  exists h v, unmarshal_fresh k c b = Ok (h, v) /\
    forall A, apart (e_layout e) h v A ->
    exists b0, outcome (fun n => Marshal k n (without_compression e) h v) (Ok b0) /\
    ((N.of_nat (length b0) <= 281474976710656)%N ->
     (exists h' v', unmarshal_fresh k c2 b0 = Ok (h', v') /\ alike h h' v v') /\
     (lossless k -> supported (proto e) (e_comp e) -> forall b1,
      outcome (fun n => Marshal k n e h v) (Ok b1) -> (N.of_nat (length b1) <= 2147483647)%N ->
      exists h' v', unmarshal_fresh k c2 b1 = Ok (h', v') /\ alike h h' v v')).
Proof. exact perl_rewritten. Qed.
Print Assumptions C66_perl_rewrite_partial.

(** \[\5, {"a": \"hi"}] *)
Definition perl_tree : bytes := [x42; x28; x05; x51; x61; x61; x28; x27; x02; x68; x69].
Example C66_case : document (go_reader c1) k0 (raw_document 3 perl_tree) 3 0 []
    (DRef (DArr [DRef (DInt 5); DRef (DHash [([x61], DRef (DStr [x68; x69]))])])) perl_tree 11 /\
  behind_refs false (DRef (DArr [DRef (DInt 5); DRef (DHash [([x61], DRef (DStr [x68; x69]))])])) = true /\
  match unmarshal_fresh k0 c1 (raw_document 3 perl_tree) with
  | Ok (h, v) => (exists A, apart lay0 h v A) /\
     match Marshal k0 9 (eopt true None 0 0) h v with
     | Ok b => b = raw_document 3 [x28; x2b; x02; x28; x05; x28; x2a; x01; x27; x01; x61; x28; x27; x02; x68; x69]
     | _ => False
     end
  | _ => False
  end.
Proof.
  split; [|split; [reflexivity|]].
  - apply raw_is_document; [lia|cbn; lia|]. unfold body_item. cbn [N.eqb Pos.eqb]. unfold perl_tree. set (by_ := x00 :: _).
    eapply (i_arrayref _ _ _ 1 1 66); [tag_here|lia|reflexivity|].
    eapply (is_cons _ _ _ 2 _ 4).
    { eapply (i_refn _ _ _ 2 2); [tag_here|]. apply (i_pos _ _ _ 3 3 5); [tag_here|lia]. }
    eapply (is_cons _ _ _ 4 _ 12); [|apply is_nil].
    eapply (i_hashref _ _ _ 4 4 81); [tag_here|lia|reflexivity|].
    eapply (ps_cons _ _ _ 5 [x61] 7 _ 12); [| |apply ps_nil].
    { apply (str_lit _ _ _ 5 false [x61] 7). apply (lit_short _ _ 5 5 97 [x61]); [tag_here|lia|at_here 6|reflexivity]. }
    eapply (i_refn _ _ _ 7 7); [tag_here|]. apply (i_str _ _ _ 8 true [x68; x69] 12).
    eapply (lit_utf8 _ _ 8 8 2 10); [tag_here|apply (vint1 by_ 9 x02); reflexivity|cbn; lia|at_here 10|reflexivity].
  - destruct (unmarshal_fresh k0 c1 (raw_document 3 perl_tree)) as [[h v]| | | |] eqn:U; try (vm_compute in U; discriminate).
    vm_compute in U. injection U as <- <-. split; [|vm_compute; reflexivity].
    eexists. apply ap_ptr; [reflexivity|reflexivity| |].
    + cbn. apply ap_slice. cbn. apply aps_cons; [| |].
      * apply ap_ptr; [reflexivity|reflexivity|cbn; now apply ap_leaf|intros []].
      * apply aps_cons; [|apply aps_nil|intros ? _ []].
        apply ap_ptr; [reflexivity|reflexivity| |].
        -- cbn. apply ap_map. cbn. apply aps_cons; [|apply aps_nil|intros ? _ []].
           apply ap_ptr; [reflexivity|reflexivity|cbn; now apply ap_leaf|intros []].
        -- cbn. intuition discriminate.
      * intros a. cbn. intuition congruence.
    + cbn. intuition discriminate.
Qed.

(** What Unmarshal returns is [apart], for memory in which different things are at different addresses,
    unless a pointer of type *interface{} in it points to a string, or two references in the document
    lead to things which Go need not keep apart ([small]). *)
Theorem C66_read_apart_partial : forall k c b ver typ suffix d body x,
  document (go_reader c) k b ver typ suffix d body x -> d_perl c = true -> small_refs d <= 1 ->
  exists h v, unmarshal_fresh k c b = Ok (h, v) /\
    forall lay, laid_out h lay v -> (forall l, reaches h v (GPtr true l) -> is_text (hget h l) = false) ->
    exists A, apart lay h v A.
Proof. intros. eapply unmarshal_apart; eauto. Qed.
Print Assumptions C66_read_apart_partial.

(** Hence for such documents. *)
Theorem C66_documents_partial : forall k c c2 e b ver typ suffix d body x,
  document (go_reader c) k b ver typ suffix d body x -> (e_perl e = true -> behind_refs false d = true) ->
  small_refs d <= 1 ->
  d_perl c = true -> d_perl c2 = true -> sane_world e -> (1 <= proto e <= 3)%N ->
  (Z.of_nat (levels d) < depth_limit e)%Z ->
  exists h v, unmarshal_fresh k c b = Ok (h, v) /\
    (laid_out h (e_layout e) v -> (forall l, reaches h v (GPtr true l) -> is_text (hget h l) = false) ->
     exists b0, outcome (fun n => Marshal k n (without_compression e) h v) (Ok b0) /\
     ((N.of_nat (length b0) <= 281474976710656)%N ->
      (exists h' v', unmarshal_fresh k c2 b0 = Ok (h', v') /\ alike h h' v v') /\
      (lossless k -> supported (proto e) (e_comp e) -> forall b1,
       outcome (fun n => Marshal k n e h v) (Ok b1) -> (N.of_nat (length b1) <= 2147483647)%N ->
       exists h' v', unmarshal_fresh k c2 b1 = Ok (h', v') /\ alike h h' v v'))).
Proof.
  intros k c c2 e b ver typ suffix d body x D Br Sm Pc Pc2 Hw Hv L.
  destruct (unmarshal_apart k c Pc b ver typ suffix d body x D Sm) as (h & v & U & Ap).
  destruct (perl_rewritten k c c2 e b ver typ suffix d body x D Br Pc Pc2 Hw Hv L) as (h' & v' & U' & K).
  rewrite U in U'. injection U' as <- <-. exists h, v. split; [exact U|].
  intros Hl Ht. destruct (Ap _ Hl Ht) as (A & HA). exact (K A HA).
Qed.
Print Assumptions C66_documents_partial.

Definition inside (h : heap) (v : gval) : list gval :=
  match v with
  | GSlice b n => cells h b n
  | GMap l => map snd (hmap h l)
  | GPtr _ l | GObjP _ l | GWeakP l => [hget h l]
  | _ => []
  end.
Lemma reaches_within h (S : list gval) : (forall v w, In v S -> In w (inside h v) -> In w S) ->
  forall v w, reaches h v w -> In v S -> In w S.
Proof.
  intros C v w R. induction R; intros I; auto; apply IHR; eapply C; eauto; now left.
Qed.
Definition named (h : heap) (v : gval) : list (thing * bool) :=
  match v with
  | GPtr _ l => (Var l, false) :: match hget h l with GStr s => [(Place (PStr l), length s <=? 1)] | _ => [] end
  | GMap l => [(Place (PMap l), false)]
  | GSlice b n => [(Place (PSlice b), n =? 0)]
  | GBytes w => [(Place (PBuf (vloc w) (voff w)), vlen w =? 0)]
  | GObjP _ l | GWeakP l => [(Place (PBox l), false)]
  | GCanonUndef => [(Place PCanon, true)]
  | _ => []
  end.
Lemma in_value_named h v x s : in_value h v x s -> exists w, reaches h v w /\ In (x, s) (named h w).
Proof.
  destruct 1; eexists; (split; [eassumption|]); cbn [named]; try (now left).
  rewrite H0. right. now left.
Qed.

(** the document of C66_case *)
Example C66_documents_case :
  small_refs (DRef (DArr [DRef (DInt 5); DRef (DHash [([x61], DRef (DStr [x68; x69]))])])) <= 1 /\
  match unmarshal_fresh k0 c1 (raw_document 3 perl_tree) with
  | Ok (h, v) => laid_out h lay0 v /\ (forall l, reaches h v (GPtr true l) -> is_text (hget h l) = false)
  | _ => False
  end.
Proof.
  split; [cbn; lia|].
  destruct (unmarshal_fresh k0 c1 (raw_document 3 perl_tree)) as [[h v]| | | |] eqn:U; try (vm_compute in U; discriminate).
  vm_compute in U. injection U as <- <-.
  match goal with |- laid_out ?hh _ ?vv /\ _ => set (h := hh); set (v := vv) end.
  set (W := [v; GSlice 3 2; GPtr false 7; GPtr false 9; GInt KInt false 5; GMap 8; GPtr false 12; GStr [x68; x69]]).
  assert (R : forall w, reaches h v w -> In w W).
  { intros w Hr. eapply reaches_within; [|exact Hr|now left].
    intros a b Ha Hb. cbn in Ha. repeat (destruct Ha as [<- | Ha]; [cbn in Hb; cbn; intuition (subst; auto)|]). contradiction. }
  split.
  - intros x y s t p Hx Hy Ax Ay.
    destruct (in_value_named _ _ _ _ Hx) as (a & Ra & Ia). destruct (in_value_named _ _ _ _ Hy) as (b & Rb & Ib).
    apply R in Ra. apply R in Rb. clear Hx Hy.
    assert (Ta : In (x, s) (flat_map (named h) W)) by (apply in_flat_map; eauto).
    assert (Tb : In (y, t) (flat_map (named h) W)) by (apply in_flat_map; eauto).
    clear - Ta Tb Ax Ay. cbn in Ta, Tb.
    repeat (destruct Ta as [Ta | Ta]; [injection Ta as <- <-; cbn in Ax; try discriminate Ax; injection Ax as <-;
      repeat (destruct Tb as [Tb | Tb]; [injection Tb as <- <-; cbn in Ay; try discriminate Ay; auto|]); contradiction|]).
    contradiction.
  - intros l Hr. apply R in Hr. cbn in Hr. repeat (destruct Hr as [Hr | Hr]; [discriminate Hr|]). contradiction.
Qed.
