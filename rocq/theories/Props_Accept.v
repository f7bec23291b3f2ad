(** C46: what Unmarshal accepts.

    [document_shape k b] (SpecShape.v): [b] has a valid header and a body (unpacked if need be)
    beginning with a complete item: known tags only, every length within the input, every string
    and element present, COPY and REFP offsets referring back.  [suffix_shape b]: the same of the
    header suffix.  [sdocument standard k b ver typ suffix d body e] (SpecShare.v): [b] is a document
    of the published format. *)
From Verif Require Import Base BaseFacts SpecVarint Varint VarintFacts Tags GoMem GoTypes TagsCache Codecs Encode Compress Header Decode
  Document Typed Spec SpecDoc SpecHeader SpecShare SpecShape DecodeSpec WireFacts DocFacts GrammarDet MergeFacts ApiFacts ShapeFacts TypedShape Cases Props_Typed.
From Coq Require Import ZifyBool ZifyNat ZifyN.

(** C46.  An OBJECTV tag whose class name comes later: not a document, but accepted. *)
Definition late_name : bytes := [x2d; x04; x05; x61; x78].
Theorem C46_accepts_documents_refuted : ~ (forall k c b h v, unmarshal_fresh k c b = Ok (h, v) ->
  exists ver typ suffix d body e, sdocument standard k b ver typ suffix d body e).
Proof.
  intros H. destruct (H k0 c0 (raw_document 3 late_name) _ _ eq_refl) as (ver & typ & suffix & d & body & e & pre & packed & E & P & Pk & _ & _ & X & I).
  assert (P3 : preamble 3 0 [] (magic 3 ++ [n2b 3; x00])) by (apply raw_preamble; lia).
  destruct (preamble_det _ _ _ _ late_name _ _ _ _ packed P3 P E) as (<- & <- & <- & <- & <-).
  inversion Pk; subst. cbn [N.eqb Pos.eqb] in I.
  inversion I as [E0 m p q t d0 p' X0 T B]; subst.
  assert (T1 : tag_at (x00 :: late_name) 1 1 45) by tag_here.
  destruct (tag_det _ _ _ _ _ _ T T1) as [-> ->].
  inversion B; subst; try lia.
  - match goal with K : plain_tag 45 |- _ => unfold plain_tag in K; lia end.
  - match goal with K : vint _ 2 ?n _ |- _ => destruct (vint_det _ _ _ _ _ _ K (vint1 (x00 :: late_name) 2 x04 eq_refl eq_refl)) as [-> _] end.
    match goal with K : N.to_nat (b2n x04) < 1 |- _ => vm_compute in K; lia end.
Qed.
Print Assumptions C46_accepts_documents_refuted.

(** Missing: the points in which the reader is more lenient than the published format, listed in
    SpecShape.v. *)
Theorem C46_accepts_documents_partial : forall k c b h v, (Z.of_nat (length b) < two63)%Z ->
  unmarshal_fresh k c b = Ok (h, v) -> document_shape k b.
Proof.
  intros k c b h v L U. apply unmarshal_fresh_Ok in U as (s' & U & _).
  eapply accepted_shape; [exact L| |exact U]. reflexivity.
Qed.
Print Assumptions C46_accepts_documents_partial.

(** likewise for UnmarshalHeader *)
Theorem C46_accepts_headers_partial : forall k c b h v, (Z.of_nat (length b) < two63)%Z ->
  unmarshal_header_fresh k c b = Ok (h, v) -> suffix_shape b.
Proof.
  intros k c b h v L U. unfold unmarshal_header_fresh, UnmarshalHeader, UnmarshalHeaderBody in U.
  destruct (unmarshal_raw k c b 0 (TgtIface 1) TgtNone (fresh_state b)) as [[[]|e|e| |] s'] eqn:R; cbn in U; try discriminate.
  eapply header_accepted_shape; [exact L| |exact R]. reflexivity.
Qed.
Print Assumptions C46_accepts_headers_partial.

(** A Decoder in any state it can be in between calls, with any body variable. *)
Theorem C46_any_decoder_partial : forall k c b ib l s s', (Z.of_nat (length b) < two63)%Z -> d_copy s = 0 ->
  Unmarshal k c b ib (TgtIface l) s = (Ok tt, s') -> document_shape k b.
Proof.
  intros k c b ib l s s' L C U. unfold Unmarshal, UnmarshalHeaderBody in U.
  destruct (unmarshal_raw k c b ib TgtNone (TgtIface l) s) as [[[]|e|e| |] s1] eqn:R; cbn in U; try discriminate.
  eapply accepted_shape; eauto.
Qed.
Print Assumptions C46_any_decoder_partial.

(** Unmarshal into a variable of a Go type, as a tree; with REFP and ALIAS: Props_AcceptMem.v. *)
Theorem C46_typed_partial : forall k c v h b ib ty cur h' x, (Z.of_nat (length b) < two63)%Z ->
  unmarshal_typed k c v h b ib ty cur = Ok (h', x) -> document_shape k b.
Proof.
  intros k c v h b ib ty cur h' x L U. unfold unmarshal_typed in U.
  destruct (unmarshal_typed_raw k c v b ib ty cur (mkDState h [] 0 [])) as [[y|e|e| |] s1] eqn:R; cbn in U; try discriminate.
  eapply typed_accepted_shape; [exact L| |exact R]. reflexivity.
Qed.
Print Assumptions C46_typed_partial.

(** [5, "x"] is accepted.  With the reserved tag 0x34 in place of 5, or one element too few, or the
    string too short, there is no such shape, so no options make Unmarshal accept it. *)
Lemma shape_raw k body : document_shape k (raw_document 3 body) -> exists e X, shape (x00 :: body) true [] 1 e X.
Proof.
  intros (ver & typ & l & n & rest & bd & e & X & (V & T & vt & E & Ev & G & L) & B & U & Sh).
  unfold raw_document in E. change (magic 3) with [x3d; xf3; x72; x6c] in E.
  assert (Eq : vt = x03 /\ l ++ rest = x00 :: body).
  { unfold magic in E. destruct (_ <? _)%N in E; [discriminate|]. injection E as <- <-. auto. }
  destruct Eq as [-> El]. change (b2n x03) with 3%N in Ev. assert (ver = 3 /\ typ = 0)%N as [-> ->] by lia.
  assert (l = [x00] /\ n = 0%N) as [-> ->].
  { inversion G; subst; injection El as ->; subst; [auto|]. match goal with K : (128 <= _)%N |- _ => vm_compute in K; now destruct K end. }
  change (body_start [x00] 0) with 6%N in *. cbn [N.eqb Pos.eqb] in Sh. destruct Sh as [_ Sh].
  injection El as ->. change (N.to_nat 6) with 6 in *. cbn [Nat.sub raw_document] in *.
  change (skipn 6 (raw_document 3 body)) with body in U. inversion U; subst.
  exists e, X. exact Sh.
Qed.
Lemma plain_tag_at p t by_ q t' : nth_error by_ p = Some t -> (b2n t < 128)%N -> b2n t <> 63%N -> tag_at by_ p q t' -> q = p /\ t' = b2n t.
Proof.
  intros H L N T. assert (T0 : tag_at by_ p p (b2n t)).
  { split; [lia|]. split; [intros; lia|]. exists t. rewrite N.mod_small by lia. auto. }
  destruct (tag_det _ _ _ _ _ _ T T0) as [-> ->]. auto.
Qed.
Ltac tag_is K := match type of K with tag_at ?by_ ?p ?q ?t =>
  let b := eval vm_compute in (nth p by_ x00) in
  destruct (plain_tag_at p b by_ q t eq_refl ltac:(vm_compute; reflexivity) ltac:(vm_compute; discriminate) K) as [-> ->] end; clear K.
Ltac open_item := match goal with K : shape _ _ _ _ _ _ |- _ => inversion K; subst; clear K end;
  match goal with K : tag_at _ _ _ _ |- _ => tag_is K end;
  match goal with K : tag_shape _ _ _ _ (b2n ?b) _ _ |- _ => let n := eval vm_compute in (b2n b) in change (b2n b) with n in K; inversion K; subst; try lia; clear K end.
Ltac open_items := match goal with K : shapes _ _ _ ?n _ _ _ |- _ => let m := eval vm_compute in n in change n with m in K; inversion K; subst; clear K end.
Example C46_case :
  (exists h v, unmarshal_fresh k0 c0 (raw_document 3 [x42; x05; x61; x78]) = Ok (h, v)) /\
  (let b := raw_document 3 [x42; x05; x06] in
   exists h, unmarshal_typed k0 c0 env0 [CBuf b] b 0 (TySlice (TyInt KInt8)) (VSlice None) = Ok (h, VSlice (Some [VInt 5; VInt 6]))) /\
  ~ document_shape k0 (raw_document 3 [x42; x34; x61; x78]) /\
  ~ document_shape k0 (raw_document 3 [x42; x05; x62; x78]) /\
  ~ document_shape k0 (raw_document 3 [x43; x05; x61; x78]).
Proof.
  split; [do 2 eexists; vm_compute; reflexivity|].
  split; [eexists; vm_compute; reflexivity|].
  split; [|split]; intros H; apply shape_raw in H as (e & X & H).
  - open_item. open_items. open_item.
  - open_item. open_items. open_item. open_items. open_item.
    match goal with K : text_shape _ _ _ |- _ => inversion K; subst; clear K end;
      match goal with K : tag_at _ _ _ _ |- _ => tag_is K end;
      change (b2n x62) with 98%N in *; [|lia].
    match goal with K : _ <= length _ |- _ => vm_compute in K; lia end.
  - open_item. open_items. open_item. open_items. open_item. open_items.
    match goal with K : shape _ _ _ _ _ _ |- _ => inversion K; subst; clear K end.
    match goal with K : tag_at _ _ _ _ |- _ => destruct K as (G1 & _ & b & G2 & _) end.
    apply nth_error_Some_lt in G2.
    match goal with K : text_shape _ _ _ |- _ => inversion K; subst; clear K end;
      match goal with K : tag_at _ _ _ _ |- _ => tag_is K end;
      change (b2n x61) with 97%N in *; [|lia].
    vm_compute in G2. change (N.to_nat (97 - 96)) with 1 in G1. lia.
Qed.
