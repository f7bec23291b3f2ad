(** C46 for typed variables in memory (TypedMem.v), REFP and ALIAS included. *)
From Verif Require Import Base BaseFacts SpecVarint Varint VarintFacts Tags GoMem GoTypes TagsCache Codecs Encode Compress Header Decode
  Document Typed TypedMem Spec SpecDoc SpecHeader SpecShare SpecShape WireFacts ShapeFacts TypedMemShape Cases Props_Typed Props_Accept Props_TypedMem.
From Coq Require Import ZifyBool ZifyNat ZifyN.

(** C46.  Whatever the variable's type, contents and sharing, what Unmarshal accepts has the shape of
    a document; each REFP and ALIAS in it refers back to a tracked item. *)
Theorem C46_typed_memory_partial : forall k c v h mem b ib ty l r mem', (Z.of_nat (length b) < two63)%Z ->
  unmarshal_mem k c v h mem b ib ty (l, []) = (Ok r, mem') -> document_shape k b.
Proof.
  intros k c v h mem b ib ty l r mem' L U. unfold unmarshal_mem in U.
  destruct (unmarshal_mem_raw k c v b ib ty (l, []) (mkM (mkDState h [] 0 []) mem [])) as [[y|e|e| |] s1] eqn:R; cbn in U; try discriminate.
  eapply mem_accepted_shape; [exact L| |exact R]. reflexivity.
Qed.
Print Assumptions C46_typed_memory_partial.

(** the ring of Props_TypedMem.v; and [5, REFP to the 5], the 5 not being marked as tracked: no shape *)
Example C46_memory_case :
  (exists r, fst (unmarshal_mem k0 c0 env0 [] ring_mem ring_doc 0 (TyPtr (TyStruct 0)) (0, [])) = Ok r) /\
  ~ document_shape k0 (raw_document 3 [x42; x05; x29; x02]).
Proof.
  split; [eexists; vm_compute; reflexivity|].
  intros H. apply shape_raw in H as (e & X & H). open_item. open_items. open_item. open_items. open_item.
  match goal with K : marked _ _ |- _ => destruct K as (b & E & G) end.
  apply nth_error_In in E. cbn [In] in E. repeat (destruct E as [<-|E]; [vm_compute in G; congruence|]). contradiction.
Qed.
