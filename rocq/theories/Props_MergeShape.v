(** C61.  What a Merger accepts. *)
From Verif Require Import Base SpecVarint Varint Tags GoMem Codecs Encode Header Decode Spec SpecDoc SpecHeader SpecShape SpecAccept
  SpecTaken GoSlice Merge MergeShape Cases Props_Merge.
From Coq Require Import ZifyBool ZifyNat ZifyN.

(** Append accepts an array of two elements which has only one, and what Finish returns then
    cannot be read. *)
Theorem C61_only_documents_refuted : ~ (forall k w c b m out m',
  append_all k w (new_merger 3) [app b] = Some m -> Finish k w g0 m = (Ok out, m') -> decodable k c out).
Proof.
  intros H. destruct (append_all k0 w0 (new_merger 3) [app (with3 [x2b; x02; x05])]) as [m|] eqn:A; [|vm_compute in A; discriminate].
  destruct (Finish k0 w0 g0 m) as [[out| | | |] m'] eqn:F; try (vm_compute in A; injection A as <-; vm_compute in F; discriminate).
  destruct (H k0 w0 c0 _ _ _ _ A F) as (h & v & U).
  vm_compute in A. injection A as <-. vm_compute in F. injection F as <- <-. vm_compute in U. discriminate.
Qed.
Print Assumptions C61_only_documents_refuted.

(** What Append accepts, at any time and with any settings, has a header and is laid out as [taken]
    says (SpecTaken.v): all tags are known, strings and class names are there, references are to
    tags met before, and the elements announced are there up to the end of the bytes; the result is
    the number of elements announced.  Missing: that nothing is cut off, that hash keys are strings,
    and numbers of elements of 2^31 and more. *)
Theorem C61_layout_partial : forall k w g m b spare z m', (Z.of_nat (length b) < two63)%Z ->
  Append k w g m b spare = (Ok z, m') ->
  exists body n start E' p', body_taken k b body /\ elements (x00 :: body) (g_flat g) (g_top g) n start /\
    z = Z.of_N n /\ taken (x00 :: body) (low31 n) [] start E' p'.
Proof. exact append_taken. Qed.
Print Assumptions C61_layout_partial.

(** [5, 6, REFP to the 5] is accepted.  A reference to itself, the beginning of another document, an
    integer for a class name, and a string without its end are not laid out like that: Append cannot
    accept them. *)
Ltac no_tag := match goal with H : tag_on _ _ _ |- _ => destruct H as (? & [= <-] & ->) end; unfold tag_of in *; cbn in *; lia.
Example C61_case :
  (exists m', Append k0 w0 g0 (new_merger 3) (with3 [x2b; x03; x85; x06; x29; x03]) [] = (Ok 1%Z, m')) /\
  (forall body, In body [[x29; x01]; [x3d]; [x2c; x05; x05]; [x63; x61]] -> forall E' p', ~ taken (x00 :: body) 1 [] 1 E' p').
Proof.
  split; [eexists; vm_compute; reflexivity|].
  intros body I E' p' T.
    assert (L : 2 <= length (x00 :: body)) by (destruct I as [<-|[<-|[<-|[<-|[]]]]]; cbn; lia).
    inversion T as [| ? ? ? Le|? ? ? t ? ? Ht K T1|? ? ? t r ? ? Ht Lf T1|? ? ? t m r ? ? ? ? Ht Ne T1 T2]; subst; [lia| | |];
      destruct Ht as (b & Nb & ->); destruct I as [<-|[<-|[<-|[<-|[]]]]]; injection Nb as <-; unfold tag_of in *; cbn in *.
    all: try lia.
    all: try (inversion Lf; subst; cbn in *; try lia; fail).
    all: try (inversion Ne; subst; cbn in *; try lia; fail).
    - inversion Ne; subst; try lia. match goal with K : name_taken _ _ _ |- _ => inversion K; subst end; no_tag.
Qed.
