(** C49: the memory Unmarshal asks for as a whole.

    d_made lists the size of every make() whose length comes from the document (elements of
    a slice or map, bytes of a binary string); the heap holds a cell for every variable created.
    The conversions of text to string, of bytes just read, are not counted. *)
From Verif Require Import Base SpecVarint SpecHeader HeaderFacts Tags GoMem Codecs Decode Document SpecShape Cases AllocCost AllocApi.
From Coq Require Import ZifyBool ZifyNat ZifyN.

Definition asked (s : dstate) : nat := list_sum (map fst (d_made s)).
Definition document_of (q : request) : bytes := match q with ReqBody b | ReqHeader b | ReqBoth b => b end.

(** C49 as stated is false: whatever the factor (up to 2^26; a single array is limited to 2^31
    elements), some document is rejected only after more than factor elements have been asked
    for per byte of it.  Every array may claim all the bytes left, those inside it again. *)
Theorem C49_linear_allocation_refuted : forall k c factor, 1 <= factor -> (Z.of_nat factor <= 2 ^ 26)%Z ->
  exists b e s', call_raw k c new_decoder (ReqBody b) = (Err e, s') /\ factor * length b < asked s'.
Proof.
  intros k c f H1 H2. change (2 ^ 26)%Z with 67108864%Z in H2.
  assert (Hm : (Z.of_nat (19 * f) <= maxInt32)%Z) by (unfold maxInt32; lia).
  destruct (nested_document_asks k c (19 * f) ltac:(lia) Hm) as (e & s' & R & E).
  exists (nested_document (19 * f)), e, s'. split; [exact R|].
  unfold asked. unfold made_sum in E. rewrite E. pose proof (nested_length (19 * f) Hm) as L.
  apply Nat.le_lt_trans with (f * (12 * (19 * f) + 6)); [apply Nat.mul_le_mono_l; exact L|nia].
Qed.
Print Assumptions C49_linear_allocation_refuted.

(** What holds for every call, whatever its outcome: with at most [n] bytes in the document
    and in the document unpacked, at most 20 n^2 + 48 n + 4 elements, bytes and variables. *)
Theorem C49_quadratic_allocation_partial : forall k c dec q n,
  length (document_of q) <= n -> (forall by_, opened k (document_of q) by_ -> length by_ <= n) ->
  match call_raw k c dec q with
  | (Crash, _) => True
  | (_, s') => asked s' + length (d_heap s') <= 20 * n * n + 48 * n + 4
  end.
Proof.
  intros k c dec q n L Hn. pose proof (call_cost k c dec q n L Hn) as C.
  destruct (call_raw k c dec q) as [[u|e|e| |] s']; try exact I; unfold cost, quadratic in C; unfold asked;
    unfold made_sum in C; lia.
Qed.
Print Assumptions C49_quadratic_allocation_partial.

(** In proportion to the document: what is asked for by accepted documents without COPY tags. *)
Theorem C49_accepted_allocation_partial : forall k c dec b n u s',
  length b <= n -> (forall by_, opened k b by_ -> length by_ <= n) ->
  (forall by_ i x, opened k b by_ -> nth_error by_ i = Some x -> b2n x <> 47%N /\ b2n x <> 175%N) ->
  call_raw k c dec (ReqBody b) = (Ok u, s') -> asked s' + length (d_heap s') <= 6 * n + 4.
Proof.
  intros k c dec b n u s' L Hn NC H. pose proof (accepted_plain k c b 0 2 n _ u s' L Hn NC H) as C.
  unfold cost in C at 1. unfold asked. unfold made_sum in C. cbn in C. unfold cost, made_sum in C. cbn in C. lia.
Qed.
Print Assumptions C49_accepted_allocation_partial.

(** 36 bytes asking for 100 elements; an accepted document and what it asked for *)
Example C49_case :
  length (nested_document 10) = 36 /\
  asked (snd (call_raw k0 c0 new_decoder (ReqBody (nested_document 10)))) = 100 /\
  call_result k0 c0 new_decoder (ReqBody (nested_document 10)) = Err (EUnknownTag 54) /\
  (forall by_, opened k0 doc0 by_ -> by_ = doc0) /\ length doc0 = 23 /\
  (forall i x, nth_error doc0 i = Some x -> b2n x <> 47%N /\ b2n x <> 175%N) /\
  exists s', call_raw k0 c0 new_decoder (ReqBody doc0) = (Ok tt, s') /\ asked s' = 4 /\ length (d_heap s') = 8.
Proof.
  split; [vm_compute; reflexivity|]. split; [vm_compute; reflexivity|]. split; [vm_compute; reflexivity|].
  split; [|split; [vm_compute; reflexivity|split]].
  - intros by_ (ver & typ & l & n & rest & body & S & U & ->).
    assert (St : starts doc0 3 0 [x00] 0 (skipn 6 doc0)).
    { split; [lia|]. split; [lia|]. exists x03. split; [vm_compute; reflexivity|]. split; [reflexivity|].
      split; [apply (vg_last x00); reflexivity|cbn; lia]. }
    destruct (starts_det _ _ _ _ _ _ _ _ _ _ _ S St) as (-> & -> & -> & -> & _). inversion U; subst; try discriminate.
    apply firstn_skipn.
  - intros i x Nx. apply nth_error_In in Nx. revert x Nx. apply Forall_forall. vm_compute.
    repeat constructor; discriminate.
  - eexists. vm_compute. repeat split.
Qed.
