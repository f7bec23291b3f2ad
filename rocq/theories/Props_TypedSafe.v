(** C48: Unmarshal into typed variables on arbitrary bytes.

    [unmarshal_typed k c v h b ib ty cur] (Typed.v): Unmarshal(b, &x) for x of type [ty] holding
    [cur], in memory [h].  Crash: a runtime error, which Unmarshal does not recover; NoFuel: more
    than 2n+4 nested calls on n bytes, or the document leaves the part of the decoder that is
    modelled, which only REFP, ALIAS and the two FREEZE tags can do (Props_TypedMem.v has them).  [harmless TgtNone
    (TgtIface 0) b] (SpecHeader.v): the suffix length does not make the start of the body wrap to
    0, and a zlib body announces at most 2^48 bytes.  [opened k b by_] (SpecShape.v): [by_] is [b]
    with the body unpacked. *)
From Verif Require Import Base BaseFacts SpecVarint Varint Tags GoMem GoTypes TagsCache Codecs Encode Compress Header Decode
  Document Typed SpecHeader SpecShape HeaderFacts WireFacts ApiSafe TypedSafe Cases Props_Typed Props_Decode.
From Coq Require Import ZifyBool ZifyNat ZifyN.

(** C48.  The same two documents as in C08 crash whatever the type of the variable. *)
Theorem C48_typed_no_crash_refuted : forall ty cur,
  unmarshal_typed k0 c0 env0 [CBuf wrapping_doc] wrapping_doc 0 ty cur = Crash /\
  unmarshal_typed k0 c0 env0 [CBuf huge_zlib_doc] huge_zlib_doc 0 ty cur = Crash.
Proof. intros ty cur. split; vm_compute; reflexivity. Qed.
Print Assumptions C48_typed_no_crash_refuted.

(** No other document does, whatever the variable's type and content.  Every size asked of make is
    at most the number of bytes left.  Memory reachable through interface{} parts keeps its
    content.  A document without back references and frozen objects is read or refused within
    2n+4 nested calls. *)
Theorem C48_typed_safe_partial : forall k c v h b ib ty cur, harmless TgtNone (TgtIface 0) b ->
  let s' := snd (unmarshal_typed_raw k c v b ib ty cur (mkDState h [] 0 [])) in
  unmarshal_typed k c v h b ib ty cur <> Crash /\
  Forall (fun '(size, bytes_left) => size <= bytes_left) (d_made s') /\
  (forall l, l < length h -> nth_error (d_heap s') l = nth_error h l) /\
  ((forall by_ i x, opened k b by_ -> nth_error by_ i = Some x -> ~ back_or_frozen x) ->
   (exists h' x, unmarshal_typed k c v h b ib ty cur = Ok (h', x)) \/
   exists er, unmarshal_typed k c v h b ib ty cur = Err er).
Proof.
  intros k c v h b ib ty cur Hm s'. subst s'. pose proof (typed_safe k c v b ib ty cur h Hm) as W. unfold wpo in W. unfold unmarshal_typed.
  destruct (unmarshal_typed_raw k c v b ib ty cur (mkDState h [] 0 [])) as [r s'].
  assert (T : touches (fun _ => False) (mkDState h [] 0 []) s').
  { destruct r; [exact (proj1 W)|exact (proj1 W)|exact W|contradiction|exact (proj2 W)]. }
  destruct T as (_ & T2 & T3). cbn [snd]. split; [destruct r; cbn; congruence || contradiction|].
  split; [apply T3; constructor|]. split; [intros l L; apply (T2 l L); auto|].
  intros N. destruct r; cbn; eauto; [contradiction|].
  destruct W as [(by_ & i & x & Op & Nx & Bx) _]. destruct (N _ _ _ Op Nx Bx).
Qed.
Print Assumptions C48_typed_safe_partial.

(** an array whose second element announces 65535 elements; the same array with one element there *)
Definition long_array : bytes := raw_document 3 [x2b; x02; x2b; x01; x05; x2b; xff; xff; x03].
Definition short_array : bytes := raw_document 3 [x2b; x02; x2b; x01; x05; x2b; x01; x06].
Example C48_case : harmless TgtNone (TgtIface 0) long_array /\ harmless TgtNone (TgtIface 0) short_array /\
  unmarshal_typed k0 c0 env0 [] long_array 0 (TySlice (TySlice (TyInt KInt8))) (VSlice None) = Err ETruncated /\
  unmarshal_typed k0 c0 env0 [] short_array 0 (TySlice (TySlice (TyInt KInt8))) (VSlice None) =
    Ok ([], VSlice (Some [VSlice (Some [VInt 5]); VSlice (Some [VInt 6])])) /\
  d_made (snd (unmarshal_typed_raw k0 c0 env0 short_array 0 (TySlice (TySlice (TyInt KInt8))) (VSlice None) (mkDState [] [] 0 []))) =
    [(1, 1); (1, 4); (2, 6)] /\
  (forall by_ i x, opened k0 short_array by_ -> nth_error by_ i = Some x -> ~ back_or_frozen x).
Proof.
  assert (St : forall body, starts (raw_document 3 body) 3 0 [x00] 0 body).
  { intros body. split; [lia|]. split; [lia|]. exists x03. split; [reflexivity|]. split; [reflexivity|].
    split; [apply (vg_last x00); reflexivity|cbn; lia]. }
  assert (H : forall body, harmless TgtNone (TgtIface 0) (raw_document 3 body)).
  { intros body ver typ l n rest S. split; [congruence|]. intros _.
    destruct (starts_det _ _ _ _ _ _ _ _ _ _ _ S (St body)) as (-> & -> & -> & -> & _).
    split; [intros _; vm_compute; discriminate|discriminate]. }
  split; [apply H|]. split; [apply H|]. split; [vm_compute; reflexivity|]. split; [vm_compute; reflexivity|]. split; [vm_compute; reflexivity|].
  intros by_ i x (ver & typ & l & n & rest & body & S & U & ->).
  destruct (starts_det _ _ _ _ _ _ _ _ _ _ _ S (St _)) as (-> & -> & -> & -> & _). inversion U; subst; try discriminate.
  intros Nx (t & It & Ex). rewrite firstn_skipn in Nx. unfold short_array, raw_document in Nx.
  do 14 (destruct i as [|i]; [cbn in Nx; injection Nx as <-; cbn in It; vm_compute in Ex;
    repeat (destruct It as [<-|It]; [vm_compute in Ex; destruct Ex; discriminate|]); contradiction|]).
  destruct i; discriminate Nx.
Qed.
