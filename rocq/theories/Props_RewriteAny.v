(** C67: reading any accepted bytes and writing the value again.

    [traversal], [gdocument], [reads_node]: as for C54 (Props_Knot.v, SpecKnot.v, SpecCycle.v,
    CycleFacts.v). *)
From Verif Require Import Base BaseFacts SpecVarint Varint VarintFacts Tags GoMem Codecs Encode Compress Header Decode
  Document Spec SpecValue SpecDoc SpecOptions SpecShare SpecGraph SpecCycle SpecKnot SpecOutcome DecodeSafe DecodeSpec DocFacts
  Roundtrip OutcomeFacts RoundtripFacts WireFacts CycleDecode CycleFacts KnotMarshal DecodeProper Cases.
From Coq Require Import Permutation ZifyBool ZifyNat ZifyN.

Notation traversal e h v x := (exists Y, kden (e_perl e) (e_nofreeze e) (e_parsefloat e) (e_layout e) h [] false v x Y).

(** Whatever bytes Unmarshal accepted, in either mode: when Marshal writes the value, the result is a
    document of the published format describing the value, with its sharing and cycles. *)
Theorem C67_rewritten_is_published : forall k c e b h v b1, unmarshal_fresh k c b = Ok (h, v) ->
  sane_world e -> (1 <= proto e <= 3)%N -> outcome (fun n => Marshal k n e h v) (Ok b1) ->
  exists b0, outcome (fun n => Marshal k n (without_compression e) h v) (Ok b0) /\ (e_comp e = None -> b1 = b0) /\
    ((Z.of_nat (length b0) < two63 - 1)%Z -> (Z.of_nat (length b1) < two63)%Z ->
     exists x, traversal e h v x /\
      (exists body, gdocument standard k b0 (proto e) 0 [] x body (length body)) /\
      (lossless k -> supported (proto e) (e_comp e) ->
       exists typ body, gdocument standard k b1 (proto e) typ [] x body (length body))).
Proof.
  intros k c e b h v b1 U W V O. destruct (unmarshal_proper k c c e b h v U) as [P _].
  destruct (knot_published k e h W V v b1 P O) as (b0 & O0 & En & D).
  exists b0. split; [exact O0|]. split; [exact En|]. intros L1 L2. destruct (D L1 L2) as (x & T & _ & D0 & D1). eauto.
Qed.
Print Assumptions C67_rewritten_is_published.

(** Unmarshal with PerlCompat reads it, and the value has that sharing and those cycles. *)
Theorem C67_rewritten_is_read : forall k c c2 e b h v b1, unmarshal_fresh k c b = Ok (h, v) ->
  sane_world e -> (1 <= proto e <= 3)%N -> d_perl c2 = true ->
  outcome (fun n => Marshal k n e h v) (Ok b1) -> (N.of_nat (length b1) <= 2147483647)%N ->
  e_comp e = None \/ (lossless k /\ supported (proto e) (e_comp e) /\
    forall b0, outcome (fun n => Marshal k n (without_compression e) h v) (Ok b0) -> (N.of_nat (length b0) <= 281474976710656)%N) ->
  exists x, traversal e h v x /\ reads_node k c2 b1 x.
Proof.
  intros k c c2 e b h v b1 U W V Pc O L Cc. destruct (unmarshal_proper k c c2 e b h v U) as [_ P].
  destruct (knot_read_back k e h W V c2 v b1 P O) as (b0 & O0 & En & D).
  destruct D as (x & Tx & _ & D); [|exact L|].
  { destruct Cc as [Cn|(_ & _ & Cl)]; [|now apply Cl]. rewrite <- (En Cn). lia. }
  exists x. split; [exact Tx|]. destruct D as [D0 D1]; [tauto|].
  destruct Cc as [Cn|(Lo & Su & _)]; [now rewrite (En Cn)|auto].
Qed.
Print Assumptions C67_rewritten_is_read.

(** C47 with REFP and ALIAS.  By default: if no pointer leads to another pointer ([tame], SpecKnot.v). *)
Theorem C47_sharing_partial : forall k c c2 e b h v b1, unmarshal_fresh k c b = Ok (h, v) ->
  tame_memory h -> tame h v ->
  sane_world e -> (1 <= proto e <= 3)%N ->
  outcome (fun n => Marshal k n e h v) (Ok b1) -> (N.of_nat (length b1) <= 2147483647)%N ->
  e_comp e = None \/ (lossless k /\ supported (proto e) (e_comp e) /\
    forall b0, outcome (fun n => Marshal k n (without_compression e) h v) (Ok b0) -> (N.of_nat (length b0) <= 281474976710656)%N) ->
  exists x, traversal e h v x /\ reads_node k c2 b1 x.
Proof.
  intros k c c2 e b h v b1 U Tm Tv W V O L Cc. destruct (unmarshal_proper k c c2 e b h v U) as [_ P].
  destruct (knot_read_back k e h W V c2 v b1 P O) as (b0 & O0 & En & D).
  destruct D as (x & Tx & _ & D); [|exact L|].
  { destruct Cc as [Cn|(_ & _ & Cl)]; [|now apply Cl]. rewrite <- (En Cn). lia. }
  exists x. split; [exact Tx|]. destruct D as [D0 D1]; [tauto|].
  destruct Cc as [Cn|(Lo & Su & _)]; [now rewrite (En Cn)|auto].
Qed.
Print Assumptions C47_sharing_partial.

(** x = \{"a": x, "b": \"hi"}: a map with a pointer to itself, the key "a" written as a short string and
    a tracked string; the second document differs from the first, as keys are written as text. *)
Definition doc_self : bytes :=
  [x3d; xf3; x72; x6c; x03; x00; xa8; x2a; x02; x61; x61; x29; x01; x61; x62; x28; xa6; x02; x68; x69].
Definition doc_self2 : bytes :=
  [x3d; xf3; x72; x6c; x03; x00; xa8; x2a; x02; x27; x01; x61; x29; x01; x27; x01; x62; x28; x62; x68; x69].
Definition e_p : econfig := eopt true None 100 3.
Example C67_case : match unmarshal_fresh k0 c1 doc_self with
  | Ok (h, v) => outcome (fun n => Marshal k0 n e_p h v) (Ok doc_self2) /\
      exists x, traversal e_p h v x /\ reads_node k0 c1 doc_self2 x
  | _ => False
  end.
Proof.
  destruct (unmarshal_fresh k0 c1 doc_self) as [[h v]| | | |] eqn:U; try (vm_compute in U; discriminate).
  assert (O : outcome (fun n => Marshal k0 n e_p h v) (Ok doc_self2)).
  { apply outcome_marshal with 20. vm_compute in U. injection U as <- <-. vm_compute. reflexivity. }
  split; [exact O|].
  apply (C67_rewritten_is_read k0 c1 c1 e_p doc_self h v doc_self2); auto; [apply eopt_sane|cbn; lia|cbn; lia].
Qed.

(** y = ["hi", ref to the first element, ref to y], read by default *)
Definition doc_shared : bytes := [x3d; xf3; x72; x6c; x03; x00; xab; x03; xa7; x02; x68; x69; x29; x03; x29; x01].
Example C47_sharing_case : match unmarshal_fresh k0 c0 doc_shared with
  | Ok (h, v) => tame_memory h /\ tame h v /\
     (exists b1, outcome (fun n => Marshal k0 n e0 h v) (Ok b1) /\ (N.of_nat (length b1) <= 2147483647)%N /\
      exists x, traversal e0 h v x /\ reads_node k0 c0 b1 x)
  | _ => False
  end.
Proof.
  destruct (unmarshal_fresh k0 c0 doc_shared) as [[h v]| | | |] eqn:U; try (vm_compute in U; discriminate).
  assert (T : tame_memory h /\ tame h v).
  { vm_compute in U. injection U as <- <-. split; [split; [|split]|].
    - intros l. unfold tame. do 12 (destruct l as [|l]; [cbn; eauto 10|]). left. destruct l; reflexivity.
    - intros l k v H. exfalso. unfold hmap in H. do 12 (destruct l as [|l]; [exact H|]). destruct l; exact H.
    - intros l k v H. exfalso. unfold htmap in H. do 12 (destruct l as [|l]; [exact H|]). destruct l; exact H.
    - unfold tame. cbn. eauto 10. }
  destruct T as [Tm Tv]. split; [exact Tm|]. split; [exact Tv|].
  assert (O : exists b1, Marshal k0 20 e0 h v = Ok b1 /\ (N.of_nat (length b1) <= 2147483647)%N).
  { clear Tm Tv. vm_compute in U. injection U as <- <-. eexists. split; [vm_compute; reflexivity|vm_compute; discriminate]. }
  destruct O as (b1 & O & L). apply outcome_marshal in O. exists b1. split; [exact O|]. split; [exact L|].
  apply (C47_sharing_partial k0 c0 c0 e0 doc_shared h v b1); auto; [apply eopt_sane|cbn; lia].
Qed.
