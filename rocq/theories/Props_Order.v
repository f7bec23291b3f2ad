(** C73: settings of the encoder that are not about content do not change what is read.

    [same_up] (SpecOrder.v): the same data up to the order of hash entries and to whether the text of a
    JSON number or the float it stands for is given; [reads], [go_tree], [supported]: as in Props_Roundtrip.v. *)
From Verif Require Import Base BaseFacts Tags GoMem GoTypes Codecs Encode Document Spec SpecValue SpecDoc SpecOptions SpecOutcome
  DecodeSpec DocFacts Roundtrip OutcomeFacts RoundtripFacts SpecOrder OrderFacts Cases.
From Coq Require Import Permutation.

(** C73.  The same value marshalled twice, with another protocol version, compressor and threshold,
    with and without deduplication of strings, with other iteration orders of maps and another
    placement in memory, and read back by two decoders with any options, gives the same data. *)
Theorem C73_same_data : forall k c c' e e' h v n A n' A' b b',
  sane_world e -> sane_world e' -> (1 <= proto e <= 3)%N -> (1 <= proto e' <= 3)%N ->
  e_perl e' = e_perl e -> e_nofreeze e' = e_nofreeze e -> e_parsefloat e' = e_parsefloat e ->
  go_tree c e h v n A -> go_tree c' e' h v n' A' ->
  (Z.of_nat n < depth_limit e)%Z -> (Z.of_nat n' < depth_limit e')%Z ->
  lossless k -> supported (proto e) (e_comp e) -> supported (proto e') (e_comp e') ->
  outcome (fun n => Marshal k n e h v) (Ok b) -> outcome (fun n => Marshal k n e' h v) (Ok b') ->
  (N.of_nat (length b) <= 2147483647)%N -> (N.of_nat (length b') <= 2147483647)%N ->
  (forall b0, outcome (fun n => Marshal k n (without_compression e) h v) (Ok b0) -> (N.of_nat (length b0) <= 281474976710656)%N) ->
  (forall b0, outcome (fun n => Marshal k n (without_compression e') h v) (Ok b0) -> (N.of_nat (length b0) <= 281474976710656)%N) ->
  exists d d', reads k c b d /\ reads k c' b' d' /\ same_up (e_parsefloat e) d d'.
Proof. exact two_ways. Qed.
Print Assumptions C73_same_data.

(** map[string]interface{}{"a": 7, "b": ...} of Cases.v by default, and with version 1, Snappy, no
    deduplication and the first two entries of maps exchanged, read with PerlCompat *)
Definition other_way : econfig :=
  mkEConfig false (Some (CSnappy false)) 0 true false 9 1
    (fun _ _ l => match l with a :: b :: r => b :: a :: r | _ => l end) lay0 (fun _ => None).
Lemma other_sane : sane_world other_way.
Proof. split; [intros n A [|a [|b l]]; [apply perm_nil|apply perm_skip, perm_nil|apply perm_swap]|discriminate]. Qed.
Example C73_case : sane_world e0 /\ sane_world other_way /\ lossless k0 /\
  go_tree c0 e0 h0 v0 3 [at_cell lay0 3] /\ go_tree c1 other_way h0 v0 3 [at_cell lay0 3] /\
  supported (proto e0) (e_comp e0) /\ supported (proto other_way) (e_comp other_way) /\
  exists b b', Marshal k0 10 e0 h0 v0 = Ok b /\ Marshal k0 10 other_way h0 v0 = Ok b' /\ b <> b' /\
    same_up (e_parsefloat e0)
      (DHash [([x61], DInt 7); ([x62], DArr [DStr [x68; x69]; DRef (DInt (-5))])])
      (DHash [([x62], DArr [DStr [x68; x69]; DRef (DInt (-5))]); ([x61], DInt 7)]).
Proof.
  split; [apply eopt_sane|]. split; [exact other_sane|]. split; [exact k0_lossless|]. split; [apply tree0; lia|].
  split; [apply tree0; lia|]. split; [exact Logic.I|]. split; [reflexivity|].
  eexists _, _. split; [vm_compute; reflexivity|]. split; [vm_compute; reflexivity|]. split; [discriminate|].
  eapply su_hash; [apply perm_swap|]. repeat constructor.
Qed.
