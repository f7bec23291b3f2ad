(** C65: maps whose keys are not Go strings.  [GTMap l] is a map of a type other than
    map[string]interface{}; its entries are pairs of Go values. *)
From Verif Require Import Base Tags GoMem Codecs Encode Decode Document SpecValue SpecOptions SpecOutcome
  SpecKeys DecodeSpec OutcomeFacts RoundtripFacts Roundtrip KeysFacts Props_Roundtrip Cases.
From Coq Require Import ZifyBool ZifyNat ZifyN.

(** map[int]bool{1: true, 2: false}.  By default it is written with the integers as keys, which
    Unmarshal refuses; PerlCompat writes every integer key as "<int Value>", so that one of two
    entries is lost. *)
Definition int_keys : heap := [CTMap [(GInt KInt false 1, GBool true); (GInt KInt false 2, GBool false)]].
Theorem C65_map_keys_refuted :
  ~ (forall k c e h l b, sane_world e -> (1 <= proto e <= 3)%N -> e_perl e = false ->
     outcome (fun n => Marshal k n e h (GTMap l)) (Ok b) -> exists h' v', unmarshal_fresh k c b = Ok (h', v')) /\
  ~ (forall k c e h l b h' v', sane_world e -> (1 <= proto e <= 3)%N -> e_perl e = true -> d_perl c = false ->
     outcome (fun n => Marshal k n e h (GTMap l)) (Ok b) -> unmarshal_fresh k c b = Ok (h', v') ->
     entries h' v' = entries h (GTMap l)).
Proof.
  split; intros H.
  - assert (O : outcome (fun n => Marshal k0 n e0 int_keys (GTMap 0)) (Ok
      [x3d; xf3; x72; x6c; x03; x00; x2a; x02; x01; x3b; x02; x3a])).
    { eapply (outcome_marshal k0 _ int_keys None _ 5). vm_compute. reflexivity. }
    destruct (H k0 c0 e0 int_keys 0 _ (eopt_sane _ _ _ _) ltac:(cbn; lia) eq_refl O) as (h' & v' & U).
    vm_compute in U. discriminate U.
  - destruct (Marshal k0 5 (eopt true None 0 0) int_keys (GTMap 0)) as [b| | | |] eqn:M; try (vm_compute in M; discriminate M).
    assert (O : outcome (fun n => Marshal k0 n (eopt true None 0 0) int_keys (GTMap 0)) (Ok b)).
    { eapply (outcome_marshal k0 _ int_keys None _ 5); exact M. }
    destruct (unmarshal_fresh k0 c0 b) as [[h' v']| | | |] eqn:U; vm_compute in M; injection M as <-; vm_compute in U; try discriminate U.
    injection U as <- <-.
    specialize (H k0 c0 (eopt true None 0 0) int_keys 0 _ _ _ (eopt_sane _ _ _ _) ltac:(cbn; lia) eq_refl eq_refl O ltac:(vm_compute; reflexivity)).
    vm_compute in H. discriminate H.
Qed.
Print Assumptions C65_map_keys_refuted.

(** With PerlCompat a map keyed by JSON numbers, wherever in the value, is written as the map keyed
    by the strings of their texts. *)
Theorem C65_as_text_partial : forall k fuel e h hv v, e_perl e = true -> by_position e ->
  MarshalWithHeader k fuel e h hv v = MarshalWithHeader k fuel e (with_text_keys h) hv v.
Proof. intros. symmetry. now apply marshal_keys. Qed.
Print Assumptions C65_as_text_partial.

(** So it is read back, with all entries under those texts. *)
Theorem C65_map_keys_partial : forall k c e h v n A,
  sane_world e -> by_position e -> e_perl e = true -> d_perl c = false -> (1 <= proto e <= 3)%N ->
  go_tree c e (with_text_keys h) v n A -> (Z.of_nat n < depth_limit e)%Z ->
  exists b, outcome (fun n => Marshal k n (without_compression e) h v) (Ok b) /\
    ((N.of_nat (length b) <= 281474976710656)%N ->
     exists h' v', unmarshal_fresh k c b = Ok (h', v') /\
       same (e_nofreeze e) (e_parsefloat e) (reg_of c) (with_text_keys h) h' v v').
Proof.
  intros k c e h v n A W Ord Pl Dp Pv T L. destruct (C05_roundtrip k c e (with_text_keys h) v n A W Pv T L) as (b & (N & m & O) & R).
  exists b. split.
  - split; [exact N|]. exists m. intros fuel Hf. rewrite <- (O fuel Hf). unfold Marshal. symmetry. now apply marshal_keys.
  - intros Lb. destruct (R Lb) as (h' & v' & d & U & _ & _ & S). exists h', v'. auto.
Qed.
Print Assumptions C65_map_keys_partial.

(** map[json.Number]int8{"12": 5, "1e3": -1} *)
Definition json_keys : heap := [CTMap [(GJson [x31;x32], GInt KInt8 false 5); (GJson [x31;x65;x33], GInt KInt8 false (-1))]].
Example C65_case : sane_world (eopt true None 0 0) /\ by_position (eopt true None 0 0) /\
  go_tree c0 (eopt true None 0 0) (with_text_keys json_keys) (GTMap 0) 1 [] /\ (1 < depth_limit (eopt true None 0 0))%Z /\
  match Marshal k0 5 (eopt true None 0 0) json_keys (GTMap 0) with
  | Ok b => match unmarshal_fresh k0 c0 b with
            | Ok (h', GMap l) => hmap h' l = [([x31;x32], GInt KInt false 5); ([x31;x65;x33], GInt KInt false (-1))]
            | _ => False end
  | _ => False end.
Proof.
  split; [apply eopt_sane|]. split; [intros t A B f l; reflexivity|]. split; [|split; [cbn; lia|vm_compute; reflexivity]].
  apply (t_tmap _ _ _ _ _ 0 [([x31;x32], GInt KInt8 false 5); ([x31;x65;x33], GInt KInt8 false (-1))] 0 []).
  - reflexivity.
  - cbn. repeat constructor; cbn; intuition discriminate.
  - unfold fits. cbn. lia.
  - intros k v [[= <- <-]|[[= <- <-]|[]]]; unfold fits; cbn; lia.
  - cbn [map snd]. apply (ts_cons _ _ _ _ _ _ 0 [] _ 0 []); [apply t_int; unfold ikind_in; cbn; lia| |intros a []].
    apply (ts_cons _ _ _ _ _ _ 0 [] _ 0 []); [apply t_int; unfold ikind_in; cbn; lia|apply ts_nil|intros a []].
Qed.
