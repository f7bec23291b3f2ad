(** Documents from Marshal can be merged (property C52). *)
From Verif Require Import Base BaseFacts Tags GoMem Codecs Encode Decode Document Spec SpecValue SpecDoc SpecOptions DecodeSpec DocFacts
  Roundtrip GoSlice Merge SpecMerge MergeRun SpecAccept SpecPlain MarshalMerge MergeTotal Cases Props_Merge Props_MergeAccept.
From Coq Require Import ZifyBool ZifyNat ZifyN.

(** * C52 *)
(** Pointers to byte slices and slices of such pointers are not always accepted: if two slices
    are empty and at the same address, as empty slices in Go are, Marshal writes a reference to
    the byte just before it, which this package reads and Append rejects. *)
(** []interface{}{&a, &b} with a, b = []byte{}, []byte{} *)
Definition h_empty : heap := [CV (GPtr true 2); CV (GPtr true 3); CV (GBytes (mkView 4 0 0)); CV (GBytes (mkView 4 0 0)); CBuf []].
Theorem C52_marshal_merge_refuted : ~ (forall k w g e h base n fuel b spare, g_top g = 0%N -> g_flat g = false -> g_expected g = 0 ->
  Forall (fun c => match c with CV (GPtr _ _) | CV (GBytes _) | CBuf _ => True | _ => False end) h ->
  Marshal k fuel e h (GSlice base n) = Ok b -> decodable k c0 b -> exists n m, Append k w g (new_merger 3) b spare = (Ok n, m)).
Proof.
  intros H. destruct (Marshal k0 10 e0 h_empty (GSlice 0 2)) as [b| | | |] eqn:E; try (vm_compute in E; discriminate).
  vm_compute in E. injection E as <-.
  destruct (H k0 w0 g0 e0 h_empty 0 2 10 _ [] eq_refl eq_refl eq_refl ltac:(repeat constructor) eq_refl) as (n & m & A).
  - do 2 eexists. vm_compute. reflexivity.
  - vm_compute in A. discriminate A.
Qed.
Print Assumptions C52_marshal_merge_refuted.

(** a Go value together with its memory and the Encoder; what it writes without compression *)
Record job := mkJob { j_enc : econfig; j_heap : heap; j_value : gval; j_raw : bytes }.

(** a call of Append (without KeepFlat) with what Marshal wrote for a plain value; the encoder
    writes version 2 or 3 and a compression that version has *)
Definition sent (k : codecs) (cl : call) (j : job) : Prop :=
  let e := j_enc j in let h := j_heap j in
  g_flat (c_conf cl) = false /\ valid (c_conf cl) /\
  sane_world e /\ (proto e = 2 \/ proto e = 3)%N /\ supported (proto e) (e_comp e) /\
  plain_memory (negb (e_nodedup e)) (e_nofreeze e) (e_layout e) h /\
  plain (negb (e_nodedup e)) (e_nofreeze e) (e_layout e) h (j_value j) /\
  (N.of_nat (length (c_doc cl)) < 2147483647)%N /\
  (N.of_nat (length (j_raw j)) < 2147483647)%N /\
  exists fuel, Marshal k fuel e h (j_value j) = Ok (c_doc cl) /\
    Marshal k fuel (without_compression e) h (j_value j) = Ok (j_raw j).
Definition raw_size (jobs : list job) : nat := list_sum (map (fun j => length (j_raw j)) jobs).

Lemma sent_acceptable k cl j : lossless k -> sent k cl j -> exists body, acceptable k cl (body, 1) /\ length body < length (j_raw j).
Proof.
  intros Lo (Fl & Va & Sw & Pr & Su & Pm & Pv & Ld & L0 & fuel & R & R0).
  destruct (marshal_mergeable k (j_enc j) (j_heap j) Sw Pr Su Lo Pm fuel (j_value j) _ _ Pv R R0 L0 ltac:(lia)) as (body & Ca & Lb & Me).
  exists body. split; [split; [exact Ca|]|exact Lb]. cbn [fst snd]. rewrite Fl. apply Me.
Qed.
Lemma sent_all k calls jobs : lossless k -> Forall2 (sent k) calls jobs ->
  exists docs, Forall2 (acceptable k) calls docs /\ map snd docs = map (fun _ => 1) jobs /\
    Forall (fun c => valid (c_conf c)) calls /\ list_sum (map (fun bn => length (fst bn)) docs) <= raw_size jobs.
Proof.
  intros Lo F. induction F as [|cl j calls jobs S F IH].
  - exists []. repeat split; try constructor.
  - destruct IH as (docs & Fd & Ms & Va & Li). destruct (sent_acceptable k cl j Lo S) as (body & Ac & Lb).
    exists ((body, 1) :: docs). split; [now constructor|]. unfold raw_size, list_sum in *. cbn [map snd fst fold_right].
    split; [now rewrite Ms|]. split; [constructor; [apply S|exact Va]|]. lia.
Qed.

(** Plain values, with any sharing and cycles: each document marshalled is accepted as one
    element, and Finish succeeds. *)
Theorem C52_marshalled_accepted_partial k w v calls jobs g :
  (v <= 3)%N -> lossless k -> Forall2 (sent k) calls jobs -> (N.of_nat (raw_size jobs) < 34359738368)%N -> valid g -> g_comp g = None ->
  exists m out m', append_each k w (new_merger v) calls = (map (fun _ => Ok 1%Z) jobs, m) /\ Finish k w g m = (Ok out, m').
Proof.
  intros Hv Lo F Lj Hg Hc. destruct (sent_all k calls jobs Lo F) as (docs & Fd & Ms & Va & Li).
  destruct (C51_append_accepts_partial k w v calls docs g Hv Fd Va Hg Hc ltac:(lia)) as (m & out & m' & A & Fi & _).
  exists m, out, m'. split; [|exact Fi]. rewrite A. f_equal.
  transitivity (map (fun n => @Ok Z (Z.of_nat n)) (map snd docs)); [now rewrite map_map|]. rewrite Ms, map_map. reflexivity.
Qed.
Print Assumptions C52_marshalled_accepted_partial.

(** the data a job's value stands for *)
Definition stands (j : job) : data -> Prop :=
  den (e_perl (j_enc j)) (e_nofreeze (j_enc j)) (e_parsefloat (j_enc j)) (j_heap j) false (j_value j).

(** Finite plain values: marshalling each, merging the documents and unmarshalling the result
    always succeeds and yields the array of the values. *)
Theorem C52_marshal_merge_unmarshal_partial k w c top v calls jobs g :
  (v = 0 \/ v = 2 \/ v = 3)%N -> lossless k -> Forall2 (sent k) calls jobs ->
  Forall (fun j => exists n A, go_tree c (j_enc j) (j_heap j) (j_value j) n A) jobs ->
  Forall (fun cl => g_top (c_conf cl) = top /\ g_dedupe (c_conf cl) = false) calls ->
  (N.of_nat (raw_size jobs) < 2147483647)%N -> valid g -> g_top g = top -> g_comp g = None ->
  exists ds m out m', Forall2 stands jobs ds /\ append_all k w (new_merger v) calls = Some m /\
    Finish k w g m = (Ok out, m') /\ reads k c out (merged top ds).
Proof.
  intros Hv Lo F Tr Co Lj Hg Ht Hc.
  destruct (sent_all k calls jobs Lo F) as (docs & Fd & Ms & Va & Li).
  assert (Src : exists ds, Forall2 stands jobs ds /\ Forall2 (appends (go_reader c) k top) calls ds /\ length ds <= raw_size jobs /\
     concat (map (fun cd => parts (g_flat (c_conf (fst cd))) top (snd cd)) (combine calls ds)) = ds).
  { clear - F Tr Co Lo. induction F as [|cl j calls jobs S F IH].
    - exists []. repeat split; try constructor.
    - inversion Tr as [|? ? (n & A & T) Tr']; subst. inversion Co as [|? ? [C1 C2] Co']; subst.
      destruct (IH Tr' Co') as (ds & F1 & F2 & Ld & Ed).
      destruct (sent_acceptable k cl j Lo S) as (body & _ & Lb).
      destruct S as (Fl & _ & Sw & Pr & Su & Pm & Pv & Lc & L0 & fuel & R & R0).
      destruct (marshal_source k c (j_enc j) (j_heap j) Sw Pr Su Lo Pm fuel (j_value j) n A _ _ Pv T R R0 L0 Lc) as (d & Hd & Sd).
      exists (d :: ds). split; [constructor; auto|]. split.
      { constructor; [|exact F2]. split; [reflexivity|]. split; [exact C2|]. now rewrite Fl. }
      split. { unfold raw_size, list_sum in *. cbn [map fold_right length]. lia. }
      cbn [combine map concat fst snd]. rewrite Fl, Ed. unfold parts. destruct d; try reflexivity. destruct d; reflexivity. }
  destruct Src as (ds & F1 & F2 & Ld & Ed).
  destruct (C51_merge_total_partial k w c top v calls docs ds g Hv Fd F2 Va Hg Ht Hc ltac:(lia)) as (m & out & m' & A & Fi & Rd).
  { rewrite Ed. lia. }
  exists ds, m, out, m'. rewrite Ed in Rd. auto.
Qed.
Print Assumptions C52_marshal_merge_unmarshal_partial.

(** * A case *)
Lemma h0_plain : plain_memory true false lay0 h0 /\ plain true false lay0 h0 v0.
Proof.
  split; [|now apply pl_flat]. split; [|split].
  - intros l. do 4 (destruct l as [|l]; [first [now apply pl_flat|apply pl_ptr; split; [intros []|exact I]]|]).
    unfold hget. cbn [nth_error h0]. destruct (nth_error [] l) eqn:E; [destruct l; discriminate|]. now apply pl_flat.
  - intros l k v H. destruct l as [|l]; [destruct H as [[= <- <-]|[[= <- <-]|[]]]; now apply pl_flat|].
    do 3 (destruct l as [|l]; [destruct H|]). unfold hmap in H. cbn [nth_error h0] in H. destruct l; destruct H.
  - intros l k v H. do 4 (destruct l as [|l]; [destruct H|]). unfold htmap in H. cbn [nth_error h0] in H. destruct l; destruct H.
Qed.
(** the value of Cases, marshalled by two encoders (the second with zlib), merged and decoded *)
Example C52_case :
  let e1 := eopt false (Some (CZlib 6)) 0 3 in
  match Marshal k0 10 e1 h0 v0 with
  | Ok doc1 => Forall2 (sent k0) [app doc0; app doc1] [mkJob e0 h0 v0 doc0; mkJob e1 h0 v0 doc0]
  | _ => False
  end /\ go_tree c0 e0 h0 v0 3 [at_cell lay0 3] /\ (N.of_nat (raw_size [mkJob e0 h0 v0 doc0; mkJob e1 h0 v0 doc0]) < 1000)%N.
Proof.
  cbn zeta. split; [|split; [apply tree0; cbn; lia|vm_compute; reflexivity]].
  destruct (Marshal k0 10 (eopt false (Some (CZlib 6)) 0 3) h0 v0) as [doc1| | | |] eqn:E; try (vm_compute in E; discriminate E).
  assert (L1 : (N.of_nat (length doc1) < 1000)%N) by (vm_compute in E; injection E as <-; vm_compute; reflexivity).
  repeat apply Forall2_cons; try apply Forall2_nil; unfold sent; cbn [j_enc j_heap j_value j_raw c_conf c_doc app];
    (split; [reflexivity|split; [split; auto|split; [apply eopt_sane|split; [right; reflexivity|split; [vm_compute; try exact I; discriminate|
     split; [apply h0_plain|split; [apply h0_plain|split; [|split; [vm_compute; reflexivity|]]]]]]]]]).
  - vm_compute; reflexivity.
  - exists 10. split; [exact doc0_marshalled|vm_compute; reflexivity].
  - lia.
  - exists 10. split; [exact E|vm_compute; reflexivity].
Qed.
(** and a cyclic one: m := map[string]interface{}{}; m["a"] = &m' with m' = m *)
Definition h_cycle : heap := [CMap [([x61], GPtr true 1)]; CV (GMap 0)].
Definition doc_cycle : bytes := [x3d; xf3; x72; x6c; x03; x00; xa8; x2a; x01; x27; x01; x61; x29; x01].
Example C52_cycle_case : sent k0 (app doc_cycle) (mkJob e0 h_cycle (GPtr true 1) doc_cycle).
Proof.
  assert (P : plain true false lay0 h_cycle (GPtr true 1)) by (apply pl_ptr; split; [intros []|exact I]).
  unfold sent; cbn [j_enc j_heap j_value j_raw c_conf c_doc app].
  split; [reflexivity|]. split; [split; auto|]. split; [apply eopt_sane|]. split; [right; reflexivity|]. split; [exact I|].
  split; [|split; [exact P|split; [vm_compute; reflexivity|split; [vm_compute; reflexivity|exists 10; split; vm_compute; reflexivity]]]].
  split; [|split].
  - intros l. do 2 (destruct l as [|l]; [now apply pl_flat|]). unfold hget. cbn [nth_error h_cycle]. destruct l; now apply pl_flat.
  - intros l k v H. destruct l as [|l]; [destruct H as [[= <- <-]|[]]; exact P|].
    destruct l as [|l]; [destruct H|]. unfold hmap in H. cbn [nth_error h_cycle] in H. destruct l; destruct H.
  - intros l k v H. do 2 (destruct l as [|l]; [destruct H|]). unfold htmap in H. cbn [nth_error h_cycle] in H. destruct l; destruct H.
Qed.
