(** C71: the document does not depend on where things lie in memory.

    [same_overlaps], [moved]: SpecPlaces.v. *)
From Verif Require Import Base BaseFacts Tags GoMem GoTypes Codecs Encode Document Spec SpecOptions SpecOutcome SpecPlaces PlaceFacts
  Cases.

(** C71.  Two runs of the program in which everything lies elsewhere, but the same things share an
    address, write the same bytes or fail with the same error: no address gets into the document,
    and neither the order nor the distance of addresses matters. *)
Theorem C71_addresses : forall k e L h header v r, same_overlaps (e_layout e) L ->
  outcome (fun n => MarshalWithHeader k n e h header v) r ->
  outcome (fun n => MarshalWithHeader k n (moved L e) h header v) r.
Proof.
  intros k e L h header v r So (N & n & O). split; [exact N|]. exists n. intros fuel F.
  rewrite marshal_places by exact So. now apply O.
Qed.
Print Assumptions C71_addresses.

(** a slice of two pointers to one variable, everything at other addresses; and with the slice at
    the address of the variable, which is not the same case *)
Definition two_ptrs : heap := [CV (GPtr false 2); CV (GPtr false 2); CV (GInt KInt false 5)].
Definition lay_far : layout := mkLayout (fun l => Addr (7 + 5 * l)) (fun p => match p with PSlice l => Some (Addr (7 + 5 * l)) | _ => None end).
Definition lay_near : layout := mkLayout (fun l => Addr l) (fun p => match p with PSlice l => Some (Addr l) | _ => None end).
Definition lay_one : layout := mkLayout (fun l => Addr 0) (fun p => match p with PSlice l => Some (Addr 0) | _ => None end).
Definition near : econfig := moved lay_near e0.
Lemma near_far : same_overlaps lay_near lay_far.
Proof.
  split.
  - intros [l|[]]; cbn; split; discriminate || reflexivity.
  - assert (J : forall a b, 7 + 5 * a = 7 + 5 * b -> a = b) by (intros; lia).
    intros [l|p] [l'|p']; try destruct p; try destruct p'; unfold address, lay_near, lay_far, at_cell, at_place;
      (split; [intros E; try discriminate E; try reflexivity; injection E as <-; reflexivity
              |intros E; try discriminate E; try reflexivity; injection E as E; f_equal; f_equal; lia]).
Qed.
Definition twice3 : bytes := [x3d; xf3; x72; x6c; x03; x00; x2b; x02; xa8; x05; x29; x03].
Example C71_case : same_overlaps (e_layout near) lay_far /\ ~ same_overlaps (e_layout near) lay_one /\
  Marshal k0 4 near two_ptrs (GSlice 0 2) = Ok twice3 /\
  Marshal k0 4 (moved lay_far near) two_ptrs (GSlice 0 2) = Ok twice3 /\
  Marshal k0 4 near [CV (GPtr false 2); CV (GPtr false 3); CV (GInt KInt false 5); CV (GInt KInt false 5)] (GSlice 0 2) <>
  Marshal k0 4 (moved lay_one near) [CV (GPtr false 2); CV (GPtr false 3); CV (GInt KInt false 5); CV (GInt KInt false 5)] (GSlice 0 2).
Proof.
  split; [exact near_far|]. split.
  { intros [_ K]. destruct (K (Variable_ 0) (Variable_ 1)) as [_ X]. discriminate (X eq_refl). }
  split; [vm_compute; reflexivity|]. split; [vm_compute; reflexivity|]. vm_compute. discriminate.
Qed.
