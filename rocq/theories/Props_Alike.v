(** C72: values with the same content and the same sharing are written as the same document.

    [alike_value], [alike_memory], [same_options]: SpecAlike.v. *)
From Verif Require Import Base BaseFacts Tags GoMem GoTypes Codecs Encode Document Spec SpecOptions SpecOutcome SpecPlaces SpecAlike
  AlikeFacts Cases Props_Places.

(** C72.  A deep copy of a value, cyclic or not, that keeps the sharing gives the same bytes as
    the original or fails with the same error, wherever in memory or in whichever program it is. *)
Theorem C72_copies : forall k e e' h h' T header header' v v' r, same_options e e' ->
  alike_memory h h' (e_layout e) (e_layout e') T -> alike_value h h' T v v' ->
  match header, header' with Some x, Some x' => alike_value h h' T x x' | None, None => True | _, _ => False end ->
  outcome (fun n => MarshalWithHeader k n e h header v) r ->
  outcome (fun n => MarshalWithHeader k n e' h' header' v') r.
Proof.
  intros k e e' h h' T header header' v v' r Op Am V Hd (N & n & O). split; [exact N|]. exists n. intros fuel F.
  rewrite (marshal_alike k fuel e e' h h' T header header' v v' Op Am V Hd). now apply O.
Qed.
Print Assumptions C72_copies.

(** a slice holding a pointer to itself and a pointer to 5, and a copy of it *)
Definition loop_heap : heap := [CV (GPtr false 2); CV (GPtr false 3); CV (GSlice 0 2); CV (GInt KInt false 5)].
Definition copy_heap : heap := [CV (GInt KInt false 5); CV (GSlice 3 2); CV GNil; CV (GPtr false 1); CV (GPtr false 0)].
Definition copied (x y : spot) : Prop := In (x, y)
  [(Variable_ 0, Variable_ 3); (Variable_ 1, Variable_ 4); (Variable_ 2, Variable_ 1); (Variable_ 3, Variable_ 0);
   (Other (PSlice 0), Other (PSlice 3)); (Other (PStr 2), Other (PStr 1)); (Other (PStr 3), Other (PStr 0))].
Lemma copied_slice : alike_value loop_heap copy_heap copied (GSlice 0 2) (GSlice 3 2).
Proof.
  constructor; [unfold copied; cbn; tauto|]. intros [|[|i]] L; [unfold copied; cbn; tauto|unfold copied; cbn; tauto|lia].
Qed.
Lemma copied_alike : alike_memory loop_heap copy_heap lay_near lay_near copied.
Proof.
  split; [|split; [|split]].
  - intros l l' C. cbn in C. repeat destruct C as [C|C]; try contradiction; inversion C; subst; cbn.
    + constructor; unfold copied; cbn; tauto.
    + constructor; unfold copied; cbn; tauto.
    + exact copied_slice.
    + now constructor.
  - intros l l' C. cbn in C. repeat destruct C as [C|C]; try contradiction; discriminate C.
  - intros x x' C. cbn in C. repeat destruct C as [C|C]; try contradiction; inversion C; subst; clear C; cbn; split; discriminate || reflexivity.
  - intros x x' y y' C D. cbn in C, D. repeat destruct C as [C|C]; try contradiction; inversion C; subst; clear C;
      repeat destruct D as [D|D]; try contradiction; inversion D; subst; clear D; cbn; split; discriminate || reflexivity.
Qed.
Lemma near_options : same_options near near.
Proof. repeat split. intros; assumption. Qed.
Example C72_case :
  same_options near near /\ alike_memory loop_heap copy_heap (e_layout near) (e_layout near) copied /\
  alike_value loop_heap copy_heap copied (GSlice 0 2) (GSlice 3 2) /\
  exists b, Marshal k0 9 near loop_heap (GSlice 0 2) = Ok b /\ Marshal k0 9 near copy_heap (GSlice 3 2) = Ok b.
Proof.
  split; [exact near_options|]. split; [exact copied_alike|]. split; [exact copied_slice|].
  eexists. split; vm_compute; reflexivity.
Qed.
