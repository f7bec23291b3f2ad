(** What is left of data when references, weak references and classes are taken off. *)
From Verif Require Import Base Spec.

Fixpoint bare (d : data) : data :=
  match d with
  | DRef d | DWeak d | DObj _ d => bare d
  | d => d
  end.
