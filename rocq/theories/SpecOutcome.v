(** The outcome of a Go function modelled with a bound on the recursion depth. *)
From Verif Require Import Base.

(** [f], allowed any sufficient recursion depth, returns [r] *)
Definition outcome {A} (f : nat -> res A) (r : res A) : Prop :=
  r <> NoFuel /\ exists n, forall fuel, n <= fuel -> f fuel = r.
