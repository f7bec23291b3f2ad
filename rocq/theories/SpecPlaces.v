(** Where things lie in memory, up to which of them lie at the same address. *)
From Verif Require Import Base GoMem Encode.

(** a variable, or one of the other things a pointer may lead to (GoMem.v) *)
Inductive spot := Variable_ (l : loc) | Other (p : place).

Definition address (L : layout) (x : spot) : option addr :=
  match x with Variable_ l => Some (at_cell L l) | Other p => at_place L p end.

(** the same things have addresses, and the same things lie at the same address *)
Definition same_overlaps (L L' : layout) : Prop :=
  (forall x, address L x = None <-> address L' x = None) /\
  (forall x y, address L x = address L y <-> address L' x = address L' y).

(** the encoder with everything at other addresses *)
Definition moved (L : layout) (e : econfig) : econfig :=
  mkEConfig (e_perl e) (e_comp e) (e_threshold e) (e_nodedup e) (e_nofreeze e)
            (e_maxdepth e) (e_version e) (e_shuffle e) L (e_parsefloat e).
