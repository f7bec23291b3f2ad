(** What it means for accesses of goroutines to conflict. *)
From Verif Require Import Base GoMem SpecValue Cache.

(** Races: the code has no synchronisation, so two accesses of different goroutines to the
    same place, one of them a write, are never ordered. *)
Definition conflicting (x y : nat * access) : Prop :=
  fst x <> fst y /\
  match snd x, snd y with
  | Wr p, Wr q | Wr p, Rd q | Rd p, Wr q => p = q
  | Rd _, Rd _ => False
  end.

Definition race (tr : list (nat * access)) : Prop :=
  exists x y, In x tr /\ In y tr /\ conflicting x y.

(** [t] stands for a struct type and [x] is its table, or it is another type and [x] is nil *)
Definition right_table (decl : nat -> option (list fdecl)) (t : nat) (x : list (bytes * nat)) : Prop :=
  match decl t with Some fs => field_table fs x | None => x = [] end.
