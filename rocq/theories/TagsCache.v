(** tagscache.go: the field names of struct types. *)
From Verif Require Import Base GoMem.

Definition dash : bytes := [x2d].

(** The table built for a struct type, tagscache.go 23-42: serialised name -> field index.
    A later field with the same name replaces an earlier one. *)
Fixpoint tags_loop (fs : list fdecl) (i : nat) (m : list (bytes * nat)) : list (bytes * nat) :=
  match fs with
  | [] => m
  | f :: fs' =>
      if bytes_eqb (f_tag f) dash then tags_loop fs' (S i) m
      else match f_tag f with
           | [] => if f_exported f then tags_loop fs' (S i) (mput m (f_name f) i)
                   else tags_loop fs' (S i) m
           | t => tags_loop fs' (S i) (mput m t i)
           end
  end.

(** tagscache.go 23-47; the nil map stored for "no fields" behaves as the empty map. *)
Definition tags_of (fs : list fdecl) : list (bytes * nat) := tags_loop fs 0 [].
