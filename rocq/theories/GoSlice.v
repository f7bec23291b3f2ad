(** Go byte slices with their arrays: what re-slicing, copy and append do when several
    slices share one array. *)
From Verif Require Import Base.

(** The arrays in memory, by number. *)
Notation arrays := (list bytes).

(** A []byte: s[i] is element [sl_off + i] of array [sl_arr].  The nil slice has length
    and capacity 0 (its array and offset mean nothing). *)
Record slice := mkSlice { sl_arr : nat; sl_off : nat; sl_len : nat; sl_cap : nat }.

Definition nil_slice : slice := mkSlice 0 0 0 0.

Definition array (m : arrays) (a : nat) : bytes := nth a m [].

(** the elements of a slice *)
Definition contents (m : arrays) (s : slice) : bytes :=
  firstn (sl_len s) (skipn (sl_off s) (array m (sl_arr s))).

(** s[i:j]; None is a bounds panic *)
Definition reslice (s : slice) (i j : nat) : option slice :=
  if Nat.leb i j && Nat.leb j (sl_cap s)
  then Some (mkSlice (sl_arr s) (sl_off s + i) (j - i) (sl_cap s - i)) else None.

(** overwrite the bytes of an array from position [i] on *)
Definition overwrite (a : bytes) (i : nat) (b : bytes) : bytes :=
  firstn i a ++ b ++ skipn (i + length b) a.

(** copy(s, b): as many bytes as fit *)
Definition copy_into (m : arrays) (s : slice) (b : bytes) : arrays :=
  upd m (sl_arr s) (overwrite (array m (sl_arr s)) (sl_off s) (firstn (sl_len s) b)).

(** make([]byte, n, cap) with the bytes [b] (n = length b) written to it *)
Definition make_with (m : arrays) (b : bytes) (cap : nat) : slice * arrays :=
  (mkSlice (length m) 0 (length b) (length b + (cap - length b)),
   m ++ [b ++ repeat x00 (cap - length b)]).

(** append(s, b...): in place when the capacity allows it; otherwise a new array, whose
    capacity the run-time chooses ([grow], at least what is needed). *)
Definition append_slice (grow : nat -> nat) (m : arrays) (s : slice) (b : bytes) : slice * arrays :=
  let n := sl_len s + length b in
  if Nat.leb n (sl_cap s)
  then (mkSlice (sl_arr s) (sl_off s) n (sl_cap s),
        upd m (sl_arr s) (overwrite (array m (sl_arr s)) (sl_off s + sl_len s) b))
  else make_with m (contents m s ++ b) (grow n).

(** the slice lies inside its array *)
Definition slice_ok (m : arrays) (s : slice) : Prop :=
  sl_len s <= sl_cap s /\ (sl_cap s = 0 \/ sl_off s + sl_cap s <= length (array m (sl_arr s))).
