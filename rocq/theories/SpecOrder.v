(** Data up to the order of the entries of hashes. *)
From Verif Require Import Base Spec.
From Coq Require Import Permutation.

Section Order.
(** float parsing: the text of a JSON number that is not an int64 may stand for the float *)
Variable pf : bytes -> option N.

Inductive same_up : data -> data -> Prop :=
| su_same d : same_up d d
| su_number s u : pf s = Some u -> same_up (DStr s) (DF64 u)
| su_text s u : pf s = Some u -> same_up (DF64 u) (DStr s)
| su_arr l l' : same_ups l l' -> same_up (DArr l) (DArr l')
| su_hash l m l' : Permutation l m -> same_upm m l' -> same_up (DHash l) (DHash l')
| su_ref d d' : same_up d d' -> same_up (DRef d) (DRef d')
| su_weak d d' : same_up d d' -> same_up (DWeak d) (DWeak d')
| su_obj c d d' : same_up d d' -> same_up (DObj c d) (DObj c d')
with same_ups : list data -> list data -> Prop :=
| sus_nil : same_ups [] []
| sus_cons d d' l l' : same_up d d' -> same_ups l l' -> same_ups (d :: l) (d' :: l')
with same_upm : list (bytes * data) -> list (bytes * data) -> Prop :=
| sum_nil : same_upm [] []
| sum_cons k d d' l l' : same_up d d' -> same_upm l l' -> same_upm ((k, d) :: l) ((k, d') :: l').
End Order.
