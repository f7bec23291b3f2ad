(** Memory whose variables hold values of their Go types.  Nothing here refers to the decoder. *)
From Verif Require Import Base GoMem GoTypes Decode TypedMem.

(** a variable of type t (or the array of a slice: [TyArr n t]); the entries of a map[string]t *)
Inductive ctype := CVar (t : gtype) | CEntries (t : gtype).

(** interface{} values: integers are within the range of their kind *)
Definition int_ok (x : gval) : Prop := match x with GInt k _ z => ikind_in k z | _ => True end.
Definition ints_ok (h : heap) : Prop := (forall l, int_ok (hget h l)) /\ (forall l k x, In (k, x) (hmap h l) -> int_ok x).

Section Has.
Variable v : goenv.
Variable ct : list ctype.

(** [has t x]: [x] can be the content of a variable of type [t] *)
Inductive has : gtype -> mval -> Prop :=
| has_int k z : ikind_in k z -> has (TyInt k) (MInt z)
| has_bool b : has TyBool (MBool b)
| has_f32 u : has TyF32 (MF32 u)
| has_f64 u : has TyF64 (MF64 u)
| has_str s : has TyStr (MStr s)
| has_iface g : int_ok g -> has TyIface (MIface g)
| has_slice_nil t : has (TySlice t) (MSlice None)
| has_slice t l n : nth_error ct l = Some (CVar (TyArr n t)) -> has (TySlice t) (MSlice (Some l))
| has_arr n t ms : length ms = n -> (forall m, In m ms -> has t m) -> has (TyArr n t) (MArr ms)
| has_map_nil t : has (TyMap t) (MMap None)
| has_map t l : nth_error ct l = Some (CEntries t) -> has (TyMap t) (MMap (Some l))
| has_ptr_nil t : has (TyPtr t) (MPtr None)
| has_ptr t l : nth_error ct l = Some (CVar t) -> has (TyPtr t) (MPtr (Some l))
| has_struct id fs :
    (forall i m, In (i, m) fs -> i < length (st_fields (decls v id))) ->
    (forall i m f t, In (i, m) fs -> nth_error (st_fields (decls v id)) i = Some (f, t) -> has t m) ->
    has (TyStruct id) (MStruct fs).

Definition has_cell (c : ctype) (x : mcell) : Prop :=
  match c, x with
  | CVar t, MCell m => has t m
  | CEntries t, MEntries es => forall k m, In (k, m) es -> has t m
  | _, _ => False
  end.
End Has.

(** [ct]: the types of the cells of [mem] *)
Definition well_typed (v : goenv) (ct : list ctype) (mem : memory) : Prop := Forall2 (has_cell v ct) ct mem.

(** the type of the part of a variable of type [ty] the steps lead to *)
Fixpoint type_at (v : goenv) (ty : gtype) (p : list step) : option gtype :=
  match p, ty with
  | [], _ => Some ty
  | SElem i :: p', TyArr n t => if Nat.ltb i n then type_at v t p' else None
  | SField id i :: p', TyStruct id' =>
      if Nat.eqb id id' then
        match nth_error (st_fields (decls v id)) i with Some (_, t) => type_at v t p' | None => None end
      else None
  | _, _ => None
  end.

(** one of the steps is to an unexported field *)
Definition unexported (v : goenv) (st : step) : Prop :=
  match st with
  | SField id i => exists f t, nth_error (st_fields (decls v id)) i = Some (f, t) /\ f_exported f = false
  | SElem _ => False
  end.
Definition sealed (v : goenv) (p : list step) : Prop := exists st, In st p /\ unexported v st.

(** the cells a value of type [ty] refers to outside of its unexported fields, those a cell
    refers to that way, and those that can be reached that way *)
Section Open.
Variable v : goenv.
Inductive erefers : gtype -> mval -> mloc -> Prop :=
| er_slice t l : erefers (TySlice t) (MSlice (Some l)) l
| er_map t l : erefers (TyMap t) (MMap (Some l)) l
| er_ptr t l : erefers (TyPtr t) (MPtr (Some l)) l
| er_arr n t ms m l : In m ms -> erefers t m l -> erefers (TyArr n t) (MArr ms) l
| er_struct id fs i f t m l : nth_error (st_fields (decls v id)) i = Some (f, t) -> f_exported f = true ->
    assoc_nat i fs = Some m -> erefers t m l -> erefers (TyStruct id) (MStruct fs) l.
Definition cell_erefers (c : ctype) (x : mcell) (l : mloc) : Prop :=
  match c, x with
  | CVar t, MCell m => erefers t m l
  | CEntries t, MEntries es => exists k m, In (k, m) es /\ erefers t m l
  | _, _ => False
  end.
Inductive ereach (ct : list ctype) (mem : memory) (l : mloc) : mloc -> Prop :=
| ereach_refl : ereach ct mem l l
| ereach_step l1 c cell l2 : ereach ct mem l l1 -> nth_error ct l1 = Some c -> nth_error mem l1 = Some cell ->
    cell_erefers c cell l2 -> ereach ct mem l l2.
End Open.

(** REFP or ALIAS *)
Definition back_reference (b : byte) : Prop := (b2n b mod 128 = 41 \/ b2n b mod 128 = 46)%N.
