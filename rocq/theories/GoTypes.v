(** Go types, and the contents of variables of these types. *)
From Verif Require Import Base GoMem.

(** Go types.  Structs are named, so that types can be recursive. *)
Inductive gtype : Type :=
| TyInt (k : ikind) | TyBool | TyF32 | TyF64 | TyStr
| TyIface                        (* interface{} *)
| TySlice (t : gtype)            (* []byte is TySlice (TyInt KUint8) *)
| TyArr (n : nat) (t : gtype)
| TyMap (t : gtype)              (* map[string]t *)
| TyPtr (t : gtype)
| TyStruct (id : nat).

(** A struct declaration: the name Marshal writes, and the fields with their types. *)
Record sdecl := mkStruct { st_name : bytes; st_fields : list (fdecl * gtype) }.

(** Contents of a variable.  A struct lists fields that were set (first entry
    counts), the others are zero; a map lists its entries. *)
Inductive tval : Type :=
| VInt (z : Z) | VBool (b : bool) | VF32 (u : N) | VF64 (u : N) | VStr (s : bytes)
| VIface (v : gval)
| VSlice (l : option (list tval))               (* None: nil *)
| VArr (l : list tval)
| VMap (m : option (list (bytes * tval)))       (* None: nil *)
| VPtr (p : option tval)                        (* None: nil *)
| VStruct (fs : list (nat * tval)).

(** reflect.Zero *)
Fixpoint zero (ty : gtype) : tval :=
  match ty with
  | TyInt _ => VInt 0 | TyBool => VBool false | TyF32 => VF32 0 | TyF64 => VF64 0
  | TyStr => VStr []
  | TyIface => VIface GNil
  | TySlice _ => VSlice None
  | TyArr n t => VArr (repeat (zero t) n)
  | TyMap _ => VMap None
  | TyPtr _ => VPtr None
  | TyStruct _ => VStruct []
  end.

(** Conversions between float32 and float64 (by their bits), and strings.Title. *)
Record goenv := mkGoEnv {
  widen : N -> N;
  narrow : N -> N;
  title : bytes -> bytes;
  decls : nat -> sdecl            (* the struct types of the program *)
}.

(** the field of a struct: its content *)
Definition sfield (v : goenv) (id i : nat) (fs : list (nat * tval)) : tval :=
  match find (fun e => Nat.eqb (fst e) i) fs with
  | Some (_, x) => x
  | None => match nth_error (st_fields (decls v id)) i with
            | Some (_, t) => zero t
            | None => VStruct []
            end
  end.

(** an element of a []byte *)
Definition byte_val (b : byte) : tval := VInt (Z.of_N (b2n b)).
