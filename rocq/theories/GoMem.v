(** Go values and Go memory, as far as the library can observe them. *)
From Verif Require Import Base.

(** A memory location: an index into the flat list of cells. *)
Definition loc := nat.

(** A []byte value: a window of a byte buffer cell. *)
Record view := mkView { vloc : loc; voff : nat; vlen : nat }.

(** Kinds of Go integer types (reflect.Int .. reflect.Uint64). *)
Inductive ikind := KInt | KInt8 | KInt16 | KInt32 | KInt64
                 | KUint | KUint8 | KUint16 | KUint32 | KUint64.

Definition ikind_signed (k : ikind) : bool :=
  match k with KInt | KInt8 | KInt16 | KInt32 | KInt64 => true | _ => false end.

Definition ikind_bits (k : ikind) : Z :=
  match k with
  | KInt | KInt64 | KUint | KUint64 => 64
  | KInt8 | KUint8 => 8 | KInt16 | KUint16 => 16 | KInt32 | KUint32 => 32
  end%Z.

(** The values a Go integer type can hold. *)
Definition ikind_in (k : ikind) (z : Z) : Prop :=
  if ikind_signed k
  then (- 2 ^ (ikind_bits k - 1) <= z < 2 ^ (ikind_bits k - 1))%Z
  else (0 <= z < 2 ^ ikind_bits k)%Z.

(** One declared field of a Go struct type, as tagscache.go 25-40 looks at it:
    Go name, content of the `sereal:"..."` tag (empty when absent), exported or not. *)
Record fdecl := mkField { f_name : bytes; f_tag : bytes; f_exported : bool }.

(** Content of an interface{} variable.  User-defined string and bool types are not
    distinguished from the built-in ones (the encoder writes them the same way);
    user-defined float types are not modelled. *)
Inductive gval : Type :=
| GNil                                  (* nil interface *)
| GBool (b : bool)
| GInt (k : ikind) (named : bool) (z : Z)  (* named: a user-defined type of that kind *)
| GF32 (bits : N) | GF64 (bits : N)     (* float32/float64 by their IEEE bits *)
| GStr (s : bytes)                      (* string *)
| GJson (s : bytes)                     (* encoding/json.Number *)
| GBytes (v : view)                     (* []byte *)
| GSlice (base : loc) (n : nat)         (* []interface{}: cells base .. base+n-1 *)
| GMap (l : loc)                        (* map[string]interface{} *)
| GPtr (toIface : bool) (l : loc)       (* *interface{} if toIface, else pointer to the
                                           concrete type of the value in cell l *)
| GNilPtr                               (* nil pointer *)
| GUndefV (canonical : bool)            (* PerlUndef struct value *)
| GCanonUndef                           (* the shared *PerlUndef of perl.go 29 *)
| GObjV (cls : bytes) (r : gval)        (* PerlObject struct value *)
| GObjP (cls : bytes) (r : loc)         (* *PerlObject; its Reference field is cell r *)
| GWeakV (r : gval)                     (* PerlWeakRef struct value *)
| GWeakP (r : loc)                      (* *PerlWeakRef; its Reference field is cell r *)
| GRegexpV (p m : view)                 (* PerlRegexp struct value *)
| GFreezeV (cls : bytes) (d : view)     (* PerlFreeze struct value *)
| GUser (name : bytes) (data : option bytes) (plain : gval)
                  (* a non-pointer value implementing BinaryMarshaler: its concreteName,
                     what MarshalBinary returns (None: an error), and the same value
                     seen without that method *)
| GUserP (t : nat) (d : view)           (* *T filled by a registered T.UnmarshalBinary(d) *)
| GTSlice (isArr : bool) (base : loc) (n : nat)  (* array, or slice of another element type *)
| GTMap (l : loc)                       (* map of another type *)
| GStruct (name : bytes) (fs : list fdecl) (base : loc) (* struct; field i in cell base+i *)
| GOpaque.                              (* chan, func, complex, uintptr, unsafe.Pointer *)

(** Memory cells. *)
Inductive cell : Type :=
| CV (v : gval)                         (* a variable, slice element or struct field *)
| CMap (m : list (bytes * gval))        (* map[string]interface{} contents *)
| CTMap (m : list (gval * gval))        (* contents of a map of another type *)
| CBuf (b : bytes).                     (* backing array of a []byte *)

Definition heap := list cell.

(** Content of the variable at [l] ([GNil] where there is no variable). *)
Definition hget (h : heap) (l : loc) : gval :=
  match nth_error h l with Some (CV v) => v | _ => GNil end.

Definition hmap (h : heap) (l : loc) : list (bytes * gval) :=
  match nth_error h l with Some (CMap m) => m | _ => [] end.

Definition htmap (h : heap) (l : loc) : list (gval * gval) :=
  match nth_error h l with Some (CTMap m) => m | _ => [] end.

Definition hbuf (h : heap) (l : loc) : bytes :=
  match nth_error h l with Some (CBuf b) => b | _ => [] end.

(** Bytes seen through a []byte value. *)
Definition hview (h : heap) (v : view) : bytes :=
  firstn (vlen v) (skipn (voff v) (hbuf h (vloc v))).

(** Go map assignment m[k] = v on an association list with unique keys. *)
Fixpoint mput {A} (m : list (bytes * A)) (k : bytes) (v : A) : list (bytes * A) :=
  match m with
  | [] => [(k, v)]
  | (k', v') :: m' => if bytes_eqb k' k then (k', v) :: m' else (k', v') :: mput m' k v
  end.

(** Go map lookup. *)
Fixpoint mget {A} (m : list (bytes * A)) (k : bytes) : option A :=
  match m with
  | [] => None
  | (k', v') :: m' => if bytes_eqb k' k then Some v' else mget m' k
  end.

(** Machine addresses (Go uintptr) the encoder compares, encode.go 613-702. *)
Inductive addr : Type := Addr (n : nat).
Definition addr_eqb (a b : addr) : bool := match a, b with Addr x, Addr y => Nat.eqb x y end.

(** What reflect's Pointer() and the string header point to, other than variables *)
Inductive place : Type :=
| PMap (l : loc)               (* a map *)
| PSlice (l : loc)             (* the elements of a slice *)
| PBuf (l : loc) (off : nat)   (* a byte of a []byte backing array *)
| PStr (l : loc)               (* the data of the string in a variable *)
| PBox (l : loc)               (* the PerlObject or PerlWeakRef with Reference in [l] *)
| PCanon.                      (* the shared canonical undef *)

(** Where the Go runtime has put everything.  Nothing is assumed: a struct has the address of its
    first field, a slice that of its first element, and things of size zero may be anywhere.
    [at_cell l]: the variable in cell [l]; [at_place]: None for 0, as of nil maps and slices. *)
Record layout := mkLayout { at_cell : loc -> addr; at_place : place -> option addr }.
