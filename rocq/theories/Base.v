(** Basic vocabulary shared by the model: bytes, Go integers, outcomes. *)
From Coq Require Export List NArith ZArith Bool Lia.
From Coq Require Import ZifyBool ZifyNat ZifyN.
From Coq.Init Require Export Byte.
Export ListNotations.

(** Go [[]byte] contents (not modelling capacity; where capacity matters the
    model carries it explicitly). *)
Notation bytes := (list byte).

(** Numeric value of a byte, 0..255. *)
Definition b2n (b : byte) : N := Byte.to_N b.

(** Go conversion [byte(n)] for an unsigned [n]: keeps the low 8 bits. *)
Definition n2b (n : N) : byte :=
  match Byte.of_N (n mod 256) with Some b => b | None => x00 end.

(** Go conversion [byte(i)] for a signed [i] (two's complement low 8 bits). *)
Definition z2b (i : Z) : byte := n2b (Z.to_N (i mod 256)).

(** Two's complement reinterpretation between Go [uint] and [int] (64 bit). *)
Definition two64 : Z := 18446744073709551616.
Definition two63 : Z := 9223372036854775808.

(** Go conversion [int(n)] for a [uint64] value. *)
Definition to_int (n : N) : Z :=
  let z := (Z.of_N n mod two64)%Z in
  if (z <? two63)%Z then z else (z - two64)%Z.

(** Go conversion [uint(i)] for an [int64] value. *)
Definition to_uint (i : Z) : N := Z.to_N (i mod two64).

(** Wrap-around of a mathematical integer to Go [int]. *)
Definition wrap64 (i : Z) : Z := to_int (to_uint i).

(** math.MaxInt32 and math.MaxUint32. *)
Definition maxInt32 : Z := 2147483647.
Definition maxUint32 : Z := 4294967295.

Definition byte_eqb (a b : byte) : bool := N.eqb (b2n a) (b2n b).

Fixpoint bytes_eqb (a b : bytes) : bool :=
  match a, b with
  | [], [] => true
  | x :: a', y :: b' => byte_eqb x y && bytes_eqb a' b'
  | _, _ => false
  end.

(** Errors the library returns.  Go error values are compared by identity or by
    message; one constructor stands for one such error.  errors.go 6-41 and the
    [errors.New]/[fmt.Errorf] calls of the other files. *)
Inductive err : Type :=
| EBadHeader | EBadHeaderUTF8 | EBadSnappy | EBadZlibV3 | EBadZstdV4
| EHeaderPointer | EBodyPointer | ETruncated | EUnknownTag (tag : N)
| EExpectStringish (tag : N)
| ETooLarge | EMaxRecursion
| EVersion (v : N) | EDocType (t : N)
| EBadSliceSize | EBadStringSize | EBadOffset | EUntrackedREFP | EBadHashSize
| EUntrackedAlias | ENestedCOPY | EBadVarint
| EFreezeNotRefnArray | EFreezeNotArray | EFreezeMultiple | EFreezeNotBytes
| ESnappyNonIncremental | EZlibV3Only | EUndefinedCompression
| ECodec | EZstdUnsupported
| EUser                 (* error returned by user code: MarshalBinary/UnmarshalBinary *)
| EReflect              (* recovered panic raised by package reflect *)
| ENoSupport            (* recovered panic: no support for type *)
| ECannotUnpack         (* can't unpack FROZEN object into ... *)
| EFinished | EInvalidTopLevel | EBadTarget | EUnexpectedStart | EBadLength
| EBadExpected | EInvalidIndex.

(** Result of running a piece of Go code.
    [Panic e]: a panic whose value is not a runtime.Error; the API functions
    recover it and return it as the error [e].
    [Crash]: a runtime.Error panic (index or slice bounds out of range, negative
    make size, nil map write), which the API functions re-raise.
    [NoFuel]: the recursion bound of the model is exhausted (not a Go outcome). *)
Inductive res (A : Type) : Type :=
| Ok (a : A)
| Err (e : err)
| Panic (e : err)
| Crash
| NoFuel.
Arguments Ok {A}. Arguments Err {A}. Arguments Panic {A}.
Arguments Crash {A}. Arguments NoFuel {A}.

Definition bind {A B} (m : res A) (f : A -> res B) : res B :=
  match m with
  | Ok a => f a
  | Err e => Err e
  | Panic e => Panic e
  | Crash => Crash
  | NoFuel => NoFuel
  end.

(** Go slice expression [by[i:]]: None is a bounds panic. *)
Definition slice_from {A} (l : list A) (i : nat) : option (list A) :=
  if Nat.leb i (length l) then Some (skipn i l) else None.

(** Go slice expression [by[i:j]] on a slice whose capacity equals its length. *)
Definition slice_range {A} (l : list A) (i j : nat) : option (list A) :=
  if Nat.leb i j && Nat.leb j (length l) then Some (firstn (j - i) (skipn i l)) else None.

(** Replace element [i]. *)
Fixpoint upd {A} (l : list A) (i : nat) (x : A) : list A :=
  match l, i with
  | [], _ => []
  | _ :: t, O => x :: t
  | a :: t, S i' => a :: upd t i' x
  end.
