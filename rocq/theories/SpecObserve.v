(** What can be seen of a Go value by following pointers, slices and maps [n] levels deep.
    Identity of objects is not seen; contents of byte strings are. *)
From Verif Require Import Base GoMem.

Inductive obs : Type :=
| OCut                                        (* below the chosen depth *)
| ONil | OBool (b : bool) | OInt (k : ikind) (named : bool) (z : Z)
| OF32 (bits : N) | OF64 (bits : N) | OStr (s : bytes) | OJson (s : bytes)
| OBytes (s : bytes)
| OSlice (l : list obs)
| OMap (m : list (bytes * obs))
| OPtr (toIface : bool) (o : obs) | ONilPtr
| OUndef (canonical : bool) | OCanonUndef
| OObj (ptr : bool) (cls : bytes) (o : obs)
| OWeak (ptr : bool) (o : obs)
| ORegexp (p m : bytes)
| OFreeze (cls data : bytes)
| OUser (name : bytes) (data : option bytes) (o : obs)
| OUserP (t : nat) (data : bytes)
| OTSlice (isArr : bool) (l : list obs)
| OTMap (m : list (obs * obs))
| OStruct (name : bytes) (fs : list fdecl) (l : list obs)
| OOpaque.

Fixpoint observe (n : nat) (h : heap) (v : gval) : obs :=
  match n with
  | O => OCut
  | S n =>
      let cells base k := map (fun i => observe n h (hget h (base + i))) (seq 0 k) in
      match v with
      | GNil => ONil
      | GBool b => OBool b
      | GInt k nm z => OInt k nm z
      | GF32 u => OF32 u
      | GF64 u => OF64 u
      | GStr s => OStr s
      | GJson s => OJson s
      | GBytes w => OBytes (hview h w)
      | GSlice base k => OSlice (cells base k)
      | GMap l => OMap (map (fun e => (fst e, observe n h (snd e))) (hmap h l))
      | GPtr i l => OPtr i (observe n h (hget h l))
      | GNilPtr => ONilPtr
      | GUndefV u => OUndef u
      | GCanonUndef => OCanonUndef
      | GObjV cls r => OObj false cls (observe n h r)
      | GObjP cls l => OObj true cls (observe n h (hget h l))
      | GWeakV r => OWeak false (observe n h r)
      | GWeakP l => OWeak true (observe n h (hget h l))
      | GRegexpV p m => ORegexp (hview h p) (hview h m)
      | GFreezeV cls w => OFreeze cls (hview h w)
      | GUser nm d r => OUser nm d (observe n h r)
      | GUserP t w => OUserP t (hview h w)
      | GTSlice a base k => OTSlice a (cells base k)
      | GTMap l => OTMap (map (fun e => (observe n h (fst e), observe n h (snd e))) (htmap h l))
      | GStruct nm fs base => OStruct nm fs (cells base (length fs))
      | GOpaque => OOpaque
      end
  end.

(** no regular expression in what was seen *)
Fixpoint no_regexp (o : obs) : bool :=
  match o with
  | ORegexp _ _ => false
  | OSlice l | OTSlice _ l | OStruct _ _ l => forallb no_regexp l
  | OMap m => forallb (fun e => no_regexp (snd e)) m
  | OTMap m => forallb (fun e => no_regexp (fst e) && no_regexp (snd e)) m
  | OPtr _ o | OObj _ _ o | OWeak _ o | OUser _ _ o => no_regexp o
  | _ => true
  end.

(** Two outcomes of Unmarshal a caller cannot tell apart: the same error or panic, or
    values that look the same to every depth. *)
Definition same_outcome (r1 r2 : res (heap * gval)) : Prop :=
  match r1, r2 with
  | Ok (h1, v1), Ok (h2, v2) => forall n, observe n h1 v1 = observe n h2 v2
  | Err e1, Err e2 => e1 = e2
  | Crash, Crash => True
  | _, _ => False
  end.
