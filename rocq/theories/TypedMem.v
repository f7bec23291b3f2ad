(** Unmarshal into variables of other types than interface{}, with the variable in memory:
    decode.go 690-1237.

    Typed.v gives the same functions for variables without sharing, as trees (TypedMemTree.v
    proves that they agree).  Here a variable is a cell; pointers, maps and slices refer to
    cells, and back references (REFP, ALIAS) are followed.
    Simplifications:
    - types as in Typed.v;
    - pointers of the variable point to whole variables, and slices cover a whole array which is
      not part of another variable;
    - the cells here and those of the interface{} parts (Decode.v) are apart.  A back reference
      from here to a slice, map or pointer decoded there stores a copy; one from there to a
      variable here yields a pointer to an opaque cell;
    - an interface{} part holding a value of a type only known here holds GOpaque;
    - a value with UnmarshalBinary in an interface{} part is replaced, not changed in place. *)
From Verif Require Import Base Varint Tags GoMem GoTypes TagsCache Compress Header Decode Codecs Document Typed.

Definition mloc := nat.

(** Content of a variable: arrays and structs are stored in place. *)
Inductive mval : Type :=
| MInt (z : Z) | MBool (b : bool) | MF32 (u : N) | MF64 (u : N) | MStr (s : bytes)
| MIface (v : gval)
| MSlice (o : option mloc)                      (* None: nil; else the cell of the array *)
| MArr (l : list mval)
| MMap (o : option mloc)                        (* None: nil *)
| MPtr (o : option mloc)                        (* None: nil *)
| MStruct (fs : list (nat * mval)).             (* as in GoTypes.v: fields not listed are zero *)

(** A variable or an array, or the entries of a map. *)
Inductive mcell : Type :=
| MCell (x : mval)
| MEntries (m : list (bytes * mval)).

Definition memory := list mcell.

(** A part of a variable: the cell, and the way to it through structs and arrays. *)
Inductive step := SField (id i : nat) | SElem (i : nat).
Definition mref : Type := mloc * list step.
Definition inside (r : mref) (s : step) : mref := (fst r, snd r ++ [s]).

(** reflect.Zero *)
Fixpoint mzero (ty : gtype) : mval :=
  match ty with
  | TyInt _ => MInt 0 | TyBool => MBool false | TyF32 => MF32 0 | TyF64 => MF64 0
  | TyStr => MStr []
  | TyIface => MIface GNil
  | TySlice _ => MSlice None
  | TyArr n t => MArr (repeat (mzero t) n)
  | TyMap _ => MMap None
  | TyPtr _ => MPtr None
  | TyStruct _ => MStruct []
  end.

Definition mvar (mem : memory) (l : mloc) : mval :=
  match nth_error mem l with Some (MCell x) => x | _ => MStruct [] end.
Definition mentries (mem : memory) (l : mloc) : list (bytes * mval) :=
  match nth_error mem l with Some (MEntries m) => m | _ => [] end.

Definition byte_mval (b : byte) : mval := MInt (Z.of_N (b2n b)).

(** What a back reference remembers: reflect.Value ptr of decode.go 718. *)
Record tref := mkTref { tr_ref : mref; tr_ty : gtype; tr_md : amode }.

(** [m_refs]: the variables behind the opaque cells in [d_tracked] *)
Record mstate := mkM { m_d : dstate; m_mem : memory; m_refs : list (loc * tref) }.

Definition TM (A : Type) : Type := mstate -> res A * mstate.
Definition tret {A} (a : A) : TM A := fun s => (Ok a, s).
Definition tbind {A B} (m : TM A) (k : A -> TM B) : TM B := fun s =>
  match m s with
  | (Ok a, s') => k a s'
  | (Err e, s') => (Err e, s')
  | (Panic e, s') => (Panic e, s')
  | (Crash, s') => (Crash, s')
  | (NoFuel, s') => (NoFuel, s')
  end.
Notation "'do!' x ':=' m 'in' k" := (tbind m (fun x => k))
  (at level 200, x pattern, m at level 100, k at level 200, right associativity).
Definition tfail {A} (e : err) : TM A := fun s => (Err e, s).
Definition tpanic {A} (e : err) : TM A := fun s => (Panic e, s).
(** what concerns the Decoder and the interface{} parts only *)
Definition lift_ {A} (m : M A) : TM A := fun s =>
  let '(r, d) := m (m_d s) in (r, mkM d (m_mem s) (m_refs s)).

Definition new_cell (x : mcell) : TM mloc := fun s =>
  (Ok (length (m_mem s)), mkM (m_d s) (m_mem s ++ [x]) (m_refs s)).
Definition set_cell (l : mloc) (x : mcell) : TM unit := fun s =>
  (Ok tt, mkM (m_d s) (upd (m_mem s) l x) (m_refs s)).
Definition get_mem : TM memory := fun s => (Ok (m_mem s), s).

(** whether two types are identical *)
Definition ikind_eqb (a b : ikind) : bool :=
  match a, b with
  | KInt, KInt | KInt8, KInt8 | KInt16, KInt16 | KInt32, KInt32 | KInt64, KInt64
  | KUint, KUint | KUint8, KUint8 | KUint16, KUint16 | KUint32, KUint32 | KUint64, KUint64 => true
  | _, _ => false
  end.
Fixpoint gtype_eqb (a b : gtype) : bool :=
  match a, b with
  | TyInt k, TyInt k' => ikind_eqb k k'
  | TyBool, TyBool | TyF32, TyF32 | TyF64, TyF64 | TyStr, TyStr | TyIface, TyIface => true
  | TySlice t, TySlice t' | TyMap t, TyMap t' | TyPtr t, TyPtr t' => gtype_eqb t t'
  | TyArr n t, TyArr n' t' => Nat.eqb n n' && gtype_eqb t t'
  | TyStruct i, TyStruct i' => Nat.eqb i i'
  | _, _ => false
  end.

(** the content of a variable of type [ty] holding the value [x] of an interface{}, if that
    value has this type or [ty] is interface{} *)
Fixpoint of_gval (h : heap) (ty : gtype) (x : gval) : option tval :=
  match ty, x with
  | TyIface, _ => Some (VIface x)
  | TyInt k, GInt k' false z => if ikind_eqb k k' then Some (VInt z) else None
  | TyBool, GBool b => Some (VBool b)
  | TyF32, GF32 u => Some (VF32 u)
  | TyF64, GF64 u => Some (VF64 u)
  | TyStr, GStr s => Some (VStr s)
  | TySlice (TyInt KUint8), GBytes w => Some (VSlice (Some (map byte_val (hview h w))))
  | TySlice TyIface, GSlice base n => Some (VSlice (Some (map (fun l => VIface (hget h l)) (seq base n))))
  | TyMap TyIface, GMap l => Some (VMap (Some (map (fun kv => (fst kv, VIface (snd kv))) (hmap h l))))
  | TyPtr TyIface, GPtr true l => Some (VPtr (Some (VIface (hget h l))))
  | TyPtr t, GPtr false l =>
      match t with
      | TyIface => None
      | _ => match of_gval h t (hget h l) with Some y => Some (VPtr (Some y)) | None => None end
      end
  | _, _ => None
  end.

(** new cells for a tree *)
Fixpoint build (x : tval) (mem : memory) {struct x} : mval * memory :=
  match x with
  | VInt z => (MInt z, mem)
  | VBool b => (MBool b, mem)
  | VF32 u => (MF32 u, mem)
  | VF64 u => (MF64 u, mem)
  | VStr s => (MStr s, mem)
  | VIface g => (MIface g, mem)
  | VSlice None => (MSlice None, mem)
  | VSlice (Some l) =>
      let '(ms, mem) := (fix go (l : list tval) (mem : memory) : list mval * memory :=
         match l with
         | [] => ([], mem)
         | y :: l' => let '(m, mem) := build y mem in let '(ms, mem) := go l' mem in (m :: ms, mem)
         end) l mem in
      (MSlice (Some (length mem)), mem ++ [MCell (MArr ms)])
  | VArr l =>
      let '(ms, mem) := (fix go (l : list tval) (mem : memory) : list mval * memory :=
         match l with
         | [] => ([], mem)
         | y :: l' => let '(m, mem) := build y mem in let '(ms, mem) := go l' mem in (m :: ms, mem)
         end) l mem in
      (MArr ms, mem)
  | VMap None => (MMap None, mem)
  | VMap (Some l) =>
      let '(ms, mem) := (fix go (l : list (bytes * tval)) (mem : memory) : list (bytes * mval) * memory :=
         match l with
         | [] => ([], mem)
         | (k, y) :: l' => let '(m, mem) := build y mem in let '(ms, mem) := go l' mem in ((k, m) :: ms, mem)
         end) l mem in
      (MMap (Some (length mem)), mem ++ [MEntries ms])
  | VPtr None => (MPtr None, mem)
  | VPtr (Some y) => let '(m, mem) := build y mem in (MPtr (Some (length mem)), mem ++ [MCell m])
  | VStruct l =>
      let '(ms, mem) := (fix go (l : list (nat * tval)) (mem : memory) : list (nat * mval) * memory :=
         match l with
         | [] => ([], mem)
         | (k, y) :: l' => let '(m, mem) := build y mem in let '(ms, mem) := go l' mem in ((k, m) :: ms, mem)
         end) l mem in
      (MStruct ms, mem)
  end.

Section TDecoder.
Variable c : dconfig.
Variable v : goenv.
Variable by_ : bytes.
Variable ibuf : loc.
Variable ishift : nat.

(** the field of a struct, and setting it *)
Definition msfield (id i : nat) (fs : list (nat * mval)) : mval :=
  match assoc_nat i fs with
  | Some x => x
  | None => match nth_error (st_fields (decls v id)) i with
            | Some (_, t) => mzero t
            | None => MStruct []
            end
  end.
Fixpoint fput (fs : list (nat * mval)) (i : nat) (x : mval) : list (nat * mval) :=
  match fs with
  | [] => [(i, x)]
  | (j, y) :: fs' => if Nat.eqb j i then (j, x) :: fs' else (j, y) :: fput fs' i x
  end.

(** the part of [x] the steps lead to, and replacing it *)
Fixpoint getp (p : list step) (x : mval) : mval :=
  match p, x with
  | [], _ => x
  | SElem i :: p', MArr l => getp p' (nth i l (MStruct []))
  | SField id i :: p', MStruct fs => getp p' (msfield id i fs)
  | _, _ => MStruct []
  end.
Fixpoint putp (p : list step) (x : mval) (y : mval) : mval :=
  match p, x with
  | [], _ => y
  | SElem i :: p', MArr l => MArr (upd l i (putp p' (nth i l (MStruct [])) y))
  | SField id i :: p', MStruct fs => MStruct (fput fs i (putp p' (msfield id i fs) y))
  | _, _ => x
  end.

Definition rd (mem : memory) (r : mref) : mval := getp (snd r) (mvar mem (fst r)).
Definition read (r : mref) : TM mval := do! mem := get_mem in tret (rd mem r).
Definition write (r : mref) (x : mval) : TM unit :=
  do! mem := get_mem in set_cell (fst r) (MCell (putp (snd r) (mvar mem (fst r)) x)).

(** ptr.Set(x), and the panic if ptr cannot be set *)
Definition mcheck (md : amode) : TM unit := match md with Settable => tret tt | _ => tpanic EReflect end.
Definition mset (md : amode) (r : mref) (x : mval) : TM unit := do! _ := mcheck md in write r x.

(** setInt, decode.go 1206-1217 *)
Definition msetInt (ty : gtype) (md : amode) (r : mref) (i : Z) : TM unit :=
  match ty with TyInt k => mset md r (MInt (wrap_kind k i)) | _ => tpanic EReflect end.

(** ptr.SetFloat(x), x a float64 *)
Definition msetFloat (ty : gtype) (md : amode) (r : mref) (x : N) : TM unit :=
  match ty with
  | TyF64 => mset md r (MF64 x)
  | TyF32 => mset md r (MF32 (narrow v x))
  | _ => tpanic EReflect
  end.

Definition msetBool (ty : gtype) (md : amode) (r : mref) (b : bool) : TM unit :=
  match ty with TyBool => mset md r (MBool b) | _ => tpanic EReflect end.

Definition msetString (ty : gtype) (md : amode) (r : mref) (s : bytes) : TM unit :=
  match ty with TyStr => mset md r (MStr s) | _ => tpanic EReflect end.

(** reflect.Copy(dst, val) *)
Definition mcopy_over (dst : list mval) (val : bytes) : list mval :=
  firstn (length dst) (map byte_mval val) ++ skipn (length val) dst.

(** setBinary, decode.go 1219-1237; reflect.Copy panics if the element types differ *)
Definition msetBinary (ty : gtype) (md : amode) (r : mref) (val : bytes) : TM unit :=
  do! cur := read r in
  match ty, cur with
  | TySlice (TyInt KUint8), MSlice None =>
      do! _ := lift_ (log_make (length val) (length val)) in
      do! _ := mcheck md in
      do! l := new_cell (MCell (MArr (map byte_mval val))) in
      write r (MSlice (Some l))
  | TySlice (TyInt KUint8), MSlice (Some l) =>
      do! _ := mcheck (md_elem md) in
      do! mem := get_mem in
      match mvar mem l with
      | MArr dst => set_cell l (MCell (MArr (mcopy_over dst val)))
      | _ => tpanic EReflect
      end
  | TyArr _ (TyInt KUint8), MArr dst => mset md r (MArr (mcopy_over dst val))
  | TyStr, _ => mset md r (MStr val)
  | _, _ => tpanic EReflect
  end.

(** d.tracked[idx] = ptr, decode.go 718 *)
Definition mtrack (idx : nat) (r : mref) (ty : gtype) (md : amode) : TM unit :=
  do! l := lift_ (alloc (CV GOpaque)) in
  do! _ := lift_ (track idx l) in
  fun s => (Ok tt, mkM (m_d s) (m_mem s) ((l, mkTref r ty md) :: m_refs s)).
Definition get_ref (l : loc) : TM (option tref) := fun s => (Ok (assoc_nat l (m_refs s)), s).

(** ptr.Set(x) for a value x of an interface{} *)
Definition set_gval (ty : gtype) (md : amode) (r : mref) (x : gval) : TM unit :=
  do! _ := mcheck md in
  fun s =>
    match of_gval (d_heap (m_d s)) ty x with
    | Some y => let '(m, mem) := build y (m_mem s) in write r m (mkM (m_d s) mem (m_refs s))
    | None => (Panic EReflect, s)
    end.

(** decodeREFP_ALIAS on a variable of type *interface{} (or a *interface{} saved by decode)
    which refers to an interface holding [x], and ptr.Set(val.Elem()): 840-846, 1047-1062 *)
Definition ref_iface (ty : gtype) (md : amode) (r : mref) (x : gval) (isREFP : bool) : TM unit :=
  match x with
  | GNil => tpanic EReflect
  | _ =>
      if isREFP && d_noref c then
        match x with
        | GPtr true l =>
            do! y := lift_ (get_var l) in
            match ty with TyIface => mset md r (MIface y) | _ => tpanic EReflect end
        | GPtr false l => do! y := lift_ (get_var l) in set_gval ty md r y
        | GObjP _ _ | GWeakP _ | GCanonUndef | GUserP _ _ => set_gval ty md r GOpaque
        | _ => tpanic EReflect                       (* Elem of something that is not a pointer *)
        end
      else set_gval ty md r x
  end.

(** decodeREFP_ALIAS and ptr.Set(val.Elem()), decode.go 840-846 and 1020-1071 *)
Definition mdecodeRefp (ty : gtype) (md : amode) (r : mref) (idx : nat) (isREFP : bool) : TM nat :=
  do! (offs, sz) := lift_ (varint_at by_ idx) in
  let idx := idx + sz in
  if ((offs <? 0) || (Z.of_nat idx <=? offs))%Z then tfail EBadOffset else
  do! t := lift_ (get_tracked (Z.to_nat offs)) in
  match t with
  | None => tfail (if isREFP then EUntrackedREFP else EUntrackedAlias)
  | Some l =>
      do! o := get_ref l in
      match o with
      | None =>
          do! x := lift_ (get_var l) in
          do! _ := ref_iface ty md r x isREFP in tret idx
      | Some t =>
          do! x := read (tr_ref t) in
          match tr_md t with
          | RO => tpanic EReflect
          | _ =>
              match tr_ty t, x with
              | TyPtr TyIface, MPtr (Some l') =>
                  do! mem := get_mem in
                  match mvar mem l' with
                  | MIface y => do! _ := ref_iface ty md r y isREFP in tret idx
                  | _ => tpanic EReflect
                  end
              | _, _ =>
                  if gtype_eqb (tr_ty t) ty then do! _ := mset md r x in tret idx
                  else match ty with
                       | TyIface => do! _ := mset md r (MIface GOpaque) in tret idx
                       | _ => tpanic EReflect
                       end
              end
          end
      end
  end.

(** ptr.Set(reflect.ValueOf(x)) for a pointer x to one of the Perl types: only an interface
    variable can hold it *)
Definition mset_iface (ty : gtype) (md : amode) (r : mref) (x : gval) : TM unit :=
  match ty with TyIface => mset md r (MIface x) | _ => tpanic EReflect end.

Section Body.
(** the recursive calls of decodeViaReflection and decode *)
Variable rec : gtype -> mref -> amode -> nat -> TM nat.
Variable urec : nat -> loc -> M nat.

(** ptr.Index(i) of a slice or an array *)
Definition index_ref (r : mref) (i : nat) : TM mref :=
  do! mem := get_mem in
  match rd mem r with
  | MSlice (Some l) =>
      match mvar mem l with
      | MArr ms => if Nat.ltb i (length ms) then tret (l, [SElem i]) else tpanic EReflect
      | _ => tpanic EReflect
      end
  | MArr ms => if Nat.ltb i (length ms) then tret (inside r (SElem i)) else tpanic EReflect
  | _ => tpanic EReflect
  end.

(** the loop of decodeArrayViaReflection, decode.go 914-926; [len]: ptrLen *)
Fixpoint marray_loop (n : nat) (t : gtype) (md : amode) (r : mref) (i len : nat) (idx : nat) : TM nat :=
  match n with
  | O => tret idx
  | S n' =>
      do! idx :=
        (if Nat.ltb i len then do! e := index_ref r i in rec t e md idx
         else lift_ (discard urec idx)) in
      marray_loop n' t md r (S i) len idx
  end.

(** decodeArrayViaReflection, decode.go 889-929 *)
Definition mdecodeArray (idx : nat) (ln : Z) (ty : gtype) (r : mref) (md : amode) : TM nat :=
  if ((ln <? 0) || (maxInt32 <? ln))%Z then tfail EBadSliceSize
  else if (blen by_ <? Z.of_nat idx + ln)%Z then tfail ETruncated
  else
    let n := Z.to_nat ln in
    let make t :=
      do! _ := mcheck md in
      do! _ := lift_ (log_make n (length by_ - idx)) in
      do! l := new_cell (MCell (MArr (repeat (mzero t) n))) in
      do! _ := write r (MSlice (Some l)) in
      marray_loop n t Settable r 0 n idx in
    do! mem := get_mem in
    match ty, rd mem r with
    | TySlice t, MSlice None => make t
    | TySlice t, MSlice (Some l) =>
        match mvar mem l with
        | MArr [] => make t
        | MArr ms => marray_loop n t (md_elem md) r 0 (length ms) idx
        | _ => tfail EReflect
        end
    | TyArr _ t, MArr ms => marray_loop n t md r 0 (length ms) idx
    | _, _ => tfail EReflect
    end.

(** decodeHashViaReflection, case Map: decode.go 946-970 *)
Fixpoint mmap_loop (n : nat) (t : gtype) (md : amode) (r : mref) (idx : nat) : TM nat :=
  match n with
  | O => tret idx
  | S n' =>
      do! (kw, idx) := lift_ (decodeStringish by_ (Z.of_nat idx)) in
      let key := win_bytes by_ kw in
      do! mem := get_mem in
      do! idx :=
        match (match rd mem r with MMap (Some l) => mget (mentries mem l) key | _ => None end) with
        | Some x =>
            do! e := new_cell (MCell x) in            (* MapIndex gives a copy of the element *)
            rec t (e, []) (md_entry md) idx
        | None =>
            do! e := new_cell (MCell (mzero t)) in
            do! idx := rec t (e, []) Settable idx in
            match md with
            | RO => tpanic EReflect
            | _ =>
                do! mem := get_mem in
                match rd mem r with
                | MMap (Some l) =>
                    do! _ := set_cell l (MEntries (mput (mentries mem l) key (mvar mem e))) in tret idx
                | _ => tpanic EReflect                (* assignment to an entry of a nil map *)
                end
            end
        end in
      mmap_loop n' t md r idx
  end.

(** decodeHashViaReflection, case Struct: decode.go 982-1009 *)
Fixpoint mstruct_loop (n : nat) (id : nat) (md : amode) (r : mref) (idx : nat) : TM nat :=
  match n with
  | O => tret idx
  | S n' =>
      do! (kw, idx) := lift_ (decodeStringish by_ (Z.of_nat idx)) in
      do! idx :=
        match find_field v id (win_bytes by_ kw) with
        | Some (i, (f, t)) => rec t (inside r (SField id i)) (md_field md f) idx
        | None => lift_ (discard urec idx)
        end in
      mstruct_loop n' id md r idx
  end.

(** decodeHashViaReflection, decode.go 931-1018 *)
Fixpoint mdecodeHash (ty : gtype) (idx : nat) (ln : Z) (r : mref) (md : amode) : TM nat :=
  if ((ln <? 0) || (maxInt32 <? ln))%Z then tfail EBadHashSize
  else if (blen by_ <? Z.of_nat idx + 2 * ln)%Z then tfail ETruncated
  else
    let n := Z.to_nat ln in
    do! cur := read r in
    match ty, cur with
    | TyMap t, MMap o =>
        do! _ := match o with
                 | None => do! _ := mcheck md in
                           do! l := new_cell (MEntries []) in write r (MMap (Some l))
                 | Some _ => tret tt
                 end in
        mmap_loop n t md r idx
    | TyPtr t, MPtr o =>
        do! l := match o with
                 | None => do! _ := mcheck md in
                           do! l := new_cell (MCell (mzero t)) in
                           do! _ := write r (MPtr (Some l)) in tret l
                 | Some l => tret l
                 end in
        mdecodeHash t idx ln (l, []) (md_elem md)
    | TyStruct id, MStruct _ => mstruct_loop n id md r idx
    | _, _ => tfail EReflect
    end.

(** decodeObjectFreezeViaReflection, decode.go 1106-1204, for types without methods.
    findUnmarshaler (1262-1280) sets a nil pointer, and panics if ptr has no address or is
    read-only.  An interface variable holds a value (690-706); of these only the ones made
    for registered classes have UnmarshalBinary. *)
Definition mdecodeFreeze (ty : gtype) (r : mref) (md : amode) (idx : nat) (isObjectV : bool) : TM nat :=
  do! (cls, idx) := lift_ (class_name by_ idx isObjectV) in
  if Nat.leb (length by_) (idx + 1) then tfail ETruncated else
  match nth_error by_ idx, nth_error by_ (idx + 1) with
  | Some b0, Some b1 =>
      if negb ((b2n b0 =? typeREFN) && (b2n b1 =? typeARRAY))%N then tfail EFreezeNotRefnArray
      else
        do! l := lift_ (alloc (CV GNil)) in
        do! idx := lift_ (urec idx l) in
        do! x := lift_ (get_var l) in
        match x with
        | GSlice base n =>
            if negb (Nat.eqb n 1) then tfail EFreezeMultiple else
            do! e := lift_ (get_var base) in
            match e with
            | GBytes data =>
                if d_perl c then
                  do! l2 := lift_ (alloc (CV (GFreezeV cls data))) in
                  do! _ := mset_iface ty md r (GPtr false l2) in tret idx
                else
                  do! cur := read r in
                  match ty, cur with
                  | TyIface, MIface (GUserP t _) =>
                      match md with
                      | RO => tpanic EReflect
                      | _ => fun s =>
                          if d_unmarshal c t (hview (d_heap (m_d s)) data)
                          then (do! _ := write r (MIface (GUserP t data)) in tret idx) s
                          else (Err EUser, s)
                      end
                  | TySlice (TyInt KUint8), MSlice None =>
                      do! _ := mcheck md in
                      fun s =>
                        (do! l := new_cell (MCell (MArr (map byte_mval (hview (d_heap (m_d s)) data)))) in
                         do! _ := write r (MSlice (Some l)) in tret idx) s
                  | TyPtr t, MPtr None =>
                      do! _ := mcheck md in
                      do! l := new_cell (MCell (mzero t)) in
                      do! _ := write r (MPtr (Some l)) in tfail ECannotUnpack
                  | _, _ => do! _ := mcheck md in tfail ECannotUnpack
                  end
            | _ => tfail EFreezeNotBytes
            end
        | _ => tfail EFreezeNotArray
        end
  | _, _ => lift_ crash
  end.

(** The switch of decodeViaReflection, decode.go 725-884 *)
Definition mdecode_tag (k : tkind) (ty : gtype) (r : mref) (md : amode) (idx : nat) : TM nat :=
  match k with
  | TSmall t => do! _ := msetInt ty md r (decodeInt t) in tret idx
  | TVarint =>
      do! (i, sz) := lift_ (varint_at by_ idx) in
      do! _ := msetInt ty md r i in tret (idx + sz)
  | TZigzag =>
      do! (i, sz) := lift_ (varint_at by_ idx) in
      do! _ := msetInt ty md r (zigzag_value i) in tret (idx + sz)
  | TFloat =>
      do! n := lift_ (fixed_at by_ idx 4) in
      do! _ := msetFloat ty md r (widen v n) in tret (idx + 4)
  | TDouble =>
      do! n := lift_ (fixed_at by_ idx 8) in
      do! _ := msetFloat ty md r n in tret (idx + 8)
  | TTrue => do! _ := msetBool ty md r true in tret idx
  | TFalse => do! _ := msetBool ty md r false in tret idx
  | TBinary =>
      do! (ln, sz) := lift_ (varint_at by_ idx) in
      do! (s, idx) := lift_ (binary_at by_ (idx + sz) ln) in
      do! _ := msetBinary ty md r s in tret idx
  | TShort n =>
      do! (s, idx) := lift_ (binary_at by_ idx (Z.of_nat n)) in
      do! _ := msetBinary ty md r s in tret idx
  | TStrUtf8 =>
      do! (ln, sz) := lift_ (varint_at by_ idx) in
      do! (s, idx) := lift_ (binary_at by_ (idx + sz) ln) in
      do! _ := msetString ty md r s in tret idx
  | THash =>
      do! (ln, sz) := lift_ (varint_at by_ idx) in
      mdecodeHash ty (idx + sz) ln r md
  | THashRef n => mdecodeHash ty idx (Z.of_nat n) r md
  | TArray =>
      do! (ln, sz) := lift_ (varint_at by_ idx) in
      mdecodeArray (idx + sz) ln ty r md
  | TArrayRef n => mdecodeArray idx (Z.of_nat n) ty r md
  | TUndef | TCanonUndef =>
      if d_perl c then
        do! x := lift_ (match k with
                        | TCanonUndef => ret GCanonUndef
                        | _ => let! l := alloc (CV (GUndefV false)) in ret (GPtr false l)
                        end) in
        do! _ := mset_iface ty md r x in tret idx
      else
        match ty with
        | TyPtr _ | TyMap _ | TySlice _ => do! _ := mset md r (mzero ty) in tret idx
        | _ => tret idx
        end
  | TCopy =>
      do! d := lift_ get_copy in
      if Nat.ltb 0 d then tfail ENestedCOPY else
      do! (offs, sz) := lift_ (varint_at by_ idx) in
      if ((offs <? 0) || (Z.of_nat idx <=? offs))%Z then tfail EBadOffset else
      let idx := idx + sz in
      do! _ := lift_ (set_copy (S d)) in
      let back s := mkM (mkDState (d_heap (m_d s)) (d_tracked (m_d s)) (pred (d_copy (m_d s))) (d_made (m_d s)))
                        (m_mem s) (m_refs s) in
      do! _ := (fun s =>
         match rec ty r md (Z.to_nat offs) s with
         | (Ok i, s') => (Ok i, back s')
         | (Err e, s') => (Err e, back s')
         | r => r
         end) in
      tret idx
  | TRefn => rec ty r md idx
  | TRefp => mdecodeRefp ty md r idx true
  | TAlias => mdecodeRefp ty md r idx false
  | TWeaken =>
      if d_perl c then
        do! l := lift_ (alloc (CV GNil)) in
        do! _ := mset_iface ty md r (GWeakP l) in
        lift_ (urec idx l)
      else rec ty r md idx
  | TRegexp =>
      do! l := lift_ (alloc (CV GNil)) in
      do! idx := lift_ (decodeRegexp by_ ibuf ishift idx l) in
      do! x := lift_ (get_var l) in
      do! _ := mset_iface ty md r x in tret idx
  | TObject | TObjectV =>
      do! (cls, idx) := lift_ (class_name by_ idx (match k with TObjectV => true | _ => false end)) in
      if d_perl c then
        do! l := lift_ (alloc (CV GNil)) in
        do! _ := mset_iface ty md r (GObjP cls l) in
        lift_ (urec idx l)
      else rec ty r md idx
  | TFreeze => mdecodeFreeze ty r md idx false
  | TFreezeV => mdecodeFreeze ty r md idx true
  | TUnknown t => tfail (EUnknownTag t)
  end.

(** decodeViaReflection, decode.go 690-887 *)
Definition mdecode_body (ty : gtype) (r : mref) (md : amode) (idx : nat) : TM nat :=
  if Nat.leb (length by_) idx then tfail ETruncated else
  do! cur := read r in
  match ty, cur with
  | TyIface, MIface GNil =>                         (* 697-706 *)
      do! l := lift_ (alloc (CV GNil)) in
      do! idx := lift_ (urec idx l) in
      do! x := lift_ (get_var l) in
      match x with
      | GNil => tret idx
      | _ => do! _ := mset md r (MIface x) in tret idx
      end
  | _, _ =>
      match skip_pads (skipn idx by_) idx with
      | None => tfail ETruncated
      | Some (tagb, idx) =>
          do! _ := (if tracked_bit tagb then mtrack idx r ty md else tret tt) in
          mdecode_tag (tag_kind (untrack tagb)) ty r md (S idx)
      end
  end.
End Body.

(** decodeViaReflection with at most [fuel] nested calls *)
Fixpoint mdecode (fuel : nat) (ty : gtype) (r : mref) (md : amode) (idx : nat) : TM nat :=
  match fuel with
  | O => fun s => (NoFuel, s)
  | S f => mdecode_body (mdecode f) (decode c by_ ibuf ishift f) ty r md idx
  end.
End TDecoder.

Section TUnmarshal.
Variable k : codecs.
Variable c : dconfig.
Variable v : goenv.

(** The body part of UnmarshalHeaderBody for a pointer to the variable [r] of type [ty],
    decode.go 223-260 (see [unmarshal_tbody] in Typed.v) *)
Definition unmarshal_mbody (b : bytes) (ib : loc) (h : serealHeader) (dec : option decompressor)
  (bs : nat) (ty : gtype) (r : mref) : TM unit :=
  do! (b, ib) :=
    match dec with
    | None => tret (b, ib)
    | Some dk =>
        match slice_from b bs with
        | None => lift_ crash
        | Some z =>
            do! d := lift_ (lift (decompress k dk z)) in
            let nb := firstn bs b ++ d in
            do! l := lift_ (alloc (CBuf nb)) in
            tret (nb, l)
        end
    end in
  do! _ := lift_ fresh_tracked in
  if (h_version h =? 1)%N then
    do! _ := mdecode c v b ib 0 (decode_fuel b) ty r Settable bs in tret tt
  else if Nat.eqb bs 0 then lift_ crash
  else match slice_from b (bs - 1) with
       | None => lift_ crash
       | Some by_ => do! _ := mdecode c v by_ ib (bs - 1) (decode_fuel by_) ty r Settable 1 in tret tt
       end.

(** UnmarshalHeaderBody, decode.go 172-263, without a header variable *)
Definition unmarshal_mem_raw (b : bytes) (ib : loc) (ty : gtype) (r : mref) : TM unit :=
  do! h := lift_ (lift (checkHeader b)) in
  do! dec := lift_ (lift (documentDecompressor (h_version h) (h_doctype h))) in
  let bodyStart := wrap64 (Z.of_nat headerSize + h_suffixSize h) in
  if ((Z.of_nat (length b) <? bodyStart) || (bodyStart <? 0))%Z then tfail EBadOffset else
  unmarshal_mbody b ib h dec (Z.to_nat bodyStart) ty r.

(** Unmarshal(b, &x) with a new Decoder: x is the variable [r] of type [ty] in the memory
    [mem].  [h] holds the document in cell [ib] and whatever interface{} parts refer to.
    Here the memory after an error is described as well. *)
Definition unmarshal_mem (h : heap) (mem : memory) (b : bytes) (ib : loc) (ty : gtype) (r : mref)
  : res (heap * memory) * memory :=
  let '(o, s) := unmarshal_mem_raw b ib ty r (mkM (mkDState h [] 0 []) mem []) in
  (bind (recovered o) (fun _ => Ok (d_heap (m_d s), m_mem s)), m_mem s).
End TUnmarshal.
