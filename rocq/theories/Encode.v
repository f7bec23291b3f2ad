(** The encoder: encode.go 197-714. *)
From Verif Require Import Base Varint Tags GoMem TagsCache.

(** Compressors (snappy.go 10-12, zlib.go 9-11, zstd.go 8-10). *)
Inductive compressor := CSnappy (incremental : bool) | CZlib (level : Z) | CZstd (level : Z).

(** Encoder options (encode.go 17-27), plus the outside world:
    [e_shuffle t l]: the order in which the t-th map visited is iterated;
    [e_layout]: the addresses of everything, as they are during the call;
    [e_parsefloat s]: bits of strconv.ParseFloat(s, 64), None if it fails. *)
Record econfig := mkEConfig {
  e_perl : bool;               (* PerlCompat *)
  e_comp : option compressor;  (* Compression *)
  e_threshold : Z;             (* CompressionThreshold *)
  e_nodedup : bool;            (* DisableDedup *)
  e_nofreeze : bool;           (* DisableFREEZE *)
  e_maxdepth : Z;              (* MaxRecursionDepth *)
  e_version : N;               (* version *)
  e_shuffle : nat -> forall A : Type, list A -> list A;
  e_layout : layout;
  e_parsefloat : bytes -> option N
}.

(** The buffer under construction, marshalState (encode.go 29-32), and the number of
    map iterations started so far. *)
Record estate := mkEState {
  s_by : bytes;
  s_str : list (bytes * nat);
  s_ptr : list (addr * nat);
  s_tick : nat
}.

Definition with_by (s : estate) (b : bytes) : estate :=
  mkEState b (s_str s) (s_ptr s) (s_tick s).

(** by = append(by, ...) *)
Definition emit (b : bytes) (s : estate) : estate := with_by s (s_by s ++ b).

Definition tagb (t : N) : byte := n2b t.
Definition ulen {A} (l : list A) : N := N.of_nat (length l).

(** encodeInt, encode.go 306-328; [isInt]: k == reflect.Int; [i] an int64 *)
Definition encodeInt (isInt : bool) (i : Z) : bytes :=
  if ((0 <=? i) && (i <=? 15))%Z then [n2b (N.land (b2n (z2b i)) 15)]
  else if ((-16 <=? i) && (i <? 0) && isInt)%Z then [n2b (N.lor 16 (N.land (b2n (z2b i)) 15))]
  else if (15 <? i)%Z then tagb typeVARINT :: varint (to_uint i)
  else if isInt then
    tagb typeZIGZAG :: varint (to_uint (Z.lxor (wrap64 (Z.shiftl i 1)) (Z.shiftr i 63)))
  else tagb typeVARINT :: varint (to_uint i).

(** k little-endian bytes of u, encode.go 332 and 337 *)
Fixpoint le_bytes (k : nat) (u : N) : bytes :=
  match k with O => [] | S k' => n2b u :: le_bytes k' (N.shiftr u 8) end.

(** encodeFloat, encodeDouble: encode.go 330-338 *)
Definition encodeFloat (u : N) : bytes := tagb typeFLOAT :: le_bytes 4 u.
Definition encodeDouble (u : N) : bytes := tagb typeDOUBLE :: le_bytes 8 u.

(** strconv.ParseInt(s, 10, 64) as used by json.Number.Int64 (Go standard library:
    ParseInt and ParseUint in strconv/atoi.go).  ParseUint reports an overflow as soon
    as it is met, before looking at later characters. *)
Inductive pint := PInt (z : Z) | PSyntax | PRange.

Definition digit_of (b : byte) : option N :=
  if ((48 <=? b2n b) && (b2n b <=? 57))%N then Some (b2n b - 48)%N else None.

(** the digit loop of ParseUint for base 10; cutoff = MaxUint64/10 + 1.  A character
    that is a lower- or upper-case letter is a digit >= base: also a syntax error. *)
Fixpoint parse_digits (s : bytes) (n : N) : pint :=
  match s with
  | [] => PInt (Z.of_N n)
  | b :: s' =>
      match digit_of b with
      | None => PSyntax
      | Some d =>
          if (1844674407370955162 <=? n)%N then PRange
          else if (18446744073709551616 <=? n * 10 + d)%N then PRange
          else parse_digits s' (n * 10 + d)
      end
  end.

Definition parse_uint (s : bytes) : pint :=
  match s with [] => PSyntax | _ => parse_digits s 0 end.

Definition parse_int (s : bytes) : pint :=
  let '(neg, s') :=
    match s with
    | b :: t => if (b2n b =? 43)%N then (false, t)
                else if (b2n b =? 45)%N then (true, t) else (false, s)
    | [] => (false, [])
    end in
  match parse_uint s' with
  | PInt un =>
      if negb neg && (two63 <=? un)%Z then PRange
      else if neg && (two63 <? un)%Z then PRange
      else PInt (if neg then - un else un)
  | r => r
  end.

Section Encoder.
Variable e : econfig.
Variable h : heap.

(** encodeString, encode.go 363-376 *)
Definition encodeString (str : bytes) (isKey : bool) (s : estate) : estate :=
  let plain s := emit (tagb typeSTR_UTF8 :: varint (ulen str) ++ str) s in
  if negb (e_nodedup e) && isKey then
    match mget (s_str s) str with
    | Some offs => emit (tagb typeCOPY :: varint (N.of_nat offs)) s
    | None => plain (mkEState (s_by s) (mput (s_str s) str (length (s_by s))) (s_ptr s) (s_tick s))
    end
  else plain s.

(** encodeBytes, encode.go 378-397 *)
Definition encodeBytes (byt : bytes) (isKey : bool) (s : estate) : estate :=
  let plain s :=
    emit (if (ulen byt <? 32)%N then n2b (typeSHORT_BINARY_0 + ulen byt) :: byt
          else tagb typeBINARY :: varint (ulen byt) ++ byt) s in
  if negb (e_nodedup e) && isKey then
    match mget (s_str s) byt with
    | Some offs => emit (tagb typeCOPY :: varint (N.of_nat offs)) s
    | None => plain (mkEState (s_by s) (mput (s_str s) byt (length (s_by s))) (s_ptr s) (s_tick s))
    end
  else plain s.

(** encodeJsonNumber, encode.go 340-361 *)
Definition encodeJsonNumber (n : bytes) (isKey : bool) (s : estate) : estate :=
  match parse_int n with
  | PInt z => emit (encodeInt true z) s
  | PRange => encodeString n isKey s
  | PSyntax =>
      match e_parsefloat e n with
      | Some bits => emit (encodeDouble bits) s
      | None => encodeString n isKey s
      end
  end.

(** getPointer of the value [v], encode.go 685-702.  [addressable]: v is the variable
    in cell [l] itself (pointer to concrete type) rather than boxed in an interface. *)
Definition getPointer (addressable : bool) (l : loc) (v : gval) : res (option addr) :=
  match v with
  | GMap m | GTMap m => Ok (at_place (e_layout e) (PMap m))
  | GSlice b _ => Ok (at_place (e_layout e) (PSlice b))
  | GTSlice isArr b _ => Ok (if isArr then None else at_place (e_layout e) (PSlice b))
  | GBytes w => Ok (at_place (e_layout e) (PBuf (vloc w) (voff w)))
  | GPtr _ l' => Ok (Some (at_cell (e_layout e) l'))
  | GObjP _ r | GWeakP r => Ok (at_place (e_layout e) (PBox r))
  | GCanonUndef => Ok (at_place (e_layout e) PCanon)
  | GStr _ | GJson _ =>
      if addressable then Ok (at_place (e_layout e) (PStr l))
      else Panic EReflect                    (* UnsafeAddr of unaddressable value *)
  | _ => Ok None
  end.

Fixpoint pget (m : list (addr * nat)) (a : addr) : option nat :=
  match m with
  | [] => None
  | (a', o) :: m' => if addr_eqb a' a then Some o else pget m' a
  end.

(** Names printed by reflect for non-string map keys: k.String() is "<T Value>" *)
Definition key_string (k : gval) : bytes :=
  match k with
  | GStr s | GJson s => s
  | GInt KInt _ _ => [x3c;x69;x6e;x74;x20;x56;x61;x6c;x75;x65;x3e]   (* "<int Value>" *)
  | GBool _ => [x3c;x62;x6f;x6f;x6c;x20;x56;x61;x6c;x75;x65;x3e]     (* "<bool Value>" *)
  | _ => [x3c;x54;x20;x56;x61;x6c;x75;x65;x3e]   (* "<T Value>": type names not modelled *)
  end.

Definition s_Class : bytes := [x43;x6c;x61;x73;x73].
Definition s_Data : bytes := [x44;x61;x74;x61].
Definition s_PerlFreeze : bytes := [x50;x65;x72;x6c;x46;x72;x65;x65;x7a;x65].

(** next map iteration: its order, and the counter *)
Definition next_tick (s : estate) : estate :=
  mkEState (s_by s) (s_str s) (s_ptr s) (S (s_tick s)).

(** by[offs] |= trackFlag, encode.go 650, for an offset inside the buffer *)
Definition set_track (b : bytes) (offs : nat) : bytes :=
  match nth_error b offs with
  | Some x => upd b offs (n2b (N.lor (b2n x) trackFlag))
  | None => b
  end.

Section Body.
(** the recursive call encode(b, v, isKeyOrClass=false, isRefNext, state, remainingDepth) *)
Variable rec : gval -> bool -> Z -> estate -> res estate.

(** the element loops, encode.go 416-420 and 536-540 *)
Fixpoint enc_elems (n : nat) (base : loc) (d : Z) (s : estate) : res estate :=
  match n with
  | O => Ok s
  | S n' => bind (rec (hget h base) false d s) (enc_elems n' (S base) d)
  end.

(** the key/value loop of encodeStrMap, encode.go 441-446 *)
Fixpoint enc_pairs (m : list (bytes * gval)) (d : Z) (s : estate) : res estate :=
  match m with
  | [] => Ok s
  | (k, v) :: m' => bind (rec v false d (encodeString k true s)) (enc_pairs m' d)
  end.

(** the loops of encodeMap, encode.go 559-578 *)
Fixpoint enc_tpairs (m : list (gval * gval)) (d : Z) (s : estate) : res estate :=
  match m with
  | [] => Ok s
  | (k, v) :: m' =>
      bind (if e_perl e then Ok (encodeString (key_string k) true s)
            else rec k false d s)
           (fun s => bind (rec v false d s) (enc_tpairs m' d))
  end.

(** the field loop of encodeStruct, encode.go 603-608.  Interface() of an unexported
    field panics. *)
Fixpoint enc_fields (fs : list fdecl) (base : loc) (tags : list (bytes * nat))
         (d : Z) (s : estate) : res estate :=
  match tags with
  | [] => Ok s
  | (f, i) :: tags' =>
      let s := encodeString f true s in
      match nth_error fs i with
      | Some fd =>
          if f_exported fd
          then bind (rec (hget h (base + i)) false d s) (enc_fields fs base tags' d)
          else Panic EReflect
      | None => Crash
      end
  end.

Definition open_ref (isRef : bool) (s : estate) : estate :=
  if e_perl e && negb isRef then emit [tagb typeREFN] s else s.

(** encodeIntfArray, encodeArray: encode.go 399-423, 521-543 *)
Definition encodeArray (base : loc) (n : nat) (isRef : bool) (d : Z) (s : estate) : res estate :=
  let d := (d - 1)%Z in
  if (d <=? 0)%Z then Err EMaxRecursion else
  let s := emit (tagb typeARRAY :: varint (N.of_nat n)) (open_ref isRef s) in
  enc_elems n base d s.

(** encodeStrMap, encode.go 425-449 *)
Definition encodeStrMap (l : loc) (isRef : bool) (d : Z) (s : estate) : res estate :=
  let d := (d - 1)%Z in
  if (d <=? 0)%Z then Err EMaxRecursion else
  let m := hmap h l in
  let s := emit (tagb typeHASH :: varint (ulen m)) (open_ref isRef s) in
  enc_pairs (e_shuffle e (s_tick s) _ m) d (next_tick s).

(** encodeMap, encode.go 545-581 *)
Definition encodeMap (l : loc) (isRef : bool) (d : Z) (s : estate) : res estate :=
  let d := (d - 1)%Z in
  if (d <=? 0)%Z then Err EMaxRecursion else
  let m := htmap h l in
  let s := emit (tagb typeHASH :: varint (ulen m)) (open_ref isRef s) in
  enc_tpairs (e_shuffle e (s_tick s) _ m) d (next_tick s).

(** encodeStruct, encode.go 583-611 *)
Definition encodeStruct (name : bytes) (fs : list fdecl) (base : loc) (d : Z) (s : estate)
  : res estate :=
  let d := (d - 1)%Z in
  if (d <=? 0)%Z then Err EMaxRecursion else
  let tags := tags_of fs in
  let s := encodeBytes name true (emit [tagb typeOBJECT] s) in
  let s := if e_perl e then emit [tagb typeREFN] s else s in
  let s := emit (tagb typeHASH :: varint (ulen tags)) s in
  enc_fields fs base (e_shuffle e (s_tick s) _ tags) d (next_tick s).

(** encodeStruct for the struct type PerlFreeze{Class string; Data []byte} (perl.go 45-48) *)
Definition encodeFreezeStruct (cls : bytes) (data : view) (d : Z) (s : estate) : res estate :=
  let d := (d - 1)%Z in
  if (d <=? 0)%Z then Err EMaxRecursion else
  let s := encodeBytes s_PerlFreeze true (emit [tagb typeOBJECT] s) in
  let s := if e_perl e then emit [tagb typeREFN] s else s in
  let m := [(s_Class, GStr cls); (s_Data, GBytes data)] in
  let s := emit (tagb typeHASH :: varint (ulen m)) s in
  enc_pairs (e_shuffle e (s_tick s) _ m) d (next_tick s).

(** encodePointer, encode.go 613-673, for a non-nil pointer to cell [l]
    holding [v]; [toIface]: the pointer is a *interface{} *)
Definition encodePointer (toIface : bool) (l : loc) (v : gval) (d : Z) (s : estate) : res estate :=
  let d := (d - 1)%Z in
  if (d <=? 0)%Z then Err EMaxRecursion else
  let special := match v with
                 | GRegexpV _ _ | GUndefV _ | GObjV _ _ | GWeakV _ => negb toIface
                 | _ => false
                 end in
  if special then rec v false d s else
  bind (getPointer (negb toIface) l v) (fun rvptr2 =>
    let offs :=
      match pget (s_ptr s) (at_cell (e_layout e) l) with
      | Some o => Some o
      | None => match rvptr2 with Some a => pget (s_ptr s) a | None => None end
      end in
    match offs with
    | Some o =>
        let by' := s_by s ++ tagb typeREFP :: varint (N.of_nat o) in
        if Nat.ltb o (length by') then Ok (with_by s (set_track by' o)) else Crash
    | None =>
        let orig := length (s_by s) in
        let s1 := emit [tagb typeREFN] s in
        let s1 := mkEState (s_by s1) (s_str s1) ((at_cell (e_layout e) l, orig) :: s_ptr s1) (s_tick s1) in
        bind (rec v true d s1) (fun s2 =>
          match rvptr2 with
          | Some a => Ok (mkEState (s_by s2) (s_str s2) ((a, S orig) :: s_ptr s2) (s_tick s2))
          | None => Ok s2
          end)
    end).

(** encodePointer for a pointer to one of the Perl structs (encode.go 622-633) whose
    Reference field lives in a cell of its own, and for the canonical undef *)
Definition encodePerlPointer (v : gval) (d : Z) (s : estate) : res estate :=
  let d := (d - 1)%Z in
  if (d <=? 0)%Z then Err EMaxRecursion else rec v false d s.

(** encodePointer for a nil pointer: rv.Elem() is the zero Value *)
Definition encodeNilPointer (d : Z) (s : estate) : res estate :=
  let d := (d - 1)%Z in
  if (d <=? 0)%Z then Err EMaxRecursion
  else Ok (emit [tagb typeREFN; tagb typeUNDEF] s).

(** encode and encodeViaReflection, encode.go 200-304 and 454-519.  The hop through
    reflect.Value (encode.go 256-262) only unwraps the value; it also resets
    isKeyOrClass, so that flag is never set for values encoded here. *)
Definition encode_body (v : gval) (isRef : bool) (d : Z) (s : estate) : res estate :=
  match v with
  | GNil => Ok (emit [tagb typeUNDEF] s)
  | GBool b => Ok (emit [tagb (if b then typeTRUE else typeFALSE)] s)
  | GInt k false z => Ok (emit (encodeInt (ikind_signed k) (to_int (to_uint z))) s)
  | GInt k true z =>                        (* rv.Int() panics on unsigned kinds *)
      if ikind_signed k
      then Ok (emit (encodeInt (match k with KInt => true | _ => false end) z) s)
      else Panic EReflect
  | GF32 u => Ok (emit (encodeFloat u) s)
  | GF64 u => Ok (emit (encodeDouble u) s)
  | GStr str => Ok (encodeString str false s)
  | GJson n => Ok (encodeJsonNumber n false s)
  | GBytes w => Ok (encodeBytes (hview h w) false s)
  | GSlice base n => encodeArray base n isRef d s
  | GTSlice _ base n => encodeArray base n isRef d s
  | GMap l => encodeStrMap l isRef d s
  | GTMap l => encodeMap l isRef d s
  | GPtr ifc l => encodePointer ifc l (hget h l) d s
  | GNilPtr => encodeNilPointer d s
  | GUndefV cu => Ok (emit [tagb (if cu then typeCANONICAL_UNDEF else typeUNDEF)] s)
  | GCanonUndef => encodePerlPointer (GUndefV true) d s
  | GObjV cls r => rec r false d (encodeBytes cls true (emit [tagb typeOBJECT] s))
  | GObjP cls r => encodePerlPointer (GObjV cls (hget h r)) d s
  | GWeakV r => rec r false d (emit [tagb typeWEAKEN] s)
  | GWeakP r => encodePerlPointer (GWeakV (hget h r)) d s
  | GRegexpV p m =>
      Ok (encodeBytes (hview h m) false
           (encodeBytes (hview h p) false (emit [tagb typeREGEXP] s)))
  | GFreezeV cls data => encodeFreezeStruct cls data d s
  | GUser name data plain =>
      if e_nofreeze e then rec plain isRef d s
      else match data with
           | None => Err EUser
           | Some by_ =>
               let s := encodeString name true (emit [tagb typeOBJECT_FREEZE] s) in
               let s := emit (tagb typeREFN :: tagb typeARRAY :: varint 1) s in
               Ok (encodeBytes by_ false s)
           end
  | GStruct name fs base => encodeStruct name fs base d s
  | GUserP _ _ => Panic ENoSupport          (* not modelled: user-defined type *)
  | GOpaque => Panic ENoSupport
  end.
End Body.

Fixpoint encode (fuel : nat) (v : gval) (isRef : bool) (d : Z) (s : estate) : res estate :=
  match fuel with
  | O => NoFuel
  | S f => encode_body (encode f) v isRef d s
  end.
End Encoder.

(** remainingRecursion, encode.go 708-714 *)
Definition remainingRecursion (maxDepth : Z) : Z :=
  if (maxDepth <=? 0)%Z then 2147483647 else maxDepth.
