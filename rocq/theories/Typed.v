(** Unmarshal into variables of other types than interface{}: decode.go 690-1018 and
    1206-1237 (decodeViaReflection and its helpers).

    Values of such variables are trees here, not cells of the memory: the functions below
    take the content of the variable and return its new content.  Parts of type interface{}
    are decoded by [decode] (Decode.v) and live in the memory.
    Simplifications:
    - types are built from the ones in [gtype]; named non-struct types, types with methods,
      maps with keys other than string, uintptr, complex, chan and func are left out;
    - two pointers, maps or slices of the variable never share what they refer to;
    - what a variable holds after an error is not modelled;
    - back references (REFP, ALIAS) into the variable are not followed: see [poison] and
      [decodeRefpTyped]. *)
From Verif Require Import Base Varint Tags GoMem GoTypes TagsCache Compress Header Decode Codecs Document.

(** Whether a reflect.Value can be set: yes; no, it has no address (a map element); no, it
    was reached through an unexported field. *)
Inductive amode := Settable | Unaddr | RO.

(** the mode of a field, of what a pointer or a slice refers to, of an element of a map *)
Definition md_field (md : amode) (f : fdecl) : amode := if f_exported f then md else RO.
Definition md_elem (md : amode) : amode := match md with RO => RO | _ => Settable end.
Definition md_entry (md : amode) : amode := match md with RO => RO | _ => Unaddr end.

Section TDecoder.
Variable c : dconfig.
Variable v : goenv.
Variable by_ : bytes.
Variable ibuf : loc.
Variable ishift : nat.

Definition set (md : amode) (x : tval) : M tval :=
  match md with Settable => ret x | _ => panic EReflect end.

(** what SetInt / SetUint store: the low bits *)
Definition wrap_kind (k : ikind) (i : Z) : Z :=
  let m := (2 ^ ikind_bits k)%Z in
  let z := (i mod m)%Z in
  if ikind_signed k && (m / 2 <=? z)%Z then (z - m)%Z else z.

(** setInt, decode.go 1206-1217 *)
Definition setInt (ty : gtype) (md : amode) (i : Z) : M tval :=
  match ty with TyInt k => set md (VInt (wrap_kind k i)) | _ => panic EReflect end.

(** ptr.SetFloat(x), x a float64 *)
Definition setFloat (ty : gtype) (md : amode) (x : N) : M tval :=
  match ty with
  | TyF64 => set md (VF64 x)
  | TyF32 => set md (VF32 (narrow v x))
  | _ => panic EReflect
  end.

Definition setBool (ty : gtype) (md : amode) (b : bool) : M tval :=
  match ty with TyBool => set md (VBool b) | _ => panic EReflect end.

Definition setString (ty : gtype) (md : amode) (s : bytes) : M tval :=
  match ty with TyStr => set md (VStr s) | _ => panic EReflect end.

(** reflect.Copy(dst, val) *)
Definition copy_over (dst : list tval) (val : bytes) : list tval :=
  firstn (length dst) (map byte_val val) ++ skipn (length val) dst.

(** setBinary, decode.go 1219-1237; reflect.Copy panics if the element types differ *)
Definition setBinary (ty : gtype) (md : amode) (cur : tval) (val : bytes) : M tval :=
  match ty, cur with
  | TySlice (TyInt KUint8), VSlice None =>
      log_make (length val) (length val) ;; set md (VSlice (Some (map byte_val val)))
  | TySlice (TyInt KUint8), VSlice (Some l) =>
      set (md_elem md) (VSlice (Some (copy_over l val)))
  | TyArr _ (TyInt KUint8), VArr l => set md (VArr (copy_over l val))
  | TyStr, _ => set md (VStr val)
  | _, _ => panic EReflect
  end.

(** d.tracked[idx] = ptr (718).  The variable is not in the memory: an opaque cell stands for it.
    A back reference from an interface{} part yields a pointer to, or a copy of, this cell. *)
Definition poison (idx : nat) : M unit :=
  let! l := alloc (CV GOpaque) in track idx l.

(** decodeREFP_ALIAS and ptr.Set(val.Elem()), decode.go 840-846 and 1020-1071.  The errors of
    1021-1049; following the reference is outside the model ([NoFuel]). *)
Definition decodeRefpTyped (idx : nat) (isREFP : bool) : M (tval * nat) :=
  let! (offs, sz) := varint_at by_ idx in
  let idx := idx + sz in
  if ((offs <? 0) || (Z.of_nat idx <=? offs))%Z then fail EBadOffset else
  let! t := get_tracked (Z.to_nat offs) in
  match t with
  | None => fail (if isREFP then EUntrackedREFP else EUntrackedAlias)
  | Some _ => fun s => (NoFuel, s)
  end.

(** ptr.Set(reflect.ValueOf(x)) for a pointer x to one of the Perl types: only an interface
    variable can hold it *)
Definition set_iface (ty : gtype) (md : amode) (x : gval) : M tval :=
  match ty with TyIface => set md (VIface x) | _ => panic EReflect end.

Section Body.
(** the recursive calls of decodeViaReflection and decode *)
Variable rec : gtype -> tval -> amode -> nat -> M (tval * nat).
Variable urec : nat -> loc -> M nat.

(** decoding into a variable that is thrown away, decode.go 919-920 and 1001-1002 *)
Definition discard (idx : nat) : M nat :=
  let! l := alloc (CV GNil) in urec idx l.

(** the loop of decodeArrayViaReflection, decode.go 914-926; [curs]: elements from i on *)
Fixpoint tarray_loop (n : nat) (t : gtype) (md : amode) (curs : list tval) (idx : nat)
  : M (list tval * nat) :=
  match n with
  | O => ret (curs, idx)
  | S n' =>
      match curs with
      | [] => let! idx := discard idx in tarray_loop n' t md [] idx
      | cur :: rest =>
          let! (x, idx) := rec t cur md idx in
          let! (xs, idx) := tarray_loop n' t md rest idx in
          ret (x :: xs, idx)
      end
  end.

(** decodeArrayViaReflection, decode.go 889-929 *)
Definition tdecodeArray (idx : nat) (ln : Z) (ty : gtype) (cur : tval) (md : amode)
  : M (tval * nat) :=
  if ((ln <? 0) || (maxInt32 <? ln))%Z then fail EBadSliceSize
  else if (blen by_ <? Z.of_nat idx + ln)%Z then fail ETruncated
  else
    let n := Z.to_nat ln in
    match ty, cur with
    | TySlice t, VSlice None | TySlice t, VSlice (Some []) =>
        set md cur ;;
        log_make n (length by_ - idx) ;;
        let! (xs, idx) := tarray_loop n t Settable (repeat (zero t) n) idx in
        ret (VSlice (Some xs), idx)
    | TySlice t, VSlice (Some l) =>
        let! (xs, idx) := tarray_loop n t (md_elem md) l idx in
        ret (VSlice (Some xs), idx)
    | TyArr _ t, VArr l =>
        let! (xs, idx) := tarray_loop n t md l idx in
        ret (VArr xs, idx)
    | _, _ => fail EReflect
    end.

(** decodeHashViaReflection, case Map: decode.go 946-970 *)
Fixpoint tmap_loop (n : nat) (t : gtype) (md : amode) (m : list (bytes * tval)) (idx : nat)
  : M (list (bytes * tval) * nat) :=
  match n with
  | O => ret (m, idx)
  | S n' =>
      let! (kw, idx) := decodeStringish by_ (Z.of_nat idx) in
      let key := win_bytes by_ kw in
      match mget m key with
      | Some x =>
          let! (x', idx) := rec t x (md_entry md) idx in
          tmap_loop n' t md (mput m key x') idx
      | None =>
          let! (x', idx) := rec t (zero t) Settable idx in
          match md with
          | RO => panic EReflect
          | _ => tmap_loop n' t md (mput m key x') idx
          end
      end
  end.

(** decodeHashViaReflection, case Struct: decode.go 982-1009.  The table comes from the cache,
    which gives the declaration's table (C34). *)
Definition find_field (id : nat) (key : bytes) : option (nat * (fdecl * gtype)) :=
  let tags := tags_of (map fst (st_fields (decls v id))) in
  let fld i := match nth_error (st_fields (decls v id)) i with
               | Some f => Some (i, f) | None => None end in
  match mget tags key with
  | Some i => fld i
  | None => match mget tags (title v key) with Some i => fld i | None => None end
  end.

Fixpoint tstruct_loop (n : nat) (id : nat) (md : amode) (fs : list (nat * tval)) (idx : nat)
  : M (list (nat * tval) * nat) :=
  match n with
  | O => ret (fs, idx)
  | S n' =>
      let! (kw, idx) := decodeStringish by_ (Z.of_nat idx) in
      match find_field id (win_bytes by_ kw) with
      | Some (i, (f, t)) =>
          let! (x, idx) := rec t (sfield v id i fs) (md_field md f) idx in
          tstruct_loop n' id md ((i, x) :: fs) idx
      | None =>
          let! idx := discard idx in
          tstruct_loop n' id md fs idx
      end
  end.

(** decodeHashViaReflection, decode.go 931-1018 *)
Fixpoint tdecodeHash (ty : gtype) (idx : nat) (ln : Z) (cur : tval) (md : amode) : M (tval * nat) :=
  if ((ln <? 0) || (maxInt32 <? ln))%Z then fail EBadHashSize
  else if (blen by_ <? Z.of_nat idx + 2 * ln)%Z then fail ETruncated
  else
    let n := Z.to_nat ln in
    match ty, cur with
    | TyMap t, VMap o =>
        match o with None => set md cur | Some _ => ret cur end ;;
        let! (m, idx) := tmap_loop n t md (match o with None => [] | Some m => m end) idx in
        ret (VMap (Some m), idx)
    | TyPtr t, VPtr o =>
        match o with None => set md cur | Some _ => ret cur end ;;
        let! (x, idx) := tdecodeHash t idx ln (match o with None => zero t | Some x => x end) (md_elem md) in
        ret (VPtr (Some x), idx)
    | TyStruct id, VStruct fs =>
        let! (fs, idx) := tstruct_loop n id md fs idx in
        ret (VStruct fs, idx)
    | _, _ => fail EReflect
    end.

(** decodeObjectFreezeViaReflection, decode.go 1106-1204, for types without methods.
    findUnmarshaler (1262-1280) sets a nil pointer, and panics if ptr has no address or is
    read-only.  An interface holding a value is outside the model. *)
Definition tdecodeFreeze (ty : gtype) (cur : tval) (md : amode) (idx : nat) (isObjectV : bool)
  : M (tval * nat) :=
  let! (cls, idx) := class_name by_ idx isObjectV in
  if Nat.leb (length by_) (idx + 1) then fail ETruncated else
  match nth_error by_ idx, nth_error by_ (idx + 1) with
  | Some b0, Some b1 =>
      if negb ((b2n b0 =? typeREFN) && (b2n b1 =? typeARRAY))%N then fail EFreezeNotRefnArray
      else
        let! l := alloc (CV GNil) in
        let! idx := urec idx l in
        let! x := get_var l in
        match x with
        | GSlice base n =>
            if negb (Nat.eqb n 1) then fail EFreezeMultiple else
            let! e := get_var base in
            match e with
            | GBytes data =>
                if d_perl c then
                  let! l2 := alloc (CV (GFreezeV cls data)) in
                  let! x := set_iface ty md (GPtr false l2) in ret (x, idx)
                else
                  match ty, cur with
                  | TyIface, _ => fun s => (NoFuel, s)
                  | TySlice (TyInt KUint8), VSlice None =>
                      set md cur ;;
                      fun s => (Ok (VSlice (Some (map byte_val (hview (d_heap s) data))), idx), s)
                  | _, _ => set md cur ;; fail ECannotUnpack
                  end
            | _ => fail EFreezeNotBytes
            end
        | _ => fail EFreezeNotArray
        end
  | _, _ => crash
  end.

(** The switch of decodeViaReflection, decode.go 725-884 *)
Definition tdecode_tag (k : tkind) (ty : gtype) (cur : tval) (md : amode) (idx : nat)
  : M (tval * nat) :=
  match k with
  | TSmall t => let! x := setInt ty md (decodeInt t) in ret (x, idx)
  | TVarint =>
      let! (i, sz) := varint_at by_ idx in
      let! x := setInt ty md i in ret (x, idx + sz)
  | TZigzag =>
      let! (i, sz) := varint_at by_ idx in
      let! x := setInt ty md (zigzag_value i) in ret (x, idx + sz)
  | TFloat =>
      let! n := fixed_at by_ idx 4 in
      let! x := setFloat ty md (widen v n) in ret (x, idx + 4)
  | TDouble =>
      let! n := fixed_at by_ idx 8 in
      let! x := setFloat ty md n in ret (x, idx + 8)
  | TTrue => let! x := setBool ty md true in ret (x, idx)
  | TFalse => let! x := setBool ty md false in ret (x, idx)
  | TBinary =>
      let! (ln, sz) := varint_at by_ idx in
      let! (s, idx) := binary_at by_ (idx + sz) ln in
      let! x := setBinary ty md cur s in ret (x, idx)
  | TShort n =>
      let! (s, idx) := binary_at by_ idx (Z.of_nat n) in
      let! x := setBinary ty md cur s in ret (x, idx)
  | TStrUtf8 =>
      let! (ln, sz) := varint_at by_ idx in
      let! (s, idx) := binary_at by_ (idx + sz) ln in
      let! x := setString ty md s in ret (x, idx)
  | THash =>
      let! (ln, sz) := varint_at by_ idx in
      tdecodeHash ty (idx + sz) ln cur md
  | THashRef n => tdecodeHash ty idx (Z.of_nat n) cur md
  | TArray =>
      let! (ln, sz) := varint_at by_ idx in
      tdecodeArray (idx + sz) ln ty cur md
  | TArrayRef n => tdecodeArray idx (Z.of_nat n) ty cur md
  | TUndef | TCanonUndef =>
      if d_perl c then
        let! x := (match k with
                   | TCanonUndef => ret GCanonUndef
                   | _ => let! l := alloc (CV (GUndefV false)) in ret (GPtr false l)
                   end) in
        let! x := set_iface ty md x in ret (x, idx)
      else
        match ty with
        | TyPtr _ | TyMap _ | TySlice _ => let! x := set md (zero ty) in ret (x, idx)
        | _ => ret (cur, idx)
        end
  | TCopy =>
      let! d := get_copy in
      if Nat.ltb 0 d then fail ENestedCOPY else
      let! (offs, sz) := varint_at by_ idx in
      if ((offs <? 0) || (Z.of_nat idx <=? offs))%Z then fail EBadOffset else
      let idx := idx + sz in
      set_copy (S d) ;;
      let! r := (fun s =>
         match rec ty cur md (Z.to_nat offs) s with
         | (Ok r, s') => (Ok r, mkDState (d_heap s') (d_tracked s') (pred (d_copy s')) (d_made s'))
         | (Err e, s') => (Err e, mkDState (d_heap s') (d_tracked s') (pred (d_copy s')) (d_made s'))
         | r => r
         end) in
      ret (fst r, idx)
  | TRefn => rec ty cur md idx
  | TRefp => decodeRefpTyped idx true
  | TAlias => decodeRefpTyped idx false
  | TWeaken =>
      if d_perl c then
        let! l := alloc (CV GNil) in
        let! x := set_iface ty md (GWeakP l) in
        let! idx := urec idx l in ret (x, idx)
      else rec ty cur md idx
  | TRegexp =>
      let! l := alloc (CV GNil) in
      let! idx := decodeRegexp by_ ibuf ishift idx l in
      let! x := get_var l in
      let! x := set_iface ty md x in ret (x, idx)
  | TObject | TObjectV =>
      let! (cls, idx) := class_name by_ idx (match k with TObjectV => true | _ => false end) in
      if d_perl c then
        let! l := alloc (CV GNil) in
        let! x := set_iface ty md (GObjP cls l) in
        let! idx := urec idx l in ret (x, idx)
      else rec ty cur md idx
  | TFreeze => tdecodeFreeze ty cur md idx false
  | TFreezeV => tdecodeFreeze ty cur md idx true
  | TUnknown t => fail (EUnknownTag t)
  end.

(** decodeViaReflection, decode.go 690-887 *)
Definition tdecode_body (ty : gtype) (cur : tval) (md : amode) (idx : nat) : M (tval * nat) :=
  if Nat.leb (length by_) idx then fail ETruncated else
  match ty, cur with
  | TyIface, VIface GNil =>                         (* 697-706 *)
      let! l := alloc (CV GNil) in
      let! idx := urec idx l in
      let! x := get_var l in
      match x with
      | GNil => ret (cur, idx)
      | _ => let! r := set md (VIface x) in ret (r, idx)
      end
  | _, _ =>
      match skip_pads (skipn idx by_) idx with
      | None => fail ETruncated
      | Some (tagb, idx) =>
          (if tracked_bit tagb then poison idx else ret tt) ;;
          tdecode_tag (tag_kind (untrack tagb)) ty cur md (S idx)
      end
  end.
End Body.

(** decodeViaReflection with at most [fuel] nested calls *)
Fixpoint tdecode (fuel : nat) (ty : gtype) (cur : tval) (md : amode) (idx : nat) : M (tval * nat) :=
  match fuel with
  | O => fun s => (NoFuel, s)
  | S f => tdecode_body (tdecode f) (decode c by_ ibuf ishift f) ty cur md idx
  end.
End TDecoder.

Section TUnmarshal.
Variable k : codecs.
Variable c : dconfig.
Variable v : goenv.

(** The body part of UnmarshalHeaderBody for a pointer to a variable of type [ty] holding
    [cur], decode.go 223-260 (see [unmarshal_body] in Document.v).  A nil *interface{} takes
    the same way as a nil interface part here. *)
Definition unmarshal_tbody (b : bytes) (ib : loc) (h : serealHeader) (dec : option decompressor)
  (bs : nat) (ty : gtype) (cur : tval) : M tval :=
  let! (b, ib) :=
    match dec with
    | None => ret (b, ib)
    | Some dk =>
        match slice_from b bs with
        | None => crash
        | Some z =>
            let! d := lift (decompress k dk z) in
            let nb := firstn bs b ++ d in
            let! l := alloc (CBuf nb) in
            ret (nb, l)
        end
    end in
  fresh_tracked ;;
  if (h_version h =? 1)%N then
    let! r := tdecode c v b ib 0 (decode_fuel b) ty cur Settable bs in ret (fst r)
  else if Nat.eqb bs 0 then crash
  else match slice_from b (bs - 1) with
       | None => crash
       | Some by_ =>
           let! r := tdecode c v by_ ib (bs - 1) (decode_fuel by_) ty cur Settable 1 in ret (fst r)
       end.

(** UnmarshalHeaderBody, decode.go 172-263, without a header variable *)
Definition unmarshal_typed_raw (b : bytes) (ib : loc) (ty : gtype) (cur : tval) : M tval :=
  let! h := lift (checkHeader b) in
  let! dec := lift (documentDecompressor (h_version h) (h_doctype h)) in
  let bodyStart := wrap64 (Z.of_nat headerSize + h_suffixSize h) in
  if ((Z.of_nat (length b) <? bodyStart) || (bodyStart <? 0))%Z then fail EBadOffset else
  unmarshal_tbody b ib h dec (Z.to_nat bodyStart) ty cur.

(** Unmarshal(b, &x) with a new Decoder, x of type [ty] with content [cur].  Memory [h]
    holds the document in cell [ib] and whatever the interface{} parts of [cur] refer to. *)
Definition unmarshal_typed (h : heap) (b : bytes) (ib : loc) (ty : gtype) (cur : tval)
  : res (heap * tval) :=
  let '(r, s) := unmarshal_typed_raw b ib ty cur (mkDState h [] 0 []) in
  bind (recovered r) (fun x => Ok (d_heap s, x)).
End TUnmarshal.
