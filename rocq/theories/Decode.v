(** The untyped decoder: decode.go 265-685 (decode and its helpers), together with
    the parts of decodeObjectViaReflection, decodeObjectFreezeViaReflection and
    decodeREFP_ALIAS reached when decoding into an empty interface. *)
From Verif Require Import Base Varint Tags GoMem.

(** What a registered class name stands for (Decoder.umcache, decode.go 1282-1309):
    a pointer type or a non-pointer type implementing BinaryUnmarshaler. *)
Inductive umtype := UMPtr (t : nat) | UMVal (t : nat).

(** Decoder options: decode.go 83-86, and the registrations made by RegisterName.
    [d_unmarshal t data] tells whether the user's UnmarshalBinary accepts data. *)
Record dconfig := mkDConfig {
  d_perl : bool;                       (* PerlCompat *)
  d_noref : bool;                      (* DisableReferentialIntegrity *)
  d_um : bytes -> option umtype;
  d_unmarshal : nat -> bytes -> bool
}.

(** Memory plus the mutable fields of the Decoder: tracked (decode.go 78) maps an
    offset to the *interface{} being filled, copyDepth (decode.go 81).
    [d_made] is a ghost log: one entry for every make() whose size comes from the
    document, with the number of input bytes left at that point. *)
Record dstate := mkDState {
  d_heap : heap;
  d_tracked : list (nat * loc);
  d_copy : nat;
  d_made : list (nat * nat)
}.

Definition M (A : Type) : Type := dstate -> res A * dstate.
Definition ret {A} (a : A) : M A := fun s => (Ok a, s).
Definition mbind {A B} (m : M A) (k : A -> M B) : M B := fun s =>
  match m s with
  | (Ok a, s') => k a s'
  | (Err e, s') => (Err e, s')
  | (Panic e, s') => (Panic e, s')
  | (Crash, s') => (Crash, s')
  | (NoFuel, s') => (NoFuel, s')
  end.
Notation "'let!' x ':=' m 'in' k" := (mbind m (fun x => k))
  (at level 200, x pattern, m at level 100, k at level 200, right associativity).
Notation "m ';;' k" := (mbind m (fun _ => k)) (at level 199, right associativity).
Definition fail {A} (e : err) : M A := fun s => (Err e, s).
Definition panic {A} (e : err) : M A := fun s => (Panic e, s).
Definition crash {A} : M A := fun s => (Crash, s).

Definition with_heap (s : dstate) (h : heap) : dstate :=
  mkDState h (d_tracked s) (d_copy s) (d_made s).

(** new variable / new backing store *)
Definition alloc (c : cell) : M loc := fun s =>
  (Ok (length (d_heap s)), with_heap s (d_heap s ++ [c])).
Definition alloc_n (n : nat) (c : cell) : M loc := fun s =>
  (Ok (length (d_heap s)), with_heap s (d_heap s ++ repeat c n)).
(** *ptr = v *)
Definition set_var (l : loc) (v : gval) : M unit := fun s =>
  (Ok tt, with_heap s (upd (d_heap s) l (CV v))).
Definition get_var (l : loc) : M gval := fun s => (Ok (hget (d_heap s) l), s).
(** m[key] = v *)
Definition map_set (l : loc) (k : bytes) (v : gval) : M unit := fun s =>
  (Ok tt, with_heap s (upd (d_heap s) l (CMap (mput (hmap (d_heap s) l) k v)))).
(** d.tracked[idx] = ptr *)
Definition track (idx : nat) (l : loc) : M unit := fun s =>
  (Ok tt, mkDState (d_heap s) ((idx, l) :: d_tracked s) (d_copy s) (d_made s)).
Fixpoint assoc_nat {A} (k : nat) (m : list (nat * A)) : option A :=
  match m with
  | [] => None
  | (k', v) :: m' => if Nat.eqb k' k then Some v else assoc_nat k m'
  end.
Definition get_tracked (offs : nat) : M (option loc) := fun s =>
  (Ok (assoc_nat offs (d_tracked s)), s).
Definition get_copy : M nat := fun s => (Ok (d_copy s), s).
Definition set_copy (n : nat) : M unit := fun s =>
  (Ok tt, mkDState (d_heap s) (d_tracked s) n (d_made s)).
(** ghost: record a make() of [n] elements with [left] input bytes remaining *)
Definition log_make (n left : nat) : M unit := fun s =>
  (Ok tt, mkDState (d_heap s) (d_tracked s) (d_copy s) ((n, left) :: d_made s)).

Section Decoder.
Variable c : dconfig.
(** the document bytes [by], and the buffer cell and offset they are a slice of *)
Variable by_ : bytes.
Variable ibuf : loc.
Variable ishift : nat.

Definition blen : Z := Z.of_nat (length by_).

(** The loops skipping padding, decode.go 273-283 and 600-608: the first byte that is
    not PAD, and its index; None when the input ends (ErrTruncated). *)
Fixpoint skip_pads (l : bytes) (idx : nat) : option (byte * nat) :=
  match l with
  | [] => None
  | b :: t => if is_pad b then skip_pads t (S idx) else Some (b, idx)
  end.

(** varintdecode(by[idx:]) followed by the usual error return. *)
Definition varint_at (idx : nat) : M (Z * nat) :=
  match slice_from by_ idx with
  | None => crash
  | Some s => match varintdecode s with
              | VOk n sz => ret (n, sz)
              | VBad _ => fail EBadVarint
              end
  end.

(** decodeInt, decode.go 468-473 *)
Definition decodeInt (t : N) : Z :=
  if (N.land t 16 =? 16)%N then Z.of_N t - 32 else Z.of_N t.

(** decodeZigzag, decode.go 480-483: int(-(1 + (uint64(i) >> 1))) *)
Definition zigzag_value (i : Z) : Z :=
  wrap64 (- (1 + Z.of_N (N.shiftr (to_uint i) 1))).

(** Little-endian reading of 4 or 8 bytes, decode.go 490 and 499. *)
Fixpoint le_num (l : bytes) : N :=
  match l with [] => 0 | b :: t => b2n b + 256 * le_num t end%N.

(** decodeFloat / decodeDouble, decode.go 485-501, on [k] bytes *)
Definition fixed_at (idx k : nat) : M N :=
  if Nat.leb (length by_) (idx + k - 1) then fail ETruncated
  else match slice_range by_ idx (idx + k) with
       | None => crash
       | Some s => ret (le_num s)
       end.

(** decodeBinary, decode.go 575-590, without the copy: the byte range [start,start+ln).
    The returned index is the second component. *)
Definition binary_at (idx : nat) (ln : Z) : M (bytes * nat) :=
  if ((ln <? 0) || (maxInt32 <? ln))%Z then fail EBadStringSize
  else if (blen <? Z.of_nat idx + ln)%Z then fail ETruncated
  else match slice_range by_ idx (idx + Z.to_nat ln) with
       | None => crash
       | Some s => ret (s, idx + Z.to_nat ln)
       end.

(** decodeBinary with makeCopy, decode.go 583-587 *)
Definition binary_copy (idx : nat) (ln : Z) : M (view * nat) :=
  let! (s, idx') := binary_at idx ln in
  log_make (length s) (length by_ - idx) ;;
  let! l := alloc (CBuf s) in
  ret (mkView l 0 (length s), idx').

(** A window of the input buffer (slice of by, not a copy). *)
Record window := mkWin { w_off : nat; w_len : nat }.
Definition win_bytes (w : window) : bytes := firstn (w_len w) (skipn (w_off w) by_).
Definition win_view (w : window) : view := mkView ibuf (ishift + w_off w) (w_len w).

(** decodeStringish, decode.go 593-669; [rec] is the recursive call for COPY.
    The index is a Go int: OBJECTV passes an unchecked offset. *)
Definition stringish_body (rec : Z -> M (window * nat)) (zidx : Z) : M (window * nat) :=
  if ((zidx <? 0) || (blen <=? zidx))%Z then fail ETruncated else
  let idx := Z.to_nat zidx in
  match skip_pads (skipn idx by_) idx with
  | None => fail ETruncated
  | Some (tagb, idx) =>
      let idx := S idx in
      match tag_kind (untrack tagb) with
      | TBinary | TStrUtf8 =>
          let! (ln, sz) := varint_at idx in
          let idx := idx + sz in
          if ((ln <? 0) || (maxInt32 <? ln))%Z then fail EBadStringSize
          else if (blen <? Z.of_nat idx + ln)%Z then fail ETruncated
          else let n := Z.to_nat ln in
               match slice_range by_ idx (idx + n) with
               | None => crash
               | Some _ => ret (mkWin idx n, idx + n)
               end
      | TShort n =>
          if Nat.ltb (length by_) (idx + n) then fail ETruncated
          else match slice_range by_ idx (idx + n) with
               | None => crash
               | Some _ => ret (mkWin idx n, idx + n)
               end
      | TCopy =>
          let! d := get_copy in
          if Nat.ltb 0 d then fail ENestedCOPY else
          let! (offs, sz) := varint_at idx in
          if ((offs <? 0) || (Z.of_nat idx <=? offs))%Z then fail EBadOffset else
          let idx := idx + sz in
          set_copy (S d) ;;
          (* d.copyDepth-- happens also when the nested call returns an error *)
          let! r := (fun s =>
             match rec offs s with
             | (Ok r, s') => (Ok r, mkDState (d_heap s') (d_tracked s') (pred (d_copy s')) (d_made s'))
             | (Err e, s') => (Err e, mkDState (d_heap s') (d_tracked s') (pred (d_copy s')) (d_made s'))
             | r => r
             end) in
          ret (fst r, idx)
      | _ => fail (EExpectStringish (untrack tagb))
      end
  end.

(** Recursion: a nested COPY is refused, so two levels are enough (proved). *)
Fixpoint stringish_fuel (fuel : nat) (idx : Z) : M (window * nat) :=
  match fuel with
  | O => fun s => (NoFuel, s)
  | S f => stringish_body (stringish_fuel f) idx
  end.
Definition decodeStringish (idx : Z) : M (window * nat) := stringish_fuel 2 idx.

Section Body.
(** the recursive call decode(by, idx, ptr) *)
Variable rec : nat -> loc -> M nat.

(** decodeHash's loop, decode.go 521-535 *)
Fixpoint hash_loop (n : nat) (m : loc) (idx : nat) : M nat :=
  match n with
  | O => ret idx
  | S n' =>
      let! (key, idx) := decodeStringish (Z.of_nat idx) in
      let! vl := alloc (CV GNil) in
      let! idx := rec idx vl in
      let! v := get_var vl in
      map_set m (win_bytes key) v ;;
      hash_loop n' m idx
  end.

(** decodeHash, decode.go 503-538 *)
Definition decodeHash (idx : nat) (ln : Z) (ptr : loc) (isRef : bool) : M nat :=
  if ((ln <? 0) || (maxInt32 <? ln))%Z then fail EBadHashSize
  else if (blen <? Z.of_nat idx + 2 * ln)%Z then fail ETruncated
  else
    let n := Z.to_nat ln in
    log_make n (length by_ - idx) ;;
    let! m := alloc (CMap []) in
    (if isRef then
       let! p := alloc (CV (GMap m)) in
       set_var ptr (GPtr false p)
     else set_var ptr (GMap m)) ;;
    hash_loop n m idx.

(** decodeArray's loop, decode.go 565-570 *)
Fixpoint array_loop (n : nat) (base : loc) (idx : nat) : M nat :=
  match n with
  | O => ret idx
  | S n' =>
      let! idx := rec idx base in
      array_loop n' (S base) idx
  end.

(** decodeArray, decode.go 540-573; an empty array gets a backing store of one element *)
Definition decodeArray (idx : nat) (ln : Z) (ptr : loc) (isRef : bool) : M nat :=
  if ((ln <? 0) || (maxInt32 <? ln))%Z then fail EBadSliceSize
  else if (blen <? Z.of_nat idx + ln)%Z then fail ETruncated
  else
    let n := Z.to_nat ln in
    log_make n (length by_ - idx) ;;
    let! base := alloc_n (Nat.max 1 n) (CV GNil) in
    (if isRef then
       let! p := alloc (CV (GSlice base n)) in
       set_var ptr (GPtr false p)
     else set_var ptr (GSlice base n)) ;;
    array_loop n base idx.

(** decodeViaReflection on an interface variable, decode.go 691-706.  The variable is
    always nil here (proved); the other path is reported as Crash. *)
Definition decode_via_iface (idx : nat) (ptr : loc) : M nat :=
  if Nat.leb (length by_) idx then fail ETruncated else
  let! cur := get_var ptr in
  match cur with
  | GNil =>
      let! l := alloc (CV GNil) in
      let! idx := rec idx l in
      let! v := get_var l in
      match v with
      | GNil => ret idx
      | _ => set_var ptr v ;; ret idx
      end
  | _ => crash
  end.

(** The class name of OBJECT/OBJECTV, decode.go 1077-1093 (also 1110-1131) *)
Definition class_name (idx : nat) (isObjectV : bool) : M (bytes * nat) :=
  if isObjectV then
    let! (offs, sz) := varint_at idx in
    let! r := decodeStringish offs in
    ret (win_bytes (fst r), idx + sz)
  else
    let! (w, idx) := decodeStringish (Z.of_nat idx) in
    ret (win_bytes w, idx).

(** decodeObjectViaReflection, decode.go 1073-1105 *)
Definition decodeObject (idx : nat) (ptr : loc) (isObjectV : bool) : M nat :=
  let! (cls, idx) := class_name idx isObjectV in
  if d_perl c then
    let! l := alloc (CV GNil) in
    set_var ptr (GObjP cls l) ;;
    rec idx l
  else decode_via_iface idx ptr.

(** decodeObjectFreezeViaReflection, decode.go 1106-1204, for a nil interface target *)
Definition decodeFreeze (idx : nat) (ptr : loc) (isObjectV : bool) : M nat :=
  let! (cls, idx) := class_name idx isObjectV in
  if Nat.leb (length by_) (idx + 1) then fail ETruncated else
  match nth_error by_ idx, nth_error by_ (idx + 1) with
  | Some b0, Some b1 =>
      if negb ((b2n b0 =? typeREFN) && (b2n b1 =? typeARRAY))%N then fail EFreezeNotRefnArray
      else
        let! l := alloc (CV GNil) in
        let! idx := rec idx l in
        let! v := get_var l in
        match v with
        | GSlice base n =>
            if negb (Nat.eqb n 1) then fail EFreezeMultiple else
            let! e := get_var base in
            match e with
            | GBytes data =>
                if d_perl c then
                  let! l2 := alloc (CV (GFreezeV cls data)) in
                  set_var ptr (GPtr false l2) ;; ret idx
                else
                  let! cur := get_var ptr in
                  match cur with
                  | GNil =>
                      match d_um c cls with
                      | Some (UMPtr t) =>
                          fun s =>
                            if d_unmarshal c t (hview (d_heap s) data)
                            then (set_var ptr (GUserP t data) ;; ret idx) s
                            else (Err EUser, s)
                      | Some (UMVal _) => panic EReflect (* instantiateZero 1316-1317 *)
                      | None =>
                          let! l2 := alloc (CV (GFreezeV cls data)) in
                          set_var ptr (GPtr false l2) ;; ret idx
                      end
                  | _ => crash
                  end
            | _ => fail EFreezeNotBytes
            end
        | _ => fail EFreezeNotArray
        end
  | _, _ => crash
  end.

(** decodeREFP_ALIAS, decode.go 1020-1071, and the assignment at decode.go 434-438.
    Only offsets tracked by decode() (a *interface{}) occur here. *)
Definition decodeREFP_ALIAS (idx : nat) (ptr : loc) (isREFP : bool) : M nat :=
  let! (offs, sz) := varint_at idx in
  let idx := idx + sz in
  if ((offs <? 0) || (Z.of_nat idx <=? offs))%Z then fail EBadOffset else
  let! t := get_tracked (Z.to_nat offs) in
  match t with
  | None => fail (if isREFP then EUntrackedREFP else EUntrackedAlias)
  | Some rl =>
      let! v := get_var rl in
      if isREFP then
        match v with
        | GNil => panic EReflect       (* Type() or Interface() of the zero Value *)
        | _ =>
            if d_noref c then set_var ptr v ;; ret idx
            else let! l := alloc (CV v) in
                 set_var ptr (GPtr false l) ;; ret idx
        end
      else set_var ptr v ;; ret idx
  end.

(** decodeRegexp, decode.go 671-685: the two strings are slices of the input *)
Definition decodeRegexp (idx : nat) (ptr : loc) : M nat :=
  let! (p, idx) := decodeStringish (Z.of_nat idx) in
  let! (m, idx) := decodeStringish (Z.of_nat idx) in
  let! l := alloc (CV (GRegexpV (win_view p) (win_view m))) in
  set_var ptr (GPtr false l) ;; ret idx.

(** The switch of decode, decode.go 295-462.  [idx] is the index after the tag.
    Not modelled: what is left in *ptr when an error is returned. *)
Definition decode_tag (k : tkind) (trackme : bool) (idx : nat) (ptr : loc) : M nat :=
  match k with
  | TSmall t => set_var ptr (GInt KInt false (decodeInt t)) ;; ret idx
  | TVarint =>
      let! (v, sz) := varint_at idx in
      (if (v <? 0)%Z then set_var ptr (GInt KUint false (Z.of_N (to_uint v)))
       else set_var ptr (GInt KInt false v)) ;; ret (idx + sz)
  | TZigzag =>
      let! (v, sz) := varint_at idx in
      set_var ptr (GInt KInt false (zigzag_value v)) ;; ret (idx + sz)
  | TFloat =>
      let! n := fixed_at idx 4 in
      set_var ptr (GF32 n) ;; ret (idx + 4)
  | TDouble =>
      let! n := fixed_at idx 8 in
      set_var ptr (GF64 n) ;; ret (idx + 8)
  | TTrue => set_var ptr (GBool true) ;; ret idx
  | TFalse => set_var ptr (GBool false) ;; ret idx
  | THash =>
      let! (ln, sz) := varint_at idx in
      decodeHash (idx + sz) ln ptr false
  | THashRef n => decodeHash idx (Z.of_nat n) ptr (d_perl c)
  | TArray =>
      let! (ln, sz) := varint_at idx in
      decodeArray (idx + sz) ln ptr false
  | TArrayRef n => decodeArray idx (Z.of_nat n) ptr (d_perl c)
  | TStrUtf8 =>
      let! (ln, sz) := varint_at idx in
      let! (s, idx) := binary_at (idx + sz) ln in
      set_var ptr (GStr s) ;; ret idx
  | TBinary =>
      let! (ln, sz) := varint_at idx in
      let! (v, idx) := binary_copy (idx + sz) ln in
      set_var ptr (GBytes v) ;; ret idx
  | TShort n =>
      let! (v, idx) := binary_copy idx (Z.of_nat n) in
      set_var ptr (GBytes v) ;; ret idx
  | TUndef =>
      (if d_perl c then
         let! l := alloc (CV (GUndefV false)) in set_var ptr (GPtr false l)
       else set_var ptr GNil) ;; ret idx
  | TCanonUndef =>
      (if d_perl c then set_var ptr GCanonUndef else set_var ptr GNil) ;; ret idx
  | TCopy =>
      let! d := get_copy in
      if Nat.ltb 0 d then fail ENestedCOPY else
      let! (offs, sz) := varint_at idx in
      if ((offs <? 0) || (Z.of_nat idx <=? offs))%Z then fail EBadOffset else
      let idx := idx + sz in
      set_copy (S d) ;;
      let! _ := (fun s =>
         match rec (Z.to_nat offs) ptr s with
         | (Ok r, s') => (Ok r, mkDState (d_heap s') (d_tracked s') (pred (d_copy s')) (d_made s'))
         | (Err e, s') => (Err e, mkDState (d_heap s') (d_tracked s') (pred (d_copy s')) (d_made s'))
         | r => r
         end) in
      ret idx
  | TRefn =>
      if d_perl c then
        let! l := alloc (CV GNil) in
        set_var ptr (GPtr true l) ;;
        let! idx := rec idx l in
        if trackme then ret idx
        else
          let! v := get_var l in
          match v with
          | GNil => panic EReflect     (* Type() of the zero Value *)
          | _ => let! l2 := alloc (CV v) in
                 set_var ptr (GPtr false l2) ;; ret idx
          end
      else rec idx ptr
  | TRefp => decodeREFP_ALIAS idx ptr true
  | TAlias => decodeREFP_ALIAS idx ptr false
  | TWeaken =>
      if d_perl c then
        let! l := alloc (CV GNil) in
        set_var ptr (GWeakP l) ;;
        rec idx l
      else rec idx ptr
  | TRegexp => decodeRegexp idx ptr
  | TObject => decodeObject idx ptr false
  | TObjectV => decodeObject idx ptr true
  | TFreeze => decodeFreeze idx ptr false
  | TFreezeV => decodeFreeze idx ptr true
  | TUnknown t => fail (EUnknownTag t)
  end.

(** decode, decode.go 268-466 *)
Definition decode_body (idx : nat) (ptr : loc) : M nat :=
  if Nat.leb (length by_) idx then fail ETruncated else
  match skip_pads (skipn idx by_) idx with
  | None => fail ETruncated
  | Some (tagb, idx) =>
      let trackme := tracked_bit tagb in
      (if trackme then track idx ptr else ret tt) ;;
      decode_tag (tag_kind (untrack tagb)) trackme (S idx) ptr
  end.
End Body.

(** decode with at most [fuel] nested calls. *)
Fixpoint decode (fuel : nat) (idx : nat) (ptr : loc) : M nat :=
  match fuel with
  | O => fun s => (NoFuel, s)
  | S f => decode_body (decode f) idx ptr
  end.

(** Enough nesting for this input (proved in DecodeSafe): every nested call either
    moves forward in the input or is the single allowed COPY. *)
Definition decode_fuel : nat := 2 * length by_ + 4.
End Decoder.
