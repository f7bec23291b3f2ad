(** Constants of const.go. *)
From Verif Require Import Base.

(** const.go 8-22 *)
Definition magicHeaderBytes : N := 0x6c72733d.
Definition magicHeaderBytesHighBit : N := 0x6c72f33d.
Definition magicHeaderBytesHighBitUTF8 : N := 0x72b3c33d.
Definition headerSize : nat := 5.

(** const.go 24-32 *)
Definition serealRaw : N := 0.
Definition serealSnappy : N := 1.
Definition serealSnappyIncremental : N := 2.
Definition serealZlib : N := 3.
Definition serealZstd : N := 4.

(** const.go 4 *)
Definition ProtocolVersion : N := 3.

(** const.go 34-67 *)
Definition trackFlag : N := 0x80.
Definition typeVARINT : N := 0x20.
Definition typeZIGZAG : N := 0x21.
Definition typeFLOAT : N := 0x22.
Definition typeDOUBLE : N := 0x23.
Definition typeLONG_DOUBLE : N := 0x24.
Definition typeUNDEF : N := 0x25.
Definition typeBINARY : N := 0x26.
Definition typeSTR_UTF8 : N := 0x27.
Definition typeREFN : N := 0x28.
Definition typeREFP : N := 0x29.
Definition typeHASH : N := 0x2a.
Definition typeARRAY : N := 0x2b.
Definition typeOBJECT : N := 0x2c.
Definition typeOBJECTV : N := 0x2d.
Definition typeALIAS : N := 0x2e.
Definition typeCOPY : N := 0x2f.
Definition typeWEAKEN : N := 0x30.
Definition typeREGEXP : N := 0x31.
Definition typeOBJECT_FREEZE : N := 0x32.
Definition typeOBJECTV_FREEZE : N := 0x33.
Definition typeCANONICAL_UNDEF : N := 0x39.
Definition typeFALSE : N := 0x3a.
Definition typeTRUE : N := 0x3b.
Definition typeMANY : N := 0x3c.
Definition typePACKET_START : N := 0x3d.
Definition typeEXTEND : N := 0x3e.
Definition typePAD : N := 0x3f.
Definition typeARRAYREF_0 : N := 0x40.
Definition typeHASHREF_0 : N := 0x50.
Definition typeSHORT_BINARY_0 : N := 0x60.

(** A tag byte without its track flag, [tag &^ trackFlag], and the flag itself. *)
Definition untrack (b : byte) : N := N.land (b2n b) 127.
Definition tracked_bit (b : byte) : bool := negb (N.land (b2n b) 128 =? 0)%N.

(** Is the byte PAD or PAD|trackFlag (decode.go 276, 601)? *)
Definition is_pad (b : byte) : bool :=
  ((b2n b =? typePAD) || (b2n b =? N.lor typePAD trackFlag))%N.

(** The cases of the tag switch in decode (decode.go 295-462), in its order. *)
Inductive tkind : Type :=
| TSmall (t : N) | TVarint | TZigzag | TFloat | TDouble | TTrue | TFalse
| THash | THashRef (n : nat) | TArray | TArrayRef (n : nat)
| TStrUtf8 | TBinary | TShort (n : nat) | TUndef | TCanonUndef | TCopy | TRefn
| TRefp | TAlias | TWeaken | TRegexp | TObject | TObjectV | TFreeze | TFreezeV
| TUnknown (t : N).

Definition tag_kind (t : N) : tkind :=
  (if t <? typeVARINT then TSmall t
   else if t =? typeVARINT then TVarint
   else if t =? typeZIGZAG then TZigzag
   else if t =? typeFLOAT then TFloat
   else if t =? typeDOUBLE then TDouble
   else if t =? typeTRUE then TTrue
   else if t =? typeFALSE then TFalse
   else if t =? typeHASH then THash
   else if (typeHASHREF_0 <=? t) && (t <? typeHASHREF_0 + 16) then THashRef (N.to_nat (N.land t 15))
   else if t =? typeARRAY then TArray
   else if (typeARRAYREF_0 <=? t) && (t <? typeARRAYREF_0 + 16) then TArrayRef (N.to_nat (N.land t 15))
   else if t =? typeSTR_UTF8 then TStrUtf8
   else if t =? typeBINARY then TBinary
   else if (typeSHORT_BINARY_0 <=? t) && (t <? typeSHORT_BINARY_0 + 32) then TShort (N.to_nat (N.land t 31))
   else if t =? typeUNDEF then TUndef
   else if t =? typeCANONICAL_UNDEF then TCanonUndef
   else if t =? typeCOPY then TCopy
   else if t =? typeREFN then TRefn
   else if t =? typeREFP then TRefp
   else if t =? typeALIAS then TAlias
   else if t =? typeWEAKEN then TWeaken
   else if t =? typeREGEXP then TRegexp
   else if t =? typeOBJECT then TObject
   else if t =? typeOBJECTV then TObjectV
   else if t =? typeOBJECT_FREEZE then TFreeze
   else if t =? typeOBJECTV_FREEZE then TFreezeV
   else TUnknown t)%N.
