(** Whole documents: MarshalWithHeader (encode.go 77-195) and
    UnmarshalHeaderBody (decode.go 171-263). *)
From Verif Require Import Base Varint Tags GoMem Encode Decode Codecs Compress Header.

(** little-endian PutUint32 *)
Definition put32 (n : N) : bytes := le_bytes 4 n.

(** A deferred recover in the API function turns a Panic into a returned error. *)
Definition recovered {A} (r : res A) : res A :=
  match r with Panic e => Err e | r => r end.

Section Marshal.
Variable k : codecs.

(** encoder state at the start of a body, encode.go 111-114, 132-135 *)
Definition estart (pre : bytes) (tick : nat) : estate := mkEState pre [] [] tick.

(** the header part, encode.go 99-129; the tick counter is threaded through *)
Definition marshal_header (fuel : nat) (e : econfig) (h : heap) (header : option gval)
  : res (bytes * nat) :=
  let magic := if (e_version e <? 3)%N then magicHeaderBytes else magicHeaderBytesHighBit in
  let enc := put32 magic ++ [n2b (e_version e)] in
  match header with
  | Some hv =>
      if (2 <=? e_version e)%N then
        bind (encode e h fuel hv false (remainingRecursion (e_maxdepth e)) (estart [x01] 0))
             (fun s => Ok (enc ++ varint (ulen (s_by s)) ++ s_by s, s_tick s))
      else Ok (enc ++ [x00], 0)
  | None => Ok (enc ++ [x00], 0)
  end.

(** the body part, encode.go 131-156.  For another version than 1, 2, 3 the Go switch
    encodes nothing. *)
Definition marshal_body (fuel : nat) (e : econfig) (h : heap) (encHeader : bytes) (tick : nat)
  (body : gval) : res bytes :=
  let d := remainingRecursion (e_maxdepth e) in
  if (e_version e =? 1)%N then
    bind (encode e h fuel body false d (estart encHeader tick))
         (fun s => Ok (skipn (length encHeader) (s_by s)))
  else if ((e_version e =? 2) || (e_version e =? 3))%N then
    bind (encode e h fuel body false d (estart [x00] tick))
         (fun s => Ok (skipn 1 (s_by s)))
  else Ok [].

(** compression and document type, encode.go 158-192 *)
Definition marshal_compress (e : econfig) (encHeader encBody : bytes) : res (bytes * bytes) :=
  match e_comp e with
  | None => Ok (encHeader, encBody)
  | Some c =>
      if ((e_threshold e =? 0) || (e_threshold e <=? Z.of_nat (length encBody)))%Z then
        bind (compress k c encBody) (fun z =>
          bind (match c with
                | CSnappy inc =>
                    if (1 <? e_version e)%N && negb inc then Err ESnappyNonIncremental
                    else if (e_version e =? 1)%N then Ok serealSnappy
                    else Ok serealSnappyIncremental
                | CZlib _ => if (e_version e <? 3)%N then Err EZlibV3Only else Ok serealZlib
                | CZstd _ => Panic EUndefinedCompression
                end) (fun doctype =>
            Ok (upd encHeader 4 (n2b (N.lor (b2n (nth 4 encHeader x00)) (N.shiftl doctype 4))), z)))
      else Ok (encHeader, encBody)
  end.

(** MarshalWithHeader, encode.go 78-195.  version 0 means ProtocolVersion (94-97). *)
Definition fix_version (e : econfig) : econfig :=
  if (e_version e =? 0)%N
  then mkEConfig (e_perl e) (e_comp e) (e_threshold e) (e_nodedup e) (e_nofreeze e)
                 (e_maxdepth e) ProtocolVersion (e_shuffle e) (e_layout e) (e_parsefloat e)
  else e.

Definition MarshalWithHeader (fuel : nat) (e : econfig) (h : heap) (header : option gval)
  (body : gval) : res bytes :=
  let e := fix_version e in
  recovered
   (bind (marshal_header fuel e h header) (fun '(encHeader, tick) =>
    bind (marshal_body fuel e h encHeader tick body) (fun encBody =>
    bind (marshal_compress e encHeader encBody) (fun '(encHeader, encBody) =>
    Ok (encHeader ++ encBody))))).

Definition Marshal (fuel : nat) (e : econfig) (h : heap) (body : gval) : res bytes :=
  MarshalWithHeader fuel e h None body.
End Marshal.

(** The header / body argument of UnmarshalHeaderBody: nil, a *interface{} to a nil
    interface (its cell), or something that is not a pointer.  Other pointers take the
    reflection path, modelled separately in Typed.v. *)
Inductive target := TgtNone | TgtIface (l : loc) | TgtNonPtr.

Definition target_nil (t : target) : bool := match t with TgtNone => true | _ => false end.

Section Unmarshal.
Variable k : codecs.
Variable c : dconfig.

Definition lift {A} (r : res A) : M A := fun s => (r, s).

(** d.tracked = make(map[int]reflect.Value) *)
Definition fresh_tracked : M unit := fun s =>
  (Ok tt, mkDState (d_heap s) [] (d_copy s) (d_made s)).

(** decode with the fuel proved sufficient *)
Definition run_decode (by_ : bytes) (ibuf : loc) (ishift idx : nat) (ptr : loc) : M nat :=
  decode c by_ ibuf ishift (decode_fuel by_) idx ptr.

(** the header part, decode.go 204-221; [bs] is bodyStart *)
Definition unmarshal_header (b : bytes) (ib : loc) (h : serealHeader) (bs : nat) (vh : target)
  : M unit :=
  if target_nil vh || (h_suffixSize h =? 1)%Z then ret tt else
  fresh_tracked ;;
  match vh with
  | TgtNone => ret tt
  | TgtNonPtr => fail EHeaderPointer
  | TgtIface l =>
      match nth_error b (h_suffixStart h) with
      | None => crash
      | Some flags =>
          if (N.land (b2n flags) 1 =? 1)%N then
            run_decode (firstn bs b) ib 0 (h_suffixStart h + 1) l ;; ret tt
          else ret tt
      end
  end.

(** the body part, decode.go 223-260 *)
Definition unmarshal_body (b : bytes) (ib : loc) (h : serealHeader) (dec : option decompressor)
  (bs : nat) (vb : target) : M unit :=
  if target_nil vb then ret tt else
  let! (b, ib) :=
    match dec with
    | None => ret (b, ib)
    | Some dk =>
        match slice_from b bs with
        | None => crash
        | Some z =>
            let! d := lift (decompress k dk z) in
            let nb := firstn bs b ++ d in
            let! l := alloc (CBuf nb) in
            ret (nb, l)
        end
    end in
  fresh_tracked ;;
  match vb with
  | TgtNone => ret tt
  | TgtNonPtr => fail EBodyPointer
  | TgtIface l =>
      if (h_version h =? 1)%N then run_decode b ib 0 bs l ;; ret tt
      else if Nat.eqb bs 0 then crash            (* b[bodyStart-1:] with bodyStart = 0 *)
      else match slice_from b (bs - 1) with
           | None => crash
           | Some by_ => run_decode by_ ib (bs - 1) 1 l ;; ret tt
           end
  end.

(** UnmarshalHeaderBody, decode.go 172-263; [ib] is the cell holding the input [b].
    The deferred "d.tracked = nil" is not modelled (tracked is reset before use). *)
Definition unmarshal_raw (b : bytes) (ib : loc) (vh vb : target) : M unit :=
  let! h := lift (checkHeader b) in
  let! dec := lift (documentDecompressor (h_version h) (h_doctype h)) in
  let bodyStart := wrap64 (Z.of_nat headerSize + h_suffixSize h) in
  if ((Z.of_nat (length b) <? bodyStart) || (bodyStart <? 0))%Z then fail EBadOffset else
  let bs := Z.to_nat bodyStart in
  unmarshal_header b ib h bs vh ;;
  unmarshal_body b ib h dec bs vb.

Definition UnmarshalHeaderBody (b : bytes) (ib : loc) (vh vb : target) : M unit := fun s =>
  let (r, s') := unmarshal_raw b ib vh vb s in (recovered r, s').

(** Unmarshal / Decoder.Unmarshal, Decoder.UnmarshalHeader: decode.go 98-112 *)
Definition Unmarshal (b : bytes) (ib : loc) (vb : target) : M unit :=
  UnmarshalHeaderBody b ib TgtNone vb.
Definition UnmarshalHeader (b : bytes) (ib : loc) (vh : target) : M unit :=
  UnmarshalHeaderBody b ib vh TgtNone.

(** A call with a fresh Decoder on a fresh memory: cell 0 the input, cell 1 the header
    variable, cell 2 the body variable, both nil. *)
Definition fresh_state (b : bytes) : dstate := mkDState [CBuf b; CV GNil; CV GNil] [] 0 [].
Definition unmarshal_fresh (b : bytes) : res (heap * gval) :=
  match Unmarshal b 0 (TgtIface 2) (fresh_state b) with
  | (r, s) => bind r (fun _ => Ok (d_heap s, hget (d_heap s) 2))
  end.
(** Unmarshal by a new Decoder in memory [h], with the document in cell [ib] *)
Definition unmarshal_at (h : heap) (b : bytes) (ib l : loc) : res (heap * gval) :=
  let '(r, s) := Unmarshal b ib (TgtIface l) (mkDState h [] 0 []) in
  bind r (fun _ => Ok (d_heap s, hget (d_heap s) l)).
(** the same for UnmarshalHeader *)
Definition unmarshal_header_fresh (b : bytes) : res (heap * gval) :=
  match UnmarshalHeader b 0 (TgtIface 1) (fresh_state b) with
  | (r, s) => bind r (fun _ => Ok (d_heap s, hget (d_heap s) 1))
  end.

(** One Decoder used for several calls, decode.go 77-112.  Between calls it keeps
    copyDepth and tracked; the options do not change.  (The deferred "d.tracked = nil" is
    left out: the table of one call is still there at the start of the next.)  Every call is
    given its own input and variables (cells 0, 1, 2), the memory of earlier calls being
    out of reach. *)
Record decoder := mkDecoder { de_copy : nat; de_tracked : list (nat * loc) }.
Definition new_decoder : decoder := mkDecoder 0 [].
Inductive request := ReqBody (b : bytes) | ReqHeader (b : bytes) | ReqBoth (b : bytes).
Definition call_raw (d : decoder) (q : request) : res unit * dstate :=
  let start b := mkDState [CBuf b; CV GNil; CV GNil] (de_tracked d) (de_copy d) [] in
  match q with
  | ReqBody b => unmarshal_raw b 0 TgtNone (TgtIface 2) (start b)
  | ReqHeader b => unmarshal_raw b 0 (TgtIface 1) TgtNone (start b)
  | ReqBoth b => unmarshal_raw b 0 (TgtIface 1) (TgtIface 2) (start b)
  end.
(** what the caller gets: an error, or memory and the two variables *)
Definition call_result (d : decoder) (q : request) : res (heap * gval * gval) :=
  match call_raw d q with
  | (r, s) => bind (recovered r) (fun _ => Ok (d_heap s, hget (d_heap s) 1, hget (d_heap s) 2))
  end.
Definition call_panics (d : decoder) (q : request) : bool :=
  match fst (call_raw d q) with Panic _ => true | _ => false end.
(** the Decoder after a call, and after a history of calls *)
Definition after (d : decoder) (q : request) : decoder :=
  let s := snd (call_raw d q) in mkDecoder (d_copy s) (d_tracked s).
Definition history (d : decoder) (hist : list request) : decoder := fold_left after hist d.
End Unmarshal.
