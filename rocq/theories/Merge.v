(** The Merger: merge.go. *)
From Verif Require Import Base Varint Tags Codecs Encode Compress Header GoSlice.

(** The public fields of a Merger, merge.go 33-57.  They may change between calls.
    TopLevelElement: 0 array, 1 arrayref (13-20). *)
Record mconfig := mkMConfig {
  g_top : N; g_comp : option compressor; g_threshold : Z;
  g_dedupe : bool; g_flat : bool; g_expected : nat
}.

(** What is left to the run-time and the libraries: the capacity chosen by the n-th array
    allocation for a needed length, and what lies beyond the end of a decompressed document,
    up to its capacity. *)
Record mworld := mkMWorld { w_grow : nat -> nat -> nat; w_spare : bytes -> bytes }.

(** The private fields, merge.go 25-31 and 60-61, and the memory m.buf lives in.  Maps are
    association lists. *)
Record merger := mkMerger {
  m_mem : list bytes; m_buf : slice;
  m_str : list (bytes * nat); m_obj : list (bytes * nat);
  m_version : N; m_length : Z; m_lenOffset : nat; m_bodyOffset : nat;
  m_inited : bool; m_finished : bool
}.

(** NewMerger (version 0), NewMergerV2, NewMergerV3 (merge.go 73-96), and Merger{} *)
Definition new_merger (version : N) : merger :=
  mkMerger [] nil_slice [] [] version 0 0 0 false false.

Fixpoint assoc (k : bytes) (l : list (bytes * nat)) : option nat :=
  match l with
  | [] => None
  | (x, v) :: l => if bytes_eqb x k then Some v else assoc k l
  end.

(** the document being merged (mergerDoc, 64-71): its bytes, and the bytes beyond its end up
    to the capacity of the slice *)
Record mdoc := mkMDoc { md_buf : bytes; md_spare : bytes }.

(** dbuf[i:j]: the bound is the capacity *)
Definition drange (d : mdoc) (i j : nat) : res bytes :=
  match slice_range (md_buf d ++ md_spare d) i j with Some s => Ok s | None => Crash end.

Definition w_append (w : mworld) (mem : list bytes) (s : slice) (b : bytes) : slice * list bytes :=
  append_slice (w_grow w (length mem)) mem s b.

(** * initMerger, merge.go 98-148 *)
Definition put32le (n : N) : bytes :=
  [n2b n; n2b (N.shiftr n 8); n2b (N.shiftr n 16); n2b (N.shiftr n 24)].

Section Merger.
Variable k : codecs.
Variable w : mworld.

Definition with_buf (m : merger) (b : slice) (mem : list bytes) : merger :=
  mkMerger mem b (m_str m) (m_obj m) (m_version m) (m_length m) (m_lenOffset m) (m_bodyOffset m)
    (m_inited m) (m_finished m).

(** the first five bytes; make([]byte, 5, ExpectedSize) panics for an ExpectedSize below 5 *)
Definition initMerger (g : mconfig) (m : merger) : res unit * merger :=
  if m_inited m then (Ok tt, m) else
  if Nat.ltb 0 (g_expected g) && Nat.ltb (g_expected g) headerSize then (Crash, m) else
  let version := if (m_version m =? 0)%N then ProtocolVersion else m_version m in
  let start bytes := make_with (m_mem m) bytes (Nat.max headerSize (g_expected g)) in
  let m := mkMerger (m_mem m) (m_buf m) [] [] version (m_length m) (m_lenOffset m) (m_bodyOffset m)
             false (m_finished m) in
  if (ProtocolVersion <? version)%N then
    let '(s, mem) := start (repeat x00 headerSize) in (Err (EVersion version), with_buf m s mem)
  else
    let magic := if (version <? 3)%N then magicHeaderBytes else magicHeaderBytesHighBit in
    let '(s, mem) := start (put32le magic ++ [n2b version]) in
    let '(s, mem) := w_append w mem s [x00] in
    let bodyOffset := sl_len s - 1 in
    let m := mkMerger mem s [] [] version (m_length m) (m_lenOffset m) bodyOffset false (m_finished m) in
    match (if (g_top g =? 0)%N then Some [n2b typeARRAY]
           else if (g_top g =? 1)%N then Some [n2b typeREFN; n2b typeARRAY] else None) with
    | None => (Err EInvalidTopLevel, m)
    | Some tags =>
        let '(s, mem) := w_append w mem s tags in
        let lenOffset := sl_len s in
        let '(s, mem) := w_append w mem s (repeat (n2b typePAD) 5) in
        (Ok tt, mkMerger mem s [] [] version (m_length m) lenOffset bodyOffset true (m_finished m))
    end.

(** * buildTrackTable, merge.go 250-352 *)
(** what one tag contributes: the offset it refers to, and the bytes it takes *)
Definition track_tag (buf : bytes) (idx : nat) (tag : N) : res (list nat * nat) :=
  let vint := varintdecode (skipn (S idx) buf) in
  if ((tag <? typeVARINT) || (tag =? typePAD) || (tag =? typeREFN) || (tag =? typeWEAKEN) ||
      (tag =? typeUNDEF) || (tag =? typeCANONICAL_UNDEF) || (tag =? typeTRUE) || (tag =? typeFALSE) ||
      (tag =? typeEXTEND) || (tag =? typeREGEXP) || (tag =? typeOBJECT) || (tag =? typeOBJECT_FREEZE))%N
  then Ok ([], 1)
  else if ((tag =? typeVARINT) || (tag =? typeZIGZAG))%N then
    match vint with VBad _ => Err EBadVarint | VOk _ sz => Ok ([], sz + 1) end
  else if (tag =? typeFLOAT)%N then Ok ([], 5)
  else if (tag =? typeDOUBLE)%N then Ok ([], 9)
  else if (tag =? typeLONG_DOUBLE)%N then Ok ([], 17)
  else if ((tag =? typeBINARY) || (tag =? typeSTR_UTF8))%N then
    match vint with
    | VBad _ => Err EBadVarint
    | VOk ln sz =>
        if ((ln <? 0) || (maxUint32 <? ln))%Z then Err EBadStringSize
        else if Nat.ltb (length buf) (idx + sz + Z.to_nat ln + 1) then Err ETruncated
        else Ok ([], sz + Z.to_nat ln + 1)
    end
  else if ((tag =? typeARRAY) || (tag =? typeHASH))%N then
    match vint with VBad _ => Err EBadVarint | VOk _ sz => Ok ([], sz + 1) end
  else if ((tag =? typeCOPY) || (tag =? typeALIAS) || (tag =? typeREFP) || (tag =? typeOBJECTV) ||
           (tag =? typeOBJECTV_FREEZE))%N then
    match vint with
    | VBad _ => Err EBadVarint
    | VOk off sz =>
        if ((off <? 0) || (Z.of_nat idx <=? off))%Z then Err EBadOffset
        else Ok ([Z.to_nat off], sz + 1)
    end
  else if ((typeARRAYREF_0 <=? tag) && (tag <? typeARRAYREF_0 + 16))%N then Ok ([], 1)
  else if ((typeHASHREF_0 <=? tag) && (tag <? typeHASHREF_0 + 16))%N then Ok ([], 1)
  else if ((typeSHORT_BINARY_0 <=? tag) && (tag <? typeSHORT_BINARY_0 + 32))%N then
    Ok ([], 1 + N.to_nat (N.land tag 31))
  else if (tag =? typePACKET_START)%N then Err EUnexpectedStart
  else Err (EUnknownTag tag).

(** The offsets (1-based) to be tracked.  Every round moves forward, so that the length of
    the document bounds the number of rounds. *)
Fixpoint track_loop (fuel : nat) (buf : bytes) (idx : nat) (acc : list nat) : res (list nat) :=
  match nth_error buf idx with
  | None => Ok acc
  | Some tagb =>
      match fuel with
      | O => NoFuel
      | S f =>
          let acc := if tracked_bit tagb then S idx :: acc else acc in
          bind (track_tag buf idx (untrack tagb)) (fun '(offs, n) =>
            track_loop f buf (idx + n) (offs ++ acc))
      end
  end.

(** the keys of the table in increasing order, merge.go 346-350 *)
Fixpoint insert (n : nat) (l : list nat) : list nat :=
  match l with
  | [] => [n]
  | x :: l' => if Nat.ltb n x then n :: l else if Nat.eqb n x then l else x :: insert n l'
  end.
Definition sorted_keys (l : list nat) : list nat := fold_right insert [] l.

Definition buildTrackTable (buf : bytes) : res (list nat) := track_loop (length buf) buf 0 [].

(** * mergeItems, merge.go 354-594 *)
(** readString, merge.go 625-652: where the content begins, and the content *)
Definition isShallowStringish (tag : N) : bool :=
  ((tag =? typeBINARY) || (tag =? typeSTR_UTF8) ||
   ((typeSHORT_BINARY_0 <=? tag) && (tag <? typeSHORT_BINARY_0 + 32)))%N.
Definition readString (buf : bytes) : res (nat * bytes) :=
  match buf with
  | [] => Crash
  | tagb :: rest =>
      let tag := untrack tagb in
      if negb (isShallowStringish tag) then Err (EExpectStringish tag) else
      bind (if (typeSHORT_BINARY_0 <? tag)%N then Ok (Z.of_N (N.land tag 31), 0)
            else match varintdecode rest with VBad _ => Err EBadVarint | VOk ln sz => Ok (ln, sz) end)
           (fun '(ln, sz) =>
      if ((ln <? 0) || (maxUint32 <? ln))%Z then Err EBadStringSize
      else if Nat.ltb (length buf) (S sz + Z.to_nat ln) then Err ETruncated
      else Ok (S sz, firstn (Z.to_nat ln) (skipn (S sz) buf)))
  end.

(** appendTagVarint, merge.go 654-668: the buffer for the number has nine bytes *)
Definition tagVarint (tagb : byte) (n : nat) : res bytes :=
  if (Z.of_nat n <? two63)%Z then Ok (tagb :: varint (N.of_nat n)) else Crash.

(** expectedElements, merge.go 596-619: how many elements, and how many bytes to skip *)
Definition expectedElements (g : mconfig) (b : bytes) : res (Z * nat) :=
  let at1 (n : nat) := match varintdecode (skipn n b) with
                       | VBad _ => Err EBadVarint | VOk ln sz => Ok (ln, sz + n) end in
  if g_flat g then
    match b with
    | b0 :: b1 :: _ =>
        let tag0 := untrack b0 in let tag1 := untrack b1 in
        if (g_top g =? 0)%N then
          if (tag0 =? typeARRAY)%N then at1 1 else Ok (1%Z, 0)
        else if (g_top g =? 1)%N then
          if ((tag0 =? typeREFN) && (tag1 =? typeARRAY))%N then at1 2
          else if ((typeARRAYREF_0 <=? tag0) && (tag0 <? typeARRAYREF_0 + 16))%N
               then Ok (Z.of_N (N.land tag0 15), 1)
               else Ok (1%Z, 0)
        else Ok (1%Z, 0)
    | _ => Crash
    end
  else Ok (1%Z, 0).

(** The cases of the tag switch, in its order. *)
Inductive mkind : Type :=
| KByte | KFake | KVarint | KFixed (n : nat) | KString | KBack | KContainer | KContainerRef
| KRegexp | KObject | KStart | KUnknown.
Definition merge_kind (tag : N) : mkind :=
  (if (tag <? typeVARINT) || (tag =? typeUNDEF) || (tag =? typeCANONICAL_UNDEF) || (tag =? typeTRUE) ||
      (tag =? typeFALSE) || (tag =? typeSHORT_BINARY_0) then KByte
   else if (tag =? typePAD) || (tag =? typeREFN) || (tag =? typeWEAKEN) || (tag =? typeEXTEND) then KFake
   else if (tag =? typeVARINT) || (tag =? typeZIGZAG) then KVarint
   else if tag =? typeFLOAT then KFixed 5
   else if tag =? typeDOUBLE then KFixed 9
   else if tag =? typeLONG_DOUBLE then KFixed 17
   else if tag =? typeSHORT_BINARY_0 + 1 then KFixed 2
   else if (tag =? typeBINARY) || (tag =? typeSTR_UTF8) ||
           ((typeSHORT_BINARY_0 + 1 <? tag) && (tag <? typeSHORT_BINARY_0 + 32)) then KString
   else if (tag =? typeCOPY) || (tag =? typeREFP) || (tag =? typeALIAS) || (tag =? typeOBJECTV) ||
           (tag =? typeOBJECTV_FREEZE) then KBack
   else if (tag =? typeARRAY) || (tag =? typeHASH) then KContainer
   else if ((typeARRAYREF_0 <=? tag) && (tag <? typeARRAYREF_0 + 16)) ||
           ((typeHASHREF_0 <=? tag) && (tag <? typeHASHREF_0 + 16)) then KContainerRef
   else if tag =? typeREGEXP then KRegexp
   else if (tag =? typeOBJECT) || (tag =? typeOBJECT_FREEZE) then KObject
   else if tag =? typePACKET_START then KStart
   else KUnknown)%N.

(** What one round does: bytes appended, bytes consumed, counters pushed, whether the
    element counter stays as it is, the new mrgRelativeIdx, a string to remember in strTable
    or objTable at that index, and a position at which to set the track flag. *)
Record effect := mkEffect {
  f_out : bytes; f_adv : nat; f_push : list N; f_fake : bool; f_rel : nat;
  f_str : option bytes; f_obj : option bytes; f_track : option nat
}.
Definition plain (out : bytes) (adv rel : nat) : effect := mkEffect out adv [] false rel None None None.

(** the offsets of tracked tags in the merged document (None: not seen yet) *)
Notation ttable := (list (nat * option nat)).
Fixpoint tfind (n : nat) (t : ttable) : option nat :=
  match t with [] => None | (i, v) :: t => if Nat.eqb i n then v else tfind n t end.

Definition hashFlag : N := 2147483648.

Definition merge_tag (d : mdoc) (strs objs : list (bytes * nat)) (tt_ : ttable) (didx rel : nat)
  (dedup : bool) (tagb : byte) : res effect :=
  let buf := md_buf d in
  let tag := untrack tagb in
  let vint := varintdecode (skipn (S didx) buf) in
  match merge_kind tag with
  | KByte => Ok (plain [tagb] 1 rel)
  | KFake => Ok (mkEffect [tagb] 1 [] true rel None None None)
  | KVarint =>
      match vint with
      | VBad _ => Err EBadVarint
      | VOk _ sz => bind (drange d didx (didx + sz + 1)) (fun s => Ok (plain s (sz + 1) rel))
      end
  | KFixed n => bind (drange d didx (didx + n)) (fun s => Ok (plain s n rel))
  | KString =>
      bind (if (typeSHORT_BINARY_0 <? tag)%N then Ok (Z.of_N (N.land tag 31), 0)
            else match vint with VBad _ => Err EBadVarint | VOk ln sz => Ok (ln, sz) end)
           (fun '(ln, sz) =>
      if ((ln <? 0) || (maxUint32 <? ln))%Z then Err EBadStringSize else
      let length_ := sz + Z.to_nat ln + 1 in
      if Nat.ltb (length buf) (didx + length_) then Err ETruncated else
      bind (drange d didx (didx + length_)) (fun s =>
      if dedup then
        let val := skipn (S sz) s in
        match assoc val strs with
        | Some saved => bind (tagVarint (n2b typeCOPY) saved) (fun out => Ok (plain out length_ saved))
        | None => Ok (mkEffect s length_ [] false rel (Some val) None None)
        end
      else Ok (plain s length_ rel)))
  | KBack =>
      match vint with
      | VBad _ => Err EBadVarint
      | VOk off sz =>
          match (if (off <? 0)%Z then None else tfind (Z.to_nat off) tt_) with
          | None => Err EBadTarget
          | Some target =>
              bind (tagVarint tagb target) (fun out =>
              Ok (mkEffect out (sz + 1)
                    (if ((tag =? typeOBJECTV) || (tag =? typeOBJECTV_FREEZE))%N then [1%N] else [])
                    false rel None None
                    (if ((tag =? typeALIAS) || (tag =? typeREFP))%N then Some target else None)))
          end
      end
  | KContainer =>
      match vint with
      | VBad _ => Err EBadVarint
      | VOk ln sz =>
          if (ln <? 0)%Z then Err EBadLength else
          bind (drange d didx (didx + sz + 1)) (fun s =>
          let n := if (tag =? typeHASH)%N then N.lor ((2 * Z.to_N ln) mod 4294967296) hashFlag
                   else ((Z.to_N ln) mod 4294967296)%N in
          Ok (mkEffect s (sz + 1) [n] false rel None None None))
      end
  | KContainerRef =>
      let n := if (typeHASHREF_0 <=? tag)%N then N.lor (2 * N.land tag 15) hashFlag else N.land tag 15 in
      Ok (mkEffect [tagb] 1 [n] false rel None None None)
  | KRegexp =>
      bind (readString (skipn (S didx) buf)) (fun '(off1, s1) =>
      let n1 := off1 + length s1 + 1 in
      bind (readString (skipn (didx + n1) buf)) (fun '(off2, s2) =>
      let n := n1 + (off2 + length s2) in
      bind (drange d didx (didx + n)) (fun s => Ok (plain s n rel))))
  | KObject =>
      bind (readString (skipn (S didx) buf)) (fun '(off, cls) =>
      let length_ := off + length cls + 1 in
      match assoc cls objs with
      | Some saved =>
          bind (tagVarint (n2b (if (tag =? typeOBJECT)%N then typeOBJECTV else typeOBJECTV_FREEZE)) saved)
               (fun out => Ok (mkEffect out length_ [1%N] false saved None None None))
      | None =>
          bind (drange d didx (didx + length_)) (fun s =>
          Ok (mkEffect s length_ [1%N] false (S rel) None (Some cls) None))
      end)
  | KStart => Err EUnexpectedStart
  | KUnknown => Err (EUnknownTag tag)
  end.

(** The loop state: m.buf's memory, mbuf, the tables, didx, the stack (innermost level
    first), doc.trackIdxs and doc.trackTable. *)
Record mstate := mkMState {
  s_mem : list bytes; s_buf : slice; s_str : list (bytes * nat); s_obj : list (bytes * nat);
  s_idx : nat; s_stack : list N; s_tidx : list nat; s_ttab : list (nat * option nat)
}.

(** counters at zero are removed, merge.go 390-398 *)
Fixpoint pop_stack (s : list N) : list N :=
  match s with
  | [] => []
  | c :: s' => if (N.land c 2147483647 =? 0)%N then pop_stack s' else s
  end.

(** mbuf[i] |= trackFlag *)
Definition set_track (mem : list bytes) (s : slice) (i : nat) : res (list bytes) :=
  if Nat.ltb i (sl_len s) then
    let a := array mem (sl_arr s) in
    Ok (upd mem (sl_arr s) (upd a (sl_off s + i) (n2b (N.lor (b2n (nth (sl_off s + i) a x00)) trackFlag))))
  else Crash.

(** One round of the loop, merge.go 379-588; None when it ends.  A failing round changes
    nothing. *)
Definition merge_step (g : mconfig) (bodyOffset : nat) (d : mdoc) (st : mstate) : res (option mstate) :=
  match nth_error (md_buf d) (s_idx st) with
  | None => Ok None
  | Some tagb =>
      let docRel := S (s_idx st) in
      let rel := sl_len (s_buf st) - bodyOffset in
      let trackme := match s_tidx st with i :: _ => Nat.eqb i docRel | [] => false end in
      match pop_stack (s_stack st) with
      | [] => Ok None
      | c :: rest =>
          let dedup := g_dedupe g || (negb (N.land c hashFlag =? 0)%N && N.even c) in
          bind (merge_tag d (s_str st) (s_obj st) (s_ttab st) (s_idx st) rel dedup tagb) (fun f =>
          let '(s, mem) := w_append w (s_mem st) (s_buf st) (f_out f) in
          bind (match f_track f with Some i => set_track mem s i | None => Ok mem end) (fun mem =>
          Ok (Some (mkMState mem s
            (match f_str f with Some v => (v, f_rel f) :: s_str st | None => s_str st end)
            (match f_obj f with Some v => (v, f_rel f) :: s_obj st | None => s_obj st end)
            (s_idx st + f_adv f)
            (f_push f ++ (if f_fake f then c else N.pred c) :: rest)
            (if trackme then tl (s_tidx st) else s_tidx st)
            (if trackme then (docRel, Some (f_rel f)) :: s_ttab st else s_ttab st)))))
      end
  end.

(** the loop; every round moves forward *)
Fixpoint merge_loop (fuel : nat) (g : mconfig) (bodyOffset : nat) (d : mdoc) (st : mstate) : res unit * mstate :=
  match merge_step g bodyOffset d st with
  | Ok None => (Ok tt, st)
  | Ok (Some st') => match fuel with O => (NoFuel, st) | S f => merge_loop f g bodyOffset d st' end
  | Err e => (Err e, st) | Panic e => (Panic e, st) | Crash => (Crash, st) | NoFuel => (NoFuel, st)
  end.

(** mergeItems, merge.go 354-594.  [last] is the slice m.buf is reset to if it fails. *)
Definition mergeItems (g : mconfig) (m : merger) (d : mdoc) (tracked : list nat) : res unit * merger :=
  match expectedElements g (md_buf d) with
  | Ok (n, skip) =>
      if ((n <? 0) || (maxUint32 <? n))%Z then (Err EBadExpected, m) else
      let st := mkMState (m_mem m) (m_buf m) (m_str m) (m_obj m) skip [Z.to_N n]
                  (sorted_keys tracked) (map (fun i => (i, None)) tracked) in
      let '(r, st) := merge_loop (S (length (md_buf d))) g (m_bodyOffset m) d st in
      let keep := mkMerger (s_mem st) (m_buf m) (s_str st) (s_obj st) (m_version m) (m_length m)
                    (m_lenOffset m) (m_bodyOffset m) (m_inited m) (m_finished m) in
      match r with
      | Ok _ => (Ok tt, mkMerger (s_mem st) (s_buf st) (s_str st) (s_obj st) (m_version m)
                          (wrap64 (m_length m + n)) (m_lenOffset m) (m_bodyOffset m) (m_inited m) (m_finished m))
      | r => (r, keep)
      end
  | Err e => (Err e, m) | Panic e => (Panic e, m) | Crash => (Crash, m) | NoFuel => (NoFuel, m)
  end.

(** * Append, merge.go 151-202 *)
(** b[headerSize+suffixSize:], decompressed if need be; [spare] is what lies between the
    length and the capacity of b.  The error of documentDecompressor is ignored. *)
Definition merger_doc (b spare : bytes) : res mdoc :=
  bind (readHeader b) (fun h =>
  let start := wrap64 (Z.of_nat headerSize + h_suffixSize h) in
  if ((start <? 0) || (Z.of_nat (length b) <? start))%Z then Crash else
  let body := skipn (Z.to_nat start) b in
  match documentDecompressor (h_version h) (h_doctype h) with
  | Ok (Some dk) => bind (decompress k dk body) (fun d => Ok (mkMDoc d (w_spare w d)))
  | _ => Ok (mkMDoc body spare)
  end).

Definition Append (g : mconfig) (m : merger) (b spare : bytes) : res Z * merger :=
  match initMerger g m with
  | (Ok _, m) =>
      if m_finished m then (Err EFinished, m) else
      match bind (merger_doc b spare) (fun d => bind (buildTrackTable (md_buf d)) (fun t => Ok (d, t))) with
      | Ok (d, tracked) =>
          let last := sl_len (m_buf m) in
          let '(s, mem) := w_append w (m_mem m) (m_buf m) (md_buf d) in
          let m1 := with_buf m (mkSlice (sl_arr s) (sl_off s) last (sl_cap s)) mem in
          match mergeItems g m1 d tracked with
          | (Ok _, m2) => (Ok (wrap64 (m_length m2 - m_length m)), m2)
          | (r, m2) => (bind r (fun _ => NoFuel), m2)
          end
      | r => (bind r (fun _ => NoFuel), m)
      end
  | (r, m) => (bind r (fun _ => NoFuel), m)
  end.

(** * Finish, merge.go 205-248 *)
(** binary.PutUvarint(m.buf[i:], n): panics when the slice is too short *)
Definition put_uvarint (mem : list bytes) (s : slice) (i : nat) (n : Z) : res (list bytes) :=
  let v := varint (to_uint n) in
  if Nat.leb (i + length v) (sl_len s)
  then Ok (upd mem (sl_arr s) (overwrite (array mem (sl_arr s)) (sl_off s + i) v)) else Crash.

(** m.Compression.compress(body): the incremental Snappy compressor writes its result over
    its argument when the capacity allows it (snappy.go 24-28); else it has written the length
    there; the others allocate. *)
Definition compress_at (c : compressor) (mem : list bytes) (s : slice) : res (bytes * list bytes) :=
  bind (compress k c (contents mem s)) (fun z =>
  Ok (z, match c with
         | CSnappy true =>
             let zz := snappy_enc k (contents mem s) in
             let out := if Nat.leb (length z) (sl_cap s) then z
                        else firstn (sl_cap s) (varint (ulen zz)) in
             upd mem (sl_arr s) (overwrite (array mem (sl_arr s)) (sl_off s) out)
         | _ => mem
         end)).

Definition finish_comp (g : mconfig) (m : merger) (c : compressor) : res (option bytes) * merger :=
  match reslice (m_buf m) (S (m_bodyOffset m)) (sl_len (m_buf m)) with
  | None => (Crash, m)
  | Some body =>
      match compress_at c (m_mem m) body with
      | Ok (z, mem) =>
          let mem := copy_into mem body z in
          let m := with_buf m (m_buf m) mem in
          match reslice (m_buf m) 0 (length z + m_bodyOffset m + 1) with
          | None => (Crash, m)
          | Some s =>
              let m := with_buf m s mem in
              let mark (t : N) :=
                let a := array mem (sl_arr s) in
                let mem := upd mem (sl_arr s) (upd a (sl_off s + 4)
                             (n2b (N.lor (b2n (nth (sl_off s + 4) a x00)) (N.shiftl t 4)))) in
                (Ok (Some (contents mem s)), with_buf m s mem) in
              match c with
              | CSnappy false => (Err ESnappyNonIncremental, m)
              | CSnappy true => mark serealSnappyIncremental
              | CZlib _ => if (m_version m <? 3)%N then (Err EZlibV3Only, m) else mark serealZlib
              | CZstd _ => (Err EUndefinedCompression, m)
              end
          end
      | Err e => (Err e, m) | Panic e => (Panic e, m) | Crash => (Crash, m) | NoFuel => (NoFuel, m)
      end
  end.

Definition set_finished (m : merger) (mem : list bytes) : merger :=
  mkMerger mem (m_buf m) (m_str m) (m_obj m) (m_version m) (m_length m) (m_lenOffset m) (m_bodyOffset m)
    (m_inited m) true.

(** The document is returned with its bytes at the time of return. *)
Definition Finish (g : mconfig) (m : merger) : res bytes * merger :=
  match initMerger g m with
  | (Ok _, m) =>
      if m_finished m then (Ok (contents (m_mem m) (m_buf m)), m) else
      match put_uvarint (m_mem m) (m_buf m) (m_lenOffset m) (m_length m) with
      | Ok mem =>
          let m := set_finished m mem in
          match g_comp g with
          | Some c =>
              if ((g_threshold g =? 0) || (g_threshold g <=? Z.of_nat (sl_len (m_buf m))))%Z then
                let '(r, m) := finish_comp g m c in
                (bind r (fun o => match o with Some b => Ok b | None => Ok (contents (m_mem m) (m_buf m)) end), m)
              else (Ok (contents (m_mem m) (m_buf m)), m)
          | None => (Ok (contents (m_mem m) (m_buf m)), m)
          end
      | r => (bind r (fun _ => NoFuel), set_finished m (m_mem m))
      end
  | (r, m) => (bind r (fun _ => NoFuel), m)
  end.
End Merger.

(** A client: Append calls, each with the public fields at that time, the document and what
    lies beyond its end; None as soon as one fails. *)
Record call := mkCall { c_conf : mconfig; c_doc : bytes; c_spare : bytes }.
Fixpoint append_all (k : codecs) (w : mworld) (m : merger) (l : list call) : option merger :=
  match l with
  | [] => Some m
  | c :: l =>
      match Append k w (c_conf c) m (c_doc c) (c_spare c) with
      | (Ok _, m') => append_all k w m' l
      | _ => None
      end
  end.

(** Append calls whether they fail or not: the results, and the Merger afterwards *)
Fixpoint append_each (k : codecs) (w : mworld) (m : merger) (l : list call) : list (res Z) * merger :=
  match l with
  | [] => ([], m)
  | c :: l =>
      let '(r, m) := Append k w (c_conf c) m (c_doc c) (c_spare c) in
      let '(rs, m) := append_each k w m l in (r :: rs, m)
  end.
