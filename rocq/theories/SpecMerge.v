(** Specifications for merging; nothing here refers to the model of the Merger. *)
From Verif Require Import Base SpecVarint Spec Codecs SpecDoc.

(** A reader that wants back references to point at tags, never at padding before a tag. *)
Definition direct (rd : reader) : reader :=
  mkReader (fun s => let g := r_dialect rd s in
              mkDialect (g_start g) (g_max g) (g_even g) (g_nest g) true (g_frz g))
    (r_packed rd) (r_memory rd).

(** No empty class name, and no empty pattern or modifiers of a regexp. *)
Fixpoint named (d : data) : Prop :=
  match d with
  | DArr l => (fix all l := match l with [] => True | x :: l => named x /\ all l end) l
  | DHash l => (fix all l := match l with [] => True | (_, x) :: l => named x /\ all l end) l
  | DRef d | DWeak d => named d
  | DObj cls d => cls <> [] /\ named d
  | DFreeze cls _ => cls <> []
  | DRegexp p m => p <> [] /\ m <> []
  | _ => True
  end.

(** What a document adds to the merged array: its value or, with KeepFlat, the elements of
    an array like the one being built.  [top]: 0 for ARRAY, 1 for REFN ARRAY. *)
Definition parts (flat : bool) (top : N) (d : data) : list data :=
  match d with
  | DArr ds => if flat && (top =? 0)%N then ds else [d]
  | DRef (DArr ds) => if flat && (top =? 1)%N then ds else [d]
  | _ => [d]
  end.
Definition merged (top : N) (ds : list data) : data :=
  if (top =? 0)%N then DArr ds else DRef (DArr ds).

(** no padding before the first tag, nor after it if it is REFN *)
Definition plain_start (body : bytes) : Prop :=
  match body with
  | b0 :: b1 :: _ => ~ pad_byte b0 /\ ((b2n b0 mod 128 = 40)%N -> ~ pad_byte b1)
  | _ => True
  end.

(** [b] is a document for [d] of version 2 or later, with COPY tags only for keys, class names
    and strings of regexps, and no back references to padding, less than 2^31-1 bytes when
    unpacked. *)
Definition source (rd : reader) (k : codecs) (flat : bool) (b : bytes) (d : data) : Prop :=
  named d /\
  exists ver typ suffix body e, document_in CKeys (direct rd) k b ver typ suffix d body e /\ ver <> 1%N /\
    (N.of_nat (length body) < 2147483647)%N /\
    (flat = true -> plain_start body).
