(** Independent specification: what a Sereal document body means (written from
    sereal_spec.pod), and when a Go value in memory stands for a piece of data.
    Nothing here refers to the encoder or decoder. *)
From Verif Require Import Base SpecVarint GoMem.
From Coq Require Import Permutation.

(** * Data *)

(** The data a document describes.  A hash is its list of entries in document order. *)
Inductive data : Type :=
| DUndef | DCanon
| DBool (b : bool)
| DInt (z : Z)
| DF32 (bits : N) | DF64 (bits : N)
| DStr (s : bytes)                       (* text *)
| DBin (s : bytes)                       (* byte string *)
| DArr (l : list data)
| DHash (l : list (bytes * data))
| DRef (d : data)
| DWeak (d : data)
| DObj (cls : bytes) (d : data)
| DRegexp (p m : bytes)
| DFreeze (cls : bytes) (d : bytes)      (* frozen object with a single byte string *)
| DBack (d : data).                      (* reference to data described elsewhere (SpecShare) *)

(** * The wire format (sereal_spec.pod, sections "VARIABLE LENGTH INTEGER ENCODING",
      "TAGS", "THE COPY TAG") *)

(** the bytes [l] stand at offset [p] *)
Definition at_ (by_ : bytes) (p : nat) (l : bytes) : Prop :=
  exists pre post, by_ = pre ++ l ++ post /\ length pre = p.

(** a varint at [p], ending before [p'], with value [n] (at most 64 bits) *)
Definition vint (by_ : bytes) (p : nat) (n : N) (p' : nat) : Prop :=
  exists l, at_ by_ p l /\ vgroups l n /\ length l <= 10 /\
            (n < 18446744073709551616)%N /\ p' = p + length l.

(** PAD, with or without the track bit *)
Definition pad_byte (b : byte) : Prop := (b2n b = 63 \/ b2n b = 191)%N.

(** after optional padding from [p] on, the tag with number [t] (track bit removed)
    stands at [q] *)
Definition tag_at (by_ : bytes) (p q : nat) (t : N) : Prop :=
  p <= q /\ (forall i, p <= i < q -> exists b, nth_error by_ i = Some b /\ pad_byte b) /\
  exists b, nth_error by_ q = Some b /\ t = (b2n b mod 128)%N /\ t <> 63%N.

(** little-endian number *)
Fixpoint le_val (l : bytes) : N :=
  match l with [] => 0 | b :: t => b2n b + 256 * le_val t end%N.

(** What ZIGZAG-encoded numbers mean: 0, -1, 1, -2, 2, ... *)
Definition zigzag_meaning (n : N) : Z :=
  if N.even n then Z.of_N (n / 2) else (- Z.of_N (n / 2) - 1)%Z.

(** Where COPY tags are allowed: anywhere, only as hash keys, class names and strings of
    a regexp, or nowhere. *)
Inductive cmode := CAny | CKeys | CNone.

(** A dialect: restrictions some implementation puts on documents.
    [g_start]: smallest offset a back reference may have;
    [g_max]: longest string or container;
    [g_even]: are even (non-negative) zigzag numbers allowed;
    [g_nest]: which COPY tags a copied item may contain;
    [g_direct]: must a back reference point at a tag, not at padding before it;
    [g_frz cls data]: is this frozen object allowed. *)
Record dialect := mkDialect {
  g_start : nat;
  g_max : N;
  g_even : bool;
  g_nest : cmode;
  g_direct : bool;
  g_frz : bytes -> bytes -> Prop
}.

(** The published format; back references point at [start] or later. *)
Definition published (start : nat) : dialect :=
  mkDialect start 18446744073709551615 true CKeys false (fun _ _ => True).

Definition copy_ok (m : cmode) : bool := match m with CNone => false | _ => true end.

Section Grammar.
Variable g : dialect.
Variable by_ : bytes.

(** a back reference may point at [n] *)
Definition refers (n : nat) : Prop :=
  g_start g <= n /\ (g_direct g = true -> forall b, nth_error by_ n = Some b -> ~ pad_byte b).

(** A literal string at [p]: (is it text, content, end). *)
Inductive strlit : nat -> bool -> bytes -> nat -> Prop :=
| lit_short p q t s : tag_at by_ p q t -> (96 <= t < 128)%N ->
    at_ by_ (S q) s -> N.of_nat (length s) = (t - 96)%N ->
    strlit p false s (S q + length s)
| lit_binary p q n r s : tag_at by_ p q 38 -> vint by_ (S q) n r -> (n <= g_max g)%N ->
    at_ by_ r s -> N.of_nat (length s) = n ->
    strlit p false s (r + length s)
| lit_utf8 p q n r s : tag_at by_ p q 39 -> vint by_ (S q) n r -> (n <= g_max g)%N ->
    at_ by_ r s -> N.of_nat (length s) = n ->
    strlit p true s (r + length s).

(** A string used as hash key, class name or part of a regexp: a literal or, if
    [ok], a COPY of one. *)
Inductive stringish (ok : bool) : nat -> bytes -> nat -> Prop :=
| str_lit p u s p' : strlit p u s p' -> stringish ok p s p'
| str_copy p q n r u s e : ok = true -> tag_at by_ p q 47 -> vint by_ (S q) n r ->
    N.to_nat n < q -> refers (N.to_nat n) -> strlit (N.to_nat n) u s e ->
    stringish ok p s r.

(** [item m p d p']: the bytes from [p] up to (excluding) [p'] are one item describing [d]. *)
Inductive item : cmode -> nat -> data -> nat -> Prop :=
| i_pos m p q t : tag_at by_ p q t -> (t < 16)%N -> item m p (DInt (Z.of_N t)) (S q)
| i_neg m p q t : tag_at by_ p q t -> (16 <= t < 32)%N -> item m p (DInt (Z.of_N t - 32)) (S q)
| i_varint m p q n r : tag_at by_ p q 32 -> vint by_ (S q) n r -> item m p (DInt (Z.of_N n)) r
| i_zigzag m p q n r : tag_at by_ p q 33 -> vint by_ (S q) n r ->
    (g_even g = true \/ N.even n = false) -> item m p (DInt (zigzag_meaning n)) r
| i_float m p q l : tag_at by_ p q 34 -> at_ by_ (S q) l -> length l = 4 ->
    item m p (DF32 (le_val l)) (S q + 4)
| i_double m p q l : tag_at by_ p q 35 -> at_ by_ (S q) l -> length l = 8 ->
    item m p (DF64 (le_val l)) (S q + 8)
| i_undef m p q : tag_at by_ p q 37 -> item m p DUndef (S q)
| i_canon m p q : tag_at by_ p q 57 -> item m p DCanon (S q)
| i_false m p q : tag_at by_ p q 58 -> item m p (DBool false) (S q)
| i_true m p q : tag_at by_ p q 59 -> item m p (DBool true) (S q)
| i_str m p u s p' : strlit p u s p' -> item m p (if u then DStr s else DBin s) p'
| i_refn m p q d p' : tag_at by_ p q 40 -> item m (S q) d p' -> item m p (DRef d) p'
| i_weaken m p q d p' : tag_at by_ p q 48 -> item m (S q) d p' -> item m p (DWeak d) p'
| i_array m p q n r ds p' : tag_at by_ p q 43 -> vint by_ (S q) n r -> (n <= g_max g)%N ->
    N.of_nat (length ds) = n -> items m r ds p' -> item m p (DArr ds) p'
| i_arrayref m p q t ds p' : tag_at by_ p q t -> (64 <= t < 80)%N ->
    N.of_nat (length ds) = (t - 64)%N -> items m (S q) ds p' -> item m p (DRef (DArr ds)) p'
| i_hash m p q n r kvs p' : tag_at by_ p q 42 -> vint by_ (S q) n r -> (n <= g_max g)%N ->
    N.of_nat (length kvs) = n -> pairs m r kvs p' -> item m p (DHash kvs) p'
| i_hashref m p q t kvs p' : tag_at by_ p q t -> (80 <= t < 96)%N ->
    N.of_nat (length kvs) = (t - 80)%N -> pairs m (S q) kvs p' -> item m p (DRef (DHash kvs)) p'
| i_object m p q cls r d p' : tag_at by_ p q 44 -> stringish (copy_ok m) (S q) cls r ->
    item m r d p' -> item m p (DObj cls d) p'
| i_objectv m p q n r u cls e d p' : tag_at by_ p q 45 -> vint by_ (S q) n r ->
    N.to_nat n < q -> refers (N.to_nat n) -> strlit (N.to_nat n) u cls e ->
    item m r d p' -> item m p (DObj cls d) p'
| i_regexp m p q s1 r s2 p' : tag_at by_ p q 49 -> stringish (copy_ok m) (S q) s1 r ->
    stringish (copy_ok m) r s2 p' -> item m p (DRegexp s1 s2) p'
| i_freeze m p q cls r n r' s p' : tag_at by_ p q 50 -> stringish (copy_ok m) (S q) cls r ->
    at_ by_ r [x28; x2b] -> vint by_ (r + 2) n r' -> n = 1%N ->
    item m r' (DBin s) p' -> g_frz g cls s -> item m p (DFreeze cls s) p'
| i_freezev m p q o r0 u cls e n r' s p' : tag_at by_ p q 51 -> vint by_ (S q) o r0 ->
    N.to_nat o < q -> refers (N.to_nat o) -> strlit (N.to_nat o) u cls e ->
    at_ by_ r0 [x28; x2b] -> vint by_ (r0 + 2) n r' -> n = 1%N ->
    item m r' (DBin s) p' -> g_frz g cls s -> item m p (DFreeze cls s) p'
| i_copy p q n r d e : tag_at by_ p q 47 -> vint by_ (S q) n r ->
    N.to_nat n < q -> refers (N.to_nat n) -> item (g_nest g) (N.to_nat n) d e ->
    item CAny p d r
with items : cmode -> nat -> list data -> nat -> Prop :=
| is_nil m p : items m p [] p
| is_cons m p d r ds p' : item m p d r -> items m r ds p' -> items m p (d :: ds) p'
with pairs : cmode -> nat -> list (bytes * data) -> nat -> Prop :=
| ps_nil m p : pairs m p [] p
| ps_cons m p k r d r' kvs p' : stringish (copy_ok m) p k r -> item m r d r' ->
    pairs m r' kvs p' -> pairs m p ((k, d) :: kvs) p'.
End Grammar.

(** * Go values standing for data *)

(** What a decoded value in memory [h] stands for.  [perl]: the Perl-compatible mode
    keeps undef, references, weak references and objects; the default mode drops them.
    [reg]: the type registered for a class name, if any (it receives the data of frozen
    objects of that class).  [P] holds of every memory cell that the value reaches. *)
Section Repr.
Variable perl : bool.
Variable reg : bytes -> option nat.
Variable P : loc -> Prop.
Variable h : heap.

Inductive repr : gval -> data -> Prop :=
| r_undef : perl = false -> repr GNil DUndef
| r_undef_perl l : perl = true -> P l -> nth_error h l = Some (CV (GUndefV false)) ->
    repr (GPtr false l) DUndef
| r_canon : perl = false -> repr GNil DCanon
| r_canon_perl : perl = true -> repr GCanonUndef DCanon
| r_bool b : repr (GBool b) (DBool b)
| r_int z : (- two63 <= z < two63)%Z -> repr (GInt KInt false z) (DInt z)
| r_uint z : (two63 <= z < two64)%Z -> repr (GInt KUint false z) (DInt z)
| r_f32 u : repr (GF32 u) (DF32 u)
| r_f64 u : repr (GF64 u) (DF64 u)
| r_str s : repr (GStr s) (DStr s)
| r_bin w s : P (vloc w) -> hview h w = s -> repr (GBytes w) (DBin s)
| r_arr base n ds : n = length ds -> reprs base ds -> repr (GSlice base n) (DArr ds)
| r_hash l m kvs : P l -> nth_error h l = Some (CMap m) -> reprm m kvs -> repr (GMap l) (DHash kvs)
| r_ref v d : perl = false -> repr v d -> repr v (DRef d)
| r_ref_perl b l v d : perl = true -> P l -> nth_error h l = Some (CV v) -> repr v d ->
    repr (GPtr b l) (DRef d)
| r_weak v d : perl = false -> repr v d -> repr v (DWeak d)
| r_weak_perl l v d : perl = true -> P l -> nth_error h l = Some (CV v) -> repr v d ->
    repr (GWeakP l) (DWeak d)
| r_obj v cls d : perl = false -> repr v d -> repr v (DObj cls d)
| r_obj_perl l v cls d : perl = true -> P l -> nth_error h l = Some (CV v) -> repr v d ->
    repr (GObjP cls l) (DObj cls d)
| r_regexp l p m s1 s2 : P l -> nth_error h l = Some (CV (GRegexpV p m)) ->
    P (vloc p) -> P (vloc m) -> hview h p = s1 -> hview h m = s2 ->
    repr (GPtr false l) (DRegexp s1 s2)
| r_freeze l cls w s : perl = false -> P l -> nth_error h l = Some (CV (GFreezeV cls w)) ->
    reg cls = None -> P (vloc w) -> hview h w = s -> repr (GPtr false l) (DFreeze cls s)
| r_user t cls w s : perl = false -> reg cls = Some t ->
    P (vloc w) -> hview h w = s -> repr (GUserP t w) (DFreeze cls s)
| r_back l v d : P l -> nth_error h l = Some (CV v) -> repr v d -> repr (GPtr false l) (DBack d)
with reprs : loc -> list data -> Prop :=
| rs_nil l : reprs l []
| rs_cons l v d ds : P l -> nth_error h l = Some (CV v) -> repr v d -> reprs (S l) ds ->
    reprs l (d :: ds)
(** the map contents after assigning the entries in order *)
with reprm : list (bytes * gval) -> list (bytes * data) -> Prop :=
| rm_nil : reprm [] []
| rm_snoc m kvs k v d : reprm m kvs -> repr v d -> reprm (mput m k v) (kvs ++ [(k, d)]).
End Repr.
