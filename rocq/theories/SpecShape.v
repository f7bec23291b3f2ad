(** Independent specification of the shape of documents, without their meaning
    (sereal_spec.pod), as lenient as the reader in the following points only:
    - lengths and offsets are taken modulo 2^64;
    - COPY may refer to any earlier byte that begins an item, even before the body;
    - the class name of OBJECTV and OBJECTV_FREEZE may be anywhere, even at a COPY tag;
    - the one element of the array after a frozen object may be any item;
    - REFP and ALIAS may refer to an item they are inside of;
    - the length announced by zlib documents is ignored;
    - the announced header length may wrap around.
    Nothing here refers to the encoder or decoder. *)
From Verif Require Import Base SpecVarint Spec Codecs SpecDoc SpecHeader SpecShare.

Definition wrap_u64 (n : N) : N := (n mod 18446744073709551616)%N.
Definition longest : N := 2147483647.

Section Shape.
Variable by_ : bytes.

(** a varint at [p] with value [n], ending before [p'] *)
Definition lvint (p : nat) (n : N) (p' : nat) : Prop :=
  exists l m, at_ by_ p l /\ vgroups l m /\ length l <= 10 /\ n = wrap_u64 m /\ p' = p + length l.

(** a literal string *)
Inductive text_shape : nat -> nat -> Prop :=
| ts_short p q t : tag_at by_ p q t -> (96 <= t < 128)%N -> S q + N.to_nat (t - 96) <= length by_ ->
    text_shape p (S q + N.to_nat (t - 96))
| ts_long p q t n r : tag_at by_ p q t -> (t = 38 \/ t = 39)%N -> lvint (S q) n r -> (n <= longest)%N ->
    r + N.to_nat n <= length by_ -> text_shape p (r + N.to_nat n).

(** a literal string or, if [ok], a COPY of one *)
Inductive name_shape (ok : bool) : nat -> nat -> Prop :=
| ns_text p p' : text_shape p p' -> name_shape ok p p'
| ns_copy p q n r e : ok = true -> tag_at by_ p q 47 -> lvint (S q) n r -> N.to_nat n < q ->
    text_shape (N.to_nat n) e -> name_shape ok p r.

(** [shape ok E p p' X]: after the tags at [E], the bytes from [p] to [p'] are one item; the
    tags at [X] are met.  [ok]: COPY tags are allowed. *)
Inductive shape : bool -> list nat -> nat -> nat -> list nat -> Prop :=
| h_item ok E p q t p' X : tag_at by_ p q t -> tag_shape ok (q :: E) q t p' X -> shape ok E p p' (X ++ [q])
(** the same for an item whose tag [t] stands at [q] *)
with tag_shape : bool -> list nat -> nat -> N -> nat -> list nat -> Prop :=
| h_small ok E q t : (t < 32 \/ t = 37 \/ t = 57 \/ t = 58 \/ t = 59)%N -> tag_shape ok E q t (S q) []
| h_varint ok E q t n r : (t = 32 \/ t = 33)%N -> lvint (S q) n r -> tag_shape ok E q t r []
| h_float ok E q : S q + 4 <= length by_ -> tag_shape ok E q 34 (S q + 4) []
| h_double ok E q : S q + 8 <= length by_ -> tag_shape ok E q 35 (S q + 8) []
| h_string ok E q t p' : (t = 38 \/ t = 39 \/ 96 <= t < 128)%N -> text_shape q p' -> tag_shape ok E q t p' []
| h_ref ok E q t p' X : (t = 40 \/ t = 48)%N -> shape ok E (S q) p' X -> tag_shape ok E q t p' X
| h_array ok E q n r p' X : lvint (S q) n r -> (n <= longest)%N ->
    shapes ok E (N.to_nat n) r p' X -> tag_shape ok E q 43 p' X
| h_arrayref ok E q t p' X : (64 <= t < 80)%N -> shapes ok E (N.to_nat (t - 64)) (S q) p' X ->
    tag_shape ok E q t p' X
| h_hash ok E q n r p' X : lvint (S q) n r -> (n <= longest)%N ->
    pair_shapes ok E (N.to_nat n) r p' X -> tag_shape ok E q 42 p' X
| h_hashref ok E q t p' X : (80 <= t < 96)%N -> pair_shapes ok E (N.to_nat (t - 80)) (S q) p' X ->
    tag_shape ok E q t p' X
| h_object ok E q r p' X : name_shape ok (S q) r -> shape ok E r p' X -> tag_shape ok E q 44 p' X
| h_objectv ok E q n r e p' X : lvint (S q) n r -> name_shape ok (N.to_nat n) e ->
    shape ok E r p' X -> tag_shape ok E q 45 p' X
| h_regexp ok E q r p' : name_shape ok (S q) r -> name_shape ok r p' -> tag_shape ok E q 49 p' []
| h_freeze ok E q r x p' X : name_shape ok (S q) r -> at_ by_ r [x28; x2b] -> lvint (S (S r)) 1 x ->
    shape ok E r p' X ->
    tag_shape ok E q 50 p' X
| h_freezev ok E q n r e x p' X : lvint (S q) n r -> name_shape ok (N.to_nat n) e ->
    at_ by_ r [x28; x2b] -> lvint (S (S r)) 1 x -> shape ok E r p' X -> tag_shape ok E q 51 p' X
| h_copy E q n r e X : lvint (S q) n r -> N.to_nat n < q -> shape false E (N.to_nat n) e X ->
    tag_shape true E q 47 r X
| h_back ok E q t n r : (t = 41 \/ t = 46)%N -> lvint (S q) n r -> In (N.to_nat n) E ->
    marked by_ (N.to_nat n) -> tag_shape ok E q t r []
with shapes : bool -> list nat -> nat -> nat -> nat -> list nat -> Prop :=
| hs_nil ok E p : shapes ok E 0 p p []
| hs_cons ok E k p r X p' Y : shape ok E p r X -> shapes ok (X ++ E) k r p' Y ->
    shapes ok E (S k) p p' (Y ++ X)
with pair_shapes : bool -> list nat -> nat -> nat -> nat -> list nat -> Prop :=
| hp_nil ok E p : pair_shapes ok E 0 p p []
| hp_cons ok E k p r r' X p' Y : name_shape ok p r -> shape ok E r r' X ->
    pair_shapes ok (X ++ E) k r' p' Y -> pair_shapes ok E (S k) p p' (Y ++ X).
End Shape.

(** [packed] begins with a length and [z] of that length *)
Definition lcounted (packed z : bytes) : Prop :=
  exists n r, lvint packed 0 n r /\ (n <= longest)%N /\ N.of_nat (length z) = n /\ at_ packed r z.

Inductive unpacks (k : codecs) (ver : N) : N -> bytes -> bytes -> Prop :=
| up_raw body : unpacks k ver 0 body body
| up_snappy z body : ver = 1%N -> snappy_dec k z = Some body -> unpacks k ver 1 z body
| up_snappy_inc packed z body : lcounted packed z -> snappy_dec k z = Some body -> unpacks k ver 2 packed body
| up_zlib packed n r z body : (3 <= ver)%N -> lvint packed 0 n r -> lcounted (skipn r packed) z ->
    zlib_open k z = true -> zlib_dec k z = Some body -> unpacks k ver 3 packed body
| up_zstd packed z body : (4 <= ver)%N -> lcounted packed z -> zstd_dec k z = Some body ->
    unpacks k ver 4 packed body.

(** [b] has the shape of a document *)
Definition document_shape (k : codecs) (b : bytes) : Prop := exists ver typ l n rest body e X,
  starts b ver typ l n rest /\ (body_start l n <= N.of_nat (length b))%N /\
  let bs := N.to_nat (body_start l n) in
  unpacks k ver typ (skipn bs b) body /\
  if (ver =? 1)%N then shape (firstn bs b ++ body) true [] bs e X
  else 1 <= bs /\ shape (skipn (bs - 1) (firstn bs b) ++ body) true [] 1 e X.

(** The header suffix of [b] is empty, has the user bit clear, or holds an item. *)
Definition suffix_shape (b : bytes) : Prop := exists ver typ l n rest,
  starts b ver typ l n rest /\ (body_start l n <= N.of_nat (length b))%N /\
  let bs := N.to_nat (body_start l n) in
  (bs = 6 \/ exists f, nth_error b (5 + length l) = Some f /\
     (N.even (b2n f) = true \/ exists e X, shape (firstn bs b) true [] (6 + length l) e X)).

(** [by_]: the document [b] with its body unpacked *)
Definition opened (k : codecs) (b by_ : bytes) : Prop := exists ver typ l n rest body,
  starts b ver typ l n rest /\ unpacks k ver typ (skipn (N.to_nat (body_start l n)) b) body /\
  by_ = firstn (N.to_nat (body_start l n)) b ++ body.

(** a REFP, ALIAS, OBJECT_FREEZE or OBJECTV_FREEZE tag, or a byte that looks like one *)
Definition back_or_frozen (x : byte) : Prop := exists t, In t [41; 46; 50; 51]%N /\ (b2n x = t \/ b2n x = t + 128)%N.
