(** When bytes given to a Merger lack something that a tag needs.  Nothing here refers to the
    model of the Merger. *)
From Verif Require Import Base SpecVarint Spec Codecs SpecDoc SpecHeader SpecShape SpecAccept SpecTaken.

Section Cut.
Variable by_ : bytes.

(** tags are read at [s] and then at every place where what belongs to the tag before ends *)
Inductive met (s : nat) : nat -> Prop :=
| mt_start : met s s
| mt_prefix p t : met s p -> tag_on by_ p t -> (t = 63 \/ t = 40 \/ t = 48 \/ t = 62)%N -> met s (S p)
| mt_leaf p t E r : met s p -> tag_on by_ p t -> leaf_taken by_ E p t r -> met s r
| mt_nest p t E m r : met s p -> tag_on by_ p t -> nest_taken by_ E p t m r -> met s r.

(** The bytes end within the floating point number or the string of one byte at [p], or where
    the class name of the object at [p], the pattern or the flags of the regexp at [p] should
    begin.  (That longer strings are there is checked.) *)
Inductive cut (p : nat) : Prop :=
| cut_fixed t n : tag_on by_ p t -> (t = 34%N /\ n = 5) \/ (t = 35%N /\ n = 9) \/ (t = 36%N /\ n = 17) \/ (t = 97%N /\ n = 2) ->
    length by_ < p + n -> cut p
| cut_name t : tag_on by_ p t -> (t = 44 \/ t = 50 \/ t = 49)%N -> length by_ <= S p -> cut p
| cut_flags e : tag_on by_ p 49 -> name_taken by_ (S p) e -> length by_ <= e -> cut p.
End Cut.

(** [b] begins with the magic, version and type, and a varint [l] for the length [n] of the
    header suffix *)
Definition headed (b : bytes) (ver typ : N) (l : bytes) (n : N) : Prop := exists vt rest,
  (1 <= ver <= 15)%N /\ b = magic ver ++ [vt] ++ l ++ rest /\ b2n vt = (ver + 16 * typ)%N /\ vgroups l n /\ length l <= 10.

(** What makes Append fail to answer: the body begins beyond the end; a zlib body announces a
    length that cannot be allocated; with KeepFlat, a body of less than two bytes; a tag cut
    short. *)
Inductive hazard (k : codecs) (flat : bool) (top : N) (b : bytes) : Prop :=
| hz_header ver typ l n : headed b ver typ l n -> (N.of_nat (length b) < body_start l n)%N -> hazard k flat top b
| hz_zlib ver l n : headed b ver 3 l n -> (3 <= ver)%N -> ~ zlib_modest (skipn (N.to_nat (body_start l n)) b) -> hazard k flat top b
| hz_flat body : body_taken k b body -> flat = true -> length body < 2 -> hazard k flat top b
| hz_cut body n start p : body_taken k b body -> elements (x00 :: body) flat top n start ->
    met (x00 :: body) start p -> cut (x00 :: body) p -> hazard k flat top b.

(** The tag [t] is read while [b] is merged. *)
Definition meets (k : codecs) (flat : bool) (top : N) (b : bytes) (t : N) : Prop := exists body n start p,
  body_taken k b body /\ elements (x00 :: body) flat top n start /\ met (x00 :: body) start p /\ tag_on (x00 :: body) p t.

(** REFP or ALIAS tags are read *)
Definition refers (k : codecs) (flat : bool) (top : N) (b : bytes) : Prop := meets k flat top b 41 \/ meets k flat top b 46.

(** Hashes or objects with a class name are read, or arrays with 2^31 elements or more (which are
    taken for hashes). *)
Inductive names (k : codecs) (flat : bool) (top : N) (b : bytes) : Prop :=
| nm_tag t : meets k flat top b t -> (t = 42 \/ (80 <= t < 96) \/ t = 44 \/ t = 50)%N -> names k flat top b
| nm_array body n start p m r : body_taken k b body -> elements (x00 :: body) flat top n start ->
    met (x00 :: body) start p -> tag_on (x00 :: body) p 43 -> count_at (x00 :: body) (S p) m r ->
    (2147483648 <= m)%N -> names k flat top b
| nm_top body n start : body_taken k b body -> elements (x00 :: body) flat top n start ->
    (2147483648 <= n)%N -> names k flat top b.
