(** What a Merger takes for a document: independent specification of the layout of the bytes it
    accepts.  It is lenient in the following points only:
    - the bytes may end between two tags, however many elements are still missing, and within a
      floating point number or a string of one byte;
    - hash keys may be any items;
    - numbers of elements count modulo 2^31;
    - a class name or part of a regexp with the tag of the empty short string is read as if a
      length followed;
    - what follows the elements is arbitrary;
    - versions 5 to 15, which do not exist, are taken, and bodies of types which the version does
      not have are taken as they are.
    Nothing here refers to the model of the Merger. *)
From Verif Require Import Base SpecVarint Spec Codecs SpecDoc SpecHeader SpecShape SpecAccept.

(** what is left of a number of elements *)
Definition low31 (n : N) : nat := N.to_nat (n mod 2147483648).

Section Taken.
Variable by_ : bytes.

(** the tag [t] stands at [p] *)
Definition tag_on (p : nat) (t : N) : Prop := exists b, nth_error by_ p = Some b /\ t = tag_of b.

(** a varint for a number that is not negative as int *)
Definition count_at (p : nat) (n : N) (r : nat) : Prop := lvint by_ p n r /\ (n < 9223372036854775808)%N.

(** a string right at [p], with its bytes *)
Definition long_text (p : nat) (e : nat) : Prop :=
  exists n r, count_at (S p) n r /\ (n <= 4294967295)%N /\ e = r + N.to_nat n /\ e <= length by_.
Inductive name_taken : nat -> nat -> Prop :=
| nt_short p t : tag_on p t -> (96 < t < 128)%N -> S p + N.to_nat (t - 96) <= length by_ ->
    name_taken p (S p + N.to_nat (t - 96))
| nt_long p t e : tag_on p t -> (t = 38 \/ t = 39 \/ t = 96)%N -> long_text p e -> name_taken p e.

(** the tag [t] at [p], after the tags at [E], is an item without items inside, up to [r] *)
Inductive leaf_taken (E : list nat) (p : nat) (t : N) : nat -> Prop :=
| lf_byte : (t < 32 \/ t = 37 \/ t = 57 \/ t = 58 \/ t = 59 \/ t = 96)%N -> leaf_taken E p t (S p)
| lf_varint n r : (t = 32 \/ t = 33)%N -> lvint by_ (S p) n r -> leaf_taken E p t r
(** these may be cut short *)
| lf_fixed n : (t = 34 /\ n = 5 \/ t = 35 /\ n = 9 \/ t = 36 /\ n = 17 \/ t = 97 /\ n = 2)%N ->
    leaf_taken E p t (p + N.to_nat n)
| lf_short : (98 <= t < 128)%N -> S p + N.to_nat (t - 96) <= length by_ -> leaf_taken E p t (S p + N.to_nat (t - 96))
| lf_long e : (t = 38 \/ t = 39)%N -> long_text p e -> leaf_taken E p t e
| lf_back n r : (t = 47 \/ t = 41 \/ t = 46)%N -> count_at (S p) n r -> In (N.to_nat n) E -> leaf_taken E p t r
| lf_regexp e e' : t = 49%N -> name_taken (S p) e -> name_taken e e' -> leaf_taken E p t e'.

(** ... is an item with [m] items inside, the first of them at [r] *)
Inductive nest_taken (E : list nat) (p : nat) (t : N) : nat -> nat -> Prop :=
| ne_array n r : t = 43%N -> count_at (S p) n r -> nest_taken E p t (low31 n) r
| ne_hash n r : t = 42%N -> count_at (S p) n r -> nest_taken E p t (low31 (2 * n)) r
| ne_arrayref : (64 <= t < 80)%N -> nest_taken E p t (N.to_nat (t - 64)) (S p)
| ne_hashref : (80 <= t < 96)%N -> nest_taken E p t (2 * N.to_nat (t - 80)) (S p)
| ne_object r : (t = 44 \/ t = 50)%N -> name_taken (S p) r -> nest_taken E p t 1 r
| ne_objectv n r : (t = 45 \/ t = 51)%N -> count_at (S p) n r -> In (N.to_nat n) E -> nest_taken E p t 1 r.

(** [taken n E p E' p']: [n] items from [p], after the tags at [E], up to [p'] or to the end of
    the bytes; the tags at [E'] have been met then. *)
Inductive taken : nat -> list nat -> nat -> list nat -> nat -> Prop :=
| tk_none E p : taken 0 E p E p
| tk_end n E p : length by_ <= p -> taken n E p E p
| tk_prefix n E p t E' p' : (* PAD, REFN, WEAKEN, EXTEND *)
    tag_on p t -> (t = 63 \/ t = 40 \/ t = 48 \/ t = 62)%N ->
    taken (S n) (p :: E) (S p) E' p' -> taken (S n) E p E' p'
| tk_leaf n E p t r E' p' : tag_on p t -> leaf_taken E p t r -> taken n (p :: E) r E' p' -> taken (S n) E p E' p'
| tk_nest n E p t m r E1 p1 E' p' : tag_on p t -> nest_taken E p t m r ->
    taken m (p :: E) r E1 p1 -> taken n E1 p1 E' p' -> taken (S n) E p E' p'.

(** how many elements are taken for the merged array, and where they begin *)
Inductive elements (flat : bool) (top : N) : N -> nat -> Prop :=
| el_whole : flat = false -> elements flat top 1 1
| el_other t t2 : flat = true -> tag_on 1 t -> tag_on 2 t2 -> (top = 0 -> t <> 43)%N ->
    (top = 1 -> ~ (t = 40 /\ t2 = 43) /\ ~ (64 <= t < 80))%N -> elements flat top 1 1
| el_array n r : flat = true -> top = 0%N -> tag_on 1 43 -> count_at 2 n r -> elements flat top n r
| el_refn n r : flat = true -> top = 1%N -> tag_on 1 40 -> tag_on 2 43 -> count_at 3 n r -> elements flat top n r
| el_arrayref t : flat = true -> top = 1%N -> tag_on 1 t -> (64 <= t < 80)%N -> elements flat top (t - 64) 2.
End Taken.

(** [b] has a header of this form ([starts], SpecHeader.v, for all versions that fit) and this body *)
Definition body_taken (k : codecs) (b body : bytes) : Prop := exists ver typ l n rest vt,
  (1 <= ver <= 15)%N /\ b = magic ver ++ [vt] ++ l ++ rest /\ b2n vt = (ver + 16 * typ)%N /\ vgroups l n /\
  length l <= 10 /\ (body_start l n <= N.of_nat (length b))%N /\
  let packed := skipn (N.to_nat (body_start l n)) b in
  (unpacks k ver typ packed body \/ (~ type_defined ver typ /\ body = packed)).
