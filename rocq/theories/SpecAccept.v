(** Which documents a Merger has to accept.  Nothing here refers to the model of the Merger. *)
From Verif Require Import Base SpecVarint Spec Codecs SpecDoc.

(** the tag number of a byte *)
Definition tag_of (b : byte) : N := (b2n b mod 128)%N.

(** tags that stand alone, and numbers: what follows the tag *)
Definition number (t : N) (l : bytes) : Prop :=
  ((t < 32 \/ t = 37 \/ t = 57 \/ t = 58 \/ t = 59)%N /\ l = []) \/
  ((t = 32 \/ t = 33)%N /\ exists n, vgroups l n /\ length l <= 10 /\ (n < 18446744073709551616)%N) \/
  (t = 34%N /\ length l = 4) \/ (t = 35%N /\ length l = 8) \/ (t = 36%N /\ length l = 16).

(** a literal string whose tag stands at [p] *)
Definition string_at (by_ : bytes) (p : nat) (b : byte) (s : bytes) (e : nat) : Prop :=
  nth_error by_ p = Some b /\ tag_of b <> 63%N /\ exists u, strlit (published 1) by_ p u s e.
(** a class name or part of a regexp: written out, not empty, without a track flag *)
Definition name_at (by_ : bytes) (p : nat) (e : nat) : Prop :=
  exists b s, string_at by_ p b s e /\ s <> [] /\ (b2n b < 128)%N.

(** [laid by_ n seen p seen' p']: [n] elements from [p] up to [p'].  [seen] lists the places of
    the tags before [p], other than those of class names and of the parts of regexps; back
    references are to such places, and not to the byte just before them. *)
Inductive laid (by_ : bytes) : nat -> list nat -> nat -> list nat -> nat -> Prop :=
| ld_none seen p : laid by_ 0 seen p seen p
| ld_prefix n seen p b seen' p' : (* PAD, REFN, WEAKEN *)
    nth_error by_ p = Some b -> (tag_of b = 63 \/ tag_of b = 40 \/ tag_of b = 48)%N ->
    laid by_ (S n) (p :: seen) (S p) seen' p' -> laid by_ (S n) seen p seen' p'
| ld_number n seen p b l seen' p' :
    nth_error by_ p = Some b -> number (tag_of b) l -> at_ by_ (S p) l ->
    laid by_ n (p :: seen) (S p + length l) seen' p' -> laid by_ (S n) seen p seen' p'
| ld_string n seen p b s e seen' p' :
    string_at by_ p b s e -> laid by_ n (p :: seen) e seen' p' -> laid by_ (S n) seen p seen' p'
| ld_back n seen p b o r seen' p' : (* COPY, REFP, ALIAS *)
    nth_error by_ p = Some b -> (tag_of b = 47 \/ tag_of b = 41 \/ tag_of b = 46)%N ->
    vint by_ (S p) o r -> In (N.to_nat o) seen -> N.to_nat o + 1 < p ->
    laid by_ n (p :: seen) r seen' p' -> laid by_ (S n) seen p seen' p'
| ld_array n seen p b m r seen1 p1 seen' p' :
    nth_error by_ p = Some b -> tag_of b = 43%N -> vint by_ (S p) (N.of_nat m) r ->
    laid by_ m (p :: seen) r seen1 p1 -> laid by_ n seen1 p1 seen' p' -> laid by_ (S n) seen p seen' p'
| ld_arrayref n seen p b m seen1 p1 seen' p' :
    nth_error by_ p = Some b -> tag_of b = (64 + N.of_nat m)%N -> m < 16 ->
    laid by_ m (p :: seen) (S p) seen1 p1 -> laid by_ n seen1 p1 seen' p' -> laid by_ (S n) seen p seen' p'
| ld_hash n seen p b m r seen1 p1 seen' p' :
    nth_error by_ p = Some b -> tag_of b = 42%N -> vint by_ (S p) (N.of_nat m) r ->
    laid by_ (2 * m) (p :: seen) r seen1 p1 -> laid by_ n seen1 p1 seen' p' -> laid by_ (S n) seen p seen' p'
| ld_hashref n seen p b m seen1 p1 seen' p' :
    nth_error by_ p = Some b -> tag_of b = (80 + N.of_nat m)%N -> m < 16 ->
    laid by_ (2 * m) (p :: seen) (S p) seen1 p1 -> laid by_ n seen1 p1 seen' p' -> laid by_ (S n) seen p seen' p'
| ld_object n seen p b e seen1 p1 seen' p' : (* OBJECT, OBJECT_FREEZE *)
    nth_error by_ p = Some b -> (tag_of b = 44 \/ tag_of b = 50)%N -> name_at by_ (S p) e ->
    laid by_ 1 (p :: seen) e seen1 p1 -> laid by_ n seen1 p1 seen' p' -> laid by_ (S n) seen p seen' p'
| ld_objectv n seen p b o r seen1 p1 seen' p' : (* OBJECTV, OBJECTV_FREEZE *)
    nth_error by_ p = Some b -> (tag_of b = 45 \/ tag_of b = 51)%N ->
    vint by_ (S p) o r -> In (N.to_nat o) seen -> N.to_nat o + 1 < p ->
    laid by_ 1 (p :: seen) r seen1 p1 -> laid by_ n seen1 p1 seen' p' -> laid by_ (S n) seen p seen' p'
| ld_regexp n seen p b r e seen' p' :
    nth_error by_ p = Some b -> tag_of b = 49%N -> name_at by_ (S p) r -> name_at by_ r e ->
    laid by_ n (p :: seen) e seen' p' -> laid by_ (S n) seen p seen' p'.

(** [mergeable flat top body n]: the body is [n] elements for the merged array, starting
    after the length of an array like the one being built if [flat] (KeepFlat). *)
Definition mergeable (flat : bool) (top : N) (body : bytes) (n : nat) : Prop :=
  let by_ := x00 :: body in
  exists p seen, laid by_ n [] p seen (length by_) /\
  ((p = 1 /\ n = 1 /\ flat = false) \/
   (p = 1 /\ n = 1 /\ exists b0 b1 l, body = b0 :: b1 :: l /\
      (top = 0%N -> tag_of b0 <> 43%N) /\
      (top = 1%N -> ~ (64 <= tag_of b0 < 80)%N /\ (tag_of b0 = 40%N -> tag_of b1 <> 43%N))) \/
   (flat = true /\ top = 0%N /\ nth_error body 0 = Some x2b /\ vint by_ 2 (N.of_nat n) p) \/
   (flat = true /\ top = 1%N /\ nth_error body 0 = Some x28 /\ nth_error body 1 = Some x2b /\ vint by_ 3 (N.of_nat n) p) \/
   (flat = true /\ top = 1%N /\ p = 2 /\ n < 16 /\ nth_error body 0 = Some (n2b (64 + N.of_nat n)) /\ 2 <= length body)).

(** [b] is a document with this body, well-formed or not, whose length this package's header
    parser and decompressors accept *)
Definition carries (k : codecs) (b body : bytes) : Prop :=
  exists ver typ suffix pre packed, b = pre ++ packed /\ preamble ver typ suffix pre /\
    packing k 2147483647 ver typ packed body /\ (N.of_nat (length b) <= 281474976710656)%N /\
    (N.of_nat (length body) < 2147483647)%N.
