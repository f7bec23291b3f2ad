(** What reading data into a variable of a Go type means, and when a Go value and the content
    of a variable of its type are the same.  Nothing here refers to the encoder or decoder. *)
From Verif Require Import Base GoMem GoTypes Spec SpecValue.
From Coq Require Import Permutation.

(** what a pointer may point to for Unmarshal to follow it: a struct, a map or again such a
    pointer *)
Fixpoint hashlike (ty : gtype) : bool :=
  match ty with TyStruct _ | TyMap _ => true | TyPtr t => hashlike t | _ => false end.

(** * Reading data into a variable (default decoding mode) *)
Section Into.
Variable v : goenv.
(** [leaf x d]: the interface{} content [x] stands for [d] *)
Variable leaf : gval -> data -> Prop.

Definition fields_of (id : nat) : list fdecl := map fst (st_fields (decls v id)).

(** the hash key [k] stands for field [i]: the field is serialised as [k], or no field is and
    it is serialised as the title-cased [k] *)
Definition names (id : nat) (k : bytes) (i : nat) : Prop :=
  serialised (fields_of id) k i \/
  ((forall j, ~ serialised (fields_of id) k j) /\ serialised (fields_of id) (title v k) i).

Definition nillable (ty : gtype) : bool :=
  match ty with TyPtr _ | TyMap _ | TySlice _ => true | _ => false end.

(** [into ty cur d x]: reading [d] into a variable of type [ty] holding [cur] makes it [x] *)
Inductive into : gtype -> tval -> data -> tval -> Prop :=
| in_iface d x : leaf x d -> into TyIface (VIface GNil) d (VIface x)
(** a number that does not fit loses its high bits *)
| in_int k cur z n : ikind_in k n -> (n mod 2 ^ ikind_bits k = z mod 2 ^ ikind_bits k)%Z ->
    into (TyInt k) cur (DInt z) (VInt n)
| in_bool cur b : into TyBool cur (DBool b) (VBool b)
| in_f32 cur u : into TyF32 cur (DF32 u) (VF32 (narrow v (widen v u)))
| in_f32_64 cur u : into TyF32 cur (DF64 u) (VF32 (narrow v u))
| in_f64 cur u : into TyF64 cur (DF64 u) (VF64 u)
| in_f64_32 cur u : into TyF64 cur (DF32 u) (VF64 (widen v u))
| in_str cur s : into TyStr cur (DStr s) (VStr s)
| in_str_bin cur s : into TyStr cur (DBin s) (VStr s)
| in_bytes s : into (TySlice (TyInt KUint8)) (VSlice None) (DBin s) (VSlice (Some (map byte_val s)))
| in_bytes_frozen cls s :
    into (TySlice (TyInt KUint8)) (VSlice None) (DFreeze cls s) (VSlice (Some (map byte_val s)))
| in_bytes_array n l s : length l = length s ->
    into (TyArr n (TyInt KUint8)) (VArr l) (DBin s) (VArr (map byte_val s))
(** undef: nil if the type has it, else no change *)
| in_undef ty cur d : d = DUndef \/ d = DCanon -> ty <> TyIface ->
    into ty cur d (if nillable ty then zero ty else cur)
(** references, weak references and class names are dropped *)
| in_ref ty cur d x : into ty cur d x -> into ty cur (DRef d) x
| in_weak ty cur d x : into ty cur d x -> into ty cur (DWeak d) x
| in_obj ty cur cls d x : into ty cur d x -> into ty cur (DObj cls d) x
(** an empty slice is replaced, the elements of others and of arrays are read into *)
| in_slice t cur ds xs : cur = None \/ cur = Some [] ->
    into_each t (repeat (zero t) (length ds)) ds xs ->
    into (TySlice t) (VSlice cur) (DArr ds) (VSlice (Some xs))
| in_slice_over t l ds xs : l <> [] -> into_each t l ds xs ->
    into (TySlice t) (VSlice (Some l)) (DArr ds) (VSlice (Some xs))
| in_array n t l ds xs : into_each t l ds xs -> into (TyArr n t) (VArr l) (DArr ds) (VArr xs)
| in_map t o kvs m : into_map t (match o with None => [] | Some m0 => m0 end) kvs m ->
    into (TyMap t) (VMap o) (DHash kvs) (VMap (Some m))
| in_ptr t o kvs x : hashlike t = true ->
    into t (match o with None => zero t | Some x0 => x0 end) (DHash kvs) x ->
    into (TyPtr t) (VPtr o) (DHash kvs) (VPtr (Some x))
| in_struct id fs kvs us : into_fields id fs kvs us ->
    into (TyStruct id) (VStruct fs) (DHash kvs) (VStruct (rev us ++ fs))
(** element by element; surplus elements are ignored, missing ones leave the rest alone *)
with into_each : gtype -> list tval -> list data -> list tval -> Prop :=
| ie_end t curs : into_each t curs [] curs
| ie_surplus t ds : into_each t [] ds []
| ie_cons t cur curs d ds x xs : into t cur d x -> into_each t curs ds xs ->
    into_each t (cur :: curs) (d :: ds) (x :: xs)
(** new keys only *)
with into_map : gtype -> list (bytes * tval) -> list (bytes * data) -> list (bytes * tval) -> Prop :=
| im_end t m : into_map t m [] m
| im_cons t m k d kvs x m' : mget m k = None -> into t (zero t) d x ->
    into_map t (m ++ [(k, x)]) kvs m' -> into_map t m ((k, d) :: kvs) m'
(** [us]: the fields that are set, each once; unknown keys are ignored *)
with into_fields : nat -> list (nat * tval) -> list (bytes * data) -> list (nat * tval) -> Prop :=
| if_end id fs : into_fields id fs [] []
| if_hit id fs k d kvs i f t x us : names id k i -> nth_error (st_fields (decls v id)) i = Some (f, t) ->
    f_exported f = true -> into t (sfield v id i fs) d x ->
    into_fields id fs kvs us -> ~ In i (map fst us) ->
    into_fields id fs ((k, d) :: kvs) ((i, x) :: us)
| if_miss id fs k d kvs us : (forall i, ~ names id k i) -> into_fields id fs kvs us ->
    into_fields id fs ((k, d) :: kvs) us.
End Into.

(** [d] can be read into a variable of type [ty] holding [cur] *)
Definition readable (v : goenv) (ty : gtype) (cur : tval) (d : data) : Prop :=
  exists x, into v (fun _ _ => True) ty cur d x.

(** nothing in memory [h] has changed; cells may have been added *)
Definition memory_kept (h h' : heap) : Prop := forall l x, nth_error h l = Some x -> nth_error h' l = Some x.

(** * Values of a type *)
Section Typed.
Variable v : goenv.
Variable h : heap.

(** the Go value [x] in memory [h] has type [ty]; pointers are followed as above, no pointer
    points to a nil pointer, and serialised struct fields are exported.  float32 values
    survive the conversion to float64 and back (signalling NaNs do not). *)
Inductive has_type : gtype -> gval -> Prop :=
| ht_iface x : has_type TyIface x
| ht_int k z : ikind_in k z -> has_type (TyInt k) (GInt k false z)
| ht_bool b : has_type TyBool (GBool b)
| ht_f32 u : narrow v (widen v u) = u -> has_type TyF32 (GF32 u)
| ht_f64 u : has_type TyF64 (GF64 u)
| ht_str s : has_type TyStr (GStr s)
| ht_bytes w : has_type (TySlice (TyInt KUint8)) (GBytes w)
| ht_islice base n : has_type (TySlice TyIface) (GSlice base n)
| ht_slice t base n : t <> TyIface -> t <> TyInt KUint8 -> Forall (has_type t) (cells h base n) ->
    has_type (TySlice t) (GTSlice false base n)
| ht_array n t base : Forall (has_type t) (cells h base n) -> has_type (TyArr n t) (GTSlice true base n)
| ht_imap l : has_type (TyMap TyIface) (GMap l)
| ht_map t l m : t <> TyIface -> htmap h l = map (fun kv => (GStr (fst kv), snd kv)) m ->
    Forall (fun kv => has_type t (snd kv)) m -> has_type (TyMap t) (GTMap l)
| ht_nilptr t : hashlike t = true -> has_type (TyPtr t) GNilPtr
| ht_ptr t l : hashlike t = true -> hget h l <> GNilPtr -> has_type t (hget h l) ->
    has_type (TyPtr t) (GPtr false l)
| ht_struct id base :
    (forall k i, serialised (fields_of v id) k i -> exists f t,
       nth_error (st_fields (decls v id)) i = Some (f, t) /\ f_exported f = true /\
       has_type t (hget h (base + i))) ->
    has_type (TyStruct id) (GStruct (st_name (decls v id)) (fields_of v id) base).
End Typed.

(** * Same value: [x] of type [ty] in memory [h], and the content [y] of a variable of type
      [ty], whose interface{} parts are in memory [h'].  nil slices and maps equal empty ones;
      fields that are not serialised are not compared; pointers are compared by what they
      point to. *)
Section SameTyped.
Variable v : goenv.
Variable nofreeze : bool.
Variable pf : bytes -> option N.
Variable reg : bytes -> option nat.
Variable h h' : heap.

Inductive tsame : gtype -> gval -> tval -> Prop :=
| ts_iface x y : same nofreeze pf reg h h' x y -> tsame TyIface x (VIface y)
| ts_int k z : tsame (TyInt k) (GInt k false z) (VInt z)
| ts_bool b : tsame TyBool (GBool b) (VBool b)
| ts_f32 u : tsame TyF32 (GF32 u) (VF32 u)
| ts_f64 u : tsame TyF64 (GF64 u) (VF64 u)
| ts_str s : tsame TyStr (GStr s) (VStr s)
| ts_bytes w : tsame (TySlice (TyInt KUint8)) (GBytes w) (VSlice (Some (map byte_val (hview h w))))
| ts_islice base n ys : Forall2 (tsame TyIface) (cells h base n) ys ->
    tsame (TySlice TyIface) (GSlice base n) (VSlice (Some ys))
| ts_slice t base n ys : Forall2 (tsame t) (cells h base n) ys ->
    tsame (TySlice t) (GTSlice false base n) (VSlice (Some ys))
| ts_array n t base ys : Forall2 (tsame t) (cells h base n) ys ->
    tsame (TyArr n t) (GTSlice true base n) (VArr ys)
| ts_imap l m' : (forall k, mget (hmap h l) k = None <-> mget m' k = None) ->
    (forall k x y, mget (hmap h l) k = Some x -> mget m' k = Some y -> tsame TyIface x y) ->
    tsame (TyMap TyIface) (GMap l) (VMap (Some m'))
| ts_map t l m m' : htmap h l = map (fun kv => (GStr (fst kv), snd kv)) m ->
    (forall k, mget m k = None <-> mget m' k = None) ->
    (forall k x y, mget m k = Some x -> mget m' k = Some y -> tsame t x y) ->
    tsame (TyMap t) (GTMap l) (VMap (Some m'))
| ts_nilptr t : tsame (TyPtr t) GNilPtr (VPtr None)
| ts_ptr t l y : tsame t (hget h l) y -> tsame (TyPtr t) (GPtr false l) (VPtr (Some y))
| ts_struct id base fs :
    (forall k i, serialised (fields_of v id) k i -> exists f t,
       nth_error (st_fields (decls v id)) i = Some (f, t) /\
       tsame t (hget h (base + i)) (sfield v id i fs)) ->
    tsame (TyStruct id) (GStruct (st_name (decls v id)) (fields_of v id) base) (VStruct fs).
End SameTyped.
