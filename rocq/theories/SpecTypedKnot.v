(** Independent specification: graphs of variables of Go types, and two such graphs being the same.
    Nothing here refers to the encoder or decoder. *)
From Verif Require Import Base GoMem GoTypes TypedMem Spec SpecValue SpecTyped.
From Coq Require Import Permutation.

(** * Memory in which every variable has a type *)
Section Shape.
Variable v : goenv.
Variable lay : layout.
Variable h : heap.
(** the types of the variables (elements and fields are variables, too) *)
Variable sty : loc -> option gtype.
(** the variables that pointers point to *)
Variable target : loc -> Prop.

(** [shape ty x]: the Go value [x] has type [ty].  Only the value itself and the entries of its maps
    are looked at, so the variables may refer to each other in any way.  Pointers point to structs.
    float32 values survive the conversion to float64 and back (signalling NaNs do not). *)
Inductive shape : gtype -> gval -> Prop :=
| sp_int k z : ikind_in k z -> shape (TyInt k) (GInt k false z)
| sp_bool b : shape TyBool (GBool b)
| sp_f32 u : narrow v (widen v u) = u -> shape TyF32 (GF32 u)
| sp_f64 u : shape TyF64 (GF64 u)
| sp_str s : shape TyStr (GStr s)
| sp_bytes w : shape (TySlice (TyInt KUint8)) (GBytes w)
| sp_slice t base n : (forall i, i < n -> sty (base + i) = Some t) -> shape (TySlice t) (GTSlice false base n)
| sp_array n t base : (forall i, i < n -> sty (base + i) = Some t) -> shape (TyArr n t) (GTSlice true base n)
| sp_map t l m : htmap h l = map (fun kv => (GStr (fst kv), snd kv)) m ->
    (forall k x, In (k, x) m -> shape t x) -> shape (TyMap t) (GTMap l)
| sp_nilptr id : shape (TyPtr (TyStruct id)) GNilPtr
| sp_ptr id l : target l -> sty l = Some (TyStruct id) -> shape (TyPtr (TyStruct id)) (GPtr false l)
| sp_struct id base :
    (forall k i, serialised (fields_of v id) k i -> exists f t,
       nth_error (st_fields (decls v id)) i = Some (f, t) /\ f_exported f = true /\ sty (base + i) = Some t) ->
    shape (TyStruct id) (GStruct (st_name (decls v id)) (fields_of v id) base).

(** every variable holds a value of its type, and different structs that pointers point to have
    different addresses *)
Definition typed_memory : Prop :=
  (forall l t, sty l = Some t -> shape t (hget h l)) /\
  (forall l l', target l -> target l' -> at_cell lay l = at_cell lay l' -> l = l').
End Shape.

(** * The same graph *)
Section GraphSame.
Variable v : goenv.
Variable h : heap.
Variable mem : memory.

(** [gsame R ty x m K]: [x] in memory [h] and the content [m] of a variable in [mem], both of type [ty],
    are the same, where [R l l'] says which struct [l'] corresponds to the struct [l].  Slices and maps
    are compared by their contents, maps in any order; fields that are not serialised are zero.
    [K] lists the cells of the slices and maps in [m]. *)
Section Same.
Variable R : loc -> mloc -> Prop.
Inductive gsame : gtype -> gval -> mval -> list mloc -> Prop :=
| gs_int k z : gsame (TyInt k) (GInt k false z) (MInt z) []
| gs_bool b : gsame TyBool (GBool b) (MBool b) []
| gs_f32 u : gsame TyF32 (GF32 u) (MF32 u) []
| gs_f64 u : gsame TyF64 (GF64 u) (MF64 u) []
| gs_str s : gsame TyStr (GStr s) (MStr s) []
| gs_bytes w l : nth_error mem l = Some (MCell (MArr (map (fun b => MInt (Z.of_N (b2n b))) (hview h w)))) ->
    gsame (TySlice (TyInt KUint8)) (GBytes w) (MSlice (Some l)) [l]
| gs_slice t base n l ms K : nth_error mem l = Some (MCell (MArr ms)) -> gsames t (cells h base n) ms K ->
    gsame (TySlice t) (GTSlice false base n) (MSlice (Some l)) (l :: K)
| gs_array n t base ms K : gsames t (cells h base n) ms K -> gsame (TyArr n t) (GTSlice true base n) (MArr ms) K
| gs_map t l m l' es K : Permutation (htmap h l) (map (fun kv => (GStr (fst kv), snd kv)) m) ->
    nth_error mem l' = Some (MEntries es) -> map fst es = map fst m -> gsames t (map snd m) (map snd es) K ->
    gsame (TyMap t) (GTMap l) (MMap (Some l')) (l' :: K)
| gs_nilptr t : gsame (TyPtr t) GNilPtr (MPtr None) []
| gs_ptr t l l' : R l l' -> gsame (TyPtr t) (GPtr false l) (MPtr (Some l')) []
| gs_struct id base fs tags K : field_table (fields_of v id) tags -> gsamef id base fs tags K ->
    (forall i f t, nth_error (st_fields (decls v id)) i = Some (f, t) ->
       (forall k, ~ serialised (fields_of v id) k i) -> msfield v id i fs = mzero t) ->
    gsame (TyStruct id) (GStruct (st_name (decls v id)) (fields_of v id) base) (MStruct fs) K
with gsames : gtype -> list gval -> list mval -> list mloc -> Prop :=
| gss_nil t : gsames t [] [] []
| gss_cons t x xs m ms K K' : gsame t x m K -> gsames t xs ms K' -> gsames t (x :: xs) (m :: ms) (K ++ K')
(** the serialised fields *)
with gsamef : nat -> loc -> list (nat * mval) -> list (bytes * nat) -> list mloc -> Prop :=
| gsf_nil id base fs : gsamef id base fs [] []
| gsf_cons id base fs k i f t tags K K' : nth_error (st_fields (decls v id)) i = Some (f, t) ->
    gsame t (hget h (base + i)) (msfield v id i fs) K -> gsamef id base fs tags K' ->
    gsamef id base fs ((k, i) :: tags) (K ++ K').
End Same.

(** The graph of [x] in [h] and the graph of the content [m] in [mem] are the same: structs
    correspond one to one, and those that correspond have the same contents.  [K] are the cells of the
    slices and maps in [m], [own l'] those in the struct [l']; no two of them are the same, so nothing is
    shared but the structs to which pointers are shared.  All of them satisfy [P]. *)
Definition same_graph (sty : loc -> option gtype) (P : mloc -> Prop) (ty : gtype) (x : gval) (m : mval) : Prop :=
  exists (R : loc -> mloc -> Prop) (K : list mloc) (own : mloc -> list mloc),
    gsame R ty x m K /\
    (forall l l', R l l' -> exists t m', sty l = Some t /\ nth_error mem l' = Some (MCell m') /\
       gsame R t (hget h l) m' (own l')) /\
    (forall l l1 l2, R l l1 -> R l l2 -> l1 = l2) /\
    (forall l1 l2 l', R l1 l' -> R l2 l' -> l1 = l2) /\
    NoDup K /\ (forall c, In c K -> P c) /\
    (forall l l', R l l' -> NoDup (l' :: own l') /\ (forall c, In c (l' :: own l') -> P c /\ ~ In c K)) /\
    (forall l1 l1' l2 l2', R l1 l1' -> R l2 l2' -> l1' <> l2' -> forall c, In c (l1' :: own l1') -> ~ In c (l2' :: own l2')).
End GraphSame.
