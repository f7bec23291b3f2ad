(** What Unmarshal may store in a variable of a Go type, for every content of the variable, in the
    default decoding mode.  Where [into] (SpecTyped.v) says what can be read, this says all there
    is.  Nothing here refers to the decoder. *)
From Verif Require Import Base GoMem GoTypes Spec SpecValue SpecTyped.

(** How a variable is reached: it can be set; it is in a map, so that only what its pointers and
    slices refer to can be set; it is behind an unexported field. *)
Inductive access := Free | Entry | Hidden.
Definition below (a : access) : access := match a with Hidden => Hidden | _ => Free end.
Definition entry (a : access) : access := match a with Hidden => Hidden | _ => Entry end.
Definition in_field (a : access) (f : fdecl) : access := if f_exported f then a else Hidden.

(** bytes laid over the first elements *)
Definition overlay (l : list tval) (s : bytes) : list tval := firstn (length l) (map byte_val s) ++ skipn (length s) l.

Section Stores.
Variable v : goenv.
(** [leaf x d]: the interface{} content [x] stands for [d] *)
Variable leaf : gval -> data -> Prop.

(** not a nil interface{} *)
Definition typed (ty : gtype) (cur : tval) : Prop := ~ (ty = TyIface /\ cur = VIface GNil).

(** [stores a ty cur d x]: [d] can make [x] of a variable of type [ty], reached as [a], holding [cur] *)
Inductive stores : access -> gtype -> tval -> data -> tval -> Prop :=
(** a nil interface{} takes everything *)
| st_iface a d x : leaf x d -> a = Free \/ x = GNil -> stores a TyIface (VIface GNil) d (VIface x)
(** an interface{} with a value takes a regexp only (and undef, see below) *)
| st_iface_regexp cur p m x : typed TyIface cur -> leaf x (DRegexp p m) -> stores Free TyIface cur (DRegexp p m) (VIface x)
| st_int k cur z n : ikind_in k n -> (n mod 2 ^ ikind_bits k = z mod 2 ^ ikind_bits k)%Z ->
    stores Free (TyInt k) cur (DInt z) (VInt n)
| st_bool cur b : stores Free TyBool cur (DBool b) (VBool b)
| st_f32 cur u : stores Free TyF32 cur (DF32 u) (VF32 (narrow v (widen v u)))
| st_f32_64 cur u : stores Free TyF32 cur (DF64 u) (VF32 (narrow v u))
| st_f64 cur u : stores Free TyF64 cur (DF64 u) (VF64 u)
| st_f64_32 cur u : stores Free TyF64 cur (DF32 u) (VF64 (widen v u))
| st_str cur s : stores Free TyStr cur (DStr s) (VStr s)
| st_str_bin cur s : stores Free TyStr cur (DBin s) (VStr s)
(** bytes are laid over a slice that is not nil *)
| st_bytes s : stores Free (TySlice (TyInt KUint8)) (VSlice None) (DBin s) (VSlice (Some (map byte_val s)))
| st_bytes_over a l s : a <> Hidden ->
    stores a (TySlice (TyInt KUint8)) (VSlice (Some l)) (DBin s) (VSlice (Some (overlay l s)))
| st_bytes_array n l s : stores Free (TyArr n (TyInt KUint8)) (VArr l) (DBin s) (VArr (overlay l s))
(** frozen data go into nil slices only *)
| st_frozen cls s : stores Free (TySlice (TyInt KUint8)) (VSlice None) (DFreeze cls s) (VSlice (Some (map byte_val s)))
(** undef: nil if the type has it, else no change *)
| st_nil ty cur d : d = DUndef \/ d = DCanon -> nillable ty = true -> stores Free ty cur d (zero ty)
| st_keep a ty cur d : d = DUndef \/ d = DCanon -> nillable ty = false -> typed ty cur -> stores a ty cur d cur
(** references, weak references and class names are dropped *)
| st_ref a ty cur d x : typed ty cur -> stores a ty cur d x -> stores a ty cur (DRef d) x
| st_weak a ty cur d x : typed ty cur -> stores a ty cur d x -> stores a ty cur (DWeak d) x
| st_obj a ty cur cls d x : typed ty cur -> stores a ty cur d x -> stores a ty cur (DObj cls d) x
(** an empty slice is replaced, the elements of others and of arrays are read into *)
| st_slice t cur ds xs : cur = None \/ cur = Some [] ->
    stores_each Free t (repeat (zero t) (length ds)) ds xs ->
    stores Free (TySlice t) (VSlice cur) (DArr ds) (VSlice (Some xs))
| st_slice_over a t l ds xs : l <> [] -> stores_each (below a) t l ds xs ->
    stores a (TySlice t) (VSlice (Some l)) (DArr ds) (VSlice (Some xs))
| st_array a n t l ds xs : stores_each a t l ds xs -> stores a (TyArr n t) (VArr l) (DArr ds) (VArr xs)
| st_map a t o kvs m : a = Free \/ o <> None ->
    stores_map a t (match o with None => [] | Some m0 => m0 end) kvs m ->
    stores a (TyMap t) (VMap o) (DHash kvs) (VMap (Some m))
| st_ptr a t o kvs x : hashlike t = true -> a = Free \/ o <> None ->
    stores (below a) t (match o with None => zero t | Some x0 => x0 end) (DHash kvs) x ->
    stores a (TyPtr t) (VPtr o) (DHash kvs) (VPtr (Some x))
| st_struct a id fs kvs fs' : stores_fields a id fs kvs fs' -> stores a (TyStruct id) (VStruct fs) (DHash kvs) (VStruct fs')
(** element by element; surplus elements are ignored, missing ones leave the rest alone *)
with stores_each : access -> gtype -> list tval -> list data -> list tval -> Prop :=
| se_end a t curs : stores_each a t curs [] curs
| se_surplus a t ds : stores_each a t [] ds []
| se_cons a t cur curs d ds x xs : stores a t cur d x -> stores_each a t curs ds xs ->
    stores_each a t (cur :: curs) (d :: ds) (x :: xs)
(** a new key gets a new element; the element of a key that is there is read into *)
with stores_map : access -> gtype -> list (bytes * tval) -> list (bytes * data) -> list (bytes * tval) -> Prop :=
| sm_end a t m : stores_map a t m [] m
| sm_new a t m k d kvs x m' : mget m k = None -> stores Free t (zero t) d x -> a <> Hidden ->
    stores_map a t (mput m k x) kvs m' -> stores_map a t m ((k, d) :: kvs) m'
| sm_old a t m k d kvs y x m' : mget m k = Some y -> stores (entry a) t y d x ->
    stores_map a t (mput m k x) kvs m' -> stores_map a t m ((k, d) :: kvs) m'
(** one key after the other; unknown keys are ignored *)
with stores_fields : access -> nat -> list (nat * tval) -> list (bytes * data) -> list (nat * tval) -> Prop :=
| sf_end a id fs : stores_fields a id fs [] fs
| sf_hit a id fs k d kvs i f t x fs' : names v id k i -> nth_error (st_fields (decls v id)) i = Some (f, t) ->
    stores (in_field a f) t (sfield v id i fs) d x ->
    stores_fields a id ((i, x) :: fs) kvs fs' -> stores_fields a id fs ((k, d) :: kvs) fs'
| sf_miss a id fs k d kvs fs' : (forall i, ~ names v id k i) -> stores_fields a id fs kvs fs' ->
    stores_fields a id fs ((k, d) :: kvs) fs'.
End Stores.

(** ** In short: the types data fit *)
Fixpoint fits_type (ty : gtype) (d : data) : bool :=
  match d with
  | DInt _ => match ty with TyInt _ => true | _ => false end
  | DBool _ => match ty with TyBool => true | _ => false end
  | DF32 _ | DF64 _ => match ty with TyF32 | TyF64 => true | _ => false end
  | DStr _ => match ty with TyStr => true | _ => false end
  | DBin _ => match ty with TyStr | TySlice (TyInt KUint8) | TyArr _ (TyInt KUint8) => true | _ => false end
  | DFreeze _ _ => match ty with TySlice (TyInt KUint8) => true | _ => false end
  | DArr _ => match ty with TySlice _ | TyArr _ _ => true | _ => false end
  | DHash _ => hashlike ty
  | DRef d | DWeak d | DObj _ d => fits_type ty d
  | DUndef | DCanon => true
  | DRegexp _ _ | DBack _ => false
  end.
