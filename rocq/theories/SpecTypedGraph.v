(** Independent specification of reading a document with sharing and cycles (SpecCycle.v) into a
    variable of a Go type.  Nothing here refers to the encoder or decoder. *)
From Verif Require Import Base GoMem GoTypes Decode TypedMem Spec SpecValue SpecShare SpecCycle SpecTyped SpecMem.

(** [tshown ty m x F]: in memory [mem] the content [m] of a variable of type [ty] is what [x]
    describes, when the marked item number [i] is read into a variable of type [ty'] with content
    [m'] for [L i ty' m'].  Pointers, maps and slices are compared as Go does, by the cell they refer to.
    [F] lists the cells which the content refers to, without following references back: when they are
    different, nothing is shared but what the references make the same. *)
Section TShown.
Variable v : goenv.
Variable mem : memory.
Variable L : nat -> gtype -> mval -> Prop.

Inductive tshown : gtype -> mval -> node -> list mloc -> Prop :=
| tn_leaf ty m d x F : ty <> TyIface -> into v (fun _ _ => True) ty (zero ty) d x -> at_ v mem ty m x F ->
    tshown ty m (NLeaf d) F
| tn_slice t l ms xs F : nth_error mem l = Some (MCell (MArr ms)) -> tshowns t ms xs F ->
    tshown (TySlice t) (MSlice (Some l)) (NArr xs) (l :: F)
| tn_array n t ms xs F : tshowns t ms xs F -> tshown (TyArr n t) (MArr ms) (NArr xs) F
| tn_map t l es kxs F : nth_error mem l = Some (MEntries es) -> map fst es = map fst kxs ->
    tshowns t (map snd es) (map snd kxs) F -> tshown (TyMap t) (MMap (Some l)) (NHash kxs) (l :: F)
| tn_ptr t l m kxs F : nth_error mem l = Some (MCell m) -> tshown t m (NHash kxs) F ->
    tshown (TyPtr t) (MPtr (Some l)) (NHash kxs) (l :: F)
(** the fields named by the keys; the others are zero *)
| tn_struct id fs kxs F : tshownf id fs kxs F ->
    (forall i f t, nth_error (st_fields (decls v id)) i = Some (f, t) ->
       (forall k x, In (k, x) kxs -> ~ names v id k i) -> msfield v id i fs = mzero t) ->
    tshown (TyStruct id) (MStruct fs) (NHash kxs) F
(** references, weak references and class names are dropped *)
| tn_ref ty m x F : tshown ty m x F -> tshown ty m (NRef x) F
| tn_weak ty m x F : tshown ty m x F -> tshown ty m (NWeak x) F
| tn_obj ty m cls x F : tshown ty m x F -> tshown ty m (NObj cls x) F
| tn_copy ty m x F : tshown ty m x F -> tshown ty m (NCopy x) F
| tn_at ty m i x F : L i ty m -> tshown ty m x F -> tshown ty m (NAt i x) F
(** a reference back: the same pointer, map or slice *)
| tn_back ty m i : L i ty m -> tshown ty m (NBack i) []
| tn_same ty m i : L i ty m -> tshown ty m (NSame i) []
with tshowns : gtype -> list mval -> list node -> list mloc -> Prop :=
| tns_nil t : tshowns t [] [] []
| tns_cons t m ms x xs F G : tshown t m x F -> tshowns t ms xs G -> tshowns t (m :: ms) (x :: xs) (F ++ G)
with tshownf : nat -> list (nat * mval) -> list (bytes * node) -> list mloc -> Prop :=
| tnf_nil id fs : tshownf id fs [] []
| tnf_cons id fs k x kxs i f t F G : names v id k i -> nth_error (st_fields (decls v id)) i = Some (f, t) ->
    tshown t (msfield v id i fs) x F -> tshownf id fs kxs G -> tshownf id fs ((k, x) :: kxs) (F ++ G).
End TShown.

(** * What can be read into a new variable of a type *)
Section Fit.
Variable v : goenv.
(** the types of the variables into which the marked items are read *)
Variable T : nat -> gtype.

(** A pointer, map or slice exists before what it refers to is read; a struct, an array or a scalar when
    it is complete.  [B]: the marked items waiting for the item at hand; [S]: the ones waiting for
    an item around it.  Nothing refers back to a waiting item, and references are to items of the
    same type. *)
Inductive tfit : list nat -> list nat -> gtype -> node -> Prop :=
| tf_leaf B S ty d x : ty <> TyIface -> into v (fun _ _ => True) ty (zero ty) d x -> tfit B S ty (NLeaf d)
| tf_slice B S t xs : (forall x, In x xs -> tfit [] S t x) -> tfit B S (TySlice t) (NArr xs)
| tf_array B S n t xs : length xs = n -> (forall x, In x xs -> tfit [] (B ++ S) t x) -> tfit B S (TyArr n t) (NArr xs)
| tf_map B S t kxs : NoDup (map fst kxs) -> (forall k x, In (k, x) kxs -> tfit [] S t x) -> tfit B S (TyMap t) (NHash kxs)
| tf_ptr B S t kxs : hashlike t = true -> tfit [] S t (NHash kxs) -> tfit B S (TyPtr t) (NHash kxs)
| tf_struct B S id kxs is : length is = length kxs -> NoDup is ->
    (forall k x i, In ((k, x), i) (combine kxs is) -> exists f t, names v id k i /\
       nth_error (st_fields (decls v id)) i = Some (f, t) /\ f_exported f = true /\ tfit [] (B ++ S) t x) ->
    tfit B S (TyStruct id) (NHash kxs)
| tf_ref B S ty x : tfit B S ty x -> tfit B S ty (NRef x)
| tf_weak B S ty x : tfit B S ty x -> tfit B S ty (NWeak x)
| tf_obj B S ty cls x : tfit B S ty x -> tfit B S ty (NObj cls x)
| tf_copy B S ty x : tfit B S ty x -> tfit B S ty (NCopy x)
| tf_at B S ty i x : T i = ty -> tfit (i :: B) S ty x -> tfit B S ty (NAt i x)
| tf_back B S ty i : T i = ty -> ty <> TyIface -> ty <> TyPtr TyIface -> ~ In i (B ++ S) -> tfit B S ty (NBack i)
| tf_same B S ty i : T i = ty -> ty <> TyIface -> ty <> TyPtr TyIface -> ~ In i (B ++ S) -> tfit B S ty (NSame i).
End Fit.

(** [x] can be read into a new variable of type [ty] *)
Definition fits_type (v : goenv) (ty : gtype) (x : node) : Prop := exists T, tfit v T [] [] ty x.
