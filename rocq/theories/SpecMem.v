(** When the variable in memory and a tree (GoTypes.v) are the same value without sharing.
    Nothing here refers to the decoder. *)
From Verif Require Import Base GoMem GoTypes Decode TypedMem.

Section At.
Variable v : goenv.
Variable mem : memory.

(** [at_ ty m x F]: the content [m] of a variable of type [ty] is the tree [x]; [F] are the
    cells it refers to, in this order (a cell referred to twice is there twice) *)
Inductive at_ : gtype -> mval -> tval -> list mloc -> Prop :=
| at_int k z : at_ (TyInt k) (MInt z) (VInt z) []
| at_bool b : at_ TyBool (MBool b) (VBool b) []
| at_f32 u : at_ TyF32 (MF32 u) (VF32 u) []
| at_f64 u : at_ TyF64 (MF64 u) (VF64 u) []
| at_str s : at_ TyStr (MStr s) (VStr s) []
| at_iface g : at_ TyIface (MIface g) (VIface g) []
| at_slice_nil t : at_ (TySlice t) (MSlice None) (VSlice None) []
| at_slice t l ms xs F : nth_error mem l = Some (MCell (MArr ms)) ->
    ats (repeat t (length ms)) ms xs F -> at_ (TySlice t) (MSlice (Some l)) (VSlice (Some xs)) (l :: F)
| at_arr n t ms xs F : ats (repeat t (length ms)) ms xs F -> at_ (TyArr n t) (MArr ms) (VArr xs) F
| at_map_nil t : at_ (TyMap t) (MMap None) (VMap None) []
| at_map t l ms xs F : nth_error mem l = Some (MEntries ms) -> map fst ms = map fst xs ->
    ats (repeat t (length ms)) (map snd ms) (map snd xs) F ->
    at_ (TyMap t) (MMap (Some l)) (VMap (Some xs)) (l :: F)
| at_ptr_nil t : at_ (TyPtr t) (MPtr None) (VPtr None) []
| at_ptr t l m x F : nth_error mem l = Some (MCell m) -> at_ t m x F ->
    at_ (TyPtr t) (MPtr (Some l)) (VPtr (Some x)) (l :: F)
| at_struct id ms fs F : atf id ms fs (seq 0 (length (st_fields (decls v id)))) F ->
    at_ (TyStruct id) (MStruct ms) (VStruct fs) F
(** one by one *)
with ats : list gtype -> list mval -> list tval -> list mloc -> Prop :=
| ats_nil : ats [] [] [] []
| ats_cons t ts m ms x xs F G : at_ t m x F -> ats ts ms xs G -> ats (t :: ts) (m :: ms) (x :: xs) (F ++ G)
(** the fields listed; those never set are zero *)
with atf : nat -> list (nat * mval) -> list (nat * tval) -> list nat -> list mloc -> Prop :=
| atf_nil id ms fs : atf id ms fs [] []
| atf_zero id ms fs i is F : assoc_nat i ms = None -> assoc_nat i fs = None -> atf id ms fs is F ->
    atf id ms fs (i :: is) F
| atf_cons id ms fs i is f t F G : nth_error (st_fields (decls v id)) i = Some (f, t) ->
    at_ t (msfield v id i ms) (sfield v id i fs) F -> atf id ms fs is G -> atf id ms fs (i :: is) (F ++ G).
End At.

(** the variable [l] of type [ty] holds the tree [x]; its parts are distinct cells *)
Definition holds (v : goenv) (mem : memory) (l : mloc) (ty : gtype) (x : tval) : Prop :=
  exists m F, nth_error mem l = Some (MCell m) /\ at_ v mem ty m x F /\ NoDup (l :: F).

(** the cells a value refers to, those a cell refers to, and those within reach of a variable *)
Inductive refers : mval -> mloc -> Prop :=
| rf_slice l : refers (MSlice (Some l)) l
| rf_map l : refers (MMap (Some l)) l
| rf_ptr l : refers (MPtr (Some l)) l
| rf_arr ms m l : In m ms -> refers m l -> refers (MArr ms) l
| rf_struct fs i m l : In (i, m) fs -> refers m l -> refers (MStruct fs) l.
Inductive cell_refers : mcell -> mloc -> Prop :=
| cr_cell x l : refers x l -> cell_refers (MCell x) l
| cr_entries es k x l : In (k, x) es -> refers x l -> cell_refers (MEntries es) l.
Inductive reach (mem : memory) (l : mloc) : mloc -> Prop :=
| reach_refl : reach mem l l
| reach_step l1 cell l2 : reach mem l l1 -> nth_error mem l1 = Some cell -> cell_refers cell l2 -> reach mem l l2.
