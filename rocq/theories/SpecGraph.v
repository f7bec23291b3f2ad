(** Independent specification of how values with shared parts are written: which data a
    traversal describes when pointers met before are written as references, and which
    values have no cycles.  Nothing here refers to the encoder or decoder. *)
From Verif Require Import Base GoMem Spec SpecValue.
From Coq Require Import Permutation.

(** What is known about addresses met so far, newest first: the data written for it, or
    None while that is still being written. *)
Definition senv := list (addr * option data).

Fixpoint find (S : senv) (a : addr) : option (option data) :=
  match S with
  | [] => None
  | (a', o) :: S' => if addr_eqb a' a then Some o else find S' a
  end.

(** values without other values inside *)
Definition scalar (v : gval) : bool :=
  match v with
  | GNil | GBool _ | GInt _ _ _ | GF32 _ | GF64 _ | GStr _ | GJson _ | GBytes _ | GNilPtr
  | GUndefV _ | GCanonUndef | GRegexpV _ _ => true
  | _ => false
  end.

Section Sden.
Variable perl nofreeze : bool.
Variable pf : bytes -> option N.
Variable lay : layout.
Variable h : heap.

(** what is known about a pointer to cell [l], by its own address or, failing that, by
    the address identifying the value it points to *)
Definition known (S : senv) (l : loc) : option (option data) :=
  match find S (at_cell lay l) with
  | Some o => Some o
  | None => match own_addr lay l (hget h l) with a :: _ => find S a | [] => None end
  end.

(** [sden S r v d Y]: after what is recorded in [S], the value [v] is written as [d], and
    [Y] is recorded.  A new pointer is written as a reference to its target, and recorded
    twice: the reference under the address of the variable, the target under the address
    identifying the value in it.  A known pointer is written as a reference to the item
    recorded. *)
Inductive sden : senv -> bool -> gval -> data -> senv -> Prop :=
| sn_scalar S r v d : scalar v = true -> den perl nofreeze pf h r v d -> sden S r v d []
| sn_slice S r base n ds Y : sdens S (cells h base n) ds Y ->
    sden S r (GSlice base n) (aref perl r (DArr ds)) Y
| sn_tslice S r a base n ds Y : sdens S (cells h base n) ds Y ->
    sden S r (GTSlice a base n) (aref perl r (DArr ds)) Y
| sn_map S r l m kvs Y : NoDup (map fst m) -> Permutation (hmap h l) m -> sdenm S m kvs Y ->
    sden S r (GMap l) (aref perl r (DHash kvs)) Y
| sn_tmap S r l m kvs Y : NoDup (map fst m) ->
    Permutation (htmap h l) (map (fun kv => (GStr (fst kv), snd kv)) m) -> sdenm S m kvs Y ->
    sden S r (GTMap l) (aref perl r (DHash kvs)) Y
| sn_ptr S r i l d Y : i || negb (perl_struct (hget h l)) = true -> known S l = None ->
    sden ((at_cell lay l, None) :: S) true (hget h l) d Y ->
    sden S r (GPtr i l) (DRef d)
      (map (fun a => (a, Some d)) (own_addr lay l (hget h l)) ++ Y ++ [(at_cell lay l, Some (DRef d))])
| sn_back S r i l d : i || negb (perl_struct (hget h l)) = true -> known S l = Some (Some d) ->
    sden S r (GPtr i l) (DBack d) []
| sn_ptr_perl S r l d Y : perl_struct (hget h l) = true -> sden S false (hget h l) d Y ->
    sden S r (GPtr false l) d Y
| sn_objv S r cls v d Y : sden S false v d Y -> sden S r (GObjV cls v) (DObj cls d) Y
| sn_objp S r cls l d Y : sden S false (hget h l) d Y -> sden S r (GObjP cls l) (DObj cls d) Y
| sn_weakv S r v d Y : sden S false v d Y -> sden S r (GWeakV v) (DWeak d) Y
| sn_weakp S r l d Y : sden S false (hget h l) d Y -> sden S r (GWeakP l) (DWeak d) Y
| sn_freezev S r cls w m kvs Y :
    Permutation [(name_Class, GStr cls); (name_Data, GBytes w)] m -> sdenm S m kvs Y ->
    sden S r (GFreezeV cls w) (DObj name_PerlFreeze (aref perl false (DHash kvs))) Y
| sn_user S r name b v : nofreeze = false -> sden S r (GUser name (Some b) v) (DFreeze name b) []
| sn_user_plain S r name o v d Y : nofreeze = true -> sden S r v d Y -> sden S r (GUser name o v) d Y
| sn_struct S r name fs base tags kvs Y : field_table fs tags ->
    sdenm S (map (fun kt => (fst kt, hget h (base + snd kt))) tags) kvs Y ->
    sden S r (GStruct name fs base) (DObj name (aref perl false (DHash kvs))) Y
with sdens : senv -> list gval -> list data -> senv -> Prop :=
| sns_nil S : sdens S [] [] []
| sns_cons S v vs d ds Y Z : sden S false v d Y -> sdens (Y ++ S) vs ds Z ->
    sdens S (v :: vs) (d :: ds) (Z ++ Y)
with sdenm : senv -> list (bytes * gval) -> list (bytes * data) -> senv -> Prop :=
| snm_nil S : sdenm S [] [] []
| snm_cons S k v m d kvs Y Z : sden S false v d Y -> sdenm (Y ++ S) m kvs Z ->
    sdenm S ((k, v) :: m) ((k, d) :: kvs) (Z ++ Y).
End Sden.

(** * Values without cycles *)
Section Dag.
(** as [tree] (SpecValue.v); [lev]: a level for every address, larger than those of the
    addresses inside; [nm a v]: the address [a] may stand for the value [v] *)
Variable M : N.
Variable F : bytes -> bytes -> Prop.
Variable nofreeze : bool.
Variable lay : layout.
Variable h : heap.
Variable lev : addr -> nat.
Variable nm : addr -> gval -> Prop.

(** the value identified by the address [own_addr] gives for a target [v]: a pointer is
    identified by the address of its own target *)
Definition own_val (v : gval) : gval :=
  match v with
  | GPtr _ l => hget h l
  | _ => v
  end.

Notation fits_ := (fits M).

(** [dag v n]: v is finite and nests at most n levels deep; pointers may occur repeatedly *)
Inductive dag : gval -> nat -> Prop :=
| g_nil n : dag GNil n
| g_bool b n : dag (GBool b) n
| g_int k z n : ikind_in k z -> dag (GInt k false z) n
| g_named k z n : ikind_in k z -> ikind_signed k = true -> (k = KInt \/ 0 <= z)%Z ->
    dag (GInt k true z) n
| g_f32 u n : (u < 2 ^ 32)%N -> dag (GF32 u) n
| g_f64 u n : (u < 2 ^ 64)%N -> dag (GF64 u) n
| g_str s n : fits_ s -> dag (GStr s) n
| g_json s n : fits_ s -> dag (GJson s) n
| g_bytes w n : fits_ (hview h w) -> dag (GBytes w) n
| g_slice base k n : (N.of_nat k <= M)%N -> dags (cells h base k) n -> dag (GSlice base k) (S n)
| g_tslice a base k n : (N.of_nat k <= M)%N -> dags (cells h base k) n ->
    dag (GTSlice a base k) (S n)
| g_map l n : NoDup (map fst (hmap h l)) -> fits_ (hmap h l) ->
    (forall k v, In (k, v) (hmap h l) -> fits_ k) ->
    dags (map snd (hmap h l)) n -> dag (GMap l) (S n)
| g_tmap l m n : htmap h l = map (fun kv => (GStr (fst kv), snd kv)) m ->
    NoDup (map fst m) -> fits_ m -> (forall k v, In (k, v) m -> fits_ k) ->
    dags (map snd m) n -> dag (GTMap l) (S n)
| g_ptr i l n k : i || negb (perl_struct (hget h l)) = true ->
    i && is_text (hget h l) = false ->
    n < lev (at_cell lay l) <= k -> nm (at_cell lay l) (hget h l) ->
    (forall a, In a (own_addr lay l (hget h l)) -> lev a <= k /\ nm a (own_val (hget h l))) ->
    dag (hget h l) n -> dag (GPtr i l) k
| g_ptr_perl l n : perl_struct (hget h l) = true -> dag (hget h l) n -> dag (GPtr false l) (S n)
| g_nilptr n : dag GNilPtr (S n)
| g_undef c n : dag (GUndefV c) n
| g_canon n : dag GCanonUndef (S n)
| g_objv cls v n : fits_ cls -> dag v n -> dag (GObjV cls v) n
| g_objp cls l n : fits_ cls -> dag (hget h l) n -> dag (GObjP cls l) (S n)
| g_weakv v n : dag v n -> dag (GWeakV v) n
| g_weakp l n : dag (hget h l) n -> dag (GWeakP l) (S n)
| g_regexp p m n : fits_ (hview h p) -> fits_ (hview h m) -> dag (GRegexpV p m) n
| g_freezev cls w n : fits_ cls -> fits_ (hview h w) -> (10 <= M)%N -> dag (GFreezeV cls w) (S n)
| g_user name b v n : nofreeze = false -> fits_ name -> fits_ b -> (1 <= M)%N -> F name b ->
    dag (GUser name (Some b) v) n
| g_user_plain name o v n : nofreeze = true -> dag v n -> dag (GUser name o v) n
| g_struct name fs base tags n : fits_ name -> field_table fs tags -> fits_ tags ->
    (forall k i, In (k, i) tags -> fits_ k /\ exists f, nth_error fs i = Some f /\ f_exported f = true) ->
    dags (map (fun kt => hget h (base + snd kt)) tags) n ->
    dag (GStruct name fs base) (S n)
with dags : list gval -> nat -> Prop :=
| gs_nil n : dags [] n
| gs_cons v vs n : dag v n -> dags vs n -> dags (v :: vs) n.
End Dag.

(** * Data up to references *)

(** references, also to data elsewhere, replaced by what they refer to *)
Fixpoint flat (d : data) : data :=
  match d with
  | DArr l => DArr (map flat l)
  | DHash l => DHash (map (fun kd => (fst kd, flat (snd kd))) l)
  | DRef d => flat d
  | DWeak d => DWeak (flat d)
  | DObj cls d => DObj cls (flat d)
  | DBack d => flat d
  | x => x
  end.

(** values the default decoding mode turns into nil *)
Inductive null (nofreeze : bool) (h : heap) : gval -> Prop :=
| nu_nil : null nofreeze h GNil
| nu_nilptr : null nofreeze h GNilPtr
| nu_undef c : null nofreeze h (GUndefV c)
| nu_canon : null nofreeze h GCanonUndef
| nu_ptr i l : null nofreeze h (hget h l) -> null nofreeze h (GPtr i l)
| nu_objv cls v : null nofreeze h v -> null nofreeze h (GObjV cls v)
| nu_objp cls l : null nofreeze h (hget h l) -> null nofreeze h (GObjP cls l)
| nu_weakv v : null nofreeze h v -> null nofreeze h (GWeakV v)
| nu_weakp l : null nofreeze h (hget h l) -> null nofreeze h (GWeakP l)
| nu_user name o v : nofreeze = true -> null nofreeze h v -> null nofreeze h (GUser name o v).
