(** Independent specification of how values with sharing and cycles are written: which graph of
    items (SpecCycle.v) a traversal describes.  Nothing here refers to the encoder or decoder. *)
From Verif Require Import Base GoMem Spec SpecValue SpecGraph SpecShare SpecCycle.
From Coq Require Import Permutation.

(** the addresses met so far, newest first, each with the number of the item recorded for it, if
    that item is marked *)
Definition kenv := list (addr * option nat).

Fixpoint kfind (S : kenv) (a : addr) : option (option nat) :=
  match S with
  | [] => None
  | (a', o) :: S' => if addr_eqb a' a then Some o else kfind S' a
  end.

(** an item and its mark *)
Definition mk (o : option nat) (x : node) : node :=
  match o with Some i => NAt i x | None => x end.
Definition label (x : node) : option nat :=
  match x with NAt i _ => Some i | _ => None end.

(** values written as an item without items inside *)
Definition atomic (v : gval) : bool :=
  match v with
  | GNil | GBool _ | GInt _ _ _ | GF32 _ | GF64 _ | GStr _ | GJson _ | GBytes _
  | GUndefV _ | GCanonUndef | GRegexpV _ _ => true
  | _ => false
  end.

Section Kden.
Variable perl nofreeze : bool.
Variable pf : bytes -> option N.
Variable lay : layout.
Variable h : heap.

(** what is known about a pointer to cell [l], by its own address or, failing that, by
    the address identifying the value it points to *)
Definition met (S : kenv) (l : loc) : option (option nat) :=
  match kfind S (at_cell lay l) with
  | Some o => Some o
  | None => match own_addr lay l (hget h l) with a :: _ => kfind S a | [] => None end
  end.

(** in the Perl-compatible mode an array or hash is only reached by reference *)
Inductive boxed (r : bool) (x : node) : node -> Prop :=
| bx_as : perl && negb r = false -> boxed r x x
| bx_ref o : perl && negb r = true -> boxed r x (NRef (mk o x)).

(** [kden S r v x Y]: after what is recorded in [S], the value [v] is written as the item [x], and
    [Y] is recorded; [r]: a reference tag precedes.  [kbody S o r v x Y]: the same for the item
    without its mark [o].  A new pointer is recorded when the reference is begun, so that
    pointers inside its target find it. *)
Inductive kden : kenv -> bool -> gval -> node -> kenv -> Prop :=
| kd_item S o r v x Y : kbody S o r v x Y -> kden S r v (mk o x) Y
with kbody : kenv -> option nat -> bool -> gval -> node -> kenv -> Prop :=
| kb_atom S o r v d : atomic v = true -> den perl nofreeze pf h r v d -> kbody S o r v (NLeaf d) []
| kb_nilptr S o r o' : kbody S o r GNilPtr (NRef (mk o' (NLeaf DUndef))) []
| kb_slice S o r base n xs x Y : kdens S (cells h base n) xs Y -> boxed r (NArr xs) x ->
    kbody S o r (GSlice base n) x Y
| kb_tslice S o r a base n xs x Y : kdens S (cells h base n) xs Y -> boxed r (NArr xs) x ->
    kbody S o r (GTSlice a base n) x Y
| kb_map S o r l m kxs x Y : NoDup (map fst m) -> Permutation (hmap h l) m -> kdenm S m kxs Y ->
    boxed r (NHash kxs) x -> kbody S o r (GMap l) x Y
| kb_tmap S o r l m kxs x Y : NoDup (map fst m) ->
    Permutation (htmap h l) (map (fun kv => (GStr (fst kv), snd kv)) m) -> kdenm S m kxs Y ->
    boxed r (NHash kxs) x -> kbody S o r (GTMap l) x Y
| kb_ptr S o r i l y Y : i || negb (perl_struct (hget h l)) = true -> met S l = None ->
    kden ((at_cell lay l, o) :: S) true (hget h l) y Y ->
    kbody S o r (GPtr i l) (NRef y)
      (map (fun a => (a, label y)) (own_addr lay l (hget h l)) ++ Y ++ [(at_cell lay l, o)])
| kb_back S o r i l n : i || negb (perl_struct (hget h l)) = true -> met S l = Some (Some n) ->
    kbody S o r (GPtr i l) (NBack n) []
| kb_ptr_perl S o r l x Y : perl_struct (hget h l) = true -> kbody S o false (hget h l) x Y ->
    kbody S o r (GPtr false l) x Y
| kb_objv S o r cls v x Y : kden S false v x Y -> kbody S o r (GObjV cls v) (NObj cls x) Y
| kb_objp S o r cls l x Y : kden S false (hget h l) x Y -> kbody S o r (GObjP cls l) (NObj cls x) Y
| kb_weakv S o r v x Y : kden S false v x Y -> kbody S o r (GWeakV v) (NWeak x) Y
| kb_weakp S o r l x Y : kden S false (hget h l) x Y -> kbody S o r (GWeakP l) (NWeak x) Y
| kb_freezev S o r cls w m kxs o' x Y :
    Permutation [(name_Class, GStr cls); (name_Data, GBytes w)] m -> kdenm S m kxs Y ->
    boxed false (NHash kxs) x -> kbody S o r (GFreezeV cls w) (NObj name_PerlFreeze (mk o' x)) Y
| kb_user S o r name b v y : nofreeze = false -> string_node b y ->
    kbody S o r (GUser name (Some b) v) (NFreeze name b y) []
| kb_user_plain S o r name d v x Y : nofreeze = true -> kbody S o r v x Y -> kbody S o r (GUser name d v) x Y
| kb_struct S o r name fs base tags kxs o' x Y : field_table fs tags ->
    kdenm S (map (fun kt => (fst kt, hget h (base + snd kt))) tags) kxs Y ->
    boxed false (NHash kxs) x -> kbody S o r (GStruct name fs base) (NObj name (mk o' x)) Y
with kdens : kenv -> list gval -> list node -> kenv -> Prop :=
| kds_nil S : kdens S [] [] []
| kds_cons S v vs x xs Y Z : kden S false v x Y -> kdens (Y ++ S) vs xs Z ->
    kdens S (v :: vs) (x :: xs) (Z ++ Y)
with kdenm : kenv -> list (bytes * gval) -> list (bytes * node) -> kenv -> Prop :=
| kdm_nil S : kdenm S [] [] []
| kdm_cons S k v m x kxs Y Z : kden S false v x Y -> kdenm (Y ++ S) m kxs Z ->
    kdenm S ((k, v) :: m) ((k, x) :: kxs) (Z ++ Y).
End Kden.

(** * Values and memories that can be written; they may contain themselves in any way *)
Section Proper.
(** as for [tree] (SpecValue.v) *)
Variable M : N.
Variable F : bytes -> bytes -> Prop.
Variable nofreeze : bool.
Variable h : heap.
Notation fits_ := (fits M).

Inductive proper : gval -> Prop :=
| pr_nil : proper GNil
| pr_bool b : proper (GBool b)
| pr_int k z : ikind_in k z -> proper (GInt k false z)
| pr_named k z : ikind_in k z -> (k = KInt \/ 0 <= z)%Z -> proper (GInt k true z)
| pr_f32 u : (u < 2 ^ 32)%N -> proper (GF32 u)
| pr_f64 u : (u < 2 ^ 64)%N -> proper (GF64 u)
| pr_str s : fits_ s -> proper (GStr s)
| pr_json s : fits_ s -> proper (GJson s)
| pr_bytes w : fits_ (hview h w) -> proper (GBytes w)
| pr_slice base k : (N.of_nat k <= M)%N -> proper (GSlice base k)
| pr_tslice a base k : (N.of_nat k <= M)%N -> proper (GTSlice a base k)
| pr_map l : NoDup (map fst (hmap h l)) -> fits_ (hmap h l) ->
    (forall k v, In (k, v) (hmap h l) -> fits_ k) -> proper (GMap l)
| pr_tmap l m : htmap h l = map (fun kv => (GStr (fst kv), snd kv)) m ->
    NoDup (map fst m) -> fits_ m -> (forall k v, In (k, v) m -> fits_ k) -> proper (GTMap l)
| pr_ptr i l : proper (GPtr i l)
| pr_nilptr : proper GNilPtr
| pr_undef c : proper (GUndefV c)
| pr_canon : proper GCanonUndef
| pr_objv cls v : fits_ cls -> proper v -> proper (GObjV cls v)
| pr_objp cls l : fits_ cls -> proper (GObjP cls l)
| pr_weakv v : proper v -> proper (GWeakV v)
| pr_weakp l : proper (GWeakP l)
| pr_regexp p m : fits_ (hview h p) -> fits_ (hview h m) -> proper (GRegexpV p m)
| pr_freezev cls w : fits_ cls -> fits_ (hview h w) -> (10 <= M)%N -> proper (GFreezeV cls w)
| pr_user name b v : nofreeze = false -> fits_ name -> fits_ b -> (1 <= M)%N -> F name b ->
    proper (GUser name (Some b) v)
| pr_user_plain name o v : nofreeze = true -> proper v -> proper (GUser name o v)
| pr_struct name fs base tags : fits_ name -> field_table fs tags -> fits_ tags ->
    (forall k i, In (k, i) tags -> fits_ k) -> proper (GStruct name fs base)
(** these cannot be written *)
| pr_userp name o : proper (GUserP name o)
| pr_opaque : proper GOpaque.

(** every variable, map entry and field *)
Definition proper_memory : Prop :=
  (forall l, proper (hget h l)) /\
  (forall l k v, In (k, v) (hmap h l) -> proper v) /\
  (forall l k v, In (k, v) (htmap h l) -> proper v).
End Proper.

(** * Values of scalars, slices, maps, frozen objects and pointers to these, in any arrangement *)
Definition container (v : gval) : bool :=
  match v with GSlice _ _ | GTSlice _ _ _ | GMap _ | GTMap _ => true | _ => false end.

(** values read by default as something other than nil when behind a pointer *)
Definition nil_like (v : gval) : bool :=
  match v with GNil | GUndefV _ | GCanonUndef => true | _ => false end.
Definition frozen (v : gval) : bool := match v with GFreezeV _ _ => true | _ => false end.
Definition pointed (v : gval) : bool := container v || frozen v || (atomic v && negb (nil_like v)).

Definition tame (h : heap) (v : gval) : Prop :=
  atomic v = true \/ container v = true \/ v = GNilPtr \/ frozen v = true \/
  (exists i l, v = GPtr i l /\ pointed (hget h l) = true) \/
  exists l c, v = GPtr false l /\ hget h l = GUndefV c.

Definition tame_memory (h : heap) : Prop :=
  (forall l, tame h (hget h l)) /\
  (forall l k v, In (k, v) (hmap h l) -> tame h v) /\
  (forall l k v, In (k, v) (htmap h l) -> tame h v).
