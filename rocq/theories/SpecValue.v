(** Independent specification of the encoding side: which data a Go value stands for,
    which values are finite trees (and how deep), and when a decoded value is the same
    as an original one.  Nothing here refers to the encoder or decoder. *)
From Verif Require Import Base GoMem Spec.
From Coq Require Import Permutation.

(** * Decimal numbers (json.Number) *)

Definition is_digit (b : byte) : Prop := (48 <= b2n b <= 57)%N.

Inductive digits : bytes -> N -> Prop :=
| dg_one b : is_digit b -> digits [b] (b2n b - 48)
| dg_snoc s n b : digits s n -> is_digit b -> digits (s ++ [b]) (10 * n + (b2n b - 48)).

(** an optionally signed decimal integer *)
Inductive decimal : bytes -> Z -> Prop :=
| dec_plain s n : digits s n -> decimal s (Z.of_N n)
| dec_plus b s n : b2n b = 43%N -> digits s n -> decimal (b :: s) (Z.of_N n)
| dec_minus b s n : b2n b = 45%N -> digits s n -> decimal (b :: s) (- Z.of_N n).

Definition int64 (z : Z) : Prop := (- two63 <= z < two63)%Z.

(** * Struct fields *)

(** the name a field is serialised under: tag "-" skips the field, another tag is the
    name, an untagged field is named after itself if it is exported *)
Definition field_key (f : fdecl) : option bytes :=
  match f_tag f with
  | [] => if f_exported f then Some (f_name f) else None
  | [x2d] => None
  | t => Some t
  end.

(** field [i] is serialised as [k]; of several fields with the same name the last counts *)
Definition serialised (fs : list fdecl) (k : bytes) (i : nat) : Prop :=
  exists f, nth_error fs i = Some f /\ field_key f = Some k /\
  forall j f', i < j -> nth_error fs j = Some f' -> field_key f' <> Some k.

Definition field_table (fs : list fdecl) (tags : list (bytes * nat)) : Prop :=
  NoDup (map fst tags) /\ forall k i, In (k, i) tags <-> serialised fs k i.

(** the n variables from [base] on *)
Definition cells (h : heap) (base : loc) (n : nat) : list gval :=
  map (hget h) (seq base n).

(** pointers to the Perl struct types are transparent *)
Definition perl_struct (v : gval) : bool :=
  match v with GRegexpV _ _ | GUndefV _ | GObjV _ _ | GWeakV _ => true | _ => false end.

Definition name_Class : bytes := [x43;x6c;x61;x73;x73].                       (* "Class" *)
Definition name_Data : bytes := [x44;x61;x74;x61].                            (* "Data" *)
Definition name_PerlFreeze : bytes := [x50;x65;x72;x6c;x46;x72;x65;x65;x7a;x65].

(** * The data a Go value stands for *)
Section Den.
(** [perl]: Perl-compatible mode, where an array or hash is only reached by reference;
    [nofreeze]: do not use MarshalBinary; [pf]: float parsing *)
Variable perl nofreeze : bool.
Variable pf : bytes -> option N.
Variable h : heap.

Definition aref (isRef : bool) (d : data) : data := if perl && negb isRef then DRef d else d.

(** [den r v d]; [r]: a reference tag precedes *)
Inductive den : bool -> gval -> data -> Prop :=
| dn_nil r : den r GNil DUndef
| dn_bool r b : den r (GBool b) (DBool b)
| dn_int r k nm z : den r (GInt k nm z) (DInt z)
| dn_f32 r u : den r (GF32 u) (DF32 u)
| dn_f64 r u : den r (GF64 u) (DF64 u)
| dn_str r s : den r (GStr s) (DStr s)
| dn_json_int r s z : decimal s z -> int64 z -> den r (GJson s) (DInt z)
| dn_json_str r s : (forall z, decimal s z -> ~ int64 z) -> den r (GJson s) (DStr s)
| dn_json_float r s u : (forall z, ~ decimal s z) -> pf s = Some u -> den r (GJson s) (DF64 u)
| dn_bytes r w : den r (GBytes w) (DBin (hview h w))
| dn_slice r base n ds : dens (cells h base n) ds -> den r (GSlice base n) (aref r (DArr ds))
| dn_tslice r a base n ds : dens (cells h base n) ds -> den r (GTSlice a base n) (aref r (DArr ds))
| dn_map r l m kvs : NoDup (map fst m) -> Permutation (hmap h l) m -> denm m kvs ->
    den r (GMap l) (aref r (DHash kvs))
| dn_tmap r l m kvs : NoDup (map fst m) ->
    Permutation (htmap h l) (map (fun kv => (GStr (fst kv), snd kv)) m) -> denm m kvs ->
    den r (GTMap l) (aref r (DHash kvs))
| dn_ptr r i l d : i || negb (perl_struct (hget h l)) = true -> den true (hget h l) d ->
    den r (GPtr i l) (DRef d)
| dn_ptr_perl r l d : perl_struct (hget h l) = true -> den false (hget h l) d ->
    den r (GPtr false l) d
| dn_nilptr r : den r GNilPtr (DRef DUndef)
| dn_undef r c : den r (GUndefV c) (if c then DCanon else DUndef)
| dn_canon r : den r GCanonUndef DCanon
| dn_objv r cls v d : den false v d -> den r (GObjV cls v) (DObj cls d)
| dn_objp r cls l d : den false (hget h l) d -> den r (GObjP cls l) (DObj cls d)
| dn_weakv r v d : den false v d -> den r (GWeakV v) (DWeak d)
| dn_weakp r l d : den false (hget h l) d -> den r (GWeakP l) (DWeak d)
| dn_regexp r p m : den r (GRegexpV p m) (DRegexp (hview h p) (hview h m))
| dn_freezev r cls w m kvs :
    Permutation [(name_Class, GStr cls); (name_Data, GBytes w)] m -> denm m kvs ->
    den r (GFreezeV cls w) (DObj name_PerlFreeze (aref false (DHash kvs)))
| dn_user r name b v : nofreeze = false -> den r (GUser name (Some b) v) (DFreeze name b)
| dn_user_plain r name o v d : nofreeze = true -> den r v d -> den r (GUser name o v) d
| dn_struct r name fs base tags kvs : field_table fs tags ->
    denm (map (fun kt => (fst kt, hget h (base + snd kt))) tags) kvs ->
    den r (GStruct name fs base) (DObj name (aref false (DHash kvs)))
with dens : list gval -> list data -> Prop :=
| dns_nil : dens [] []
| dns_cons v vs d ds : den false v d -> dens vs ds -> dens (v :: vs) (d :: ds)
with denm : list (bytes * gval) -> list (bytes * data) -> Prop :=
| dnm_nil : denm [] []
| dnm_cons k v m d kvs : den false v d -> denm m kvs -> denm ((k, v) :: m) ((k, d) :: kvs).
End Den.

(** * Finite trees *)
Section Tree.
(** [M]: bound on string and container lengths; [F]: which frozen objects are allowed;
    [lay]: the addresses of everything *)
Variable M : N.
Variable F : bytes -> bytes -> Prop.
Variable nofreeze : bool.
Variable lay : layout.
Variable h : heap.

Definition fits {A} (l : list A) : Prop := (N.of_nat (length l) <= M)%N.

Definition place_addr (p : place) : list addr := match at_place lay p with Some a => [a] | None => [] end.

(** the addresses by which the target [v] of a pointer to cell [l] is identified,
    besides [l] itself *)
Definition own_addr (l : loc) (v : gval) : list addr :=
  match v with
  | GMap m | GTMap m => place_addr (PMap m)
  | GSlice b _ | GTSlice false b _ => place_addr (PSlice b)
  | GBytes w => place_addr (PBuf (vloc w) (voff w))
  | GPtr _ l' => [at_cell lay l']
  | GObjP _ r | GWeakP r => place_addr (PBox r)
  | GCanonUndef => place_addr PCanon
  | GStr _ | GJson _ => place_addr (PStr l)
  | _ => []
  end.

Definition is_text (v : gval) : bool := match v with GStr _ | GJson _ => true | _ => false end.

Definition disjoint (A B : list addr) : Prop := forall a, In a A -> In a B -> False.

(** [tree v n A]: v is a finite tree, its containers and pointers nest n levels deep, and
    A are the addresses involved in its pointers, no two pointers sharing one *)
Inductive tree : gval -> nat -> list addr -> Prop :=
| t_nil : tree GNil 0 []
| t_bool b : tree (GBool b) 0 []
| t_int k z : ikind_in k z -> tree (GInt k false z) 0 []
| t_named k z : ikind_in k z -> ikind_signed k = true -> (k = KInt \/ 0 <= z)%Z ->
    tree (GInt k true z) 0 []
| t_f32 u : (u < 2 ^ 32)%N -> tree (GF32 u) 0 []
| t_f64 u : (u < 2 ^ 64)%N -> tree (GF64 u) 0 []
| t_str s : fits s -> tree (GStr s) 0 []
| t_json s : fits s -> tree (GJson s) 0 []
| t_bytes w : fits (hview h w) -> tree (GBytes w) 0 []
| t_slice base n dep A : (N.of_nat n <= M)%N -> trees (cells h base n) dep A ->
    tree (GSlice base n) (S dep) A
| t_tslice a base n dep A : (N.of_nat n <= M)%N -> trees (cells h base n) dep A ->
    tree (GTSlice a base n) (S dep) A
| t_map l dep A : NoDup (map fst (hmap h l)) -> fits (hmap h l) ->
    (forall k v, In (k, v) (hmap h l) -> fits k) ->
    trees (map snd (hmap h l)) dep A -> tree (GMap l) (S dep) A
| t_tmap l m dep A : htmap h l = map (fun kv => (GStr (fst kv), snd kv)) m ->
    NoDup (map fst m) -> fits m -> (forall k v, In (k, v) m -> fits k) ->
    trees (map snd m) dep A -> tree (GTMap l) (S dep) A
| t_ptr i l dep A : i || negb (perl_struct (hget h l)) = true ->
    i && is_text (hget h l) = false ->
    disjoint [at_cell lay l] A -> tree (hget h l) dep A ->
    tree (GPtr i l) (S dep) (at_cell lay l :: own_addr l (hget h l) ++ A)
| t_ptr_perl l dep A : perl_struct (hget h l) = true -> tree (hget h l) dep A ->
    tree (GPtr false l) (S dep) A
| t_nilptr : tree GNilPtr 1 []
| t_undef c : tree (GUndefV c) 0 []
| t_canon : tree GCanonUndef 1 []
| t_objv cls v dep A : fits cls -> tree v dep A -> tree (GObjV cls v) dep A
| t_objp cls l dep A : fits cls -> tree (hget h l) dep A -> tree (GObjP cls l) (S dep) A
| t_weakv v dep A : tree v dep A -> tree (GWeakV v) dep A
| t_weakp l dep A : tree (hget h l) dep A -> tree (GWeakP l) (S dep) A
| t_regexp p m : fits (hview h p) -> fits (hview h m) -> tree (GRegexpV p m) 0 []
| t_freezev cls w : fits cls -> fits (hview h w) -> (10 <= M)%N -> tree (GFreezeV cls w) 1 []
| t_user name b v : nofreeze = false -> fits name -> fits b -> (1 <= M)%N -> F name b ->
    tree (GUser name (Some b) v) 0 []
| t_user_plain name o v dep A : nofreeze = true -> tree v dep A -> tree (GUser name o v) dep A
| t_struct name fs base tags dep A : fits name -> field_table fs tags -> fits tags ->
    (forall k i, In (k, i) tags -> fits k /\ exists f, nth_error fs i = Some f /\ f_exported f = true) ->
    trees (map (fun kt => hget h (base + snd kt)) tags) dep A ->
    tree (GStruct name fs base) (S dep) A
with trees : list gval -> nat -> list addr -> Prop :=
| ts_nil : trees [] 0 []
| ts_cons v n A vs m B : tree v n A -> trees vs m B -> disjoint A B ->
    trees (v :: vs) (Nat.max n m) (A ++ B).
End Tree.

(** * The decoded value reproduces the original one (default decoding mode) *)
Section Same.
Variable nofreeze : bool.
Variable pf : bytes -> option N.
Variable reg : bytes -> option nat.
Variable h h' : heap.      (* memory of the original and of the decoded value *)

(** an integer comes back as int if it fits, else as uint *)
Definition int_result (z : Z) : gval := GInt (if (z <? two63)%Z then KInt else KUint) false z.

Inductive same : gval -> gval -> Prop :=
| sm_nil : same GNil GNil
| sm_bool b : same (GBool b) (GBool b)
| sm_int k nm z : same (GInt k nm z) (int_result z)
| sm_f32 u : same (GF32 u) (GF32 u)
| sm_f64 u : same (GF64 u) (GF64 u)
| sm_str s : same (GStr s) (GStr s)
| sm_json_int s z : decimal s z -> int64 z -> same (GJson s) (int_result z)
| sm_json_str s : (forall z, decimal s z -> ~ int64 z) -> same (GJson s) (GStr s)
| sm_json_float s u : (forall z, ~ decimal s z) -> pf s = Some u -> same (GJson s) (GF64 u)
| sm_bytes w w' : hview h w = hview h' w' -> same (GBytes w) (GBytes w')
| sm_slice base n base' : sames (cells h base n) (cells h' base' n) ->
    same (GSlice base n) (GSlice base' n)
| sm_tslice a base n base' : sames (cells h base n) (cells h' base' n) ->
    same (GTSlice a base n) (GSlice base' n)
| sm_map l l' : samem (hmap h l) (hmap h' l') -> same (GMap l) (GMap l')
| sm_tmap l m l' : htmap h l = map (fun kv => (GStr (fst kv), snd kv)) m ->
    samem m (hmap h' l') -> same (GTMap l) (GMap l')
| sm_ptr i l v' : same (hget h l) v' -> same (GPtr i l) v'
| sm_nilptr : same GNilPtr GNil
| sm_undef c : same (GUndefV c) GNil
| sm_canon : same GCanonUndef GNil
| sm_objv cls v v' : same v v' -> same (GObjV cls v) v'
| sm_objp cls l v' : same (hget h l) v' -> same (GObjP cls l) v'
| sm_weakv v v' : same v v' -> same (GWeakV v) v'
| sm_weakp l v' : same (hget h l) v' -> same (GWeakP l) v'
| sm_regexp p m l p' m' : hget h' l = GRegexpV p' m' ->
    hview h p = hview h' p' -> hview h m = hview h' m' ->
    same (GRegexpV p m) (GPtr false l)
| sm_freezev cls w l' :
    samem [(name_Class, GStr cls); (name_Data, GBytes w)] (hmap h' l') ->
    same (GFreezeV cls w) (GMap l')
| sm_user name b v l w' : nofreeze = false -> reg name = None ->
    hget h' l = GFreezeV name w' -> hview h' w' = b -> same (GUser name (Some b) v) (GPtr false l)
| sm_user_reg name b v t w' : nofreeze = false -> reg name = Some t ->
    hview h' w' = b -> same (GUser name (Some b) v) (GUserP t w')
| sm_user_plain name o v v' : nofreeze = true -> same v v' -> same (GUser name o v) v'
| sm_struct name fs base tags l' : field_table fs tags ->
    samem (map (fun kt => (fst kt, hget h (base + snd kt))) tags) (hmap h' l') ->
    same (GStruct name fs base) (GMap l')
with sames : list gval -> list gval -> Prop :=
| sms_nil : sames [] []
| sms_cons v vs v' vs' : same v v' -> sames vs vs' -> sames (v :: vs) (v' :: vs')
(** same keys, same values *)
with samem : list (bytes * gval) -> list (bytes * gval) -> Prop :=
| smm m m' : (forall k, mget m k = None <-> mget m' k = None) ->
    (forall k v v', mget m k = Some v -> mget m' k = Some v' -> same v v') -> samem m m'.
End Same.
