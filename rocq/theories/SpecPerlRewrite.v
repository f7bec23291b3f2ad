(** Independent specification used for documents that are read and written again with PerlCompat. *)
From Verif Require Import Base GoMem Spec SpecValue.

(** as in Perl, arrays and hashes occur behind references only; [r]: this is behind one *)
Fixpoint behind_refs (r : bool) (d : data) : bool :=
  match d with
  | DArr l => r && forallb (behind_refs false) l
  | DHash l => r && forallb (fun kd => behind_refs false (snd kd)) l
  | DRef d => behind_refs true d
  | DWeak d | DObj _ d => behind_refs false d
  | _ => true
  end.

(** nesting of arrays, hashes, references, objects, regexps and undefs *)
Fixpoint levels (d : data) : nat :=
  match d with
  | DArr l => S (list_max (map levels l))
  | DHash l => S (list_max (map (fun kd => levels (snd kd)) l))
  | DRef d | DWeak d | DObj _ d | DBack d => S (levels d)
  | DRegexp _ _ | DUndef | DCanon => 1
  | _ => 0
  end.

(** how many references lead to things which Go may put where others of their kind are: arrays and
    byte strings without elements, strings of at most one byte and the canonical undef *)
Definition small (d : data) : bool :=
  match d with
  | DArr [] | DBin [] | DCanon => true
  | DStr s => length s <=? 1
  | _ => false
  end.
Fixpoint small_refs (d : data) : nat :=
  match d with
  | DArr l => list_sum (map small_refs l)
  | DHash l => list_sum (map (fun kd => small_refs (snd kd)) l)
  | DRef d => (if small d then 1 else 0) + small_refs d
  | DWeak d | DObj _ d => small_refs d
  | _ => 0
  end.

(** [apart v A]: what the pointers in [v] lead to has the addresses [A], all of them different, and
    none of the pointers is an *interface{} to a string.  (Go gives different variables different
    addresses, except that all things of size zero, such as the elements of empty slices, may have
    the same one.) *)
Section Apart.
Variable lay : layout.
Variable h : heap.

Definition leaf (v : gval) : bool :=
  match v with
  | GNil | GBool _ | GInt _ _ _ | GF32 _ | GF64 _ | GStr _ | GBytes _ | GCanonUndef => true
  | _ => false
  end.

Inductive apart : gval -> list addr -> Prop :=
| ap_leaf v : leaf v = true -> apart v []
| ap_slice base n A : aparts (cells h base n) A -> apart (GSlice base n) A
| ap_map l A : aparts (map snd (hmap h l)) A -> apart (GMap l) A
| ap_struct l : perl_struct (hget h l) = true -> apart (GPtr false l) []     (* *PerlUndef, *PerlRegexp *)
| ap_ptr i l A : perl_struct (hget h l) = false -> i && is_text (hget h l) = false ->
    apart (hget h l) A -> ~ In (at_cell lay l) A ->
    apart (GPtr i l) (at_cell lay l :: own_addr lay l (hget h l) ++ A)
| ap_obj cls l A : apart (hget h l) A -> apart (GObjP cls l) A
| ap_weak l A : apart (hget h l) A -> apart (GWeakP l) A
with aparts : list gval -> list addr -> Prop :=
| aps_nil : aparts [] []
| aps_cons v A vs B : apart v A -> aparts vs B -> disjoint A B -> aparts (v :: vs) (A ++ B).
End Apart.

(** [reaches h v w]: [w] is, or is somewhere in, the value [v] *)
Section Reach.
Variable h : heap.
Inductive reaches : gval -> gval -> Prop :=
| re_self v : reaches v v
| re_slice base n v w : In v (cells h base n) -> reaches v w -> reaches (GSlice base n) w
| re_map l v w : In v (map snd (hmap h l)) -> reaches v w -> reaches (GMap l) w
| re_ptr i l w : reaches (hget h l) w -> reaches (GPtr i l) w
| re_obj cls l w : reaches (hget h l) w -> reaches (GObjP cls l) w
| re_weak l w : reaches (hget h l) w -> reaches (GWeakP l) w.

(** things in [v] that have addresses, and whether they are of the kinds that [small] is about *)
Inductive thing := Var (l : loc) | Place (p : place).
Inductive in_value (v : gval) : thing -> bool -> Prop :=
| iv_var i l : reaches v (GPtr i l) -> in_value v (Var l) false
| iv_map l : reaches v (GMap l) -> in_value v (Place (PMap l)) false
| iv_slice base n : reaches v (GSlice base n) -> in_value v (Place (PSlice base)) (n =? 0)
| iv_bytes w : reaches v (GBytes w) -> in_value v (Place (PBuf (vloc w) (voff w))) (vlen w =? 0)
| iv_obj cls l : reaches v (GObjP cls l) -> in_value v (Place (PBox l)) false
| iv_weak l : reaches v (GWeakP l) -> in_value v (Place (PBox l)) false
| iv_str i l s : reaches v (GPtr i l) -> hget h l = GStr s -> in_value v (Place (PStr l)) (length s <=? 1)
| iv_canon : reaches v GCanonUndef -> in_value v (Place PCanon) true.

(** different things in [v] are at different addresses, except for those of the special kinds *)
Definition laid_out (lay : layout) (v : gval) : Prop := forall x y s t a,
  in_value v x s -> in_value v y t ->
  (match x with Var l => Some (at_cell lay l) | Place p => at_place lay p end) = Some a ->
  (match y with Var l => Some (at_cell lay l) | Place p => at_place lay p end) = Some a ->
  (x = y /\ s = t) \/ (s = true /\ t = true).
End Reach.

(** deep equality of values decoded with PerlCompat, [v] in memory [h] and [v'] in memory [h'],
    numbers compared by their bits and leaving out whether a pointer is an *interface{} *)
Section Alike.
Variable h h' : heap.
Inductive alike : gval -> gval -> Prop :=
| al_bool b : alike (GBool b) (GBool b)
| al_int k nm z : alike (GInt k nm z) (GInt k nm z)
| al_f32 u : alike (GF32 u) (GF32 u)
| al_f64 u : alike (GF64 u) (GF64 u)
| al_str s : alike (GStr s) (GStr s)
| al_bytes w w' : hview h w = hview h' w' -> alike (GBytes w) (GBytes w')
| al_slice base n base' : alikes (cells h base n) (cells h' base' n) ->
    alike (GSlice base n) (GSlice base' n)
| al_map l l' : (forall k, mget (hmap h l) k = None <-> mget (hmap h' l') k = None) ->
    (forall k v v', mget (hmap h l) k = Some v -> mget (hmap h' l') k = Some v' -> alike v v') ->
    alike (GMap l) (GMap l')
| al_ptr i l i' l' : alike (hget h l) (hget h' l') -> alike (GPtr i l) (GPtr i' l')
| al_undef c : alike (GUndefV c) (GUndefV c)
| al_canon : alike GCanonUndef GCanonUndef
| al_obj cls l l' : alike (hget h l) (hget h' l') -> alike (GObjP cls l) (GObjP cls l')
| al_weak l l' : alike (hget h l) (hget h' l') -> alike (GWeakP l) (GWeakP l')
| al_regexp p m p' m' : hview h p = hview h' p' -> hview h m = hview h' m' ->
    alike (GRegexpV p m) (GRegexpV p' m')
with alikes : list gval -> list gval -> Prop :=
| als_nil : alikes [] []
| als_cons v vs v' vs' : alike v v' -> alikes vs vs' -> alikes (v :: vs) (v' :: vs').
End Alike.
