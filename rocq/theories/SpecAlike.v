(** Two Go values, each in a memory of its own, that have the same content and the same sharing:
    one may be a deep copy of the other. *)
From Verif Require Import Base GoMem Encode SpecPlaces.

(** values without parts elsewhere in memory *)
Definition atom (v : gval) : bool :=
  match v with
  | GNil | GBool _ | GInt _ _ _ | GF32 _ | GF64 _ | GStr _ | GJson _ | GNilPtr | GUndefV _ | GUserP _ _ | GOpaque => true
  | _ => false
  end.

Section Alike.
Variables (h h' : heap) (L L' : layout).
(** which thing of one memory corresponds to which of the other *)
Variable T : spot -> spot -> Prop.

(** two values of the same type whose parts correspond *)
Inductive alike_value : gval -> gval -> Prop :=
| al_atom v : atom v = true -> alike_value v v
| al_bytes w w' : hview h w = hview h' w' -> T (Other (PBuf (vloc w) (voff w))) (Other (PBuf (vloc w') (voff w'))) ->
    alike_value (GBytes w) (GBytes w')
| al_slice b b' n : T (Other (PSlice b)) (Other (PSlice b')) ->
    (forall i, i < n -> T (Variable_ (b + i)) (Variable_ (b' + i))) -> alike_value (GSlice b n) (GSlice b' n)
| al_tslice a b b' n : T (Other (PSlice b)) (Other (PSlice b')) ->
    (forall i, i < n -> T (Variable_ (b + i)) (Variable_ (b' + i))) -> alike_value (GTSlice a b n) (GTSlice a b' n)
| al_map l l' : T (Other (PMap l)) (Other (PMap l')) -> alike_value (GMap l) (GMap l')
| al_tmap l l' : T (Other (PMap l)) (Other (PMap l')) -> alike_value (GTMap l) (GTMap l')
| al_ptr i l l' : T (Variable_ l) (Variable_ l') -> T (Other (PStr l)) (Other (PStr l')) -> alike_value (GPtr i l) (GPtr i l')
| al_canon : T (Other PCanon) (Other PCanon) -> alike_value GCanonUndef GCanonUndef
| al_objv c r r' : alike_value r r' -> alike_value (GObjV c r) (GObjV c r')
| al_objp c r r' : T (Variable_ r) (Variable_ r') -> T (Other (PBox r)) (Other (PBox r')) -> alike_value (GObjP c r) (GObjP c r')
| al_weakv r r' : alike_value r r' -> alike_value (GWeakV r) (GWeakV r')
| al_weakp r r' : T (Variable_ r) (Variable_ r') -> T (Other (PBox r)) (Other (PBox r')) -> alike_value (GWeakP r) (GWeakP r')
| al_regexp p m p' m' : hview h p = hview h' p' -> hview h m = hview h' m' -> alike_value (GRegexpV p m) (GRegexpV p' m')
| al_freeze c d d' : hview h d = hview h' d' -> T (Other (PBuf (vloc d) (voff d))) (Other (PBuf (vloc d') (voff d'))) ->
    alike_value (GFreezeV c d) (GFreezeV c d')
| al_user n d p p' : alike_value p p' -> alike_value (GUser n d p) (GUser n d p')
| al_struct n fs b b' : (forall i, i < length fs -> T (Variable_ (b + i)) (Variable_ (b' + i))) ->
    alike_value (GStruct n fs b) (GStruct n fs b').

(** Corresponding variables and maps have corresponding content, and of corresponding things the
    same ones share an address. *)
Definition alike_memory : Prop :=
  (forall l l', T (Variable_ l) (Variable_ l') -> alike_value (hget h l) (hget h' l')) /\
  (forall l l', T (Other (PMap l)) (Other (PMap l')) ->
     Forall2 (fun x y => fst x = fst y /\ alike_value (snd x) (snd y)) (hmap h l) (hmap h' l') /\
     Forall2 (fun x y => alike_value (fst x) (fst y) /\ alike_value (snd x) (snd y)) (htmap h l) (htmap h' l')) /\
  (forall x x', T x x' -> (address L x = None <-> address L' x' = None)) /\
  (forall x x' y y', T x x' -> T y y' -> (address L x = address L y <-> address L' x' = address L' y')).
End Alike.

(** the same options, and maps are iterated over in the same order *)
Definition same_options (e e' : econfig) : Prop :=
  e_perl e' = e_perl e /\ e_comp e' = e_comp e /\ e_threshold e' = e_threshold e /\ e_nodedup e' = e_nodedup e /\
  e_nofreeze e' = e_nofreeze e /\ e_maxdepth e' = e_maxdepth e /\ e_version e' = e_version e /\
  e_parsefloat e' = e_parsefloat e /\
  forall t A B (P : A -> B -> Prop) l l', Forall2 P l l' -> Forall2 P (e_shuffle e t A l) (e_shuffle e' t B l').
