(** Independent specification used for documents that are read and written again. *)
From Verif Require Import Base GoMem Spec SpecValue.

(** how deep arrays, hashes and regexps of [d] nest; references and objects do not count *)
Fixpoint nesting (d : data) : nat :=
  match d with
  | DArr l => S (list_max (map nesting l))
  | DHash l => S (list_max (map (fun kd => nesting (snd kd)) l))
  | DRef d | DWeak d | DObj _ d | DBack d => nesting d
  | DRegexp _ _ => 1
  | _ => 0
  end.

(** [d] has no frozen objects *)
Fixpoint thawed (d : data) : bool :=
  match d with
  | DArr l => forallb thawed l
  | DHash l => forallb (fun kd => thawed (snd kd)) l
  | DRef d | DWeak d | DObj _ d | DBack d => thawed d
  | DFreeze _ _ => false
  | _ => true
  end.

(** reflect.DeepEqual of decoded values [v] in memory [h] and [v'] in memory [h'], numbers
    compared by their bits *)
Section Deep.
Variable h h' : heap.
Inductive deep : gval -> gval -> Prop :=
| dp_nil : deep GNil GNil
| dp_bool b : deep (GBool b) (GBool b)
| dp_int k nm z : deep (GInt k nm z) (GInt k nm z)
| dp_f32 u : deep (GF32 u) (GF32 u)
| dp_f64 u : deep (GF64 u) (GF64 u)
| dp_str s : deep (GStr s) (GStr s)
| dp_bytes w w' : hview h w = hview h' w' -> deep (GBytes w) (GBytes w')
| dp_slice base n base' : deeps (cells h base n) (cells h' base' n) ->
    deep (GSlice base n) (GSlice base' n)
| dp_map l l' : (forall k, mget (hmap h l) k = None <-> mget (hmap h' l') k = None) ->
    (forall k v v', mget (hmap h l) k = Some v -> mget (hmap h' l') k = Some v' -> deep v v') ->
    deep (GMap l) (GMap l')
| dp_ptr i l l' : deep (hget h l) (hget h' l') -> deep (GPtr i l) (GPtr i l')
| dp_regexp p m p' m' : hview h p = hview h' p' -> hview h m = hview h' m' ->
    deep (GRegexpV p m) (GRegexpV p' m')
| dp_freeze cls w w' : hview h w = hview h' w' -> deep (GFreezeV cls w) (GFreezeV cls w')
| dp_user t w w' : hview h w = hview h' w' -> deep (GUserP t w) (GUserP t w')
with deeps : list gval -> list gval -> Prop :=
| dps_nil : deeps [] []
| dps_cons v vs v' vs' : deep v v' -> deeps vs vs' -> deeps (v :: vs) (v' :: vs').
End Deep.
