(** Maps whose keys are not Go strings. *)
From Verif Require Import Base GoMem Encode.

(** the key a json.Number stands for: the string of its text *)
Definition text_key (k : gval) : gval := match k with GJson s => GStr s | k => k end.
(** the same memory, with JSON numbers as map keys replaced by strings *)
Definition with_text_keys (h : heap) : heap :=
  map (fun x => match x with CTMap m => CTMap (map (fun e => (text_key (fst e), snd e)) m) | x => x end) h.

(** The order of iteration is given by positions: what the entries are plays no role.  (Every
    single run of a program is described by such an [e_shuffle], each iteration being numbered.) *)
Definition by_position (e : econfig) : Prop :=
  forall t A B (f : A -> B) l, e_shuffle e t B (map f l) = map f (e_shuffle e t A l).

(** number of entries of a map value *)
Definition entries (h : heap) (v : gval) : option nat :=
  match v with GMap l => Some (length (hmap h l)) | GTMap l => Some (length (htmap h l)) | _ => None end.
