(** Independent specification: the memory a value is serialised from. *)
From Verif Require Import Base GoMem Encode SpecValue.

(** part of the memory: a variable or map, or the bytes of a []byte *)
Inductive part := Cell (l : loc) | Window (w : view).

(** in memory [h] and in memory [h'] there is the same *)
Definition unchanged (h h' : heap) (p : part) : Prop :=
  match p with
  | Cell l => nth_error h' l = nth_error h l
  | Window w => hview h' w = hview h w
  end.

(** the variables a value consists of or points to; of a struct those of its exported
    fields that are serialised *)
Inductive variable_of : gval -> loc -> Prop :=
| vo_slice base n i : i < n -> variable_of (GSlice base n) (base + i)
| vo_tslice a base n i : i < n -> variable_of (GTSlice a base n) (base + i)
| vo_ptr ifc l : variable_of (GPtr ifc l) l
| vo_object cls l : variable_of (GObjP cls l) l
| vo_weak l : variable_of (GWeakP l) l
| vo_field name fs base i k f : serialised fs k i -> nth_error fs i = Some f -> f_exported f = true ->
    variable_of (GStruct name fs base) (base + i).

Inductive map_of : gval -> loc -> Prop :=
| mo_map l : map_of (GMap l) l
| mo_tmap l : map_of (GTMap l) l.

Inductive window_of : gval -> view -> Prop :=
| wo_bytes w : window_of (GBytes w) w
| wo_pattern p m : window_of (GRegexpV p m) p
| wo_modifiers p m : window_of (GRegexpV p m) m
| wo_freeze cls w : window_of (GFreezeV cls w) w.

Section Seen.
Variable e : econfig.
Variable h : heap.

(** values a value holds directly.  A BinaryMarshaler is only looked into if its method is
    not to be used. *)
Inductive holds : gval -> gval -> Prop :=
| ho_object cls r : holds (GObjV cls r) r
| ho_weak r : holds (GWeakV r) r
| ho_user name data plain : e_nofreeze e = true -> holds (GUser name data plain) plain
| ho_entry l k x : In (k, x) (hmap h l) -> holds (GMap l) x
| ho_key l k x : In (k, x) (htmap h l) -> holds (GTMap l) k
| ho_tentry l k x : In (k, x) (htmap h l) -> holds (GTMap l) x.

(** what is seen of the memory when [v] is serialised *)
Inductive seen : gval -> part -> Prop :=
| se_variable v l : variable_of v l -> seen v (Cell l)
| se_content v l p : variable_of v l -> seen (hget h l) p -> seen v p
| se_map v l : map_of v l -> seen v (Cell l)
| se_window v w : window_of v w -> seen v (Window w)
| se_held v u p : holds v u -> seen u p -> seen v p.
End Seen.
