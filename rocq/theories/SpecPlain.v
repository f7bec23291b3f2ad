(** Go values whose documents every Merger has to accept.  Nothing here refers to the model
    of the encoder or of the Merger. *)
From Verif Require Import Base GoMem Spec SpecValue.

Section Plain.
(** [dedup]: class names may be written as copies of earlier ones; [nofreeze]: MarshalBinary is
    not used; [lay]: as in SpecValue *)
Variable dedup nofreeze : bool.
Variable lay : layout.
Variable h : heap.

(** the addresses by which a value that is a pointer is recognised *)
Fixpoint starts (v : gval) : list addr :=
  match v with
  | GPtr _ l => at_cell lay l :: own_addr lay l (hget h l)
  | GUser _ _ v => if nofreeze then starts v else []
  | _ => []
  end.

(** The target [v] of a pointer to cell [l] is not a pointer back to [l] (nor to something
    recognised by the same address) and, if it has an address of its own, is not written as a
    single byte. *)
Definition apart (l : loc) (v : gval) : Prop :=
  ~ In (at_cell lay l) (starts v) /\
  match v with
  | GJson _ | GCanonUndef => own_addr lay l v = []
  | GBytes w => hview h w <> []
  | GPtr i l' => i || negb (perl_struct (hget h l')) = true
  | _ => True
  end.

Inductive plain : gval -> Prop :=
| pl_flat v : match v with
    | GNil | GBool _ | GInt _ _ _ | GF32 _ | GF64 _ | GStr _ | GJson _ | GBytes _ | GSlice _ _ | GTSlice _ _ _
    | GMap _ | GTMap _ | GNilPtr | GUndefV _ | GCanonUndef | GWeakP _ => True
    | _ => False
    end -> plain v
| pl_weak v : plain v -> plain (GWeakV v)
| pl_ptr i l : apart l (hget h l) -> plain (GPtr i l)
| pl_obj cls v : dedup = false -> cls <> [] -> plain v -> plain (GObjV cls v)
| pl_objp cls l : dedup = false -> cls <> [] -> plain (GObjP cls l)
| pl_struct name fs base : dedup = false -> name <> [] -> plain (GStruct name fs base)
| pl_freeze cls w : dedup = false -> plain (GFreezeV cls w)
| pl_regexp p m : hview h p <> [] -> hview h m <> [] -> plain (GRegexpV p m)
| pl_user name o v : nofreeze = false -> dedup = false -> name <> [] -> plain (GUser name o v)
| pl_user_plain name o v : nofreeze = true -> plain v -> plain (GUser name o v).

(** everything in memory is plain *)
Definition plain_memory : Prop :=
  (forall l, plain (hget h l)) /\ (forall l k v, In (k, v) (hmap h l) -> plain v) /\
  (forall l k v, In (k, v) (htmap h l) -> plain k /\ plain v).
End Plain.
