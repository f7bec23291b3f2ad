(** C34, C35: the struct tag cache of an Encoder or Decoder, and of the package-level Marshal.

    [Get decl c t] (Cache.v) looks up type number [t] in cache [c] and gives its table and the
    cache afterwards; [decl t]: the fields of [t], [None] if it is not a struct;
    [after decl hist zero_cache]: a cache that was used for the types [hist] before.
    [field_table fs x] (SpecValue.v): [x] maps each serialised name of a struct with fields
    [fs] to its field, and nothing else. *)
From Verif Require Import Base GoMem TagsCache SpecValue Cache SpecCache CacheFacts.

(** [type T struct { A; b; C `sereal:"-"`; D `sereal:"x"`; E `sereal:"x"` }], a struct with no
    serialised field, and a type that is not a struct *)
Definition fA := mkField [x41] [] true.
Definition fb := mkField [x62] [] false.
Definition fC := mkField [x43] [x2d] true.
Definition fD := mkField [x44] [x78] true.
Definition fE := mkField [x45] [x78] true.
Definition decls (t : nat) : option (list fdecl) :=
  match t with 0 => Some [fA; fb; fC; fD; fE] | 1 => Some [fC; fb] | _ => None end.

Theorem C34_tag_cache_transparent : forall decl hist t,
  match decl t with
  | Some fs => field_table fs (fst (Get decl (after decl hist zero_cache) t))
  | None => fst (Get decl (after decl hist zero_cache) t) = []
  end.
Proof. exact get_right. Qed.
Print Assumptions C34_tag_cache_transparent.

(** after looking up types 1, 0, 2, 0, type 0 has A at field 0 and x at field 4 *)
Example C34_case : fst (Get decls (after decls [1; 0; 2; 0] zero_cache) 0) = [([x41], 0); ([x78], 4)] /\
  fst (Get decls (after decls [1; 0; 2; 0] zero_cache) 1) = [] /\
  serialised [fA; fb; fC; fD; fE] [x78] 4 /\ ~ serialised [fA; fb; fC; fD; fE] [x78] 3.
Proof.
  split; [reflexivity|]. split; [reflexivity|].
  split.
  - exists fE. repeat split. intros j f L E. do 5 (destruct j; [lia|]). destruct j; discriminate.
  - intros (f & _ & _ & H). apply (H 4 fE); [lia|reflexivity|reflexivity].
Qed.

(** Goroutines sharing a cache, taking turns in any order (every access taking effect at
    once): each of them still gets the right tables. *)
Theorem C34_interleaved : forall decl hist progs sched gs s tr,
  run_all decl sched (start progs) (as_shared (after decl hist zero_cache)) = (gs, s, tr) ->
  forall g t x, In g gs -> In (t, x) (got g) -> right_table decl t x.
Proof. exact interleaved_right. Qed.
Print Assumptions C34_interleaved.

(** Two goroutines both make the map, one of the two maps is lost; all tables are right. *)
Example C34_interleaved_case :
  let '(gs, s, tr) := run_all decls [0; 1; 0; 0; 1; 0; 1; 1; 0; 0] (start [[0; 1]; [0]]) (as_shared zero_cache) in
  map got gs = [[(0, [([x41], 0); ([x78], 4)])]; [(0, [([x41], 0); ([x78], 4)])]] /\
  length (maps s) = 2.
Proof. vm_compute. split; reflexivity. Qed.

(** C35.  Two goroutines calling Marshal with a struct type not marshalled before race: on the
    map, or on the field holding it.  This is so for every type and every earlier history. *)
Theorem C35_concurrent_marshal_refuted :
  ~ (forall decl hist progs sched gs s tr,
       run_all decl sched (start progs) (as_shared (after decl hist zero_cache)) = (gs, s, tr) ->
       ~ race tr) /\
  (forall decl hist t p q, decl t <> None -> ~ In t hist ->
     exists sched gs s tr,
       run_all decl sched (start [t :: p; t :: q]) (as_shared (after decl hist zero_cache)) = (gs, s, tr) /\
       race tr).
Proof.
  split; [|exact cold_race].
  intros H. destruct (cold_race decls [] 0 [] [] ltac:(discriminate) ltac:(intros [])) as (sched & gs & s & tr & R & X).
  exact (H _ _ _ _ _ _ _ R X).
Qed.
Print Assumptions C35_concurrent_marshal_refuted.

(** Full claim: no interleaving has conflicting accesses.  Proved when every struct type the
    goroutines use was marshalled before they started: then nothing is written at all. *)
Theorem C35_concurrent_marshal_partial : forall decl hist progs sched gs s tr,
  (forall p t, In p progs -> In t p -> decl t <> None -> In t hist) ->
  run_all decl sched (start progs) (as_shared (after decl hist zero_cache)) = (gs, s, tr) ->
  ~ race tr /\ s = as_shared (after decl hist zero_cache).
Proof. exact warm_no_race. Qed.
Print Assumptions C35_concurrent_marshal_partial.

Example C35_case :
  (forall p t, In p [[0; 2; 1]; [1; 0]] -> In t p -> decls t <> None -> In t [1; 0]) /\
  let '(gs, s, tr) := run_all decls [0; 1; 0; 1; 1; 0; 1; 0; 0] (start [[0; 2; 1]; [1; 0]])
                        (as_shared (after decls [1; 0] zero_cache)) in
  map (fun g => length (got g)) gs = [3; 2] /\ length tr = 12.
Proof.
  split; [|vm_compute; split; reflexivity].
  intros p t [<-|[<-|[]]]; cbn; intuition subst; cbn in *; auto; congruence.
Qed.
