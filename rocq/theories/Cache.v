(** tagscache.go: the cache of struct tables kept in an Encoder, a Decoder and the
    package-level encoder, alone and under goroutines. *)
From Verif Require Import Base GoMem TagsCache.

Notation table := (list (bytes * nat)).

(** tagscache.go 5-7.  [cmap = None] is the nil map of a new cache.  Types are numbered;
    [decl t] (a parameter of [Get]) gives the fields of type [t], [None] if [t] is not a
    struct.  Maps are association lists, latest entry first; no entry is ever removed. *)
Record cache := mkCache { cmap : option (list (nat * table)) }.
Definition zero_cache : cache := mkCache None.

(** lookup in a Go map keyed by reflect.Type *)
Fixpoint tlookup (m : list (nat * table)) (t : nat) : option table :=
  match m with
  | [] => None
  | (t', x) :: m' => if t =? t' then Some x else tlookup m' t
  end.

(** tagscache.go 9-51 (Get), by one goroutine.  The nil table is [[]]. *)
Definition Get (decl : nat -> option (list fdecl)) (c : cache) (t : nat) : table * cache :=
  match decl t with
  | None => ([], c)
  | Some fs =>
      let m := match cmap c with None => [] | Some m => m end in
      match tlookup m t with
      | Some x => (x, mkCache (Some m))
      | None => (tags_of fs, mkCache (Some ((t, tags_of fs) :: m)))
      end
  end.

(** The cache after a history of lookups. *)
Fixpoint after (decl : nat -> option (list fdecl)) (hist : list nat) (c : cache) : cache :=
  match hist with
  | [] => c
  | t :: hist' => after decl hist' (snd (Get decl c t))
  end.

(** * Goroutines sharing one cache *)

(** What is shared: the field [cmap] (line 6), holding nil or a reference to one of the maps
    made so far ([maps], by number). *)
Record shared := mkShared { maps : list (list (nat * table)); field : option nat }.

(** Memory accesses: to the field, or to map number [i]. *)
Inductive place := PField | PMap (i : nat).
Inductive access := Rd (p : place) | Wr (p : place).

(** Where a goroutine is in Get: before the call; before line 15, 19, 49. *)
Inductive pc := Idle | AtMake (t : nat) | AtLookup (t : nat) | AtStore (t : nat) (m : table).

(** A goroutine that looks up the types [todo] in turn (the types of the structs in the
    values it marshals), and the tables it got. *)
Record gor := mkGor { todo : list nat; at_ : pc; got : list (nat * table) }.

Definition set_map (ms : list (list (nat * table))) (i : nat) (m : list (nat * table)) :=
  firstn i ms ++ m :: skipn (S i) ms.

(** One step of a goroutine: the accesses of one line of Get, and the local work up to the
    next one.  [None]: it has finished (or panics: assignment to a nil map, line 49). *)
Definition gstep (decl : nat -> option (list fdecl)) (g : gor) (s : shared)
  : option (gor * shared * list access) :=
  match at_ g with
  | Idle =>
      match todo g with
      | [] => None
      | t :: rest =>
          match decl t with
          | None => Some (mkGor rest Idle ((t, []) :: got g), s, [])       (* 10-12 *)
          | Some _ =>                                                       (* 14 *)
              match field s with
              | None => Some (mkGor rest (AtMake t) (got g), s, [Rd PField])
              | Some _ => Some (mkGor rest (AtLookup t) (got g), s, [Rd PField])
              end
          end
      end
  | AtMake t =>                                                             (* 15 *)
      Some (mkGor (todo g) (AtLookup t) (got g),
            mkShared (maps s ++ [[]]) (Some (length (maps s))), [Wr PField])
  | AtLookup t =>                                                           (* 19-21; 23-47 *)
      match field s with
      | None => None
      | Some i =>
          match tlookup (nth i (maps s) []) t with
          | Some x => Some (mkGor (todo g) Idle ((t, x) :: got g), s, [Rd PField; Rd (PMap i)])
          | None =>
              Some (mkGor (todo g) (AtStore t (tags_of (match decl t with Some fs => fs | None => [] end)))
                          (got g), s, [Rd PField; Rd (PMap i)])
          end
      end
  | AtStore t m =>                                                          (* 49-50 *)
      match field s with
      | None => None
      | Some i =>
          Some (mkGor (todo g) Idle ((t, m) :: got g),
                mkShared (set_map (maps s) i ((t, m) :: nth i (maps s) [])) (field s),
                [Rd PField; Wr (PMap i)])
      end
  end.

(** An interleaving: [sched] says whose turn it is; a turn of a finished or absent goroutine
    does nothing.  The result has the trace of accesses, each with the goroutine's number. *)
Fixpoint run_all (decl : nat -> option (list fdecl)) (sched : list nat) (gs : list gor) (s : shared)
  : list gor * shared * list (nat * access) :=
  match sched with
  | [] => (gs, s, [])
  | i :: sched' =>
      match nth_error gs i with
      | None => run_all decl sched' gs s
      | Some g =>
          match gstep decl g s with
          | None => run_all decl sched' gs s
          | Some (g', s', accs) =>
              let '(gs2, s2, tr) := run_all decl sched' (firstn i gs ++ g' :: skipn (S i) gs) s' in
              (gs2, s2, map (pair i) accs ++ tr)
          end
      end
  end.

Definition start (progs : list (list nat)) : list gor := map (fun p => mkGor p Idle []) progs.

(** The shared state left by lookups in turn, before goroutines start. *)
Definition as_shared (c : cache) : shared :=
  match cmap c with None => mkShared [] None | Some m => mkShared [m] (Some 0) end.
