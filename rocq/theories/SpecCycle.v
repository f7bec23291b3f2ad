(** Independent specification of documents whose items refer to each other in any way, cycles
    included (sereal_spec.pod sections "REFP", "ALIAS" and "TRACK FLAG").  Nothing here refers to
    the encoder or decoder. *)
From Verif Require Import Base SpecVarint GoMem Spec Codecs SpecDoc SpecShare.

(** What a document describes, tag by tag.  The items whose tags carry the track flag are numbered
    in the order in which the tags are met. *)
Inductive node : Type :=
| NLeaf (d : data)                        (* an item without other items inside *)
| NArr (l : list node)
| NHash (l : list (bytes * node))
| NRef (x : node)
| NWeak (x : node)
| NObj (cls : bytes) (x : node)
| NFreeze (cls s : bytes) (x : node)      (* frozen object; [x] is the item inside *)
| NCopy (x : node)                        (* COPY; [x] is the item read again *)
| NAt (i : nat) (x : node)                (* [x], marked with the track flag, is number [i] *)
| NBack (i : nat)                         (* REFP: a reference to number [i] *)
| NSame (i : nat).                        (* ALIAS: number [i] itself *)

(** the number of the marked item at [n]; [E]: the offsets of the marked items met, newest first *)
Fixpoint number (E : list nat) (n : nat) : option nat :=
  match E with
  | [] => None
  | n' :: E' => if n' =? n then Some (length E') else number E' n
  end.

(** a string, marked or not *)
Inductive string_node (s : bytes) : node -> Prop :=
| sn_leaf : string_node s (NLeaf (DBin s))
| sn_at i x : string_node s x -> string_node s (NAt i x).

Section Nodes.
Variable g : dialect.
Variable by_ : bytes.

(** [gitem E m p x p' X]: after marked items at [E], the bytes from [p] up to (excluding) [p'] are
    the item [x]; [X] are the offsets of the marked items in it, newest first. *)
Inductive gitem : list nat -> cmode -> nat -> node -> nat -> list nat -> Prop :=
| g_on E m p q t x p' X : tag_at by_ p q t -> marked by_ q -> gbody (q :: E) m q t x p' X ->
    gitem E m p (NAt (length E) x) p' (X ++ [q])
| g_off E m p q t x p' X : tag_at by_ p q t -> ~ marked by_ q -> gbody E m q t x p' X ->
    gitem E m p x p' X
(** the same for an item whose tag [t] stands at [q] and has been counted *)
with gbody : list nat -> cmode -> nat -> N -> node -> nat -> list nat -> Prop :=
| g_plain E m q t d p' : plain_tag t -> item g by_ m q d p' -> gbody E m q t (NLeaf d) p' []
| g_refn E m q x p' X : gitem E m (S q) x p' X -> gbody E m q 40 (NRef x) p' X
| g_weaken E m q x p' X : gitem E m (S q) x p' X -> gbody E m q 48 (NWeak x) p' X
| g_array E m q n r xs p' X : vint by_ (S q) n r -> (n <= g_max g)%N ->
    N.of_nat (length xs) = n -> gitems E m r xs p' X -> gbody E m q 43 (NArr xs) p' X
| g_arrayref E m q t xs p' X : (64 <= t < 80)%N -> N.of_nat (length xs) = (t - 64)%N ->
    gitems E m (S q) xs p' X -> gbody E m q t (NRef (NArr xs)) p' X
| g_hash E m q n r kxs p' X : vint by_ (S q) n r -> (n <= g_max g)%N ->
    N.of_nat (length kxs) = n -> gpairs E m r kxs p' X -> gbody E m q 42 (NHash kxs) p' X
| g_hashref E m q t kxs p' X : (80 <= t < 96)%N -> N.of_nat (length kxs) = (t - 80)%N ->
    gpairs E m (S q) kxs p' X -> gbody E m q t (NRef (NHash kxs)) p' X
| g_object E m q cls r x p' X : stringish g by_ (copy_ok m) (S q) cls r ->
    gitem E m r x p' X -> gbody E m q 44 (NObj cls x) p' X
| g_objectv E m q n r u cls e x p' X : vint by_ (S q) n r ->
    N.to_nat n < q -> refers g by_ (N.to_nat n) -> strlit g by_ (N.to_nat n) u cls e ->
    gitem E m r x p' X -> gbody E m q 45 (NObj cls x) p' X
| g_freeze E m q cls r s y p' X : stringish g by_ (copy_ok m) (S q) cls r ->
    at_ by_ r [x28; x2b] -> gitem E m r (NRef (NArr [y])) p' X -> string_node s y -> g_frz g cls s ->
    gbody E m q 50 (NFreeze cls s y) p' X
| g_freezev E m q o r u cls e s y p' X : vint by_ (S q) o r ->
    N.to_nat o < q -> refers g by_ (N.to_nat o) -> strlit g by_ (N.to_nat o) u cls e ->
    at_ by_ r [x28; x2b] -> gitem E m r (NRef (NArr [y])) p' X -> string_node s y -> g_frz g cls s ->
    gbody E m q 51 (NFreeze cls s y) p' X
| g_copy E q n r x e X : vint by_ (S q) n r -> N.to_nat n < q -> refers g by_ (N.to_nat n) ->
    gitem E (g_nest g) (N.to_nat n) x e X -> gbody E CAny q 47 (NCopy x) r X
(** a reference to an item met before, complete or not, and an item that is one met before *)
| g_refp E m q n r i : vint by_ (S q) n r -> N.to_nat n < q -> number E (N.to_nat n) = Some i ->
    gbody E m q 41 (NBack i) r []
| g_alias E m q n r i : vint by_ (S q) n r -> N.to_nat n < q -> number E (N.to_nat n) = Some i ->
    gbody E m q 46 (NSame i) r []
with gitems : list nat -> cmode -> nat -> list node -> nat -> list nat -> Prop :=
| gs_nil E m p : gitems E m p [] p []
| gs_cons E m p x r X xs p' Y : gitem E m p x r X -> gitems (X ++ E) m r xs p' Y ->
    gitems E m p (x :: xs) p' (Y ++ X)
with gpairs : list nat -> cmode -> nat -> list (bytes * node) -> nat -> list nat -> Prop :=
| gp_nil E m p : gpairs E m p [] p []
| gp_cons E m p k r x r' X kxs p' Y : stringish g by_ (copy_ok m) p k r ->
    gitem E m r x r' X -> gpairs (X ++ E) m r' kxs p' Y ->
    gpairs E m p ((k, x) :: kxs) p' (Y ++ X).
End Nodes.

(** * Go values *)

(** [shown v x]: in memory [h] the Go value [v] is what [x] describes, when the marked item number
    [i] is the Go value [L i].  Slices and maps are compared as Go does, by where their contents
    are: two occurrences of the same [L i] are the same slice or map.  [P] holds of the cells which
    [v] reaches without following references. *)
Section Shown.
Variables perl noref : bool.
Variable reg : bytes -> option nat.
Variable P : loc -> Prop.
Variable h : heap.
Variable L : nat -> gval -> Prop.

Inductive shown : gval -> node -> Prop :=
| sh_leaf v d : repr perl reg P h v d -> shown v (NLeaf d)
| sh_arr base n xs : n = length xs -> showns base xs -> shown (GSlice base n) (NArr xs)
| sh_hash l m kxs : P l -> nth_error h l = Some (CMap m) -> shownm m kxs -> shown (GMap l) (NHash kxs)
| sh_ref v x : perl = false -> shown v x -> shown v (NRef x)
| sh_ref_perl b l v x : perl = true -> P l -> nth_error h l = Some (CV v) -> shown v x ->
    shown (GPtr b l) (NRef x)
| sh_weak v x : perl = false -> shown v x -> shown v (NWeak x)
| sh_weak_perl l v x : perl = true -> P l -> nth_error h l = Some (CV v) -> shown v x ->
    shown (GWeakP l) (NWeak x)
| sh_obj v cls x : perl = false -> shown v x -> shown v (NObj cls x)
| sh_obj_perl l v cls x : perl = true -> P l -> nth_error h l = Some (CV v) -> shown v x ->
    shown (GObjP cls l) (NObj cls x)
| sh_freeze v cls s w x : repr perl reg P h v (DFreeze cls s) -> shown w x -> shown v (NFreeze cls s x)
| sh_copy v x : shown v x -> shown v (NCopy x)
| sh_at v i x : L i v -> shown v x -> shown v (NAt i x)
| sh_back l v i : noref = false -> P l -> nth_error h l = Some (CV v) -> L i v ->
    shown (GPtr false l) (NBack i)
| sh_back_noref v i : noref = true -> L i v -> shown v (NBack i)
| sh_same v i : L i v -> shown v (NSame i)
with showns : loc -> list node -> Prop :=
| shs_nil l : showns l []
| shs_cons l v x xs : P l -> nth_error h l = Some (CV v) -> shown v x -> showns (S l) xs ->
    showns l (x :: xs)
(** the map contents after assigning the entries in order *)
with shownm : list (bytes * gval) -> list (bytes * node) -> Prop :=
| shm_nil : shownm [] []
| shm_snoc m kxs k v x : shownm m kxs -> shown v x -> shownm (mput m k v) (kxs ++ [(k, x)]).
End Shown.

(** * References the decoder can follow *)

(** A Go value exists for a slice, a map, and in the Perl-compatible mode for a marked reference, a
    weak reference and an object, before its contents are read; for everything else when it is
    complete.  [B]: the marked items waiting for the value of the item at hand; [S]: the ones
    waiting for an item around it; [t]: the tag at hand is marked; [Z]: the marked items that
    become nil. *)
Section Fine.
Variable perl : bool.
Variable Z : nat -> Prop.

(** items that become nil *)
Fixpoint nil_node (x : node) : Prop :=
  match x with
  | NLeaf d => perl = false /\ nilish d
  | NRef x | NWeak x | NObj _ x => perl = false /\ nil_node x
  | NCopy x | NAt _ x => nil_node x
  | NSame i => Z i
  | _ => False
  end.

Fixpoint fine_node (t : bool) (B S : list nat) (x : node) : Prop :=
  match x with
  | NLeaf _ => True
  | NArr l => (fix all l := match l with [] => True | x :: l => fine_node false [] S x /\ all l end) l
  | NHash l => (fix all l := match l with [] => True | (_, x) :: l => fine_node false [] S x /\ all l end) l
  | NRef x => if perl then fine_node false [] (if t then S else B ++ S) x else fine_node false B S x
  | NWeak x => if perl then fine_node false [] S x else fine_node false B S x
  | NObj _ x => if perl then fine_node false [] S x else fine_node false [] (B ++ S) x
  | NFreeze _ _ x => fine_node false [] (B ++ S) x
  | NCopy x => fine_node false B S x
  | NAt i x => (nil_node x -> Z i) /\ fine_node true (i :: B) S x
  | NBack i => ~ In i (B ++ S) /\ ~ Z i
  | NSame i => ~ In i (B ++ S)
  end.
End Fine.

(** every REFP and ALIAS refers to an item whose value exists, and no REFP to nil *)
Definition followable (perl : bool) (x : node) : Prop :=
  exists Z, fine_node perl Z false [] [] x.

(** * Whole documents, as [body_item] and [document_in] of SpecDoc *)
Definition gbody_item (g : nat -> dialect) (ver : N) (pre body : bytes) (x : node) (e : nat) : Prop :=
  exists X,
  if (ver =? 1)%N
  then gitem (g (length pre)) (pre ++ body) [] CAny (length pre) x (length pre + e) X
  else gitem (g 1) (x00 :: body) [] CAny 1 x (1 + e) X.

Definition gdocument (rd : reader) (k : codecs) (b : bytes) (ver typ : N)
  (suffix : bytes) (x : node) (body : bytes) (e : nat) : Prop :=
  exists pre packed, b = pre ++ packed /\ preamble ver typ suffix pre /\
    packing k (r_packed rd) ver typ packed body /\
    (N.of_nat (length b) <= r_memory rd)%N /\
    (N.of_nat (length pre + length body) <= r_memory rd)%N /\
    gbody_item (r_dialect rd) ver pre body x e.
