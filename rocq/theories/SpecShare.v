(** Independent specification of documents with references to earlier items (REFP and
    ALIAS, sereal_spec.pod sections "REFP" and "ALIAS" and "TRACK FLAG").  Nothing here
    refers to the encoder or decoder. *)
From Verif Require Import Base SpecVarint GoMem Spec Codecs SpecDoc.
From Coq Require Import Permutation.

(** What is known about the items met so far, newest first: where the tag of each stands
    and, once the item is complete, the data it describes. *)
Definition env := list (nat * option data).

Fixpoint look (E : env) (n : nat) : option (option data) :=
  match E with
  | [] => None
  | (n', o) :: E' => if n' =? n then Some o else look E' n
  end.

(** the track flag of the byte at [n] is set *)
Definition marked (by_ : bytes) (n : nat) : Prop :=
  exists b, nth_error by_ n = Some b /\ (128 <= b2n b)%N.

(** tags of items without other items inside *)
Definition plain_tag (t : N) : Prop :=
  (t < 36 \/ t = 37 \/ t = 38 \/ t = 39 \/ t = 49 \/ t = 57 \/ t = 58 \/ t = 59 \/ 96 <= t < 128)%N.

Section Shared.
Variable g : dialect.
Variable by_ : bytes.

(** [sitem E m p d p' X]: after the items [E], the bytes from [p] up to (excluding) [p']
    are one item describing [d]; [X] are the items met, itself included. *)
Inductive sitem : env -> cmode -> nat -> data -> nat -> env -> Prop :=
| s_item E m p q t d p' X : tag_at by_ p q t -> sbody ((q, None) :: E) m q t d p' X ->
    sitem E m p d p' (X ++ [(q, Some d)])
(** the same for an item whose tag [t] stands at [q] *)
with sbody : env -> cmode -> nat -> N -> data -> nat -> env -> Prop :=
| s_plain E m q t d p' : plain_tag t -> item g by_ m q d p' -> sbody E m q t d p' []
| s_refn E m q d p' X : sitem E m (S q) d p' X -> sbody E m q 40 (DRef d) p' X
| s_weaken E m q d p' X : sitem E m (S q) d p' X -> sbody E m q 48 (DWeak d) p' X
| s_array E m q n r ds p' X : vint by_ (S q) n r -> (n <= g_max g)%N ->
    N.of_nat (length ds) = n -> sitems E m r ds p' X -> sbody E m q 43 (DArr ds) p' X
| s_arrayref E m q t ds p' X : (64 <= t < 80)%N -> N.of_nat (length ds) = (t - 64)%N ->
    sitems E m (S q) ds p' X -> sbody E m q t (DRef (DArr ds)) p' X
| s_hash E m q n r kvs p' X : vint by_ (S q) n r -> (n <= g_max g)%N ->
    N.of_nat (length kvs) = n -> spairs E m r kvs p' X -> sbody E m q 42 (DHash kvs) p' X
| s_hashref E m q t kvs p' X : (80 <= t < 96)%N -> N.of_nat (length kvs) = (t - 80)%N ->
    spairs E m (S q) kvs p' X -> sbody E m q t (DRef (DHash kvs)) p' X
| s_object E m q cls r d p' X : stringish g by_ (copy_ok m) (S q) cls r ->
    sitem E m r d p' X -> sbody E m q 44 (DObj cls d) p' X
| s_objectv E m q n r u cls e d p' X : vint by_ (S q) n r ->
    N.to_nat n < q -> refers g by_ (N.to_nat n) -> strlit g by_ (N.to_nat n) u cls e ->
    sitem E m r d p' X -> sbody E m q 45 (DObj cls d) p' X
| s_freeze E m q cls r s p' X : stringish g by_ (copy_ok m) (S q) cls r ->
    at_ by_ r [x28; x2b] -> sitem E m r (DRef (DArr [DBin s])) p' X -> g_frz g cls s ->
    sbody E m q 50 (DFreeze cls s) p' X
| s_freezev E m q o r u cls e s p' X : vint by_ (S q) o r ->
    N.to_nat o < q -> refers g by_ (N.to_nat o) -> strlit g by_ (N.to_nat o) u cls e ->
    at_ by_ r [x28; x2b] -> sitem E m r (DRef (DArr [DBin s])) p' X -> g_frz g cls s ->
    sbody E m q 51 (DFreeze cls s) p' X
| s_copy E q n r d e X : vint by_ (S q) n r -> N.to_nat n < q -> refers g by_ (N.to_nat n) ->
    sitem E (g_nest g) (N.to_nat n) d e X -> sbody E CAny q 47 d r X
(** a reference to an earlier item, and an item that is an earlier item *)
| s_refp E m q n r d : vint by_ (S q) n r -> N.to_nat n < q -> marked by_ (N.to_nat n) ->
    look E (N.to_nat n) = Some (Some d) -> sbody E m q 41 (DBack d) r []
| s_alias E m q n r d : vint by_ (S q) n r -> N.to_nat n < q -> marked by_ (N.to_nat n) ->
    look E (N.to_nat n) = Some (Some d) -> sbody E m q 46 d r []
with sitems : env -> cmode -> nat -> list data -> nat -> env -> Prop :=
| ss_nil E m p : sitems E m p [] p []
| ss_cons E m p d r X ds p' Y : sitem E m p d r X -> sitems (X ++ E) m r ds p' Y ->
    sitems E m p (d :: ds) p' (Y ++ X)
with spairs : env -> cmode -> nat -> list (bytes * data) -> nat -> env -> Prop :=
| sp_nil E m p : spairs E m p [] p []
| sp_cons E m p k r d r' X kvs p' Y : stringish g by_ (copy_ok m) p k r ->
    sitem E m r d r' X -> spairs (X ++ E) m r' kvs p' Y ->
    spairs E m p ((k, d) :: kvs) p' (Y ++ X).
End Shared.

(** [within x d]: x occurs in d *)
Inductive within (x : data) : data -> Prop :=
| w_here : within x x
| w_arr ds d : In d ds -> within x d -> within x (DArr ds)
| w_hash kvs k d : In (k, d) kvs -> within x d -> within x (DHash kvs)
| w_ref d : within x d -> within x (DRef d)
| w_weak d : within x d -> within x (DWeak d)
| w_obj cls d : within x d -> within x (DObj cls d)
| w_back d : within x d -> within x (DBack d).

(** data that the default decoding mode turns into nil *)
Inductive nilish : data -> Prop :=
| nl_undef : nilish DUndef
| nl_canon : nilish DCanon
| nl_ref d : nilish d -> nilish (DRef d)
| nl_weak d : nilish d -> nilish (DWeak d)
| nl_obj cls d : nilish d -> nilish (DObj cls d)
| nl_back d : nilish d -> nilish (DBack d).

(** no reference to an item that is nil *)
Definition backs_ok (d : data) : Prop := forall x, within (DBack x) d -> ~ nilish x.

(** references to items elsewhere replaced by the items themselves *)
Fixpoint unback (d : data) : data :=
  match d with
  | DArr l => DArr (map unback l)
  | DHash l => DHash (map (fun kd => (fst kd, unback (snd kd))) l)
  | DRef d => DRef (unback d)
  | DWeak d => DWeak (unback d)
  | DObj cls d => DObj cls (unback d)
  | DBack d => unback d
  | x => x
  end.

(** the data as shown with ([true]) and without ([false]) DisableReferentialIntegrity *)
Definition shown (noref : bool) (d : data) : data := if noref then unback d else d.

(** Whole documents, as [body_item] and [document_in] of SpecDoc. *)
Definition sbody_item (m : cmode) (g : nat -> dialect) (ver : N) (pre body : bytes) (d : data)
  (e : nat) : Prop :=
  exists X,
  if (ver =? 1)%N
  then sitem (g (length pre)) (pre ++ body) [] m (length pre) d (length pre + e) X
  else sitem (g 1) (x00 :: body) [] m 1 d (1 + e) X.

Definition sdocument_in (m : cmode) (rd : reader) (k : codecs) (b : bytes) (ver typ : N)
  (suffix : bytes) (d : data) (body : bytes) (e : nat) : Prop :=
  exists pre packed, b = pre ++ packed /\ preamble ver typ suffix pre /\
    packing k (r_packed rd) ver typ packed body /\
    (N.of_nat (length b) <= r_memory rd)%N /\
    (N.of_nat (length pre + length body) <= r_memory rd)%N /\
    sbody_item m (r_dialect rd) ver pre body d e.
Definition sdocument := sdocument_in CAny.
