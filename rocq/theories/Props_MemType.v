(** C59, C60: Unmarshal into typed variables keeps Go's types, and unexported fields.

    [unmarshal_mem k c v h mem b ib ty (l, [])]: Unmarshal(b, &x) for the variable x of type [ty] in
    cell [l] of [mem], as in Props_TypedMem.v.  SpecMemType.v: [well_typed v ct mem]: each cell of [mem]
    holds a value of its type in [ct], and pointers, maps and slices refer to cells of their element
    type; [ints_ok h]: integers in interface{} parts are within the range of their kind;
    [ereach v ct mem l l']: [l'] can be reached from [l] without passing through an unexported field;
    [sealed v p]: path [p] into a variable leads through an unexported field. *)
From Verif Require Import Base BaseFacts SpecVarint Varint Tags GoMem GoTypes TagsCache Codecs Encode Compress Header Decode
  Document SpecHeader SpecShape HeaderFacts ApiSafe Typed TypedMem SpecMem SpecMemType MemTypeTop JsonFacts Roundtrip OutcomeFacts RoundtripFacts WireFacts SpecDoc SpecOptions SpecOutcome Spec SpecValue SpecTyped TypedSpec TypedDoc TypedRound Cases Props_Typed Props_TypedSafe Props_TypedMem.
From Coq Require Import ZifyBool ZifyNat ZifyN.

(** C59.  Whatever the document and the outcome, every variable keeps its type: integers stay
    within their kind, arrays keep their lengths, pointers, maps and slices lead to variables of
    their element type.  The same holds of the cells that were added. *)
Theorem C59_types_are_kept : forall k c v h mem b ib ty l ct,
  well_typed v ct mem -> ints_ok h -> nth_error ct l = Some (CVar ty) ->
  let '(o, mem') := unmarshal_mem k c v h mem b ib ty (l, []) in
  (exists added, well_typed v (ct ++ added) mem') /\
  (forall h' m, o = Ok (h', m) -> m = mem' /\ ints_ok h').
Proof.
  intros k c v h mem b ib ty l ct W I E. pose proof (unmarshal_mem_typed k c v h mem b ib ty l ct W I E) as [H1 (e & H2 & _)].
  unfold unmarshal_mem. destruct (unmarshal_mem_raw _ _ _ _ _ _ _ _) as [o s]. cbn [snd] in *. split; [eauto|].
  intros h' m Eo. destruct o as [u|[]|[]| |]; cbn in Eo; try discriminate; injection Eo as <- <-; auto.
Qed.
Print Assumptions C59_types_are_kept.

(** var p *T; the document of a ring with A: 300, which an int8 does not hold *)
Definition wide_doc : bytes := raw_document 3 [x28; xaa; x02; x61; x41; x20; xac; x02; x61; x6e; x29; x02].
Definition wide_types : list ctype := [CVar (TyPtr (TyStruct 0)); CVar (TyStruct 0); CVar (TyPtr (TyStruct 0)); CVar TyStr].
Lemma has_T ct fs : (forall i m f t, In (i, m) fs -> nth_error T_fields i = Some (f, t) -> has env0 ct t m) ->
  (forall i m, In (i, m) fs -> i < 5) -> has env0 ct (TyStruct 0) (MStruct fs).
Proof. intros A B. apply has_struct; [exact B|exact A]. Qed.
Lemma wide_typed : well_typed env0 wide_types shared_mem.
Proof.
  repeat apply Forall2_cons; try apply Forall2_nil; try (apply has_ptr; reflexivity); try apply has_str. apply has_T.
  - intros i m f t [J|[J|[]]]; injection J as <- <-; cbn; intros [= <- <-]; [apply has_int; unfold ikind_in; cbn; lia|apply has_ptr; reflexivity].
  - intros i m [J|[J|[]]]; injection J as <- <-; lia.
Qed.
Lemma ints_none : ints_ok [].
Proof. split; [intros [|l]; exact Logic.I|intros [|l] ? ? []]. Qed.
Example C59_case : well_typed env0 wide_types shared_mem /\ ints_ok [] /\ nth_error wide_types 0 = Some (CVar (TyPtr (TyStruct 0))) /\
  unmarshal_mem k0 c0 env0 [] shared_mem wide_doc 0 (TyPtr (TyStruct 0)) (0, []) =
    (Ok ([CV GOpaque], [MCell (MPtr (Some 1)); MCell (MStruct [(0, MInt 44); (2, MPtr (Some 1))]); MCell (MPtr (Some 1)); MCell (MStr [x68])]),
     [MCell (MPtr (Some 1)); MCell (MStruct [(0, MInt 44); (2, MPtr (Some 1))]); MCell (MPtr (Some 1)); MCell (MStr [x68])]).
Proof. split; [exact wide_typed|]. split; [exact ints_none|]. split; [reflexivity|]. vm_compute. reflexivity. Qed.

(** C60.  What can be reached only through unexported fields stays as it was, and does not become
    reachable otherwise. *)
Theorem C60_behind_unexported_fields : forall k c v h mem b ib ty l ct,
  well_typed v ct mem -> ints_ok h -> nth_error ct l = Some (CVar ty) ->
  let mem' := snd (unmarshal_mem k c v h mem b ib ty (l, [])) in
  exists added, well_typed v (ct ++ added) mem' /\
    (forall l', l' < length mem -> ~ ereach v ct mem l l' -> nth_error mem' l' = nth_error mem l') /\
    (forall l', ereach v (ct ++ added) mem' l l' -> ereach v ct mem l l' \/ length mem <= l').
Proof.
  intros k c v h mem b ib ty l ct W I E. pose proof (unmarshal_mem_typed k c v h mem b ib ty l ct W I E) as [_ (e & H2 & H3 & H4 & _)].
  unfold unmarshal_mem. destruct (unmarshal_mem_raw _ _ _ _ _ _ _ _) as [o s]. exists e. auto.
Qed.
Print Assumptions C60_behind_unexported_fields.

(** type P struct { V int8; Q *P; q *P }: a document with keys q and Q; both name the exported field *)
Definition P_fields : list (fdecl * gtype) :=
  [(mkField [x56] [] true, TyInt KInt8); (mkField [x51] [] true, TyPtr (TyStruct 0)); (mkField [x71] [] false, TyPtr (TyStruct 0))].
Definition env_P : goenv := mkGoEnv (fun u => u) (fun u => u) (fun s => match s with [x71] => [x51] | _ => s end)
  (fun _ => mkStruct [x50] P_fields).
Definition P_mem : memory := [MCell (MStruct [(2, MPtr (Some 1))]); MCell (MStruct [(0, MInt 5)])].
Definition P_types : list ctype := [CVar (TyStruct 0); CVar (TyStruct 0)].
Lemma P_typed : well_typed env_P P_types P_mem.
Proof.
  repeat apply Forall2_cons; try apply Forall2_nil;
  (apply has_struct; intros i m; [intros [J|[]]; injection J as <- <-; cbn; lia|]);
  intros f t [J|[]]; injection J as <- <-; cbn; intros [= <- <-]; [apply has_ptr; reflexivity|apply has_int; unfold ikind_in; cbn; lia].
Qed.
Example C60_case : well_typed env_P P_types P_mem /\ ~ ereach env_P P_types P_mem 0 1 /\
  snd (unmarshal_mem k0 c0 env_P [] P_mem
    (raw_document 3 [x2a; x02; x61; x71; x28; x2a; x01; x61; x56; x07; x61; x51; x28; x2a; x01; x61; x56; x08]) 0 (TyStruct 0) (0, [])) =
    [MCell (MStruct [(2, MPtr (Some 1)); (1, MPtr (Some 2))]); MCell (MStruct [(0, MInt 5)]); MCell (MStruct [(0, MInt 8)])].
Proof.
  split; [exact P_typed|]. split; [|vm_compute; reflexivity].
  assert (R : forall l, ereach env_P P_types P_mem 0 l -> l = 0); [|intros H; apply R in H; discriminate].
  intros l R. induction R as [|l1 cc cell l2 R IH E1 E2 C]; [reflexivity|]. subst l1. cbn in E1, E2. injection E1 as <-. injection E2 as <-.
  inversion C as [| | | |id fs i f t m l E X Am Rm]; subst. destruct i as [|[|[|[|]]]]; cbn in E, Am; try discriminate. injection E as <- <-. discriminate.
Qed.

(** Unexported fields of all variables keep their values, however they were reached, if no byte of
    the document looks like a REFP or ALIAS tag. *)
Theorem C60_unexported_fields_partial : forall k c v h mem b ib ty l ct,
  well_typed v ct mem -> ints_ok h -> nth_error ct l = Some (CVar ty) ->
  (forall by_, opened k b by_ -> forall i x, nth_error by_ i = Some x -> ~ back_reference x) ->
  let mem' := snd (unmarshal_mem k c v h mem b ib ty (l, [])) in
  forall l' t p t', nth_error ct l' = Some (CVar t) -> type_at v t p = Some t' -> sealed v p ->
    rd v mem' (l', p) = rd v mem (l', p).
Proof.
  intros k c v h mem b ib ty l ct W I E Pl. pose proof (unmarshal_mem_typed k c v h mem b ib ty l ct W I E) as [_ (e & _ & _ & _ & H)].
  unfold unmarshal_mem. destruct (unmarshal_mem_raw _ _ _ _ _ _ _ _) as [o s]. exact (H Pl).
Qed.
Print Assumptions C60_unexported_fields_partial.

Lemma raw_opened_is k body by_ : opened k (raw_document 3 body) by_ -> by_ = raw_document 3 body.
Proof.
  intros (ver & typ & l & n & rest & d & S & U & ->).
  assert (St : starts (raw_document 3 body) 3 0 [x00] 0 body).
  { split; [lia|]. split; [lia|]. exists x03. split; [reflexivity|]. split; [reflexivity|].
    split; [apply (vg_last x00); reflexivity|cbn; lia]. }
  destruct (starts_det _ _ _ _ _ _ _ _ _ _ _ S St) as (-> & -> & -> & -> & _).
  inversion U; subst; reflexivity.
Qed.
(** var a = [2]T{{c: 9}, {c: 5}}, and a document for it: two hashes { A: 7 } *)
Definition two_T : memory := [MCell (MArr [MStruct [(3, MInt 9)]; MStruct [(3, MInt 5)]])].
Definition two_types : list ctype := [CVar (TyArr 2 (TyStruct 0))].
Lemma two_typed : well_typed env0 two_types two_T.
Proof.
  repeat apply Forall2_cons; try apply Forall2_nil. apply has_arr; [reflexivity|].
  intros m [<-|[<-|[]]]; apply has_T; intros i m; try (intros [J|[]]; injection J as <- <-; lia);
    intros f t [J|[]]; injection J as <- <-; cbn; intros [= <- <-]; apply has_int; unfold ikind_in; cbn; lia.
Qed.
Definition two_doc : bytes := raw_document 3 [x2b; x02; x2a; x01; x61; x41; x07; x2a; x01; x61; x41; x07].
Example C60_unexported_case : well_typed env0 two_types two_T /\
  (forall by_, opened k0 two_doc by_ -> forall i x, nth_error by_ i = Some x -> ~ back_reference x) /\
  type_at env0 (TyArr 2 (TyStruct 0)) [SElem 1; SField 0 3] = Some (TyInt KInt) /\ sealed env0 [SElem 1; SField 0 3] /\
  snd (unmarshal_mem k0 c0 env0 [] two_T two_doc 0 (TyArr 2 (TyStruct 0)) (0, [])) =
    [MCell (MArr [MStruct [(3, MInt 9); (0, MInt 7)]; MStruct [(3, MInt 5); (0, MInt 7)]])].
Proof.
  split; [exact two_typed|]. split.
  { intros by_ Op i x E. apply raw_opened_is in Op as ->. apply nth_error_In in E.
    intros B. vm_compute in E. repeat (destruct E as [<-|E]; [destruct B as [B|B]; vm_compute in B; discriminate|]). contradiction. }
  split; [reflexivity|]. split; [|vm_compute; reflexivity].
  exists (SField 0 3). split; [cbn; auto|]. cbn. do 2 eexists. split; reflexivity.
Qed.

(** With back references it is false: the second element an alias of the first, whole structs are copied. *)
Theorem C60_unexported_fields_refuted : exists k c v h mem b ib ty l ct p t,
  well_typed v ct mem /\ ints_ok h /\ nth_error ct l = Some (CVar ty) /\ harmless TgtNone (TgtIface 0) b /\
  type_at v ty p = Some t /\ sealed v p /\
  (exists r, fst (unmarshal_mem k c v h mem b ib ty (l, [])) = Ok r) /\
  rd v (snd (unmarshal_mem k c v h mem b ib ty (l, []))) (l, p) <> rd v mem (l, p).
Proof.
  exists k0, c0, env0, [], two_T, (raw_document 3 [x2b; x02; xaa; x00; x2e; x03]), 0, (TyArr 2 (TyStruct 0)), 0, two_types,
    [SElem 1; SField 0 3], (TyInt KInt).
  split; [exact two_typed|]. split; [exact ints_none|]. split; [reflexivity|]. split.
  { assert (St : starts (raw_document 3 [x2b; x02; xaa; x00; x2e; x03]) 3 0 [x00] 0 [x2b; x02; xaa; x00; x2e; x03]).
    { split; [lia|]. split; [lia|]. exists x03. split; [reflexivity|]. split; [reflexivity|].
      split; [apply (vg_last x00); reflexivity|cbn; lia]. }
    intros ver typ l n rest S. split; [congruence|]. intros _.
    destruct (starts_det _ _ _ _ _ _ _ _ _ _ _ S St) as (-> & -> & -> & -> & _).
    split; [intros _; vm_compute; discriminate|discriminate]. }
  split; [reflexivity|]. split; [exists (SField 0 3); split; [cbn; auto|]; cbn; do 2 eexists; split; reflexivity|].
  split; [eexists; vm_compute; reflexivity|]. vm_compute. discriminate.
Qed.
Print Assumptions C60_unexported_fields_refuted.
