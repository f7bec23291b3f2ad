(** C48, C55, C56: Unmarshal into typed variables in memory.

    [unmarshal_mem k c v h mem b ib ty (l, [])] (TypedMem.v): Unmarshal(b, &x) for the variable x of
    type [ty] in cell [l] of [mem]; pointers, maps and slices refer to cells, which may be
    shared and lead back.  It gives the outcome and the memory, also after an error; [h] is the
    memory of interface{} parts and has the document in cell [ib].  [unmarshal_typed]: the same
    with the variable as a tree.  [holds v mem l ty x] (SpecMem.v): cell [l] holds the tree [x], all of
    its parts being different cells.  [reach mem l l']: [l'] can be reached from [l]. *)
From Verif Require Import Base BaseFacts SpecVarint Varint Tags GoMem GoTypes TagsCache Codecs Encode Compress Header Decode
  Document Spec SpecValue SpecDoc SpecOptions SpecOutcome SpecTyped SpecHeader DecodeSpec DocFacts JsonFacts Roundtrip OutcomeFacts RoundtripFacts TypedSpec TypedDoc Typed TypedRound WireFacts HeaderFacts ApiSafe
  TypedMem SpecMem TypedMemFacts TypedMemTree TypedMemSafe TypedMemFrame Cases Props_Typed Props_TypedSafe.
From Coq Require Import ZifyBool ZifyNat ZifyN.

(** C48.  For all memories: a document other than the two kinds of C08 is read or refused, with
    at most 2n+4 nested calls on n bytes (else the outcome is NoFuel), also if it has back references or frozen
    objects and whatever the variable shares.  Sizes asked of make are at most the number of bytes
    left; interface{} parts keep what they refer to. *)
Theorem C48_typed_memory_partial : forall k c v h mem b ib ty l, harmless TgtNone (TgtIface 0) b ->
  let s' := m_d (snd (unmarshal_mem_raw k c v b ib ty (l, []) (mkM (mkDState h [] 0 []) mem []))) in
  ((exists r, fst (unmarshal_mem k c v h mem b ib ty (l, [])) = Ok r) \/
   exists er, fst (unmarshal_mem k c v h mem b ib ty (l, [])) = Err er) /\
  Forall (fun '(size, bytes_left) => size <= bytes_left) (d_made s') /\
  (forall l', l' < length h -> nth_error (d_heap s') l' = nth_error h l').
Proof.
  intros k c v h mem b ib ty l Hm s'. subst s'. pose proof (mem_safe k c v b ib ty (l, []) h mem Hm) as W. unfold wm in W.
  unfold unmarshal_mem.
  destruct (unmarshal_mem_raw k c v b ib ty (l, []) (mkM (mkDState h [] 0 []) mem [])) as [r s'].
  assert (T : touches (fun _ => False) (mkDState h [] 0 []) (m_d s')).
  { destruct r; [exact (proj1 W)|exact (proj1 W)|exact W|contradiction|contradiction]. }
  destruct T as (_ & T2 & T3). cbn [snd fst]. split.
  - destruct r; cbn; eauto; contradiction.
  - split; [apply T3; constructor|]. intros l' L; apply (T2 l' L); auto.
Qed.
Print Assumptions C48_typed_memory_partial.

(** type T struct { A int8; B []string; N *T `sereal:"n"`; ... }, and a document for a *T:
    REFN, tracked; a hash of { A: 7, n: REFP to the hash } *)
Definition ring_doc : bytes :=
  raw_document 3 [x28; xaa; x02; x61; x41; x07; x61; x6e; x29; x02].
Definition ring_mem : memory := [MCell (MPtr None)].
Lemma ring_harmless : harmless TgtNone (TgtIface 0) ring_doc.
Proof.
  assert (St : starts ring_doc 3 0 [x00] 0 [x28; xaa; x02; x61; x41; x07; x61; x6e; x29; x02]).
  { split; [lia|]. split; [lia|]. exists x03. split; [reflexivity|]. split; [reflexivity|].
    split; [apply (vg_last x00); reflexivity|cbn; lia]. }
  intros ver typ l n rest S. split; [congruence|]. intros _.
  destruct (starts_det _ _ _ _ _ _ _ _ _ _ _ S St) as (-> & -> & -> & -> & _).
  split; [intros _; vm_compute; discriminate|discriminate].
Qed.
Example C48_memory_case : harmless TgtNone (TgtIface 0) ring_doc /\
  unmarshal_mem k0 c0 env0 [] ring_mem ring_doc 0 (TyPtr (TyStruct 0)) (0, []) =
    (Ok ([CV GOpaque], [MCell (MPtr (Some 1)); MCell (MStruct [(0, MInt 7); (2, MPtr (Some 1))])]),
     [MCell (MPtr (Some 1)); MCell (MStruct [(0, MInt 7); (2, MPtr (Some 1))])]).
Proof. split; [exact ring_harmless|]. vm_compute. reflexivity. Qed.

(** C55.  A variable without sharing, whatever the rest of the memory: Unmarshal does what the tree
    model says, its parts stay different cells, and what was not part of it stays as it was. *)
Theorem C55_memory_of_its_own : forall k c v h mem b ib ty l m x F,
  nth_error mem l = Some (MCell m) -> at_ v mem ty m x F -> NoDup (l :: F) ->
  match unmarshal_typed k c v h b ib ty x with
  | Ok (h', y) => exists mem', unmarshal_mem k c v h mem b ib ty (l, []) = (Ok (h', mem'), mem') /\
      holds v mem' l ty y /\
      (forall l', l' < length mem -> ~ In l' (l :: F) -> nth_error mem' l' = nth_error mem l')
  | Err e => fst (unmarshal_mem k c v h mem b ib ty (l, [])) = Err e
  | Panic e => fst (unmarshal_mem k c v h mem b ib ty (l, [])) = Panic e
  | Crash => fst (unmarshal_mem k c v h mem b ib ty (l, [])) = Crash
  | NoFuel => True                        (* REFP, ALIAS, FREEZE: not in the tree model *)
  end.
Proof. exact unmarshal_mem_tree. Qed.
Print Assumptions C55_memory_of_its_own.

(** The round trip of C36 in memory: into a new variable among any others. *)
Theorem C55_typed_roundtrip_memory : forall k c e h v,
  sane_world e -> (1 <= proto e <= 3)%N -> d_perl c = false -> forall ty x n A,
  go_tree c e h x n A -> (Z.of_nat n < depth_limit e)%Z -> has_type v h ty x ->
  exists b0, outcome (fun f => Marshal k f (without_compression e) h x) (Ok b0) /\
    ((N.of_nat (length b0) <= 281474976710656)%N -> forall mem l, nth_error mem l = Some (MCell (mzero ty)) ->
      exists h' mem' y, unmarshal_mem k c v [CBuf b0] mem b0 0 ty (l, []) = (Ok (h', mem'), mem') /\
        holds v mem' l ty y /\ tsame v (e_nofreeze e) (e_parsefloat e) (reg_of c) h h' ty x y /\
        (forall l', l' < length mem -> l' <> l -> nth_error mem' l' = nth_error mem l')).
Proof.
  intros k c e h v Sw Pr Pl ty x n A Tr Dp Ty.
  destruct (C36_typed_roundtrip k c e h v Sw Pr Pl ty x n A Tr Dp Ty) as (b0 & O & _ & R). exists b0. split; [exact O|].
  intros L mem l E. destruct (R L) as ((h' & y & U & S) & _).
  pose proof (unmarshal_mem_tree k c v [CBuf b0] mem b0 0 ty l _ _ [] E (at_zero v mem ty)
    (NoDup_cons _ (@in_nil _ l) (NoDup_nil _))) as M.
  rewrite U in M. destruct M as (mem' & M1 & M2 & M3). exists h', mem', y. split; [exact M1|]. split; [exact M2|]. split; [exact S|].
  intros l' L' N. apply M3; [exact L'|]. intros [E'|[]]. auto.
Qed.
Print Assumptions C55_typed_roundtrip_memory.

(** the value of C36 read into cell 1, the others being a string and a pointer to it *)
Example C55_case : go_tree c0 e0 hT (T_at 0) 4 [at_cell lay0 5] /\ has_type env0 hT (TyStruct 0) (T_at 0) /\
  match Marshal k0 10 e0 hT (T_at 0) with
  | Ok b => snd (unmarshal_mem k0 c0 env0 [CBuf b] [MCell (MStr [x68]); MCell (mzero (TyStruct 0)); MCell (MPtr (Some 0))] b 0
                   (TyStruct 0) (1, [])) =
      [MCell (MStr [x68]);
       MCell (MStruct [(0, MInt (-5)); (1, MSlice (Some 3)); (2, MPtr (Some 4)); (4, MIface (GInt KInt false 7))]);
       MCell (MPtr (Some 0)); MCell (MArr [MStr [x68; x69]]);
       MCell (MStruct [(0, MInt 3); (1, MSlice (Some 5)); (2, MPtr None)]); MCell (MArr [])]
  | _ => False
  end.
Proof. split; [exact T_tree|]. split; [exact T_type|]. vm_compute. reflexivity. Qed.

(** C56.  Whatever the memory, the document and the outcome: only cells within reach of the
    variable change, and afterwards only those and new ones are within its reach. *)
Theorem C56_only_what_is_within_reach : forall k c v h mem b ib ty l,
  let mem' := snd (unmarshal_mem k c v h mem b ib ty (l, [])) in
  length mem <= length mem' /\
  (forall l', l' < length mem -> ~ reach mem l l' -> nth_error mem' l' = nth_error mem l') /\
  (forall l', reach mem' l l' -> reach mem l l' \/ length mem <= l').
Proof. intros k c v h mem b ib ty l. exact (unmarshal_mem_frame k c v h mem b ib ty l []). Qed.
Print Assumptions C56_only_what_is_within_reach.

(** var p *T = &t; var q = p; var s = "h": a document that sets A and then has no value for n *)
Definition cut_doc : bytes := raw_document 3 [x28; x2a; x02; x61; x41; x07; x61; x6e].
Definition shared_mem : memory :=
  [MCell (MPtr (Some 1)); MCell (MStruct [(0, MInt 5); (2, MPtr (Some 1))]); MCell (MPtr (Some 1)); MCell (MStr [x68])].
Example C56_case : reach shared_mem 0 1 /\ ~ reach shared_mem 0 2 /\ ~ reach shared_mem 0 3 /\
  unmarshal_mem k0 c0 env0 [] shared_mem cut_doc 0 (TyPtr (TyStruct 0)) (0, []) =
    (Err ETruncated,
     [MCell (MPtr (Some 1)); MCell (MStruct [(0, MInt 7); (2, MPtr (Some 1))]); MCell (MPtr (Some 1)); MCell (MStr [x68])]).
Proof.
  assert (R : forall l, reach shared_mem 0 l -> l = 0 \/ l = 1).
  { intros l R. induction R as [|l1 cell l2 R IH E C]; [auto|]. destruct IH as [-> | ->]; cbn in E; injection E as <-;
      inversion C as [y l3 Rf|]; subst; inversion Rf as [| | | |fs i m l4 J Rm]; subst; auto.
    destruct J as [J|[J|[]]]; injection J as <- <-; inversion Rm; auto. }
  split; [eapply reach_step; [apply reach_refl|reflexivity|repeat constructor]|].
  split; [intros H; destruct (R _ H); discriminate|]. split; [intros H; destruct (R _ H); discriminate|].
  vm_compute. reflexivity.
Qed.
