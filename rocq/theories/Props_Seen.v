(** C50: what is not serialised does not influence the document.

    [seen e h v p] (SpecSeen.v): the part [p] of memory [h] belongs to what [v] is serialised
    from: elements of slices and maps, targets of pointers, serialised exported fields of
    structs, the bytes within a []byte.  [unchanged h h' p]: the two memories agree there. *)
From Verif Require Import Base BaseFacts Tags GoMem Codecs Encode Decode Document SpecValue SpecOptions SpecSeen SeenFacts Cases.

(** C50.  Two memories that agree on everything seen give the same result: the same document,
    or the same error. *)
Theorem C50_unseen_has_no_influence : forall k fuel e h h' header v, sane_world e ->
  (forall p, seen e h v p \/ (exists x, header = Some x /\ seen e h x p) -> unchanged h h' p) ->
  MarshalWithHeader k fuel e h' header v = MarshalWithHeader k fuel e h header v.
Proof. exact marshal_same. Qed.
Print Assumptions C50_unseen_has_no_influence.

(** In particular a field tagged "-", or unexported without a tag, that nothing else refers to
    may hold anything. *)
Theorem C50_hidden_field : forall k fuel e h name fs base i f x y, sane_world e ->
  nth_error fs i = Some f -> f_tag f = [x2d] \/ f_tag f = [] /\ f_exported f = false ->
  nth_error h (base + i) = Some (CV y) ->
  (forall j kj, serialised fs kj j -> ~ seen e h (hget h (base + j)) (Cell (base + i))) ->
  Marshal k fuel e (upd h (base + i) (CV x)) (GStruct name fs base) = Marshal k fuel e h (GStruct name fs base).
Proof.
  intros k fuel e h name fs base i f x y W Fi Hid Cy No. apply marshal_same; [exact W|].
  intros p [S|(z & H & _)]; [|discriminate H].
  assert (Ns : p <> Cell (base + i)).
  { intros ->. inversion S as [u l V Ev|u l q V Q Ev|u l V Ev|u w V Ev|u z q V Q Ev]; subst; inversion V; subst.
    - assert (i0 = i) as -> by lia. match goal with X : serialised _ _ _ |- _ => destruct X as (f' & F' & K & _) end. rewrite Fi in F'. injection F' as <-.
      unfold field_key in K. destruct Hid as [T|[T X]]; rewrite T in K; [discriminate|]. rewrite X in K. discriminate.
    - match goal with X : serialised _ _ _ |- _ => exact (No _ _ X Q) end. }
  destruct p as [l|w]; cbn [unchanged].
  - apply nth_error_upd_other. congruence.
  - unfold hview, hbuf. destruct (Nat.eq_dec (vloc w) (base + i)) as [->|D].
    + rewrite nth_error_upd_same by (apply nth_error_Some; congruence). now rewrite Cy.
    + rewrite nth_error_upd_other by congruence. reflexivity.
Qed.
Print Assumptions C50_hidden_field.

(** []*T{{Name: "ann", secret, Key: buf[1:3]}} with another secret and other bytes around Key *)
Definition fsU : list fdecl := [mkField [x4e] [] true; mkField [x53] [x2d] true; mkField [x4b] [] true].
Definition memU (secret : gval) (b0 b3 : byte) : heap :=
  [CV (GStr [x61; x6e; x6e]); CV secret; CV (GBytes (mkView 3 1 2)); CBuf [b0; x01; x02; b3];
   CV (GStruct [x55] fsU 0); CV (GPtr false 4)].
Example C50_case :
  (forall p, seen e0 (memU (GStr [x70; x77]) x00 x03) (GTSlice false 5 1) p ->
     unchanged (memU (GStr [x70; x77]) x00 x03) (memU (GInt KInt false 7) xff xee) p) /\
  Marshal k0 10 e0 (memU (GStr [x70; x77]) x00 x03) (GTSlice false 5 1) =
    Ok [x3d; xf3; x72; x6c; x03; x00; x2b; x01; x28; x2c; x61; x55; x2a; x02; x27; x01; x4e; x27; x03; x61; x6e; x6e;
        x27; x01; x4b; x62; x01; x02] /\
  Marshal k0 10 e0 (memU (GInt KInt false 7) xff xee) (GTSlice false 5 1) =
  Marshal k0 10 e0 (memU (GStr [x70; x77]) x00 x03) (GTSlice false 5 1).
Proof.
  split; [|split; vm_compute; reflexivity].
  set (h := memU _ x00 x03). set (h' := memU _ xff xee).
  assert (Leaf : forall s p, seen e0 h (GStr s) p -> unchanged h h' p).
  { intros s p S. inversion S as [u l V Ev|u l q V Q Ev|u l V Ev|u w V Ev|u z q V Q Ev]; subst; inversion V. }
  assert (Byt : forall p, seen e0 h (GBytes (mkView 3 1 2)) p -> unchanged h h' p).
  { intros p S. inversion S as [u l V Ev|u l q V Q Ev|u l V Ev|u w V Ev|u z q V Q Ev]; subst; inversion V; subst. reflexivity. }
  assert (Fld : forall kx i f, serialised fsU kx i -> nth_error fsU i = Some f -> i = 0 \/ i = 2).
  { intros kx i f (f' & F & K & _) _. destruct i as [|[|[|i]]]; auto.
    - injection F as <-. discriminate.
    - destruct i; discriminate. }
  assert (Str : forall p, seen e0 h (GStruct [x55] fsU 0) p -> unchanged h h' p).
  { intros p S. inversion S as [u l V Ev|u l q V Q Ev|u l V Ev|u w V Ev|u z q V Q Ev]; subst; inversion V; subst.
    - match goal with X : serialised _ _ _, Y : nth_error _ _ = _ |- _ => destruct (Fld _ _ _ X Y) as [->| ->] end; reflexivity.
    - match goal with X : serialised _ _ _, Y : nth_error _ _ = _ |- _ => destruct (Fld _ _ _ X Y) as [->| ->] end;
        [eapply Leaf|apply Byt]; exact Q. }
  assert (Ptr : forall p, seen e0 h (GPtr false 4) p -> unchanged h h' p).
  { intros p S. inversion S as [u l V Ev|u l q V Q Ev|u l V Ev|u w V Ev|u z q V Q Ev]; subst; inversion V; subst; [reflexivity|].
    apply Str. exact Q. }
  intros p S. inversion S as [u l V Ev|u l q V Q Ev|u l V Ev|u w V Ev|u z q V Q Ev]; subst; inversion V; subst;
    (assert (i = 0) as -> by lia); [reflexivity|apply Ptr; exact Q].
Qed.
