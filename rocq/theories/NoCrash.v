(** Marshal never crashes: every place it goes back to is inside what it has written. *)
From Verif Require Import Base BaseFacts Varint Tags GoMem Codecs TagsCache Encode Compress Document
  SpecOptions SpecOutcome EncodeSpec LooksFacts OutcomeFacts.
From Coq Require Import ZifyBool ZifyNat ZifyN Permutation.

(** ** The table of the fields of a struct type *)
Lemma mput_indices m k (i n : nat) : i < n -> Forall (fun p => snd p < n) m -> Forall (fun p : bytes * nat => snd p < n) (mput m k i).
Proof.
  intros L. induction m as [|[k' j] m IH]; intros F; cbn [mput].
  - now repeat constructor.
  - inversion F; subst. destruct (bytes_eqb k' k); constructor; auto.
Qed.
Lemma tags_indices fs : forall i m, Forall (fun p => snd p < i + length fs) m ->
  Forall (fun p : bytes * nat => snd p < i + length fs) (tags_loop fs i m).
Proof.
  induction fs as [|f fs IH]; intros i m F; [exact F|].
  assert (Q : forall m', Forall (fun p : bytes * nat => snd p < i + length (f :: fs)) m' ->
     Forall (fun p => snd p < i + length (f :: fs)) (tags_loop fs (S i) m')).
  { intros m' F'. replace (i + length (f :: fs)) with (S i + length fs) in * by (cbn [length]; lia). now apply IH. }
  assert (P : forall k, Forall (fun p : bytes * nat => snd p < i + length (f :: fs)) (mput m k i)).
  { intros k. apply mput_indices; [cbn [length]; lia|exact F]. }
  cbn [tags_loop]. destruct (bytes_eqb (f_tag f) dash); [now apply Q|].
  destruct (f_tag f); [destruct (f_exported f)|]; auto.
Qed.

(** ** The encoder *)
Section Encoder.
Variable e : econfig.
Variable h : heap.
Hypothesis Hshuf : forall t A (l : list A), Permutation l (e_shuffle e t A l).

(** what was noted about pointers lies within what was written *)
Definition inside (s : estate) : Prop := forall a o, pget (s_ptr s) a = Some o -> o < length (s_by s).

Definition fine (r : res estate) : Prop := r <> Crash /\ forall s, r = Ok s -> inside s.

Lemma inside_keep s s' : s_ptr s' = s_ptr s -> leb_ s s' -> inside s -> inside s'.
Proof. intros E L I a o. rewrite E. intros H. apply I in H. unfold leb_ in L. lia. Qed.
Lemma string_ptr str key s : s_ptr (encodeString e str key s) = s_ptr s.
Proof. unfold encodeString. destruct (_ && _); [destruct (mget _ _)|]; reflexivity. Qed.
Lemma bytes_ptr str key s : s_ptr (encodeBytes e str key s) = s_ptr s.
Proof. unfold encodeBytes. destruct (_ && _); [destruct (mget _ _)|]; reflexivity. Qed.
Lemma json_ptr n key s : s_ptr (encodeJsonNumber e n key s) = s_ptr s.
Proof.
  unfold encodeJsonNumber. destruct (parse_int n); try reflexivity; try apply string_ptr.
  destruct (e_parsefloat e n); [reflexivity|apply string_ptr].
Qed.
Lemma in_string str key s : inside s -> inside (encodeString e str key s).
Proof. apply inside_keep; [apply string_ptr|apply lt_le, string_lt]. Qed.
Lemma in_bytes str key s : inside s -> inside (encodeBytes e str key s).
Proof. apply inside_keep; [apply bytes_ptr|apply lt_le, bytes_lt]. Qed.
Lemma in_json n key s : inside s -> inside (encodeJsonNumber e n key s).
Proof. apply inside_keep; [apply json_ptr|apply lt_le, json_lt]. Qed.
Lemma in_emit b s : inside s -> inside (emit b s).
Proof. apply inside_keep; [reflexivity|apply emit_le]. Qed.
Lemma in_tick s : inside s -> inside (next_tick s).
Proof. auto. Qed.
Lemma in_open r s : inside s -> inside (open_ref e r s).
Proof. unfold open_ref. destruct (_ && _); auto using in_emit. Qed.
Lemma in_perl s : inside s -> inside (if e_perl e then emit [tagb typeREFN] s else s).
Proof. destruct (e_perl e); auto using in_emit. Qed.

Lemma fine_Ok s : inside s -> fine (Ok s).
Proof. intros I. split; [discriminate|]. now intros s' [= <-]. Qed.
Lemma fine_bind r f : fine r -> (forall s, inside s -> fine (f s)) -> fine (bind r f).
Proof.
  intros [N I] F. destruct r as [s| | | |]; cbn [bind]; try (split; discriminate); [now apply F, I|].
  now destruct N.
Qed.
Lemma fine_limit (b : bool) x r : fine r -> fine (if b then Err x else r).
Proof. destruct b; auto. split; discriminate. Qed.

Section Step.
Variable rec : gval -> bool -> Z -> estate -> res estate.
Hypothesis G : forall v r d s, grown s (rec v r d s).
Hypothesis H : forall v r d s, inside s -> fine (rec v r d s).

Lemma elems_fine n : forall base d s, inside s -> fine (enc_elems h rec n base d s).
Proof. induction n; intros; cbn [enc_elems]; [now apply fine_Ok|]. apply fine_bind; auto. Qed.
Lemma pairs_fine m : forall d s, inside s -> fine (enc_pairs e rec m d s).
Proof.
  induction m as [|[k v] m IH]; intros; cbn [enc_pairs]; [now apply fine_Ok|]. apply fine_bind; auto using in_string.
Qed.
Lemma tpairs_fine m : forall d s, inside s -> fine (enc_tpairs e rec m d s).
Proof.
  induction m as [|[k v] m IH]; intros; cbn [enc_tpairs]; [now apply fine_Ok|]. apply fine_bind.
  - destruct (e_perl e); auto using fine_Ok, in_string.
  - intros s1 I1. apply fine_bind; auto.
Qed.
Lemma fields_fine fs base t : Forall (fun p => snd p < length fs) t ->
  forall d s, inside s -> fine (enc_fields e h rec fs base t d s).
Proof.
  induction t as [|[k i] t IH]; intros F d s I; cbn [enc_fields]; [now apply fine_Ok|]. inversion F as [|? ? L F']; subst. cbn in L.
  destruct (nth_error fs i) as [f|] eqn:N; [|apply nth_error_None in N; lia].
  destruct (f_exported f); [|split; discriminate]. apply fine_bind; auto using in_string.
Qed.

Lemma pointer_fine i l v d s : inside s -> fine (encodePointer e rec i l v d s).
Proof.
  intros I. unfold encodePointer. apply fine_limit.
  match goal with |- context [if ?c then _ else _] => destruct c end; auto.
  assert (Ng : getPointer e (negb i) l v <> Crash).
  { destruct v; cbn [getPointer]; try discriminate; destruct (negb i); discriminate. }
  destruct (getPointer e (negb i) l v) as [o| | | |]; cbn [bind]; try (split; discriminate); [|congruence].
  set (found := match pget (s_ptr s) (at_cell (e_layout e) l) with Some o1 => Some o1 | None => _ end).
  destruct found as [j|] eqn:Fo.
  - assert (L : j < length (s_by s)).
    { unfold found in Fo. destruct (pget (s_ptr s) _) eqn:P; [injection Fo as ->; eauto|]. destruct o; [eauto|discriminate]. }
    destruct (Nat.ltb_spec j (length (s_by s ++ tagb typeREFP :: varint (N.of_nat j)))) as [_|C];
      [|rewrite app_length in C; lia].
    apply fine_Ok. apply (inside_keep s); [reflexivity| |exact I]. unfold leb_. cbn [with_by s_by].
    rewrite set_track_length, app_length. lia.
  - set (s1 := mkEState _ _ _ _). assert (L1 : length (s_by s1) = S (length (s_by s))).
    { unfold s1. cbn [s_by emit with_by]. rewrite app_length. cbn [length]. lia. }
    assert (I1 : inside s1).
    { intros a j. cbn [s1 s_ptr]. rewrite pget_cons, L1. destruct (addr_eqb _ a); [intros [= <-]; lia|].
      intros P. apply I in P. lia. }
    destruct (H v true (d - 1)%Z s1 I1) as [N K]. pose proof (G v true (d - 1)%Z s1) as Gr.
    destruct (rec v true (d - 1)%Z s1) as [s2| | | |]; cbn [bind]; try (split; discriminate); [|congruence].
    specialize (K s2 eq_refl). specialize (Gr s2 eq_refl). unfold ltb_ in Gr.
    destruct o as [a|]; apply fine_Ok; [|exact K].
    intros x j. cbn [s_ptr s_by]. rewrite pget_cons. destruct (addr_eqb a x); [intros [= <-]; lia|apply K].
Qed.

Lemma body_fine v r d s : inside s -> fine (encode_body e h rec v r d s).
Proof.
  intros I. destruct v; cbn [encode_body];
    try (apply fine_Ok; auto using in_emit, in_string, in_bytes, in_json);
    try (split; discriminate);
    unfold encodeArray, encodeStrMap, encodeMap, encodeStruct, encodeFreezeStruct, encodePerlPointer, encodeNilPointer;
    try (now apply pointer_fine); try apply fine_limit;
    auto 8 using elems_fine, pairs_fine, tpairs_fine, in_emit, in_open, in_tick, in_bytes, in_string, in_perl, fine_Ok.
  - destruct named; [destruct (ikind_signed k); [|split; discriminate]|]; apply fine_Ok; auto using in_emit.
  - destruct (e_nofreeze e); auto. destruct data; [|split; discriminate].
    apply fine_Ok. auto using in_emit, in_bytes, in_string.
  - apply fields_fine; [|auto 8 using in_emit, in_tick, in_bytes, in_perl].
    eapply Permutation_Forall; [apply Hshuf|]. apply (tags_indices fs 0 []). constructor.
Qed.
End Step.

Lemma encode_fine f : forall v r d s, inside s -> fine (encode e h f v r d s).
Proof.
  induction f as [|f IH]; intros; cbn [encode]; [split; discriminate|]. apply body_fine; auto using encode_grown.
Qed.
End Encoder.

(** ** Whole documents *)
Lemma compress_calm k e p b : marshal_compress k e p b <> Crash.
Proof.
  unfold marshal_compress. destruct (e_comp e) as [c|]; [|discriminate]. destruct (_ || _); [|discriminate].
  assert (N : compress k c b <> Crash).
  { destruct c; cbn [compress]; unfold snappy_compress, zlib_compress, zstd_compress.
    - destruct (_ <=? _)%Z; discriminate.
    - destruct (zlib_enc _ _ _); discriminate.
    - destruct (zstd_enc _ _ _); discriminate. }
  destruct (compress k c b) as [z| | | |]; cbn [bind]; try discriminate; [|congruence].
  destruct c as [inc|lv|lv].
  - destruct (_ && _); [discriminate|]. destruct (_ =? _)%N; discriminate.
  - destruct (_ <? _)%N; discriminate.
  - discriminate.
Qed.

Lemma start_inside p t : inside (estart p t).
Proof. intros a o H. discriminate H. Qed.

Theorem marshal_calm k fuel e h header v :
  (forall t A (l : list A), Permutation l (e_shuffle e t A l)) ->
  MarshalWithHeader k fuel e h header v <> Crash /\ forall x, MarshalWithHeader k fuel e h header v <> Panic x.
Proof.
  intros Hs. unfold MarshalWithHeader.
  assert (Hs' : forall t A (l : list A), Permutation l (e_shuffle (fix_version e) t A l)).
  { unfold fix_version. destruct (_ =? _)%N; exact Hs. }
  set (e' := fix_version e) in *.
  assert (Nh : marshal_header fuel e' h header <> Crash).
  { unfold marshal_header. destruct header as [hv|]; [|discriminate]. destruct (_ <=? _)%N; [|discriminate].
    destruct (encode_fine e' h Hs' fuel hv false (remainingRecursion (e_maxdepth e')) _ (start_inside [x01] 0)) as [N _].
    destruct (encode _ _ _ _ _ _ _); cbn [bind]; congruence. }
  assert (Nb : forall p t, marshal_body fuel e' h p t v <> Crash).
  { intros p t. unfold marshal_body.
    destruct (_ =? _)%N.
    - destruct (encode_fine e' h Hs' fuel v false (remainingRecursion (e_maxdepth e')) _ (start_inside p t)) as [N _].
      destruct (encode _ _ _ _ _ _ _); cbn [bind]; congruence.
    - destruct (_ || _); [|discriminate].
      destruct (encode_fine e' h Hs' fuel v false (remainingRecursion (e_maxdepth e')) _ (start_inside [x00] t)) as [N _].
      destruct (encode _ _ _ _ _ _ _); cbn [bind]; congruence. }
  match goal with |- recovered ?x <> _ /\ _ => assert (X : x <> Crash) end.
  { destruct (marshal_header fuel e' h header) as [[p t]| | | |]; cbn [bind]; try discriminate; [|congruence].
    specialize (Nb p t). destruct (marshal_body fuel e' h p t v) as [b| | | |]; cbn [bind]; try discriminate; [|congruence].
    pose proof (compress_calm k e' p b) as Nc. destruct (marshal_compress k e' p b) as [[p' b']| | | |]; cbn [bind]; try discriminate; congruence. }
  match goal with |- recovered ?x <> _ /\ _ => destruct x end; cbn [recovered]; split; congruence.
Qed.

Theorem marshal_answers k e h header v :
  (forall t A (l : list A), Permutation l (e_shuffle e t A l)) ->
  (exists doc, outcome (fun n => MarshalWithHeader k n e h header v) (Ok doc)) \/
  (exists x, outcome (fun n => MarshalWithHeader k n e h header v) (Err x)).
Proof.
  intros Hs. destruct (marshal_terminates k e h header v Hs) as [r [N [n O]]].
  destruct (marshal_calm k n e h header v Hs) as [C P]. rewrite (O n (le_n n)) in C, P.
  destruct r as [doc|x|x| |]; [left|right|exfalso|exfalso|exfalso]; try congruence.
  - exists doc. split; [discriminate|eauto].
  - exists x. split; [discriminate|eauto].
Qed.
