(** Marshal depends on nothing but what is seen of the memory. *)
From Verif Require Import Base BaseFacts Tags GoMem TagsCache Codecs Compress Header Encode Decode Document
  SpecValue SpecOptions SpecSeen JsonFacts.
From Coq Require Import Permutation.

Section Seen.
Variable e : econfig.
Variables h h' : heap.
Hypothesis perm : forall t A (l : list A), Permutation l (e_shuffle e t A l).

Definition agree (v : gval) : Prop := forall p, seen e h v p -> unchanged h h' p.

Lemma agree_var v l : agree v -> variable_of v l -> hget h' l = hget h l /\ agree (hget h l).
Proof.
  intros A V. split.
  - unfold hget. now rewrite (A (Cell l) (se_variable _ _ _ _ V)).
  - intros p P. apply A. eapply se_content; eauto.
Qed.

Lemma agree_held v u : agree v -> holds e h v u -> agree u.
Proof. intros A H p P. apply A. eapply se_held; eauto. Qed.

Lemma agree_window v w : agree v -> window_of v w -> hview h' w = hview h w.
Proof. intros A W. exact (A (Window w) (se_window _ _ _ _ W)). Qed.

Lemma agree_map v l : agree v -> map_of v l -> nth_error h' l = nth_error h l.
Proof. intros A W. exact (A (Cell l) (se_map _ _ _ _ W)). Qed.

Lemma bind_ext {A B} (r r' : res A) (f f' : A -> res B) : r' = r -> (forall a, f' a = f a) -> bind r' f' = bind r f.
Proof. intros -> H. destruct r; cbn; auto. Qed.

Section Body.
Variables rec rec' : gval -> bool -> Z -> estate -> res estate.
Hypothesis IH : forall v r d s, agree v -> rec' v r d s = rec v r d s.

Lemma elems_same n : forall base d s, (forall i, i < n -> hget h' (base + i) = hget h (base + i) /\ agree (hget h (base + i))) ->
  enc_elems h' rec' n base d s = enc_elems h rec n base d s.
Proof.
  induction n as [|n IHn]; intros base d s H; cbn [enc_elems]; [reflexivity|].
  destruct (H 0 ltac:(lia)) as [E A]. rewrite Nat.add_0_r in E, A. rewrite E. apply bind_ext; [now apply IH|].
  intros s1. apply IHn. intros i L. specialize (H (S i) ltac:(lia)). rewrite Nat.add_succ_r in H. exact H.
Qed.

Lemma pairs_same m : forall d s, (forall k x, In (k, x) m -> agree x) ->
  enc_pairs e rec' m d s = enc_pairs e rec m d s.
Proof.
  induction m as [|[k x] m IHm]; intros d s H; cbn [enc_pairs]; [reflexivity|].
  apply bind_ext; [apply IH; apply (H k); now left|]. intros s1. apply IHm. intros k' x' I. apply (H k'). now right.
Qed.

Lemma tpairs_same m : forall d s, (forall k x, In (k, x) m -> agree k /\ agree x) ->
  enc_tpairs e rec' m d s = enc_tpairs e rec m d s.
Proof.
  induction m as [|[k x] m IHm]; intros d s H; cbn [enc_tpairs]; [reflexivity|].
  destruct (H k x (or_introl eq_refl)) as [A1 A2].
  apply bind_ext; [destruct (e_perl e); auto|]. intros s1. apply bind_ext; [auto|].
  intros s2. apply IHm. intros k' x' I. apply H. now right.
Qed.

Lemma fields_same fs base tags : forall d s,
  (forall k i f, In (k, i) tags -> nth_error fs i = Some f -> f_exported f = true ->
     hget h' (base + i) = hget h (base + i) /\ agree (hget h (base + i))) ->
  enc_fields e h' rec' fs base tags d s = enc_fields e h rec fs base tags d s.
Proof.
  induction tags as [|[k i] tags IHt]; intros d s H; cbn [enc_fields]; [reflexivity|].
  destruct (nth_error fs i) as [f|] eqn:F; [|reflexivity]. destruct (f_exported f) eqn:X; [|reflexivity].
  destruct (H k i f (or_introl eq_refl) F X) as [E A]. rewrite E. apply bind_ext; [auto|].
  intros s1. apply IHt. intros k' i' f' I. apply (H k'). now right.
Qed.

Lemma in_shuffle t A (l : list A) x : In x (e_shuffle e t A l) -> In x l.
Proof. apply Permutation_in, Permutation_sym, perm. Qed.

Lemma body_same v r d s : agree v -> encode_body e h' rec' v r d s = encode_body e h rec v r d s.
Proof.
  intros A.
  assert (Arr : forall base n, (forall i, i < n -> variable_of v (base + i)) ->
     encodeArray e h' rec' base n r d s = encodeArray e h rec base n r d s).
  { intros base n V. unfold encodeArray. destruct (_ <=? _)%Z; [reflexivity|]. apply elems_same.
    intros i L. apply (agree_var v); auto. }
  assert (PP : forall u, (forall p, seen e h u p -> seen e h v p) -> encodePerlPointer rec' u d s = encodePerlPointer rec u d s).
  { intros u U. unfold encodePerlPointer. destruct (_ <=? _)%Z; [reflexivity|]. apply IH. intros p P. auto. }
  destruct v; cbn [encode_body]; try reflexivity.
  - now rewrite (agree_window _ _ A (wo_bytes _)).
  - apply Arr. intros i L. now constructor.
  - unfold encodeStrMap. destruct (_ <=? _)%Z; [reflexivity|].
    assert (E : hmap h' l = hmap h l) by (unfold hmap; now rewrite (agree_map _ _ A (mo_map _))). rewrite E.
    cbv zeta. apply pairs_same. intros k x I. apply in_shuffle in I.
    eapply agree_held; [exact A|]. eapply ho_entry; eauto.
  - destruct (agree_var _ _ A (vo_ptr toIface l)) as [E Al]. rewrite E. unfold encodePointer.
    destruct (_ <=? _)%Z; [reflexivity|]. cbv zeta.
    destruct (match hget h l with GRegexpV _ _ | GUndefV _ | GObjV _ _ | GWeakV _ => negb toIface | _ => false end);
      [now apply IH|].
    apply bind_ext; [reflexivity|]. intros o. destruct (match pget (s_ptr s) (at_cell (e_layout e) l) with Some _ => _ | None => _ end); [reflexivity|].
    apply bind_ext; [now apply IH|reflexivity].
  - apply PP. intros p P. inversion P as [u l V Ev|u l q V Q Ev|u l V Ev|u w V Ev|u x q V Q Ev]; subst; inversion V.
  - apply IH. eapply agree_held; [exact A|constructor].
  - destruct (agree_var _ _ A (vo_object cls r0)) as [E Al]. rewrite E. apply PP.
    intros p P. apply se_content with r0; [constructor|]. inversion P as [u l V Ev|u l q V Q Ev|u l V Ev|u w V Ev|u x q V Q Ev]; subst;
      try (inversion V; subst); assumption.
  - apply IH. eapply agree_held; [exact A|constructor].
  - destruct (agree_var _ _ A (vo_weak r0)) as [E Al]. rewrite E. apply PP.
    intros p P. apply se_content with r0; [constructor|]. inversion P as [u l V Ev|u l q V Q Ev|u l V Ev|u w V Ev|u x q V Q Ev]; subst;
      try (inversion V; subst); assumption.
  - now rewrite (agree_window _ _ A (wo_pattern _ _)), (agree_window _ _ A (wo_modifiers _ _)).
  - unfold encodeFreezeStruct. destruct (_ <=? _)%Z; [reflexivity|]. cbv zeta. apply pairs_same.
    intros k x I. apply in_shuffle in I. destruct I as [I|[I|[]]]; injection I as <- <-.
    + intros p P. inversion P as [u l V Ev|u l q V Q Ev|u l V Ev|u w V Ev|u x q V Q Ev]; subst; inversion V.
    + intros p P. inversion P as [u l V Ev|u l q V Q Ev|u l V Ev|u w V Ev|u x q V Q Ev]; subst; inversion V; subst.
      apply A. apply se_window. constructor.
  - destruct (e_nofreeze e) eqn:NF; [|reflexivity]. apply IH. eapply agree_held; [exact A|now constructor].
  - apply Arr. intros i L. now constructor.
  - unfold encodeMap. destruct (_ <=? _)%Z; [reflexivity|].
    assert (E : htmap h' l = htmap h l) by (unfold htmap; now rewrite (agree_map _ _ A (mo_tmap _))). rewrite E.
    cbv zeta. apply tpairs_same. intros k x I. apply in_shuffle in I. split; (eapply agree_held; [exact A|]).
    + eapply ho_key; eauto.
    + eapply ho_tentry; eauto.
  - unfold encodeStruct. destruct (_ <=? _)%Z; [reflexivity|]. cbv zeta. apply fields_same.
    intros k i f I F X. apply in_shuffle in I. apply (agree_var _ _ A).
    econstructor; [|exact F|exact X]. apply (proj2 (tags_of_table fs) k i). exact I.
Qed.
End Body.

Theorem encode_same fuel : forall v r d s, agree v -> encode e h' fuel v r d s = encode e h fuel v r d s.
Proof.
  induction fuel as [|fuel IH]; intros v r d s A; [reflexivity|]. cbn [encode]. apply body_same; auto.
Qed.
End Seen.

Lemma seen_fix e h v p : seen (fix_version e) h v p -> seen e h v p.
Proof.
  assert (N : e_nofreeze (fix_version e) = e_nofreeze e) by (unfold fix_version; destruct (_ =? _)%N; reflexivity).
  induction 1 as [| | | |v u q Hh _ IH]; [now constructor|eapply se_content; eauto|now constructor|now constructor|].
  eapply se_held; [|exact IH]. 
  destruct Hh; [constructor|constructor|constructor; congruence|eapply ho_entry; eauto|eapply ho_key; eauto|eapply ho_tentry; eauto].
Qed.

Theorem marshal_same k fuel e h h' header v : sane_world e ->
  (forall p, seen e h v p \/ (exists x, header = Some x /\ seen e h x p) -> unchanged h h' p) ->
  MarshalWithHeader k fuel e h' header v = MarshalWithHeader k fuel e h header v.
Proof.
  intros [P _] U. unfold MarshalWithHeader. f_equal.
  assert (Pf : forall t A (l : list A), Permutation l (e_shuffle (fix_version e) t A l))
    by (intros; unfold fix_version; destruct (_ =? _)%N; apply P).
  assert (Ab : agree (fix_version e) h h' v) by (intros p S; apply U; left; now apply seen_fix).
  apply bind_ext.
  - unfold marshal_header. destruct header as [x|]; [|reflexivity]. destruct (_ <=? _)%N; [|reflexivity].
    apply bind_ext; [|reflexivity]. apply encode_same; [exact Pf|].
    intros p S. apply U. right. exists x. split; [reflexivity|now apply seen_fix].
  - intros [encH tick]. apply bind_ext; [|reflexivity]. unfold marshal_body.
    destruct (_ =? _)%N; [apply bind_ext; [now apply encode_same|reflexivity]|].
    destruct (_ || _)%bool; [|reflexivity]. apply bind_ext; [now apply encode_same|reflexivity].
Qed.
