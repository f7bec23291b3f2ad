(** The model's recursion bound: more of it never changes a result, and with a recursion
    limit some amount suffices for every object graph, cyclic ones included. *)
From Verif Require Import Base BaseFacts Varint Tags GoMem TagsCache Encode.
From Coq Require Import Permutation.

(** [a] is unfinished or equal to [b] *)
Definition le_res {A} (a b : res A) : Prop := a = NoFuel \/ a = b.

Lemma le_refl {A} (a : res A) : le_res a a.
Proof. now right. Qed.
Lemma le_bind {A B} (a a' : res A) (f f' : A -> res B) :
  le_res a a' -> (forall x, le_res (f x) (f' x)) -> le_res (bind a f) (bind a' f').
Proof. intros [->| ->] H; [now left|]. destruct a'; cbn; auto using le_refl. Qed.

Section Mono.
Variable e : econfig.
Variable h : heap.
Section Step.
Variable rec rec' : gval -> bool -> Z -> estate -> res estate.
Hypothesis H : forall v r d s, le_res (rec v r d s) (rec' v r d s).

Lemma elems_mono n : forall base d s, le_res (enc_elems h rec n base d s) (enc_elems h rec' n base d s).
Proof. induction n; intros; cbn; auto using le_refl, le_bind. Qed.
Lemma pairs_mono m : forall d s, le_res (enc_pairs e rec m d s) (enc_pairs e rec' m d s).
Proof. induction m as [|[k v] m IH]; intros; cbn; auto using le_refl, le_bind. Qed.
Lemma tpairs_mono m : forall d s, le_res (enc_tpairs e rec m d s) (enc_tpairs e rec' m d s).
Proof.
  induction m as [|[k v] m IH]; intros; cbn; auto using le_refl.
  apply le_bind; [destruct (e_perl e); auto using le_refl|]. intros. auto using le_bind.
Qed.
Lemma fields_mono fs base t : forall d s, le_res (enc_fields e h rec fs base t d s) (enc_fields e h rec' fs base t d s).
Proof.
  induction t as [|[k i] t IH]; intros; cbn; auto using le_refl.
  destruct (nth_error fs i) as [f|]; auto using le_refl.
  destruct (f_exported f); auto using le_refl, le_bind.
Qed.

Lemma body_mono v r d s : le_res (encode_body e h rec v r d s) (encode_body e h rec' v r d s).
Proof.
  destruct v; cbn [encode_body]; auto using le_refl;
    unfold encodeArray, encodeStrMap, encodeMap, encodeStruct, encodeFreezeStruct, encodePerlPointer;
    try (destruct (_ <=? _)%Z; auto using le_refl, elems_mono, pairs_mono, tpairs_mono, fields_mono; fail).
  - unfold encodePointer. destruct (_ <=? _)%Z; auto using le_refl.
    match goal with |- context [if ?c then _ else _] => destruct c end; auto.
    apply le_bind; auto using le_refl. intros o.
    destruct (match pget (s_ptr s) (at_cell (e_layout e) l) with Some _ => _ | None => _ end); auto using le_refl.
    apply le_bind; auto using le_refl.
  - destruct (e_nofreeze e); auto using le_refl.
Qed.
End Step.

Lemma encode_le f : forall f' v r d s, f <= f' -> le_res (encode e h f v r d s) (encode e h f' v r d s).
Proof.
  induction f as [|f IH]; intros [|f'] v r d s L; cbn [encode].
  - apply le_refl.
  - now left.
  - lia.
  - apply body_mono. intros. apply IH. lia.
Qed.

Lemma encode_mono f f' v r d s x : encode e h f v r d s = x -> x <> NoFuel -> f <= f' ->
  encode e h f' v r d s = x.
Proof. intros E N L. destruct (encode_le f f' v r d s L) as [C|C]; congruence. Qed.

(** * Termination *)
Hypothesis Hshuf : forall t A (l : list A), Permutation l (e_shuffle e t A l).

(** values nest through these constructors without a level of their own *)
Fixpoint vsize (v : gval) : nat :=
  match v with
  | GObjV _ v | GWeakV v | GUser _ _ v => S (vsize v)
  | _ => 0
  end.

(** [N] levels are enough for [v] with [d] levels left *)
Definition enough (N : nat) (v : gval) (d : Z) : Prop :=
  forall r s, encode e h N v r d s <> NoFuel.

Lemma enough_mono N N' v d : N <= N' -> enough N v d -> enough N' v d.
Proof.
  intros L H r s C. specialize (H r s). apply H.
  destruct (encode_le N N' v r d s L) as [E|E]; [exact E|]. now rewrite E.
Qed.

Lemma uniform d (vs : list gval) : (forall v, exists N, enough N v d) ->
  exists N, forall v, In v vs -> enough N v d.
Proof.
  intros H. induction vs as [|v vs [N1 IH]]; [exists 0; intros ? []|].
  destruct (H v) as [N2 H2]. exists (Nat.max N1 N2). intros w [<-|Hw].
  - eapply enough_mono; [|exact H2]. lia.
  - eapply enough_mono; [|apply IH; exact Hw]. lia.
Qed.

Lemma bind_no {A B} (a : res A) (f : A -> res B) : a <> NoFuel -> (forall x, f x <> NoFuel) -> bind a f <> NoFuel.
Proof. destruct a; cbn; auto; discriminate. Qed.

Lemma elems_no N n : forall base d s, (forall v, In v (map (hget h) (seq base n)) -> enough N v d) ->
  enc_elems h (encode e h N) n base d s <> NoFuel.
Proof.
  induction n as [|n IH]; intros base d s H; cbn [enc_elems]; [discriminate|].
  apply bind_no; [apply H; now left|]. intros x. apply IH. intros v Hv. apply H. now right.
Qed.
Lemma pairs_no N m : forall d s, (forall v, In v (map snd m) -> enough N v d) ->
  enc_pairs e (encode e h N) m d s <> NoFuel.
Proof.
  induction m as [|[k v] m IH]; intros d s H; cbn [enc_pairs]; [discriminate|].
  apply bind_no; [apply H; now left|]. intros x. apply IH. intros w Hw. apply H. now right.
Qed.
Lemma tpairs_no N m : forall d s, (forall v, In v (map fst m ++ map snd m) -> enough N v d) ->
  enc_tpairs e (encode e h N) m d s <> NoFuel.
Proof.
  induction m as [|[k v] m IH]; intros d s H; cbn [enc_tpairs]; [discriminate|].
  apply bind_no.
  - destruct (e_perl e); [discriminate|]. apply H. now left.
  - intros x. apply bind_no; [apply H; cbn; right; apply in_app_iff; right; now left|].
    intros y. apply IH. intros w Hw. apply H. cbn. right. apply in_app_iff in Hw.
    apply in_app_iff. cbn. tauto.
Qed.
Lemma fields_no N fs base t : forall d s, (forall v, In v (map (fun kt : bytes * nat => hget h (base + snd kt)) t) -> enough N v d) ->
  enc_fields e h (encode e h N) fs base t d s <> NoFuel.
Proof.
  induction t as [|[k i] t IH]; intros d s H; cbn [enc_fields]; [discriminate|].
  destruct (nth_error fs i) as [f|]; [|discriminate]. destruct (f_exported f); [|discriminate].
  apply bind_no; [apply H; now left|]. intros x. apply IH. intros w Hw. apply H. now right.
Qed.

Lemma terminates_at d : (forall v, (1 <= d - 1)%Z -> exists N, enough N v (d - 1)) ->
  forall k v, vsize v <= k -> exists N, enough N v d.
Proof.
  intros Hrec.
  assert (Hvs : forall vs, (1 <= d - 1)%Z -> exists N, forall v, In v vs -> enough N v (d - 1)).
  { intros vs L. apply uniform. auto. }
  assert (Lv : forall (P : Prop) (a : res estate), ((1 <= d - 1)%Z -> a <> NoFuel) ->
     (if (d - 1 <=? 0)%Z then Err EMaxRecursion else a) <> NoFuel).
  { intros _ a Ha. destruct (Z.leb_spec (d - 1) 0); [discriminate|]. apply Ha. lia. }
  induction k as [|k IH]; intros v Lk.
  all: destruct v; try (exists 1; intros r0 s0; cbn; discriminate); cbn [vsize] in Lk; try lia.
  all: destruct (Z.le_gt_cases 1 (d - 1)) as [L|L];
    [|try (exists 1; intros r0 s0; cbn [encode encode_body];
      unfold encodeArray, encodeStrMap, encodeMap, encodeStruct, encodeFreezeStruct, encodePerlPointer, encodePointer;
      destruct (Z.leb_spec (d - 1) 0); [discriminate|lia])].
  all: try match goal with
    | |- exists N, enough N (GInt _ ?nm _) _ => exists 1; intros r0 s0; cbn; destruct nm; [destruct (ikind_signed _)|]; discriminate
    | |- exists N, enough N (GNilPtr) _ => exists 1; intros r0 s0; cbn; unfold encodeNilPointer; destruct (_ <=? _)%Z; discriminate
    | |- exists N, enough N (GSlice ?b ?n) _ =>
        destruct (Hvs (map (hget h) (seq b n)) L) as [N HN]; exists (S N); intros r0 s0;
        cbn [encode encode_body]; unfold encodeArray; destruct (_ <=? _)%Z; [discriminate|now apply elems_no]
    | |- exists N, enough N (GTSlice _ ?b ?n) _ =>
        destruct (Hvs (map (hget h) (seq b n)) L) as [N HN]; exists (S N); intros r0 s0;
        cbn [encode encode_body]; unfold encodeArray; destruct (_ <=? _)%Z; [discriminate|now apply elems_no]
    | |- exists N, enough N (GMap ?l) _ =>
        destruct (Hvs (map snd (hmap h l)) L) as [N HN]; exists (S N); intros r0 s0;
        cbn [encode encode_body]; unfold encodeStrMap; destruct (_ <=? _)%Z; [discriminate|];
        apply pairs_no; intros w Hw; apply HN;
        eapply Permutation_in; [apply Permutation_map, Permutation_sym, Hshuf|exact Hw]
    | |- exists N, enough N (GTMap ?l) _ =>
        destruct (Hvs (map fst (htmap h l) ++ map snd (htmap h l)) L) as [N HN]; exists (S N); intros r0 s0;
        cbn [encode encode_body]; unfold encodeMap; destruct (_ <=? _)%Z; [discriminate|];
        apply tpairs_no; intros w Hw; apply HN; apply in_app_iff in Hw; apply in_app_iff;
        destruct Hw as [Hw|Hw]; [left|right];
        (eapply Permutation_in; [apply Permutation_map, Permutation_sym, Hshuf|exact Hw])
    | |- exists N, enough N (GPtr _ ?l) _ =>
        destruct (Hrec (hget h l) L) as [N HN]; exists (S N); intros r0 s0;
        cbn [encode encode_body]; unfold encodePointer; destruct (_ <=? _)%Z; [discriminate|];
        match goal with |- context [if ?c then _ else _] => destruct c end; [apply HN|];
        apply bind_no; [destruct (hget h l); cbn; try discriminate; destruct (negb _); discriminate|];
        intros o; destruct (match pget (s_ptr s0) (at_cell (e_layout e) l) with Some _ => _ | None => _ end); [destruct (Nat.ltb _ _); discriminate|];
        apply bind_no; [apply HN|]; intros x; destruct o; discriminate
    | |- exists N, enough N GCanonUndef _ =>
        destruct (Hrec (GUndefV true) L) as [N HN]; exists (S N); intros r0 s0;
        cbn [encode encode_body]; unfold encodePerlPointer; destruct (_ <=? _)%Z; [discriminate|apply HN]
    | |- exists N, enough N (GObjP ?cls ?l) _ =>
        destruct (Hrec (GObjV cls (hget h l)) L) as [N HN]; exists (S N); intros r0 s0;
        cbn [encode encode_body]; unfold encodePerlPointer; destruct (_ <=? _)%Z; [discriminate|apply HN]
    | |- exists N, enough N (GWeakP ?l) _ =>
        destruct (Hrec (GWeakV (hget h l)) L) as [N HN]; exists (S N); intros r0 s0;
        cbn [encode encode_body]; unfold encodePerlPointer; destruct (_ <=? _)%Z; [discriminate|apply HN]
    | |- exists N, enough N (GFreezeV ?cls ?w) _ =>
        destruct (Hvs [GStr cls; GBytes w] L) as [N HN]; exists (S N); intros r0 s0;
        cbn [encode encode_body]; unfold encodeFreezeStruct; destruct (_ <=? _)%Z; [discriminate|];
        apply pairs_no; intros x Hx; apply HN;
        change [GStr cls; GBytes w] with (map snd [(s_Class, GStr cls); (s_Data, GBytes w)]);
        eapply Permutation_in; [apply Permutation_map, Permutation_sym, Hshuf|exact Hx]
    | |- exists N, enough N (GStruct ?name ?fs ?base) _ =>
        destruct (Hvs (map (fun kt : bytes * nat => hget h (base + snd kt)) (tags_of fs)) L) as [N HN];
        exists (S N); intros r0 s0;
        cbn [encode encode_body]; unfold encodeStruct; destruct (_ <=? _)%Z; [discriminate|];
        apply fields_no; intros w Hw; apply HN;
        eapply Permutation_in; [apply Permutation_map, Permutation_sym, Hshuf|exact Hw]
    | |- exists N, enough N (GObjV _ ?v) _ =>
        destruct (IH v ltac:(lia)) as [N HN]; exists (S N); intros r0 s0; cbn [encode encode_body]; apply HN
    | |- exists N, enough N (GWeakV ?v) _ =>
        destruct (IH v ltac:(lia)) as [N HN]; exists (S N); intros r0 s0; cbn [encode encode_body]; apply HN
    | |- exists N, enough N (GUser _ ?o ?v) _ =>
        destruct (IH v ltac:(lia)) as [N HN]; exists (S N); intros r0 s0; cbn [encode encode_body];
        destruct (e_nofreeze e); [apply HN|destruct o; discriminate]
    end.
Qed.

Theorem encode_terminates (d : Z) v : (1 <= d)%Z -> exists N, enough N v d.
Proof.
  intros L. revert v.
  assert (G : forall n d, (1 <= d)%Z -> Z.to_nat d <= n -> forall v, exists N, enough N v d).
  { clear d L. induction n as [|n IH]; intros d L Ln v; [lia|].
    eapply terminates_at; [|reflexivity]. intros w Lw. apply IH; lia. }
  eapply G; [exact L|reflexivity].
Qed.
End Mono.
