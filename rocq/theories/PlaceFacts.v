(** The encoder looks at addresses only to compare them. *)
From Verif Require Import Base BaseFacts Tags GoMem GoTypes TagsCache Codecs Encode Compress Document SpecPlaces.

Section P.
Variables (e e' : econfig) (h : heap).
Hypothesis Ep : e_perl e' = e_perl e.
Hypothesis Ed : e_nodedup e' = e_nodedup e.
Hypothesis Ez : e_nofreeze e' = e_nofreeze e.
Hypothesis Es : e_shuffle e' = e_shuffle e.
Hypothesis Ef : e_parsefloat e' = e_parsefloat e.
Hypothesis So : same_overlaps (e_layout e) (e_layout e').

Definition twin (a a' : addr) : Prop := exists x, address (e_layout e) x = Some a /\ address (e_layout e') x = Some a'.
Definition twins (m m' : list (addr * nat)) : Prop := Forall2 (fun x y => twin (fst x) (fst y) /\ snd x = snd y) m m'.
Definition like (s s' : estate) : Prop :=
  s_by s' = s_by s /\ s_str s' = s_str s /\ s_tick s' = s_tick s /\ twins (s_ptr s) (s_ptr s').
Definition alike (r r' : res estate) : Prop :=
  match r with
  | Ok s => exists s', r' = Ok s' /\ like s s'
  | Err x => r' = Err x | Panic x => r' = Panic x | Crash => r' = Crash | NoFuel => r' = NoFuel
  end.

Lemma twin_eq a a' b b' : twin a a' -> twin b b' -> (a = b <-> a' = b').
Proof.
  intros (x & A & A') (y & B & B'). destruct So as [_ K]. specialize (K x y). rewrite A, A', B, B' in K.
  split; intros E; subst; [destruct K as [K _]|destruct K as [_ K]]; specialize (K eq_refl); congruence.
Qed.
Lemma addr_eqb_eq a b : addr_eqb a b = true <-> a = b.
Proof. destruct a as [x], b as [y]. cbn. rewrite Nat.eqb_eq. split; congruence. Qed.
Lemma twin_eqb a a' b b' : twin a a' -> twin b b' -> addr_eqb a' b' = addr_eqb a b.
Proof.
  intros A B. pose proof (twin_eq _ _ _ _ A B) as K.
  destruct (addr_eqb a b) eqn:E1, (addr_eqb a' b') eqn:E2; try reflexivity; exfalso.
  - apply addr_eqb_eq in E1. apply K in E1. apply addr_eqb_eq in E1. congruence.
  - apply addr_eqb_eq in E2. apply K in E2. apply addr_eqb_eq in E2. congruence.
Qed.
Lemma pget_twins m m' a a' : twins m m' -> twin a a' -> pget m' a' = pget m a.
Proof.
  intros T A. induction T as [|[b n] [b' n'] m m' [B N] T IH]; [reflexivity|]. cbn in *. subst.
  rewrite (twin_eqb _ _ _ _ B A), IH. reflexivity.
Qed.
Lemma twin_cell l : twin (at_cell (e_layout e) l) (at_cell (e_layout e') l).
Proof. exists (Variable_ l). split; reflexivity. Qed.
Definition twin_opt (a a' : option addr) : Prop :=
  match a, a' with Some a, Some a' => twin a a' | None, None => True | _, _ => False end.
Lemma twin_place p : twin_opt (at_place (e_layout e) p) (at_place (e_layout e') p).
Proof.
  destruct So as [K _]. specialize (K (Other p)). cbn in K. unfold twin_opt.
  destruct (at_place (e_layout e) p) eqn:A, (at_place (e_layout e') p) eqn:B; auto.
  - exists (Other p). auto.
  - destruct K as [_ K]. discriminate (K eq_refl).
  - destruct K as [K _]. discriminate (K eq_refl).
Qed.

Lemma like_emit b s s' : like s s' -> like (emit b s) (emit b s').
Proof. intros (A & B & C & D). unfold emit, with_by. repeat split; cbn; congruence || assumption. Qed.
Lemma like_string t key s s' : like s s' -> like (encodeString e t key s) (encodeString e' t key s').
Proof.
  intros L. pose proof L as (A & B & C & D). unfold encodeString. rewrite Ed, A, B, C.
  destruct (negb _ && _); [|now apply like_emit]. destruct (mget _ _); [now apply like_emit|].
  apply like_emit. repeat split; cbn; auto.
Qed.
Lemma like_bytes t key s s' : like s s' -> like (encodeBytes e t key s) (encodeBytes e' t key s').
Proof.
  intros L. pose proof L as (A & B & C & D). unfold encodeBytes. rewrite Ed, A, B, C.
  destruct (negb _ && _); [|now apply like_emit]. destruct (mget _ _); [now apply like_emit|].
  apply like_emit. repeat split; cbn; auto.
Qed.
Lemma like_json n key s s' : like s s' -> like (encodeJsonNumber e n key s) (encodeJsonNumber e' n key s').
Proof.
  intros L. unfold encodeJsonNumber. rewrite Ef. destruct (parse_int n); [now apply like_emit| |now apply like_string].
  destruct (e_parsefloat e n); [now apply like_emit|now apply like_string].
Qed.
Lemma like_open r s s' : like s s' -> like (open_ref e r s) (open_ref e' r s').
Proof. intros L. unfold open_ref. rewrite Ep. destruct (_ && _); [now apply like_emit|exact L]. Qed.
Lemma like_tick s s' : like s s' -> like (next_tick s) (next_tick s').
Proof. intros (A & B & C & D). repeat split; cbn; auto. Qed.
Lemma like_perl s s' b : like s s' -> like (if e_perl e then emit b s else s) (if e_perl e' then emit b s' else s').
Proof. intros L. rewrite Ep. destruct (e_perl e); [now apply like_emit|exact L]. Qed.
Lemma alike_ok s s' : like s s' -> alike (Ok s) (Ok s').
Proof. intros L. exists s'. auto. Qed.
Lemma alike_bind r r' f f' : alike r r' -> (forall s s', like s s' -> alike (f s) (f' s')) -> alike (bind r f) (bind r' f').
Proof.
  intros A F. destruct r; cbn in *; try (subst; reflexivity). destruct A as (s' & -> & L). cbn. now apply F.
Qed.

Section Rec.
Variables rec rec' : gval -> bool -> Z -> estate -> res estate.
Hypothesis Hr : forall v r d s s', like s s' -> alike (rec v r d s) (rec' v r d s').

Lemma like_elems n : forall base d s s', like s s' -> alike (enc_elems h rec n base d s) (enc_elems h rec' n base d s').
Proof.
  induction n as [|n IH]; intros base d s s' L; cbn [enc_elems]; [now apply alike_ok|].
  apply alike_bind; [now apply Hr|]. intros. now apply IH.
Qed.
Lemma like_pairs m : forall d s s', like s s' -> alike (enc_pairs e rec m d s) (enc_pairs e' rec' m d s').
Proof.
  induction m as [|[key v] m IH]; intros d s s' L; cbn [enc_pairs]; [now apply alike_ok|].
  apply alike_bind; [apply Hr; now apply like_string|]. intros. now apply IH.
Qed.
Lemma like_tpairs m : forall d s s', like s s' -> alike (enc_tpairs e rec m d s) (enc_tpairs e' rec' m d s').
Proof.
  induction m as [|[key v] m IH]; intros d s s' L; cbn [enc_tpairs]; [now apply alike_ok|]. rewrite Ep.
  apply alike_bind; [destruct (e_perl e); [apply alike_ok; now apply like_string|now apply Hr]|].
  intros. apply alike_bind; [now apply Hr|]. intros. now apply IH.
Qed.
Lemma like_fields fs base tags : forall d s s', like s s' ->
  alike (enc_fields e h rec fs base tags d s) (enc_fields e' h rec' fs base tags d s').
Proof.
  induction tags as [|[f i] tags IH]; intros d s s' L; cbn [enc_fields]; [now apply alike_ok|].
  destruct (nth_error fs i) as [fd|]; [|reflexivity]. destruct (f_exported fd); [|reflexivity].
  apply alike_bind; [apply Hr; now apply like_string|]. intros. now apply IH.
Qed.

Lemma like_getp ad l v : match getPointer e ad l v with
  | Ok a => exists a', getPointer e' ad l v = Ok a' /\ twin_opt a a'
  | Err x => getPointer e' ad l v = Err x | Panic x => getPointer e' ad l v = Panic x
  | Crash => getPointer e' ad l v = Crash | NoFuel => getPointer e' ad l v = NoFuel end.
Proof.
  assert (N : twin_opt None None) by exact Logic.I.
  destruct v; cbn; try (eexists; split; [reflexivity|first [exact N|apply twin_place|apply twin_cell]]).
  - destruct ad; [|reflexivity]. eexists. split; [reflexivity|apply twin_place].
  - destruct ad; [|reflexivity]. eexists. split; [reflexivity|apply twin_place].
  - eexists. split; [reflexivity|]. destruct isArr; [exact N|apply twin_place].
Qed.

Lemma like_pointer ifc l v d s s' : like s s' -> alike (encodePointer e rec ifc l v d s) (encodePointer e' rec' ifc l v d s').
Proof.
  intros L. pose proof L as (A & B & C & D). unfold encodePointer. destruct (_ <=? _)%Z; [reflexivity|].
  destruct (match v with GRegexpV _ _ | GUndefV _ | GObjV _ _ | GWeakV _ => negb ifc | _ => false end); [now apply Hr|].
  pose proof (like_getp (negb ifc) l v) as G.
  destruct (getPointer e (negb ifc) l v) as [a|x|x| |]; try (rewrite G; reflexivity).
  destruct G as (a' & -> & Ta). cbn [bind]. rewrite (pget_twins _ _ _ _ D (twin_cell l)).
  replace (match a' with Some a0 => pget (s_ptr s') a0 | None => None end)
    with (match a with Some a0 => pget (s_ptr s) a0 | None => None end).
  2:{ destruct a as [a|], a' as [a'|]; cbn in Ta; try contradiction; [|reflexivity]. symmetry. now apply pget_twins. }
  destruct (match pget (s_ptr s) (at_cell (e_layout e) l) with
            | Some o => Some o | None => match a with Some a0 => pget (s_ptr s) a0 | None => None end end) as [o|].
  - rewrite A. destruct (Nat.ltb _ _); [|reflexivity]. apply alike_ok. repeat split; cbn; auto.
  - apply alike_bind.
    + apply Hr. rewrite A. repeat split; cbn; auto; [now rewrite A|]. constructor; [|exact D]. split; [apply twin_cell|reflexivity].
    + intros s2 s2' (A2 & B2 & C2 & D2). destruct a as [a|], a' as [a'|]; cbn in Ta; try contradiction; apply alike_ok.
      * repeat split; cbn; auto. constructor; [|exact D2]. split; [exact Ta|cbn; now rewrite A].
      * repeat split; auto.
Qed.

Ltac lk := repeat first [assumption | apply like_emit | apply like_string | apply like_bytes | apply like_json | apply like_open
  | apply like_tick | apply like_perl].
Lemma shuffle_like s s' A (l : list A) : like s s' -> e_shuffle e' (s_tick s') A l = e_shuffle e (s_tick s) A l.
Proof. intros (_ & _ & C & _). rewrite Es, C. reflexivity. Qed.

Lemma like_body v r d s s' : like s s' -> alike (encode_body e h rec v r d s) (encode_body e' h rec' v r d s').
Proof.
  intros L. destruct v; cbn [encode_body];
    try (apply alike_ok; lk); try reflexivity; try (apply Hr; lk).
  - destruct named; [destruct (ikind_signed k); [apply alike_ok; lk|reflexivity]|apply alike_ok; lk].
  - unfold encodeArray. destruct (_ <=? _)%Z; [reflexivity|]. apply like_elems. lk.
  - unfold encodeStrMap. destruct (_ <=? _)%Z; [reflexivity|].
    rewrite (shuffle_like _ _ _ _ (like_emit _ _ _ (like_open _ _ _ L))). apply like_pairs. lk.
  - now apply like_pointer.
  - unfold encodeNilPointer. destruct (_ <=? _)%Z; [reflexivity|]. apply alike_ok. lk.
  - unfold encodePerlPointer. destruct (_ <=? _)%Z; [reflexivity|]. apply Hr. lk.
  - unfold encodePerlPointer. destruct (_ <=? _)%Z; [reflexivity|]. apply Hr. lk.
  - unfold encodePerlPointer. destruct (_ <=? _)%Z; [reflexivity|]. apply Hr. lk.
  - unfold encodeFreezeStruct. destruct (_ <=? _)%Z; [reflexivity|].
    match goal with |- alike (enc_pairs _ _ (e_shuffle _ (s_tick ?a) _ _) _ _) (enc_pairs _ _ (e_shuffle _ (s_tick ?b) _ _) _ _) =>
      assert (M : like a b) by lk end.
    rewrite (shuffle_like _ _ _ _ M). apply like_pairs. lk.
  - rewrite Ez. destruct (e_nofreeze e); [apply Hr; lk|]. destruct data; [|reflexivity]. apply alike_ok. lk.
  - unfold encodeArray. destruct (_ <=? _)%Z; [reflexivity|]. apply like_elems. lk.
  - unfold encodeMap. destruct (_ <=? _)%Z; [reflexivity|].
    rewrite (shuffle_like _ _ _ _ (like_emit _ _ _ (like_open _ _ _ L))). apply like_tpairs. lk.
  - unfold encodeStruct. destruct (_ <=? _)%Z; [reflexivity|].
    match goal with |- alike (enc_fields _ _ _ _ _ (e_shuffle _ (s_tick ?a) _ _) _ _) (enc_fields _ _ _ _ _ (e_shuffle _ (s_tick ?b) _ _) _ _) =>
      assert (M : like a b) by lk end.
    rewrite (shuffle_like _ _ _ _ M). apply like_fields. lk.
Qed.
End Rec.

Lemma like_encode fuel : forall v r d s s', like s s' -> alike (encode e h fuel v r d s) (encode e' h fuel v r d s').
Proof. induction fuel as [|fuel IH]; intros; cbn [encode]; [reflexivity|]. now apply like_body. Qed.
End P.

(** the encoder [e] in a program with another layout of memory *)
Theorem marshal_places k fuel e L h header v : same_overlaps (e_layout e) L ->
  MarshalWithHeader k fuel (moved L e) h header v = MarshalWithHeader k fuel e h header v.
Proof.
  intros So. unfold MarshalWithHeader.
  assert (Ef : fix_version (moved L e) = moved L (fix_version e)) by (unfold fix_version; cbn; destruct (e_version e =? 0)%N; reflexivity).
  rewrite Ef. set (f := fix_version e).
  assert (Lf : e_layout f = e_layout e) by (unfold f, fix_version; destruct (e_version e =? 0)%N; reflexivity).
  assert (K : forall x r d s, s_ptr s = [] -> alike f (moved L f) (encode f h fuel x r d s) (encode (moved L f) h fuel x r d s)).
  { intros x r d s P. apply like_encode; try reflexivity; [rewrite Lf; exact So|]. repeat split. rewrite P. constructor. }
  assert (Hh : marshal_header fuel (moved L f) h header = marshal_header fuel f h header).
  { unfold marshal_header. destruct header as [hv|]; [|reflexivity]. cbn [moved e_version e_maxdepth].
    destruct (2 <=? e_version f)%N; [|reflexivity]. specialize (K hv false (remainingRecursion (e_maxdepth f)) (estart [x01] 0) eq_refl).
    destruct (encode f h fuel hv _ _ _); cbn in K; try (rewrite K; reflexivity).
    destruct K as (s' & -> & A & _ & C & _). cbn [bind]. rewrite A, C. reflexivity. }
  rewrite Hh. destruct (marshal_header fuel f h header) as [[pre tick]| | | |]; try reflexivity. cbn [bind].
  assert (Hb : marshal_body fuel (moved L f) h pre tick v = marshal_body fuel f h pre tick v).
  { unfold marshal_body. cbn [moved e_version e_maxdepth].
    destruct (e_version f =? 1)%N.
    - specialize (K v false (remainingRecursion (e_maxdepth f)) (estart pre tick) eq_refl).
      destruct (encode f h fuel v _ _ _); cbn in K; try (rewrite K; reflexivity).
      destruct K as (s' & -> & A & _). cbn [bind]. rewrite A. reflexivity.
    - destruct (_ || _)%N; [|reflexivity].
      specialize (K v false (remainingRecursion (e_maxdepth f)) (estart [x00] tick) eq_refl).
      destruct (encode f h fuel v _ _ _); cbn in K; try (rewrite K; reflexivity).
      destruct K as (s' & -> & A & _). cbn [bind]. rewrite A. reflexivity. }
  rewrite Hb. destruct (marshal_body fuel f h pre tick v); try reflexivity.
Qed.
