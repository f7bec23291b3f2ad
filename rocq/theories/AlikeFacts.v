(** Values with the same content and sharing are encoded to the same bytes. *)
From Verif Require Import Base BaseFacts Tags GoMem GoTypes TagsCache Codecs Encode Compress Document SpecPlaces PlaceFacts SpecAlike.

Lemma both_length {A B} (P : A -> B -> Prop) l l' : Forall2 P l l' -> length l = length l'.
Proof. induction 1; cbn; congruence. Qed.

Section P.
Variables (e e' : econfig) (h h' : heap) (T : spot -> spot -> Prop).
Hypothesis Op : same_options e e'.
Hypothesis Am : alike_memory h h' (e_layout e) (e_layout e') T.
Notation av := (alike_value h h' T).
Let Ep : e_perl e' = e_perl e. Proof. apply Op. Qed.
Let Ed : e_nodedup e' = e_nodedup e. Proof. apply Op. Qed.
Let Ez : e_nofreeze e' = e_nofreeze e. Proof. apply Op. Qed.
Let Ef : e_parsefloat e' = e_parsefloat e. Proof. apply Op. Qed.
Let Es : forall t A B (P : A -> B -> Prop) l l', Forall2 P l l' -> Forall2 P (e_shuffle e t A l) (e_shuffle e' t B l').
Proof. apply Op. Qed.

Definition pair_ (a a' : addr) : Prop :=
  exists x x', T x x' /\ address (e_layout e) x = Some a /\ address (e_layout e') x' = Some a'.
Definition pairs_ (m m' : list (addr * nat)) : Prop := Forall2 (fun x y => pair_ (fst x) (fst y) /\ snd x = snd y) m m'.
Definition near_ (s s' : estate) : Prop :=
  s_by s' = s_by s /\ s_str s' = s_str s /\ s_tick s' = s_tick s /\ pairs_ (s_ptr s) (s_ptr s').
Definition nearly (r r' : res estate) : Prop :=
  match r with
  | Ok s => exists s', r' = Ok s' /\ near_ s s'
  | Err x => r' = Err x | Panic x => r' = Panic x | Crash => r' = Crash | NoFuel => r' = NoFuel
  end.

Lemma pair_eq a a' b b' : pair_ a a' -> pair_ b b' -> (a = b <-> a' = b').
Proof.
  intros (x & x' & X & A & A') (y & y' & Y & B & B'). destruct Am as (_ & _ & _ & K). specialize (K x x' y y' X Y). rewrite A, A', B, B' in K.
  split; intros E; subst; [destruct K as [K _]|destruct K as [_ K]]; specialize (K eq_refl); congruence.
Qed.
Lemma pair_eqb a a' b b' : pair_ a a' -> pair_ b b' -> addr_eqb a' b' = addr_eqb a b.
Proof.
  intros A B. pose proof (pair_eq _ _ _ _ A B) as K.
  destruct (addr_eqb a b) eqn:E1, (addr_eqb a' b') eqn:E2; try reflexivity; exfalso.
  - apply addr_eqb_eq in E1. apply K in E1. apply addr_eqb_eq in E1. congruence.
  - apply addr_eqb_eq in E2. apply K in E2. apply addr_eqb_eq in E2. congruence.
Qed.
Lemma pget_pairs m m' a a' : pairs_ m m' -> pair_ a a' -> pget m' a' = pget m a.
Proof.
  intros P A. induction P as [|[b n] [b' n'] m m' [B N] P IH]; [reflexivity|]. cbn in *. subst.
  rewrite (pair_eqb _ _ _ _ B A), IH. reflexivity.
Qed.
Lemma pair_cell l l' : T (Variable_ l) (Variable_ l') -> pair_ (at_cell (e_layout e) l) (at_cell (e_layout e') l').
Proof. intros X. exists (Variable_ l), (Variable_ l'). repeat split; auto. Qed.
Definition pair_opt (a a' : option addr) : Prop :=
  match a, a' with Some a, Some a' => pair_ a a' | None, None => True | _, _ => False end.
Lemma pair_place p p' : T (Other p) (Other p') -> pair_opt (at_place (e_layout e) p) (at_place (e_layout e') p').
Proof.
  intros X. destruct Am as (_ & _ & K & _). specialize (K _ _ X). cbn in K. unfold pair_opt.
  destruct (at_place (e_layout e) p) eqn:A, (at_place (e_layout e') p') eqn:B; auto.
  - exists (Other p), (Other p'). auto.
  - destruct K as [_ K]. discriminate (K eq_refl).
  - destruct K as [K _]. discriminate (K eq_refl).
Qed.

Lemma near_emit b s s' : near_ s s' -> near_ (emit b s) (emit b s').
Proof. intros (A & B & C & D). unfold emit, with_by. repeat split; cbn; congruence || assumption. Qed.
Lemma near_string t key s s' : near_ s s' -> near_ (encodeString e t key s) (encodeString e' t key s').
Proof.
  intros L. pose proof L as (A & B & C & D). unfold encodeString. rewrite Ed, A, B, C.
  destruct (negb _ && _); [|now apply near_emit]. destruct (mget _ _); [now apply near_emit|].
  apply near_emit. repeat split; cbn; auto.
Qed.
Lemma near_bytes t t' key s s' : t = t' -> near_ s s' -> near_ (encodeBytes e t key s) (encodeBytes e' t' key s').
Proof.
  intros <- L. pose proof L as (A & B & C & D). unfold encodeBytes. rewrite Ed, A, B, C.
  destruct (negb _ && _); [|now apply near_emit]. destruct (mget _ _); [now apply near_emit|].
  apply near_emit. repeat split; cbn; auto.
Qed.
Lemma near_json n key s s' : near_ s s' -> near_ (encodeJsonNumber e n key s) (encodeJsonNumber e' n key s').
Proof.
  intros L. unfold encodeJsonNumber. rewrite Ef. destruct (parse_int n); [now apply near_emit| |now apply near_string].
  destruct (e_parsefloat e n); [now apply near_emit|now apply near_string].
Qed.
Lemma near_open r s s' : near_ s s' -> near_ (open_ref e r s) (open_ref e' r s').
Proof. intros L. unfold open_ref. rewrite Ep. destruct (_ && _); [now apply near_emit|exact L]. Qed.
Lemma near_tick s s' : near_ s s' -> near_ (next_tick s) (next_tick s').
Proof. intros (A & B & C & D). repeat split; cbn; auto. Qed.
Lemma near_perl s s' b : near_ s s' -> near_ (if e_perl e then emit b s else s) (if e_perl e' then emit b s' else s').
Proof. intros L. rewrite Ep. destruct (e_perl e); [now apply near_emit|exact L]. Qed.
Lemma nearly_ok s s' : near_ s s' -> nearly (Ok s) (Ok s').
Proof. intros L. exists s'. auto. Qed.
Lemma nearly_bind r r' f f' : nearly r r' -> (forall s s', near_ s s' -> nearly (f s) (f' s')) -> nearly (bind r f) (bind r' f').
Proof.
  intros A F. destruct r; cbn in *; try (subst; reflexivity). destruct A as (s' & -> & L). cbn. now apply F.
Qed.

Lemma key_alike x y : av x y -> key_string y = key_string x.
Proof. destruct 1; reflexivity. Qed.

Section Rec.
Variables rec rec' : gval -> bool -> Z -> estate -> res estate.
Hypothesis Hr : forall v v' r d s s', av v v' -> near_ s s' -> nearly (rec v r d s) (rec' v' r d s').

Lemma var_alike l l' : T (Variable_ l) (Variable_ l') -> av (hget h l) (hget h' l').
Proof. apply Am. Qed.

Lemma near_elems n : forall b b' d s s', (forall i, i < n -> T (Variable_ (b + i)) (Variable_ (b' + i))) -> near_ s s' ->
  nearly (enc_elems h rec n b d s) (enc_elems h' rec' n b' d s').
Proof.
  induction n as [|n IH]; intros b b' d s s' X L; cbn [enc_elems]; [now apply nearly_ok|].
  apply nearly_bind.
  - apply Hr; [|exact L]. apply var_alike. specialize (X 0). rewrite !Nat.add_0_r in X. apply X. lia.
  - intros. apply IH; [|assumption]. intros i Hi. specialize (X (S i)). rewrite !Nat.add_succ_r in X. cbn [plus]. apply X. lia.
Qed.
Lemma near_pairs m m' : Forall2 (fun x y => fst x = fst y /\ av (snd x) (snd y)) m m' ->
  forall d s s', near_ s s' -> nearly (enc_pairs e rec m d s) (enc_pairs e' rec' m' d s').
Proof.
  induction 1 as [|[key v] [key' v'] m m' [K V] F IH]; intros d s s' L; cbn [enc_pairs]; [now apply nearly_ok|].
  cbn in K, V. subst key'. apply nearly_bind; [apply Hr; [exact V|now apply near_string]|]. intros. now apply IH.
Qed.
Lemma near_tpairs m m' : Forall2 (fun x y => av (fst x) (fst y) /\ av (snd x) (snd y)) m m' ->
  forall d s s', near_ s s' -> nearly (enc_tpairs e rec m d s) (enc_tpairs e' rec' m' d s').
Proof.
  induction 1 as [|[key v] [key' v'] m m' [K V] F IH]; intros d s s' L; cbn [enc_tpairs]; [now apply nearly_ok|]. rewrite Ep.
  cbn in K, V. rewrite (key_alike _ _ K).
  apply nearly_bind; [destruct (e_perl e); [apply nearly_ok; now apply near_string|now apply Hr]|].
  intros. apply nearly_bind; [now apply Hr|]. intros. now apply IH.
Qed.
Lemma near_fields fs b b' tags tags' : (forall i, i < length fs -> T (Variable_ (b + i)) (Variable_ (b' + i))) -> Forall2 eq tags tags' ->
  forall d s s', near_ s s' ->
  nearly (enc_fields e h rec fs b tags d s) (enc_fields e' h' rec' fs b' tags' d s').
Proof.
  intros X. induction 1 as [|[f i] y tags tags' <- F IH]; intros d s s' L; cbn [enc_fields]; [now apply nearly_ok|].
  destruct (nth_error fs i) as [fd|] eqn:N; [|reflexivity]. destruct (f_exported fd); [|reflexivity].
  apply nearly_bind; [apply Hr; [apply var_alike, X; apply nth_error_Some; congruence|now apply near_string]|]. intros. now apply IH.
Qed.

Lemma near_getp ad l l' v v' : T (Other (PStr l)) (Other (PStr l')) -> av v v' ->
  match getPointer e ad l v with
  | Ok a => exists a', getPointer e' ad l' v' = Ok a' /\ pair_opt a a'
  | Err x => getPointer e' ad l' v' = Err x | Panic x => getPointer e' ad l' v' = Panic x
  | Crash => getPointer e' ad l' v' = Crash | NoFuel => getPointer e' ad l' v' = NoFuel end.
Proof.
  intros S V. assert (N : pair_opt None None) by exact Logic.I.
  destruct V as [v A| | | | | | | | | | | | | | |]; try (destruct v; try discriminate A);
    cbn [getPointer]; try (eexists; split; [reflexivity|first [exact N|apply pair_place; assumption|apply pair_cell; assumption]]).
  - destruct ad; [|reflexivity]. eexists. split; [reflexivity|now apply pair_place].
  - destruct ad; [|reflexivity]. eexists. split; [reflexivity|now apply pair_place].
  - eexists. split; [reflexivity|]. destruct a; [exact N|now apply pair_place].
Qed.

Lemma near_pointer ifc l l' v v' d s s' : T (Variable_ l) (Variable_ l') -> T (Other (PStr l)) (Other (PStr l')) -> av v v' ->
  near_ s s' -> nearly (encodePointer e rec ifc l v d s) (encodePointer e' rec' ifc l' v' d s').
Proof.
  intros X S V L. pose proof L as (A & B & C & D). unfold encodePointer. destruct (_ <=? _)%Z; [reflexivity|].
  replace (match v' with GRegexpV _ _ | GUndefV _ | GObjV _ _ | GWeakV _ => negb ifc | _ => false end)
    with (match v with GRegexpV _ _ | GUndefV _ | GObjV _ _ | GWeakV _ => negb ifc | _ => false end) by (destruct V; reflexivity).
  destruct (match v with GRegexpV _ _ | GUndefV _ | GObjV _ _ | GWeakV _ => negb ifc | _ => false end); [now apply Hr|].
  pose proof (near_getp (negb ifc) l l' v v' S V) as G.
  destruct (getPointer e (negb ifc) l v) as [a|x|x| |]; try (rewrite G; reflexivity).
  destruct G as (a' & -> & Ta). cbn [bind]. rewrite (pget_pairs _ _ _ _ D (pair_cell _ _ X)).
  replace (match a' with Some a0 => pget (s_ptr s') a0 | None => None end)
    with (match a with Some a0 => pget (s_ptr s) a0 | None => None end).
  2:{ destruct a as [a|], a' as [a'|]; cbn in Ta; try contradiction; [|reflexivity]. symmetry. now apply pget_pairs. }
  destruct (match pget (s_ptr s) (at_cell (e_layout e) l) with
            | Some o => Some o | None => match a with Some a0 => pget (s_ptr s) a0 | None => None end end) as [o|].
  - rewrite A. destruct (Nat.ltb _ _); [|reflexivity]. apply nearly_ok. repeat split; cbn; auto.
  - apply nearly_bind.
    + apply Hr; [exact V|]. rewrite A. repeat split; cbn; auto; [now rewrite A|]. constructor; [|exact D].
      split; [now apply pair_cell|reflexivity].
    + intros s2 s2' (A2 & B2 & C2 & D2). destruct a as [a|], a' as [a'|]; cbn in Ta; try contradiction; apply nearly_ok.
      * repeat split; cbn; auto. constructor; [|exact D2]. split; [exact Ta|cbn; now rewrite A].
      * repeat split; auto.
Qed.

Ltac lk := repeat first [assumption | apply near_emit | apply near_string | apply near_bytes; [solve [reflexivity|assumption]|]
  | apply near_json | apply near_open | apply near_tick | apply near_perl].

Lemma near_body v v' r d s s' : av v v' -> near_ s s' -> nearly (encode_body e h rec v r d s) (encode_body e' h' rec' v' r d s').
Proof.
  intros V L. destruct V as [v A| | | | | | | | | | | | | | |]; cbn [encode_body].
  - destruct v; try discriminate A; cbn [encode_body]; try (apply nearly_ok; lk); try reflexivity.
    + destruct named; [destruct (ikind_signed k); [apply nearly_ok; lk|reflexivity]|apply nearly_ok; lk].
    + unfold encodeNilPointer. destruct (_ <=? _)%Z; [reflexivity|]. apply nearly_ok. lk.
  - apply nearly_ok. lk.
  - unfold encodeArray. destruct (_ <=? _)%Z; [reflexivity|]. apply near_elems; lk.
  - unfold encodeArray. destruct (_ <=? _)%Z; [reflexivity|]. apply near_elems; lk.
  - unfold encodeStrMap. destruct (_ <=? _)%Z; [reflexivity|].
    destruct Am as (_ & K & _). destruct (K _ _ H) as [F _].
    assert (E : ulen (hmap h' l') = ulen (hmap h l)) by (unfold ulen; f_equal; symmetry; eapply both_length, F). rewrite E.
    match goal with |- nearly (enc_pairs _ _ (e_shuffle _ (s_tick ?a) _ _) _ _) (enc_pairs _ _ (e_shuffle _ (s_tick ?b) _ _) _ _) =>
      assert (M : near_ a b) by lk end. destruct M as (_ & _ & -> & _).
    apply near_pairs; [now apply Es|lk].
  - unfold encodeMap. destruct (_ <=? _)%Z; [reflexivity|].
    destruct Am as (_ & K & _). destruct (K _ _ H) as [_ F].
    assert (E : ulen (htmap h' l') = ulen (htmap h l)) by (unfold ulen; f_equal; symmetry; eapply both_length, F). rewrite E.
    match goal with |- nearly (enc_tpairs _ _ (e_shuffle _ (s_tick ?a) _ _) _ _) (enc_tpairs _ _ (e_shuffle _ (s_tick ?b) _ _) _ _) =>
      assert (M : near_ a b) by lk end. destruct M as (_ & _ & -> & _).
    apply near_tpairs; [now apply Es|lk].
  - apply near_pointer; auto. now apply var_alike.
  - unfold encodePerlPointer. destruct (_ <=? _)%Z; [reflexivity|]. apply Hr; [now constructor|lk].
  - apply Hr; [assumption|lk].
  - unfold encodePerlPointer. destruct (_ <=? _)%Z; [reflexivity|]. apply Hr; [constructor; now apply var_alike|lk].
  - apply Hr; [assumption|lk].
  - unfold encodePerlPointer. destruct (_ <=? _)%Z; [reflexivity|]. apply Hr; [constructor; now apply var_alike|lk].
  - apply nearly_ok. lk.
  - unfold encodeFreezeStruct. destruct (_ <=? _)%Z; [reflexivity|].
    match goal with |- nearly (enc_pairs _ _ (e_shuffle _ (s_tick ?a) _ _) _ _) (enc_pairs _ _ (e_shuffle _ (s_tick ?b) _ _) _ _) =>
      assert (M : near_ a b) by lk end. destruct M as (_ & _ & -> & _).
    apply near_pairs; [apply Es|lk]. repeat constructor; assumption.
  - rewrite Ez. destruct (e_nofreeze e); [apply Hr; [assumption|lk]|]. destruct d0; [|reflexivity]. apply nearly_ok. lk.
  - unfold encodeStruct. destruct (_ <=? _)%Z; [reflexivity|].
    match goal with |- nearly (enc_fields _ _ _ _ _ (e_shuffle _ (s_tick ?a) _ _) _ _) (enc_fields _ _ _ _ _ (e_shuffle _ (s_tick ?b) _ _) _ _) =>
      assert (M : near_ a b) by lk end. destruct M as (_ & _ & -> & _).
    apply near_fields; [assumption| |lk]. apply Es. clear. induction (tags_of fs); constructor; auto.
Qed.
End Rec.

Lemma near_encode fuel : forall v v' r d s s', av v v' -> near_ s s' -> nearly (encode e h fuel v r d s) (encode e' h' fuel v' r d s').
Proof. induction fuel as [|fuel IH]; intros; cbn [encode]; [reflexivity|]. now apply near_body. Qed.
End P.

Lemma fix_options e e' : same_options e e' -> same_options (fix_version e) (fix_version e').
Proof.
  intros (A & B & C & D & E & F & G & H & I). unfold fix_version. rewrite G. destruct (e_version e =? 0)%N; repeat split; cbn; auto.
Qed.
Lemma fix_layout e : e_layout (fix_version e) = e_layout e.
Proof. unfold fix_version. destruct (e_version e =? 0)%N; reflexivity. Qed.

Theorem marshal_alike k fuel e e' h h' T header header' v v' : same_options e e' ->
  alike_memory h h' (e_layout e) (e_layout e') T -> alike_value h h' T v v' ->
  match header, header' with Some x, Some x' => alike_value h h' T x x' | None, None => True | _, _ => False end ->
  MarshalWithHeader k fuel e' h' header' v' = MarshalWithHeader k fuel e h header v.
Proof.
  intros Op Am V Hd. unfold MarshalWithHeader. apply fix_options in Op.
  rewrite <- (fix_layout e), <- (fix_layout e') in Am.
  set (f := fix_version e) in *. set (f' := fix_version e') in *. clearbody f f'. clear e e'.
  pose proof Op as (Ep & Ec & Et & Edd & Enf & Em & Ev & _).
  assert (K : forall x x' r d s, alike_value h h' T x x' -> s_ptr s = [] ->
    nearly f f' T (encode f h fuel x r d s) (encode f' h' fuel x' r d s)).
  { intros x x' r d s X P. apply near_encode; auto. repeat split. rewrite P. constructor. }
  assert (Hh : marshal_header fuel f' h' header' = marshal_header fuel f h header).
  { unfold marshal_header. rewrite Ev, Em. destruct header as [hv|], header' as [hv'|]; try contradiction; [|reflexivity].
    destruct (2 <=? e_version f)%N; [|reflexivity]. specialize (K hv hv' false (remainingRecursion (e_maxdepth f)) (estart [x01] 0) Hd eq_refl).
    destruct (encode f h fuel hv _ _ _); cbn in K; try (rewrite K; reflexivity).
    destruct K as (s' & -> & A & _ & C & _). cbn [bind]. rewrite A, C. reflexivity. }
  rewrite Hh. destruct (marshal_header fuel f h header) as [[pre tick]| | | |]; try reflexivity. cbn [bind].
  assert (Hb : marshal_body fuel f' h' pre tick v' = marshal_body fuel f h pre tick v).
  { unfold marshal_body. rewrite Ev, Em.
    destruct (e_version f =? 1)%N.
    - specialize (K v v' false (remainingRecursion (e_maxdepth f)) (estart pre tick) V eq_refl).
      destruct (encode f h fuel v _ _ _); cbn in K; try (rewrite K; reflexivity).
      destruct K as (s' & -> & A & _). cbn [bind]. rewrite A. reflexivity.
    - destruct (_ || _)%N; [|reflexivity].
      specialize (K v v' false (remainingRecursion (e_maxdepth f)) (estart [x00] tick) V eq_refl).
      destruct (encode f h fuel v _ _ _); cbn in K; try (rewrite K; reflexivity).
      destruct K as (s' & -> & A & _). cbn [bind]. rewrite A. reflexivity. }
  rewrite Hb. destruct (marshal_body fuel f h pre tick v) as [body| | | |]; try reflexivity. cbn [bind].
  assert (Hc : marshal_compress k f' pre body = marshal_compress k f pre body) by (unfold marshal_compress; rewrite Ec, Et, Ev; reflexivity).
  rewrite Hc. reflexivity.
Qed.
