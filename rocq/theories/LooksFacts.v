(** Which byte strings are taken for documents, and that Marshal writes such. *)
From Verif Require Import Base BaseFacts SpecVarint Varint VarintFacts Tags GoMem Encode Decode Codecs Compress
  Header Document SpecOptions Spec SpecDoc SpecHeader HeaderFacts ApiFacts ApiSafe ApiProps MarshalFacts.
From Coq Require Import ZifyBool ZifyNat ZifyN.
Ltac Zify.zify_post_hook ::= Z.div_mod_to_equations.

Lemma Ok_eq {A} (a b : A) : Ok a = Ok b -> b = a.
Proof. now intros [= ->]. Qed.
Lemma Ok_pair {A B} (a a' : A) (b b' : B) : Ok (a, b) = Ok (a', b') -> a' = a /\ b' = b.
Proof. now intros [= -> ->]. Qed.

(** * The encoder writes at least one byte for every value *)
Section Grow.
Variable e : econfig.
Variable h : heap.

Definition leb_ (s s' : estate) : Prop := length (s_by s) <= length (s_by s').
Definition ltb_ (s s' : estate) : Prop := length (s_by s) < length (s_by s').

Lemma emit_lt b s : b <> [] -> ltb_ s (emit b s).
Proof. unfold ltb_, emit. cbn. rewrite app_length. destruct b; [congruence|cbn; lia]. Qed.
Lemma emit_le b s : leb_ s (emit b s).
Proof. unfold leb_, emit. cbn. rewrite app_length. lia. Qed.
Lemma string_lt str key s : ltb_ s (encodeString e str key s).
Proof.
  unfold encodeString, ltb_. destruct (negb (e_nodedup e) && key); [destruct (mget (s_str s) str)|];
    cbn [emit with_by s_by]; rewrite app_length; cbn [length]; lia.
Qed.
Lemma bytes_lt str key s : ltb_ s (encodeBytes e str key s).
Proof.
  unfold encodeBytes, ltb_. destruct (negb (e_nodedup e) && key); [destruct (mget (s_str s) str)|];
    [| destruct (ulen str <? 32)%N | destruct (ulen str <? 32)%N];
    cbn [emit with_by s_by]; rewrite app_length; cbn [length]; lia.
Qed.
Lemma int_nonempty i z : encodeInt i z <> [].
Proof. unfold encodeInt. repeat match goal with |- context [if ?c then _ else _] => destruct c end; discriminate. Qed.
Lemma json_lt n key s : ltb_ s (encodeJsonNumber e n key s).
Proof.
  unfold encodeJsonNumber. destruct (parse_int n); auto using string_lt, emit_lt, int_nonempty.
  destruct (e_parsefloat e n); auto using string_lt. apply emit_lt. discriminate.
Qed.
Lemma lt_le s s' : ltb_ s s' -> leb_ s s'.
Proof. unfold ltb_, leb_. lia. Qed.
Lemma open_le r s : leb_ s (open_ref e r s).
Proof. unfold open_ref. destruct (e_perl e && negb r); [apply emit_le|unfold leb_; lia]. Qed.
Lemma set_track_length b o : length (set_track b o) = length b.
Proof. unfold set_track. destruct (nth_error b o); [apply upd_length|reflexivity]. Qed.

Definition grown (s : estate) (r : res estate) : Prop := forall s', r = Ok s' -> ltb_ s s'.
Definition kept (s : estate) (r : res estate) : Prop := forall s', r = Ok s' -> leb_ s s'.

Section Step.
Variable rec : gval -> bool -> Z -> estate -> res estate.
Hypothesis H : forall v r d s, grown s (rec v r d s).

Lemma kept_Ok s : kept s (Ok s).
Proof. intros s' [= <-]. unfold leb_. lia. Qed.
Lemma kept_bind s r f : kept s r -> (forall s1, leb_ s s1 -> kept s1 (f s1)) -> kept s (bind r f).
Proof.
  intros A B s'. destruct r as [s1| | | |]; try discriminate. cbn. intros E.
  pose proof (A s1 eq_refl) as L1. specialize (B s1 L1 s' E). unfold leb_ in *. lia.
Qed.
Lemma kept_rec v r d s s0 : leb_ s s0 -> kept s (rec v r d s0).
Proof. intros L s' E. specialize (H v r d s0 s' E). unfold leb_, ltb_ in *. lia. Qed.
Lemma kept_from s s0 r : leb_ s s0 -> kept s0 r -> kept s r.
Proof. intros L K s' E. specialize (K s' E). unfold leb_ in *. lia. Qed.
Lemma grown_from s s0 r : ltb_ s s0 -> kept s0 r -> grown s r.
Proof. intros L K s' E. specialize (K s' E). unfold leb_, ltb_ in *. lia. Qed.

Lemma elems_kept n : forall base d s, kept s (enc_elems h rec n base d s).
Proof.
  induction n; intros; cbn; [apply kept_Ok|]. apply kept_bind; auto.
  apply kept_rec. unfold leb_. lia.
Qed.
Lemma pairs_kept m : forall d s, kept s (enc_pairs e rec m d s).
Proof.
  induction m as [|[k v] m IH]; intros; cbn; [apply kept_Ok|]. apply kept_bind; auto.
  apply kept_rec. apply lt_le, string_lt.
Qed.
Lemma tpairs_kept m : forall d s, kept s (enc_tpairs e rec m d s).
Proof.
  induction m as [|[k v] m IH]; intros; cbn; [apply kept_Ok|]. apply kept_bind.
  - destruct (e_perl e).
    + intros s' [= <-]. apply lt_le, string_lt.
    + apply kept_rec. unfold leb_. lia.
  - intros s1 _. apply kept_bind; auto. apply kept_rec. unfold leb_. lia.
Qed.
Lemma fields_kept fs base t : forall d s, kept s (enc_fields e h rec fs base t d s).
Proof.
  induction t as [|[k i] t IH]; intros; cbn; [apply kept_Ok|].
  destruct (nth_error fs i) as [f|]; [|discriminate]. destruct (f_exported f); [|discriminate].
  apply kept_bind; auto. apply kept_rec. apply lt_le, string_lt.
Qed.

Lemma le_lt_trans_ a b d : leb_ a b -> ltb_ b d -> ltb_ a d.
Proof. unfold leb_, ltb_. lia. Qed.
Lemma lt_le_trans_ a b d : ltb_ a b -> leb_ b d -> ltb_ a d.
Proof. unfold leb_, ltb_. lia. Qed.
Lemma perl_le s : leb_ s (if e_perl e then emit [tagb typeREFN] s else s).
Proof. destruct (e_perl e); [apply emit_le|unfold leb_; lia]. Qed.

Lemma body_grown v r d s : grown s (encode_body e h rec v r d s).
Proof.
  destruct v; cbn [encode_body];
    try (intros s' Es; apply Ok_eq in Es as ->; auto using string_lt, bytes_lt, json_lt, int_nonempty; apply emit_lt; discriminate);
    try discriminate;
    unfold encodeArray, encodeStrMap, encodeMap, encodeStruct, encodeFreezeStruct, encodePerlPointer, encodeNilPointer;
    try (destruct (_ <=? _)%Z; [discriminate|]); auto.
  - destruct named.
    + destruct (ikind_signed k); [|discriminate]. intros s' Es; apply Ok_eq in Es as ->. apply emit_lt, int_nonempty.
    + intros s' Es; apply Ok_eq in Es as ->. apply emit_lt, int_nonempty.
  - eapply grown_from; [|apply elems_kept]. eapply le_lt_trans_; [apply open_le|apply emit_lt; discriminate].
  - eapply grown_from; [|apply pairs_kept]. eapply le_lt_trans_; [apply open_le|apply emit_lt; discriminate].
  - unfold encodePointer. destruct (_ <=? _)%Z; [discriminate|].
    match goal with |- context [if ?c then _ else _] => destruct c end; auto.
    destruct (getPointer e _ _ _) as [o| | | |]; try discriminate. cbn [bind].
    destruct (match pget (s_ptr s) (at_cell (e_layout e) l) with Some _ => _ | None => _ end) as [o'|].
    + destruct (Nat.ltb _ _); [|discriminate]. intros s' Es; apply Ok_eq in Es as ->. unfold ltb_. cbn [with_by s_by]. rewrite set_track_length, app_length. cbn [length]. lia.
    + apply grown_from with (s0 := emit [tagb typeREFN] s); [apply emit_lt; discriminate|].
      match goal with |- kept _ (bind (rec ?v ?r ?d ?s1) _) => apply (kept_bind _ (rec v r d s1)) end.
      * apply kept_rec. unfold leb_. cbn. lia.
      * intros s1 _. destruct o; intros s' Es; apply Ok_eq in Es as ->; unfold leb_; cbn; lia.
  - intros s' Es; apply Ok_eq in Es as ->. apply emit_lt. discriminate.
  - apply grown_from with (s0 := encodeBytes e cls true (emit [tagb typeOBJECT] s)); [|apply kept_rec].
    + eapply lt_le_trans_; [apply (emit_lt [tagb typeOBJECT]); discriminate|apply lt_le, bytes_lt].
    + unfold leb_; lia.
  - apply grown_from with (s0 := emit [tagb typeWEAKEN] s); [|apply kept_rec].
    + apply emit_lt; discriminate.
    + unfold leb_; lia.
  - intros s' Es; apply Ok_eq in Es as ->. eapply lt_le_trans_; [apply (emit_lt [tagb typeREGEXP]); discriminate|].
    eapply Nat.le_trans; apply lt_le; apply bytes_lt.
  - eapply grown_from; [|apply pairs_kept].
    eapply lt_le_trans_; [apply (emit_lt [tagb typeOBJECT]); discriminate|].
    eapply Nat.le_trans; [apply lt_le, (bytes_lt s_PerlFreeze true)|].
    eapply Nat.le_trans; [apply perl_le|]. apply emit_le.
  - destruct (e_nofreeze e); auto. destruct data as [by_|]; [|discriminate]. intros s' Es; apply Ok_eq in Es as ->.
    eapply lt_le_trans_; [apply (emit_lt [tagb typeOBJECT_FREEZE]); discriminate|].
    eapply Nat.le_trans; [apply lt_le, (string_lt name true)|].
    eapply Nat.le_trans; [apply (emit_le (tagb typeREFN :: tagb typeARRAY :: varint 1))|].
    apply lt_le, bytes_lt.
  - eapply grown_from; [|apply elems_kept]. eapply le_lt_trans_; [apply open_le|apply emit_lt; discriminate].
  - eapply grown_from; [|apply tpairs_kept]. eapply le_lt_trans_; [apply open_le|apply emit_lt; discriminate].
  - eapply grown_from; [|apply fields_kept].
    eapply lt_le_trans_; [apply (emit_lt [tagb typeOBJECT]); discriminate|].
    eapply Nat.le_trans; [apply lt_le, (bytes_lt name true)|].
    eapply Nat.le_trans; [apply perl_le|]. apply emit_le.
Qed.
End Step.

Lemma encode_grown f : forall v r d s, grown s (encode e h f v r d s).
Proof. induction f as [|f IH]; intros; cbn [encode]; [discriminate|]. now apply body_grown. Qed.
End Grow.


(** * LooksLikeSereal *)
Lemma starts_looks b ver typ l n rest : starts b ver typ l n rest -> 7 <= length b -> LooksLikeSereal b = true.
Proof.
  intros S L. unfold LooksLikeSereal. destruct (Nat.ltb_spec (length b) 7); [lia|].
  pose proof (checkHeader_starts _ _ _ _ _ _ S) as C. unfold checkHeader in C.
  destruct (readHeader b); try discriminate. reflexivity.
Qed.

Lemma varint_nonempty n : varint n <> [].
Proof. unfold varint. cbn [varint_loop]. destruct (_ <? _)%N; discriminate. Qed.
(** compressed data is not empty *)
Lemma compress_nonempty k c b z : lossless k -> snappy_dec k [] = None -> compress k c b = Ok z -> z <> [].
Proof.
  intros (A & _) N. destruct c; cbn [compress].
  - unfold snappy_compress. destruct (_ <=? _)%Z; [discriminate|]. intros [= <-].
    assert (X : snappy_enc k b <> []) by (intros E; specialize (A b); rewrite E, N in A; discriminate).
    destruct incremental; [|exact X]. intros E. apply app_eq_nil in E as [_ E]. contradiction.
  - unfold zlib_compress. destruct (zlib_enc k _ b) as [t|]; [|discriminate]. intros [= <-] E.
    apply app_eq_nil in E as [E _]. exact (varint_nonempty _ E).
  - unfold zstd_compress. destruct (zstd_enc k _ b) as [t|]; [|discriminate]. intros [= <-] E.
    apply app_eq_nil in E as [E _]. exact (varint_nonempty _ E).
Qed.

Lemma body_nonempty fuel e h pre tick v body : (1 <= e_version e <= 3)%N ->
  marshal_body fuel e h pre tick v = Ok body -> body <> [].
Proof.
  intros V. unfold marshal_body.
  assert (G : forall p t f, bind (encode e h fuel v false (remainingRecursion (e_maxdepth e)) (estart p t)) f = Ok body ->
    (forall s, f s = Ok (skipn (length p) (s_by s))) -> body <> []).
  { intros p t f E Hf. destruct (encode e h fuel v false (remainingRecursion (e_maxdepth e)) (estart p t)) as [s| | | |] eqn:En; try discriminate.
    cbn [bind] in E. rewrite Hf in E. injection E as <-. pose proof (encode_grown e h fuel _ _ _ _ _ En) as L.
    unfold ltb_ in L. cbn in L. intros Z. apply (f_equal (@length byte)) in Z. rewrite skipn_length in Z. cbn in Z. lia. }
  destruct (N.eqb_spec (e_version e) 1); [intros E; exact (G _ _ _ E (fun s => eq_refl))|].
  destruct ((e_version e =? 2) || (e_version e =? 3))%N eqn:C; [|lia].
  intros E; exact (G [x00] _ _ E (fun s => eq_refl)).
Qed.

Lemma preamble_starts' ver typ suffix pre rest : preamble ver typ suffix pre -> exists ln n r, starts (pre ++ rest) ver typ ln n r.
Proof.
  intros (V & T & vt & len & -> & Hvt & Gr & L). exists len, (N.of_nat (length suffix)), (suffix ++ rest).
  split; [exact V|]. split; [exact T|]. exists vt. rewrite <- !app_assoc. auto.
Qed.

Lemma upd_preamble ver typ suffix pre : (ver <= 3)%N -> (typ = 1 \/ typ = 2 \/ typ = 3)%N -> preamble ver 0 suffix pre ->
  preamble ver typ suffix (upd pre 4 (n2b (N.lor (b2n (nth 4 pre x00)) (N.shiftl typ 4)))).
Proof.
  intros V Ht (P1 & _ & vt & len & -> & Hb & Gr & Le). split; [exact P1|]. split; [lia|].
  assert (Eu : forall y, upd (magic ver ++ [vt] ++ len ++ suffix) 4 y = magic ver ++ [y] ++ len ++ suffix)
    by (intros; unfold magic; destruct (ver <? 3)%N; reflexivity).
  assert (En : nth 4 (magic ver ++ [vt] ++ len ++ suffix) x00 = vt)
    by (unfold magic; destruct (ver <? 3)%N; reflexivity).
  rewrite Eu, En. eexists _, len. split; [reflexivity|]. split; [|auto]. rewrite Hb.
  assert (V' : (ver = 1 \/ ver = 2 \/ ver = 3)%N) by lia.
  destruct V' as [-> |[-> | ->]], Ht as [-> |[-> | ->]]; reflexivity.
Qed.

Theorem marshalled_looks k fuel e h hv v b : lossless k -> snappy_dec k [] = None -> (1 <= proto e <= 3)%N ->
  MarshalWithHeader k fuel e h hv v = Ok b -> (Z.of_nat (length b) < two63)%Z -> LooksLikeSereal b = true.
Proof.
  intros Lk Ns V M Lb. unfold MarshalWithHeader in M. set (f := fix_version e) in *.
  assert (Vf : (1 <= e_version f <= 3)%N) by (unfold f; rewrite proto_fix; exact V).
  destruct (marshal_header fuel f h hv) as [[pre tick]| | | |] eqn:Hh; try discriminate. cbn [bind] in M.
  destruct (marshal_body fuel f h pre tick v) as [body| | | |] eqn:Hb; try discriminate. cbn [bind] in M.
  destruct (marshal_compress k f pre body) as [[pre' packed]| | | |] eqn:Hc; try discriminate. cbn [bind recovered] in M.
  apply Ok_eq in M as ->. apply body_nonempty in Hb; [|exact Vf].
  assert (Pp : exists suffix, pre = (put32 (if (e_version f <? 3)%N then magicHeaderBytes else magicHeaderBytesHighBit) ++ [n2b (e_version f)])
       ++ varint (ulen suffix) ++ suffix).
  { unfold marshal_header in Hh. destruct hv as [hv|].
    - destruct (2 <=? e_version f)%N.
      + destruct (encode f h fuel hv false _ _) as [s| | | |]; try discriminate. cbn [bind] in Hh. apply Ok_pair in Hh as [-> ->].
        exists (s_by s). reflexivity.
      + apply Ok_pair in Hh as [-> ->]. exists []. reflexivity.
    - apply Ok_pair in Hh as [-> ->]. exists []. reflexivity. }
  destruct Pp as [suffix Pp].
  assert (Ls : length suffix <= length pre) by (rewrite Pp, !app_length; lia).
  assert (L1 : length pre <= length (pre' ++ packed)).
  { rewrite app_length. enough (length pre' = length pre) by lia. unfold marshal_compress in Hc.
    destruct (e_comp f) as [cm|]; [|apply Ok_pair in Hc as [-> ->]; reflexivity].
    destruct (_ || _); [|apply Ok_pair in Hc as [-> ->]; reflexivity].
    destruct (compress k cm body) as [z| | | |]; try discriminate. cbn [bind] in Hc.
    match type of Hc with bind ?m _ = _ => destruct m; try discriminate end.
    apply Ok_pair in Hc as [-> ->]. apply upd_length. }
  assert (P : preamble (e_version f) 0 suffix pre).
  { rewrite Pp. apply preamble_plain; [exact Vf|]. lia. }
  assert (Ne : packed <> [] /\ exists typ, preamble (e_version f) typ suffix pre').
  { clear Lb L1. unfold marshal_compress in Hc. destruct (e_comp f) as [cm|]; [|apply Ok_pair in Hc as [-> ->]; eauto].
    destruct (_ || _); [|apply Ok_pair in Hc as [-> ->]; eauto].
    destruct (compress k cm body) as [z| | | |] eqn:Cz; try discriminate. cbn [bind] in Hc.
    match type of Hc with bind ?m _ = _ => destruct m as [typ| | | |] eqn:Et; try discriminate end.
    apply Ok_pair in Hc as [-> ->]. split; [exact (compress_nonempty _ _ _ _ Lk Ns Cz)|]. exists typ.
    apply upd_preamble; [lia| |exact P].
    destruct cm; repeat match type of Et with context [if ?c then _ else _] => destruct c end; try discriminate;
      injection Et as <-; cbv; auto. }
  destruct Ne as [Ne Pr].
  destruct Pr as [typ Pr]. destruct (preamble_starts' _ _ _ _ packed Pr) as (ln & n & r & St).
  eapply starts_looks; [exact St|]. rewrite app_length. apply preamble_length in Pr.
  destruct packed; [congruence|cbn [length]; lia].
Qed.

(** * Rejection *)
Section Reject.
Variable k : codecs.
Variable c : dconfig.

Lemma one_byte_start ln n len : vgroups ln n -> length ln = 1 -> len < 7 -> 6 <= len ->
  (0 <= bodyStart_of ln n <= Z.of_nat len)%Z -> Z.to_nat (bodyStart_of ln n) = len /\ len = 6.
Proof.
  intros G E1 L1 L2 B. destruct ln as [|x [|y ln]]; try discriminate.
  inversion G as [x' Hx|? ? ? ? G2]; [subst|inversion G2].
  assert (Es : bodyStart_of [x] (b2n x) = (6 + Z.of_N (b2n x))%Z).
  { rewrite bodyStart_spec by (cbn [length]; lia). unfold body_start. cbn [length].
    rewrite N.mod_small by lia. unfold to_int, two64, two63. rewrite Z.mod_small by lia.
    destruct (Z.ltb_spec (Z.of_N (5 + N.of_nat 1 + b2n x)) 9223372036854775808); lia. }
  rewrite Es in *. lia.
Qed.

Lemma short_rejected b ib l s : snappy_dec k [] = None -> length b < 7 ->
  exists er, fst (UnmarshalHeaderBody k c b ib TgtNone (TgtIface l) s) = Err er.
Proof.
  intros Ns Lb. unfold UnmarshalHeaderBody.
  destruct (raw_cases k c b ib TgtNone (TgtIface l) s) as [(er & E & _)|(ver & typ & ln & n & rest & dec & S & T & D & B)].
  { rewrite E. cbn. eauto. }
  rewrite (raw_good k c _ _ _ _ _ _ _ _ _ _ _ S D B).
  destruct (starts_length _ _ _ _ _ _ S) as [E10 L10].
  assert (E1 : length ln = 1) by lia.
  assert (Ebs : Z.to_nat (bodyStart_of ln n) = length b /\ length b = 6).
  { destruct S as (_ & _ & vt & _ & _ & G & _). apply (one_byte_start ln n (length b)); auto. lia. }
  destruct Ebs as [Ebs L6]. rewrite Ebs.
  unfold unmarshal_header. cbn [target_nil orb]. unfold mbind at 1, ret at 1. rewrite body_unfold.
  unfold unpacked. rewrite L6.
  destruct dec as [dk|].
  - rewrite (slice_from_le b 6) by lia. rewrite (skipn_all2 b) by lia.
    unfold mbind, lift.
    assert (X : exists er, decompress k dk [] = Err er).
    { destruct dk as [[]| |]; cbn; eauto. rewrite Ns. cbn. eauto. }
    destruct X as [er ->]. cbn. eauto.
  - unfold mbind at 1, ret at 1. unfold body_run.
    destruct (h_version (header_of ver typ ln n) =? 1)%N.
    + unfold run_decode, decode_fuel. rewrite L6. cbn [Nat.mul Nat.add decode]. unfold decode_body at 1.
      rewrite L6. cbn. eauto.
    + cbn [Nat.eqb Nat.sub]. rewrite (slice_from_le b 5) by lia.
      assert (L1 : length (skipn 5 b) = 1) by (rewrite skipn_length; lia).
      unfold run_decode, decode_fuel. rewrite L1. cbn [Nat.mul Nat.add decode]. unfold decode_body at 1.
      rewrite L1. cbn. eauto.
Qed.

Theorem unlike_rejected b ib l s : snappy_dec k [] = None -> LooksLikeSereal b = false ->
  exists er, fst (UnmarshalHeaderBody k c b ib TgtNone (TgtIface l) s) = Err er.
Proof.
  intros Ns. unfold LooksLikeSereal. destruct (Nat.ltb_spec (length b) 7); [intros; now apply short_rejected|].
  intros Lk. unfold UnmarshalHeaderBody.
  destruct (raw_cases k c b ib TgtNone (TgtIface l) s) as [(er & E & _)|(ver & typ & ln & n & rest & dec & S & _)].
  { rewrite E. cbn. eauto. }
  pose proof (checkHeader_starts _ _ _ _ _ _ S) as C. unfold checkHeader in C.
  destruct (readHeader b); discriminate.
Qed.

Theorem accepted_iff b ib s : (Z.of_nat (length b) < two63)%Z ->
  (fst (UnmarshalHeaderBody k c b ib TgtNone TgtNone s) = Ok tt <-> acceptable b).
Proof.
  intros Lb. unfold UnmarshalHeaderBody.
  destruct (raw_cases k c b ib TgtNone TgtNone s) as [(er & E & Na)|(ver & typ & ln & n & rest & dec & S & T & D & B)].
  - rewrite E. cbn. split; [discriminate|]. intros A. now apply Na in A.
  - rewrite (raw_good k c _ _ _ _ _ _ _ _ _ _ _ S D B). cbn. split; [|reflexivity]. intros _.
    exists ver, typ, ln, n, rest. split; [exact S|]. split; [exact T|].
    apply bodyStart_ok; auto; [destruct (starts_length _ _ _ _ _ _ S); lia|]. lia.
Qed.

Theorem unacceptable_rejected b ib vh vb s : (Z.of_nat (length b) < two63)%Z -> ~ acceptable b ->
  exists er, fst (UnmarshalHeaderBody k c b ib vh vb s) = Err er.
Proof.
  intros Lb Na. unfold UnmarshalHeaderBody.
  destruct (raw_cases k c b ib vh vb s) as [(er & E & _)|(ver & typ & ln & n & rest & dec & S & T & D & B)].
  - rewrite E. cbn. eauto.
  - contradiction Na. exists ver, typ, ln, n, rest. split; [exact S|]. split; [exact T|].
    apply bodyStart_ok; auto; [destruct (starts_length _ _ _ _ _ _ S); lia|]. lia.
Qed.

Theorem utf8_rejected x y t ib vh vb s :
  fst (UnmarshalHeaderBody k c (utf8_magic ++ x :: y :: t) ib vh vb s) = Err EBadHeaderUTF8.
Proof. reflexivity. Qed.
End Reject.
