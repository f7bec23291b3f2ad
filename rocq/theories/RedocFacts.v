(** Lemmas about slices and DecompressDocument. *)
From Verif Require Import Base BaseFacts Varint SpecVarint VarintFacts Tags GoMem Codecs Encode Compress Header Decode
  Document Spec SpecDoc SpecHeader GoSlice Redocument HeaderFacts.
From Coq Require Import ZifyBool ZifyNat ZifyN.
Ltac Zify.zify_post_hook ::= Z.div_mod_to_equations.

(** * Overwriting *)
Lemma overwrite_length a i d : i + length d <= length a -> length (overwrite a i d) = length a.
Proof. intros L. unfold overwrite. rewrite !app_length, firstn_length, skipn_length. lia. Qed.

Lemma overwrite_read a i d : i <= length a -> firstn (length d) (skipn i (overwrite a i d)) = d.
Proof.
  intros L. unfold overwrite. rewrite skipn_app, firstn_length, skipn_all2 by (rewrite firstn_length; lia).
  replace (i - Nat.min i (length a)) with 0 by lia. cbn [skipn app].
  rewrite firstn_app, Nat.sub_diag, firstn_all. cbn. apply app_nil_r.
Qed.

Lemma overwrite_nil a i : overwrite a i [] = a.
Proof. unfold overwrite. cbn. rewrite Nat.add_0_r. apply firstn_skipn. Qed.

Lemma overwrite_join a i p d : i + length p + length d <= length a ->
  overwrite (overwrite a (i + length p) d) i p = overwrite a i (p ++ d).
Proof.
  intros L. unfold overwrite. rewrite firstn_app, firstn_firstn, firstn_length.
  replace (Nat.min i (i + length p)) with i by lia.
  replace (i - Nat.min (i + length p) (length a)) with 0 by lia. cbn [firstn]. rewrite app_nil_r.
  rewrite skipn_app, firstn_length. rewrite skipn_all2 by (rewrite firstn_length; lia).
  replace (i + length p - Nat.min (i + length p) (length a)) with 0 by lia. cbn [skipn app].
  rewrite app_length. replace (i + length p + length d) with (i + (length p + length d)) by lia.
  now rewrite <- app_assoc.
Qed.

(** the other order: first the front, then what follows *)
Lemma overwrite_then a i p d : i + length p + length d <= length a ->
  overwrite (overwrite a i p) (i + length p) d = overwrite a i (p ++ d).
Proof.
  intros L.
  assert (F : firstn (i + length p) (overwrite a i p) = firstn i a ++ p).
  { unfold overwrite. rewrite app_assoc, firstn_app, !app_length, firstn_length.
    rewrite firstn_all2 by (rewrite app_length, firstn_length; lia).
    replace (i + length p - (Nat.min i (length a) + length p)) with 0 by lia. cbn. apply app_nil_r. }
  assert (S : skipn (i + length p + length d) (overwrite a i p) = skipn (i + length p + length d) a).
  { unfold overwrite. rewrite app_assoc, skipn_app, !app_length, firstn_length.
    rewrite (skipn_all2 (firstn i a ++ p)) by (rewrite app_length, firstn_length; lia). cbn [app].
    rewrite skipn_skipn_add. f_equal. lia. }
  set (o := overwrite a i p) in *. unfold overwrite. rewrite F, S, app_length.
  replace (i + length p + length d) with (i + (length p + length d)) by lia. now rewrite <- !app_assoc.
Qed.

Lemma array_upd_same (m : arrays) a x : a < length m -> array (upd m a x) a = x.
Proof. intros L. unfold array. erewrite nth_error_nth; [reflexivity|]. now apply nth_error_upd_same. Qed.
Lemma array_upd_other (m : arrays) a b x : a <> b -> array (upd m a x) b = array m b.
Proof.
  intros N. unfold array. destruct (nth_error m b) as [y|] eqn:E.
  - rewrite (nth_error_nth m b [] E). apply nth_error_nth. now rewrite nth_error_upd_other.
  - apply nth_error_None in E. rewrite !nth_overflow; auto. now rewrite upd_length.
Qed.
Lemma array_app (m : arrays) x a : a < length m -> array (m ++ x) a = array m a.
Proof. intros L. unfold array. now rewrite app_nth1. Qed.
Lemma array_new (m : arrays) x : array (m ++ [x]) (length m) = x.
Proof. unfold array. rewrite app_nth2, Nat.sub_diag by lia. reflexivity. Qed.
Lemma upd_array (m : arrays) i : upd m i (array m i) = m.
Proof.
  unfold array. revert i. induction m as [|x m IH]; intros [|i]; cbn; auto. now rewrite IH.
Qed.

Lemma array_long (m : arrays) a : 0 < length (array m a) -> a < length m.
Proof.
  intros L. destruct (Nat.lt_ge_cases a (length m)) as [|G]; [assumption|].
  unfold array in L. rewrite nth_overflow in L by exact G. cbn in L. lia.
Qed.

Lemma skipn_upd {A} (l : list A) i j x : skipn i (upd l (i + j) x) = upd (skipn i l) j x.
Proof. revert l. induction i as [|i IH]; intros [|y l]; cbn; auto. Qed.
Lemma firstn_upd {A} (l : list A) n j x : firstn n (upd l j x) = upd (firstn n l) j x.
Proof.
  revert l j. induction n as [|n IH]; intros [|y l] [|j]; cbn; try reflexivity. now rewrite IH.
Qed.
Lemma upd_app_l {A} (l r : list A) i x : i < length l -> upd (l ++ r) i x = upd l i x ++ r.
Proof. revert i. induction l as [|y l IH]; intros [|i] L; cbn in *; try lia; [reflexivity|]. now rewrite IH by lia. Qed.

(** the elements of a slice of known array *)
Lemma contents_at m a off n cap x : off <= length (array m a) ->
  contents (upd m a (overwrite (array m a) off x)) (mkSlice a off n cap) =
  firstn n (x ++ skipn (off + length x) (array m a)) \/ length m <= a.
Proof.
  intros L. destruct (Nat.lt_ge_cases a (length m)) as [La|G]; [left|now right].
  unfold contents. cbn [sl_len sl_off sl_arr]. rewrite array_upd_same by exact La.
  unfold overwrite. rewrite skipn_app, firstn_length, (skipn_all2 (firstn off (array m a))) by (rewrite firstn_length; lia).
  replace (off - Nat.min off (length (array m a))) with 0 by lia. reflexivity.
Qed.

(** * DecompressDocument *)
(** the document with its type nibble cleared *)
Definition untyped (l : bytes) : bytes := upd l 4 (n2b (N.land (b2n (nth 4 l x00)) 15)).

Lemma untyped_length l : length (untyped l) = length l.
Proof. apply upd_length. Qed.

Lemma clear_contents m s m' : slice_ok m s -> clear_type m s = Ok m' ->
  contents m' s = untyped (contents m s) /\ 4 < sl_len s.
Proof.
  intros [L1 L2]. unfold clear_type. destruct (Nat.ltb_spec 4 (sl_len s)) as [L|]; [|discriminate].
  intros [= <-]. split; [|exact L]. destruct L2 as [L2|L2]; [lia|].
  set (a := array m (sl_arr s)) in *.
  assert (La : sl_arr s < length m) by (apply array_long; fold a; lia).
  unfold contents at 1. rewrite array_upd_same by exact La. rewrite skipn_upd, firstn_upd.
  unfold contents, untyped. fold a. f_equal. f_equal. f_equal. f_equal.
  rewrite <- (firstn_skipn (sl_off s) a) at 1. rewrite app_nth2 by (rewrite firstn_length; lia).
  rewrite firstn_length. replace (sl_off s + 4 - Nat.min (sl_off s) (length a)) with 4 by lia.
  rewrite <- (firstn_skipn (sl_len s) (skipn (sl_off s) a)) at 1.
  rewrite app_nth1; [reflexivity|]. rewrite firstn_length, skipn_length. lia.
Qed.

Lemma contents_length m s : slice_ok m s -> length (contents m s) = sl_len s.
Proof.
  intros [L1 [L2|L2]]; unfold contents; rewrite firstn_length, skipn_length; lia.
Qed.

Lemma put_in_contents m into d : slice_ok m into -> length d <= sl_cap into ->
  let '(s, m') := put_in m into d in
  contents m' s = d /\ sl_len s = length d /\ slice_ok m' s /\ length m' = length m.
Proof.
  intros [L1 L2] Ld. unfold put_in. cbn. rewrite upd_length.
  destruct d as [|x d].
  { rewrite overwrite_nil, upd_array. cbn. repeat split; auto; cbn; lia. }
  assert (L3 : sl_off into + sl_cap into <= length (array m (sl_arr into))) by (destruct L2; [cbn in Ld; lia|auto]).
  assert (La : sl_arr into < length m) by (apply array_long; cbn in Ld; lia).
  unfold contents, slice_ok. cbn [sl_len sl_off sl_arr sl_cap]. rewrite array_upd_same by exact La.
  rewrite overwrite_length by lia. rewrite overwrite_read by lia. repeat split; auto. 
Qed.

Lemma make_with_contents m d cap : let '(s, m') := make_with m d cap in
  contents m' s = d /\ sl_len s = length d /\ slice_ok m' s /\ sl_arr s = length m /\
  length m' = S (length m) /\ sl_off s = 0 /\ sl_cap s = Nat.max (length d) cap /\ (forall a, a < length m -> array m' a = array m a).
Proof.
  unfold make_with, contents, slice_ok. cbn [sl_len sl_off sl_arr sl_cap]. rewrite array_new, !app_length, repeat_length.
  cbn [skipn]. rewrite firstn_app, Nat.sub_diag, firstn_all. cbn [firstn length]. rewrite app_nil_r.
  repeat split; try lia. intros a La. now apply array_app.
Qed.

Section Redoc.
Variable k : codecs.
Variable p : placing.

(** where the decompressed body is *)
Definition placed (m m' : arrays) (dst : slice) (bs : nat) (body : slice) (d : bytes) : Prop :=
  contents m' body = d /\ sl_len body = length d /\ slice_ok m' body /\
  ((sl_arr body = length m /\ sl_cap body >= length d /\ length m' = S (length m) /\ sl_off body = 0 /\
    forall a, a < length m -> array m' a = array m a) \/
   (sl_cap body = 0 /\ m' = m /\ d = []) \/
   (length m' = length m /\ sl_arr body = sl_arr dst /\ sl_off body = sl_off dst + bs /\
    sl_cap body = sl_cap dst - bs /\ length d <= sl_cap body /\ bs <= sl_len dst /\ 0 < sl_cap body /\
    m' = upd m (sl_arr dst) (overwrite (array m (sl_arr dst)) (sl_off dst + bs) d))).

Lemma decompress_placed dk m dst into bs z len body m' : slice_ok m dst ->
  (if Nat.leb len (sl_len dst) then reslice dst bs (sl_len dst) else Some nil_slice) = Some into ->
  decompress_into k p dk m into z = Ok (body, m') ->
  exists d, decompress k dk z = Ok d /\ placed m m' dst bs body d.
Proof.
  intros [D1 D2] Hi. unfold decompress_into. destruct (decompress k dk z) as [d|e|e| |]; try discriminate.
  cbn [bind]. intros H. exists d. split; [reflexivity|]. apply (f_equal (fun r => match r with Ok x => x | _ => (nil_slice, []) end)) in H.
  assert (Hm : forall cap, make_with m d cap = (body, m') -> placed m m' dst bs body d).
  { intros cap E. pose proof (make_with_contents m d cap) as M. rewrite E in M.
    destruct M as (M1 & M2 & M3 & M4 & M5 & M6 & M7 & M8). repeat split; auto; try apply M3. left. repeat split; auto; lia. }
  assert (Hp : length d <= sl_cap into -> put_in m into d = (body, m') -> placed m m' dst bs body d).
  { intros Ld E.
    assert (Io : slice_ok m into).
    { destruct (Nat.leb len (sl_len dst)).
      - unfold reslice in Hi. destruct (Nat.leb_spec bs (sl_len dst)); [|discriminate].
        destruct (Nat.leb_spec (sl_len dst) (sl_cap dst)); [|discriminate]. cbn in Hi. injection Hi as <-.
        split; cbn; [lia|]. destruct D2; [left; lia|right; lia].
      - injection Hi as <-. split; cbn; auto. }
    pose proof (put_in_contents m into d Io Ld) as P. rewrite E in P. destruct P as (P1 & P2 & P3 & P4).
    unfold put_in in E. injection E as <- <-. repeat split; auto; try apply P3.
    right. destruct (Nat.eq_dec (sl_cap into) 0) as [C0|C0].
    - left. cbn [sl_cap]. destruct d as [|x d]; [|cbn in Ld; lia]. rewrite overwrite_nil, upd_array. auto.
    - right. destruct (Nat.leb len (sl_len dst)); [|injection Hi as <-; cbn in C0; lia].
      unfold reslice in Hi. destruct (Nat.leb_spec bs (sl_len dst)); [|discriminate].
      destruct (Nat.leb_spec (sl_len dst) (sl_cap dst)); [|discriminate]. cbn in Hi. injection Hi as <-.
      cbn in *. repeat split; auto; lia. }
  destruct dk as [inc| |].
  - destruct (Nat.leb_spec (length d) (sl_len into)) as [Ld|Ld].
    + apply Hp; [|exact H]. assert (sl_len into <= sl_cap into); [|lia].
      destruct (Nat.leb len (sl_len dst)); [|injection Hi as <-; cbn; lia].
      unfold reslice in Hi. destruct (Nat.leb_spec bs (sl_len dst)); [|discriminate].
      destruct (Nat.leb_spec (sl_len dst) (sl_cap dst)); [|discriminate]. cbn in Hi. injection Hi as <-. cbn. lia.
    + eapply Hm. exact H.
  - eapply Hm. exact H.
  - destruct (Nat.leb_spec (length d) (sl_cap into)) as [Ld|Ld]; cbn [andb] in H.
    + destruct (zstd_in_place p d (sl_cap into)); [now apply Hp|eapply Hm; exact H].
    + eapply Hm. exact H.
Qed.


Lemma append_in_place grow m s d : sl_len s + length d <= sl_cap s ->
  append_slice grow m s d = (mkSlice (sl_arr s) (sl_off s) (sl_len s + length d) (sl_cap s),
    upd m (sl_arr s) (overwrite (array m (sl_arr s)) (sl_off s + sl_len s) d)).
Proof. intros L. unfold append_slice. destruct (Nat.leb_spec (sl_len s + length d) (sl_cap s)); [reflexivity|lia]. Qed.

Lemma append_contents grow m s d : slice_ok m s ->
  let '(s', m') := append_slice grow m s d in contents m' s' = contents m s ++ d.
Proof.
  intros [L1 L2]. unfold append_slice. destruct (Nat.leb_spec (sl_len s + length d) (sl_cap s)) as [L|L].
  2:{ apply (make_with_contents m (contents m s ++ d) (grow (sl_len s + length d))). }
  destruct d as [|x d'].
  { rewrite overwrite_nil, upd_array, app_nil_r. unfold contents. cbn. now rewrite Nat.add_0_r. }
  set (d := x :: d') in *. assert (Ld : 0 < length d) by (cbn; lia). destruct L2 as [L2|L2]; [lia|].
  assert (La : sl_arr s < length m) by (apply array_long; lia).
  unfold contents. cbn [sl_len sl_off sl_arr]. rewrite array_upd_same by exact La.
  set (a := array m (sl_arr s)) in *. clearbody a d. unfold overwrite.
  assert (E1 : firstn (sl_off s + sl_len s) a = firstn (sl_off s) a ++ firstn (sl_len s) (skipn (sl_off s) a)).
  { rewrite firstn_skipn_comm. rewrite <- (firstn_skipn (sl_off s) (firstn (sl_off s + sl_len s) a)) at 1.
    now rewrite firstn_firstn, Nat.min_l by lia. }
  rewrite E1, <- app_assoc, skipn_app, firstn_length, skipn_all2 by (rewrite firstn_length; lia).
  replace (sl_off s - Nat.min (sl_off s) (length a)) with 0 by lia. cbn [skipn app].
  set (cs := firstn (sl_len s) (skipn (sl_off s) a)).
  assert (Lc : length cs = sl_len s) by (unfold cs; rewrite firstn_length, skipn_length; lia).
  rewrite <- Lc. rewrite firstn_app_2. f_equal. rewrite firstn_app, Nat.sub_diag, firstn_all. cbn. apply app_nil_r.
Qed.

Lemma redoc_start m dst b ver typ ln n rest dec : starts b ver typ ln n rest ->
  documentDecompressor ver typ = Ok dec ->
  (0 <= bodyStart_of ln n <= Z.of_nat (length b))%Z ->
  let bs := Z.to_nat (bodyStart_of ln n) in
  DecompressDocument k p m dst b =
  match dec with
  | None => Ok (append_slice (p_grow p) m (mkSlice (sl_arr dst) (sl_off dst) 0 (sl_cap dst)) b)
  | Some dk =>
      match (if Nat.leb (length b) (sl_len dst) then reslice dst bs (sl_len dst) else Some nil_slice),
            slice_from b bs with
      | Some into, Some z =>
          bind (decompress_into k p dk m into z) (fun '(body, m) =>
          bind (if Nat.ltb 0 (sl_len dst) then hasSameBuffer body dst else Ok false) (fun same =>
          bind (if same then
                  match reslice dst 0 bs, reslice dst 0 (bs + sl_len body) with
                  | Some pre, Some out => Ok (out, copy_into m pre (firstn bs b))
                  | _, _ => Crash
                  end
                else
                  let '(s, m) := make_with m [] (bs + sl_len body) in
                  let '(s, m) := append_slice (p_grow p) m s (firstn bs b) in
                  Ok (append_slice (p_grow p) m s (contents m body)))
               (fun '(out, m) =>
          bind (clear_type m out) (fun m => Ok (out, m)))))
      | _, _ => Crash
      end
  end.
Proof.
  intros S D B bs. unfold DecompressDocument. rewrite (checkHeader_starts _ _ _ _ _ _ S).
  cbn [bind header_of h_version h_doctype h_suffixSize]. rewrite D. cbn [bind].
  change (wrap64 (Z.of_nat headerSize + wrap64 (to_int n + Z.of_nat (length ln)))) with (bodyStart_of ln n).
  destruct ((Z.of_nat (length b) <? bodyStart_of ln n) || (bodyStart_of ln n <? 0))%Z eqn:C; [lia|]. reflexivity.
Qed.

Lemma redoc_raw m dst b ver ln n rest : slice_ok m dst -> starts b ver 0 ln n rest ->
  (0 <= bodyStart_of ln n <= Z.of_nat (length b))%Z ->
  exists out m', DecompressDocument k p m dst b = Ok (out, m') /\ contents m' out = b.
Proof.
  intros [L1 L2] S B. assert (D : documentDecompressor ver 0 = Ok None) by (now apply decompressor_raw).
  rewrite (redoc_start m dst b ver 0 ln n rest None S D B).
  pose proof (append_contents (p_grow p) m (mkSlice (sl_arr dst) (sl_off dst) 0 (sl_cap dst)) b) as A.
  destruct (append_slice _ _ _ _) as [out m']. exists out, m'. split; [reflexivity|].
  rewrite A; [reflexivity|]. split; cbn; [lia|exact L2].
Qed.

(** everything that can happen with a compressed document *)
Lemma redoc_packed m dst b ver typ ln n rest dk : slice_ok m dst -> starts b ver typ ln n rest ->
  documentDecompressor ver typ = Ok (Some dk) ->
  (0 <= bodyStart_of ln n <= Z.of_nat (length b))%Z ->
  let bs := Z.to_nat (bodyStart_of ln n) in 5 <= bs ->
  match decompress k dk (skipn bs b) with
  | Ok d => (exists out m', DecompressDocument k p m dst b = Ok (out, m') /\
               contents m' out = untyped (firstn bs b) ++ d) \/
            (d = [] /\ 0 < sl_len dst /\ DecompressDocument k p m dst b = Crash)
  | Err e => DecompressDocument k p m dst b = Err e
  | Panic e => DecompressDocument k p m dst b = Panic e
  | Crash => DecompressDocument k p m dst b = Crash
  | NoFuel => DecompressDocument k p m dst b = NoFuel
  end.
Proof.
  intros Hd S D B bs Hbs. pose proof (redoc_start m dst b ver typ ln n rest _ S D B) as Hst. cbv zeta in Hst.
  rewrite Hst. clear Hst. fold bs.
  assert (Lbs : bs <= length b) by lia.
  assert (I : exists into, (if Nat.leb (length b) (sl_len dst) then reslice dst bs (sl_len dst) else Some nil_slice) = Some into).
  { destruct (Nat.leb_spec (length b) (sl_len dst)); [|eauto]. destruct Hd as [L1 _]. unfold reslice.
    destruct (Nat.leb_spec bs (sl_len dst)); [|lia]. destruct (Nat.leb_spec (sl_len dst) (sl_cap dst)); [|lia]. cbn. eauto. }
  destruct I as [into Hi]. rewrite Hi. unfold slice_from. destruct (Nat.leb_spec bs (length b)); [|lia].
  destruct (decompress_into k p dk m into (skipn bs b)) as [[body m1]|e|e| |] eqn:Dz;
    try (unfold decompress_into in Dz; destruct (decompress k dk (skipn bs b)); try discriminate;
         cbn [bind] in Dz |- *; congruence).
  destruct (decompress_placed dk m dst into bs (skipn bs b) (length b) body m1 Hd Hi Dz) as (d & Dd & P1 & P2 & P3 & P4).
  rewrite Dd. cbn [bind].
  assert (Lpre : length (firstn bs b) = bs) by (rewrite firstn_length; lia).
  (* a body elsewhere *)
  assert (New : exists out m', bind (let '(s, m2) := make_with m1 [] (bs + sl_len body) in
                  let '(s, m2) := append_slice (p_grow p) m2 s (firstn bs b) in
                  Ok (append_slice (p_grow p) m2 s (contents m2 body)))
               (fun '(out, m2) => bind (clear_type m2 out) (fun m2 => Ok (out, m2))) = Ok (out, m') /\
               contents m' out = untyped (firstn bs b) ++ d).
  { cbn [make_with length app Nat.add Nat.sub].
    set (N0 := bs + sl_len body) in *. replace (N0 - 0) with N0 by lia.
    rewrite append_in_place by (cbn [sl_len sl_cap]; rewrite Lpre; unfold N0; lia).
    cbn [sl_len sl_cap sl_arr sl_off]. rewrite !Nat.add_0_l, Lpre.
    set (m2 := upd (m1 ++ [repeat x00 N0]) (length m1) _).
    assert (A2 : array m2 (length m1) = overwrite (repeat x00 N0) 0 (firstn bs b)).
    { unfold m2. rewrite array_upd_same by (rewrite app_length; cbn; lia). now rewrite array_new. }
    assert (Ec : contents m2 body = d).
    { rewrite <- P1. unfold contents. destruct (Nat.eq_dec (sl_len body) 0) as [->|Nz]; [reflexivity|].
      f_equal. f_equal. unfold m2. destruct P3 as [P3 [P3'|P3']]; [lia|].
      rewrite array_upd_other by (assert (sl_arr body < length m1) by (apply array_long; lia); lia).
      apply array_app. apply array_long. lia. }
    rewrite Ec. rewrite append_in_place by (cbn [sl_len sl_cap]; unfold N0; lia).
    cbn [sl_len sl_cap sl_arr sl_off]. rewrite A2. rewrite Nat.add_0_l.
    pose proof (overwrite_then (repeat x00 N0) 0 (firstn bs b) d) as Ow. cbn [Nat.add] in Ow. rewrite Lpre in Ow.
    rewrite Ow by (rewrite repeat_length; unfold N0; lia). clear Ow.
    set (m3 := upd m2 (length m1) _). set (out := mkSlice _ _ _ _).
    assert (L3 : length m1 < length m2) by (unfold m2; rewrite upd_length, app_length; cbn; lia).
    assert (A3 : array m3 (length m1) = firstn bs b ++ d).
    { unfold m3. rewrite array_upd_same by exact L3. unfold overwrite. cbn [firstn app]. rewrite skipn_all2; [apply app_nil_r|].
      rewrite repeat_length, app_length, Lpre. unfold N0. lia. }
    assert (Oo : slice_ok m3 out).
    { unfold out. split; cbn [sl_len sl_cap sl_off sl_arr]; [unfold N0; lia|]. right. rewrite A3, app_length, Lpre. unfold N0; lia. }
    cbn [bind]. destruct (clear_type m3 out) as [m4|e|e| |] eqn:Cl;
      try (unfold clear_type in Cl; cbn [sl_len out] in Cl; destruct (Nat.ltb_spec 4 (bs + length d)); [discriminate|lia]).
    cbn [bind]. exists out, m4. split; [reflexivity|].
    destruct (clear_contents _ _ _ Oo Cl) as [-> _]. unfold contents, out. cbn [sl_len sl_off sl_arr skipn]. rewrite A3.
    rewrite firstn_all2 by (rewrite app_length; lia).
    unfold untyped. rewrite app_nth1 by lia. now rewrite upd_app_l by lia. }
  destruct (Nat.ltb_spec 0 (sl_len dst)) as [Ln|Ln].
  2:{ left. cbn [bind]. exact New. }
  destruct Hd as [Hd1 Hd2]. assert (Hd3 : sl_off dst + sl_cap dst <= length (array m (sl_arr dst))) by (destruct Hd2; [lia|auto]).
  assert (La : sl_arr dst < length m) by (apply array_long; lia).
  destruct P4 as [(Q1 & Q2 & Q3 & Q4 & Q5)|[(Q1 & _ & Q3)|(Q1 & Q2 & Q3 & Q4 & Q5 & Q6 & Q7 & Q8)]].
  - unfold hasSameBuffer.
    destruct (Nat.eqb_spec (sl_cap body) 0) as [C0|C0]; cbn [orb].
    { right. split; [destruct d; [reflexivity|cbn in Q2; lia]|]. split; [exact Ln|reflexivity]. }
    destruct (Nat.eqb_spec (sl_cap dst) 0); [lia|]. cbn [bind].
    destruct (Nat.eqb_spec (sl_arr body) (sl_arr dst)); [lia|]. cbn [andb]. left. exact New.
  - right. unfold hasSameBuffer. rewrite Q1. auto.
  - left. unfold hasSameBuffer. destruct (Nat.eqb_spec (sl_cap body) 0); [lia|]. destruct (Nat.eqb_spec (sl_cap dst) 0); [lia|].
    cbn [orb bind]. rewrite Q2, Nat.eqb_refl. destruct (Nat.eqb_spec (sl_off body + sl_cap body - 1) (sl_off dst + sl_cap dst - 1)); [|lia].
    cbn [andb]. unfold reslice. cbn [Nat.leb]. destruct (Nat.leb_spec bs (sl_cap dst)); [|lia].
    destruct (Nat.leb_spec (bs + sl_len body) (sl_cap dst)); [|lia]. cbn [andb bind].
    rewrite Nat.add_0_r, !Nat.sub_0_r. unfold copy_into. cbn [sl_arr sl_off sl_len].
    rewrite (firstn_all2 (firstn bs b)) by lia.
    set (a := array m (sl_arr dst)) in *. subst m1. rewrite array_upd_same by exact La.
    pose proof (overwrite_join a (sl_off dst) (firstn bs b) d) as Ow. rewrite Lpre in Ow. rewrite Ow by lia. clear Ow.
    set (m2 := upd _ _ (overwrite a (sl_off dst) (firstn bs b ++ d))). set (out := mkSlice _ _ _ _).
    assert (A2 : array m2 (sl_arr dst) = overwrite a (sl_off dst) (firstn bs b ++ d)).
    { unfold m2. apply array_upd_same. now rewrite upd_length. }
    assert (Oo : slice_ok m2 out).
    { unfold out. split; cbn [sl_len sl_cap sl_off sl_arr]; [lia|]. right. rewrite A2, overwrite_length; [exact Hd3|].
      rewrite app_length, Lpre. lia. }
    destruct (clear_type m2 out) as [m4|er|er| |] eqn:Cl;
      try (unfold clear_type in Cl; cbn [sl_len out] in Cl; destruct (Nat.ltb_spec 4 (bs + sl_len body)); [discriminate|lia]).
    cbn [bind]. exists out, m4. split; [reflexivity|].
    destruct (clear_contents _ _ _ Oo Cl) as [-> _]. unfold contents, out. cbn [sl_len sl_off sl_arr]. rewrite A2.
    replace (bs + sl_len body) with (length (firstn bs b ++ d)) by (rewrite app_length; lia).
    rewrite overwrite_read by lia.
    unfold untyped. rewrite app_nth1 by lia. now rewrite upd_app_l by lia.
Qed.
End Redoc.
