(** A map keyed by JSON numbers is written as the map keyed by their texts. *)
From Verif Require Import Base GoMem Encode Document SpecKeys.

Section Keys.
Variable h : heap.
Let h' := with_text_keys h.
Definition tk (e : gval * gval) : gval * gval := (text_key (fst e), snd e).

Lemma nth_keys l : nth_error h' l = option_map
  (fun x => match x with CTMap m => CTMap (map tk m) | x => x end) (nth_error h l).
Proof. unfold h', with_text_keys. rewrite nth_error_map. reflexivity. Qed.
Lemma hget_keys l : hget h' l = hget h l.
Proof. unfold hget. rewrite nth_keys. destruct (nth_error h l) as [[]|]; reflexivity. Qed.
Lemma hmap_keys l : hmap h' l = hmap h l.
Proof. unfold hmap. rewrite nth_keys. destruct (nth_error h l) as [[]|]; reflexivity. Qed.
Lemma hview_keys w : hview h' w = hview h w.
Proof. unfold hview, hbuf. rewrite nth_keys. destruct (nth_error h (vloc w)) as [[]|]; reflexivity. Qed.
Lemma htmap_keys l : htmap h' l = map tk (htmap h l).
Proof. unfold htmap. rewrite nth_keys. destruct (nth_error h l) as [[]|]; reflexivity. Qed.

Variable e : econfig.
Hypothesis Pl : e_perl e = true.
Hypothesis Ord : by_position e.

Lemma bind_ext {A B} (r : res A) (f g : A -> res B) : (forall a, f a = g a) -> bind r f = bind r g.
Proof. intros H. destruct r; cbn; auto. Qed.

Lemma encode_keys fuel : forall v isRef d s, encode e h' fuel v isRef d s = encode e h fuel v isRef d s.
Proof.
  induction fuel as [|f IH]; intros v isRef d s; cbn [encode]; [reflexivity|].
  assert (El : forall n b d s, enc_elems h' (encode e h' f) n b d s = enc_elems h (encode e h f) n b d s).
  { induction n as [|n IHn]; intros b d0 s0; cbn [enc_elems]; [reflexivity|]. rewrite hget_keys, IH. apply bind_ext. auto. }
  assert (Pr : forall m d s, enc_pairs e (encode e h' f) m d s = enc_pairs e (encode e h f) m d s).
  { induction m as [|[k v0] m IHm]; intros d0 s0; cbn [enc_pairs]; [reflexivity|]. rewrite IH. apply bind_ext. auto. }
  assert (Tp : forall m d s, enc_tpairs e (encode e h' f) (map tk m) d s = enc_tpairs e (encode e h f) m d s).
  { induction m as [|[k v0] m IHm]; intros d0 s0; cbn [enc_tpairs map tk fst snd]; [reflexivity|]. rewrite Pl.
    replace (key_string (text_key k)) with (key_string k) by (destruct k; reflexivity). cbn [bind].
    rewrite IH. apply bind_ext. auto. }
  assert (Fd : forall tags fs b d s, enc_fields e h' (encode e h' f) fs b tags d s = enc_fields e h (encode e h f) fs b tags d s).
  { induction tags as [|[k i] tags IHt]; intros fs b d0 s0; cbn [enc_fields]; [reflexivity|].
    destruct (nth_error fs i) as [fd|]; [|reflexivity]. destruct (f_exported fd); [|reflexivity]. rewrite hget_keys, IH. apply bind_ext. auto. }
  destruct v; cbn [encode_body]; rewrite ?hview_keys; try reflexivity.
  - unfold encodeArray. destruct (_ <=? _)%Z; auto.
  - unfold encodeStrMap. rewrite hmap_keys. destruct (_ <=? _)%Z; auto.
  - unfold encodePointer. rewrite hget_keys. destruct (_ <=? _)%Z; [reflexivity|]. destruct (match hget h l with GRegexpV _ _ => _ | _ => _ end); [apply IH|].
    apply bind_ext. intros a. destruct (match pget _ _ with Some o => Some o | None => _ end); [reflexivity|]. now rewrite IH.
  - unfold encodePerlPointer. destruct (_ <=? _)%Z; auto.
  - apply IH.
  - unfold encodePerlPointer. rewrite hget_keys. destruct (_ <=? _)%Z; auto.
  - apply IH.
  - unfold encodePerlPointer. rewrite hget_keys. destruct (_ <=? _)%Z; auto.
  - unfold encodeFreezeStruct. destruct (_ <=? _)%Z; auto.
  - destruct (e_nofreeze e); auto.
  - unfold encodeArray. destruct (_ <=? _)%Z; auto.
  - unfold encodeMap. rewrite htmap_keys. destruct (_ <=? _)%Z; [reflexivity|]. rewrite Ord, Tp. unfold ulen. now rewrite map_length.
  - unfold encodeStruct. destruct (_ <=? _)%Z; auto.
Qed.
End Keys.

Theorem marshal_keys k fuel e h hv v : e_perl e = true -> by_position e ->
  MarshalWithHeader k fuel e (with_text_keys h) hv v = MarshalWithHeader k fuel e h hv v.
Proof.
  intros Pl Ord. unfold MarshalWithHeader.
  assert (Pl' : e_perl (fix_version e) = true) by (unfold fix_version; destruct (_ =? _)%N; exact Pl).
  assert (Ord' : by_position (fix_version e)) by (unfold fix_version; destruct (_ =? _)%N; exact Ord).
  set (e' := fix_version e) in *. f_equal.
  replace (marshal_header fuel e' (with_text_keys h) hv) with (marshal_header fuel e' h hv).
  - apply bind_ext. intros [a t]. replace (marshal_body fuel e' (with_text_keys h) a t v) with (marshal_body fuel e' h a t v); [reflexivity|].
    unfold marshal_body. rewrite !encode_keys by assumption. reflexivity.
  - unfold marshal_header. destruct hv; [|reflexivity]. now rewrite encode_keys.
Qed.
