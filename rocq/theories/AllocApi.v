(** The memory a whole call asks for, and documents that ask for much. *)
From Verif Require Import Base BaseFacts SpecVarint Varint VarintFacts Tags GoMem Codecs Compress Header Decode Document
  SpecHeader SpecShape DecodeSafe HeaderFacts ShapeFacts ApiSafe ApiFacts ApiProps WireFacts AllocCost.
From Coq Require Import ZifyBool ZifyNat ZifyN.
Ltac Zify.zify_post_hook ::= Z.div_mod_to_equations.

Lemma quadratic_mono n m : n <= m -> quadratic n <= quadratic m.
Proof. intros H. unfold quadratic. nia. Qed.

Opaque quadratic.
Ltac fin := unfold pc, ret, fail; cbv beta iota; cbn [fst]; lia.

Lemma skipn_app_len {A} (a b : list A) : skipn (length a) (a ++ b) = b.
Proof. induction a; auto. Qed.

Section Api.
Variable k : codecs.
Variable c : dconfig.

Lemma cost_fresh s h t : cost (mkDState (d_heap s) t h (d_made s)) = cost s.
Proof. reflexivity. Qed.

Lemma pc_run by_ ib sh i l n s s0 x : length by_ <= n -> cost s <= cost s0 + x ->
  pc (run_decode c by_ ib sh i l ;; ret tt) (fun _ s' => cost s' <= cost s0 + x + quadratic n)
     (fun s' => cost s' <= cost s0 + x + quadratic n) s.
Proof.
  intros L C. apply pc_bind. unfold run_decode. pose proof (quadratic_mono _ _ L) as Q.
  eapply pc_mono; [apply decode_cost| |]; cbv beta; intros; fin.
Qed.

Lemma pc_header b ib h bs vh n s : length b <= n ->
  pc (unmarshal_header c b ib h bs vh) (fun _ s' => cost s' <= cost s + quadratic n)
     (fun s' => cost s' <= cost s + quadratic n) s.
Proof.
  intros L. unfold unmarshal_header. destruct (target_nil vh || (h_suffixSize h =? 1)%Z); [fin|].
  apply pc_bind. unfold pc at 1, fresh_tracked. set (s1 := mkDState _ _ _ _).
  assert (C1 : cost s1 = cost s) by reflexivity.
  destruct vh; [fin| |fin].
  destruct (nth_error b (h_suffixStart h)); [|exact I].
  destruct (N.land (b2n b0) 1 =? 1)%N; [|fin].
  eapply pc_mono; [apply (pc_run _ ib 0 _ l n s1 s 0); [rewrite firstn_length; lia|lia]| |];
    cbv beta; intros; lia.
Qed.

Lemma pc_body_part b ib h dec bs vb n s : length b <= n -> bs <= length b ->
  (forall d z, dec = Some d -> decompress k d (skipn bs b) = Ok z -> length (firstn bs b ++ z) <= n) ->
  pc (unmarshal_body k c b ib h dec bs vb) (fun _ s' => cost s' <= cost s + 1 + quadratic n)
     (fun s' => cost s' <= cost s + 1 + quadratic n) s.
Proof.
  intros L Lb Hd. unfold unmarshal_body. destruct (target_nil vb); [fin|].
  apply pc_bind.
  assert (U : pc match dec with
            | None => ret (b, ib)
            | Some dk => match slice_from b bs with
                | None => crash
                | Some z => let! d := lift (decompress k dk z) in
                            let nb := firstn bs b ++ d in let! l := alloc (CBuf nb) in ret (nb, l)
                end
            end (fun r s' => length (fst r) <= n /\ cost s' <= cost s + 1) (fun s' => s' = s) s).
  { destruct dec as [dk|]; [|fin]. rewrite slice_from_le by lia.
    apply pc_bind. unfold pc at 1, lift. destruct (decompress k dk (skipn bs b)) eqn:E; try exact I; try reflexivity.
    specialize (Hd _ _ eq_refl E). apply pc_bind. unfold pc at 1. cbn [alloc]. cbn [ret]. unfold pc. cbn [fst ret].
    split; [exact Hd|]. rewrite cost_app. cbn [length]. lia. }
  eapply pc_mono; [exact U| |intros s' ->; lia]. intros [b' ib'] s1 (L' & C1). cbn [fst] in L'.
  apply pc_bind. unfold pc at 1, fresh_tracked. set (s2 := mkDState _ _ _ _).
  assert (C2 : cost s2 = cost s1) by reflexivity.
  destruct vb; [fin| |fin].
  destruct (h_version h =? 1)%N; [apply pc_run; [exact L'|lia]|].
  destruct (Nat.eqb bs 0); [exact I|].
  destruct (slice_from b' (bs - 1)) as [y|] eqn:Y; [|exact I].
  apply pc_run; [|lia]. unfold slice_from in Y. destruct (Nat.leb _ _); [|discriminate].
  injection Y as <-. rewrite skipn_length. lia.
Qed.

Lemma pc_raw b ib vh vb n s : length b <= n -> (forall by_, opened k b by_ -> length by_ <= n) ->
  pc (unmarshal_raw k c b ib vh vb) (fun _ s' => cost s' <= cost s + 1 + 2 * quadratic n)
     (fun s' => cost s' <= cost s + 1 + 2 * quadratic n) s.
Proof.
  intros L Hn. unfold unmarshal_raw. apply pc_bind. unfold pc at 1, lift.
  destruct (checkHeader b) as [h|e|e| |] eqn:Ch; try exact I; try (cbv beta; lia).
  destruct (checkHeader_inv _ _ Ch) as (ver & typ & l & m & rest & S & ->).
  destruct (starts_length _ _ _ _ _ _ S) as [Len L10].
  cbn [header_of h_version h_doctype h_suffixSize]. apply pc_bind. unfold pc at 1.
  destruct (documentDecompressor ver typ) as [dec|e|e| |] eqn:D; try exact I; try (cbv beta; lia).
  fold (bodyStart_of l m). cbv zeta.
  destruct ((Z.of_nat (length b) <? bodyStart_of l m) || (bodyStart_of l m <? 0))%Z eqn:B; [fin|].
  set (bs := Z.to_nat (bodyStart_of l m)).
  assert (Lb : bs <= length b) by (unfold bs; lia).
  assert (Eb : bs = N.to_nat (body_start l m)) by (apply start_zero; lia).
  apply pc_bind. eapply pc_mono; [apply (pc_header b ib _ bs vh n s L)| |cbv beta; intros; lia].
  intros u s1 C1. cbv beta in C1.
  eapply pc_mono; [apply (pc_body_part b ib _ dec bs vb n s1 L Lb)| |]; [|cbv beta; intros; lia|cbv beta; intros; lia].
  intros d z -> Dz. apply Hn. exists ver, typ, l, m, rest, z. split; [exact S|]. rewrite <- Eb.
  split; [|reflexivity]. eapply unpacks_of; eauto.
Qed.

(** what a call asks for, whatever its outcome *)
Lemma call_cost dec q n : let b := match q with ReqBody b | ReqHeader b | ReqBoth b => b end in
  length b <= n -> (forall by_, opened k b by_ -> length by_ <= n) ->
  match call_raw k c dec q with
  | (Crash, _) => True
  | (_, s') => cost s' <= 4 + 2 * quadratic n
  end.
Proof.
  intros b L Hn. pose proof (call_wpc k c dec q) as W. rewrite call_raw_eq in *.
  assert (Eb : b = fst (fst (req_targets q))) by (destruct q; reflexivity).
  destruct (req_targets q) as [[b' vh] vb]. cbn [fst] in Eb. subst b'.
  pose proof (pc_raw b 0 vh vb n (ready_d b dec) L Hn) as P. unfold pc in P.
  assert (C0 : cost (ready_d b dec) = 3) by reflexivity.
  destruct (unmarshal_raw k c b 0 vh vb (ready_d b dec)) as [[u|e|e| |] s']; try exact I; try contradiction; lia.
Qed.

(** * Arrays claiming everything that is left, each inside the other *)
Definition claim (n : nat) : bytes := n2b 43 :: varint (N.of_nat n).
Definition nested (j n : nat) : bytes := concat (repeat (claim n) j) ++ repeat x36 n.

Lemma nested_asks n (Hn : 1 <= n) (Hm : (Z.of_nat n <= maxInt32)%Z) j : forall by_ pre idx ib sh fuel ptr s,
  by_ = pre ++ nested j n -> idx = length pre -> j < fuel ->
  exists e s', decode c by_ ib sh fuel idx ptr s = (Err e, s') /\
    made_sum (d_made s') = made_sum (d_made s) + j * n.
Proof.
  assert (N64 : (N.of_nat n < 18446744073709551616)%N) by (unfold maxInt32 in Hm; lia).
  induction j as [|j IH]; intros by_ pre idx ib sh fuel ptr s Eb Ei Hf; (destruct fuel as [|fuel]; [lia|]).
  - unfold nested in Eb. cbn [repeat concat app] in Eb. destruct n as [|n]; [lia|]. cbn [repeat] in Eb.
    cbn [decode]. unfold decode_body.
    assert (El : length by_ = length pre + S n) by (rewrite Eb, app_length; cbn [length]; rewrite repeat_length; lia).
    destruct (Nat.leb_spec (length by_) idx); [lia|].
    assert (Sk : skipn idx by_ = x36 :: repeat x36 n) by (rewrite Eb, Ei; apply skipn_app_len).
    rewrite Sk. cbn [skip_pads]. change (is_pad x36) with false. cbn iota.
    change (tracked_bit x36) with false. change (tag_kind (untrack x36)) with (TUnknown 54).
    cbn [decode_tag]. unfold mbind, ret, fail. exists (EUnknownTag 54), s. split; [reflexivity|lia].
  - unfold nested in Eb. cbn [repeat concat] in Eb. unfold claim in Eb at 1.
    rewrite <- app_assoc in Eb. fold (nested j n) in Eb.
    assert (Ln : n <= length (nested j n)) by (unfold nested; rewrite app_length, repeat_length; lia).
    cbn [decode]. unfold decode_body.
    assert (El : length by_ = length pre + S (length (varint (N.of_nat n)) + length (nested j n)))
      by (rewrite Eb, app_length; cbn [app length]; rewrite app_length; lia).
    destruct (Nat.leb_spec (length by_) idx); [lia|].
    assert (Sk : skipn idx by_ = n2b 43 :: varint (N.of_nat n) ++ nested j n) by (rewrite Eb, Ei; apply skipn_app_len).
    rewrite Sk. cbn [skip_pads]. change (is_pad (n2b 43)) with false. cbn iota.
    change (tracked_bit (n2b 43)) with false. change (tag_kind (untrack (n2b 43))) with TArray.
    cbn [decode_tag]. unfold mbind at 1. cbn [ret]. unfold mbind at 1.
    unfold varint_at at 1. rewrite slice_from_le by lia.
    replace (skipn (S idx) by_) with (varint (N.of_nat n) ++ nested j n)
      by (replace (S idx) with (idx + 1) by lia; rewrite <- skipn_skipn_add, Sk; reflexivity).
    rewrite (varintdecode_varint _ _ N64).
    replace (to_int (N.of_nat n)) with (Z.of_nat n)
      by (rewrite to_int_small; unfold maxInt32, two63 in *; lia).
    cbn [ret]. unfold decodeArray, blen. cbv zeta.
    replace ((Z.of_nat n <? 0) || (maxInt32 <? Z.of_nat n))%Z with false by lia.
    replace (Z.of_nat (length by_) <? Z.of_nat (S idx + length (varint (N.of_nat n))) + Z.of_nat n)%Z with false by lia.
    rewrite Nat2Z.id. unfold mbind at 1. unfold log_make at 1. unfold mbind at 1. unfold alloc_n at 1. unfold mbind at 1.
    cbn [set_var]. set (s1 := with_heap _ (upd _ _ _)).
    assert (E1 : made_sum (d_made s1) = made_sum (d_made s) + n)
      by (unfold s1, made_sum; cbn [with_heap d_made map fst]; unfold list_sum; cbn [fold_right]; lia).
    destruct n as [|n']; [lia|]. cbn [array_loop]. set (n := S n') in *.
    destruct (IH by_ (pre ++ claim n) (S idx + length (varint (N.of_nat n))) ib sh fuel (length (d_heap s)) s1)
      as (e & s' & R & E).
    { rewrite <- app_assoc. exact Eb. }
    { rewrite app_length, Ei. cbn [claim length]. lia. }
    { lia. }
    exists e, s'. cbn [d_heap]. unfold mbind. rewrite R. split; [reflexivity|]. lia.
Qed.

Definition nested_document (n : nat) : bytes := raw_document 4 (nested n n).

Lemma nested_length n : (Z.of_nat n <= maxInt32)%Z -> length (nested_document n) <= 12 * n + 6.
Proof.
  intros Hm. unfold nested_document. rewrite raw_length. unfold nested. rewrite app_length, repeat_length.
  assert (N64 : (N.of_nat n < 18446744073709551616)%N) by (unfold maxInt32 in Hm; lia).
  destruct (varint_groups _ N64) as [_ Lv].
  assert (G : forall j, length (concat (repeat (claim n) j)) <= 11 * j).
  { induction j as [|j IH]; cbn [repeat concat]; [cbn; lia|]. rewrite app_length.
    change (length (claim n)) with (S (length (varint (N.of_nat n)))). lia. }
  specialize (G n). lia.
Qed.

Lemma nested_document_asks n : 1 <= n -> (Z.of_nat n <= maxInt32)%Z ->
  exists e s', call_raw k c new_decoder (ReqBody (nested_document n)) = (Err e, s') /\
    made_sum (d_made s') = n * n.
Proof.
  intros H1 Hm. set (b := nested_document n). unfold call_raw, unmarshal_raw.
  assert (Eb : b = [x3d; xf3; x72; x6c; x04; x00] ++ nested n n) by reflexivity.
  assert (St : starts b 4 0 [x00] 0 (nested n n)).
  { split; [lia|split; [lia|]]. exists x04. split; [exact Eb|]. split; [reflexivity|].
    split; [|cbn; lia]. change 0%N with (b2n x00). constructor. vm_compute. reflexivity. }
  unfold mbind at 1. unfold lift at 1. rewrite (checkHeader_starts _ _ _ _ _ _ St).
  unfold mbind at 1. unfold lift at 1.
  change (documentDecompressor (h_version (header_of 4 0 [x00] 0)) (h_doctype (header_of 4 0 [x00] 0))) with (@Ok (option decompressor) None).
  cbv zeta. change (wrap64 (Z.of_nat headerSize + h_suffixSize (header_of 4 0 [x00] 0)))%Z with 6%Z.
  assert (Lb : length b = 6 + length (nested n n)) by (rewrite Eb; reflexivity).
  replace ((Z.of_nat (length b) <? 6) || (6 <? 0))%Z with false by lia.
  change (Z.to_nat 6) with 6. unfold mbind at 1. unfold unmarshal_header at 1. cbn [target_nil orb ret].
  unfold unmarshal_body. cbn [target_nil]. unfold mbind at 1. cbn [ret]. unfold mbind at 1. cbn [fresh_tracked].
  change (h_version (header_of 4 0 [x00] 0) =? 1)%N with false. cbn iota.
  change (Nat.eqb 6 0) with false. cbn iota. rewrite slice_from_le by lia.
  set (s1 := mkDState _ _ _ _).
  assert (Sk : skipn (6 - 1) b = [x00] ++ nested n n) by (rewrite Eb; reflexivity). rewrite Sk.
  unfold mbind at 1. unfold run_decode.
  destruct (nested_asks n H1 Hm n ([x00] ++ nested n n) [x00] 1 0 5 (decode_fuel ([x00] ++ nested n n)) 2 s1)
    as (e & s' & R & E); [reflexivity|reflexivity| |].
  { unfold decode_fuel. rewrite app_length. unfold nested. rewrite app_length, repeat_length. lia. }
  exists e, s'. change (6 - 1) with 5. rewrite R. split; [reflexivity|]. rewrite E. reflexivity.
Qed.

(** * Accepted documents without COPY *)
Lemma copy_byte x : tag_kind (untrack x) = TCopy -> b2n x = 47%N \/ b2n x = 175%N.
Proof. destruct x; vm_compute; intros H; try discriminate H; auto. Qed.

Lemma accepted_plain b ib l n s u s' : length b <= n -> (forall by_, opened k b by_ -> length by_ <= n) ->
  (forall by_ i x, opened k b by_ -> nth_error by_ i = Some x -> b2n x <> 47%N /\ b2n x <> 175%N) ->
  unmarshal_raw k c b ib TgtNone (TgtIface l) s = (Ok u, s') -> cost s' <= cost s + 1 + 6 * n.
Proof.
  intros L Hn NC H.
  assert (P : pc (unmarshal_raw k c b ib TgtNone (TgtIface l)) (fun _ s' => cost s' <= cost s + 1 + 6 * n) (fun _ => True) s);
    [|unfold pc in P; rewrite H in P; exact P]. clear u s' H.
  unfold unmarshal_raw. apply pc_bind. unfold pc at 1, lift.
  destruct (checkHeader b) as [h|e|e| |] eqn:Ch; try exact I.
  destruct (checkHeader_inv _ _ Ch) as (ver & typ & l0 & m & rest & S & ->).
  destruct (starts_length _ _ _ _ _ _ S) as [Len L10].
  cbn [header_of h_version h_doctype h_suffixSize]. apply pc_bind. unfold pc at 1.
  destruct (documentDecompressor ver typ) as [dec|e|e| |] eqn:D; try exact I.
  fold (bodyStart_of l0 m). cbv zeta.
  destruct ((Z.of_nat (length b) <? bodyStart_of l0 m) || (bodyStart_of l0 m <? 0))%Z eqn:B; [exact I|].
  set (bs := Z.to_nat (bodyStart_of l0 m)).
  assert (Lb : bs <= length b) by (unfold bs; lia).
  assert (Eb : bs = N.to_nat (body_start l0 m)) by (apply start_zero; lia).
  apply pc_bind. unfold pc at 1, unmarshal_header. cbn [target_nil orb ret].
  unfold unmarshal_body. cbn [target_nil header_of h_version]. apply pc_bind.
  assert (U : pc match dec with
            | None => ret (b, ib)
            | Some dk => match slice_from b bs with
                | None => crash
                | Some z => let! d := lift (decompress k dk z) in
                            let nb := firstn bs b ++ d in let! l := alloc (CBuf nb) in ret (nb, l)
                end
            end (fun r s' => opened k b (fst r) /\ cost s' <= cost s + 1) (fun _ => True) s).
  { destruct dec as [dk|].
    - rewrite slice_from_le by lia.
      apply pc_bind. unfold pc at 1, lift. destruct (decompress k dk (skipn bs b)) as [z|e|e| |] eqn:E; try exact I.
      apply pc_bind. unfold pc at 1. cbn [alloc]. unfold pc. cbn [fst ret].
      split; [|rewrite cost_app; cbn [length]; lia].
      exists ver, typ, l0, m, rest, z. split; [exact S|]. rewrite <- Eb. split; [|reflexivity]. eapply unpacks_of; eauto.
    - unfold pc, ret. cbn [fst]. split; [|lia]. exists ver, typ, l0, m, rest, (skipn bs b). split; [exact S|].
      rewrite <- Eb. split; [|symmetry; apply firstn_skipn].
      assert (typ = 0%N) as ->; [|constructor]. now apply (decompressor_raw ver typ). }
  eapply pc_mono; [exact U| |auto]. intros [b' ib'] s1 (Op & C1). cbn [fst] in Op.
  apply pc_bind. unfold pc at 1, fresh_tracked. set (s2 := mkDState _ _ _ _).
  assert (C2 : cost s2 = cost s1) by reflexivity.
  assert (Run : forall by_ sh i, length by_ <= n -> (forall i x, nth_error by_ i = Some x -> exists j, nth_error b' j = Some x) ->
    pc (run_decode c by_ ib' sh i l ;; ret tt) (fun _ s' => cost s' <= cost s + 1 + 6 * n) (fun _ => True) s2).
  { intros by_ sh i Ly In. apply pc_bind. unfold run_decode. eapply pc_mono; [apply decode_cost_plain| |auto].
    - intros j x Nx K. destruct (In j x Nx) as [j' Nj]. destruct (NC _ _ _ Op Nj). destruct (copy_byte _ K); contradiction.
    - intros j s3 C3. cbv beta in C3. unfold pc, ret. lia. }
  pose proof (Hn _ Op) as Ln.
  destruct (ver =? 1)%N; [apply Run; eauto|].
  destruct (Nat.eqb bs 0); [exact I|].
  destruct (slice_from b' (bs - 1)) as [y|] eqn:Y; [|exact I].
  unfold slice_from in Y. destruct (Nat.leb _ _); [|discriminate]. injection Y as <-.
  apply Run; [rewrite skipn_length; lia|]. intros i x Nx. rewrite nth_error_skipn in Nx. eauto.
Qed.
End Api.
