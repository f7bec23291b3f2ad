(** Unmarshal into a variable in memory keeps every cell of its type. *)
From Verif Require Import Base BaseFacts SpecVarint Varint VarintFacts Tags GoMem GoTypes TagsCache Codecs Encode Compress Header Decode
  Document Typed TypedMem SpecHeader SpecShape HeaderFacts ApiFacts ShapeFacts DecodeSafe ApiSafe TypedSafe TypedMemSafe
  SpecMem SpecMemType HeapInts TypedMemType.
From Coq Require Import ZifyBool ZifyNat ZifyN.

Section Top.
Variable k : codecs.
Variable c : dconfig.
Variable v : goenv.
Variable mem0 : memory.
Variable b : bytes.
Definition plain_doc : Prop := forall by_, opened k b by_ -> forall i x, nth_error by_ i = Some x -> ~ back_reference x.
Notation pres := (pres v mem0 plain_doc).

Lemma p_raw w ib ty r : good v w r ty Settable -> pres w (unmarshal_mem_raw k c v b ib ty r) (fun _ _ => True).
Proof.
  intros G s Is. destruct (mem_cases k c v b ib ty r s) as [(e & E)|(ver & typ & l & n & rest & dec & S & D & B & E)].
  { rewrite E. cbn [fst snd]. exists w. split; [apply wext_refl|]. split; [exact Is|discriminate]. }
  rewrite E. clear E. revert s Is. change (pres w (unmarshal_mbody k c v b ib (header_of ver typ l n) dec (Z.to_nat (bodyStart_of l n)) ty r) (fun _ _ => True)).
  destruct (starts_length _ _ _ _ _ _ S) as [Len L10].
  set (bs := Z.to_nat (bodyStart_of l n)).
  assert (Lb : bs <= length b) by (unfold bs; lia).
  assert (Eb : bs = N.to_nat (body_start l n)) by (apply start_zero; lia).
  unfold unmarshal_mbody. cbn [header_of h_version].
  eapply p_bind with (P := fun _ r => opened k b (fst r)).
  { destruct dec as [dk|].
    - rewrite (slice_from_le b bs Lb).
      eapply p_bind; [apply p_lift with (P := fun d => decompress k dk (skipn bs b) = Ok d); intros s I; split; [exact I|auto]|].
      intros w1 d E1 Ed. cbv beta in Ed. cbv zeta. eapply p_bind; [apply p_lift, hp_alloc; exact I|]. intros w2 l2 E2 _. apply p_ret.
      exists ver, typ, l, n, rest, d. split; [exact S|]. cbn [fst]. rewrite <- Eb. split; [|reflexivity]. eapply unpacks_of; eauto.
    - apply p_ret. exists ver, typ, l, n, rest, (skipn bs b). split; [exact S|].
      rewrite <- Eb. split; [|symmetry; apply firstn_skipn].
      assert (typ = 0%N) as ->; [|constructor]. now apply (decompressor_raw ver typ). }
  intros w1 [nb l1] E1 Op. cbn [fst] in Op. apply (good_ext _ _ _ _ _ _ E1) in G.
  eapply p_bind with (P := fun _ _ => True); [apply p_lift; intros s I; split; [exact I|auto]|]. intros w2 u E2 _. apply (good_ext _ _ _ _ _ _ E2) in G.
  assert (F : forall by_ sh idx, (forall i x, nth_error by_ i = Some x -> exists j, nth_error nb j = Some x) ->
    pres w2 (do! _ := mdecode c v by_ l1 sh (decode_fuel by_) ty r Settable idx in tret tt) (fun _ _ => True)).
  { intros by_ sh idx Sub. eapply p_bind; [apply p_decode; [|exact G]|intros; now apply p_ret].
    intros Pl i x E. destruct (Sub _ _ E) as [j Ej]. exact (Pl nb Op j x Ej). }
  destruct (N.eqb _ _); [apply F; eauto|]. destruct (Nat.eqb bs 0); [eapply p_mono; [apply p_lift, (hp_crash _ (fun _ => True))|auto]|].
  unfold slice_from. destruct (Nat.leb _ _); [|eapply p_mono; [apply p_lift, (hp_crash _ (fun _ => True))|auto]].
  apply F. intros i x E. exists (bs - 1 + i). now apply nth_error_skipn_in.
Qed.
End Top.

Theorem unmarshal_mem_typed k c v h mem b ib ty l ct :
  well_typed v ct mem -> ints_ok h -> nth_error ct l = Some (CVar ty) ->
  let s' := snd (unmarshal_mem_raw k c v b ib ty (l, []) (mkM (mkDState h [] 0 []) mem [])) in
  ints_ok (d_heap (m_d s')) /\
  exists e, well_typed v (ct ++ e) (m_mem s') /\
    (forall l', l' < length mem -> ~ ereach v ct mem l l' -> nth_error (m_mem s') l' = nth_error mem l') /\
    (forall l', ereach v (ct ++ e) (m_mem s') l l' -> ereach v ct mem l l' \/ length mem <= l') /\
    (plain_doc k b -> forall l' t p ty', nth_error ct l' = Some (CVar t) -> type_at v t p = Some ty' -> sealed v p ->
       rd v (m_mem s') (l', p) = rd v mem (l', p)).
Proof.
  intros Wt Io E s'. pose proof (f2_len _ _ _ Wt) as Len.
  destruct (p_raw k c v mem b (mkW ct (fun x => ereach v ct mem l x)) ib ty (l, [])) with (s := mkM (mkDState h [] 0 []) mem [])
    as (w' & [[e Ee] Op] & (I1 & I2 & _) & _).
  - split; [exists ty; split; [exact E|reflexivity]|]. intros _. split; [constructor|]. intros (st & [] & _).
  - split; [exact Io|]. split; [|constructor]. split; cbn [w_ct w_op m_mem]; auto.
    intros. eapply ereach_step; eassumption.
  - fold s' in I1, I2. cbn [w_ct w_op] in *. split; [exact I1|]. exists e. rewrite <- Ee. destruct I2 as [A1 A2 A3 A4 A5].
    assert (Ll : l < length ct) by (apply nth_error_Some; congruence).
    assert (Rw : forall l', ereach v (w_ct w') (m_mem s') l l' -> w_op w' l').
    { intros l' R. induction R as [|l1 cc cell l2 R IH N1 N2 C]; [apply Op; [exact Ll|constructor]|]. eapply A3; eassumption. }
    split; [exact A1|]. split; [|split].
    + intros l' L N. apply A4; [exact L|]. rewrite Op by lia. exact N.
    + intros l' R. destruct (Nat.lt_ge_cases l' (length mem)) as [L|L]; [left|now right]. apply Op; [lia|]. now apply Rw.
    + intros Pl l' t p ty' E' T Se. eapply A5; [exact Pl| |rewrite Ee; rewrite nth_error_app1; [exact E'|]|exact T|exact Se];
        [rewrite <- Len|]; apply nth_error_Some; congruence.
Qed.
