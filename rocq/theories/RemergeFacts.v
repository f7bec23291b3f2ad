(** Append and DecompressDocument: the document a Merger takes out of a compressed document is
    the one it takes out of what DecompressDocument returns. *)
From Verif Require Import Base BaseFacts SpecVarint Varint Tags GoMem Codecs Compress Header Decode Document SpecDoc SpecHeader
  DecodeSpec DocFacts HeaderFacts GoSlice Redocument RedocFacts RedocProps Merge Cases.
From Coq Require Import ZifyBool ZifyNat ZifyN.

Lemma readHeader_starts b ver typ l n rest : starts b ver typ l n rest -> readHeader b = Ok (header_of ver typ l n).
Proof.
  intros S. pose proof (checkHeader_starts _ _ _ _ _ _ S) as H. unfold checkHeader in H.
  destruct (readHeader b) as [h| | | |]; cbn [bind] in H; try discriminate.
  destruct (_ && _)%bool in H; congruence.
Qed.

Lemma merger_doc_redoc k w p m dst b ver typ ln n rest out m' : slice_ok m dst -> starts b ver typ ln n rest ->
  (Z.of_N n < two63)%Z -> DecompressDocument k p m dst b = Ok (out, m') ->
  exists f, forall sp, merger_doc k w b sp = merger_doc k w (contents m' out) (f sp).
Proof.
  intros Hd S Hn E. destruct (starts_length _ _ _ _ _ _ S) as [Lb L10].
  destruct (redoc_cases k c0 p m dst b ver typ ln n rest Hd S Hn) as [(e & E' & _)|[(E' & _)|(out2 & m2 & E' & T & B & Es & Cs)]];
    rewrite E' in E; try discriminate. injection E as -> ->.
  destruct Cs as [[-> ->]|(dk & d & T0 & D & Dd & ->)].
  - now exists (fun sp => sp).
  - exists (fun _ => w_spare w d). intros sp.
    destruct (untyped_starts b ver typ ln n rest d S ltac:(lia)) as [S' _].
    unfold merger_doc. rewrite (readHeader_starts _ _ _ _ _ _ S), (readHeader_starts _ _ _ _ _ _ S').
    cbn [bind header_of h_version h_doctype h_suffixSize]. fold (bodyStart_of ln n).
    rewrite D, (proj2 (decompressor_raw ver 0) eq_refl), Es.
    assert (Lu : length (untyped (firstn (5 + length ln + N.to_nat n) b)) = 5 + length ln + N.to_nat n).
    { rewrite untyped_length, firstn_length. lia. }
    rewrite app_length, Lu.
    assert (C : forall len, 5 + length ln + N.to_nat n <= len ->
      ((bodyStart_of ln n <? 0) || (Z.of_nat len <? bodyStart_of ln n))%Z = false) by (intros; lia).
    rewrite !C by lia.
    rewrite Dd. cbn [bind]. rewrite skipn_app, skipn_all2, Lu, Nat.sub_diag by lia. reflexivity.
Qed.

Lemma Append_doc k w g m b sp b' sp' : merger_doc k w b sp = merger_doc k w b' sp' -> Append k w g m b sp = Append k w g m b' sp'.
Proof. intros E. unfold Append. now rewrite E. Qed.

Lemma merger_doc_refused k w p m dst b ver typ ln n rest e : slice_ok m dst -> starts b ver typ ln n rest ->
  type_defined ver typ -> (Z.of_N n < two63)%Z -> 5 + length ln + N.to_nat n <= length b -> (Z.of_nat (length b) < two63)%Z ->
  DecompressDocument k p m dst b = Err e -> forall sp, merger_doc k w b sp = Err e.
Proof.
  intros Hd S T Hn Lh Ls E sp. destruct (starts_length _ _ _ _ _ _ S) as [Lb L10].
  apply (decompressor_defined ver typ (proj1 S)) in T as [dec D].
  assert (Es : bodyStart_of ln n = Z.of_nat (5 + length ln + N.to_nat n)).
  { rewrite (body_start_small ln n (proj2 L10) Hn). unfold wrap64, to_uint, to_int, two64, two63 in *.
    rewrite Z.mod_small by lia. repeat match goal with |- context [if ?x then _ else _] => destruct x eqn:? end; lia. }
  assert (B : (0 <= bodyStart_of ln n <= Z.of_nat (length b))%Z) by lia.
  assert (Ez : Z.to_nat (bodyStart_of ln n) = 5 + length ln + N.to_nat n) by lia.
  destruct dec as [dk|].
  2:{ apply decompressor_raw in D. subst typ. destruct (redoc_raw k p m dst b ver ln n rest Hd S B) as (? & ? & E' & _). congruence. }
  pose proof (redoc_packed k p m dst b ver typ ln n rest dk Hd S D B) as P. cbv zeta in P. rewrite Ez in P.
  specialize (P ltac:(lia)).
  unfold merger_doc. rewrite (readHeader_starts _ _ _ _ _ _ S).
  cbn [bind header_of h_version h_doctype h_suffixSize]. fold (bodyStart_of ln n). rewrite D, Ez.
  assert (C : ((bodyStart_of ln n <? 0) || (Z.of_nat (length b) <? bodyStart_of ln n))%Z = false) by lia. rewrite C.
  destruct (decompress k dk (skipn (5 + length ln + N.to_nat n) b)) as [d| | | |]; cbn [bind]; try congruence.
  destruct P as [(? & ? & E' & _)|(_ & _ & E')]; congruence.
Qed.
