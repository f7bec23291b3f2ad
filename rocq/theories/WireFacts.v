(** Concrete documents: tactics for grammar derivations, and single-item documents. *)
From Verif Require Import Base BaseFacts SpecVarint Varint VarintFacts Tags GoMem Codecs Encode Compress
  Header Decode DecodeSafe Spec SpecDoc DecodeSpec GrammarFacts Document DocFacts Roundtrip.
From Coq Require Import ZifyBool ZifyNat ZifyN.
Ltac Zify.zify_post_hook ::= Z.div_mod_to_equations.

Ltac at_here p :=
  match goal with |- at_ ?b _ ?l => exists (firstn p b), (skipn (p + length l) b); split; reflexivity end.
Ltac tag_here :=
  split; [lia|split; [intros; lia|eexists; split; [reflexivity|split; [reflexivity|discriminate]]]].
(** a one-byte varint at [p] *)
Lemma vint1 by_ p b : nth_error by_ p = Some b -> (b2n b < 128)%N -> vint by_ p (b2n b) (S p).
Proof.
  intros H L. exists [b]. repeat split.
  - apply nth_error_split in H as (l1 & l2 & -> & E). exists l1, l2. auto.
  - constructor. exact L.
  - cbn. lia.
  - lia.
  - cbn. lia.
Qed.

(** a document without header data and without compression *)
Definition raw_document (ver : N) (body : bytes) : bytes := magic ver ++ [n2b ver; x00] ++ body.

Lemma raw_preamble ver : (1 <= ver <= 4)%N -> preamble ver 0 [] (magic ver ++ [n2b ver; x00]).
Proof.
  intros V. split; [exact V|]. split; [lia|]. exists (n2b ver), [x00].
  repeat split.
  - rewrite b2n_n2b_small; lia.
  - change (N.of_nat (length (@nil byte))) with (b2n x00). constructor. vm_compute. reflexivity.
  - cbn. lia.
Qed.
Lemma raw_length ver body : length (raw_document ver body) = 6 + length body.
Proof. unfold raw_document, magic. destruct (_ <? _)%N; reflexivity. Qed.

Lemma raw_is_document m rd k ver body d x : (1 <= ver <= 4)%N ->
  (N.of_nat (6 + length body) <= r_memory rd)%N ->
  body_item m (r_dialect rd) ver (magic ver ++ [n2b ver; x00]) body d x ->
  document_in m rd k (raw_document ver body) ver 0 [] d body x.
Proof.
  intros V L I. exists (magic ver ++ [n2b ver; x00]), body.
  split; [unfold raw_document; now rewrite <- app_assoc|].
  split; [now apply raw_preamble|]. split; [constructor|].
  rewrite raw_length. split; [exact L|].
  assert (E : length (magic ver ++ [n2b ver; x00]) = 6) by (unfold magic; destruct (_ <? _)%N; reflexivity).
  rewrite E. split; [exact L|exact I].
Qed.

(** a zigzag number *)
Lemma zigzag_item g by_ p l n m : at_ by_ p (x21 :: l) -> vgroups l n -> length l <= 10 ->
  (n < 18446744073709551616)%N -> g_even g = true \/ N.even n = false ->
  item g by_ m p (DInt (zigzag_meaning n)) (p + S (length l)).
Proof.
  intros (pre & post & -> & <-) G L Ln E.
  eapply (i_zigzag g _ m (length pre) (length pre) n (length pre + S (length l))); auto.
  - split; [lia|]. split; [intros; lia|]. exists x21. rewrite nth_error_app2, Nat.sub_diag by lia.
    split; [reflexivity|]. split; [reflexivity|discriminate].
  - exists l. repeat split; auto; [|lia]. exists (pre ++ [x21]), post.
    rewrite <- app_assoc, app_length. cbn. split; [reflexivity|lia].
Qed.

Lemma zigzag_document m rd k ver l n : (1 <= ver <= 4)%N -> vgroups l n -> length l <= 10 ->
  (n < 18446744073709551616)%N -> (forall s, g_even (r_dialect rd s) = true) \/ N.even n = false ->
  (100 <= r_memory rd)%N ->
  document_in m rd k (raw_document ver (x21 :: l)) ver 0 [] (DInt (zigzag_meaning n)) (x21 :: l) (S (length l)).
Proof.
  intros V G L Ln E Lm. apply raw_is_document; auto; [cbn [length]; lia|].
  unfold body_item. destruct (ver =? 1)%N.
  - apply zigzag_item; auto.
    + exists (magic ver ++ [n2b ver; x00]), []. rewrite app_nil_r. auto.
    + destruct E as [E|E]; auto.
  - replace (1 + S (length l)) with (1 + S (length l)) by lia. apply zigzag_item; auto.
    + exists [x00], []. rewrite app_nil_r. auto.
    + destruct E as [E|E]; auto.
Qed.

Theorem zigzag_odd k c ver l n : (1 <= ver <= 4)%N -> vgroups l n -> length l <= 10 ->
  (n < 18446744073709551616)%N -> N.even n = false ->
  exists h', unmarshal_fresh k c (raw_document ver (x21 :: l)) = Ok (h', GInt KInt false (zigzag_meaning n)).
Proof.
  intros V G L Ln E.
  assert (D : document (go_reader c) k (raw_document ver (x21 :: l)) ver 0 [] (DInt (zigzag_meaning n)) (x21 :: l) (S (length l))).
  { apply zigzag_document; auto. cbn. lia. }
  destruct (document_reads _ _ _ _ _ _ _ _ _ D) as (h' & v' & U & R). exists h'. rewrite U.
  unfold zigzag_meaning in *. rewrite E in *. inversion R; subst; [reflexivity|].
  exfalso. unfold two63 in *. lia.
Qed.

(** COPY of a hash whose key is a COPY: ["a", {"a": 1}, {"a": 1}] *)
Definition nested_copy_body : bytes := [x2b; x03; x61; x61; x2a; x01; x2f; x03; x01; x2f; x05].
Definition nested_copy_data : data :=
  DArr [DBin [x61]; DHash [([x61], DInt 1)]; DHash [([x61], DInt 1)]].

Lemma nested_copy_item : body_item CAny published 3 [] nested_copy_body nested_copy_data 11.
Proof.
  unfold body_item. cbn [N.eqb Pos.eqb]. unfold nested_copy_data.
  set (by_ := x00 :: nested_copy_body).
  assert (Lit : strlit (published 1) by_ 3 false [x61] 5).
  { eapply (lit_short _ _ 3 3 97 [x61]); [tag_here|lia|at_here 4|reflexivity]. }
  assert (Hash : forall m, copy_ok m = true -> item (published 1) by_ m 5 (DHash [([x61], DInt 1)]) 10).
  { intros m Hm. eapply (i_hash _ _ m 5 5 1 7); [tag_here| | |reflexivity|].
    - exact (vint1 by_ 6 x01 eq_refl eq_refl).
    - cbn. lia.
    - apply (ps_cons _ _ m 7 [x61] 9 (DInt 1) 10); [| |apply ps_nil].
      + eapply (str_copy _ _ _ 7 7 3 9 false [x61] 5); [exact Hm|tag_here| |cbn; lia|split; [cbn; lia|discriminate]|exact Lit].
        exact (vint1 by_ 8 x03 eq_refl eq_refl).
      + apply (i_pos _ _ m 9 9 1); [tag_here|lia]. }
  eapply (i_array _ _ CAny 1 1 3 3); [tag_here| | |reflexivity|].
  - exact (vint1 by_ 2 x03 eq_refl eq_refl).
  - cbn. lia.
  - eapply is_cons; [exact (i_str _ _ CAny 3 false [x61] 5 Lit)|].
    eapply is_cons; [apply Hash; reflexivity|].
    eapply is_cons; [|apply is_nil].
    eapply (i_copy _ _ 10 10 5 12); [tag_here| |cbn; lia|split; [cbn; lia|discriminate]|apply Hash; reflexivity].
    exact (vint1 by_ 11 x05 eq_refl eq_refl).
Qed.

Theorem nested_copy_document k :
  document standard k (raw_document 3 nested_copy_body) 3 0 [] nested_copy_data nested_copy_body 11.
Proof. apply raw_is_document; [lia|cbn; lia|exact nested_copy_item]. Qed.
Theorem nested_copy_rejected k c : unmarshal_fresh k c (raw_document 3 nested_copy_body) = Err ENestedCOPY.
Proof. vm_compute. destruct (d_perl c); reflexivity. Qed.
