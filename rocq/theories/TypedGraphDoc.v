(** Whole documents with sharing and cycles read into variables of Go types. *)
From Verif Require Import Base BaseFacts SpecVarint Varint VarintFacts Tags GoMem GoTypes TagsCache Codecs Compress Header Decode Document
  Spec SpecValue SpecDoc SpecShare SpecCycle SpecTyped DecodeSafe DecodeSpec DocFacts MergeFacts ShareDecode CycleDecode CycleFacts Typed TypedSpec
  JsonFacts TypedMem SpecMem TypedMemFacts TypedMemTree SpecTypedGraph TypedGraph.
From Coq Require Import ZifyBool ZifyNat ZifyN.

(** the variables into which the marked items were read, by their numbers: type and content *)
Definition tmarks (v : goenv) (s : mstate) (i : nat) : gtype * mval :=
  match ref_at s i with Some t => (tr_ty t, rd v (m_mem s) (tr_ref t)) | None => (TyIface, MInt 0) end.
Lemma val_tmarks v W s i ty m : TypedGraph.val v W s i ty m -> tmarks v s i = (ty, m).
Proof. intros (_ & t & H & <- & <-). unfold tmarks. now rewrite H. Qed.

Section Docs.
Variable k : codecs.
Variable c : dconfig.
Variable v : goenv.
Hypothesis Hp : d_perl c = false.

Definition read_into (mem : memory) (l : mloc) (ty : gtype) (x : node) (s' : mstate) : Prop :=
  length mem <= length (m_mem s') /\
  (forall l', l' < length mem -> l' <> l -> nth_error (m_mem s') l' = nth_error mem l') /\
  exists m L F, nth_error (m_mem s') l = Some (MCell m) /\
    tshown v (m_mem s') (fun i t w => L i = (t, w)) ty m x F /\ NoDup F /\ (forall l', In l' F -> length mem <= l').

Lemma gbody_typed ver pre body x e ib ty l s : (1 <= length pre)%nat ->
  (Z.of_nat (length pre + length body) <= 281474976710656)%Z ->
  gbody_item (go_dialect c) ver pre body x e -> fits_type v ty x ->
  nth_error (d_heap (m_d s)) ib = Some (CBuf (pre ++ body)) -> nth_error (m_mem s) l = Some (MCell (mzero ty)) ->
  d_copy (m_d s) = 0 -> d_tracked (m_d s) = [] -> m_refs s = [] ->
  exists s',
    (if (ver =? 1)%N then do! _ := mdecode c v (pre ++ body) ib 0 (decode_fuel (pre ++ body)) ty (l, []) Settable (length pre) in tret tt
     else if Nat.eqb (length pre) 0 then lift_ crash
     else match slice_from (pre ++ body) (length pre - 1) with
          | None => lift_ crash
          | Some by_ => do! _ := mdecode c v by_ ib (length pre - 1) (decode_fuel by_) ty (l, []) Settable 1 in tret tt
          end) s = (Ok tt, s') /\ read_into (m_mem s) l ty x s'.
Proof.
  intros Lp Lb (X & I) (T & Fx) Hib Hl Hc Ht Hr.
  assert (G : forall by_ ishift start p e', (Z.of_nat (length by_) < two63)%Z -> Spec.at_ (pre ++ body) ishift by_ ->
    gitem (go_dialect c start) by_ [] CAny p x e' X ->
    exists s', mdecode c v by_ ib ishift (decode_fuel by_) ty (l, []) Settable p s = (Ok e', s') /\ read_into (m_mem s) l ty x s').
  { intros by_ ishift start p e' H1 H2 H3.
    destruct (proj1 (tdecode_implements_nodes c v by_ ib ishift (pre ++ body) start T H1 H2 Hp) _ _ _ _ _ _ H3) as (L1 & L2 & D).
    destruct (D (decode_fuel by_) ty (l, []) [] [] s Fx) as (s' & R & A & V).
    - now cbn.
    - rewrite Hc. unfold need, decode_fuel. lia.
    - assert (RN : forall i t, ref_at s i <> Some t).
      { intros i t. unfold ref_at. rewrite Hr. cbn. destruct i; discriminate. }
      split; [|split; [|split; [|split]]].
      + split; [exact Hib|]. rewrite Ht, Hr. cbn. repeat split; auto; try constructor; try contradiction; exfalso; eapply RN; eassumption.
      + exists (mzero ty). split; [exact Hl|exact Logic.I].
      + unfold rd, mvar. cbn. now rewrite Hl.
      + intros i [].
      + intros i t H. destruct (RN _ _ H).
    - exists s'. split; [exact R|]. destruct A as (_ & C & _). split; [apply C|].
      destruct C as (_ & K & X0 & X1 & E0 & E1 & _). cbn in E1, K. split; [intros l' J N; apply K; auto|].
      destruct V as (F & V & Nd & Bd).
      exists X1, (tmarks v s'), F. split; [exact E1|]. replace X1 with (rd v (m_mem s') (l, [])) by (unfold rd, mvar; cbn; now rewrite E1).
      split; [|split; [exact Nd|intros l' J; apply Bd; exact J]].
      apply (proj1 (tshown_stable_mut v (m_mem s') (m_mem s') _ _ (fun i t m => val_tmarks v [] s' i t m)) _ _ _ _ V). auto. }
  destruct (ver =? 1)%N.
  - destruct (G (pre ++ body) 0 (length pre) (length pre) (length pre + e)) as (s' & R & H); auto.
    { rewrite app_length. unfold two63. lia. }
    { exists [], []. now rewrite app_nil_r. }
    exists s'. split; [|exact H]. unfold tbind. now rewrite R.
  - destruct (Nat.eqb_spec (length pre) 0); [lia|].
    destruct (exists_last (l := pre)) as (pre0 & x0 & ->); [intros ->; cbn in *; lia|].
    rewrite app_length in *. cbn [length] in *.
    replace (length pre0 + 1 - 1) with (length pre0) by lia.
    rewrite <- app_assoc in *. cbn [app] in *.
    assert (S : slice_from (pre0 ++ x0 :: body) (length pre0) = Some (x0 :: body)).
    { unfold slice_from. rewrite app_length, skipn_app_len. cbn.
      destruct (Nat.leb_spec (length pre0) (length pre0 + S (length body))); [reflexivity|lia]. }
    rewrite S.
    assert (I' : gitem (go_dialect c 1) (x0 :: body) [] CAny 1 x (1 + e) X).
    { eapply (proj1 (cycle_move (go_dialect c 1) (x00 :: body) (x0 :: body) 1 eq_refl
        ltac:(intros [|i] y Hi; [lia|auto]) (le_n 1))); [exact I|lia]. }
    destruct (G (x0 :: body) (length pre0) 1 1 (1 + e)) as (s' & R & H); auto.
    { cbn [length]. unfold two63. lia. }
    { exists pre0, []. now rewrite app_nil_r. }
    exists s'. split; [|exact H]. unfold tbind. now rewrite R.
Qed.

(** [unmarshal_mem], with the variable in the cell [l] *)
Theorem unmarshal_mem_gdocument b ver typ suffix x body e h mem ib ty l :
  gdocument (go_reader c) k b ver typ suffix x body e -> fits_type v ty x ->
  nth_error h ib = Some (CBuf b) -> nth_error mem l = Some (MCell (mzero ty)) ->
  exists h' mem' m L F, unmarshal_mem k c v h mem b ib ty (l, []) = (Ok (h', mem'), mem') /\
    nth_error mem' l = Some (MCell m) /\
    tshown v mem' (fun i t w => L i = (t, w)) ty m x F /\ NoDup F /\ (forall l', In l' F -> length mem <= l') /\
    length mem <= length mem' /\
    (forall l', l' < length mem -> l' <> l -> nth_error mem' l' = nth_error mem l').
Proof.
  intros (pre & packed & -> & Hpre & Pk & Lb & Lm & I) Fx Hib Hl.
  cbn [go_reader r_packed r_memory r_dialect] in *. rewrite app_length in Lb.
  destruct (checkHeader_preamble _ _ _ _ packed Hpre ltac:(lia)) as (sz & Ch & Lpre & Lsz).
  destruct (unpack k ver typ packed body (proj1 Hpre) Pk ltac:(lia)) as (o & Dd & Ho).
  assert (Eb : wrap64 (Z.of_nat headerSize + Z.of_nat (sz + length suffix)) = Z.of_nat (length pre)).
  { rewrite wrap64_small; unfold headerSize, two63 in *; lia. }
  assert (G : exists s', unmarshal_mem_raw k c v (pre ++ packed) ib ty (l, []) (mkM (mkDState h [] 0 []) mem []) = (Ok tt, s') /\ read_into mem l ty x s').
  { unfold unmarshal_mem_raw. unfold tbind at 1, lift_ at 1, lift at 1. cbn [m_d m_mem m_refs]. rewrite Ch.
    unfold tbind at 1, lift_ at 1, lift at 1. cbn [m_d m_mem m_refs h_version h_doctype h_suffixSize]. rewrite Dd.
    cbv zeta. rewrite Eb, Nat2Z.id, app_length.
    destruct ((Z.of_nat (length pre + length packed) <? Z.of_nat (length pre)) || (Z.of_nat (length pre) <? 0))%Z eqn:C; [lia|].
    unfold unmarshal_mbody. cbn [h_version].
    destruct o as [dk|].
    - set (nb := pre ++ body).
      set (s1 := mkM (mkDState (h ++ [CBuf nb]) [] 0 []) mem []).
      destruct (gbody_typed ver pre body x e (length h) ty l s1) as (s' & R & V); auto.
      { unfold headerSize in *. lia. }
      { lia. }
      { cbn. rewrite nth_error_app2, Nat.sub_diag by lia. reflexivity. }
      exists s'. split; [|exact V].
      assert (Sl : slice_from (pre ++ packed) (length pre) = Some packed).
      { unfold slice_from. rewrite app_length, skipn_app_len.
        destruct (Nat.leb_spec (length pre) (length pre + length packed)); [reflexivity|lia]. }
      rewrite Sl. unfold tbind at 1 2. unfold lift_ at 1, lift at 1. cbn [m_d m_mem m_refs]. rewrite Ho. cbv zeta. rewrite firstn_app_len.
      unfold tbind at 1. unfold lift_ at 1, alloc at 1. unfold tret at 1. cbn [with_heap d_heap d_copy d_made m_d m_mem m_refs].
      unfold tbind at 1, lift_ at 1, fresh_tracked at 1. cbn [with_heap d_heap d_copy d_made m_d m_mem m_refs].
      exact R.
    - destruct Ho as [-> ->].
      destruct (gbody_typed ver pre body x e ib ty l (mkM (mkDState h [] 0 []) mem [])) as (s' & R & V); auto.
      { unfold headerSize in *. lia. }
      { lia. }
      exists s'. split; [|exact V].
      unfold tbind at 1, tret at 1. unfold tbind at 1, lift_ at 1, fresh_tracked at 1. cbn [with_heap d_heap d_copy d_made m_d m_mem m_refs].
      exact R. }
  destruct G as (s' & R & L1 & K & m & L & F & E1 & V & Nd & Bd). unfold unmarshal_mem. rewrite R. cbn [recovered bind].
  exists (d_heap (m_d s')), (m_mem s'), m, L, F. auto 10.
Qed.
End Docs.
