(** Documents with references to earlier items: moving to other bytes, whole documents. *)
From Verif Require Import Base BaseFacts SpecVarint Varint VarintFacts Tags GoMem Codecs Encode Compress
  Header Decode DecodeSafe Spec SpecDoc SpecShare DecodeSpec GrammarFacts Document DocFacts ShareDecode.
From Coq Require Import ZifyBool ZifyNat ZifyN.
Ltac Zify.zify_post_hook ::= Z.div_mod_to_equations.

Lemma vint_ends b p n q : vint b p n q -> p < q.
Proof. intros (l & _ & G & _ & _ & ->). apply vgroups_nonempty in G. lia. Qed.
Lemma strlit_ends g b p u s e : strlit g b p u s e -> p < e.
Proof.
  destruct 1 as [? ? ? ? (? & _)|? ? ? ? ? (? & _) V|? ? ? ? ? (? & _) V];
    try apply vint_ends in V; lia.
Qed.

Section Move.
Variable g : dialect.
Variable by_ by' : bytes.
Variable a : nat.
Hypothesis Hlen : length by_ = length by'.
Hypothesis Hby : forall i x, a <= i -> nth_error by_ i = Some x -> nth_error by' i = Some x.
Hypothesis Hst : a <= g_start g.

Notation from E := (forall n (o : option data), In (n, o) E -> a <= n).

Lemma Hby' i x : nth_error by_ (a + i) = Some x -> nth_error by' (a + i) = Some x.
Proof. apply Hby. lia. Qed.
Lemma Hlen' : length by_ + a <= length by' + a.
Proof. lia. Qed.

Lemma mvp p : a <= p -> mv a a p = p.
Proof. unfold mv. lia. Qed.

Lemma mp_at p l : a <= p -> at_ by_ p l -> at_ by' p l.
Proof. intros L H. apply (mv_at g g by_ by' a a Hlen' Hby') in H; auto; try lia. now rewrite mvp in H. Qed.
Lemma mp_vint p n q : a <= p -> vint by_ p n q -> vint by' p n q.
Proof.
  intros L H. pose proof (vint_ends _ _ _ _ H). apply (mv_vint g g by_ by' a a Hlen' Hby') in H; auto; try lia.
  rewrite !mvp in H; auto; lia.
Qed.
Lemma mp_tag p q t : a <= p -> tag_at by_ p q t -> tag_at by' p q t.
Proof.
  intros L H. pose proof (proj1 H). apply (mv_tag g g by_ by' a a Hlen' Hby') in H; auto; try lia.
  rewrite !mvp in H; auto; lia.
Qed.
Lemma mp_stringish ok p s e : a <= p -> stringish g by_ ok p s e -> p < e /\ stringish g by' ok p s e.
Proof.
  intros L H. apply (mv_stringish g g by_ by' a a Hlen' Hby') with (ok' := ok) in H; auto; try lia.
  destruct H as [H1 H2]. split; auto. rewrite !mvp in H2; auto; lia.
Qed.
Lemma mp_strlit p u s e : a <= p -> strlit g by_ p u s e -> strlit g by' p u s e.
Proof.
  intros L H. pose proof (strlit_ends _ _ _ _ _ _ H).
  apply (mv_strlit g g by_ by' a a Hlen' Hby') in H; auto; try lia.
  rewrite !mvp in H; auto; lia.
Qed.
Lemma mp_item m p d e : a <= p -> item g by_ m p d e -> p < e /\ item g by' m p d e.
Proof.
  intros L H. destruct (grammar_move g g by_ by' a a) as (G & _ & _);
    auto using mle_refl, Hlen', Hby'; try lia.
  destruct (G _ _ _ _ H) as [L' G']; [lia|]. specialize (G' m (mle_refl m)).
  split; auto. rewrite !mvp in G'; auto; lia.
Qed.
Lemma mp_refers n : refers g by_ n -> a <= n /\ refers g by' n.
Proof.
  unfold refers. intros [L1 L2]. split; [lia|]. split; [exact L1|]. intros D b H.
  destruct (nth_error by_ n) as [x|] eqn:E.
  - pose proof (Hby n x ltac:(lia) E) as E'. rewrite E' in H. injection H as <-. auto.
  - apply nth_error_None in E. apply nth_error_Some_lt in H. lia.
Qed.
Lemma mp_marked n : a <= n -> marked by_ n -> marked by' n.
Proof. intros L (b & H & M). exists b. auto. Qed.

Lemma look_in E n o : look E n = Some o -> In (n, o) E.
Proof.
  induction E as [|[n' o'] E IH]; cbn [look]; [discriminate|].
  destruct (Nat.eqb_spec n' n); [intros [= ->]; subst; now left|right; auto].
Qed.

Lemma from_app E X : from E -> from X -> from (X ++ E).
Proof. intros H1 H2 n o H. apply in_app_iff in H as [H|H]; eauto. Qed.
Lemma from_cons E q o : from E -> a <= q -> from ((q, o) :: E).
Proof. intros H L n o' [[= <- <-]|H']; eauto. Qed.

Theorem share_move :
  (forall E m p d p' X, sitem g by_ E m p d p' X -> from E -> a <= p ->
     a <= p' /\ from X /\ sitem g by' E m p d p' X) /\
  (forall E m q t d p' X, sbody g by_ E m q t d p' X -> from E -> a <= q ->
     a <= p' /\ from X /\ sbody g by' E m q t d p' X) /\
  (forall E m p ds p' X, sitems g by_ E m p ds p' X -> from E -> a <= p ->
     a <= p' /\ from X /\ sitems g by' E m p ds p' X) /\
  (forall E m p kvs p' X, spairs g by_ E m p kvs p' X -> from E -> a <= p ->
     a <= p' /\ from X /\ spairs g by' E m p kvs p' X).
Proof.
  apply (shared_ind g by_
    (fun E m p d p' X _ => from E -> a <= p -> a <= p' /\ from X /\ sitem g by' E m p d p' X)
    (fun E m q t d p' X _ => from E -> a <= q -> a <= p' /\ from X /\ sbody g by' E m q t d p' X)
    (fun E m p ds p' X _ => from E -> a <= p -> a <= p' /\ from X /\ sitems g by' E m p ds p' X)
    (fun E m p kvs p' X _ => from E -> a <= p -> a <= p' /\ from X /\ spairs g by' E m p kvs p' X)).
  - intros E m p q t d p' X Ht _ IH HE L. pose proof (proj1 Ht).
    destruct IH as (L' & FX & S1); [apply from_cons; [exact HE|lia]|lia|].
    split; [exact L'|]. split.
    + apply from_app; [|exact FX]. intros n o [[= <- <-]|[]]; lia.
    + eapply s_item; [apply mp_tag; eauto|exact S1].
  - intros E m q t d p' Hp Hi HE L. destruct (mp_item _ _ _ _ L Hi). split; [lia|].
    split; [easy|]. now apply s_plain.
  - intros E m q d p' X _ IH HE L. destruct IH as (L' & FX & S1); auto; try lia.
    split; [lia|]. split; [auto|]. now constructor.
  - intros E m q d p' X _ IH HE L. destruct IH as (L' & FX & S1); auto; try lia.
    split; [lia|]. split; [auto|]. now constructor.
  - intros E m q n r ds p' X Hv Hm Hn _ IH HE L. pose proof (vint_ends _ _ _ _ Hv).
    destruct IH as (L' & FX & S1); auto; try lia.
    split; [lia|]. split; [auto|]. econstructor; eauto. apply mp_vint; auto.
  - intros E m q t ds p' X Hr Hn _ IH HE L.
    destruct IH as (L' & FX & S1); auto; try lia.
    split; [lia|]. split; [auto|]. econstructor; eauto.
  - intros E m q n r ds p' X Hv Hm Hn _ IH HE L. pose proof (vint_ends _ _ _ _ Hv).
    destruct IH as (L' & FX & S1); auto; try lia.
    split; [lia|]. split; [auto|]. econstructor; eauto. apply mp_vint; auto.
  - intros E m q t ds p' X Hr Hn _ IH HE L.
    destruct IH as (L' & FX & S1); auto; try lia.
    split; [lia|]. split; [auto|]. econstructor; eauto.
  - intros E m q cls r d p' X Hs _ IH HE L.
    destruct (mp_stringish _ _ _ _ (Nat.le_trans _ _ _ L (Nat.le_succ_diag_r q)) Hs).
    destruct IH as (L' & FX & S1); auto; try lia.
    split; [lia|]. split; [auto|]. econstructor; eauto.
  - intros E m q n r u cls e d p' X Hv Hlt Hr Hs _ IH HE L. pose proof (vint_ends _ _ _ _ Hv).
    destruct (mp_refers _ Hr).
    destruct IH as (L' & FX & S1); auto; try lia.
    split; [lia|]. split; [auto|]. eapply s_objectv; eauto; [apply mp_vint; auto|apply mp_strlit; eauto].
  - intros E m q cls r s p' X Hs Ha _ IH Hz HE L.
    destruct (mp_stringish _ _ _ _ (Nat.le_trans _ _ _ L (Nat.le_succ_diag_r q)) Hs).
    destruct IH as (L' & FX & S1); auto; try lia.
    split; [lia|]. split; [auto|]. eapply s_freeze; eauto. apply mp_at; auto; lia.
  - intros E m q o r u cls e s p' X Hv Hlt Hr Hs Ha _ IH Hz HE L. pose proof (vint_ends _ _ _ _ Hv).
    destruct (mp_refers _ Hr).
    destruct IH as (L' & FX & S1); auto; try lia.
    split; [lia|]. split; [auto|]. eapply s_freezev; eauto; [apply mp_vint; auto|apply mp_strlit; eauto|].
    apply mp_at; auto; lia.
  - intros E q n r d e X Hv Hlt Hr _ IH HE L. pose proof (vint_ends _ _ _ _ Hv).
    destruct (mp_refers _ Hr).
    destruct IH as (L' & FX & S1); auto; try lia.
    split; [lia|]. split; [auto|]. eapply s_copy; eauto. apply mp_vint; auto.
  - intros E m q n r d Hv Hlt Mk Lk HE L. pose proof (vint_ends _ _ _ _ Hv).
    split; [lia|]. split; [easy|]. eapply s_refp; eauto; [apply mp_vint; auto|].
    apply mp_marked; auto. eapply HE, look_in; eauto.
  - intros E m q n r d Hv Hlt Mk Lk HE L. pose proof (vint_ends _ _ _ _ Hv).
    split; [lia|]. split; [easy|]. eapply s_alias; eauto; [apply mp_vint; auto|].
    apply mp_marked; auto. eapply HE, look_in; eauto.
  - intros. split; [auto|]. split; [easy|]. constructor.
  - intros E m p d r X ds p' Y _ IH1 _ IH2 HE L.
    destruct IH1 as (L1 & F1 & S1); auto. destruct IH2 as (L2 & F2 & S2); [apply from_app; assumption|assumption|].
    split; [auto|]. split; [now apply from_app|]. econstructor; eauto.
  - intros. split; [auto|]. split; [easy|]. constructor.
  - intros E m p k r d r' X kvs p' Y Hs _ IH1 _ IH2 HE L.
    destruct (mp_stringish _ _ _ _ L Hs).
    destruct IH1 as (L1 & F1 & S1); auto; try lia. destruct IH2 as (L2 & F2 & S2); [apply from_app; assumption|assumption|].
    split; [auto|]. split; [now apply from_app|]. econstructor; eauto.
Qed.
End Move.

Section Docs.
Variable k : codecs.
Variable c : dconfig.

Lemma sbody_decoded ver pre body d e ib l s : (1 <= length pre)%nat ->
  (Z.of_nat (length pre + length body) <= 281474976710656)%Z ->
  sbody_item CAny (go_dialect c) ver pre body d e ->
  (d_perl c = false -> backs_ok d) ->
  nth_error (d_heap s) ib = Some (CBuf (pre ++ body)) -> nth_error (d_heap s) l = Some (CV GNil) ->
  d_copy s = 0 -> d_tracked s = [] ->
  exists s' v,
    (if (ver =? 1)%N then run_decode c (pre ++ body) ib 0 (length pre) l ;; ret tt
     else if Nat.eqb (length pre) 0 then crash
     else match slice_from (pre ++ body) (length pre - 1) with
          | None => crash
          | Some by_ => run_decode c by_ ib (length pre - 1) 1 l ;; ret tt
          end) s = (Ok tt, s') /\
    frm (eq l) s s' /\ nth_error (d_heap s') l = Some (CV v) /\
    repr (d_perl c) (reg_of c) (fun x => x = ib \/ x = l \/ length (d_heap s) <= x < length (d_heap s'))
      (d_heap s') v (shown (d_noref c) d).
Proof.
  intros Lp Lb (X & I) Fd Hib Hl Hc Ht.
  assert (Nl : l <> ib) by congruence.
  assert (G : forall by_ ishift start p f e', (Z.of_nat (length by_) < two63)%Z -> at_ (pre ++ body) ishift by_ ->
    sitem (go_dialect c start) by_ [] CAny p d e' X -> f = decode_fuel by_ ->
    exists s' v, runs (decode c by_ ib ishift f p l) s e' s' /\
      frm (eq l) s s' /\ nth_error (d_heap s') l = Some (CV v) /\
      repr (d_perl c) (reg_of c) (fun x => x = ib \/ x = l \/ length (d_heap s) <= x < length (d_heap s'))
        (d_heap s') v (shown (d_noref c) d)).
  { intros by_ ishift start p f e' H1 H2 H3 ->.
    destruct (proj1 (decode_implements_shared c by_ ib ishift (pre ++ body) start H1 H2) _ _ _ _ _ _ H3)
      as (L1 & L2 & D).
    destruct (D (decode_fuel by_) l (fun x => x = ib) s) as (s' & v & C' & R & F & Gr & Cp & Bd & Cv & V); auto.
    - rewrite Hc. unfold need, decode_fuel. lia.
    - split; [exact Hib|]. split; [reflexivity|]. split.
      + intros x ->. eapply nth_error_Some_lt; eauto.
      + rewrite Ht. constructor.
    - exists s', v. split; [exact R|]. split; [exact F|]. split; [exact Cv|].
      eapply repr_stable; [|exact V]. intros x Hx. split; [|reflexivity].
      destruct (Bd x Hx) as [->|[->|Hge]]; auto. right; right. split; [exact Hge|]. now apply Gr. }
  destruct (ver =? 1)%N.
  - destruct (G (pre ++ body) 0 (length pre) (length pre) (decode_fuel (pre ++ body)) (length pre + e))
      as (s' & v & R & H); auto.
    { rewrite app_length. unfold two63. lia. }
    { exists [], []. now rewrite app_nil_r. }
    exists s', v. split; [|exact H]. unfold run_decode, mbind. unfold runs in R. now rewrite R.
  - destruct (Nat.eqb_spec (length pre) 0); [lia|].
    destruct (exists_last (l := pre)) as (pre0 & x & ->); [intros ->; cbn in *; lia|].
    rewrite app_length in *. cbn [length] in *.
    replace (length pre0 + 1 - 1) with (length pre0) by lia.
    rewrite <- app_assoc in *. cbn [app] in *.
    assert (S : slice_from (pre0 ++ x :: body) (length pre0) = Some (x :: body)).
    { unfold slice_from. rewrite app_length, skipn_app_len. cbn.
      destruct (Nat.leb_spec (length pre0) (length pre0 + S (length body))); [reflexivity|lia]. }
    rewrite S.
    assert (I' : sitem (go_dialect c 1) (x :: body) [] CAny 1 d (1 + e) X).
    { eapply (proj1 (share_move (go_dialect c 1) (x00 :: body) (x :: body) 1 eq_refl
        ltac:(intros [|i] y Hi; [lia|auto]) (le_n 1))); [exact I|easy|lia]. }
    destruct (G (x :: body) (length pre0) 1 1 (decode_fuel (x :: body)) (1 + e))
      as (s' & v & R & H); auto.
    { cbn [length]. unfold two63. lia. }
    { exists pre0, []. now rewrite app_nil_r. }
    exists s', v. split; [|exact H]. unfold run_decode, mbind. unfold runs in R. now rewrite R.
Qed.

Theorem unmarshal_sdocument b ver typ suffix d body e ib l s :
  sdocument (go_reader c) k b ver typ suffix d body e ->
  (d_perl c = false -> backs_ok d) ->
  nth_error (d_heap s) ib = Some (CBuf b) -> nth_error (d_heap s) l = Some (CV GNil) ->
  d_copy s = 0 ->
  exists s' v, Unmarshal k c b ib (TgtIface l) s = (Ok tt, s') /\
    fills l (d_heap s) (d_heap s') v /\ d_copy s' = 0 /\
    repr (d_perl c) (reg_of c) (fun x => x = ib \/ x = l \/ length (d_heap s) <= x < length (d_heap s'))
      (d_heap s') v (shown (d_noref c) d).
Proof.
  intros (pre & packed & -> & Hp & Pk & Lb & Lm & I) Fd Hib Hl Hc.
  cbn [go_reader r_packed r_memory r_dialect] in *. rewrite app_length in Lb.
  destruct (checkHeader_preamble _ _ _ _ packed Hp ltac:(lia)) as (sz & Ch & Lpre & Lsz).
  destruct (unpack k ver typ packed body (proj1 Hp) Pk ltac:(lia)) as (o & Dd & Ho).
  unfold Unmarshal, UnmarshalHeaderBody, unmarshal_raw.
  unfold mbind at 1. unfold lift at 1. rewrite Ch.
  unfold mbind at 1. unfold lift at 1. cbn [h_version h_doctype h_suffixSize]. rewrite Dd.
  assert (Eb : wrap64 (Z.of_nat headerSize + Z.of_nat (sz + length suffix)) = Z.of_nat (length pre)).
  { rewrite wrap64_small; unfold headerSize, two63 in *; lia. }
  rewrite Eb, Nat2Z.id. rewrite app_length.
  destruct ((Z.of_nat (length pre + length packed) <? Z.of_nat (length pre)) || (Z.of_nat (length pre) <? 0))%Z
    eqn:C; [lia|].
  unfold mbind at 1. unfold unmarshal_header. cbn [target_nil orb]. unfold ret at 1.
  unfold unmarshal_body. cbn [target_nil h_version].
  destruct o as [dk|].
  - set (nb := pre ++ body).
    set (s1 := mkDState (d_heap s ++ [CBuf nb]) [] (d_copy s) (d_made s)).
    destruct (sbody_decoded ver pre body d e (length (d_heap s)) l s1) as (s' & v & R & F & Cv & V); auto.
    { unfold headerSize in *. lia. }
    { lia. }
    { cbn. rewrite nth_error_app2, Nat.sub_diag by lia. reflexivity. }
    { cbn. now apply nth_error_app_l. }
    exists s', v. split; [|split; [|split]].
    + unfold mbind at 1. assert (Sl : slice_from (pre ++ packed) (length pre) = Some packed).
      { unfold slice_from. rewrite app_length, skipn_app_len.
        destruct (Nat.leb_spec (length pre) (length pre + length packed)); [reflexivity|lia]. }
      rewrite Sl. unfold mbind at 1. unfold lift at 1. rewrite Ho. cbv zeta. rewrite firstn_app_len.
      unfold mbind at 1. unfold alloc at 1. unfold ret at 1.
      unfold mbind at 1. unfold fresh_tracked at 1. cbn [with_heap d_heap d_copy d_made].
      fold nb. fold s1. unfold s1 in R at 1. unfold with_heap in *. cbn [d_made d_copy] in *.
      fold s1 in R. fold nb in R. rewrite R. reflexivity.
    + destruct F as (F1 & F2 & F3). cbn in F1, F2. rewrite app_length in F1, F2. cbn in F1, F2.
      split; [lia|]. split; [|exact Cv].
      intros x Lx Nx. rewrite F2; [|lia|congruence]. now rewrite nth_error_app1.
    + destruct F as (_ & _ & F3). rewrite F3. exact Hc.
    + destruct F as (F1 & F2 & F3). cbn in F1. rewrite app_length in F1. cbn in F1.
      eapply (repr_stable _ _ _ _ (d_heap s')); [|exact V].
      intros x Hx. split; [|reflexivity]. right. destruct Hx as [->|[->|Hx]]; [lia|auto|].
      cbn in Hx. rewrite app_length in Hx. cbn in Hx. lia.
  - destruct Ho as [-> ->].
    set (s1 := mkDState (d_heap s) [] (d_copy s) (d_made s)).
    destruct (sbody_decoded ver pre body d e ib l s1) as (s' & v & R & F & Cv & V); auto.
    { unfold headerSize in *. lia. }
    { lia. }
    exists s', v. split; [|split; [|split]].
    + unfold mbind at 1. unfold ret at 1. unfold mbind at 1. unfold fresh_tracked at 1. fold s1.
      rewrite R. reflexivity.
    + destruct F as (F1 & F2 & F3). split; [exact F1|]. split; [|exact Cv].
      intros x Lx Nx. apply F2; auto.
    + destruct F as (_ & _ & F3). rewrite F3. exact Hc.
    + exact V.
Qed.
End Docs.

From Verif Require Import Roundtrip WireFacts.

Lemma sdocument_reads k c b ver typ suffix d body x :
  sdocument (go_reader c) k b ver typ suffix d body x -> (d_perl c = false -> backs_ok d) ->
  reads k c b (shown (d_noref c) d).
Proof.
  intros D Fd.
  destruct (unmarshal_sdocument k c b ver typ suffix d body x 0 2 (fresh_state b)) as (s' & v & U & (_ & _ & Fv) & _ & V);
    auto.
  exists (d_heap s'), v. unfold unmarshal_fresh. rewrite U. cbn [bind].
  rewrite (hget_cell _ _ _ Fv). split; [reflexivity|].
  eapply repr_stable; [|exact V]. intros. split; [exact I|reflexivity].
Qed.

Lemma raw_is_sdocument m rd k ver body d x : (1 <= ver <= 4)%N ->
  (N.of_nat (6 + length body) <= r_memory rd)%N ->
  sbody_item m (r_dialect rd) ver (magic ver ++ [n2b ver; x00]) body d x ->
  sdocument_in m rd k (raw_document ver body) ver 0 [] d body x.
Proof.
  intros V L I. exists (magic ver ++ [n2b ver; x00]), body.
  split; [unfold raw_document; now rewrite <- app_assoc|].
  split; [now apply raw_preamble|]. split; [constructor|].
  rewrite raw_length. split; [exact L|].
  assert (E : length (magic ver ++ [n2b ver; x00]) = 6) by (unfold magic; destruct (_ <? _)%N; reflexivity).
  rewrite E. split; [exact L|exact I].
Qed.
