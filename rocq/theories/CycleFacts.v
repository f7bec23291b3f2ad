(** Documents with references between items, cycles included: moving to other bytes, whole documents. *)
From Verif Require Import Base BaseFacts SpecVarint Varint VarintFacts Tags GoMem Codecs Encode Compress
  Header Decode DecodeSafe Spec SpecDoc SpecShare SpecCycle DecodeSpec GrammarFacts Document DocFacts ShareDecode
  ShareFacts CycleDecode Roundtrip WireFacts.
From Coq Require Import ZifyBool ZifyNat ZifyN.
Ltac Zify.zify_post_hook ::= Z.div_mod_to_equations.

Section Move.
Variable g : dialect.
Variable by_ by' : bytes.
Variable a : nat.
Hypothesis Hlen : length by_ = length by'.
Hypothesis Hby : forall i x, a <= i -> nth_error by_ i = Some x -> nth_error by' i = Some x.
Hypothesis Hst : a <= g_start g.

Lemma Hby'' i x : a <= i -> nth_error by' i = Some x -> nth_error by_ i = Some x.
Proof.
  intros L H. destruct (nth_error by_ i) as [y|] eqn:E.
  - apply Hby in E; [congruence|exact L].
  - apply nth_error_None in E. apply nth_error_Some_lt in H. lia.
Qed.
Lemma mp_unmarked n : a <= n -> ~ marked by_ n -> ~ marked by' n.
Proof. intros L N (b & H & M). apply N. exists b. split; [now apply Hby''|exact M]. Qed.

Theorem cycle_move :
  (forall E m p x p' X, gitem g by_ E m p x p' X -> a <= p -> a <= p' /\ gitem g by' E m p x p' X) /\
  (forall E m q t x p' X, gbody g by_ E m q t x p' X -> a <= q -> a <= p' /\ gbody g by' E m q t x p' X) /\
  (forall E m p xs p' X, gitems g by_ E m p xs p' X -> a <= p -> a <= p' /\ gitems g by' E m p xs p' X) /\
  (forall E m p kxs p' X, gpairs g by_ E m p kxs p' X -> a <= p -> a <= p' /\ gpairs g by' E m p kxs p' X).
Proof.
  assert (Mt : forall p q t, a <= p -> tag_at by_ p q t -> tag_at by' p q t) by (intros; eapply mp_tag; eauto).
  assert (Mv : forall p n q, a <= p -> vint by_ p n q -> vint by' p n q) by (intros; eapply mp_vint; eauto).
  assert (Ms : forall ok p s e, a <= p -> stringish g by_ ok p s e -> p < e /\ stringish g by' ok p s e)
    by (intros; eapply mp_stringish; eauto).
  assert (Ml : forall p u s e, a <= p -> strlit g by_ p u s e -> strlit g by' p u s e) by (intros; eapply mp_strlit; eauto).
  assert (Mr : forall n, refers g by_ n -> a <= n /\ refers g by' n) by (intros; eapply mp_refers; eauto).
  assert (Ma : forall p l, a <= p -> at_ by_ p l -> at_ by' p l) by (intros; eapply mp_at; eauto).
  assert (Mi : forall m p d e, a <= p -> item g by_ m p d e -> p < e /\ item g by' m p d e)
    by (intros; eapply mp_item; eauto).
  assert (Mm : forall n, a <= n -> marked by_ n -> marked by' n) by (intros; eapply mp_marked; eauto).
  apply (nodes_ind g by_
    (fun E m p x p' X _ => a <= p -> a <= p' /\ gitem g by' E m p x p' X)
    (fun E m q t x p' X _ => a <= q -> a <= p' /\ gbody g by' E m q t x p' X)
    (fun E m p xs p' X _ => a <= p -> a <= p' /\ gitems g by' E m p xs p' X)
    (fun E m p kxs p' X _ => a <= p -> a <= p' /\ gpairs g by' E m p kxs p' X)).
  - intros E m p q t x p' X Ht Mk _ IH L. pose proof (proj1 Ht).
    destruct IH as (L' & S1); [lia|]. split; [exact L'|].
    eapply g_on; [apply Mt; eauto|apply Mm; [lia|exact Mk]|exact S1].
  - intros E m p q t x p' X Ht Mk _ IH L. pose proof (proj1 Ht).
    destruct IH as (L' & S1); [lia|]. split; [exact L'|].
    eapply g_off; [apply Mt; eauto|apply mp_unmarked; [lia|exact Mk]|exact S1].
  - intros E m q t d p' Hp Hi L. destruct (Mi _ _ _ _ L Hi). split; [lia|]. now apply g_plain.
  - intros E m q x p' X _ IH L. destruct IH as (L' & S1); [lia|]. split; [lia|]. now constructor.
  - intros E m q x p' X _ IH L. destruct IH as (L' & S1); [lia|]. split; [lia|]. now constructor.
  - intros E m q n r xs p' X Hv Hm Hn _ IH L. pose proof (vint_ends _ _ _ _ Hv).
    destruct IH as (L' & S1); [lia|]. split; [lia|]. econstructor; eauto.
  - intros E m q t xs p' X Hr Hn _ IH L. destruct IH as (L' & S1); [lia|]. split; [lia|]. econstructor; eauto.
  - intros E m q n r xs p' X Hv Hm Hn _ IH L. pose proof (vint_ends _ _ _ _ Hv).
    destruct IH as (L' & S1); [lia|]. split; [lia|]. econstructor; eauto.
  - intros E m q t xs p' X Hr Hn _ IH L. destruct IH as (L' & S1); [lia|]. split; [lia|]. econstructor; eauto.
  - intros E m q cls r x p' X Hs _ IH L.
    destruct (Ms _ _ _ _ (Nat.le_trans _ _ _ L (Nat.le_succ_diag_r q)) Hs).
    destruct IH as (L' & S1); [lia|]. split; [lia|]. econstructor; eauto.
  - intros E m q n r u cls e x p' X Hv Hlt Hr Hs _ IH L. pose proof (vint_ends _ _ _ _ Hv).
    destruct (Mr _ Hr).
    destruct IH as (L' & S1); [lia|]. split; [lia|]. eapply g_objectv; eauto.
  - intros E m q cls r s y p' X Hs Ha _ IH Hy Hz L.
    destruct (Ms _ _ _ _ (Nat.le_trans _ _ _ L (Nat.le_succ_diag_r q)) Hs).
    destruct IH as (L' & S1); [lia|]. split; [lia|]. eapply g_freeze; eauto. apply Ma; [lia|exact Ha].
  - intros E m q o r u cls e s y p' X Hv Hlt Hr Hs Ha _ IH Hy Hz L. pose proof (vint_ends _ _ _ _ Hv).
    destruct (Mr _ Hr).
    destruct IH as (L' & S1); [lia|]. split; [lia|]. eapply g_freezev; eauto. apply Ma; [lia|exact Ha].
  - intros E q n r x e X Hv Hlt Hr _ IH L. pose proof (vint_ends _ _ _ _ Hv).
    destruct (Mr _ Hr).
    destruct IH as (L' & S1); [lia|]. split; [lia|]. eapply g_copy; eauto.
  - intros E m q n r i Hv Hlt Nm L. pose proof (vint_ends _ _ _ _ Hv). split; [lia|]. eapply g_refp; eauto.
  - intros E m q n r i Hv Hlt Nm L. pose proof (vint_ends _ _ _ _ Hv). split; [lia|]. eapply g_alias; eauto.
  - intros. split; [auto|]. constructor.
  - intros E m p x r X xs p' Y _ IH1 _ IH2 L.
    destruct IH1 as (L1 & S1); auto. destruct IH2 as (L2 & S2); [assumption|].
    split; [auto|]. econstructor; eauto.
  - intros. split; [auto|]. constructor.
  - intros E m p k r x r' X kxs p' Y Hs _ IH1 _ IH2 L. destruct (Ms _ _ _ _ L Hs).
    destruct IH1 as (L1 & S1); [lia|]. destruct IH2 as (L2 & S2); [assumption|].
    split; [auto|]. econstructor; eauto.
Qed.
End Move.

(** in the Perl-compatible mode nothing becomes nil *)
Lemma nil_node_perl x : ~ nil_node true (fun _ => False) x.
Proof. induction x; cbn [nil_node]; try tauto; intros [H _]; discriminate. Qed.
Lemma fine_perl Z : forall x t B S, fine_node true Z t B S x -> fine_node true (fun _ => False) t B S x.
Proof.
  fix IH 1. intros x t B S. destruct x as [d|l|l|x|x|cls x|cls str x|x|i x|i|i]; cbn [fine_node].
  - auto.
  - induction l as [|y l IHl]; [auto|]. intros [H1 H2]. split; [eapply IH; exact H1|exact (IHl H2)].
  - induction l as [|[k y] l IHl]; [auto|]. intros [H1 H2]. split; [eapply IH; exact H1|exact (IHl H2)].
  - intros H. eapply IH. exact H.
  - intros H. eapply IH. exact H.
  - intros H. eapply IH. exact H.
  - intros H. eapply IH. exact H.
  - intros H. eapply IH. exact H.
  - intros [H1 H2]. split; [apply nil_node_perl|]. eapply IH. exact H2.
  - intros [H1 H2]. split; [exact H1|auto].
  - auto.
Qed.
Lemma followable_fine perl x : followable perl x ->
  exists Z, fine_node perl Z false [] [] x /\ (perl = true -> forall i, ~ Z i).
Proof.
  intros [Z F]. destruct perl.
  - exists (fun _ => False). split; [eapply fine_perl, F|auto].
  - exists Z. split; [exact F|discriminate].
Qed.

(** the marked items by their numbers *)
Definition marks (s : dstate) (i : nat) : gval :=
  match nth_of (d_tracked s) i with Some l => hget (d_heap s) l | None => GNil end.
Lemma val_marks C s i v : val C s i v -> marks s i = v.
Proof. intros (l & H & _ & D). unfold marks. rewrite H. now apply hget_cell. Qed.

Section Docs.
Variable k : codecs.
Variable c : dconfig.

Lemma gbody_decoded ver pre body d e ib l s : (1 <= length pre)%nat ->
  (Z.of_nat (length pre + length body) <= 281474976710656)%Z ->
  gbody_item (go_dialect c) ver pre body d e ->
  followable (d_perl c) d ->
  nth_error (d_heap s) ib = Some (CBuf (pre ++ body)) -> nth_error (d_heap s) l = Some (CV GNil) ->
  d_copy s = 0 -> d_tracked s = [] ->
  exists s' v,
    (if (ver =? 1)%N then run_decode c (pre ++ body) ib 0 (length pre) l ;; ret tt
     else if Nat.eqb (length pre) 0 then crash
     else match slice_from (pre ++ body) (length pre - 1) with
          | None => crash
          | Some by_ => run_decode c by_ ib (length pre - 1) 1 l ;; ret tt
          end) s = (Ok tt, s') /\
    frm (eq l) s s' /\ nth_error (d_heap s') l = Some (CV v) /\
    (exists L, shown (d_perl c) (d_noref c) (reg_of c)
      (fun x => x = ib \/ x = l \/ length (d_heap s) <= x < length (d_heap s')) (d_heap s')
      (fun i w => L i = w) v d).
Proof.
  intros Lp Lb (X & I) Fd Hib Hl Hc Ht.
  assert (Nl : l <> ib) by congruence.
  assert (G : forall by_ ishift start p f e', (Z.of_nat (length by_) < two63)%Z -> at_ (pre ++ body) ishift by_ ->
    gitem (go_dialect c start) by_ [] CAny p d e' X -> f = decode_fuel by_ ->
    exists s' v, runs (decode c by_ ib ishift f p l) s e' s' /\
      frm (eq l) s s' /\ nth_error (d_heap s') l = Some (CV v) /\
      (exists L, shown (d_perl c) (d_noref c) (reg_of c)
        (fun x => x = ib \/ x = l \/ length (d_heap s) <= x < length (d_heap s')) (d_heap s')
        (fun i w => L i = w) v d)).
  { intros by_ ishift start p f e' H1 H2 H3 ->.
    destruct (followable_fine _ _ Fd) as (Z & Fz & Zp).
    destruct (proj1 (decode_implements_nodes c by_ ib ishift (pre ++ body) start Z H1 H2 Zp) _ _ _ _ _ _ H3)
      as (L1 & L2 & D).
    destruct (D (decode_fuel by_) l [] [] (fun x => x = ib) s) as (s' & v & C' & R & A & Cp & Cv & V); auto.
    - rewrite Hc. unfold need, decode_fuel. lia.
    - split; [intros _ i []|]. split; [exact Hl|]. split; [exact Nl|]. split; [|split].
      + split; [exact Hib|]. split; [reflexivity|]. split.
        * intros x ->. eapply nth_error_Some_lt; eauto.
        * rewrite Ht. split; [reflexivity|]. split; intros i x H; destruct i; discriminate.
      + intros i. rewrite Ht. split; [intros []|]. destruct i; discriminate.
      + intros i x. rewrite Ht. destruct i; discriminate.
    - destruct A as (F & K & Bd & _ & (_ & _ & Lt & _) & _).
      exists s', v. split; [exact R|]. split; [exact F|]. split; [exact Cv|]. exists (marks s').
      refine (proj1 (shown_stable _ _ _ C' _ (d_heap s') (d_heap s') _ _ _ _) _ _ V).
      + intros x Hx. split; [|reflexivity]. destruct (Bd x Hx) as [->|[<-|Hge]]; auto.
      + intros i w. apply val_marks. }
  destruct (ver =? 1)%N.
  - destruct (G (pre ++ body) 0 (length pre) (length pre) (decode_fuel (pre ++ body)) (length pre + e))
      as (s' & v & R & H); auto.
    { rewrite app_length. unfold two63. lia. }
    { exists [], []. now rewrite app_nil_r. }
    exists s', v. split; [|exact H]. unfold run_decode, mbind. unfold runs in R. now rewrite R.
  - destruct (Nat.eqb_spec (length pre) 0); [lia|].
    destruct (exists_last (l := pre)) as (pre0 & x & ->); [intros ->; cbn in *; lia|].
    rewrite app_length in *. cbn [length] in *.
    replace (length pre0 + 1 - 1) with (length pre0) by lia.
    rewrite <- app_assoc in *. cbn [app] in *.
    assert (S : slice_from (pre0 ++ x :: body) (length pre0) = Some (x :: body)).
    { unfold slice_from. rewrite app_length, skipn_app_len. cbn.
      destruct (Nat.leb_spec (length pre0) (length pre0 + S (length body))); [reflexivity|lia]. }
    rewrite S.
    assert (I' : gitem (go_dialect c 1) (x :: body) [] CAny 1 d (1 + e) X).
    { eapply (proj1 (cycle_move (go_dialect c 1) (x00 :: body) (x :: body) 1 eq_refl
        ltac:(intros [|i] y Hi; [lia|auto]) (le_n 1))); [exact I|lia]. }
    destruct (G (x :: body) (length pre0) 1 1 (decode_fuel (x :: body)) (1 + e))
      as (s' & v & R & H); auto.
    { cbn [length]. unfold two63. lia. }
    { exists pre0, []. now rewrite app_nil_r. }
    exists s', v. split; [|exact H]. unfold run_decode, mbind. unfold runs in R. now rewrite R.
Qed.

Theorem unmarshal_gdocument b ver typ suffix d body e ib l s :
  gdocument (go_reader c) k b ver typ suffix d body e ->
  followable (d_perl c) d ->
  nth_error (d_heap s) ib = Some (CBuf b) -> nth_error (d_heap s) l = Some (CV GNil) ->
  d_copy s = 0 ->
  exists s' v, Unmarshal k c b ib (TgtIface l) s = (Ok tt, s') /\
    fills l (d_heap s) (d_heap s') v /\ d_copy s' = 0 /\
    (exists L, shown (d_perl c) (d_noref c) (reg_of c)
      (fun x => x = ib \/ x = l \/ length (d_heap s) <= x < length (d_heap s')) (d_heap s')
      (fun i w => L i = w) v d).
Proof.
  intros (pre & packed & -> & Hp & Pk & Lb & Lm & I) Fd Hib Hl Hc.
  cbn [go_reader r_packed r_memory r_dialect] in *. rewrite app_length in Lb.
  destruct (checkHeader_preamble _ _ _ _ packed Hp ltac:(lia)) as (sz & Ch & Lpre & Lsz).
  destruct (unpack k ver typ packed body (proj1 Hp) Pk ltac:(lia)) as (o & Dd & Ho).
  unfold Unmarshal, UnmarshalHeaderBody, unmarshal_raw.
  unfold mbind at 1. unfold lift at 1. rewrite Ch.
  unfold mbind at 1. unfold lift at 1. cbn [h_version h_doctype h_suffixSize]. rewrite Dd.
  assert (Eb : wrap64 (Z.of_nat headerSize + Z.of_nat (sz + length suffix)) = Z.of_nat (length pre)).
  { rewrite wrap64_small; unfold headerSize, two63 in *; lia. }
  rewrite Eb, Nat2Z.id. rewrite app_length.
  destruct ((Z.of_nat (length pre + length packed) <? Z.of_nat (length pre)) || (Z.of_nat (length pre) <? 0))%Z
    eqn:C; [lia|].
  unfold mbind at 1. unfold unmarshal_header. cbn [target_nil orb]. unfold ret at 1.
  unfold unmarshal_body. cbn [target_nil h_version].
  destruct o as [dk|].
  - set (nb := pre ++ body).
    set (s1 := mkDState (d_heap s ++ [CBuf nb]) [] (d_copy s) (d_made s)).
    destruct (gbody_decoded ver pre body d e (length (d_heap s)) l s1) as (s' & v & R & F & Cv & V); auto.
    { unfold headerSize in *. lia. }
    { lia. }
    { cbn. rewrite nth_error_app2, Nat.sub_diag by lia. reflexivity. }
    { cbn. now apply nth_error_app_l. }
    exists s', v. split; [|split; [|split]].
    + unfold mbind at 1. assert (Sl : slice_from (pre ++ packed) (length pre) = Some packed).
      { unfold slice_from. rewrite app_length, skipn_app_len.
        destruct (Nat.leb_spec (length pre) (length pre + length packed)); [reflexivity|lia]. }
      rewrite Sl. unfold mbind at 1. unfold lift at 1. rewrite Ho. cbv zeta. rewrite firstn_app_len.
      unfold mbind at 1. unfold alloc at 1. unfold ret at 1.
      unfold mbind at 1. unfold fresh_tracked at 1. cbn [with_heap d_heap d_copy d_made].
      fold nb. fold s1. unfold s1 in R at 1. unfold with_heap in *. cbn [d_made d_copy] in *.
      fold s1 in R. fold nb in R. rewrite R. reflexivity.
    + destruct F as (F1 & F2 & F3). cbn in F1, F2. rewrite app_length in F1, F2. cbn in F1, F2.
      split; [lia|]. split; [|exact Cv].
      intros x Lx Nx. rewrite F2; [|lia|congruence]. now rewrite nth_error_app1.
    + destruct F as (_ & _ & F3). rewrite F3. exact Hc.
    + destruct F as (F1 & F2 & F3). cbn in F1. rewrite app_length in F1. cbn in F1.
      destruct V as (L & V). exists L.
      refine (proj1 (shown_stable _ _ _ _ _ (d_heap s') (d_heap s') _ _ _ _) _ _ V); [|auto].
      intros x Hx. split; [|reflexivity]. right. destruct Hx as [->|[->|Hx]]; [lia|auto|].
      cbn in Hx. rewrite app_length in Hx. cbn in Hx. lia.
  - destruct Ho as [-> ->].
    set (s1 := mkDState (d_heap s) [] (d_copy s) (d_made s)).
    destruct (gbody_decoded ver pre body d e ib l s1) as (s' & v & R & F & Cv & V); auto.
    { unfold headerSize in *. lia. }
    { lia. }
    exists s', v. split; [|split; [|split]].
    + unfold mbind at 1. unfold ret at 1. unfold mbind at 1. unfold fresh_tracked at 1. fold s1.
      rewrite R. reflexivity.
    + destruct F as (F1 & F2 & F3). split; [exact F1|]. split; [|exact Cv].
      intros x Lx Nx. apply F2; auto.
    + destruct F as (_ & _ & F3). rewrite F3. exact Hc.
    + exact V.
Qed.
End Docs.

(** Unmarshal with a new Decoder succeeds with a value which is what [x] describes, the marked item
    number [i] being the value [L i] *)
Definition reads_node (k : codecs) (c : dconfig) (b : bytes) (x : node) : Prop :=
  exists h' v' L, unmarshal_fresh k c b = Ok (h', v') /\
    shown (d_perl c) (d_noref c) (reg_of c) (fun _ => True) h' (fun i w => L i = w) v' x.

Lemma gdocument_reads k c b ver typ suffix x body e :
  gdocument (go_reader c) k b ver typ suffix x body e -> followable (d_perl c) x -> reads_node k c b x.
Proof.
  intros D Fd.
  destruct (unmarshal_gdocument k c b ver typ suffix x body e 0 2 (fresh_state b)) as (s' & v & U & (_ & _ & Fv) & _ & L & V);
    auto.
  exists (d_heap s'), v, L. unfold unmarshal_fresh. rewrite U. cbn [bind].
  rewrite (hget_cell _ _ _ Fv). split; [reflexivity|].
  refine (proj1 (shown_stable _ _ _ _ _ (d_heap s') (d_heap s') _ _ _ _) _ _ V); auto.
Qed.

Lemma raw_is_gdocument rd k ver body x e : (1 <= ver <= 4)%N ->
  (N.of_nat (6 + length body) <= r_memory rd)%N ->
  gbody_item (r_dialect rd) ver (magic ver ++ [n2b ver; x00]) body x e ->
  gdocument rd k (raw_document ver body) ver 0 [] x body e.
Proof.
  intros V L I. exists (magic ver ++ [n2b ver; x00]), body.
  split; [unfold raw_document; now rewrite <- app_assoc|].
  split; [now apply raw_preamble|]. split; [constructor|].
  rewrite raw_length. split; [exact L|].
  assert (E : length (magic ver ++ [n2b ver; x00]) = 6) by (unfold magic; destruct (_ <? _)%N; reflexivity).
  rewrite E. split; [exact L|exact I].
Qed.
