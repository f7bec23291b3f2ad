(** The results on merging in terms of the calls a client makes. *)
From Verif Require Import Base BaseFacts SpecVarint Varint VarintFacts Tags Codecs Encode Compress Header Decode
  Spec SpecDoc SpecOptions GrammarFacts DecodeSpec DocFacts Roundtrip GoSlice RedocFacts Merge SpecMerge MergeFacts MergeItems MergeRun
  MergeSafe MergeProps MergeFinish SpecTaken SpecCut SpecShape SpecAccept MergeShape MergeSim MergeCrash.
From Coq Require Import ZifyBool ZifyNat ZifyN.
Ltac Zify.zify_post_hook ::= Z.div_mod_to_equations.

(** ** Readers that do not insist on direct references *)
Lemma document_indirect m rd k b ver typ suffix d body e :
  document_in m (direct rd) k b ver typ suffix d body e -> document_in m rd k b ver typ suffix d body e.
Proof.
  intros (pre & packed & E & P & Pk & L1 & L2 & B). exists pre, packed.
  repeat (split; [assumption|]).
  assert (W : forall s by_ p d p', item (r_dialect (direct rd) s) by_ m p d p' -> item (r_dialect rd s) by_ m p d p').
  { clear. intros s by_ p d p' H.
    destruct (grammar_move (r_dialect (direct rd) s) (r_dialect rd s) by_ by_ 0 0) as (G & _ & _);
      auto using mle_refl; try (cbn; lia).
    specialize (G _ _ _ _ H (Nat.le_0_l _)) as [_ G]. specialize (G m (mle_refl m)).
    unfold mv in G. now rewrite !Nat.sub_0_r, !Nat.add_0_r in G. }
  unfold body_item in *. destruct (ver =? 1)%N; apply W; exact B.
Qed.

Section Api.
Variable k : codecs.
Variable w : mworld.

(** ** Documents without certain tags *)
Lemma elements_met g b sp d n skip : (Z.of_nat (length b) < two63)%Z -> merger_doc k w b sp = Ok d ->
  expectedElements g (md_buf d) = Ok (n, skip) -> (0 <= n)%Z ->
  body_taken k b (md_buf d) /\ elements (x00 :: md_buf d) (g_flat g) (g_top g) (Z.to_N n) (S skip).
Proof. intros L E X P. split; [exact (doc_taken k w b sp d L E)|eapply elements_of; eassumption]. Qed.

Lemma quiet_calm g b sp : (Z.of_nat (length b) < two63)%Z -> ~ refers k (g_flat g) (g_top g) b -> calm k w g b sp.
Proof.
  intros L U d n skip i E X P Mt x Hx. destruct (elements_met _ _ _ _ _ _ L E X P) as [B El]. rewrite tag_untrack.
  assert (M : meets k (g_flat g) (g_top g) b (tag_of x)) by (do 4 eexists; do 3 (split; [eassumption|]); exists x; auto).
  split; intros Q; rewrite Q in M; apply U; [left|right]; exact M.
Qed.

Lemma nameless_doc g b sp : (Z.of_nat (length b) < two63)%Z -> ~ names k (g_flat g) (g_top g) b ->
  forall d n skip, merger_doc k w b sp = Ok d -> expectedElements g (md_buf d) = Ok (n, skip) -> (0 <= n)%Z ->
  (n < 2147483648)%Z /\ forall i, met (x00 :: md_buf d) (S skip) (S i) -> nameless d i.
Proof.
  intros L U d n skip E X P. destruct (elements_met _ _ _ _ _ _ L E X P) as [B El]. split.
  { destruct (Z.lt_ge_cases n 2147483648) as [Q|Q]; [exact Q|]. exfalso. apply U. eapply nm_top; [exact B|exact El|lia]. }
  intros i Mt x Hx. cbn zeta. rewrite tag_untrack.
  assert (T : tag_on (x00 :: md_buf d) (S i) (tag_of x)) by (exists x; auto).
  assert (M : meets k (g_flat g) (g_top g) b (tag_of x)) by (do 4 eexists; do 3 (split; [eassumption|]); exact T).
  unfold typeHASH, typeHASHREF_0, typeOBJECT, typeOBJECT_FREEZE, typeARRAY.
  repeat split; try (intros Q; apply U; apply (nm_tag _ _ _ _ _ M); lia).
  intros Q ln sz V. destruct (Z.lt_ge_cases ln 2147483648) as [Lq|Lq]; [exact Lq|]. exfalso.
  destruct (count_vdec d (S i) ln sz V ltac:(lia)) as (m & C & -> & _). rewrite Q in T. apply U.
  eapply nm_array; [exact B|exact El|exact Mt|exact T|exact C|lia].
Qed.

(** ** Histories *)
Lemma each_new top v calls rs m : (v = 0 \/ v = 2 \/ v = 3)%N ->
  Forall (fun c => g_top (c_conf c) = top) calls -> append_each k w (new_merger v) calls = (rs, m) ->
  hist top v (total rs) m /\ (0 <= total rs)%Z /\ length rs = length calls /\
  Forall (fun r => (0 <= reported r <= 4294967295)%Z) rs.
Proof.
  intros Hv F E. destruct (each_hist k w top v Hv calls 0 (new_merger v) rs m (new_hist top v) F E) as (H & B & L).
  split; [exact H|]. split; [now apply total_nonneg|]. auto.
Qed.

(** a Finish that returns something, after initialisation *)
Lemma finish_after top v sum g m out m' : (v = 0 \/ v = 2 \/ v = 3)%N -> hist top v sum m -> g_top g = top ->
  g_comp g = None -> (0 <= sum < 34359738368)%Z -> Finish k w g m = (Ok out, m') ->
  exists m1, ready top (out_version v) sum m1 /\ m_finished m1 = false /\
    (m1 = m \/ exists u, initMerger w g m = (Ok u, m1)) /\
    skipn (lo top + 5) out = skipn (lo top + 5) (contents (m_mem m1) (m_buf m1)).
Proof.
  intros Hv Hi Ht Hc Hs H. destruct (hist_ready k w top v sum g m out m' Hv Hi Ht H) as (m1 & R & F & H1 & E).
  exists m1. split; [exact R|]. split; [exact F|]. split; [exact E|].
  assert (Hv' : (out_version v = 2 \/ out_version v = 3)%N) by (unfold out_version; destruct Hv as [->|[->| ->]]; cbn; auto).
  unfold Finish in H1. rewrite (init_ready w _ _ _ _ _ R), F in H1.
  destruct (put_ready _ _ _ _ R Hs Hv') as (mem & rest & Pu & _ & _ & Sk). rewrite Pu, Hc in H1. injection H1 as <- _.
  exact Sk.
Qed.

(** ** Two ways to start *)
Lemma init_state g v m u m1 : (v = 0 \/ v = 2 \/ v = 3)%N -> raw v m -> initMerger w g m = (Ok u, m1) ->
  contents (m_mem m1) (m_buf m1) = hdr (out_version v) ++ opening (g_top g) ++ slot /\
  m_str m1 = [] /\ m_obj m1 = [] /\ m_length m1 = 0%Z.
Proof.
  intros Hv (R1 & R2 & R3 & R4). unfold initMerger. rewrite R1.
  destruct (Nat.ltb 0 (g_expected g) && _); [discriminate|].
  set (ver := if (m_version m =? 0)%N then ProtocolVersion else m_version m).
  assert (Ev : ver = out_version v).
  { unfold ver, out_version, ProtocolVersion in *. destruct R4 as [->| ->]; [reflexivity|]. destruct Hv as [->|[->| ->]]; reflexivity. }
  clearbody ver.
  assert (Hv' : (ver = 2 \/ ver = 3)%N) by (rewrite Ev; unfold out_version; destruct Hv as [->|[->| ->]]; cbn; auto).
  destruct (N.ltb_spec ProtocolVersion ver) as [L|_]; [unfold ProtocolVersion in L; lia|].
  set (start := put32le _ ++ [n2b ver]).
  assert (Es : start = magic ver ++ [n2b ver]) by (unfold start; destruct Hv' as [->| ->]; reflexivity). clearbody start.
  pose proof (make_with_contents (m_mem m) start (Nat.max headerSize (g_expected g))) as M.
  destruct (make_with (m_mem m) start _) as [s0 mem0]. destruct M as (C0 & L0 & O0 & _).
  destruct (w_append w mem0 s0 [x00]) as [s1 mem1] eqn:A1. apply (w_append_ok _ _ _ _ _ _ O0) in A1 as (O1 & L1 & C1 & _).
  cbn [m_inited m_finished m_version m_bodyOffset m_lenOffset m_length m_mem m_buf m_str m_obj].
  match goal with |- match ?x with Some _ => _ | None => _ end = _ -> _ => destruct x as [tags|] eqn:Et; [|discriminate] end.
  assert (T : tags = opening (g_top g)).
  { unfold opening. destruct (N.eqb_spec (g_top g) 0); [|destruct (N.eqb_spec (g_top g) 1); [|discriminate]];
      injection Et as <-; auto. }
  subst tags.
  destruct (w_append w mem1 s1 _) as [s2 mem2] eqn:A2. apply (w_append_ok _ _ _ _ _ _ O1) in A2 as (O2 & L2 & C2 & _).
  change (repeat (n2b typePAD) 5) with slot.
  destruct (w_append w mem2 s2 _) as [s3 mem3] eqn:A3. apply (w_append_ok _ _ _ _ _ _ O2) in A3 as (O3 & L3 & C3 & _).
  intros [= _ <-]. cbn [m_inited m_finished m_version m_bodyOffset m_lenOffset m_length m_mem m_buf m_str m_obj].
  split; [|auto]. rewrite C3, C2, C1, C0, Es, Ev. unfold hdr. now rewrite <- !app_assoc.
Qed.

Lemma fresh_sim ga gb v m ua a ub b : (v = 0 \/ v = 2 \/ v = 3)%N -> raw v m -> g_top ga = g_top gb ->
  initMerger w ga m = (Ok ua, a) -> initMerger w gb m = (Ok ub, b) -> msim a b.
Proof.
  intros Hv R Et Ea Eb.
  destruct (init_state _ _ _ _ _ Hv R Ea) as (Ca & Sa & Oa & La). destruct (init_state _ _ _ _ _ Hv R Eb) as (Cb & Sb & Ob & Lb).
  pose proof (init_raw _ _ _ _ _ _ Hv R Ea) as [(_ & A1 & A2 & A3 & A4 & A5 & A6 & _) Fa].
  pose proof (init_raw _ _ _ _ _ _ Hv R Eb) as [(_ & B1 & B2 & B3 & B4 & B5 & B6 & _) Fb].
  repeat split; auto; try congruence; try apply A5; try apply B5. lia.
Qed.

(** the settings of calls that initialise successfully with this top level element *)
Definition startable (top : N) (g : mconfig) : Prop := g_top g = top /\ (g_expected g = 0 \/ 5 <= g_expected g).

(** Calls on a new Merger and on one just initialised agree. *)
Lemma fresh_each top v g m u m1 later gf : (v = 0 \/ v = 2 \/ v = 3)%N -> (top = 0 \/ top = 1)%N -> raw v m -> startable top g ->
  initMerger w g m = (Ok u, m1) ->
  Forall (fun c => startable top (c_conf c) /\ calm k w (c_conf c) (c_doc c) (c_spare c)) later -> startable top gf -> g_comp gf = None ->
  let '(r1, a) := append_each k w m later in let '(r2, b) := append_each k w m1 later in
  r1 = r2 /\ fst (Finish k w gf a) = fst (Finish k w gf b).
Proof.
  intros Hv Ht R Sg E F Sf Hc. destruct later as [|c later].
  - cbn [append_each]. split; [reflexivity|]. destruct Sf as [Tf Xf], Sg as [Tg Xg].
    destruct (init_succeeds w gf v m Hv R ltac:(now rewrite Tf) Xf) as (mf & Ef).
    rewrite (finish_init_any k w gf m _ mf Ef) by (eapply init_inited; eauto).
    apply finish_sim; [|exact Hc]. eapply fresh_sim; [exact Hv|exact R| |exact Ef|exact E]. congruence.
  - inversion F as [|? ? [[Tc Xc] Ca] Fl]; subst. destruct Sg as [Tg Xg].
    destruct (init_succeeds w (c_conf c) v m Hv R ltac:(assumption) Xc) as (mc & Ec).
    assert (Em : append_each k w m (c :: later) = append_each k w mc (c :: later)).
    { cbn [append_each]. now rewrite (append_init_any k w _ _ _ mc (c_doc c) (c_spare c) Ec) by (eapply init_inited; eauto). }
    rewrite Em. pose proof (fresh_sim _ _ _ _ _ _ _ _ Hv R ltac:(symmetry; exact Tg) Ec E) as Sm.
    pose proof (each_sim k w (c :: later) mc m1 Sm) as K.
    destruct (append_each k w mc (c :: later)) as [r1 a], (append_each k w m1 (c :: later)) as [r2 b].
    destruct K as [K1 K2]; [eapply Forall_impl; [|exact F]; intros x [_ Q]; exact Q|]. split; [exact K1|]. now apply finish_sim.
Qed.
End Api.
