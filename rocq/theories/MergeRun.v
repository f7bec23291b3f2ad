(** A whole run of a Merger: Append calls that succeed, then Finish. *)
From Verif Require Import Base BaseFacts SpecVarint Varint VarintFacts Tags Codecs Encode Compress Header
  GoMem Spec SpecDoc GrammarFacts DocFacts GoSlice RedocFacts Merge SpecMerge MergeFacts MergeItems.
From Coq Require Import ZifyBool ZifyNat ZifyN.
Ltac Zify.zify_post_hook ::= Z.div_mod_to_equations.

Lemma items_join gg V m ds' e : forall ds p r, items gg V m p ds r -> items gg V m r ds' e -> items gg V m p (ds ++ ds') e.
Proof.
  induction ds as [|x ds IH]; intros p r H K; inversion H; subst; [exact K|].
  cbn [app]. eapply is_cons; eauto.
Qed.

Lemma varint_five n : (n < 34359738368)%N -> 1 <= length (varint n) <= 5.
Proof.
  intros L. unfold varint. rewrite N.mod_small by lia.
  assert (H : forall j f n, (n < 2 ^ (7 * N.of_nat (S j)))%N -> 0 < f ->
    1 <= length (varint_loop f n) <= S j).
  { clear. induction j as [|j IH]; intros [|f] n L F; try lia; cbn [varint_loop]; destruct (N.ltb_spec n 128) as [L2|L2];
      try (split; cbn [length]; auto with arith; fail).
    - cbn [length]. change (2 ^ (7 * N.of_nat 1))%N with 128%N in L. lia.
    - cbn [length]. assert (P : (2 ^ (7 * N.of_nat (S (S j))) = 128 * 2 ^ (7 * N.of_nat (S j)))%N).
      { replace (7 * N.of_nat (S (S j)))%N with (7 + 7 * N.of_nat (S j))%N by lia. now rewrite N.pow_add_r. }
      rewrite P in L. assert (D : (N.shiftr n 7 = n / 128)%N) by (rewrite N.shiftr_div_pow2; reflexivity).
      destruct f as [|f]; [cbn; lia|].
      destruct (IH (S f) (N.shiftr n 7)); [rewrite D; lia|lia|]. lia. }
  apply (H 4 10 n); [|lia]. change (2 ^ (7 * N.of_nat 5))%N with 34359738368%N. exact L.
Qed.

Lemma wrap64_mod a : (wrap64 a mod two64 = a mod two64)%Z.
Proof.
  unfold wrap64, to_int, to_uint, two64, two63.
  rewrite Z2N.id by (apply Z.mod_pos_bound; reflexivity). rewrite Z.mod_mod by discriminate.
  destruct (_ <? _)%Z; lia.
Qed.
Lemma wrap64_eq a b : (a mod two64 = b mod two64)%Z -> wrap64 a = wrap64 b.
Proof. intros E. unfold wrap64, to_uint. now rewrite E. Qed.
Lemma wrap64_add a b : wrap64 (wrap64 a + b) = wrap64 (a + b).
Proof. apply wrap64_eq. rewrite Zplus_mod, wrap64_mod, <- Zplus_mod. reflexivity. Qed.
Lemma wrap64_diff a b : wrap64 (wrap64 (a + b) - a) = wrap64 b.
Proof.
  apply wrap64_eq. rewrite Zminus_mod, wrap64_mod, <- Zminus_mod. f_equal. lia.
Qed.

(** ** What expectedElements says of a document *)
Lemma tag_first by_ p q t b : tag_at by_ p q t -> nth_error by_ p = Some b -> ~ pad_byte b ->
  q = p /\ t = (b2n b mod 128)%N.
Proof.
  intros (L & P & x & Hx & -> & _) Hb Np. destruct (Nat.eq_dec p q) as [->|].
  - rewrite Hx in Hb. now injection Hb as ->.
  - destruct (P p) as (y & Hy & Py); [lia|]. rewrite Hy in Hb. injection Hb as ->. contradiction.
Qed.

Lemma array_first gg V m p dd e b : item gg V m p dd e -> m <> CAny -> nth_error V p = Some b -> ~ pad_byte b ->
  ((b2n b mod 128 = 43)%N -> exists ds n r, dd = DArr ds /\ vint V (S p) n r /\ N.of_nat (length ds) = n /\ (n <= g_max gg)%N /\ items gg V m r ds e) /\
  ((64 <= b2n b mod 128 < 80)%N -> exists ds, dd = DRef (DArr ds) /\ N.of_nat (length ds) = (b2n b mod 128 - 64)%N /\ items gg V m (S p) ds e) /\
  ((b2n b mod 128 = 40)%N -> exists d', dd = DRef d' /\ item gg V m (S p) d' e) /\
  ((b2n b mod 128 <> 43)%N -> forall ds, dd <> DArr ds) /\
  ((b2n b mod 128 <> 40)%N -> ~ (64 <= b2n b mod 128 < 80)%N -> forall ds, dd <> DRef (DArr ds)).
Proof.
  intros H Hm Hb Np.
  destruct H as [m p q t Ht R|m p q t Ht R|m p q n r Ht R|m p q n r Ht R|m p q l Ht R|m p q l Ht R|m p q Ht|m p q Ht|
     m p q Ht|m p q Ht|m p u s p' Hs|m p q d' p' Ht Hi|m p q d' p' Ht Hi|m p q n r ds p' Ht Hv Hx El Hi|m p q t ds p' Ht R El Hi|
     m p q n r ds p' Ht Hv Hx El Hi|m p q t ds p' Ht R El Hi|m p q cls r d' p' Ht|m p q n r u cls e d' p' Ht|
     m p q s1 r s2 p' Ht|m p q cls r n r' s p' Ht|m p q o r0 u cls e n r' s p' Ht|p q n r d' e Ht];
    try (now elim Hm);
    try (destruct (tag_first _ _ _ _ _ Ht Hb Np) as [Eq Et]; repeat split; try (intros; exfalso; lia); try (intros; discriminate)).
  - assert (T : (b2n b mod 128 = 38 \/ b2n b mod 128 = 39 \/ 96 <= b2n b mod 128 < 128)%N)
      by (destruct Hs as [? ? ? ? Ht|? ? ? ? ? Ht|? ? ? ? ? Ht]; destruct (tag_first _ _ _ _ _ Ht Hb Np) as [_ ?]; lia).
    destruct T as [E|[E|E]]; repeat split; intros; try (exfalso; lia); destruct u; discriminate.
  - intros _. subst q. eauto.
  - intros _. exists ds, n, r. subst q. auto.
  - intros _. exists ds. subst q t. auto.
Qed.

Lemma varintdecode_vint buf j n r : vint (x00 :: buf) (S j) n r -> varintdecode (skipn j buf) = VOk (to_int n) (r - S j) /\ S j <= r.
Proof.
  intros (l & (pre & post & E & Lp) & G & L & N & ->).
  destruct pre as [|x pre]; [discriminate|]. cbn in E, Lp. injection E as _ ->. injection Lp as <-. split; [|lia].
  rewrite skipn_app, skipn_all, Nat.sub_diag. cbn [app skipn].
  replace (S (length pre) + length l - S (length pre)) with (length l) by lia. now apply varintdecode_groups.
Qed.

Lemma expected_parts gg g buf dd e n skip : item gg (x00 :: buf) CKeys 1 dd e ->
  (Z.of_nat (length buf) < 2147483647)%Z ->
  (g_flat g = true -> plain_start buf) -> expectedElements g buf = Ok (n, skip) ->
  n = Z.of_nat (length (parts (g_flat g) (g_top g) dd)) /\
  items gg (x00 :: buf) CKeys (S skip) (parts (g_flat g) (g_top g) dd) e.
Proof.
  intros Hi Lb Ps. unfold expectedElements. destruct (g_flat g) eqn:Fl.
  2:{ intros [= <- <-]. replace (parts false (g_top g) dd) with [dd].
      - split; [reflexivity|]. eapply is_cons; [exact Hi|apply is_nil].
      - destruct dd as [| | | | | | | | | |d'|d'| | | |]; try reflexivity. now destruct d'. }
  specialize (Ps eq_refl). destruct buf as [|b0 [|b1 rest]]; try discriminate. cbn [plain_start] in Ps. destruct Ps as [P0 P1].
  assert (One : parts true (g_top g) dd = [dd] -> Ok (1%Z, 0) = Ok (n, skip) ->
     n = Z.of_nat (length (parts true (g_top g) dd)) /\ items gg (x00 :: b0 :: b1 :: rest) CKeys (S skip) (parts true (g_top g) dd) e).
  { intros -> [= <- <-]. split; [reflexivity|]. eapply is_cons; [exact Hi|apply is_nil]. }
  destruct (array_first _ _ _ _ _ _ b0 Hi ltac:(discriminate) eq_refl P0) as (A1 & A2 & A3 & A4 & A5).
  rewrite !untrack_mod. set (t0 := (b2n b0 mod 128)%N) in *. set (t1 := (b2n b1 mod 128)%N) in *.
  assert (Cnt : forall ds p p', items gg (x00 :: b0 :: b1 :: rest) CKeys p ds p' -> p <= length (x00 :: b0 :: b1 :: rest) ->
    (N.of_nat (length ds) < 2147483648)%N).
  { intros ds p p' Hs Lp. apply (proj2 (grammar_ends gg (x00 :: b0 :: b1 :: rest))) in Hs as [L1 L2]. specialize (L2 Lp).
    cbn [length] in *. lia. }
  destruct (N.eqb_spec (g_top g) 0) as [T0|T0].
  - rewrite T0 in *. destruct (N.eqb_spec t0 typeARRAY) as [E|E].
    + destruct (A1 E) as (ds & nn & r & -> & Hv & El & Hx & Hs). cbn [parts andb N.eqb].
      destruct (varintdecode_vint _ 1 _ _ Hv) as [V Lr]. rewrite V. intros [= <- <-].
      pose proof (vint_ends _ _ _ _ Hv) as Le. pose proof (Cnt _ _ _ Hs ltac:(lia)).
      rewrite to_int_small by (unfold two63; lia). split; [lia|].
      replace (S (r - 2 + 1)) with r by lia. exact Hs.
    + apply One. assert (N : forall ds, dd <> DArr ds) by (apply A4; exact E).
      destruct dd as [| | | | | | | |l| |d'|d'| | | |]; try reflexivity; [now elim (N l)|now destruct d'].
  - destruct (N.eqb_spec (g_top g) 1) as [T1|T1].
    + rewrite T1 in *. destruct (N.eqb_spec t0 typeREFN) as [E|E]; [destruct (N.eqb_spec t1 typeARRAY) as [E1|E1]|]; cbn [andb].
      * destruct (A3 E) as (d' & -> & Hi'). specialize (P1 E).
        destruct (array_first _ _ _ _ _ _ b1 Hi' ltac:(discriminate) eq_refl P1) as (B1 & _).
        destruct (B1 E1) as (ds & nn & r & -> & Hv & El & Hx & Hs). cbn [parts andb N.eqb Pos.eqb].
        destruct (varintdecode_vint _ 2 _ _ Hv) as [V Lr]. rewrite V. intros [= <- <-].
        pose proof (vint_ends _ _ _ _ Hv) as Le. pose proof (Cnt _ _ _ Hs ltac:(lia)).
        rewrite to_int_small by (unfold two63; lia). split; [lia|].
        replace (S (r - 3 + 2)) with r by lia. exact Hs.
      * destruct (A3 E) as (d' & -> & Hi'). specialize (P1 E).
        destruct (array_first _ _ _ _ _ _ b1 Hi' ltac:(discriminate) eq_refl P1) as (_ & _ & _ & B4 & _).
        unfold typeREFN, typeARRAYREF_0 in *. destruct (N.leb_spec 64 t0); [lia|]. cbn [andb].
        apply One. destruct d'; try reflexivity. exfalso. eapply B4; eauto.
      * destruct ((typeARRAYREF_0 <=? t0) && (t0 <? typeARRAYREF_0 + 16))%N eqn:C.
        -- unfold typeARRAYREF_0 in C. destruct (A2 ltac:(lia)) as (ds & -> & El & Hs).
           intros [= <- <-]. cbn [parts andb N.eqb Pos.eqb]. split; [|exact Hs].
           change 15%N with (N.ones 4). rewrite N.land_ones. change (2 ^ 4)%N with 16%N. lia.
        -- unfold typeARRAYREF_0 in C. apply One. assert (N : forall ds, dd <> DRef (DArr ds)) by (apply A5; [exact E|lia]).
           destruct dd as [| | | | | | | |l| |d'|d'| | | |]; try reflexivity. destruct d'; try reflexivity. now elim (N l).
    + apply One. destruct (N.eqb_spec (g_top g) 0) as [E|E]; [contradiction|]. destruct (N.eqb_spec (g_top g) 1) as [E'|E']; [contradiction|].
      unfold parts. destruct dd as [| | | | | | | |l| |d'|d'| | | |]; try reflexivity.
      * destruct (N.eqb_spec (g_top g) 0); [contradiction|reflexivity].
      * destruct d'; try reflexivity. destruct (N.eqb_spec (g_top g) 1); [contradiction|reflexivity].
Qed.

Lemma named_parts flat top d : named d -> named (DArr (parts flat top d)).
Proof.
  assert (O : named d -> named (DArr [d])) by (intros; cbn; auto).
  destruct d as [| | | | | | | |l| |d'|d'| | | |]; auto; cbn [parts].
  - destruct (flat && (top =? 0)%N); auto.
  - destruct d'; auto. destruct (flat && (top =? 1)%N); auto.
Qed.

Lemma skipn_add (a : bytes) i j : skipn i (skipn j a) = skipn (j + i) a.
Proof. revert a; induction j as [|j IH]; intros a; [reflexivity|]. destruct a as [|x a]; [now rewrite !skipn_nil|apply IH]. Qed.
Lemma skipn_overwrite (a : bytes) o i v : o + i <= length a -> skipn o (overwrite a (o + i) v) = overwrite (skipn o a) i v.
Proof.
  intros L. unfold overwrite. rewrite skipn_app, firstn_length, Nat.min_l by lia.
  replace (o - (o + i)) with 0 by lia. cbn [skipn]. rewrite skipn_firstn_comm, skipn_add.
  replace (o + i - o) with i by lia. now rewrite Nat.add_assoc.
Qed.
Lemma firstn_overwrite (a : bytes) n i v : i + length v <= n -> n <= length a -> firstn n (overwrite a i v) = overwrite (firstn n a) i v.
Proof.
  intros L La. unfold overwrite. rewrite firstn_app, firstn_firstn, firstn_length, (Nat.min_l i (length a)), Nat.min_r by lia.
  rewrite firstn_firstn, Nat.min_l by lia. f_equal. rewrite firstn_app, (firstn_all2 v) by lia. f_equal.
  rewrite skipn_firstn_comm. f_equal. lia.
Qed.

Lemma put_contents mem s i v : slice_ok mem s -> 0 < sl_len s -> i + length v <= sl_len s ->
  contents (upd mem (sl_arr s) (overwrite (array mem (sl_arr s)) (sl_off s + i) v)) s = overwrite (contents mem s) i v.
Proof.
  intros [O1 O2] P L. assert (La : sl_off s + sl_cap s <= length (array mem (sl_arr s))) by (destruct O2; lia).
  assert (sl_arr s < length mem) by (apply array_long; lia).
  unfold contents. rewrite array_upd_same by assumption.
  rewrite skipn_overwrite by lia. apply firstn_overwrite; [exact L|]. rewrite skipn_length. lia.
Qed.

Section Run.
Variable k : codecs.
Variable w : mworld.
Variable mx : N.
Variable ev : bool.
Variable nest : cmode.
Variable frz : bytes -> bytes -> Prop.
Notation dia s := (mkDialect s mx ev nest true frz).
Notation rd := (mkReader (fun s => dia s) 2147483647 281474976710656).

Lemma merger_doc_body b spare ver typ suffix dd body e : document_in CKeys rd k b ver typ suffix dd body e ->
  exists d, merger_doc k w b spare = Ok d /\ md_buf d = body.
Proof.
  intros (pre & packed & -> & P & Pk & L1 & L2 & _). cbn [r_memory r_packed] in *.
  destruct (readHeader_preamble ver typ suffix pre packed P) as (sz & Rh & Lp & Ls); [rewrite app_length in L1; lia|].
  destruct (unpack k ver typ packed body) as (o & Ho & Hp); [apply P|exact Pk|lia|].
  unfold merger_doc. rewrite Rh. cbn [bind h_suffixSize h_version h_doctype]. rewrite app_length in *.
  unfold headerSize in *. rewrite wrap64_small by (unfold two63; lia).
  destruct ((_ <? _) || (_ <? _))%Z eqn:C; [lia|].
  replace (Z.to_nat _) with (length pre) by lia. rewrite skipn_app_len, Ho.
  destruct o as [dk|]; [|destruct Hp as [_ ->]; eauto]. rewrite Hp. cbn [bind]. eauto.
Qed.

(** ** The state between calls *)
Definition lo (top : N) : nat := if (top =? 0)%N then 7 else 8.
Definition opening (top : N) : bytes := if (top =? 0)%N then [x2b] else [x28; x2b].
Definition slot : bytes := [x3f; x3f; x3f; x3f; x3f].
Definition hdr (ver : N) : bytes := magic ver ++ [n2b ver; x00].

Definition table (top : N) (V : bytes) (t : list (bytes * nat)) : Prop :=
  forall v o, assoc v t = Some o -> refers (dia (lo top)) V o /\ exists u e, strlit (dia (lo top)) V o u v e.

Record Minv (top ver : N) (m : merger) (ds : list data) : Prop := mkMinv {
  i_top : (top = 0 \/ top = 1)%N;
  i_inited : m_inited m = true; i_finished : m_finished m = false; i_version : m_version m = ver;
  i_bo : m_bodyOffset m = 5; i_lo : m_lenOffset m = lo top;
  i_len : m_length m = wrap64 (Z.of_nat (length ds));
  i_slice : slice_ok (m_mem m) (m_buf m); i_six : 6 <= sl_len (m_buf m);
  i_hdr : firstn 6 (contents (m_mem m) (m_buf m)) = hdr ver;
  i_view : exists rest, view (m_mem m) (m_buf m) = x00 :: opening top ++ slot ++ rest;
  i_items : items (dia (lo top)) (view (m_mem m) (m_buf m)) CKeys (lo top) ds (length (view (m_mem m) (m_buf m)));
  i_str : table top (view (m_mem m) (m_buf m)) (m_str m);
  i_obj : table top (view (m_mem m) (m_buf m)) (m_obj m)
}.

Definition out_version (v : N) : N := if (v =? 0)%N then 3%N else v.

Lemma lo_opening top : (top = 0 \/ top = 1)%N -> length (x00 :: opening top ++ slot) = lo top.
Proof. intros [->| ->]; reflexivity. Qed.

Lemma init_inv g v r m : (v = 0 \/ v = 2 \/ v = 3)%N -> initMerger w g (new_merger v) = (Ok r, m) ->
  Minv (g_top g) (out_version v) m [].
Proof.
  intros Hv. unfold initMerger. cbn [m_inited new_merger m_mem m_version m_length m_lenOffset m_bodyOffset m_finished].
  destruct (Nat.ltb 0 (g_expected g) && _); [discriminate|].
  set (ver := if (v =? 0)%N then ProtocolVersion else v).
  assert (Ev : ver = out_version v) by reflexivity. clearbody ver. subst ver.
  assert (Hv' : (out_version v = 2 \/ out_version v = 3)%N) by (unfold out_version; destruct Hv as [->|[->| ->]]; cbn; auto).
  remember (out_version v) as ver eqn:Ever. clear Hv.
  destruct (N.ltb_spec ProtocolVersion ver) as [L|_]; [unfold ProtocolVersion in L; lia|].
  set (start := put32le _ ++ [n2b ver]).
  assert (Es : start = magic ver ++ [n2b ver]) by (unfold start; destruct Hv' as [->| ->]; reflexivity). clearbody start.
  pose proof (make_with_contents [] start (Nat.max headerSize (g_expected g))) as M.
  destruct (make_with [] start _) as [s0 mem0]. destruct M as (C0 & L0 & O0 & _).
  pose proof (append_ok (w_grow w (length mem0)) mem0 s0 [x00] O0) as A1.
  pose proof (append_contents (w_grow w (length mem0)) mem0 s0 [x00] O0) as C1.
  unfold w_append at 1. destruct (append_slice _ mem0 s0 [x00]) as [s1 mem1]. destruct A1 as [O1 L1].
  assert (Ls : length start = 5) by (rewrite Es; destruct Hv' as [->| ->]; reflexivity).
  rewrite C0 in C1. rewrite L0, Ls in L1. cbn [length] in L1. rewrite L1. replace (5 + 1 - 1) with 5 by lia.
  match goal with |- match ?x with Some _ => _ | None => _ end = _ -> _ => destruct x as [tags|] eqn:Et; [|discriminate] end.
  assert (T : (g_top g = 0 \/ g_top g = 1)%N /\ tags = opening (g_top g)).
  { unfold opening. destruct (N.eqb_spec (g_top g) 0); [|destruct (N.eqb_spec (g_top g) 1); [|discriminate]];
      injection Et as <-; auto. }
  destruct T as [T ->]. clear Et.
  pose proof (append_ok (w_grow w (length mem1)) mem1 s1 (opening (g_top g)) O1) as A2.
  pose proof (append_contents (w_grow w (length mem1)) mem1 s1 (opening (g_top g)) O1) as C2.
  unfold w_append at 1. destruct (append_slice _ mem1 s1 _) as [s2 mem2]. destruct A2 as [O2 L2].
  change (repeat (n2b typePAD) 5) with slot.
  pose proof (append_ok (w_grow w (length mem2)) mem2 s2 slot O2) as A3.
  pose proof (append_contents (w_grow w (length mem2)) mem2 s2 slot O2) as C3.
  unfold w_append at 1. destruct (append_slice _ mem2 s2 _) as [s3 mem3]. destruct A3 as [O3 L3].
  intros [= _ <-].
  assert (V : view mem3 s3 = x00 :: opening (g_top g) ++ slot).
  { unfold view. rewrite C3, C2, C1, <- !app_assoc. rewrite skipn_app, Ls, skipn_all2 by lia. reflexivity. }
  assert (H6 : firstn 6 (contents mem3 s3) = hdr ver).
  { rewrite C3, C2, C1, Es. unfold hdr, magic. destruct Hv' as [->| ->]; reflexivity. }
  pose proof (lo_opening _ T) as Lo.
  split; cbn [m_inited m_finished m_version m_bodyOffset m_lenOffset m_length m_mem m_buf m_str m_obj];
    auto; try (intros ? ? ?; discriminate).
  - rewrite L2, L1. destruct T as [->| ->]; reflexivity.
  - lia.
  - exists []. rewrite V, app_nil_r. reflexivity.
  - rewrite V, Lo. apply is_nil.
Qed.

(** ** One Append *)
Lemma truncate_contents mem s (L : nat) : L <= sl_len s -> contents mem (mkSlice (sl_arr s) (sl_off s) L (sl_cap s)) = firstn L (contents mem s).
Proof. intros H. unfold contents. cbn [sl_len sl_off sl_arr]. now rewrite firstn_firstn, Nat.min_l by exact H. Qed.

Lemma tfind_new off l t : tfind off (map (fun i => (i, None)) l) = Some t -> False.
Proof. induction l as [|i l IH]; cbn; [discriminate|]. destruct (Nat.eqb i off); [discriminate|exact IH]. Qed.

Lemma append_step top ver g m ds b spare r m' ver' typ suffix dd body e :
  Minv top ver m ds -> g_dedupe g = false -> g_top g = top ->
  document_in CKeys rd k b ver' typ suffix dd body e -> ver' <> 1%N ->
  (Z.of_nat (length body) < 2147483647)%Z -> named dd ->
  (g_flat g = true -> plain_start body) -> Append k w g m b spare = (Ok r, m') ->
  Minv top ver m' (ds ++ parts (g_flat g) (g_top g) dd) /\ r = Z.of_nat (length (parts (g_flat g) (g_top g) dd)).
Proof.
  intros I Hd Ht Doc V1 Lb Hn Ps. unfold Append, initMerger. rewrite (i_inited _ _ _ _ I), (i_finished _ _ _ _ I).
  destruct (merger_doc_body _ spare _ _ _ _ _ _ Doc) as (d & -> & Ed). cbn [bind].
  assert (It : item (dia 1) (x00 :: body) CKeys 1 dd (1 + e)).
  { destruct Doc as (pre & packed & _ & _ & _ & _ & _ & B). unfold body_item in B.
    destruct (N.eqb_spec ver' 1); [contradiction|exact B]. }
  clear Doc. subst body. set (ps := parts (g_flat g) (g_top g) dd).
  destruct (buildTrackTable (md_buf d)) as [tracked|? |? | |]; cbn [bind]; try discriminate.
  pose proof (append_ok (w_grow w (length (m_mem m))) (m_mem m) (m_buf m) (md_buf d) (i_slice _ _ _ _ I)) as A.
  pose proof (append_contents (w_grow w (length (m_mem m))) (m_mem m) (m_buf m) (md_buf d) (i_slice _ _ _ _ I)) as C.
  unfold w_append. destruct (append_slice _ (m_mem m) (m_buf m) _) as [s mem]. destruct A as [[O1 O2] L].
  set (s1 := mkSlice (sl_arr s) (sl_off s) (sl_len (m_buf m)) (sl_cap s)).
  assert (C1 : contents mem s1 = contents (m_mem m) (m_buf m)).
  { unfold s1. rewrite truncate_contents, C, <- (contents_length _ _ (i_slice _ _ _ _ I)) by lia.
    now rewrite firstn_app, Nat.sub_diag, firstn_all, app_nil_r. }
  assert (Ok1 : slice_ok mem s1) by (split; cbn; [lia|exact O2]). clear C.
  unfold mergeItems. destruct (expectedElements g (md_buf d)) as [[n skip]|? |? | |] eqn:Ee; try discriminate.
  destruct (expected_parts _ _ _ _ _ _ _ It Lb Ps Ee) as [En Is]. fold ps in En, Is.
  assert (Sk : S skip <= length (x00 :: md_buf d)).
  { pose proof (proj1 (proj1 (proj2 (grammar_ends (dia 1) (x00 :: md_buf d))) _ _ _ _ Is)).
    pose proof (proj1 (grammar_ends (dia 1) (x00 :: md_buf d)) _ _ _ _ It). lia. }
  assert (Ln : (N.of_nat (length ps) < 2147483648)%N).
  { apply (proj2 (grammar_ends (dia 1) (x00 :: md_buf d))) in Is as [L1 L2]. specialize (L2 Sk). cbn [length] in L2, Sk. lia. }
  destruct ((n <? 0) || (maxUint32 <? n))%Z; [discriminate|].
  cbn [with_buf m_mem m_buf m_str m_obj m_bodyOffset]. rewrite (i_bo _ _ _ _ I).
  set (st := mkMState mem s1 (m_str m) (m_obj m) skip [Z.to_N n] (sorted_keys tracked) (map (fun i => (i, None)) tracked)).
  destruct (merge_loop w (S (length (md_buf d))) g 5 d st) as [rr fin] eqn:R.
  destruct rr as [[]|? |? | |]; try discriminate.
  assert (Vs : stv st = view (m_mem m) (m_buf m)) by (unfold stv, view, st; cbn [s_mem s_buf]; now rewrite C1).
  assert (At : at_pos w g d (hdr ver) 1 (lo top) mx ev nest frz fin st (S skip) (N.of_nat (length ps)) []).
  { split; [now exists (S (length (md_buf d)))|]. split; [|split; [reflexivity|]].
    - split; [split; [exact Ok1|split; [exact (i_six _ _ _ _ I)|cbn [s_mem s_buf]]]|split].
      + cbn [st s_mem s_buf]. etransitivity; [exact (f_equal (firstn 6) C1)|apply I].
      + split; [|split].
        * intros v o. rewrite Vs. apply (i_str _ _ _ _ I).
        * intros v o. rewrite Vs. apply (i_obj _ _ _ _ I).
        * intros off t bb F. now apply tfind_new in F.
      + rewrite Vs. destruct (i_view _ _ _ _ I) as [rest ->]. rewrite <- (lo_opening top (i_top _ _ _ _ I)).
        cbn [length]. rewrite !app_length. lia.
    - subst n. unfold st. cbn [s_stack]. replace (Z.to_N (Z.of_nat (length ps))) with (N.of_nat (length ps)) by lia. apply stk_here. }
  destruct (merged_items w g d (hdr ver) 1 (lo top) mx ev nest frz Lb Hd) as (_ & MI & _).
  destruct (MI _ _ _ _ Is ltac:(discriminate) ltac:(apply named_parts; exact Hn) _ _ _ At) as (st' & (R' & (G' & T' & _) & _ & K') & X' & I').
  assert (fin = st').
  { destruct K' as (z & K' & Z). eapply loop_ends; [exact R'|exact K'|]. apply Forall_app. split; [exact Z|].
    constructor; [reflexivity|constructor]. }
  subst st'. intros [= <- <-]. cbn [m_length with_buf]. rewrite (i_len _ _ _ _ I).
  assert (El : wrap64 (wrap64 (Z.of_nat (length ds)) + n) = wrap64 (Z.of_nat (length (ds ++ ps)))).
  { rewrite wrap64_add, app_length. f_equal. lia. }
  split.
  2:{ rewrite wrap64_diff, wrap64_small by (unfold two63; lia). exact En. }
  destruct G' as (G1 & G2 & G3). destruct T' as (T1 & T2 & _).
  split; cbn [m_inited m_finished m_version m_bodyOffset m_lenOffset m_length m_mem m_buf m_str m_obj with_buf];
    try apply I; auto.
  - destruct (i_view _ _ _ _ I) as [rest Er]. destruct X' as [x Ex]. exists (rest ++ x).
    change (view (s_mem fin) (s_buf fin)) with (stv fin). rewrite Ex, Vs, Er. cbn [app]. now rewrite <- !app_assoc.
  - change (view (s_mem fin) (s_buf fin)) with (stv fin). eapply items_join; [|exact I'].
    eapply items_ext; [exact X'|]. rewrite Vs. apply I.
Qed.

(** ** Finish *)
Lemma finished_body top ver m ds mem : Minv top ver m ds ->
  put_uvarint (m_mem m) (m_buf m) (m_lenOffset m) (m_length m) = Ok mem ->
  (ver = 2 \/ ver = 3)%N -> (N.of_nat (length ds) <= mx)%N -> (N.of_nat (length ds) < 34359738368)%N ->
  let out := contents mem (m_buf m) in
  length out = sl_len (m_buf m) /\ slice_ok mem (m_buf m) /\
  exists body e, out = hdr ver ++ body /\ item (dia 1) (x00 :: body) CKeys 1 (merged top ds) (1 + e).
Proof.
  intros I Pu Hv Lx L5 out. unfold put_uvarint in Pu.
  rewrite (i_len _ _ _ _ I), wrap64_small in Pu by (unfold two63; lia).
  set (v := varint (to_uint (Z.of_nat (length ds)))) in *.
  assert (Et : to_uint (Z.of_nat (length ds)) = N.of_nat (length ds)).
  { unfold to_uint. rewrite Z.mod_small by (unfold two64; lia). lia. }
  assert (Lv : 1 <= length v <= 5) by (unfold v; rewrite Et; apply varint_five; exact L5).
  assert (Gv : vgroups v (N.of_nat (length ds))) by (unfold v; rewrite Et; apply varint_groups; lia).
  clearbody v. destruct (Nat.leb_spec (m_lenOffset m + length v) (sl_len (m_buf m))) as [Lb|]; [|discriminate].
  injection Pu as Pu. rewrite (i_lo _ _ _ _ I) in *. subst mem.
  assert (Oc : out = overwrite (contents (m_mem m) (m_buf m)) (lo top) v).
  { unfold out. apply put_contents; [apply I|pose proof (i_six _ _ _ _ I); lia|exact Lb]. }
  pose proof (contents_length _ _ (i_slice _ _ _ _ I)) as Lc.
  assert (Lo : length out = sl_len (m_buf m)).
  { rewrite Oc, overwrite_length; [exact Lc|lia]. }
  split; [exact Lo|]. split.
  { destruct (i_slice _ _ _ _ I) as [O1 O2]. split; [exact O1|]. destruct O2 as [O2|O2]; [now left|right].
    destruct (Nat.eq_dec (sl_cap (m_buf m)) 0); [lia|].
    rewrite array_upd_same by (apply array_long; lia). rewrite overwrite_length by lia. exact O2. }
  destruct (i_view _ _ _ _ I) as [rest Vr]. pose proof (i_items _ _ _ _ I) as Is.
  pose proof (i_top _ _ _ _ I) as Top. pose proof (lo_opening _ Top) as Lop.
  assert (Lopen : length (opening top) = lo top - 6) by (destruct Top as [->| ->]; reflexivity).
  assert (Ge6 : 7 <= lo top) by (destruct Top as [->| ->]; cbn; lia).
  set (body := opening top ++ v ++ skipn (length v) slot ++ rest).
  assert (Ob : out = hdr ver ++ body).
  { rewrite Oc. rewrite <- (firstn_skipn 6 (contents (m_mem m) (m_buf m))), (i_hdr _ _ _ _ I).
    pose proof (f_equal (@tl byte) Vr) as Vt. unfold view in Vt. cbn [tl] in Vt. rewrite Vt.
    assert (Lh : length (hdr ver) = 6) by (destruct Hv as [->| ->]; reflexivity).
    unfold overwrite. rewrite firstn_app, (firstn_all2 (hdr ver)) by lia. rewrite Lh, <- Lopen.
    rewrite firstn_app, Nat.sub_diag, firstn_all, firstn_O, app_nil_r. rewrite <- app_assoc. f_equal.
    unfold body. f_equal. f_equal.
    rewrite skipn_app, (skipn_all2 (hdr ver)) by lia. cbn [app]. rewrite Lh.
    rewrite skipn_app, (skipn_all2 (opening top)) by lia. cbn [app].
    replace (lo top + length v - 6 - length (opening top)) with (length v) by lia.
    rewrite skipn_app. f_equal. replace (length v - length slot) with 0 by (cbn; lia). reflexivity. }
  set (V' := x00 :: body).
  rewrite Vr in Is. set (V := x00 :: opening top ++ slot ++ rest) in *.
  assert (Ls : length (v ++ skipn (length v) slot) = length slot).
  { rewrite app_length, skipn_length. cbn [length slot]. lia. }
  assert (LV : length V' = length V).
  { unfold V', V, body. cbn [length]. rewrite app_assoc, app_length, !(app_length (opening top)) in *.
    rewrite !app_length in *. lia. }
  assert (N5 : forall i, nth_error V (lo top + i) = nth_error rest i).
  { intros i. unfold V. replace (x00 :: opening top ++ slot ++ rest) with ((x00 :: opening top ++ slot) ++ rest)
      by (cbn [app]; now rewrite <- app_assoc).
    rewrite nth_error_app2, Lop by lia. f_equal. lia. }
  assert (N5' : forall i, nth_error V' (lo top + i) = nth_error rest i).
  { intros i. unfold V', body. replace (x00 :: opening top ++ v ++ skipn (length v) slot ++ rest)
      with ((x00 :: opening top ++ v ++ skipn (length v) slot) ++ rest)
      by (cbn [app]; now rewrite <- !app_assoc).
    assert (E : length (x00 :: opening top ++ v ++ skipn (length v) slot) = lo top).
    { rewrite <- Lop. cbn [length]. rewrite (app_length _ (v ++ _)), Ls, app_length. reflexivity. }
    rewrite nth_error_app2, E by lia. f_equal. lia. }
  assert (Is' : items (dia 1) V' CKeys (lo top) ds (length V')).
  { destruct (grammar_move (dia (lo top)) (dia 1) V V' (lo top) (lo top)) as (_ & Mv & _).
    - rewrite LV. lia.
    - intros i x. now rewrite N5, N5'.
    - cbn. lia.
    - auto.
    - apply mle_refl.
    - auto.
    - auto.
    - left. cbn [g_start]. lia.
    - destruct (Mv _ _ _ _ Is ltac:(lia)) as [_ Mv']. specialize (Mv' CKeys (mle_refl CKeys)). unfold mv in Mv'.
      replace (lo top - lo top + lo top) with (lo top) in Mv' by lia.
      assert (lo top <= length V) by (unfold V; cbn [length]; rewrite !app_length; cbn [length slot]; lia).
      replace (length V - lo top + lo top) with (length V) in Mv' by lia. now rewrite LV. }
  (* the array: its tag and the count *)
  set (p := lo top - 6). assert (Pp : p = length (opening top)) by (unfold p; lia).
  assert (Tag : tag_at V' p p 43).
  { split; [auto|]. split; [intros; lia|]. exists x2b. split; [|split; [reflexivity|discriminate]].
    unfold p, V', body. destruct Top as [->| ->]; reflexivity. }
  assert (Vi : vint V' (S p) (N.of_nat (length ds)) (S p + length v)).
  { exists v. split; [|split; [exact Gv|split; [lia|split; [lia|reflexivity]]]].
    exists (x00 :: opening top), (skipn (length v) slot ++ rest). split; [reflexivity|]. cbn [length]. lia. }
  assert (Pads : pads V' (S p + length v) (lo top)).
  { split; [unfold p; lia|]. intros i Hi. exists x3f. split; [|left; reflexivity].
    unfold V', body. replace (x00 :: opening top ++ v ++ skipn (length v) slot ++ rest)
      with ((x00 :: opening top ++ v) ++ skipn (length v) slot ++ rest)
      by (cbn [app]; now rewrite <- !app_assoc).
    rewrite nth_error_app2 by (cbn [length]; rewrite app_length; lia). cbn [length]. rewrite app_length, <- Pp.
    rewrite nth_error_app1 by (rewrite skipn_length; cbn [length slot]; unfold p in *; lia).
    assert (Sl : forall j n, j + n < 5 -> nth_error (skipn n slot) j = Some x3f).
    { clear. intros j n L. do 5 (destruct n as [|n]; [do 5 (destruct j as [|j]; [reflexivity || lia|]); lia|]). lia. }
    apply Sl. unfold p in *. lia. }
  assert (Arr : exists e, item (dia 1) V' CKeys p (DArr ds) (1 + e)).
  { destruct ds as [|x ds].
    - exists (p + length v). replace (1 + (p + length v)) with (S p + length v) by lia.
      eapply i_array; [exact Tag|exact Vi|exact Lx|reflexivity|apply is_nil].
    - exists (length V' - 1). replace (1 + (length V' - 1)) with (length V') by (unfold V'; cbn [length]; lia).
      eapply i_array; [exact Tag|exact Vi|exact Lx|reflexivity|].
      inversion Is'; subst. eapply is_cons; [eapply item_pads; eauto|eauto]. }
  destruct Arr as [e Arr]. exists body, e. split; [exact Ob|]. unfold merged.
  destruct Top as [Tp|Tp]; rewrite Tp.
  - assert (P1 : p = 1) by (unfold p; rewrite Tp; reflexivity). rewrite P1 in Arr. exact Arr.
  - assert (P2 : p = 2) by (unfold p; rewrite Tp; reflexivity). rewrite P2 in Arr.
    change (1 =? 0)%N with false. cbn iota. eapply i_refn with (q := 1); [|exact Arr].
    split; [auto|]. split; [intros; lia|]. exists x28. split; [unfold body; rewrite Tp; reflexivity|]. split; [reflexivity|discriminate].
Qed.

Lemma hdr_preamble ver : (ver = 2 \/ ver = 3)%N -> preamble ver 0 [] (hdr ver).
Proof.
  intros Hv. split; [lia|]. split; [lia|]. exists (n2b ver), [x00]. split; [|split; [|split]].
  - unfold hdr. rewrite app_nil_r. reflexivity.
  - destruct Hv as [->| ->]; reflexivity.
  - apply (vg_last x00). reflexivity.
  - cbn. lia.
Qed.

Lemma finish_document top ver g m ds out m' : Minv top ver m ds -> (ver = 2 \/ ver = 3)%N -> g_comp g = None ->
  (N.of_nat (length ds) <= mx)%N -> (N.of_nat (length ds) < 34359738368)%N -> (N.of_nat (length out) <= 281474976710656)%N ->
  Finish k w g m = (Ok out, m') ->
  exists body e, document_in CKeys rd k out ver 0 [] (merged top ds) body e.
Proof.
  intros I Hv Hc Lx L5 Lo. unfold Finish, initMerger. rewrite (i_inited _ _ _ _ I), (i_finished _ _ _ _ I).
  destruct (put_uvarint _ _ _ _) as [mem|? |? | |] eqn:Pu; try discriminate. rewrite Hc. intros [= <- _].
  cbn [set_finished m_mem m_buf] in *.
  destruct (finished_body _ _ _ _ _ I Pu Hv Lx L5) as (_ & _ & body & e & Eo & It).
  exists body, e. exists (hdr ver), body. split; [exact Eo|]. split; [now apply hdr_preamble|].
  split; [apply pk_raw|]. cbn [r_memory r_dialect]. split; [exact Lo|]. split; [rewrite Eo, app_length in Lo; exact Lo|].
  unfold body_item. destruct (N.eqb_spec ver 1); [lia|exact It].
Qed.
End Run.

Section Whole.
Variable k : codecs.
Variable w : mworld.
Variable mx : N.
Variable ev : bool.
Variable nest : cmode.
Variable frz : bytes -> bytes -> Prop.
Notation rd := (mkReader (fun s => mkDialect s mx ev nest true frz) 2147483647 281474976710656).

Lemma append_init g m r m1 b spare : initMerger w g m = (Ok r, m1) -> m_inited m1 = true ->
  Append k w g m b spare = Append k w g m1 b spare.
Proof. intros E I. unfold Append. rewrite E. unfold initMerger at 1. now rewrite I. Qed.
Lemma finish_init g m r m1 : initMerger w g m = (Ok r, m1) -> m_inited m1 = true ->
  Finish k w g m = Finish k w g m1.
Proof. intros E I. unfold Finish. rewrite E. unfold initMerger at 1. now rewrite I. Qed.

Definition adds (top : N) (c : call) (d : data) : list data := parts (g_flat (c_conf c)) top d.

Definition call_of (top : N) (c : call) (d : data) : Prop :=
  g_top (c_conf c) = top /\ g_dedupe (c_conf c) = false /\ source rd k (g_flat (c_conf c)) (c_doc c) d.

Fixpoint added (top : N) (calls : list call) (dds : list data) : list data :=
  match calls, dds with
  | c :: calls, d :: dds => adds top c d ++ added top calls dds
  | _, _ => []
  end.

Lemma one_call top ver m ds c d r m' : Minv mx ev nest frz top ver m ds -> call_of top c d ->
  Append k w (c_conf c) m (c_doc c) (c_spare c) = (Ok r, m') ->
  Minv mx ev nest frz top ver m' (ds ++ adds top c d) /\ r = Z.of_nat (length (adds top c d)).
Proof.
  intros I (Ht & Hd & Hn & ver' & typ & suffix & body & e & Doc & V1 & Lb & Hp) A. unfold adds. rewrite <- Ht in *.
  eapply append_step; eauto. lia.
Qed.

Lemma calls_inv top ver : forall calls dds m ds m', Minv mx ev nest frz top ver m ds ->
  Forall2 (call_of top) calls dds -> append_all k w m calls = Some m' ->
  Minv mx ev nest frz top ver m' (ds ++ added top calls dds).
Proof.
  induction calls as [|c calls IH]; intros dds m ds m' I F A; inversion F; subst; cbn [append_all added] in *.
  - injection A as <-. now rewrite app_nil_r.
  - destruct (Append k w (c_conf c) m (c_doc c) (c_spare c)) as [[r|? |? | |] m1] eqn:E; try discriminate.
    destruct (one_call _ _ _ _ _ _ _ _ I ltac:(eassumption) E) as [I1 _]. rewrite app_assoc. eapply IH; eauto.
Qed.

Theorem merge_document top v calls dds m g out m' :
  (v = 0 \/ v = 2 \/ v = 3)%N -> Forall2 (call_of top) calls dds ->
  append_all k w (new_merger v) calls = Some m -> g_top g = top -> g_comp g = None ->
  Finish k w g m = (Ok out, m') ->
  (N.of_nat (length (added top calls dds)) <= mx)%N -> (N.of_nat (length (added top calls dds)) < 34359738368)%N ->
  (N.of_nat (length out) <= 281474976710656)%N ->
  exists body e, document_in CKeys rd k out (out_version v) 0 [] (merged top (added top calls dds)) body e.
Proof.
  intros Hv F A Ht Hc Fi Lx L5 Lo.
  assert (Hv' : (out_version v = 2 \/ out_version v = 3)%N) by (unfold out_version; destruct Hv as [->|[->| ->]]; cbn; auto).
  assert (I : forall g r m1, g_top g = top -> initMerger w g (new_merger v) = (Ok r, m1) ->
    Minv mx ev nest frz top (out_version v) m1 []).
  { intros g1 r m1 T1 E. rewrite <- T1. eapply init_inv; eauto. }
  assert (J : exists m1, Minv mx ev nest frz top (out_version v) m1 (added top calls dds) /\ Finish k w g m1 = (Ok out, m')).
  { destruct calls as [|c calls].
    - inversion F; subst dds. cbn in A. injection A as <-.
      destruct (initMerger w g (new_merger v)) as [[r|? |? | |] m1] eqn:E;
        try (unfold Finish in Fi; rewrite E in Fi; discriminate).
      specialize (I _ _ _ Ht E). exists m1. split; [exact I|].
      rewrite <- (finish_init _ _ _ _ E); [exact Fi|apply I].
    - destruct (initMerger w (c_conf c) (new_merger v)) as [[r|? |? | |] m1] eqn:E;
        try (cbn in A; unfold Append in A; rewrite E in A; discriminate).
      assert (T1 : g_top (c_conf c) = top) by (inversion F; subst; match goal with H : call_of _ c _ |- _ => apply H end).
      specialize (I _ _ _ T1 E). exists m. split; [|exact Fi].
      change (added top (c :: calls) dds) with ([] ++ added top (c :: calls) dds).
      eapply calls_inv; [exact I|exact F|]. cbn [append_all] in *.
      rewrite <- (append_init _ _ _ _ _ _ E); [exact A|apply I]. }
  destruct J as (m1 & I1 & F1). subst top. eapply finish_document; eauto.
Qed.
End Whole.
