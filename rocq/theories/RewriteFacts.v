(** Reading a document and writing it again. *)
From Verif Require Import Base BaseFacts SpecVarint Varint VarintFacts Tags GoMem Codecs TagsCache Encode
  Compress Header Decode Spec SpecValue SpecDoc SpecOptions SpecOutcome SpecRewrite GrammarFacts DecodeSpec ValueFacts
  JsonFacts EncodeSpec EncodeTerm Document DocFacts MarshalFacts OutcomeFacts Roundtrip RoundtripFacts Sim.
From Coq Require Import ZifyBool ZifyNat ZifyN Permutation.

(** what the length fields of a document allow *)
Section Bounded.
Variable M : N.
Inductive bounded : data -> Prop :=
| b_undef : bounded DUndef
| b_canon : bounded DCanon
| b_bool b : bounded (DBool b)
| b_int z : bounded (DInt z)
| b_f32 u : (u < 2 ^ 32)%N -> bounded (DF32 u)
| b_f64 u : (u < 2 ^ 64)%N -> bounded (DF64 u)
| b_str s : fits M s -> bounded (DStr s)
| b_bin s : fits M s -> bounded (DBin s)
| b_arr l : fits M l -> Forall bounded l -> bounded (DArr l)
| b_hash l : fits M l -> Forall (fun kd => fits M (fst kd) /\ bounded (snd kd)) l -> bounded (DHash l)
| b_ref d : bounded d -> bounded (DRef d)
| b_weak d : bounded d -> bounded (DWeak d)
| b_obj cls d : fits M cls -> bounded d -> bounded (DObj cls d)
| b_regexp p m : fits M p -> fits M m -> bounded (DRegexp p m)
| b_freeze cls s : bounded (DFreeze cls s).
End Bounded.

Lemma le_val_bound l : (le_val l < 2 ^ (8 * N.of_nat (length l)))%N.
Proof.
  induction l as [|b l IH]; [cbn; lia|]. cbn [le_val length]. pose proof (b2n_lt b).
  replace (8 * N.of_nat (S (length l)))%N with (8 + 8 * N.of_nat (length l))%N by lia.
  rewrite N.pow_add_r. change (2 ^ 8)%N with 256%N. lia.
Qed.

Section Grammar.
Variable g : dialect.
Variable by_ : bytes.
Hypothesis G : (31 <= g_max g)%N.

Lemma lit_fits p u s p' : strlit g by_ p u s p' -> fits (g_max g) s.
Proof. unfold fits. intros H. inversion H; subst; lia. Qed.
Lemma stringish_fits ok p s p' : stringish g by_ ok p s p' -> fits (g_max g) s.
Proof. intros H. inversion H; subst; eauto using lit_fits. Qed.

Lemma item_bounded :
  (forall m p d p', item g by_ m p d p' -> bounded (g_max g) d) /\
  (forall m p ds p', items g by_ m p ds p' -> Forall (bounded (g_max g)) ds) /\
  (forall m p kvs p', pairs g by_ m p kvs p' -> Forall (fun kd => fits (g_max g) (fst kd) /\ bounded (g_max g) (snd kd)) kvs).
Proof.
  apply grammar_ind; intros; try (constructor; eauto using stringish_fits, lit_fits; unfold fits; lia); auto.
  - constructor. pose proof (le_val_bound l) as B. rewrite e in B. exact B.
  - constructor. pose proof (le_val_bound l) as B. rewrite e in B. exact B.
  - apply lit_fits in s0. destruct u; constructor; auto.
  - do 2 constructor; auto. unfold fits. lia.
  - do 2 constructor; auto. unfold fits. lia.
Qed.
End Grammar.

Section Written.
Variable M : N.
Variable F : bytes -> bytes -> Prop.
Variable nofreeze : bool.
Variable lay : layout.
Variable reg : bytes -> option nat.
Variable P : loc -> Prop.
Variable h : heap.

Notation small := (bounded M).
Notation tree_ := (tree M F nofreeze lay h).
Notation trees_ := (trees M F nofreeze lay h).

Lemma read_tree :
  (forall v d, repr false reg P h v d -> small d -> thawed d = true -> exists n, tree_ v n [] /\ n <= nesting d) /\
  (forall l ds, reprs false reg P h l ds -> Forall small ds -> forallb thawed ds = true ->
     exists n, trees_ (cells h l (length ds)) n [] /\ n <= list_max (map nesting ds)) /\
  (forall m kvs, reprm false reg P h m kvs -> Forall (fun kd => fits M (fst kd) /\ small (snd kd)) kvs ->
     forallb (fun kd => thawed (snd kd)) kvs = true ->
     NoDup (map fst m) /\ length m <= length kvs /\
     (forall k v, In (k, v) m -> fits M k /\ exists n, tree_ v n [] /\ n <= list_max (map (fun kd => nesting (snd kd)) kvs))).
Proof.
  apply repr_mut_ind; intros; try discriminate; cbn [nesting thawed] in *.
  Ltac here K := inversion K; subst; eexists; split; [constructor; auto; unfold ikind_in; cbn; lia|lia].
  - here H.
  - here H.
  - here H.
  - inversion H; subst. eexists. split; [apply t_int; unfold ikind_in, two63 in *; cbn; lia|lia].
  - inversion H; subst. eexists. split; [apply t_int; unfold ikind_in, two63, two64 in *; cbn; lia|lia].
  - inversion H; subst. eexists. split; [now apply t_f32|lia].
  - inversion H; subst. eexists. split; [now apply t_f64|lia].
  - inversion H; subst. eexists. split; [now apply t_str|lia].
  - inversion H; subst. eexists. split; [now apply t_bytes|lia].
  - match goal with K : small _ |- _ => inversion K; subst end.
    destruct H as (n & T & L); auto. eexists. split; [apply t_slice; eauto|lia].
  - match goal with K : small _ |- _ => inversion K; subst end.
    destruct H as (N & L & A); auto.
    assert (Hm : hmap h l = m) by (unfold hmap; now rewrite e).
    assert (T : exists n, trees_ (map snd m) n [] /\ n <= list_max (map (fun kd => nesting (snd kd)) kvs)).
    { assert (A' : forall v, In v (map snd m) -> exists n, tree_ v n [] /\ n <= list_max (map (fun kd => nesting (snd kd)) kvs)).
      { intros v I. apply in_map_iff in I as ((k & v') & <- & I). destruct (A k v' I). auto. }
      revert A'. generalize (map snd m). clear. induction l as [|v l IH]; intros A.
      - exists 0. split; [constructor|lia].
      - destruct (A v) as (n & T & L); [now left|]. destruct IH as (n' & T' & L'); [intros; apply A; now right|].
        exists (Nat.max n n'). split; [|lia]. change (@nil addr) with (@nil addr ++ []). constructor; auto. intros a []. }
    destruct T as (n & T & Ln). exists (S n). split; [|lia]. apply t_map; rewrite Hm; auto.
    + unfold fits in *. lia.
    + intros k v I. now destruct (A k v I).
  - match goal with K : small _ |- _ => inversion K; subst end. auto.
  - match goal with K : small _ |- _ => inversion K; subst end. auto.
  - match goal with K : small _ |- _ => inversion K; subst end. auto.
  - match goal with K : small _ |- _ => inversion K; subst end. exists 1. split; [|lia].
    assert (Hg : hget h l = GRegexpV p m) by (unfold hget; now rewrite e).
    apply t_ptr_perl; rewrite Hg; [reflexivity|]. now apply t_regexp.
  - match goal with K : small _ |- _ => inversion K end.
  - exists 0. split; [constructor|lia].
  - match goal with K : Forall _ _ |- _ => inversion K; subst end.
    match goal with K : forallb _ _ = true |- _ => cbn [forallb] in K; apply andb_true_iff in K as [K1 K2] end.
    destruct H as (n & T & L); auto. destruct H0 as (n' & T' & L'); auto.
    exists (Nat.max n n'). cbn [length].
    change (list_max (map nesting (d :: ds))) with (Nat.max (nesting d) (list_max (map nesting ds))). split; [|lia].
    assert (Hg : hget h l = v) by (unfold hget; now rewrite e).
    change (cells h l (S (length ds))) with (hget h l :: cells h (S l) (length ds)). rewrite Hg.
    change (@nil addr) with (@nil addr ++ []). constructor; auto. intros a [].
  - split; [constructor|]. split; [apply Nat.le_refl|]. intros k v [].
  - match goal with K : Forall _ _ |- _ => apply Forall_app in K as [K1 K2]; inversion K2; subst end.
    match goal with K : forallb _ _ = true |- _ => rewrite forallb_app in K; apply andb_true_iff in K as [K3 K4] end.
    cbn [forallb snd fst] in *. apply andb_true_iff in K4 as [K4 _].
    destruct H as (N & L & A); auto. destruct H0 as (n' & T' & L'); [tauto|auto|].
    split; [now apply mput_NoDup|]. split.
    + rewrite app_length. cbn [length]. rewrite <- (map_length fst (mput m k v)), mput_keys.
      destruct (mget m k); rewrite ?app_length, map_length; cbn [length]; lia.
    + rewrite map_app, list_max_app. cbn [map list_max fold_right snd].
      intros k' v' I. assert (I2 := I). apply mput_in in I as [->|I].
      * split; [|exists n'; split; auto; lia].
        assert (I3 : In k' (map fst (mput m k v))) by (apply in_map_iff; exists (k', v); auto).
        rewrite mput_keys in I3. destruct (mget m k) eqn:E; [|apply in_app_iff in I3 as [I3|[<-|[]]]].
        1,2: apply in_map_iff in I3 as ((k1 & v1) & E1 & I3); cbn in E1; subst; now destruct (A _ _ I3).
        tauto.
      * destruct (A _ _ I) as (B & n & T & Ln). split; auto. exists n. split; auto. lia.
Qed.
End Written.

(** a value read from a document of default mode comes back with the same types *)
Lemma same_deep nofreeze pf reg0 reg P h h' :
  (forall v d, repr false reg P h v d -> thawed d = true -> forall v', same nofreeze pf reg0 h h' v v' ->
     bounded 2147483647 d -> deep h h' v v') /\
  (forall l ds, reprs false reg P h l ds -> forallb thawed ds = true -> Forall (bounded 2147483647) ds ->
     forall vs, sames nofreeze pf reg0 h h' (cells h l (length ds)) vs -> deeps h h' (cells h l (length ds)) vs) /\
  (forall m kvs, reprm false reg P h m kvs -> forallb (fun kd => thawed (snd kd)) kvs = true ->
     Forall (fun kd => bounded 2147483647 (snd kd)) kvs ->
     forall k v v', In (k, v) m -> same nofreeze pf reg0 h h' v v' -> deep h h' v v').
Proof.
  apply repr_mut_ind; intros; try discriminate; cbn [thawed] in *;
    try (match goal with K : same _ _ _ _ _ _ _ |- _ => inversion K; subst end; constructor; auto; fail).
  - match goal with K : same _ _ _ _ _ _ _ |- _ => inversion K; subst end. unfold int_result.
    destruct (Z.ltb_spec z two63); [constructor|lia].
  - match goal with K : same _ _ _ _ _ _ _ |- _ => inversion K; subst end. unfold int_result.
    destruct (Z.ltb_spec z two63); [lia|constructor].
  - match goal with K : same _ _ _ _ _ _ _ |- _ => inversion K; subst end.
    match goal with K : bounded _ _ |- _ => inversion K; subst end. constructor. auto.
  - match goal with K : same _ _ _ _ _ _ _ |- _ => inversion K; subst end.
    match goal with K : bounded _ _ |- _ => inversion K; subst end.
    assert (Hm : hmap h l = m) by (unfold hmap; now rewrite e).
    match goal with K : samem _ _ _ _ _ _ _ |- _ => inversion K; subst end.
    constructor; auto. intros k v v' G G'.
    match goal with K : Forall _ kvs |- _ => rename K into FB end.
    eapply H; eauto using mget_In. eapply Forall_impl; [|exact FB]. cbn. tauto.
  - match goal with K : bounded _ _ |- _ => inversion K; subst end. auto.
  - match goal with K : bounded _ _ |- _ => inversion K; subst end. auto.
  - match goal with K : bounded _ _ |- _ => inversion K; subst end. auto.
  - assert (Hg : hget h l = GRegexpV p m) by (unfold hget; now rewrite e).
    match goal with K : same _ _ _ _ _ _ _ |- _ => inversion K; subst end. rewrite Hg in *.
    match goal with K : same _ _ _ _ _ (GRegexpV _ _) _ |- _ => inversion K; subst end.
    constructor. rewrite Hg. match goal with K : hget h' _ = _ |- _ => rewrite K end. constructor; auto.
  - match goal with K : bounded _ _ |- _ => inversion K end.
  - cbn in *. inversion H1. constructor.
  - match goal with K : Forall _ _ |- _ => inversion K; subst end.
    match goal with K : forallb _ _ = true |- _ => cbn [forallb] in K; apply andb_true_iff in K as [K1 K2] end.
    cbn [length] in *. change (cells h l (S (length ds))) with (hget h l :: cells h (S l) (length ds)) in *.
    assert (Hg : hget h l = v) by (unfold hget; now rewrite e). rewrite Hg in *.
    match goal with K : sames _ _ _ _ _ _ _ |- _ => inversion K; subst end. constructor; auto.
  - contradiction.
  - match goal with K : Forall _ _ |- _ => apply Forall_app in K as [K1 K2]; inversion K2; subst end.
    match goal with K : forallb _ _ = true |- _ => rewrite forallb_app in K; apply andb_true_iff in K as [K3 K4] end.
    cbn [forallb snd fst] in *. apply andb_true_iff in K4 as [K4 _].
    match goal with K : In _ (mput _ _ _) |- _ => apply mput_in in K as [->|I] end; eauto.
Qed.

Section Rewrite.
Variable k : codecs.
Variable c c2 : dconfig.
Variable e : econfig.

Lemma document_bounded b ver typ suffix d body x : document (go_reader c) k b ver typ suffix d body x -> bounded 2147483647 d.
Proof.
  intros D. destruct D as (pre & packed & _ & _ & _ & _ & _ & I). unfold body_item in I. cbn [go_reader r_dialect] in I.
  assert (G : forall p, (31 <= g_max (go_dialect c p))%N) by (intros; cbn [go_dialect g_max]; lia).
  destruct (ver =? 1)%N; exact (proj1 (item_bounded _ _ (G _)) _ _ _ _ I).
Qed.

Theorem rewritten b ver typ suffix d body x : document (go_reader c) k b ver typ suffix d body x ->
  thawed d = true -> d_perl c = false -> d_perl c2 = false -> sane_world e -> (1 <= proto e <= 3)%N ->
  (Z.of_nat (nesting d) < depth_limit e)%Z ->
  exists h v b0, unmarshal_fresh k c b = Ok (h, v) /\
    outcome (fun n => Marshal k n (without_compression e) h v) (Ok b0) /\
    ((N.of_nat (length b0) <= 281474976710656)%N ->
     (exists h' v', unmarshal_fresh k c2 b0 = Ok (h', v') /\ deep h h' v v') /\
     (lossless k -> supported (proto e) (e_comp e) -> forall b1,
      outcome (fun n => Marshal k n e h v) (Ok b1) -> (N.of_nat (length b1) <= 2147483647)%N ->
      exists h' v', unmarshal_fresh k c2 b1 = Ok (h', v') /\ deep h h' v v')).
Proof.
  intros D T Pc Pc2 Hw Hv L. destruct (document_reads _ _ _ _ _ _ _ _ _ D) as (h & v & U & R). rewrite Pc in R.
  pose proof (document_bounded _ _ _ _ _ _ _ D) as B.
  destruct (proj1 (read_tree 2147483647 (g_frz (go_dialect c2 0)) (e_nofreeze e) (e_layout e) (reg_of c) (fun _ => True) h) v d R B T)
    as (n & Tr & Ln).
  destruct (roundtrip_outcome k c2 e h Hw Hv v n [] Tr ltac:(lia)) as (b0 & O & _ & _ & K).
  exists h, v, b0. split; [exact U|]. split; [exact O|]. intros Lb. destruct (K Lb) as (d' & Hd & Rd & Cm).
  assert (Q : forall b', reads k c2 b' d' -> exists h' v', unmarshal_fresh k c2 b' = Ok (h', v') /\ deep h h' v v').
  { intros b' Rb. destruct (reads_same k c2 e h b' v d' Pc2 Hd Rb) as (h' & v' & U' & S). exists h', v'. split; [exact U'|].
    eapply (proj1 (same_deep _ _ _ _ _ h h')); eauto. }
  split; [apply Q, Rd|]. intros Lo Su b1 O1 L1. apply Q. eapply Cm; eauto.
Qed.
End Rewrite.
