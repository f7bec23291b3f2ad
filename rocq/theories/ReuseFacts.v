(** Unmarshal into an interface{} variable that holds a value already. *)
From Verif Require Import Base BaseFacts Varint Tags GoMem GoTypes Codecs Compress Header Document Decode Typed TypedMem
  Spec SpecDoc SpecStore SpecReuse ShapeFacts TypedStore.
From Coq Require Import ZifyBool ZifyNat ZifyN.

Lemma upd_same A (l : list A) i x : nth_error l i = Some x -> upd l i x = l.
Proof.
  revert i. induction l as [|y l IH]; intros [|i]; cbn [nth_error upd]; intros E; try discriminate.
  - now injection E as ->.
  - now rewrite IH.
Qed.

Section Reuse.
Variable c : dconfig.
Variable v : goenv.
Hypothesis Hp : d_perl c = false.
Variable mem : memory.
Variable l : mloc.
Variable w : gval.
Hypothesis Hl : nth_error mem l = Some (MCell (MIface w)).
Hypothesis Hw : w <> GNil.

(** the variable holds [x] instead *)
Definition now_holds (x : gval) : memory := upd mem l (MCell (MIface x)).

Definition after (s : mstate) : Prop :=
  m_mem s = mem \/
  (exists p pat mods, m_mem s = now_holds (GPtr false p) /\ nth_error (d_heap (m_d s)) p = Some (CV (GRegexpV pat mods))) \/
  (exists t old data, w = GUserP t old /\ m_mem s = now_holds (GUserP t data)).

Definition post {A} (r : res A * mstate) : Prop :=
  match fst r with Ok _ => after (snd r) | _ => m_mem (snd r) = mem end.

(** so far only the variable itself was flagged *)
Definition inv (s : mstate) : Prop := m_mem s = mem /\
  forall i q, assoc_nat i (d_tracked (m_d s)) = Some q -> assoc_nat q (m_refs s) = Some (mkTref (l, []) TyIface Settable).

Lemma mv : mvar mem l = MIface w.
Proof. unfold mvar. now rewrite Hl. Qed.
Lemma now_same : now_holds w = mem.
Proof. apply upd_same, Hl. Qed.

Lemma lift_mem {A} (m : M A) s : m_mem (snd (lift_ m s)) = m_mem s.
Proof. unfold lift_. now destruct (m (m_d s)). Qed.

(** after [m] comes something that keeps the memory *)
Lemma post_lift {A B} (m : M A) (k : A -> TM B) s : m_mem s = mem ->
  (forall a s', lift_ m s = (Ok a, s') -> m_mem s' = mem -> post (k a s')) -> post (tbind (lift_ m) k s).
Proof.
  intros E K. pose proof (lift_mem m s) as L. rewrite E in L. unfold tbind.
  destruct (lift_ m s) as [[a| | | |] s'] eqn:R; try exact L. now apply K.
Qed.

Lemma varint_pure by_ i s a s' : lift_ (varint_at by_ i) s = (Ok a, s') -> s' = s.
Proof.
  unfold lift_, varint_at. destruct (slice_from by_ i) as [x|]; [|discriminate].
  destruct (varintdecode x); [|discriminate]. cbn. destruct s. now intros [= _ <-].
Qed.
Lemma class_pure by_ i b s a s' : lift_ (class_name by_ i b) s = (Ok a, s') -> s' = s.
Proof.
  unfold lift_. destruct (class_name by_ i b (m_d s)) as [r d] eqn:E. intros [= -> <-]. destruct a as [nm q].
  apply class_shape in E as [-> _]. now destruct s.
Qed.

Lemma regexp_runs by_ ibuf ishift i ptr d j d2 : decodeRegexp by_ ibuf ishift i ptr d = (Ok j, d2) ->
  exists p m, d_heap d2 = upd (d_heap d ++ [CV (GRegexpV p m)]) ptr (CV (GPtr false (length (d_heap d)))).
Proof.
  unfold decodeRegexp, mbind.
  destruct (decodeStringish by_ (Z.of_nat i) d) as [[[p e]| | | |] d1] eqn:R1; try discriminate.
  apply stringish_inv in R1 as [-> _].
  destruct (decodeStringish by_ (Z.of_nat e) d) as [[[m e']| | | |] d1] eqn:R2; try discriminate.
  apply stringish_inv in R2 as [-> _]. cbn. intros [= _ <-]. cbn. eauto.
Qed.

Section Body.
Variable by_ : bytes.
Variable ibuf : loc.
Variable ishift : nat.
Variable rec : gtype -> mref -> amode -> nat -> TM nat.
Variable urec : nat -> loc -> M nat.
Hypothesis IH : forall i s, inv s -> post (rec TyIface (l, []) Settable i s).

Lemma read_var s : m_mem s = mem -> read v (l, []) s = (Ok (MIface w), s).
Proof. intros E. unfold read, tbind, get_mem, tret, rd. cbn [fst snd getp]. now rewrite E, mv. Qed.

Lemma hash_post i ln s : m_mem s = mem -> post (mdecodeHash v by_ rec urec TyIface i ln (l, []) Settable s).
Proof.
  intros E. cbn [mdecodeHash]. destruct (_ || _); [exact E|]. destruct (_ <? _)%Z; [exact E|].
  unfold tbind at 1. rewrite read_var by exact E. exact E.
Qed.
Lemma array_post i ln s : m_mem s = mem -> post (mdecodeArray v by_ rec urec i ln TyIface (l, []) Settable s).
Proof.
  intros E. unfold mdecodeArray. destruct (_ || _); [exact E|]. destruct (_ <? _)%Z; [exact E|].
  unfold tbind, get_mem. cbn [fst snd]. exact E.
Qed.

Lemma refp_post i b s : inv s -> post (mdecodeRefp c v by_ TyIface Settable (l, []) i b s).
Proof.
  intros I. destruct (I) as [E T]. unfold mdecodeRefp. apply post_lift; [exact E|]. intros [offs sz] s1 R1 E1.
  apply varint_pure in R1 as ->. destruct (_ || _); [exact E|].
  apply post_lift; [exact E|]. intros t s1 R1 _. unfold lift_, get_tracked in R1. injection R1 as <- <-. cbn [m_d d_tracked] in *.
  destruct (assoc_nat (Z.to_nat offs) (d_tracked (m_d s))) as [q|] eqn:Q; [|exact E].
  unfold get_ref, tbind at 1. cbn [m_refs]. rewrite (T _ _ Q). cbn [tr_ref tr_md tr_ty].
  unfold tbind at 1. rewrite read_var by exact E. cbn [gtype_eqb].
  unfold mset, mcheck, write, set_cell, get_mem, tbind, tret, post. cbn [fst snd m_mem putp]. left.
  rewrite E. apply now_same.
Qed.

Lemma freeze_post i b s : m_mem s = mem -> post (mdecodeFreeze c v by_ urec TyIface (l, []) Settable i b s).
Proof.
  intros E. unfold mdecodeFreeze. apply post_lift; [exact E|]. intros [cls j] s1 _ E1. clear s E.
  destruct (Nat.leb _ _); [exact E1|]. destruct (nth_error by_ j); [|exact E1]. destruct (nth_error by_ (j + 1)); [|exact E1].
  destruct (negb _); [exact E1|].
  apply post_lift; [exact E1|]. intros l1 s2 _ E2. apply post_lift; [exact E2|]. intros j2 s3 _ E3.
  apply post_lift; [exact E3|]. intros x s4 _ E4. destruct x; try exact E4.
  destruct (negb _); [exact E4|]. apply post_lift; [exact E4|]. intros y s5 _ E5. destruct y; try exact E5.
  rewrite Hp. unfold tbind at 1. rewrite read_var by exact E5.
  destruct w eqn:W;
    try (unfold mcheck, tbind, tret, tfail, post; exact E5).
  destruct (d_unmarshal c _ _); [|exact E5].
  unfold write, set_cell, get_mem, tbind, tret, post. cbn [fst snd m_mem putp]. right. right.
  rewrite E5. exists t, d, v0. now split.
Qed.

Lemma tag_post k i s : inv s -> post (mdecode_tag c v by_ ibuf ishift rec urec k TyIface (l, []) Settable i s).
Proof.
  intros I. destruct (I) as [E T].
  destruct k; cbn [mdecode_tag]; rewrite ?Hp;
    try (exact E);
    try (apply post_lift; [exact E|]; intros [? ?] ? _ E1; exact E1);
    try (apply post_lift; [exact E|]; intros ? ? _ E1; exact E1);
    try (now apply IH); try (now apply refp_post); try (now apply freeze_post);
    try (now apply hash_post); try (now apply array_post).
  - apply post_lift; [exact E|]. intros [ln sz] s1 _ E1. now apply hash_post.
  - apply post_lift; [exact E|]. intros [ln sz] s1 _ E1. now apply array_post.
  - apply post_lift; [exact E|]. intros [ln sz] s1 _ E1. apply post_lift; [exact E1|]. intros [x j] s2 _ E2. exact E2.
  - apply post_lift; [exact E|]. intros [ln sz] s1 _ E1. apply post_lift; [exact E1|]. intros [x j] s2 _ E2.
    unfold msetBinary, tbind at 1 2. rewrite read_var by exact E2. exact E2.
  - now left.
  - now left.
  - apply post_lift; [exact E|]. intros d s1 R1 _. unfold lift_, get_copy in R1. injection R1 as <- <-.
    cbn [m_d] in *. destruct (Nat.ltb _ _); [exact E|].
    apply post_lift; [exact E|]. intros [offs sz] s1 R1 _. apply varint_pure in R1 as ->.
    destruct (_ || _); [exact E|].
    apply post_lift; [exact E|]. intros u s1 R1 _. unfold lift_, set_copy in R1. injection R1 as _ <-.
    match goal with |- post (tbind ?f _ ?s0) => set (s1 := s0); assert (I1 : inv s1) by exact I end.
    specialize (IH (Z.to_nat offs) s1 I1). unfold tbind.
    destruct (rec TyIface (l, []) Settable (Z.to_nat offs) s1) as [[j| | | |] s2]; exact IH.
  - apply post_lift; [exact E|]. intros l0 s1 R1 E1. unfold lift_, alloc in R1. injection R1 as <- <-. cbn [m_mem] in E1.
    apply post_lift; [exact E|]. intros j s2 R2 _. unfold lift_ in R2. cbn [m_d] in R2.
    destruct (decodeRegexp by_ ibuf ishift i (length (d_heap (m_d s))) _) as [r d2] eqn:D in R2. injection R2 as -> <-. cbn [m_mem m_refs].
    apply regexp_runs in D as (p & m & D). set (h1 := d_heap (m_d s)) in *. cbn [with_heap d_heap] in D.
    assert (Hg : hget (d_heap d2) (length h1) = GPtr false (S (length h1))).
    { rewrite D. unfold hget. rewrite nth_error_upd_same by (rewrite !app_length; cbn [length]; lia). f_equal. rewrite app_length. cbn [length]. lia. }
    assert (Hx : nth_error (d_heap d2) (S (length h1)) = Some (CV (GRegexpV p m))).
    { rewrite D. rewrite nth_error_upd_other by lia. rewrite nth_error_app2 by (rewrite app_length; cbn [length]; lia).
      rewrite app_length. cbn [length]. replace (_ - _) with 0 by lia. reflexivity. }
    unfold lift_, get_var, mset_iface, mset, mcheck, write, set_cell, get_mem, tbind, tret, post. cbn [fst snd m_d m_mem m_refs putp].
    right. left. exists (S (length h1)), p, m. cbn [m_mem m_d]. rewrite Hg, E. split; [reflexivity|exact Hx].
  - apply post_lift; [exact E|]. intros [cls j] s1 R1 _. apply class_pure in R1 as ->. now apply IH.
  - apply post_lift; [exact E|]. intros [cls j] s1 R1 _. apply class_pure in R1 as ->. now apply IH.
Qed.

Lemma body_post i s : inv s -> post (mdecode_body c v by_ ibuf ishift rec urec TyIface (l, []) Settable i s).
Proof.
  intros I. destruct (I) as [E T]. unfold mdecode_body. destruct (Nat.leb _ _); [exact E|].
  unfold tbind at 1. rewrite read_var by exact E.
  assert (K : post (match skip_pads (skipn i by_) i with
      | None => tfail ETruncated
      | Some (tagb, idx) =>
          do! _ := (if tracked_bit tagb then mtrack idx (l, []) TyIface Settable else tret tt) in
          mdecode_tag c v by_ ibuf ishift rec urec (tag_kind (untrack tagb)) TyIface (l, []) Settable (S idx)
      end s)).
  { destruct (skip_pads (skipn i by_) i) as [[t j]|]; [|exact E]. destruct (tracked_bit t); [|now apply tag_post].
    unfold mtrack, lift_, alloc, track, tbind at 1 2 3. cbn [m_d m_mem m_refs d_heap d_tracked d_copy d_made with_heap].
    apply tag_post. split; [exact E|]. cbn [m_d m_refs d_tracked]. intros i' q. cbn [assoc_nat].
    destruct (Nat.eqb j i'); [intros [= <-]; now rewrite Nat.eqb_refl|]. intros Q.
    destruct (Nat.eqb _ q) eqn:N; [reflexivity|]. now apply (T i'). }
  destruct w; try exact K. now destruct Hw.
Qed.
End Body.

Lemma mdecode_post by_ ibuf ishift f : forall i s, inv s -> post (mdecode c v by_ ibuf ishift f TyIface (l, []) Settable i s).
Proof.
  induction f as [|f IH]; intros i s I; cbn [mdecode]; [exact (proj1 I)|]. now apply body_post.
Qed.

Lemma drop_post {A B} (m : TM A) (b : B) s : post (m s) -> post (tbind m (fun _ => tret b) s).
Proof. unfold post, tbind. destruct (m s) as [[a| | | |] s']; auto. Qed.

Lemma raw_post k b ib s : m_mem s = mem -> m_refs s = [] -> post (unmarshal_mem_raw k c v b ib TyIface (l, []) s).
Proof.
  intros E Er. unfold unmarshal_mem_raw. apply post_lift; [exact E|]. intros hd s1 R1 _. unfold lift_, lift in R1. injection R1 as _ <-.
  apply post_lift; [exact E|]. intros dec s1 R1 _. unfold lift_, lift in R1. injection R1 as _ <-. cbn [m_d m_mem m_refs].
  destruct (_ || _); [exact E|]. unfold unmarshal_mbody.
  match goal with |- post (?f ?s0) => set (s1 := s0); assert (E1 : m_mem s1 = mem) by exact E; assert (Er1 : m_refs s1 = []) by exact Er end.
  assert (Go : forall b' ib' s2, m_mem s2 = mem -> m_refs s2 = [] ->
    post ((do! _ := lift_ fresh_tracked in
      if (h_version hd =? 1)%N then
        do! _ := mdecode c v b' ib' 0 (decode_fuel b') TyIface (l, []) Settable (Z.to_nat (wrap64 (Z.of_nat headerSize + h_suffixSize hd))) in tret tt
      else if Nat.eqb (Z.to_nat (wrap64 (Z.of_nat headerSize + h_suffixSize hd))) 0 then lift_ crash
      else match slice_from b' (Z.to_nat (wrap64 (Z.of_nat headerSize + h_suffixSize hd)) - 1) with
           | None => lift_ crash
           | Some by_ => do! _ := mdecode c v by_ ib' (Z.to_nat (wrap64 (Z.of_nat headerSize + h_suffixSize hd)) - 1) (decode_fuel by_) TyIface (l, []) Settable 1 in tret tt
           end) s2)).
  { intros b' ib' s2 E2 Er2. apply post_lift; [exact E2|]. intros u s3 R3 E3. unfold lift_, fresh_tracked in R3. injection R3 as _ <-.
    match goal with |- post (_ ?s0) => assert (I : inv s0) by (split; [exact E2|intros i q Q; discriminate Q]) end.
    destruct (_ =? _)%N; [apply drop_post, mdecode_post, I|]. destruct (Nat.eqb _ _); [exact E2|].
    destruct (slice_from _ _); [|exact E2]. apply drop_post, mdecode_post, I. }
  destruct dec as [dk|]; [|exact (Go b ib s1 E1 Er1)].
  destruct (slice_from b _) as [z|]; [|exact E1]. unfold tbind at 1.
  match goal with |- context [tbind ?m0 ?k0 s1] => change (tbind m0 k0 s1) with (tbind m0 k0 s1) end.
  unfold tbind at 1, lift_ at 1, lift at 1. destruct (decompress k dk z) as [d| | | |]; try exact E1.
  unfold tbind at 1, lift_ at 1, alloc at 1. unfold tret at 1. apply Go; [exact E1|exact Er1].
Qed.

End Reuse.

Theorem reuse_any k c v h mem b ib l w : d_perl c = false ->
  nth_error mem l = Some (MCell (MIface w)) -> w <> GNil ->
  match unmarshal_mem k c v h mem b ib TyIface (l, []) with
  | (Ok (h', mem''), mem') => mem'' = mem' /\
      (mem' = mem \/
       (exists p pat mods, mem' = upd mem l (MCell (MIface (GPtr false p))) /\ nth_error h' p = Some (CV (GRegexpV pat mods))) \/
       (exists t old data, w = GUserP t old /\ mem' = upd mem l (MCell (MIface (GUserP t data)))))
  | (_, mem') => mem' = mem
  end.
Proof.
  intros Hp Hl Hw. pose proof (raw_post c v Hp mem l w Hl Hw k b ib (mkM (mkDState h [] 0 []) mem []) eq_refl eq_refl) as P.
  unfold unmarshal_mem, post in *. destruct (unmarshal_mem_raw k c v b ib TyIface (l, []) _) as [o s] eqn:R.
  match type of R with ?a = _ => change (match fst a with Ok _ => after mem l w (snd a) | _ => m_mem (snd a) = mem end) in P; rewrite R in P end.
  destruct o as [u|x|x| |]; cbn [fst snd recovered bind] in *; try exact P. split; [reflexivity|exact P].
Qed.

Section Stores.
Variable v : goenv.
Variable leaf : gval -> data -> Prop.
Lemma stores_iface a ty cur d x : stores v leaf a ty cur d x -> forall w, ty = TyIface -> cur = VIface w -> w <> GNil ->
  ((bare d = DUndef \/ bare d = DCanon) /\ x = cur) \/ exists p m y, bare d = DRegexp p m /\ x = VIface y /\ leaf y (DRegexp p m).
Proof.
  induction 1; intros w Et Ec Nw; try discriminate; cbn [bare]; eauto.
  - congruence.
  - right. eauto 6.
  - subst. discriminate.
  - left. destruct H as [->| ->]; cbn [bare]; auto.
Qed.
End Stores.
