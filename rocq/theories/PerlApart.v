(** What Unmarshal returns with PerlCompat has no two pointers to the same place (C66). *)
From Verif Require Import Base BaseFacts SpecVarint Varint VarintFacts Tags GoMem Codecs Compress Header Decode DecodeSafe Spec SpecValue SpecDoc
  SpecRewrite SpecPerlRewrite DecodeSpec DecodeOwn Document DocFacts Roundtrip.
From Coq Require Import ZifyBool ZifyNat ZifyN.

Lemma hmap_cell h l m : nth_error h l = Some (CMap m) -> hmap h l = m.
Proof. unfold hmap. now intros ->. Qed.

Section PA.
Variable lay : layout.
Variable h : heap.
Variable v0 : gval.
Hypothesis Hlay : laid_out h lay v0.
Hypothesis Htext : forall l, reaches h v0 (GPtr true l) -> is_text (hget h l) = false.

Notation from := (reaches h v0).

Lemma from_trans v : reaches h v0 v -> forall w, reaches h v w -> from w.
Proof.
  generalize v0. clear. intros u. induction 1; intros u' H'; auto.
  - eapply re_slice; eauto.
  - eapply re_map; eauto.
  - eapply re_ptr; eauto.
  - eapply re_obj; eauto.
  - eapply re_weak; eauto.
Qed.

Definition addr_of (x : thing) : option addr :=
  match x with Var l => Some (at_cell lay l) | Place p => at_place lay p end.
Definition home (x : thing) : loc :=
  match x with
  | Var l | Place (PMap l) | Place (PSlice l) | Place (PBuf l _) | Place (PStr l) | Place (PBox l) => l
  | Place PCanon => 0
  end.

(** the addresses [A] are of things with cells in [P], or of small things if [0 < T] *)
Definition known (P : loc -> Prop) (T : nat) (A : list addr) : Prop := forall a, In a A ->
  exists x s, in_value h v0 x s /\ addr_of x = Some a /\ (if s : bool then 0 < T else P (home x)).

Lemma known_sub (P P' : loc -> Prop) T T' A : (forall x, P x -> P' x) -> T <= T' -> known P T A -> known P' T' A.
Proof.
  intros S L K a Ia. destruct (K a Ia) as (x & s & I & E & H). exists x, s. split; [exact I|]. split; [exact E|].
  destruct s; [lia|auto].
Qed.
Lemma known_app P T A B : known P T A -> known P T B -> known P T (A ++ B).
Proof. intros K1 K2 a Ia. apply in_app_iff in Ia as [Ia|Ia]; auto. Qed.
Lemma known_nil P T : known P T [].
Proof. intros a []. Qed.
Lemma known_place (P : loc -> Prop) T p s : in_value h v0 (Place p) s -> (if s : bool then 0 < T else P (home (Place p))) ->
  known P T (place_addr lay p).
Proof.
  intros I H a Ia. unfold place_addr in Ia. destruct (at_place lay p) as [b|] eqn:E; [|destruct Ia].
  destruct Ia as [<-|[]]. exists (Place p), s. auto.
Qed.

Lemma known_apart (P Q : loc -> Prop) T U A B : (forall x, P x -> Q x -> False) -> T + U <= 1 -> known P T A -> known Q U B -> disjoint A B.
Proof.
  intros D L K1 K2 a Ia Ib. destruct (K1 a Ia) as (x & s & I1 & E1 & H1). destruct (K2 a Ib) as (y & t & I2 & E2 & H2).
  destruct (Hlay x y s t a I1 I2 E1 E2) as [(-> & ->)|(-> & ->)]; [|lia].
  destruct t; [lia|eauto].
Qed.

Lemma owned_place P v d l b : owns h P v d -> from (GPtr b l) -> hget h l = v -> known (fun x => P x \/ x = l) (if small d then 1 else 0) (own_addr lay l v).
Proof.
  intros O F E. assert (F' : from v) by (eapply from_trans; [exact F|]; apply re_ptr; rewrite E; apply re_self).
  destruct O; cbn [own_addr]; try apply known_nil.
  - intros a [<-|[]]. exists (Var l0), false. split; [econstructor; exact F'|]. split; [reflexivity|]. now left.
  - apply (known_place _ _ _ true); [constructor; exact F'|cbn; lia].
  - eapply known_place; [eapply iv_str; eauto|]. cbn [small]. destruct (length s <=? 1); [lia|now right].
  - eapply known_place; [apply iv_bytes; exact F'|]. destruct s as [|x s]; cbn [length] in *.
    + rewrite H0. cbn. lia.
    + destruct (Nat.eqb_spec (vlen w) 0); [lia|]. left. exact H.
  - eapply known_place; [apply (iv_slice h v0 base n); exact F'|]. destruct ds as [|x ds]; cbn [length] in *; subst n.
    + cbn. lia.
    + cbn [Nat.eqb]. left. cbn. inversion H0; subst. assumption.
  - eapply known_place; [apply iv_map; exact F'|]. now left.
  - intros a [<-|[]]. exists (Var l0), false. split; [econstructor; exact F'|]. split; [reflexivity|]. now left.
  - eapply known_place; [eapply iv_weak; exact F'|]. now left.
  - eapply known_place; [eapply iv_obj; exact F'|]. now left.
  - intros a [<-|[]]. exists (Var l0), false. split; [econstructor; exact F'|]. split; [reflexivity|]. now left.
Qed.

Lemma owned_apart :
  (forall P v d, owns h P v d -> from v -> small_refs d <= 1 -> exists A, apart lay h v A /\ known P (small_refs d) A) /\
  (forall P l ds, ownss h P l ds -> (forall v, In v (cells h l (length ds)) -> from v) -> list_sum (map small_refs ds) <= 1 ->
     exists A, aparts lay h (cells h l (length ds)) A /\ known P (list_sum (map small_refs ds)) A) /\
  (forall P m n, ownsm h P m n -> (forall v, In v (map snd m) -> from v) -> n <= 1 ->
     exists A, aparts lay h (map snd m) A /\ known P n A).
Proof.
  apply (owns_mut_ind h
    (fun P v d _ => from v -> small_refs d <= 1 -> exists A, apart lay h v A /\ known P (small_refs d) A)
    (fun P l ds _ => (forall v, In v (cells h l (length ds)) -> from v) -> list_sum (map small_refs ds) <= 1 ->
       exists A, aparts lay h (cells h l (length ds)) A /\ known P (list_sum (map small_refs ds)) A)
    (fun P m n _ => (forall v, In v (map snd m) -> from v) -> n <= 1 ->
       exists A, aparts lay h (map snd m) A /\ known P n A)).
  - intros P l Pl E F L. exists []. split; [|apply known_nil]. apply ap_struct. now rewrite (hget_cell _ _ _ E).
  - intros. exists []. split; [now constructor|apply known_nil].
  - intros. exists []. split; [now constructor|apply known_nil].
  - intros. exists []. split; [now constructor|apply known_nil].
  - intros. exists []. split; [now constructor|apply known_nil].
  - intros. exists []. split; [now constructor|apply known_nil].
  - intros. exists []. split; [now constructor|apply known_nil].
  - intros. exists []. split; [now constructor|apply known_nil].
  - intros P base n ds -> _ IH F L. destruct IH as (A & Ap & K); auto.
    + intros v I. eapply from_trans; [exact F|]. eapply re_slice; [exact I|apply re_self].
    + exists A. split; [now constructor|exact K].
  - intros P Q l m n kvs Pl Sub E _ IH Ln F L. destruct IH as (A & Ap & K); [|lia|].
    + intros v I. eapply from_trans; [exact F|]. eapply re_map; [rewrite (hmap_cell _ _ _ E); exact I|apply re_self].
    + exists A. split; [constructor; now rewrite (hmap_cell _ _ _ E)|]. eapply known_sub; [|exact Ln|exact K]. intros x Hx. now apply Sub.
  - intros P Q b l v d Pl Sub E O IH F L. cbn [small_refs] in *. pose proof (hget_cell _ _ _ E) as Ev.
    assert (F' : from v) by (eapply from_trans; [exact F|]; apply re_ptr; rewrite Ev; apply re_self).
    destruct IH as (A & Ap & K); [exact F'|lia|].
    exists (at_cell lay l :: own_addr lay l (hget h l) ++ A). split.
    + constructor.
      * rewrite Ev. now destruct O.
      * destruct b; [cbn [andb]; now apply Htext|reflexivity].
      * now rewrite Ev.
      * intros I. destruct (K _ I) as (x & s & I1 & E1 & H1).
        destruct (Hlay x (Var l) s false _ I1 (iv_var _ _ _ _ F) E1 eq_refl) as [(-> & ->)|(_ & X)]; [|discriminate].
        now apply (Sub l) in H1.
    + intros a [<-|I].
      * exists (Var l), false. split; [econstructor; exact F|]. auto.
      * revert a I. change (known P ((if small d then 1 else 0) + small_refs d) (own_addr lay l (hget h l) ++ A)). apply known_app.
        -- rewrite Ev. eapply known_sub; [| |eapply owned_place; eauto]; [|lia]. intros x [Hx| ->]; [now apply Sub|exact Pl].
        -- eapply known_sub; [| |exact K]; [|lia]. intros x Hx. now apply Sub.
  - intros P Q l v d Pl Sub E O IH F L. cbn [small_refs] in *. pose proof (hget_cell _ _ _ E) as Ev.
    destruct IH as (A & Ap & K); [eapply from_trans; [exact F|]; apply re_weak; rewrite Ev; apply re_self|lia|].
    exists A. split; [constructor; now rewrite Ev|]. eapply known_sub; [|reflexivity|exact K]. intros x Hx. now apply Sub.
  - intros P Q cls l v d Pl Sub E O IH F L. cbn [small_refs] in *. pose proof (hget_cell _ _ _ E) as Ev.
    destruct IH as (A & Ap & K); [eapply from_trans; [exact F|]; apply re_obj; rewrite Ev; apply re_self|lia|].
    exists A. split; [constructor; now rewrite Ev|]. eapply known_sub; [|reflexivity|exact K]. intros x Hx. now apply Sub.
  - intros P l p m s1 s2 Pl E F L. exists []. split; [|apply known_nil]. apply ap_struct. now rewrite (hget_cell _ _ _ E).
  - intros. exists []. split; [constructor|apply known_nil].
  - intros P Q1 Q2 l v d ds Pl S1 S2 D E O IH1 _ IH2 F L. cbn [length map] in *. pose proof (hget_cell _ _ _ E) as Ev.
    change (list_sum (small_refs d :: map small_refs ds)) with (small_refs d + list_sum (map small_refs ds)) in *.
    assert (Ec : cells h l (S (length ds)) = v :: cells h (S l) (length ds)) by (unfold cells; cbn [seq map]; now rewrite Ev).
    rewrite Ec in *.
    destruct IH1 as (A & Ap & K1); [apply F; now left|lia|].
    destruct IH2 as (B & Bp & K2); [intros w I; apply F; now right|lia|].
    exists (A ++ B). split.
    + constructor; auto. eapply known_apart; [exact D| |exact K1|exact K2]. lia.
    + apply known_app; [eapply known_sub; [| |exact K1]; [|lia]; intros x Hx; now apply S1|eapply known_sub; [exact S2| |exact K2]; lia].
  - intros. exists []. split; [constructor|apply known_nil].
  - intros P Q1 Q2 k v d m n S1 S2 D O IH1 _ IH2 F L. cbn [map snd] in *.
    destruct IH1 as (A & Ap & K1); [apply F; now left|lia|].
    destruct IH2 as (B & Bp & K2); [intros w I; apply F; now right|lia|].
    exists (A ++ B). split.
    + constructor; auto. eapply known_apart; [exact D| |exact K1|exact K2]. lia.
    + apply known_app; [eapply known_sub; [exact S1| |exact K1]; lia|eapply known_sub; [exact S2| |exact K2]; lia].
Qed.
End PA.

Section Docs.
Variable k : codecs.
Variable c : dconfig.
Hypothesis Pl : d_perl c = true.

Lemma body_owned ver pre body d e ib l s : (1 <= length pre)%nat ->
  (Z.of_nat (length pre + length body) <= 281474976710656)%Z ->
  body_item CAny (go_dialect c) ver pre body d e ->
  nth_error (d_heap s) l = Some (CV GNil) -> d_copy s = 0 ->
  exists s' v,
    (if (ver =? 1)%N then run_decode c (pre ++ body) ib 0 (length pre) l ;; ret tt
     else if Nat.eqb (length pre) 0 then crash
     else match slice_from (pre ++ body) (length pre - 1) with
          | None => crash
          | Some by_ => run_decode c by_ ib (length pre - 1) 1 l ;; ret tt
          end) s = (Ok tt, s') /\
    nth_error (d_heap s') l = Some (CV v) /\ owns (d_heap s') (fun _ => True) v d.
Proof.
  intros Lp Lb I Hl Hc. unfold body_item in I.
  assert (W : forall h P v, owns h P v d -> owns h (fun _ => True) v d).
  { intros h P v O. eapply (proj1 (owns_stable h h)); [exact O|]. auto. }
  destruct (ver =? 1)%N.
  - destruct (decode_owns c (pre ++ body) ib 0 (length pre)) as (D & _ & _); auto.
    { rewrite app_length. unfold two63. lia. }
    destruct (D _ _ _ _ I) as (L1 & L2 & D').
    destruct (D' (decode_fuel (pre ++ body)) l s) as (s' & v & R & F & Cv & V); auto.
    { rewrite Hc. unfold need, decode_fuel. lia. }
    exists s', v. split; [|eauto]. unfold run_decode, mbind. unfold runs in R. now rewrite R.
  - destruct (Nat.eqb_spec (length pre) 0); [lia|].
    destruct (exists_last (l := pre)) as (pre0 & x & ->); [intros ->; cbn in *; lia|].
    rewrite app_length in *. cbn [length] in *.
    replace (length pre0 + 1 - 1) with (length pre0) by lia.
    rewrite <- app_assoc in *. cbn [app] in *.
    assert (S : slice_from (pre0 ++ x :: body) (length pre0) = Some (x :: body)).
    { unfold slice_from. rewrite app_length, skipn_app_len. cbn.
      destruct (Nat.leb_spec (length pre0) (length pre0 + S (length body))); [reflexivity|lia]. }
    rewrite S.
    apply (item_head _ x00 x) in I; [|reflexivity].
    destruct (decode_owns c (x :: body) ib (length pre0) 1) as (D & _ & _); auto.
    { cbn [length]. unfold two63. lia. }
    destruct (D _ _ _ _ I) as (L1 & L2 & D').
    destruct (D' (decode_fuel (x :: body)) l s) as (s' & v & R & F & Cv & V); auto.
    { rewrite Hc. unfold need, decode_fuel. lia. }
    exists s', v. split; [|eauto]. unfold run_decode, mbind. unfold runs in R. now rewrite R.
Qed.

Lemma unmarshal_owned b ver typ suffix d body e ib l s :
  document (go_reader c) k b ver typ suffix d body e ->
  nth_error (d_heap s) l = Some (CV GNil) -> d_copy s = 0 ->
  exists s' v, Unmarshal k c b ib (TgtIface l) s = (Ok tt, s') /\
    nth_error (d_heap s') l = Some (CV v) /\ owns (d_heap s') (fun _ => True) v d.
Proof.
  intros (pre & packed & -> & Hp & Pk & Lb & Lm & I) Hl Hc.
  cbn [go_reader r_packed r_memory r_dialect] in *. rewrite app_length in Lb.
  destruct (checkHeader_preamble _ _ _ _ packed Hp ltac:(lia)) as (sz & Ch & Lpre & Lsz).
  destruct (unpack k ver typ packed body (proj1 Hp) Pk ltac:(lia)) as (o & Dd & Ho).
  unfold Unmarshal, UnmarshalHeaderBody, unmarshal_raw.
  unfold mbind at 1. unfold lift at 1. rewrite Ch.
  unfold mbind at 1. unfold lift at 1. cbn [h_version h_doctype h_suffixSize]. rewrite Dd.
  assert (Eb : wrap64 (Z.of_nat headerSize + Z.of_nat (sz + length suffix)) = Z.of_nat (length pre)).
  { rewrite wrap64_small; unfold headerSize, two63 in *; lia. }
  rewrite Eb, Nat2Z.id. rewrite app_length.
  destruct ((Z.of_nat (length pre + length packed) <? Z.of_nat (length pre)) || (Z.of_nat (length pre) <? 0))%Z
    eqn:C; [lia|].
  unfold mbind at 1. unfold unmarshal_header. cbn [target_nil orb]. unfold ret at 1.
  unfold unmarshal_body. cbn [target_nil h_version].
  destruct o as [dk|].
  - set (nb := pre ++ body).
    set (s1 := mkDState (d_heap s ++ [CBuf nb]) [] (d_copy s) (d_made s)).
    destruct (body_owned ver pre body d e (length (d_heap s)) l s1) as (s' & v & R & Cv & V); auto.
    { unfold headerSize in *. lia. }
    { lia. }
    { cbn. now apply nth_error_app_l. }
    exists s', v. split; [|split; [exact Cv|exact V]].
    unfold mbind at 1. assert (Sl : slice_from (pre ++ packed) (length pre) = Some packed).
    { unfold slice_from. rewrite app_length, skipn_app_len.
      destruct (Nat.leb_spec (length pre) (length pre + length packed)); [reflexivity|lia]. }
    rewrite Sl. unfold mbind at 1. unfold lift at 1. rewrite Ho. cbv zeta. rewrite firstn_app_len.
    unfold mbind at 1. unfold alloc at 1. unfold ret at 1.
    unfold mbind at 1. unfold fresh_tracked at 1. cbn [with_heap d_heap d_copy d_made].
    fold nb. fold s1. unfold s1 in R at 1. unfold with_heap in *. cbn [d_made d_copy] in *.
    fold s1 in R. fold nb in R. rewrite R. reflexivity.
  - destruct Ho as [-> ->].
    set (s1 := mkDState (d_heap s) [] (d_copy s) (d_made s)).
    destruct (body_owned ver pre body d e ib l s1) as (s' & v & R & Cv & V); auto.
    { unfold headerSize in *. lia. }
    { lia. }
    exists s', v. split; [|split; [exact Cv|exact V]].
    unfold mbind at 1. unfold ret at 1. unfold mbind at 1. unfold fresh_tracked at 1. fold s1.
    rewrite R. reflexivity.
Qed.

Theorem unmarshal_apart b ver typ suffix d body e :
  document (go_reader c) k b ver typ suffix d body e -> small_refs d <= 1 ->
  exists h v, unmarshal_fresh k c b = Ok (h, v) /\
    forall lay, laid_out h lay v -> (forall l, reaches h v (GPtr true l) -> is_text (hget h l) = false) ->
    exists A, apart lay h v A.
Proof.
  intros D L. destruct (unmarshal_owned b ver typ suffix d body e 0 2 (fresh_state b) D) as (s' & v & U & Fv & O); auto.
  exists (d_heap s'), v. unfold unmarshal_fresh. rewrite U. cbn [bind]. rewrite (hget_cell _ _ _ Fv). split; [reflexivity|].
  intros lay Hl Ht. destruct (proj1 (owned_apart lay (d_heap s') v Hl Ht) _ _ _ O) as (A & Ap & _); [apply re_self|exact L|eauto].
Qed.
End Docs.
