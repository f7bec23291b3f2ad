(** Documents have one meaning. *)
From Verif Require Import Base BaseFacts SpecVarint Varint VarintFacts GoMem Codecs Spec SpecDoc SpecShare
  DecodeSpec DocFacts ShareDecode MergeFacts.
From Coq Require Import ZifyBool ZifyNat ZifyN.

Section Det.
Variable g g' : dialect.
Variable by_ : bytes.

Lemma stringish_det ok ok' p s e s' e' : stringish g by_ ok p s e -> stringish g' by_ ok' p s' e' ->
  s = s' /\ e = e'.
Proof.
  assert (C : forall g1 g2 p u s e q t, strlit g1 by_ p u s e -> tag_at by_ p q t -> t = 47%N -> stringish g2 by_ true p s e -> False).
  { intros g1 g2 p0 u0 s0 e0 q0 t0 A B -> _. destruct A; match goal with K : tag_at _ _ _ _ |- _ =>
      destruct (tag_det _ _ _ _ _ _ K B) as [_ K']; (discriminate || lia) end. }
  intros A B. destruct A as [p u s e A|p q n r u s e _ Ht Hv Lt _ A]; destruct B as [p u' s' e' B|p q' n' r' u' s' e' _ Ht' Hv' Lt' _ B].
  - destruct (strlit_det _ _ _ _ _ _ _ _ _ _ A B) as (_ & -> & ->). auto.
  - exfalso. eapply (C g g p); eauto. constructor 1 with u. auto.
  - exfalso. eapply (C g' g' p); eauto. constructor 1 with u'. auto.
  - destruct (tag_det _ _ _ _ _ _ Ht Ht') as [<- _]. destruct (vint_det _ _ _ _ _ _ Hv Hv') as [<- <-].
    destruct (strlit_det _ _ _ _ _ _ _ _ _ _ A B) as (_ & -> & _). auto.
Qed.

Lemma strlit_tag h p u s e : strlit h by_ p u s e ->
  exists q t, tag_at by_ p q t /\ (t = 38 /\ u = false \/ t = 39 /\ u = true \/ 96 <= t < 128 /\ u = false)%N.
Proof. intros A. destruct A; do 2 eexists; (split; [eassumption|]); lia. Qed.

Ltac tags := match goal with
  | A : tag_at by_ ?p _ _, B : tag_at by_ ?p _ _ |- _ =>
    lazymatch A with B => fail | _ =>
      let X := fresh "Eq" in let Y := fresh "Et" in destruct (tag_det _ _ _ _ _ _ A B) as [X Y];
      try discriminate Y; try (exfalso; lia); try subst; clear A
    end
  | A : strlit _ by_ ?p _ _ _, B : tag_at by_ ?p _ _ |- _ =>
    let q := fresh "q" in let t := fresh "t" in let T := fresh "T" in let R := fresh "R" in
    let X := fresh "Eq" in let Y := fresh "Et" in
    destruct (strlit_tag _ _ _ _ _ A) as (q & t & T & R);
    destruct (tag_det _ _ _ _ _ _ T B) as [X Y]; exfalso; lia
  | A : vint by_ ?p _ _, B : vint by_ ?p _ _ |- _ =>
    lazymatch A with B => fail | _ =>
      let X := fresh "Eq" in let Y := fresh "Et" in destruct (vint_det _ _ _ _ _ _ A B) as [X Y]; subst; clear A
    end
  | A : strlit _ by_ ?p _ _ _, B : strlit _ by_ ?p _ _ _ |- _ =>
    lazymatch A with B => fail | _ =>
      let X := fresh "Eq" in let Y := fresh "Et" in let Z := fresh "Ez" in destruct (strlit_det _ _ _ _ _ _ _ _ _ _ A B) as (X & Y & Z); subst; clear A
    end
  | A : stringish g by_ _ ?p _ _, B : stringish g' by_ _ ?p _ _ |- _ =>
      let X := fresh "Eq" in let Y := fresh "Et" in destruct (stringish_det _ _ _ _ _ _ _ A B) as (X & Y); subst; clear A
  | A : at_ by_ ?p ?l, B : at_ by_ ?p ?l', E : length ?l = _, E' : length ?l' = _ |- _ =>
    lazymatch A with B => fail | _ =>
      let X := fresh "Eq" in assert (X : l = l') by (eapply at_det; eauto; lia); subst; clear A
    end
  | IH : (forall m d p, item g' by_ m ?x d p -> _ = d /\ _ = p), A : item g' by_ _ ?x _ _ |- _ =>
    let X := fresh "Eq" in let Y := fresh "Et" in destruct (IH _ _ _ A) as [X Y]; clear IH; try discriminate X;
    try injection X as X; subst
  end.

Lemma item_det_ :
  (forall m p d e, item g by_ m p d e -> forall m' d' e', item g' by_ m' p d' e' -> d = d' /\ e = e') /\
  (forall m p ds e, items g by_ m p ds e -> forall m' ds' e', items g' by_ m' p ds' e' -> length ds = length ds' -> ds = ds' /\ e = e') /\
  (forall m p kvs e, pairs g by_ m p kvs e -> forall m' kvs' e', pairs g' by_ m' p kvs' e' -> length kvs = length kvs' -> kvs = kvs' /\ e = e').
Proof.
  apply (grammar_ind g by_); intros.
  all: try (match goal with K : item g' _ _ _ _ _ |- _ => inversion K; subst; clear K end).
  all: repeat tags; auto.
  all: try (match goal with A : items g' by_ _ ?x ?l _, IH : (forall m d p, items g' by_ m ?x _ _ -> _) |- _ =>
    destruct (IH _ _ _ A) as [? ?]; [lia|subst; auto] end).
  all: try (match goal with A : pairs g' by_ _ ?x ?l _, IH : (forall m d p, pairs g' by_ m ?x _ _ -> _) |- _ =>
    destruct (IH _ _ _ A) as [? ?]; [lia|subst; auto] end).
  - destruct ds'; [|discriminate]. inversion H; subst. auto.
  - destruct ds'; [discriminate|]. inversion H1; subst. repeat tags. injection H2 as H2.
    match goal with A : items g' by_ _ ?x ?l _, IH : (forall m d p, items g' by_ m ?x _ _ -> _) |- _ =>
    destruct (IH _ _ _ A) as [? ?]; [lia|subst; auto] end.
  - destruct kvs'; [|discriminate]. inversion H; subst. auto.
  - destruct kvs' as [|[k' d'] kvs']; [discriminate|]. inversion H1; subst. repeat tags. injection H2 as H2.
    match goal with A : pairs g' by_ _ ?x ?l _, IH : (forall m d p, pairs g' by_ m ?x _ _ -> _) |- _ =>
    destruct (IH _ _ _ A) as [? ?]; [lia|subst; auto] end.
Qed.

Ltac stags := match goal with
  | IH : (forall m d p X, sitem g' by_ ?E m ?x d p X -> _), A : sitem g' by_ ?E _ ?x _ _ _ |- _ =>
    let X := fresh "Eq" in let Y := fresh "Et" in let Z := fresh "Ez" in
    destruct (IH _ _ _ _ A) as (X & Y & Z); clear IH; try discriminate X;
    try injection X as X; subst
  end.

Lemma sitem_det_ :
  (forall E m p d e X, sitem g by_ E m p d e X -> forall m' d' e' X', sitem g' by_ E m' p d' e' X' -> d = d' /\ e = e' /\ X = X') /\
  (forall E m q t d e X, sbody g by_ E m q t d e X -> forall m' d' e' X', sbody g' by_ E m' q t d' e' X' -> d = d' /\ e = e' /\ X = X') /\
  (forall E m p ds e X, sitems g by_ E m p ds e X -> forall m' ds' e' X', sitems g' by_ E m' p ds' e' X' -> length ds = length ds' -> ds = ds' /\ e = e' /\ X = X') /\
  (forall E m p kvs e X, spairs g by_ E m p kvs e X -> forall m' kvs' e' X', spairs g' by_ E m' p kvs' e' X' -> length kvs = length kvs' -> kvs = kvs' /\ e = e' /\ X = X').
Proof.
  apply (shared_ind g by_); intros.
  all: try (match goal with K : sbody g' _ _ _ _ _ _ _ _ |- _ => inversion K; subst; clear K end).
  all: try (match goal with K : plain_tag _ |- _ => exfalso; unfold plain_tag in K; lia end).
  all: try (exfalso; lia).
  all: repeat tags; repeat stags; auto.
  all: try (match goal with A : sitems g' by_ _ _ ?x ?l _ _, IH : (forall m d p X, sitems g' by_ _ m ?x _ _ _ -> _) |- _ =>
    destruct (IH _ _ _ _ A) as (? & ? & ?); [lia|subst; auto] end).
  all: try (match goal with A : spairs g' by_ _ _ ?x ?l _ _, IH : (forall m d p X, spairs g' by_ _ m ?x _ _ _ -> _) |- _ =>
    destruct (IH _ _ _ _ A) as (? & ? & ?); [lia|subst; auto] end).
  - inversion H0; subst. repeat tags.
    match goal with A : sbody g' by_ _ _ ?x ?t _ _ _ |- _ => destruct (H _ _ _ _ A) as (? & ? & ?) end. subst. auto.
  - match goal with A : item g' by_ _ ?x _ _, B : item g by_ _ ?x _ _ |- _ => destruct (proj1 item_det_ _ _ _ _ B _ _ _ A) as [? ?] end.
    subst. auto.
  - match goal with A : look _ _ = _, B : look _ _ = _ |- _ => rewrite A in B; injection B as B end. subst. auto.
  - match goal with A : look _ _ = _, B : look _ _ = _ |- _ => rewrite A in B; injection B as B end. subst. auto.
  - destruct ds'; [|discriminate]. inversion H; subst. auto.
  - destruct ds'; [discriminate|]. inversion H1; subst. injection H2 as H2. stags.
    match goal with A : sitems g' by_ _ _ ?x ?l _ _, IH : (forall m d p X, sitems g' by_ _ m ?x _ _ _ -> _) |- _ =>
    destruct (IH _ _ _ _ A) as (? & ? & ?); [lia|subst; auto] end.
  - destruct kvs'; [|discriminate]. inversion H; subst. auto.
  - destruct kvs' as [|[k' d'] kvs']; [discriminate|]. inversion H1; subst. injection H2 as H2. repeat tags. stags.
    match goal with A : spairs g' by_ _ _ ?x ?l _ _, IH : (forall m d p X, spairs g' by_ _ m ?x _ _ _ -> _) |- _ =>
    destruct (IH _ _ _ _ A) as (? & ? & ?); [lia|subst; auto] end.
Qed.
End Det.

(** * Whole documents *)
Lemma vgroups_split l n : vgroups l n -> forall l' n' x x', vgroups l' n' -> l ++ x = l' ++ x' ->
  l = l' /\ n = n' /\ x = x'.
Proof.
  intros G. induction G as [b Lb|b l n Lb G IH]; intros l' n' x x' G' E; destruct G' as [b' Lb'|b' l' n' Lb' G'];
    cbn [app] in E; injection E as E1 E2; subst b'; try lia.
  - subst. auto.
  - destruct (IH _ _ _ _ G' E2) as (<- & <- & <-). auto.
Qed.

Lemma app_same_len : forall (a a' x x' : bytes), a ++ x = a' ++ x' -> length a = length a' -> a = a' /\ x = x'.
Proof.
  induction a as [|b a IH]; intros [|b' a'] x x' E L; try discriminate; auto. cbn [app length] in *.
  injection E as -> E. destruct (IH _ _ _ E ltac:(lia)) as [-> ->]. auto.
Qed.

Lemma counted_det lim lim' packed z rest z' rest' : counted lim packed z rest -> counted lim' packed z' rest' ->
  z = z' /\ rest = rest'.
Proof.
  intros (l & -> & G & _) (l' & E & G' & _).
  destruct (vgroups_split _ _ G _ _ _ _ G' E) as (_ & En & Ez). apply Nat2N.inj in En.
  now apply app_same_len.
Qed.

Lemma packing_det k lim lim' ver typ packed body body' : packing k lim ver typ packed body ->
  packing k lim' ver typ packed body' -> body = body'.
Proof.
  intros A B. destruct A as [body|z body V D|packed z rest body C D|ulen packed z rest body V G L C O D|packed z rest body V C D].
  - inversion B; subst; reflexivity.
  - inversion B; subst; congruence.
  - inversion B as [| |p2 z' r2 b2 C' D'| |]; subst. destruct (counted_det _ _ _ _ _ _ _ C C') as [<- _]. congruence.
  - inversion B as [| | |u2 p2 z' r2 b2 V' G' L' C' O' D'|]; subst.
    match goal with K : _ ++ _ = _ ++ _ |- _ => destruct (vgroups_split _ _ G' _ _ _ _ G K) as (_ & _ & ->) end.
    destruct (counted_det _ _ _ _ _ _ _ C C') as [<- _]. congruence.
  - inversion B as [| | | |p2 z' r2 b2 V' C' D']; subst. destruct (counted_det _ _ _ _ _ _ _ C C') as [<- _]. congruence.
Qed.

Lemma preamble_det ver typ suffix pre x ver' typ' suffix' pre' x' : preamble ver typ suffix pre ->
  preamble ver' typ' suffix' pre' -> pre ++ x = pre' ++ x' ->
  ver = ver' /\ typ = typ' /\ suffix = suffix' /\ pre = pre' /\ x = x'.
Proof.
  intros (V & T & vt & len & -> & Evt & G & _) (V' & T' & vt' & len' & -> & Evt' & G' & _) E.
  assert (M : length (magic ver) = 4 /\ length (magic ver') = 4) by (unfold magic; destruct (_ <? _)%N, (_ <? _)%N; auto).
  rewrite <- !app_assoc in E. destruct (app_same_len _ _ _ _ E ltac:(lia)) as [E1 E2].
  cbn [app] in E2. injection E2 as Ev E2. subst vt'.
  assert (ver = ver' /\ typ = typ') as [<- <-].
  { rewrite Evt' in Evt. split; apply N2Z.inj; lia. }
  destruct (vgroups_split _ _ G _ _ _ _ G' E2) as (<- & En & E3). apply Nat2N.inj in En.
  destruct (app_same_len _ _ _ _ E3 En) as [<- <-]. auto 10.
Qed.

Theorem sdocument_det m m' rd rd' k b ver typ suffix d body e ver' typ' suffix' d' body' e' :
  sdocument_in m rd k b ver typ suffix d body e -> sdocument_in m' rd' k b ver' typ' suffix' d' body' e' ->
  ver = ver' /\ typ = typ' /\ suffix = suffix' /\ d = d' /\ body = body' /\ e = e'.
Proof.
  intros (pre & packed & Eb & P & K & _ & _ & X & I) (pre' & packed' & Eb' & P' & K' & _ & _ & X' & I').
  rewrite Eb in Eb'. destruct (preamble_det _ _ _ _ _ _ _ _ _ _ P P' Eb') as (<- & <- & <- & <- & <-).
  pose proof (packing_det _ _ _ _ _ _ _ _ K K') as <-.
  destruct (_ =? _)%N; destruct (proj1 (sitem_det_ _ _ _) _ _ _ _ _ _ I _ _ _ _ I') as (<- & Ee & _);
    repeat split; lia.
Qed.

Theorem document_det m m' rd rd' k b ver typ suffix d body e ver' typ' suffix' d' body' e' :
  document_in m rd k b ver typ suffix d body e -> document_in m' rd' k b ver' typ' suffix' d' body' e' ->
  ver = ver' /\ typ = typ' /\ suffix = suffix' /\ d = d' /\ body = body' /\ e = e'.
Proof.
  intros (pre & packed & Eb & P & K & _ & _ & I) (pre' & packed' & Eb' & P' & K' & _ & _ & I').
  rewrite Eb in Eb'. destruct (preamble_det _ _ _ _ _ _ _ _ _ _ P P' Eb') as (<- & <- & <- & <- & <-).
  pose proof (packing_det _ _ _ _ _ _ _ _ K K') as <-. unfold body_item in I, I'.
  destruct (_ =? _)%N; destruct (proj1 (item_det_ _ _ _) _ _ _ _ I _ _ _ I') as (<- & Ee);
    repeat split; lia.
Qed.
