(** What a Go value stands for is determined up to the order of hash entries. *)
From Verif Require Import Base BaseFacts Tags GoMem GoTypes Codecs Encode Document Spec SpecValue SpecOptions SpecOutcome ValueFacts
  JsonFacts DecodeSpec DocFacts Roundtrip RoundtripFacts SpecDoc SpecOrder.
From Coq Require Import Permutation.

Section O.
Variables (perl nofreeze : bool) (pf : bytes -> option N) (h : heap).
Notation den_ := (den perl nofreeze pf h).
Notation su := (same_up pf).

Lemma su_aref r d d' : su d d' -> su (aref perl r d) (aref perl r d').
Proof. intros S. unfold aref. destruct (_ && _); [now constructor|exact S]. Qed.

Definition Q (kv : bytes * gval) (kd : bytes * data) : Prop :=
  fst kv = fst kd /\ forall d', den_ false (snd kv) d' -> su (snd kd) d'.

Lemma pointwise m kvs : Forall2 Q m kvs -> forall kvs', denm perl nofreeze pf h m kvs' -> same_upm pf kvs kvs'.
Proof.
  induction 1 as [|[k v] [k' d] m kvs [E K] F IH]; intros kvs' D; inversion D; subst; [constructor|].
  cbn in E, K. subst k'. constructor; auto.
Qed.
Lemma permuted {A B} (P : A -> B -> Prop) m m' : Permutation m m' -> forall l, Forall2 P m l ->
  exists l', Permutation l l' /\ Forall2 P m' l'.
Proof.
  induction 1 as [|x m m' M IH|x y m|m m' m'' M1 IH1 M2 IH2]; intros l F.
  - exists l. auto.
  - inversion F as [|? b ? l0 Pb F0]; subst. destruct (IH _ F0) as (l' & Pl & F'). exists (b :: l'). auto.
  - inversion F as [|? b ? l0 Pb F0]; subst. inversion F0 as [|? b2 ? l2 Pb2 F2]; subst. exists (b2 :: b :: l2).
    split; [constructor|]. auto.
  - destruct (IH1 _ F) as (l1 & P1 & F1). destruct (IH2 _ F1) as (l2 & P2 & F2). exists l2. split; [now transitivity l1|exact F2].
Qed.
Lemma hashes m m' kvs kvs' : Permutation m m' -> Forall2 Q m kvs -> denm perl nofreeze pf h m' kvs' ->
  su (DHash kvs) (DHash kvs').
Proof.
  intros P F D. destruct (permuted Q m m' P kvs F) as (l & Pl & Fl). eapply su_hash; [exact Pl|]. eapply pointwise; eauto.
Qed.
Lemma strs_inj (m m' : list (bytes * gval)) :
  Permutation (map (fun kv => (GStr (fst kv), snd kv)) m) (map (fun kv => (GStr (fst kv), snd kv)) m') -> Permutation m m'.
Proof.
  intros P. apply (Permutation_map (fun kv : gval * gval => (match fst kv with GStr s => s | _ => [] end, snd kv))) in P.
  rewrite !map_map in P. cbn in P.
  assert (I : forall l : list (bytes * gval), map (fun x => (fst x, snd x)) l = l).
  { induction l as [|[a b] l IH]; [reflexivity|]. cbn. now rewrite IH. }
  now rewrite !I in P.
Qed.

Theorem den_up :
  (forall r v d, den_ r v d -> forall d', den_ r v d' -> su d d') /\
  (forall vs ds, dens perl nofreeze pf h vs ds -> forall ds', dens perl nofreeze pf h vs ds' -> same_ups pf ds ds') /\
  (forall m kvs, denm perl nofreeze pf h m kvs -> Forall2 Q m kvs).
Proof.
  apply den_all_ind; intros;
    try match goal with D : den_ _ _ ?d' |- su _ ?d' => inversion D; subst; clear D end;
    try (now apply su_same); try congruence;
    try (apply su_aref); try (constructor; now auto); try (now auto).
  all: try match goal with
    | P1 : Permutation ?x ?m, P2 : Permutation ?x ?m', F : Forall2 Q ?m ?k, D : denm _ _ _ _ ?m' ?k' |- su (DHash ?k) (DHash ?k') =>
        apply (hashes m m'); [now transitivity x; [symmetry|]|exact F|exact D]
    | P1 : Permutation ?x (map _ ?m), P2 : Permutation ?x (map _ ?m'), F : Forall2 Q ?m ?k, D : denm _ _ _ _ ?m' ?k' |- su (DHash ?k) (DHash ?k') =>
        apply (hashes m m'); [apply strs_inj; transitivity x; [symmetry|]; assumption|exact F|exact D]
    end.
  - match goal with A : decimal s z, B : decimal s ?y |- _ => rewrite (decimal_det s z y A B) end. apply su_same.
  - exfalso. match goal with K : forall z, decimal s z -> ~ int64 z |- _ => eapply K; eassumption end.
  - exfalso. match goal with K : forall z, ~ decimal s z |- _ => eapply K; eassumption end.
  - exfalso. match goal with K : forall z, decimal s z -> ~ int64 z |- _ => eapply K; eassumption end.
  - exfalso. match goal with K : forall z, ~ decimal s z |- _ => eapply K; eassumption end.
  - match goal with A : pf s = Some ?a, B : pf s = Some ?b |- su (DF64 ?a) (DF64 ?b) => assert (a = b) as <- by congruence end. apply su_same.
  - exfalso. match goal with A : _ || negb (perl_struct _) = true, B : perl_struct _ = true |- _ => rewrite B in A; discriminate A end.
  - exfalso. match goal with A : _ || negb (perl_struct _) = true, B : perl_struct _ = true |- _ => rewrite B in A; discriminate A end.
  - constructor. apply su_aref. eapply hashes; [|eassumption|eassumption].
    match goal with P1 : Permutation ?x ?m, P2 : Permutation ?x ?m' |- Permutation ?m ?m' => transitivity x; [symmetry|]; assumption end.
  - constructor. apply su_aref. eapply hashes; [|eassumption|eassumption]. apply Permutation_map. eapply field_table_perm; eassumption.
  - match goal with D : dens _ _ _ _ _ _ |- _ => inversion D; subst end. constructor.
  - match goal with D : dens _ _ _ _ (_ :: _) ds' |- _ => inversion D; subst end. constructor; auto.
Qed.
End O.

(** two ways of marshalling one value *)
Theorem two_ways k c c' e e' h v n A n' A' b b' :
  sane_world e -> sane_world e' -> (1 <= proto e <= 3)%N -> (1 <= proto e' <= 3)%N ->
  e_perl e' = e_perl e -> e_nofreeze e' = e_nofreeze e -> e_parsefloat e' = e_parsefloat e ->
  go_tree c e h v n A -> go_tree c' e' h v n' A' ->
  (Z.of_nat n < depth_limit e)%Z -> (Z.of_nat n' < depth_limit e')%Z ->
  lossless k -> supported (proto e) (e_comp e) -> supported (proto e') (e_comp e') ->
  outcome (fun n => Marshal k n e h v) (Ok b) -> outcome (fun n => Marshal k n e' h v) (Ok b') ->
  (N.of_nat (length b) <= 2147483647)%N -> (N.of_nat (length b') <= 2147483647)%N ->
  (forall b0, outcome (fun n => Marshal k n (without_compression e) h v) (Ok b0) -> (N.of_nat (length b0) <= 281474976710656)%N) ->
  (forall b0, outcome (fun n => Marshal k n (without_compression e') h v) (Ok b0) -> (N.of_nat (length b0) <= 281474976710656)%N) ->
  exists d d', reads k c b d /\ reads k c' b' d' /\ same_up (e_parsefloat e) d d'.
Proof.
  intros Hw Hw' Hv Hv' Ep En Ef T T' L L' Lo Su Su' O O' Lb Lb' M M'.
  destruct (roundtrip_outcome k c e h Hw Hv v n A T L) as (b0 & O0 & _ & _ & D).
  destruct (roundtrip_outcome k c' e' h Hw' Hv' v n' A' T' L') as (b1 & O1 & _ & _ & D').
  destruct (D (M _ O0)) as (d & Hd & _ & K). destruct (D' (M' _ O1)) as (d' & Hd' & _ & K').
  exists d, d'. split; [now apply K|]. split; [now apply K'|].
  rewrite Ep, En, Ef in Hd'. eapply (proj1 (den_up _ _ _ _)); eassumption.
Qed.
