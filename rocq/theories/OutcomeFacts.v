(** Marshal has exactly one outcome. *)
From Verif Require Import Base BaseFacts Tags GoMem Codecs TagsCache Encode Compress Document
  SpecOptions SpecOutcome EncodeTerm MarshalFacts.
From Coq Require Import ZifyBool ZifyNat ZifyN Permutation.

Lemma outcome_unique {A} (f : nat -> res A) r r' : outcome f r -> outcome f r' -> r = r'.
Proof.
  intros [_ [n H]] [_ [n' H']]. rewrite <- (H (Nat.max n n')), <- (H' (Nat.max n n')) by lia. reflexivity.
Qed.

(** more fuel never changes a finished run *)
Definition mono {A} (f : nat -> res A) : Prop :=
  forall n m, n <= m -> f n <> NoFuel -> f m = f n.

Lemma mono_outcome {A} (f : nat -> res A) n r : mono f -> f n = r -> r <> NoFuel -> outcome f r.
Proof. intros M <- N. split; [exact N|]. exists n. intros m L. now apply M. Qed.
Lemma outcome_at {A} (f : nat -> res A) n r : mono f -> outcome f r -> f n <> NoFuel -> f n = r.
Proof. intros M O N. eapply outcome_unique; [|exact O]. eapply mono_outcome; eauto. Qed.

Lemma mono_const {A} (r : res A) : mono (fun _ => r).
Proof. now intros n m. Qed.
Lemma mono_bind {A B} (f : nat -> res A) (g : nat -> A -> res B) :
  mono f -> (forall a, mono (fun n => g n a)) -> mono (fun n => bind (f n) (g n)).
Proof.
  intros Mf Mg n m L N. assert (Nf : f n <> NoFuel).
  { intros E. rewrite E in N. now apply N. }
  rewrite (Mf n m L Nf). destruct (f n); cbn in *; auto. now apply Mg.
Qed.
Lemma mono_recovered {A} (f : nat -> res A) : mono f -> mono (fun n => recovered (f n)).
Proof.
  intros M n m L N. rewrite (M n m L); [reflexivity|]. intros E. rewrite E in N. now apply N.
Qed.
Lemma mono_encode e h v r d s : mono (fun n => encode e h n v r d s).
Proof. intros n m L N. eapply encode_mono; eauto. Qed.
Lemma mono_header e h hd : mono (fun n => marshal_header n e h hd).
Proof.
  unfold marshal_header. destruct hd as [hv|]; [|apply mono_const].
  destruct (2 <=? e_version e)%N; [|apply mono_const].
  apply mono_bind; [apply mono_encode|]. intros a. apply mono_const.
Qed.
Lemma mono_body e h p t v : mono (fun n => marshal_body n e h p t v).
Proof.
  unfold marshal_body. destruct (e_version e =? 1)%N.
  { apply mono_bind; [apply mono_encode|]. intros a. apply mono_const. }
  destruct ((e_version e =? 2) || (e_version e =? 3))%N; [|apply mono_const].
  apply mono_bind; [apply mono_encode|]. intros a. apply mono_const.
Qed.
Lemma mono_marshal k e h hd v : mono (fun n => MarshalWithHeader k n e h hd v).
Proof.
  unfold MarshalWithHeader. apply mono_recovered, mono_bind; [apply mono_header|].
  intros [p t]. apply mono_bind; [apply mono_body|]. intros b. apply mono_const.
Qed.

Lemma bind_no {A B} (m : res A) (f : A -> res B) : m <> NoFuel -> (forall a, f a <> NoFuel) -> bind m f <> NoFuel.
Proof. destruct m; cbn; auto; discriminate. Qed.

Lemma compress_no k c b : compress k c b <> NoFuel.
Proof.
  destruct c; cbn; unfold snappy_compress, zlib_compress, zstd_compress.
  - destruct (_ <=? _)%Z; discriminate.
  - destruct (zlib_enc _ _ _); discriminate.
  - destruct (zstd_enc _ _ _); discriminate.
Qed.
Lemma marshal_compress_no k e p b : marshal_compress k e p b <> NoFuel.
Proof.
  unfold marshal_compress. destruct (e_comp e) as [c|]; [|discriminate].
  destruct (_ || _); [|discriminate]. apply bind_no; [apply compress_no|].
  intros z. apply bind_no; [|discriminate]. destruct c.
  - destruct (_ && _); [discriminate|]. destruct (_ =? _)%N; discriminate.
  - destruct (_ <? _)%N; discriminate.
  - discriminate.
Qed.

(** C20 in general: MarshalWithHeader returns on every memory, cyclic or not. *)
Theorem marshal_terminates k e h hd v :
  (forall t A (l : list A), Permutation l (e_shuffle e t A l)) ->
  exists r, outcome (fun n => MarshalWithHeader k n e h hd v) r.
Proof.
  intros Hs.
  assert (Hs' : forall t A (l : list A), Permutation l (e_shuffle (fix_version e) t A l)).
  { destruct (fix_same e) as (_ & _ & _ & _ & _ & _ & -> & _). exact Hs. }
  set (e' := fix_version e) in *.
  assert (Ld : (1 <= remainingRecursion (e_maxdepth e'))%Z).
  { unfold remainingRecursion. destruct (Z.leb_spec (e_maxdepth e') 0); lia. }
  assert (H1 : exists n, marshal_header n e' h hd <> NoFuel).
  { unfold marshal_header. destruct hd as [hv|]; [|exists 0; discriminate].
    destruct (2 <=? e_version e')%N; [|exists 0; discriminate].
    destruct (encode_terminates e' h Hs' _ hv Ld) as [N HN]. exists N.
    apply bind_no; [apply HN|discriminate]. }
  assert (H2 : exists n, forall p t, marshal_body n e' h p t v <> NoFuel).
  { destruct (encode_terminates e' h Hs' _ v Ld) as [N HN]. exists N. intros p t.
    unfold marshal_body. destruct (_ =? _)%N; [apply bind_no; [apply HN|discriminate]|].
    destruct (_ || _); [apply bind_no; [apply HN|discriminate]|discriminate]. }
  destruct H1 as [n1 H1], H2 as [n2 H2].
  eexists. eapply (mono_outcome _ (Nat.max n1 n2)); [apply mono_marshal|reflexivity|].
  unfold MarshalWithHeader. fold e'.
  rewrite (mono_header e' h hd n1 (Nat.max n1 n2)) by (auto; lia).
  match goal with |- recovered ?x <> _ => assert (X : x <> NoFuel) end.
  { apply bind_no; [exact H1|]. intros [p t].
    rewrite (mono_body e' h p t v n2 (Nat.max n1 n2)) by (auto; lia).
    apply bind_no; [apply H2|]. intros b. apply bind_no; [apply marshal_compress_no|].
    intros [? ?]. discriminate. }
  match goal with |- recovered ?x <> _ => destruct x end; cbn; congruence.
Qed.
