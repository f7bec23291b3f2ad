(** strconv.ParseInt against the description of decimal numbers; struct field tables. *)
From Verif Require Import Base BaseFacts GoMem TagsCache Encode Spec SpecValue.
From Coq Require Import ZifyBool ZifyNat ZifyN Permutation.

Definition dfold (s : bytes) (acc : N) : N :=
  fold_left (fun a b => 10 * a + (b2n b - 48))%N s acc.

Lemma digits_spec s n : digits s n <-> s <> [] /\ Forall is_digit s /\ n = dfold s 0.
Proof.
  split.
  - induction 1 as [b Hb|s n b H (N & D & ->) Hb].
    + split; [discriminate|]. split; [auto|]. unfold dfold. cbn [fold_left]. lia.
    + split; [now destruct s|]. split; [apply Forall_app; auto|].
      unfold dfold. rewrite fold_left_app. reflexivity.
  - intros (N & D & ->). revert N D. induction s as [|b s IH] using rev_ind; [easy|].
    intros _ D. apply Forall_app in D as [D1 D2]. inversion D2; subst.
    unfold dfold. rewrite fold_left_app. cbn [fold_left].
    destruct s as [|b' s'].
    + cbn [fold_left app]. replace (10 * 0 + (b2n b - 48))%N with (b2n b - 48)%N by lia.
      now constructor.
    + constructor; auto. apply IH; auto. discriminate.
Qed.

Lemma dfold_ge s acc : (acc <= dfold s acc)%N.
Proof.
  revert acc. induction s as [|b s IH]; intros acc; unfold dfold; cbn [fold_left]; [lia|].
  specialize (IH (10 * acc + (b2n b - 48))%N). unfold dfold in IH. lia.
Qed.

Lemma parse_digits_spec s : forall acc, (acc < 18446744073709551616)%N ->
  match parse_digits s acc with
  | PInt z => Forall is_digit s /\ z = Z.of_N (dfold s acc) /\ (dfold s acc < 18446744073709551616)%N
  | PRange => Forall is_digit s -> (18446744073709551616 <= dfold s acc)%N
  | PSyntax => ~ Forall is_digit s
  end.
Proof.
  induction s as [|b s IH]; intros acc Ha; cbn [parse_digits].
  - repeat split; auto.
  - unfold digit_of. destruct ((48 <=? b2n b) && (b2n b <=? 57))%N eqn:E.
    2:{ intros D. inversion D; subst. unfold is_digit in *. lia. }
    assert (Db : is_digit b) by (unfold is_digit; lia).
    assert (Step : dfold (b :: s) acc = dfold s (acc * 10 + (b2n b - 48))%N).
    { unfold dfold. cbn [fold_left]. f_equal. lia. }
    pose proof (dfold_ge s (acc * 10 + (b2n b - 48))%N) as Ge.
    destruct (N.leb_spec 1844674407370955162 acc).
    { intros _. rewrite Step. lia. }
    destruct (N.leb_spec 18446744073709551616 (acc * 10 + (b2n b - 48)))%N.
    { intros _. rewrite Step. lia. }
    specialize (IH (acc * 10 + (b2n b - 48))%N ltac:(lia)).
    destruct (parse_digits s _) as [z| |].
    + destruct IH as (D & -> & L). rewrite Step. auto.
    + intros D. inversion D; subst. auto.
    + intros D. inversion D; subst. rewrite Step. auto.
Qed.

Lemma parse_uint_spec s :
  match parse_uint s with
  | PInt z => (0 <= z < two64)%Z /\ digits s (Z.to_N z)
  | PRange => forall n, digits s n -> (two64 <= Z.of_N n)%Z
  | PSyntax => forall n, ~ digits s n
  end.
Proof.
  unfold two64. destruct s as [|b s].
  - cbn. intros n D. apply digits_spec in D. now destruct D.
  - unfold parse_uint. pose proof (parse_digits_spec (b :: s) 0 ltac:(lia)) as H.
    destruct (parse_digits (b :: s) 0) as [z| |].
    + destruct H as (D & -> & L). split; [lia|]. apply digits_spec.
      rewrite N2Z.id. repeat split; auto. discriminate.
    + intros n D. apply digits_spec in D as (_ & D & _). auto.
    + intros n D. apply digits_spec in D as (_ & D & ->). apply H in D. lia.
Qed.

Lemma digits_det s n m : digits s n -> digits s m -> n = m.
Proof. rewrite !digits_spec. intros (_ & _ & ->) (_ & _ & ->). reflexivity. Qed.

Lemma digits_head b s n : digits (b :: s) n -> is_digit b.
Proof. intros H. apply digits_spec in H as (_ & D & _). now inversion D. Qed.

Theorem parse_int_spec s :
  match parse_int s with
  | PInt z => decimal s z /\ int64 z
  | PRange => forall z, decimal s z -> ~ int64 z
  | PSyntax => forall z, ~ decimal s z
  end.
Proof.
  unfold parse_int, int64.
  set (sp := match s with
    | b :: t => if (b2n b =? 43)%N then (false, t)
                else if (b2n b =? 45)%N then (true, t) else (false, s)
    | [] => (false, []) end).
  assert (Es : sp = match s with
    | b :: t => if (b2n b =? 43)%N then (false, t)
                else if (b2n b =? 45)%N then (true, t) else (false, s)
    | [] => (false, []) end) by reflexivity.
  clearbody sp. destruct sp as [neg s'].
  assert (D : forall z, decimal s z <->
     exists n, digits s' n /\ z = if neg then (- Z.of_N n)%Z else Z.of_N n).
  { intros z. split.
    - intros H. inversion H as [s0 n Hd|b s0 n Hb Hd|b s0 n Hb Hd]; subst.
      + destruct s as [|b t]; [apply digits_spec in Hd; now destruct Hd|].
        pose proof (digits_head _ _ _ Hd) as Hh. unfold is_digit in Hh.
        destruct (N.eqb_spec (b2n b) 43); [lia|]. destruct (N.eqb_spec (b2n b) 45); [lia|].
        injection Es as -> ->. eauto.
      + rewrite Hb in Es. cbn in Es. injection Es as -> ->. eauto.
      + rewrite Hb in Es. cbn in Es. injection Es as -> ->. eauto.
    - intros (n & Hd & ->). destruct s as [|b t].
      + injection Es as -> ->. now constructor.
      + destruct (N.eqb_spec (b2n b) 43).
        { injection Es as -> ->. now constructor. }
        destruct (N.eqb_spec (b2n b) 45).
        { injection Es as -> ->. now constructor. }
        injection Es as -> ->. now constructor. }
  pose proof (parse_uint_spec s') as P. destruct (parse_uint s') as [un| |].
  - destruct P as [R P].
    assert (U : forall z, decimal s z -> z = if neg then (- un)%Z else un).
    { intros z H. apply D in H as (n & Hd & ->). rewrite (digits_det _ _ _ Hd P).
      rewrite Z2N.id by lia. reflexivity. }
    destruct (negb neg && (two63 <=? un)%Z) eqn:B1.
    { intros z H. rewrite (U z H). destruct neg; [discriminate|]. lia. }
    destruct (neg && (two63 <? un)%Z) eqn:B2.
    { intros z H. rewrite (U z H). destruct neg; [|discriminate]. unfold two63 in *. lia. }
    split.
    + apply D. exists (Z.to_N un). split; auto. rewrite Z2N.id by lia. reflexivity.
    + unfold two63, two64 in *. destruct neg; lia.
  - intros z H. apply D in H as (n & Hd & _). now apply (P n).
  - intros z H. apply D in H as (n & Hd & ->). specialize (P n Hd).
    unfold two63, two64 in *. destruct neg; lia.
Qed.

(** ** association lists *)
Lemma mget_In A (m : list (bytes * A)) k v : mget m k = Some v -> In (k, v) m.
Proof.
  induction m as [|[k' v'] m IH]; cbn; [discriminate|].
  destruct (bytes_eqb k' k) eqn:E.
  - apply bytes_eqb_true in E as ->. intros [= ->]. auto.
  - auto.
Qed.

Lemma mget_None A (m : list (bytes * A)) k : mget m k = None <-> ~ In k (map fst m).
Proof.
  induction m as [|[k' v'] m IH]; cbn; [tauto|].
  destruct (bytes_eqb k' k) eqn:E.
  - apply bytes_eqb_true in E as ->. split; [discriminate|tauto].
  - apply bytes_eqb_false in E. rewrite IH. tauto.
Qed.

Lemma In_mget A (m : list (bytes * A)) k v : NoDup (map fst m) -> In (k, v) m -> mget m k = Some v.
Proof.
  induction m as [|[k' v'] m IH]; cbn; [easy|]. intros N [E|E]; inversion N; subst.
  - injection E as -> ->. now rewrite bytes_eqb_refl.
  - destruct (bytes_eqb k' k) eqn:B; [|auto].
    apply bytes_eqb_true in B as ->. exfalso. apply H1.
    change k with (fst (k, v)). now apply in_map.
Qed.

Lemma mget_mput A (m : list (bytes * A)) k v k' :
  mget (mput m k v) k' = if bytes_eqb k k' then Some v else mget m k'.
Proof.
  induction m as [|[k0 v0] m IH]; cbn.
  - reflexivity.
  - destruct (bytes_eqb k0 k) eqn:E; cbn.
    + apply bytes_eqb_true in E as ->. destruct (bytes_eqb k k'); reflexivity.
    + rewrite IH. destruct (bytes_eqb k0 k') eqn:E2; auto.
      apply bytes_eqb_true in E2 as <-. destruct (bytes_eqb k k0) eqn:E3; auto.
      apply bytes_eqb_true in E3 as ->. now rewrite bytes_eqb_refl in E.
Qed.

Lemma mput_keys A (m : list (bytes * A)) k v :
  map fst (mput m k v) = if mget m k then map fst m else map fst m ++ [k].
Proof.
  induction m as [|[k0 v0] m IH]; cbn; [reflexivity|].
  destruct (bytes_eqb k0 k) eqn:E; cbn; [reflexivity|].
  rewrite IH. now destruct (mget m k).
Qed.

Lemma mput_NoDup A (m : list (bytes * A)) k v : NoDup (map fst m) -> NoDup (map fst (mput m k v)).
Proof.
  intros N. rewrite mput_keys. destruct (mget m k) eqn:E; auto.
  apply mget_None in E. apply NoDup_remove_1 with (a := k) in N || idtac.
  apply (Permutation_NoDup (l := k :: map fst m)); [apply Permutation_cons_append|].
  now constructor.
Qed.

(** ** struct field tables *)
Lemma tags_loop_step f fs i m : tags_loop (f :: fs) i m =
  tags_loop fs (S i) (match field_key f with Some k => mput m k i | None => m end).
Proof.
  cbn [tags_loop]. unfold field_key, dash.
  destruct (f_tag f) as [|b t] eqn:E.
  - cbn. destruct (f_exported f); reflexivity.
  - cbn [bytes_eqb]. destruct (byte_eqb b x2d) eqn:B.
    + apply byte_eqb_true in B as ->. destruct t; reflexivity.
    + cbn [andb]. destruct b; try reflexivity. discriminate.
Qed.

Lemma tags_loop_spec fs : forall i m, NoDup (map fst m) ->
  NoDup (map fst (tags_loop fs i m)) /\
  forall k, mget (tags_loop fs i m) k =
    match find (fun j => match nth_error fs j with
                         | Some f => match field_key f with Some k' => bytes_eqb k' k | None => false end
                         | None => false end) (rev (seq 0 (length fs))) with
    | Some j => Some (i + j)
    | None => mget m k
    end.
Proof.
  induction fs as [|f fs IH] using rev_ind; intros i m N.
  - cbn. auto.
  - assert (App : forall fs' i m, tags_loop (fs' ++ [f]) i m =
       match field_key f with Some k => mput (tags_loop fs' i m) k (i + length fs')
                            | None => tags_loop fs' i m end).
    { intros fs'. induction fs' as [|f' fs' IH2]; intros i' m'.
      - cbn [app]. rewrite tags_loop_step. cbn [tags_loop length]. rewrite Nat.add_0_r.
        destruct (field_key f); reflexivity.
      - cbn [app]. rewrite !tags_loop_step, IH2. cbn [length].
        now replace (S i' + length fs') with (i' + S (length fs')) by lia. }
    destruct (IH i m N) as [N1 G1]. rewrite App. split.
    { destruct (field_key f); auto. now apply mput_NoDup. }
    intros k. rewrite app_length. cbn [length]. rewrite Nat.add_1_r, seq_S, rev_app_distr.
    cbn [rev app find]. rewrite nth_error_app2 by lia. cbn [plus]. rewrite Nat.sub_diag. cbn [nth_error].
    assert (Same : find (fun j => match nth_error (fs ++ [f]) j with
                         | Some f => match field_key f with Some k' => bytes_eqb k' k | None => false end
                         | None => false end) (rev (seq 0 (length fs)))
            = find (fun j => match nth_error fs j with
                         | Some f => match field_key f with Some k' => bytes_eqb k' k | None => false end
                         | None => false end) (rev (seq 0 (length fs)))).
    { assert (Q : forall l, (forall j, In j l -> j < length fs) ->
         find (fun j => match nth_error (fs ++ [f]) j with
                         | Some f => match field_key f with Some k' => bytes_eqb k' k | None => false end
                         | None => false end) l
         = find (fun j => match nth_error fs j with
                         | Some f => match field_key f with Some k' => bytes_eqb k' k | None => false end
                         | None => false end) l).
      { induction l as [|j l IHl]; intros B; cbn; auto.
        rewrite nth_error_app1 by (apply B; now left).
        rewrite IHl by (intros; apply B; now right). reflexivity. }
      apply Q. intros j Hj. apply in_rev in Hj. rewrite rev_involutive in Hj || idtac.
      apply in_seq in Hj. lia. }
    rewrite Same.
    destruct (field_key f) as [k0|]; [|apply G1].
    rewrite mget_mput. destruct (bytes_eqb k0 k); [reflexivity|apply G1].
Qed.

Theorem tags_of_table fs : field_table fs (tags_of fs).
Proof.
  unfold tags_of. destruct (tags_loop_spec fs 0 [] ltac:(constructor)) as [N G].
  split; [exact N|]. intros k i.
  assert (Q : In (k, i) (tags_loop fs 0 []) <-> mget (tags_loop fs 0 []) k = Some i).
  { split; [now apply In_mget|apply mget_In]. }
  rewrite Q, G. cbn [mget plus]. unfold serialised.
  set (p := fun j => _). 
  assert (P : forall j, p j = true <-> exists f, nth_error fs j = Some f /\ field_key f = Some k).
  { intros j. unfold p. destruct (nth_error fs j) as [f|]; [|split; [discriminate|intros (? & ? & _); discriminate]].
    destruct (field_key f) as [k'|] eqn:K.
    - rewrite bytes_eqb_true. split; [intros ->; eauto|]. intros (f' & [= <-] & E). congruence.
    - split; [discriminate|]. intros (f' & [= <-] & E). congruence. }
  clearbody p.
  (* find over the reversed range gives the greatest index *)
  assert (Fi : forall n j, find p (rev (seq 0 n)) = Some j <->
     j < n /\ p j = true /\ forall j', j < j' < n -> p j' = false).
  { induction n as [|n IH]; intros j.
    - cbn. split; [discriminate|lia].
    - rewrite seq_S, rev_app_distr. cbn [rev app find plus].
      destruct (p n) eqn:E.
      + split.
        * intros [= <-]. repeat split; auto; lia.
        * intros (L & Pj & H). destruct (Nat.eq_dec j n) as [->|Nj]; auto.
          rewrite H in E by lia. discriminate.
      + rewrite IH. split.
        * intros (L & Pj & H). split; [lia|split; [auto|]]. intros j' Hj.
          destruct (Nat.eq_dec j' n) as [->|]; auto. apply H. lia.
        * intros (L & Pj & H). destruct (Nat.eq_dec j n) as [->|]; [congruence|].
          split; [lia|split; [auto|]]. intros j' Hj. apply H. lia. }
  destruct (find p (rev (seq 0 (length fs)))) as [j|] eqn:E.
  - apply Fi in E as (L & Pj & H). split.
    + intros [= <-]. apply P in Pj as (f & Ef & K). exists f. repeat split; auto.
      intros j' f' Lj Ef' K'. assert (p j' = true) by (apply P; eauto).
      rewrite H in H0; [discriminate|]. split; [lia|]. apply nth_error_Some. congruence.
    + intros (f & Ef & K & H2). f_equal.
      assert (Pi : p i = true) by (apply P; eauto).
      assert (Li : i < length fs) by (apply nth_error_Some; congruence).
      destruct (Nat.lt_trichotomy i j) as [C|[C|C]]; auto.
      * apply P in Pj as (f' & Ef' & K'). exfalso. eapply H2; eauto.
      * rewrite H in Pi by lia. discriminate.
  - split; [discriminate|]. intros (f & Ef & K & H2).
    assert (Pi : p i = true) by (apply P; eauto).
    assert (Li : i < length fs) by (apply nth_error_Some; congruence).
    exfalso. assert (X := find_none _ _ E i). rewrite Pi in X. discriminate X.
    apply in_rev. rewrite rev_involutive. apply in_seq. lia.
Qed.

Lemma field_table_perm fs t t' : field_table fs t -> field_table fs t' -> Permutation t t'.
Proof.
  intros [N1 H1] [N2 H2]. apply NoDup_Permutation.
  - eapply NoDup_map_inv; eauto.
  - eapply NoDup_map_inv; eauto.
  - intros [k i]. rewrite H1, H2. reflexivity.
Qed.
