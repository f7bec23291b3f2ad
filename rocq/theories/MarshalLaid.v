(** Documents that Marshal writes for plain values are laid out as a Merger requires. *)
From Verif Require Import Base BaseFacts SpecVarint Varint VarintFacts Tags GoMem Codecs TagsCache Encode Compress Header Document
  Spec SpecValue SpecDoc SpecOptions SpecAccept SpecPlain EncodeSpec JsonFacts LooksFacts MarshalFacts.
From Coq Require Import ZifyBool ZifyNat ZifyN Permutation.
Ltac Zify.zify_post_hook ::= Z.div_mod_to_equations.

(** * Buffers that differ in track flags only *)
(** [F] is [b], or longer, but for track flags set on tags at the places [seen] *)
Definition covers (F b : bytes) (seen : list nat) : Prop :=
  forall i x, nth_error b i = Some x -> exists y, nth_error F i = Some y /\ (y = x \/ In i seen /\ tag_of y = tag_of x).

Lemma covers_refl b seen : covers b b seen.
Proof. intros i x H. eauto. Qed.
Lemma covers_app b l seen : covers (b ++ l) b seen.
Proof. intros i x H. exists x. split; [now apply nth_error_app_l|auto]. Qed.
Lemma covers_trans F b' b L seen : covers F b' (L ++ seen) -> covers b' b seen -> (forall i, In i L -> length b <= i) -> covers F b seen.
Proof.
  intros A B C i x H. destruct (B i x H) as (y & Hy & D). destruct (A i y Hy) as (z & Hz & G).
  exists z. split; [exact Hz|]. apply nth_error_Some_lt in H.
  destruct G as [->|[I T]]; [exact D|]. right. apply in_app_or in I as [I|I].
  { apply C in I. lia. }
  split; [exact I|]. destruct D as [->|[_ D]]; congruence.
Qed.
Lemma covers_length F b seen : covers F b seen -> length b <= length F.
Proof.
  intros A. destruct (le_lt_dec (length b) (length F)) as [L|L]; [exact L|]. exfalso.
  destruct (nth_error b (length F)) as [x|] eqn:E.
  - destruct (A _ _ E) as (y & Hy & _). apply nth_error_Some_lt in Hy. lia.
  - apply nth_error_None in E. lia.
Qed.
Lemma at_nth (F : bytes) p l : p + length l <= length F ->
  (forall i c, nth_error l i = Some c -> nth_error F (p + i) = Some c) -> at_ F p l.
Proof.
  revert p. induction l as [|c l IH]; intros p L H; cbn [length] in L.
  - exists (firstn p F), (skipn p F). cbn [app]. rewrite firstn_skipn. split; [reflexivity|]. rewrite firstn_length. lia.
  - destruct (IH (S p)) as (pre & post & E & Lp); [lia| |].
    { intros i x Hi. specialize (H (S i) x Hi). now rewrite Nat.add_succ_r in H. }
    specialize (H 0 c eq_refl). rewrite Nat.add_0_r, E in H. rewrite nth_error_app1 in H by lia.
    apply nth_error_split in H as (a & b & Ea & La).
    assert (b = []) as ->. { destruct b as [|b0 b]; [reflexivity|]. rewrite Ea, app_length in Lp. cbn in Lp. lia. }
    exists a, post. split; [|exact La]. rewrite E, Ea, <- app_assoc. reflexivity.
Qed.
(** what stands after [b] in a buffer that is extended by a tag and its argument *)
Lemma chunk F b x l seen : covers F (b ++ x :: l) (length b :: seen) -> (forall i, In i seen -> i < length b) ->
  exists y, nth_error F (length b) = Some y /\ tag_of y = tag_of x /\ at_ F (S (length b)) l.
Proof.
  intros A B. pose proof (covers_length _ _ _ A) as Lf. rewrite app_length in Lf. cbn [length] in Lf.
  destruct (A (length b) x) as (y & Hy & D).
  { rewrite nth_error_app2, Nat.sub_diag by lia. reflexivity. }
  exists y. split; [exact Hy|]. split.
  { destruct D as [->|[_ D]]; auto. }
  apply at_nth; [lia|]. intros i c Hc. destruct (A (S (length b) + i) c) as (z & Hz & [->|[I _]]).
  - rewrite nth_error_app2 by lia. replace (S (length b) + i - length b) with (S i) by lia. exact Hc.
  - exact Hz.
  - exfalso. destruct I as [I|I]; [lia|]. apply B in I. lia.
Qed.
(** the same without a tag that may have a flag *)
Lemma chunk_at F b l seen : covers F (b ++ l) seen -> (forall i, In i seen -> i < length b) -> at_ F (length b) l.
Proof.
  intros A B. pose proof (covers_length _ _ _ A) as Lf. rewrite app_length in Lf.
  apply at_nth; [lia|]. intros i c Hc. destruct (A (length b + i) c) as (z & Hz & [->|[I _]]); [|exact Hz|].
  - rewrite nth_error_app2 by lia. now replace (length b + i - length b) with i by lia.
  - exfalso. apply B in I. lia.
Qed.
Lemma at_app (F : bytes) p a b : at_ F p (a ++ b) -> at_ F p a /\ at_ F (p + length a) b.
Proof.
  intros (u & v & -> & <-). split.
  - exists u, (b ++ v). now rewrite <- app_assoc.
  - exists (u ++ a), v. rewrite app_length. now rewrite <- !app_assoc.
Qed.
Lemma at_varint F p n : at_ F p (varint n) -> (n < 18446744073709551616)%N -> vint F p n (p + length (varint n)).
Proof. intros A L. destruct (varint_groups n L) as [G B]. exists (varint n). repeat split; auto; lia. Qed.
Lemma varint_some n : exists m, vgroups (varint n) m /\ 1 <= length (varint n) <= 10 /\ (m < 18446744073709551616)%N.
Proof.
  exists (n mod 18446744073709551616)%N. assert (E : varint n = varint (n mod 18446744073709551616)%N).
  { unfold varint. now rewrite N.mod_mod. }
  rewrite E. destruct (varint_groups (n mod 18446744073709551616)%N) as [G B]; [apply N.mod_lt; lia|].
  split; [exact G|]. split; [exact B|]. apply N.mod_lt; lia.
Qed.
Lemma set_track_covers b o seen : In o seen -> covers (set_track b o) b seen.
Proof.
  intros I i x H. unfold set_track. destruct (nth_error b o) as [z|] eqn:E; [|eauto].
  destruct (Nat.eq_dec i o) as [->|N].
  - rewrite E in H. injection H as ->. eexists. split; [apply nth_error_upd_same; now apply nth_error_Some_lt in E|].
    right. split; [exact I|]. unfold tag_of, trackFlag. clear. destruct x; vm_compute; reflexivity.
  - exists x. rewrite nth_error_upd_other by auto. auto.
Qed.

(** * One step of the encoder *)
Notation len s := (length (s_by s)).
Definition smallF (F : bytes) : Prop := (N.of_nat (length F) < 18446744073709551616)%N.

(** the tables of the encoder point at places in [seen], not at the last byte; [x]: the address
    whose entry may point there *)
Definition St (x : option addr) (s : estate) (seen : list nat) : Prop :=
  (forall i, In i seen -> i < len s) /\
  (forall k o, mget (s_str s) k = Some o -> In o seen /\ o + 1 < len s) /\
  (forall a o, pget (s_ptr s) a = Some o -> In o seen /\ (o + 1 < len s \/ x = Some a)).

(** from [s] to [s'] the encoder writes [k] elements *)
Definition E (x : option addr) (k : nat) (s s' : estate) : Prop :=
  forall seen, St x s seen -> exists L, St None s' (L ++ seen) /\ (forall i, In i L -> len s <= i < len s') /\
    (1 <= k -> In (len s) L) /\ len s + k <= len s' /\ covers (s_by s') (s_by s) seen /\
    forall F, smallF F -> covers F (s_by s') (L ++ seen) ->
    forall n seen'' q, laid F n (L ++ seen) (len s') seen'' q -> laid F (k + n) seen (len s) seen'' q.

Lemma E_none s : E None 0 s s.
Proof.
  intros seen S. exists []. cbn [app]. split; [exact S|]. split; [intros i []|]. split; [lia|]. split; [lia|].
  split; [apply covers_refl|auto].
Qed.
Lemma E_seq x k1 k2 s s1 s2 : 1 <= k1 -> E x k1 s s1 -> E None k2 s1 s2 -> E x (k1 + k2) s s2.
Proof.
  intros K1 A B seen S. destruct (A seen S) as (L1 & S1 & B1 & I1 & G1 & C1 & R1).
  destruct (B _ S1) as (L2 & S2 & B2 & I2 & G2 & C2 & R2).
  exists (L2 ++ L1). rewrite <- !app_assoc. split; [exact S2|].
  assert (Cc : covers (s_by s2) (s_by s) seen).
  { eapply covers_trans; [exact C2|exact C1|]. intros i I. now apply B1. }
  split. { intros i I. apply in_app_or in I as [I|I]; [apply B2 in I|apply B1 in I]; lia. }
  split. { intros _. apply in_or_app. right. apply I1. lia. }
  split; [lia|]. split; [exact Cc|].
  intros F Sf Cf n seen'' q H. rewrite <- Nat.add_assoc.
  apply R1; [exact Sf| |].
  - eapply covers_trans; [exact Cf|exact C2|]. intros i I. now apply B2.
  - apply R2; assumption.
Qed.

(** a tag [b] with its argument [l], then [m] elements *)
Lemma E_open x k m s s1 s2 b l :
  s_by s1 = s_by s ++ b :: l -> s_ptr s1 = s_ptr s ->
  (forall key o, mget (s_str s1) key = Some o -> mget (s_str s) key = Some o \/ o = len s /\ 1 <= length l) ->
  E None m s1 s2 -> 1 <= k -> k <= S (length l + m) ->
  (forall F seen n seen1 seen'' q y, smallF F -> nth_error F (len s) = Some y -> tag_of y = tag_of b -> at_ F (S (len s)) l ->
     len s2 <= length F -> len s1 + m <= len s2 ->
     (forall n seen'' q, laid F n seen1 (len s2) seen'' q -> laid F (m + n) (len s :: seen) (len s1) seen'' q) ->
     laid F n seen1 (len s2) seen'' q -> laid F (k + n) seen (len s) seen'' q) ->
  E x k s s2.
Proof.
  intros Eb Ep Es A K1 K2 H seen (S1 & S2 & S3).
  assert (Lb : len s1 = len s + S (length l)) by (rewrite Eb, app_length; reflexivity).
  assert (S' : St None s1 (len s :: seen)).
  { split; [|split].
    - intros i [<-|I]; [lia|]. apply S1 in I. lia.
    - intros key o M. destruct (Es key o M) as [M'|[-> L1]].
      + apply S2 in M' as [I L]. split; [now right|lia].
      + split; [now left|lia].
    - intros a o M. rewrite Ep in M. apply S3 in M as [I _]. split; [now right|]. apply S1 in I. left. lia. }
  destruct (A _ S') as (L & T & B & I & G & C & R).
  exists (L ++ [len s]). rewrite <- app_assoc. cbn [app]. split; [exact T|].
  split. { intros i X. apply in_app_or in X as [X|[<-|[]]]; [apply B in X; lia|lia]. }
  split. { intros _. apply in_or_app. right. now left. }
  split; [lia|].
  assert (C0 : covers (s_by s1) (s_by s) seen) by (rewrite Eb; apply covers_app).
  split. { eapply (covers_trans (s_by s2) (s_by s1) (s_by s) [len s] seen C C0). intros i [<-|[]]. lia. }
  intros F Sf Cf n seen'' q Hl.
  assert (C1 : covers F (s_by s1) (len s :: seen)).
  { eapply covers_trans; [exact Cf|exact C|]. intros i X. now apply B. }
  rewrite Eb in C1. destruct (chunk F (s_by s) b l seen C1 S1) as (y & Hy & Ty & Ay).
  apply (H F seen n (L ++ len s :: seen) seen'' q y); auto.
  eapply covers_length; exact Cf.
Qed.

Lemma E_leaf x s s1 b l : s_by s1 = s_by s ++ b :: l -> s_ptr s1 = s_ptr s ->
  (forall key o, mget (s_str s1) key = Some o -> mget (s_str s) key = Some o \/ o = len s /\ 1 <= length l) ->
  (forall F seen n seen'' q y, smallF F -> nth_error F (len s) = Some y -> tag_of y = tag_of b -> at_ F (S (len s)) l ->
     laid F n (len s :: seen) (len s1) seen'' q -> laid F (S n) seen (len s) seen'' q) ->
  E x 1 s s1.
Proof.
  intros Eb Ep Es H. apply (E_open x 1 0 s s1 s1 b l); auto; [apply E_none|lia|].
  intros F seen n seen1 seen'' q y Sf Hy Ty Ay Lf _ C0 Hl. apply (H F seen n seen'' q y); auto. exact (C0 n seen'' q Hl).
Qed.
Lemma emit_by b s : s_by (emit b s) = s_by s ++ b.
Proof. reflexivity. Qed.
Lemma emit_len b s : len (emit b s) = len s + length b.
Proof. rewrite emit_by. apply app_length. Qed.

Lemma E_number x s b l : number (tag_of b) l -> E x 1 s (emit (b :: l) s).
Proof.
  intros Nm. apply (E_leaf x s _ b l); auto.
  intros F seen n seen'' q y Sf Hy Ty Ay Hl. eapply ld_number; [exact Hy|rewrite Ty; exact Nm|exact Ay|].
  rewrite emit_len in Hl. cbn [length] in Hl. now rewrite Nat.add_succ_comm.
Qed.
Lemma E_prefix x k s s' t : (t = typeREFN \/ t = typeWEAKEN) -> E None k (emit [tagb t] s) s' -> 1 <= k -> E x k s s'.
Proof.
  intros Ht A K. apply (E_open x k k s (emit [tagb t] s) s' (tagb t) []); auto.
  intros F seen n seen1 seen'' q y Sf Hy Ty Ay Lf _ C0 Hl. destruct k as [|k]; [lia|]. cbn [Nat.add].
  eapply ld_prefix; [exact Hy|rewrite Ty; destruct Ht as [-> | ->]; vm_compute; auto|].
  specialize (C0 n seen'' q Hl). rewrite emit_len in C0. cbn [length Nat.add] in C0. now rewrite Nat.add_1_r in C0.
Qed.
Lemma E_array x m s s' : E None m (emit (tagb typeARRAY :: varint (N.of_nat m)) s) s' -> E x 1 s s'.
Proof.
  intros A. apply (E_open x 1 m s (emit (tagb typeARRAY :: varint (N.of_nat m)) s) s' (tagb typeARRAY) (varint (N.of_nat m)) eq_refl eq_refl); auto.
  { lia. }
  intros F seen n seen1 seen'' q y Sf Hy Ty Ay Lf Lm C0 Hl. unfold smallF in Sf. cbn [Nat.add].
  eapply ld_array; [exact Hy|now rewrite Ty|apply at_varint; [exact Ay|lia]| |exact Hl].
  specialize (C0 0 seen1 (len s') (ld_none _ _ _)). rewrite Nat.add_0_r, emit_len in C0. cbn [length] in C0. now rewrite Nat.add_succ_comm.
Qed.
Lemma E_hash x m s s' : E None (2 * m) (emit (tagb typeHASH :: varint (N.of_nat m)) s) s' -> E x 1 s s'.
Proof.
  intros A. apply (E_open x 1 (2 * m) s (emit (tagb typeHASH :: varint (N.of_nat m)) s) s' (tagb typeHASH) (varint (N.of_nat m)) eq_refl eq_refl); auto.
  { lia. }
  intros F seen n seen1 seen'' q y Sf Hy Ty Ay Lf Lm C0 Hl. unfold smallF in Sf. change (1 + n) with (S n).
  eapply ld_hash; [exact Hy|now rewrite Ty|apply at_varint; [exact Ay|lia]| |exact Hl].
  specialize (C0 0 seen1 (len s') (ld_none _ _ _)). rewrite Nat.add_0_r, emit_len in C0. cbn [length] in C0. now rewrite Nat.add_succ_comm.
Qed.

(** ** Strings *)
Definition text_lit (str : bytes) : bytes := tagb typeSTR_UTF8 :: varint (ulen str) ++ str.
Definition bytes_lit (byt : bytes) : bytes :=
  if (ulen byt <? 32)%N then n2b (typeSHORT_BINARY_0 + ulen byt) :: byt else tagb typeBINARY :: varint (ulen byt) ++ byt.
Lemma at_length F p l : at_ F p l -> p + length l <= length F.
Proof. intros (a & b & -> & <-). rewrite !app_length. lia. Qed.

Lemma lit_at (lit : bytes) str b l F p y : (lit = text_lit str \/ lit = bytes_lit str) -> lit = b :: l -> smallF F ->
  nth_error F p = Some y -> tag_of y = tag_of b -> at_ F (S p) l ->
  string_at F p y str (p + length lit) /\ (b2n b < 128)%N /\ (str <> [] -> l <> []).
Proof.
  intros Hlit El Sf Hy Ty Ay. unfold smallF in Sf.
  assert (T : forall t, tag_of b = t -> t <> 63%N -> tag_at F p p t).
  { intros t Ht Nt. split; [lia|]. split; [intros; lia|]. exists y. split; [exact Hy|]. split; [|exact Nt]. now rewrite <- Ht, <- Ty. }
  assert (Long : forall u t, (u = true /\ t = 39 \/ u = false /\ t = 38)%N -> tagb t = b -> varint (ulen str) ++ str = l ->
    string_at F p y str (p + length lit) /\ (b2n b < 128)%N /\ (str <> [] -> l <> [])).
  { intros u t Hut Eb <-. destruct (at_app _ _ _ _ Ay) as [Av As].
    assert (Lu : (ulen str < 18446744073709551616)%N).
    { unfold ulen. pose proof (at_length _ _ _ As). lia. }
    pose proof (at_varint _ _ _ Av Lu) as V.
    rewrite El. cbn [length]. rewrite app_length.
    replace (p + S (length (varint (ulen str)) + length str)) with (S p + length (varint (ulen str)) + length str) by lia.
    split; [split; [exact Hy|split]|split].
    - rewrite Ty, <- Eb. destruct Hut as [[_ ->]|[_ ->]]; vm_compute; discriminate.
    - exists u. destruct Hut as [[-> ->]|[-> ->]].
      + eapply lit_utf8; [apply T; [now rewrite <- Eb|discriminate]|exact V|cbn; lia|exact As|reflexivity].
      + eapply lit_binary; [apply T; [now rewrite <- Eb|discriminate]|exact V|cbn; lia|exact As|reflexivity].
    - rewrite <- Eb. destruct Hut as [[_ ->]|[_ ->]]; vm_compute; reflexivity.
    - intros Ns X. apply app_eq_nil in X as [_ X]. contradiction. }
  destruct Hlit as [-> | ->].
  - injection El as Eb Hl. apply (Long true 39%N); auto.
  - unfold bytes_lit in *. destruct (N.ltb_spec (ulen str) 32) as [L|L].
    2:{ injection El as Eb Hl. apply (Long false 38%N); auto. }
    injection El as Eb Hl. subst l.
    assert (Hb : b2n b = (96 + ulen str)%N).
    { rewrite <- Eb. unfold typeSHORT_BINARY_0. apply b2n_n2b_small. lia. }
    assert (Ht : tag_of b = (96 + ulen str)%N) by (unfold tag_of; rewrite Hb, N.mod_small; lia).
    cbn [length]. rewrite <- Nat.add_succ_comm.
    split; [split; [exact Hy|split]|split; [lia|auto]].
    + rewrite Ty, Ht. lia.
    + exists false. eapply (lit_short _ _ p p (96 + ulen str)%N); [apply T; [exact Ht|lia]|lia|exact Ay|unfold ulen; lia].
Qed.
Lemma lit_cons (lit str : bytes) : (lit = text_lit str \/ lit = bytes_lit str) -> exists b l, lit = b :: l.
Proof. intros [-> | ->]; unfold text_lit, bytes_lit; [eauto|]. destruct (_ <? _)%N; eauto. Qed.

Lemma E_lit x s s1 lit str : (lit = text_lit str \/ lit = bytes_lit str) -> s_by s1 = s_by s ++ lit -> s_ptr s1 = s_ptr s ->
  (forall key o, mget (s_str s1) key = Some o -> mget (s_str s) key = Some o \/ o = len s /\ 2 <= length lit) -> E x 1 s s1.
Proof.
  intros Hl Eb Ep Es. destruct (lit_cons lit str Hl) as (b & l & El).
  apply (E_leaf x s s1 b l); auto.
  - now rewrite <- El.
  - intros key o M. destruct (Es key o M) as [M'|[-> L]]; auto. right. rewrite El in L. cbn in L. split; [reflexivity|lia].
  - intros F seen n seen'' q y Sf Hy Ty Ay R. destruct (lit_at lit str b l F (len s) y Hl El Sf Hy Ty Ay) as (Q & _).
    eapply ld_string; [exact Q|]. now rewrite Eb, app_length in R.
Qed.
(** a name is a literal without a flag *)
Lemma name_lit lit str F p : (lit = text_lit str \/ lit = bytes_lit str) -> str <> [] -> smallF F -> at_ F p lit -> name_at F p (p + length lit).
Proof.
  intros Hl Ns Sf A. destruct (lit_cons lit str Hl) as (b & l & El). rewrite El in A.
  destruct (at_app F p [b] l A) as [A1 A2]. cbn [length] in A2. rewrite Nat.add_1_r in A2.
  assert (Hb : nth_error F p = Some b).
  { destruct A1 as (u & v & -> & <-). rewrite nth_error_app2, Nat.sub_diag by lia. reflexivity. }
  destruct (lit_at lit str b l F p b Hl El Sf Hb eq_refl A2) as (Q & B & _). exists b, str. auto.
Qed.
Lemma E_object x s s' t lit str : (t = typeOBJECT \/ t = typeOBJECT_FREEZE) -> (lit = text_lit str \/ lit = bytes_lit str) -> str <> [] ->
  E None 1 (emit lit (emit [tagb t] s)) s' -> E x 1 s s'.
Proof.
  intros Ht Hl Ns A.
  apply (E_open x 1 1 s (emit lit (emit [tagb t] s)) s' (tagb t) lit); auto; [|lia|].
  { rewrite !emit_by, <- app_assoc. reflexivity. }
  intros F seen n seen1 seen'' q y Sf Hy Ty Ay Lf Lm C0 R. change (1 + n) with (S n).
  eapply ld_object; [exact Hy|rewrite Ty; destruct Ht as [-> | ->]; vm_compute; auto|eapply name_lit; eauto| |exact R].
  specialize (C0 0 seen1 (len s') (ld_none _ _ _)). rewrite Nat.add_0_r, !emit_len in C0. cbn [length] in C0.
  now rewrite Nat.add_1_r in C0.
Qed.

(** ** Back references *)
Lemma E_back x s s' t o : (t = typeCOPY \/ t = typeREFP) -> (forall seen, St x s seen -> In o seen /\ o + 1 < len s) ->
  (let b := s_by s ++ tagb t :: varint (N.of_nat o) in s_by s' = b \/ s_by s' = set_track b o) ->
  s_ptr s' = s_ptr s -> s_str s' = s_str s -> E x 1 s s'.
Proof.
  intros Ht Ho Eb Ep Es seen St0. destruct (Ho seen St0) as [I Lo]. destruct St0 as (S1 & S2 & S3). cbn zeta in Eb.
  set (b := s_by s ++ tagb t :: varint (N.of_nat o)) in *.
  assert (Cb : covers (s_by s') b (len s :: seen)).
  { destruct Eb as [-> | ->]; [apply covers_refl|apply set_track_covers; now right]. }
  assert (Lb : len s' = len s + S (length (varint (N.of_nat o)))).
  { transitivity (length b); [|unfold b; now rewrite app_length].
    destruct Eb as [-> | ->]; [reflexivity|apply set_track_length]. }
  exists [len s]. cbn [app]. split; [|split; [|split; [|split; [|split]]]].
  - split; [|split].
    + intros i [<-|X]; [lia|]. apply S1 in X. lia.
    + intros key o' M. rewrite Es in M. apply S2 in M as [X L]. split; [now right|lia].
    + intros a o' M. rewrite Ep in M. apply S3 in M as [X _]. split; [now right|]. apply S1 in X. left. lia.
  - intros i [<-|[]]. lia.
  - intros _. now left.
  - lia.
  - apply (covers_trans (s_by s') b (s_by s) [len s] seen Cb); [apply covers_app|]. intros i [<-|[]]. lia.
  - intros F Sf Cf n seen'' q R. unfold smallF in Sf. change (1 + n) with (S n).
    assert (C1 : covers F b (len s :: seen)).
    { apply (covers_trans F (s_by s') b [] (len s :: seen)); [exact Cf|exact Cb|intros i []]. }
    destruct (chunk F (s_by s) _ _ seen C1 S1) as (y & Hy & Ty & Ay).
    pose proof (covers_length _ _ _ C1) as Lf. unfold b in Lf. rewrite app_length in Lf.
    eapply ld_back; [exact Hy|rewrite Ty; destruct Ht as [-> | ->]; vm_compute; auto|apply at_varint; [exact Ay|lia]| | |].
    + now rewrite Nat2N.id.
    + rewrite Nat2N.id. exact Lo.
    + now rewrite Lb, <- Nat.add_succ_comm in R.
Qed.

(** * The encoder *)
Section Enc.
Variable e : econfig.
Variable h : heap.
Hypothesis Hw : sane_world e.
Notation plain_ := (plain (negb (e_nodedup e)) (e_nofreeze e) (e_layout e) h).
Notation starts_ := (starts (e_nofreeze e) (e_layout e) h).
Hypothesis Hm : plain_memory (negb (e_nodedup e)) (e_nofreeze e) (e_layout e) h.

Lemma lit_two str : 2 <= length (text_lit str).
Proof.
  unfold text_lit. cbn [length]. rewrite app_length. destruct (varint_some (ulen str)) as (m & _ & L & _). lia.
Qed.
Lemma E_text x str s : E x 1 s (encodeString e str false s).
Proof.
  unfold encodeString. rewrite andb_false_r. apply (E_lit x s _ (text_lit str) str); auto.
Qed.
Lemma E_key x str s : E x 1 s (encodeString e str true s).
Proof.
  unfold encodeString. destruct (negb (e_nodedup e) && true); [|apply (E_lit x s _ (text_lit str) str); auto].
  destruct (mget (s_str s) str) as [o|] eqn:M.
  - apply (E_back x s _ typeCOPY o); auto.
    intros seen (_ & S2 & _). exact (S2 str o M).
  - apply (E_lit x s _ (text_lit str) str); auto. cbn [s_str emit with_by]. intros key o. rewrite mget_mput.
    destruct (bytes_eqb str key); auto. intros [= <-]. right. split; [reflexivity|apply lit_two].
Qed.
Lemma E_bytes x byt s : E x 1 s (encodeBytes e byt false s).
Proof. unfold encodeBytes. rewrite andb_false_r. apply (E_lit x s _ (bytes_lit byt) byt); auto. Qed.
Lemma int_number isInt z : exists b l, encodeInt isInt z = b :: l /\ number (tag_of b) l.
Proof.
  unfold encodeInt.
  assert (V : forall t n, (t = 32 \/ t = 33)%N -> exists b l, tagb t :: varint n = b :: l /\ number (tag_of b) l).
  { intros t n Ht. do 2 eexists. split; [reflexivity|]. right. left. split; [destruct Ht as [-> | ->]; vm_compute; auto|].
    destruct (varint_some n) as (m & G & L & B). exists m. split; [exact G|]. split; [lia|exact B]. }
  destruct ((0 <=? z) && (z <=? 15))%Z.
  { do 2 eexists. split; [reflexivity|]. left. split; [left; generalize (z2b z); clear; intros []; vm_compute; reflexivity|reflexivity]. }
  destruct ((-16 <=? z) && (z <? 0) && isInt)%Z.
  { do 2 eexists. split; [reflexivity|]. left. split; [left; generalize (z2b z); clear; intros []; vm_compute; reflexivity|reflexivity]. }
  destruct (15 <? z)%Z; [apply V; auto|]. destruct isInt; apply V; auto.
Qed.
Lemma E_int x i z s : E x 1 s (emit (encodeInt i z) s).
Proof. destruct (int_number i z) as (b & l & -> & Nm). now apply E_number. Qed.
Lemma le_bytes_length k : forall u, length (le_bytes k u) = k.
Proof. induction k; intros; cbn [le_bytes length]; auto. Qed.
Lemma E_float x u s : E x 1 s (emit (encodeFloat u) s).
Proof. apply E_number. right. right. left. split; [vm_compute; reflexivity|apply le_bytes_length]. Qed.
Lemma E_double x u s : E x 1 s (emit (encodeDouble u) s).
Proof. apply E_number. right. right. right. left. split; [vm_compute; reflexivity|apply le_bytes_length]. Qed.
Lemma E_json x n s : E x 1 s (encodeJsonNumber e n false s).
Proof.
  unfold encodeJsonNumber. destruct (parse_int n); auto using E_int, E_text.
  destruct (e_parsefloat e n); auto using E_double, E_text.
Qed.
Lemma E_simple x t s : (t = typeUNDEF \/ t = typeTRUE \/ t = typeFALSE \/ t = typeCANONICAL_UNDEF) -> E x 1 s (emit [tagb t] s).
Proof.
  intros Ht. apply E_number. left. split; [|reflexivity].
  destruct Ht as [->|[->|[->| ->]]]; vm_compute; auto.
Qed.
Lemma class_literal cls s : e_nodedup e = true -> encodeBytes e cls true s = emit (bytes_lit cls) s.
Proof. intros N. unfold encodeBytes. rewrite N. reflexivity. Qed.
Lemma name_literal cls s : e_nodedup e = true -> encodeString e cls true s = emit (text_lit cls) s.
Proof. intros N. unfold encodeString. rewrite N. reflexivity. Qed.
Lemma part_literal cls s : encodeBytes e cls false s = emit (bytes_lit cls) s.
Proof. unfold encodeBytes. rewrite andb_false_r. reflexivity. Qed.
Lemma E_regexp x p m s : p <> [] -> m <> [] ->
  E x 1 s (encodeBytes e m false (encodeBytes e p false (emit [tagb typeREGEXP] s))).
Proof.
  intros Np Nm. rewrite !part_literal.
  apply (E_leaf x s _ (tagb typeREGEXP) (bytes_lit p ++ bytes_lit m)); auto.
  { rewrite !emit_by, <- !app_assoc. reflexivity. }
  intros F seen n seen'' q y Sf Hy Ty Ay R. destruct (at_app _ _ _ _ Ay) as [A1 A2].
  eapply ld_regexp; [exact Hy|now rewrite Ty|apply (name_lit (bytes_lit p) p); auto|apply (name_lit (bytes_lit m) m); auto|].
  rewrite !emit_len in R. cbn [length] in R. now rewrite Nat.add_1_r in R.
Qed.

(** ** The calls of the encoder on the contents *)
Section Body.
Variable f : nat.
Notation rec := (encode e h f).
Hypothesis IH : forall v, plain_ v -> forall x r d s s', rec v r d s = Ok s' -> (forall a, x = Some a -> ~ In a (starts_ v)) -> E x 1 s s'.
Lemma IH0 v r d s s' : plain_ v -> rec v r d s = Ok s' -> E None 1 s s'.
Proof using IH. intros P R. eapply IH; eauto. discriminate. Qed.

Lemma elems_E d n : forall base s s', enc_elems h rec n base d s = Ok s' -> E None n s s'.
Proof using IH Hm.
  induction n as [|n IHn]; intros base s s' H; cbn [enc_elems] in H.
  - injection H as <-. apply E_none.
  - destruct (rec (hget h base) false d s) as [s1| | | |] eqn:R; try discriminate H. cbn [bind] in H.
    apply (E_seq None 1 n s s1 s'); [lia| |eauto]. eapply IH0; [|exact R]. apply Hm.
Qed.
Lemma pairs_E d m : (forall k v, In (k, v) m -> plain_ v) -> forall s s', enc_pairs e rec m d s = Ok s' -> E None (2 * length m) s s'.
Proof using IH.
  induction m as [|[k v] m IHm]; intros P s s' H; cbn [enc_pairs] in H.
  - injection H as <-. apply E_none.
  - destruct (rec v false d (encodeString e k true s)) as [s1| | | |] eqn:R; try discriminate H. cbn [bind] in H.
    cbn [length]. replace (2 * S (length m)) with (1 + (1 + 2 * length m)) by lia.
    apply (E_seq None 1 _ s (encodeString e k true s) s'); [lia|apply E_key|].
    apply (E_seq None 1 _ _ s1 s'); [lia| |].
    + eapply IH0; [|exact R]. apply (P k v). now left.
    + apply IHm; auto. intros k' v' I. apply (P k' v'). now right.
Qed.
Lemma tpairs_E d m : (forall k v, In (k, v) m -> plain_ k /\ plain_ v) -> forall s s', enc_tpairs e rec m d s = Ok s' -> E None (2 * length m) s s'.
Proof using IH.
  induction m as [|[k v] m IHm]; intros P s s' H; cbn [enc_tpairs] in H.
  - injection H as <-. apply E_none.
  - destruct (P k v (or_introl eq_refl)) as [Pk Pv].
    destruct (if e_perl e then Ok (encodeString e (key_string k) true s) else rec k false d s) as [s0| | | |] eqn:R0; try discriminate H.
    cbn [bind] in H. destruct (rec v false d s0) as [s1| | | |] eqn:R; try discriminate H. cbn [bind] in H.
    cbn [length]. replace (2 * S (length m)) with (1 + (1 + 2 * length m)) by lia.
    apply (E_seq None 1 _ s s0 s'); [lia| |].
    { destruct (e_perl e); [injection R0 as <-; apply E_key|eapply IH0; [|exact R0]; exact Pk]. }
    apply (E_seq None 1 _ _ s1 s'); [lia|eapply IH0; [|exact R]; exact Pv|].
    apply IHm; auto. intros k' v' I. apply (P k' v'). now right.
Qed.
Lemma fields_E fs base d t : forall s s', enc_fields e h rec fs base t d s = Ok s' -> E None (2 * length t) s s'.
Proof using IH Hm.
  induction t as [|[k i] t IHt]; intros s s' H; cbn [enc_fields] in H.
  - injection H as <-. apply E_none.
  - destruct (nth_error fs i) as [fd|]; [|discriminate H]. destruct (f_exported fd); [|discriminate H].
    destruct (rec (hget h (base + i)) false d (encodeString e k true s)) as [s1| | | |] eqn:R; try discriminate H. cbn [bind] in H.
    cbn [length]. replace (2 * S (length t)) with (1 + (1 + 2 * length t)) by lia.
    apply (E_seq None 1 _ s (encodeString e k true s) s'); [lia|apply E_key|].
    apply (E_seq None 1 _ _ s1 s'); [lia| |apply IHt; auto].
    eapply IH0; [|exact R]. apply Hm.
Qed.
Lemma E_ref x r s s' : (forall x, E x 1 (open_ref e r s) s') -> E x 1 s s'.
Proof using.
  unfold open_ref. destruct (e_perl e && negb r); auto. intros A. apply (E_prefix x 1 s s' typeREFN); auto.
Qed.
Lemma E_ref' s s' : (forall x, E x 1 (if e_perl e then emit [tagb typeREFN] s else s) s') -> E None 1 s s'.
Proof using.
  destruct (e_perl e); auto. intros A. apply (E_prefix None 1 s s' typeREFN); auto.
Qed.
Lemma E_tick x k s s' : E x k (next_tick s) s' -> E x k s s'.
Proof using. intros A. exact A. Qed.
Lemma shuffled t A (l : list A) : length (e_shuffle e t A l) = length l.
Proof using Hw. symmetry. apply Permutation_length. apply Hw. Qed.
Lemma two_shuffled t A (l : list A) : 2 * length (e_shuffle e t A l) = 2 * length l.
Proof using Hw. now rewrite shuffled. Qed.
Lemma shuffled_in t A (l : list A) y : In y (e_shuffle e t A l) -> In y l.
Proof using Hw. apply Permutation_in. symmetry. apply Hw. Qed.

Lemma array_E x base n r d s s' : encodeArray e h rec base n r d s = Ok s' -> E x 1 s s'.
Proof using IH Hm.
  unfold encodeArray. destruct (_ <=? _)%Z; [discriminate|]. intros H. apply E_ref with (r := r). intros y.
  apply E_array with (m := n). eapply elems_E; eauto.
Qed.
Lemma strmap_E x l r d s s' : encodeStrMap e h rec l r d s = Ok s' -> E x 1 s s'.
Proof using IH Hm Hw.
  unfold encodeStrMap. destruct (_ <=? _)%Z; [discriminate|]. intros H. apply E_ref with (r := r). intros y.
  apply E_hash with (m := length (hmap h l)). apply E_tick. erewrite <- (two_shuffled _ _ (hmap h l)).
  eapply pairs_E; [|exact H]. intros k v I. apply shuffled_in in I. destruct Hm as (_ & P & _). eauto.
Qed.
Lemma map_E x l r d s s' : encodeMap e h rec l r d s = Ok s' -> E x 1 s s'.
Proof using IH Hm Hw.
  unfold encodeMap. destruct (_ <=? _)%Z; [discriminate|]. intros H. apply E_ref with (r := r). intros y.
  apply E_hash with (m := length (htmap h l)). apply E_tick. erewrite <- (two_shuffled _ _ (htmap h l)).
  eapply tpairs_E; [|exact H]. intros k v I. apply shuffled_in in I. destruct Hm as (_ & _ & P). eauto.
Qed.
Lemma struct_E x name fs base d s s' : e_nodedup e = true -> name <> [] -> encodeStruct e h rec name fs base d s = Ok s' -> E x 1 s s'.
Proof using IH Hm Hw.
  unfold encodeStruct. intros Nd Nn. destruct (_ <=? _)%Z; [discriminate|]. rewrite class_literal by exact Nd. intros H.
  apply (E_object x s s' typeOBJECT (bytes_lit name) name); auto. apply E_ref'. intros y.
  match goal with |- E _ _ ?s0 _ => set (s1 := s0) in *; clearbody s1 end.
  apply E_hash with (m := length (tags_of fs)). apply E_tick. erewrite <- (two_shuffled _ _ (tags_of fs)).
  eapply fields_E. exact H.
Qed.
Lemma freeze_E x cls w d s s' : e_nodedup e = true -> encodeFreezeStruct e rec cls w d s = Ok s' -> E x 1 s s'.
Proof using IH Hm Hw.
  unfold encodeFreezeStruct. intros Nd. destruct (_ <=? _)%Z; [discriminate|]. rewrite class_literal by exact Nd. intros H.
  apply (E_object x s s' typeOBJECT (bytes_lit s_PerlFreeze) s_PerlFreeze); auto; [discriminate|]. apply E_ref'. intros y.
  match goal with |- E _ _ ?s0 _ => set (s1 := s0) in *; clearbody s1 end.
  apply E_hash with (m := 2). apply E_tick.
  change (2 * 2) with (2 * length [(s_Class, GStr cls); (s_Data, GBytes w)]).
  erewrite <- (two_shuffled _ _ [(s_Class, GStr cls); (s_Data, GBytes w)]).
  eapply pairs_E; [|exact H]. intros k v I. apply shuffled_in in I. destruct I as [[= <- <-]|[[= <- <-]|[]]]; apply pl_flat; exact I.
Qed.

(** what has an address of its own takes two bytes *)
Lemma two_bytes l v r d s s' : apart (e_nofreeze e) (e_layout e) h l v -> own_addr (e_layout e) l v <> [] ->
  rec v r d s = Ok s' -> len s + 2 <= len s'.
Proof.
  intros [_ A] O. destruct f as [|g]; [discriminate|]. cbn [encode].
  assert (G : forall s0 s1, kept s0 (Ok s1) -> leb_ s0 s1) by (intros s0 s1 K; exact (K s1 eq_refl)).
  assert (Open : forall t n, len s + 2 <= len (emit (tagb t :: varint n) (open_ref e r s))).
  { intros t n. rewrite emit_len. pose proof (open_le e r s) as Lo. unfold leb_ in Lo. cbn [length].
    destruct (varint_some n) as (m & _ & L & _). lia. }
  pose proof (encode_grown e h g) as Gr.
  destruct v; try (exfalso; exact (O A)); cbn [own_addr] in O; try congruence; cbn [encode_body].
  - intros Es. apply Ok_eq in Es as ->. unfold encodeString. rewrite andb_false_r.
    rewrite emit_len. pose proof (lit_two s0) as L. unfold text_lit in L. cbn [length] in *. lia.
  - intros Es. apply Ok_eq in Es as ->. rewrite part_literal, emit_len. unfold bytes_lit.
    destruct (_ <? _)%N; cbn [length].
    + destruct (hview h v); [congruence|]. cbn [length]. lia.
    + rewrite app_length. destruct (varint_some (ulen (hview h v))) as (m & _ & L & _). lia.
  - unfold encodeArray. destruct (_ <=? _)%Z; [discriminate|]. intros H. apply (elems_kept h _ Gr) in H. unfold leb_ in H.
    specialize (Open typeARRAY (N.of_nat n)). lia.
  - unfold encodeStrMap. destruct (_ <=? _)%Z; [discriminate|]. intros H. apply (pairs_kept e _ Gr) in H. unfold leb_ in H. cbn [next_tick s_by] in H.
    specialize (Open typeHASH (ulen (hmap h l0))). lia.
  - unfold encodePointer. destruct (_ <=? _)%Z; [discriminate|].
    assert (Sp : (match hget h l0 with GRegexpV _ _ | GUndefV _ | GObjV _ _ | GWeakV _ => negb toIface | _ => false end) = false).
    { clear - A. destruct (hget h l0), toIface; cbn in A |- *; congruence. }
    rewrite Sp. destruct (getPointer e (negb toIface) l0 (hget h l0)) as [o| | | |]; try discriminate. cbn [bind].
    destruct (match pget (s_ptr s) (at_cell (e_layout e) l0) with Some _ => _ | None => _ end) as [o'|].
    + destruct (Nat.ltb _ _); [|discriminate]. intros Es. apply Ok_eq in Es as ->. cbn [with_by s_by]. rewrite set_track_length, app_length. cbn [length].
      destruct (varint_some (N.of_nat o')) as (m & _ & L & _). lia.
    + match goal with |- bind (encode e h g ?v ?r ?d ?s1) _ = _ -> _ => destruct (encode e h g v r d s1) as [s2| | | |] eqn:R end; try discriminate.
      apply Gr in R. unfold ltb_ in R. cbn [s_by] in R. rewrite emit_len in R. cbn [length bind] in *.
      destruct o; intros Es; apply Ok_eq in Es as ->; cbn [s_by]; lia.
  - unfold encodePerlPointer. destruct (_ <=? _)%Z; [discriminate|]. intros H. destruct g as [|g]; [discriminate|]. cbn [encode encode_body] in H.
    apply (encode_grown e h g) in H. pose proof (bytes_lt e cls true (emit [tagb typeOBJECT] s)) as L. unfold ltb_ in *. rewrite emit_len in L. cbn [length] in L. lia.
  - unfold encodePerlPointer. destruct (_ <=? _)%Z; [discriminate|]. intros H. destruct g as [|g]; [discriminate|]. cbn [encode encode_body] in H.
    apply (encode_grown e h g) in H. unfold ltb_ in *. rewrite emit_len in H. cbn [length] in H. lia.
  - unfold encodeArray. destruct (_ <=? _)%Z; [discriminate|]. intros H. apply (elems_kept h _ Gr) in H. unfold leb_ in H.
    specialize (Open typeARRAY (N.of_nat n)). lia.
  - unfold encodeMap. destruct (_ <=? _)%Z; [discriminate|]. intros H. apply (tpairs_kept e _ Gr) in H. unfold leb_ in H. cbn [next_tick s_by] in H.
    specialize (Open typeHASH (ulen (htmap h l0))). lia.
Qed.

Lemma own_pointer i l v o : getPointer e (negb i) l v = Ok o -> own_addr (e_layout e) l v = match o with Some a => [a] | None => [] end.
Proof using.
  intros H. destruct (i && is_text v) eqn:T.
  - apply andb_true_iff in T as [-> T]. destruct v; try discriminate T; discriminate H.
  - destruct (getPointer_spec e i l v T) as (o' & H' & W). rewrite H in H'. now injection H' as ->.
Qed.

Lemma pointer_E x i l d s s' : apart (e_nofreeze e) (e_layout e) h l (hget h l) ->
  (forall a, x = Some a -> ~ In a (at_cell (e_layout e) l :: own_addr (e_layout e) l (hget h l))) ->
  encodePointer e rec i l (hget h l) d s = Ok s' -> E x 1 s s'.
Proof using IH Hm.
  intros Ap Nx. unfold encodePointer. destruct (_ <=? _)%Z; [discriminate|]. set (v := hget h l) in *.
  destruct (match v with GRegexpV _ _ | GUndefV _ | GObjV _ _ | GWeakV _ => negb i | _ => false end) eqn:Sp.
  { intros R. eapply IH; [|exact R|]; [apply Hm|]. intros a _ I. destruct v; try discriminate Sp; exact I. }
  destruct (getPointer e (negb i) l v) as [o| | | |] eqn:Go; try discriminate. cbn [bind]. apply own_pointer in Go.
  set (found := match pget (s_ptr s) (at_cell (e_layout e) l) with Some o1 => Some o1 | None => match o with Some a => pget (s_ptr s) a | None => None end end).
  destruct found as [o'|] eqn:Fo; unfold found in Fo.
  - destruct (Nat.ltb _ _); [|discriminate]. intros R. apply Ok_eq in R as ->. apply (E_back x s _ typeREFP o'); auto.
    intros seen (_ & _ & S3). assert (P : exists a, pget (s_ptr s) a = Some o' /\ In a (at_cell (e_layout e) l :: own_addr (e_layout e) l v)).
    { destruct (pget (s_ptr s) (at_cell (e_layout e) l)) as [o1|] eqn:P1.
      - injection Fo as ->. exists (at_cell (e_layout e) l). split; [exact P1|now left].
      - destruct o as [a|]; [|discriminate Fo]. exists a. split; [exact Fo|]. right. rewrite Go. now left. }
    destruct P as (a & Pa & I). apply S3 in Pa as [J [L|X]]; [auto|]. exfalso. exact (Nx a X I).
  - set (s1 := mkEState _ _ _ _). destruct (rec v true (d - 1)%Z s1) as [s2| | | |] eqn:R; try discriminate. cbn [bind]. intros Es.
    assert (L1 : len s1 = S (len s)). { unfold s1. cbn [s_by]. rewrite emit_len. cbn. lia. }
    assert (E2 : E (Some (at_cell (e_layout e) l)) 1 s1 s2).
    { eapply IH; [|exact R|]; [apply Hm|]. intros a [= <-]. apply Ap. }
    intros seen (S1 & S2 & S3).
    assert (S' : St (Some (at_cell (e_layout e) l)) s1 (len s :: seen)).
    { split; [|split].
      - intros j [<-|I]; [lia|]. apply S1 in I. lia.
      - intros key o' M. cbn in M. apply S2 in M as [I L]. split; [now right|lia].
      - intros a o' M. cbn [s1 s_ptr] in M. rewrite pget_cons in M. destruct (addr_eqb (at_cell (e_layout e) l) a) eqn:Ae.
        + injection M as <-. apply addr_eqb_true in Ae as <-. split; [now left|auto].
        + cbn in M. apply S3 in M as [I _]. split; [now right|]. apply S1 in I. left. lia. }
    destruct (E2 _ S') as (L & T & B & I & G & C & Rr).
    assert (By : s_by s' = s_by s2 /\ s_str s' = s_str s2). { destruct o; apply Ok_eq in Es as ->; auto. }
    destruct By as [By Bs]. specialize (I (le_n 1)). rewrite L1 in *.
    exists (L ++ [len s]). rewrite <- app_assoc. cbn [app]. rewrite By.
    split; [|split; [|split; [|split; [|split]]]].
    + destruct T as (T1 & T2 & T3). split; [|split]; rewrite By; [exact T1|now rewrite Bs|].
      destruct o as [a|]; apply Ok_eq in Es as ->; [|exact T3]. intros a' o' M. cbn [s_ptr] in M. rewrite pget_cons in M.
      destruct (addr_eqb a a'); [|now apply T3]. injection M as <-. split; [apply in_or_app; now left|]. left.
      assert (Two : len s1 + 2 <= len s2). { eapply (two_bytes l v); [exact Ap| |exact R]. rewrite Go. discriminate. }
      rewrite L1 in Two. lia.
    + intros j X. apply in_app_or in X as [X|[<-|[]]]; [apply B in X; lia|lia].
    + intros _. apply in_or_app. right. now left.
    + lia.
    + apply (covers_trans (s_by s2) (s_by s1) (s_by s) [len s] seen C); [apply covers_app|]. intros j [<-|[]]. lia.
    + intros F Sf Cf n seen'' q Hl.
      assert (C1 : covers F (s_by s ++ [tagb typeREFN]) (len s :: seen)).
      { apply (covers_trans F (s_by s2) (s_by s1) L (len s :: seen) Cf C). intros j X. apply B in X. lia. }
      destruct (chunk F (s_by s) _ _ seen C1 S1) as (y & Hy & Ty & _).
      change (1 + n) with (S n). eapply ld_prefix; [exact Hy|rewrite Ty; vm_compute; auto|].
      specialize (Rr F Sf Cf n seen'' q Hl). exact Rr.
Qed.

Lemma body_E v : plain_ v -> forall x r d s s', encode_body e h rec v r d s = Ok s' -> (forall a, x = Some a -> ~ In a (starts_ v)) -> E x 1 s s'.
Proof using IH Hm Hw.
  intros P x r d s s' H Nx.
  assert (Nd : forall b, negb (e_nodedup e) = b -> b = false -> e_nodedup e = true) by (intros b <- Q; now apply negb_false_iff).
  destruct P as [v Pv|v Pv|i l Ap|cls v Nc Nn Pv|cls l Nc Nn|name fs base Nc Nn|cls w Nc|p m Np Nm|name o v Nf Nc Nn|name o v Nf Pv].
  - destruct v; try contradiction Pv; cbn [encode_body] in H;
      try (apply Ok_eq in H as ->; auto using E_text, E_json, E_bytes, E_float, E_double; fail).
    + apply Ok_eq in H as ->. apply E_simple. auto.
    + apply Ok_eq in H as ->. apply E_simple. destruct b; auto.
    + destruct named; [destruct (ikind_signed k); [|discriminate H]|]; apply Ok_eq in H as ->; apply E_int.
    + eapply array_E; eauto.
    + eapply strmap_E; eauto.
    + unfold encodeNilPointer in H. destruct (_ <=? _)%Z; [discriminate|]. apply Ok_eq in H as ->.
      change [tagb typeREFN; tagb typeUNDEF] with ([tagb typeREFN] ++ [tagb typeUNDEF]). rewrite emit_app.
      apply (E_prefix x 1 s _ typeREFN); auto. apply E_simple; auto.
    + apply Ok_eq in H as ->. apply E_simple. destruct canonical; auto.
    + unfold encodePerlPointer in H. destruct (_ <=? _)%Z; [discriminate|]. eapply IH; [|exact H|]; [now apply pl_flat|]. intros a _ [].
    + unfold encodePerlPointer in H. destruct (_ <=? _)%Z; [discriminate|]. eapply IH; [|exact H|]; [apply pl_weak, Hm|]. intros a _ [].
    + eapply array_E; eauto.
    + eapply map_E; eauto.
  - cbn [encode_body] in H. apply (E_prefix x 1 s s' typeWEAKEN); auto. eapply IH0; eauto.
  - cbn [encode_body] in H. eapply pointer_E; eauto.
  - cbn [encode_body] in H. rewrite class_literal in H by eauto.
    apply (E_object x s s' typeOBJECT (bytes_lit cls) cls); auto. eapply IH0; eauto.
  - cbn [encode_body] in H. unfold encodePerlPointer in H. destruct (_ <=? _)%Z; [discriminate|].
    eapply IH; [|exact H|]; [apply pl_obj; auto; apply Hm|]. intros a _ [].
  - eapply struct_E; eauto.
  - eapply freeze_E; eauto.
  - cbn [encode_body] in H. apply Ok_eq in H as ->. now apply E_regexp.
  - cbn [encode_body] in H. rewrite Nf in H. destruct o as [by_|]; [|discriminate H]. apply Ok_eq in H as ->.
    rewrite name_literal by eauto.
    apply (E_object x s _ typeOBJECT_FREEZE (text_lit name) name); auto.
    change (tagb typeREFN :: tagb typeARRAY :: varint 1) with ([tagb typeREFN] ++ (tagb typeARRAY :: varint (N.of_nat 1))). rewrite emit_app.
    eapply (E_prefix None 1 _ _ typeREFN); auto. apply (E_array None 1). apply E_bytes.
  - cbn [encode_body] in H. rewrite Nf in H. eapply IH; eauto. intros a Xa I. apply (Nx a Xa). cbn [starts]. rewrite Nf in I |- *. exact I.
Qed.
End Body.

Lemma encode_E f : forall v, plain_ v -> forall x r d s s', encode e h f v r d s = Ok s' ->
  (forall a, x = Some a -> ~ In a (starts_ v)) -> E x 1 s s'.
Proof using Hm Hw.
  induction f as [|f IH]; intros v P x r d s s' H Nx; [discriminate H|]. cbn [encode] in H. eapply body_E; eauto.
Qed.

(** the body of a document *)
Lemma encode_mergeable f v r d t s' top : plain_ v -> encode e h f v r d (estart [x00] t) = Ok s' -> smallF (s_by s') ->
  exists body, s_by s' = x00 :: body /\ mergeable false top body 1.
Proof using Hm Hw.
  intros P R Sm. assert (A : E None 1 (estart [x00] t) s') by (eapply encode_E; eauto; discriminate).
  destruct (A []) as (L & T & B & _ & G & C & Q).
  { split; [intros i []|]. split; [intros k o|intros a o]; cbn; discriminate. }
  cbn [estart s_by length] in *.
  destruct (C 0 x00 eq_refl) as (y & Hy & [->|[[] _]]).
  destruct (s_by s') as [|y body] eqn:Eb; [discriminate Hy|]. injection Hy as ->. exists body. split; [reflexivity|].
  exists 1, (L ++ []). split; [|left; auto].
  apply (Q (x00 :: body) Sm (covers_refl _ _) 0). apply ld_none.
Qed.
End Enc.
