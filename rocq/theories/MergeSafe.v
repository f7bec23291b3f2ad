(** What holds of a Merger after any history of calls. *)
From Verif Require Import Base BaseFacts SpecVarint Varint VarintFacts Tags Codecs Encode Compress Header
  GoMem Spec SpecDoc GrammarFacts DocFacts GoSlice RedocFacts Merge SpecMerge MergeFacts MergeItems MergeRun.
From Coq Require Import ZifyBool ZifyNat ZifyN.
Ltac Zify.zify_post_hook ::= Z.div_mod_to_equations.

(** ** Appending to and changing slices *)
Definition same_or_new (mem : list bytes) (s : slice) (mem' : list bytes) (s' : slice) : Prop :=
  (sl_arr s' = sl_arr s /\ sl_off s' = sl_off s /\ sl_cap s' = sl_cap s) \/ sl_arr s' = length mem.

Section World.
Variable w : mworld.

Lemma w_append_ok mem s b s' mem' : slice_ok mem s -> w_append w mem s b = (s', mem') ->
  slice_ok mem' s' /\ sl_len s' = sl_len s + length b /\ contents mem' s' = contents mem s ++ b /\
  length mem <= length mem' /\ same_or_new mem s mem' s'.
Proof.
  intros O E. pose proof (append_ok (w_grow w (length mem)) mem s b O) as A.
  pose proof (append_contents (w_grow w (length mem)) mem s b O) as C. unfold w_append in E.
  rewrite E in A, C. destruct A as [A1 A2]. repeat split; try assumption; try apply A1.
  - unfold append_slice in E. destruct (Nat.leb _ _).
    + injection E as _ <-. rewrite upd_length. lia.
    + unfold make_with in E. injection E as _ <-. rewrite app_length. cbn. lia.
  - unfold append_slice in E. destruct (Nat.leb _ _).
    + injection E as <- _. left. auto.
    + unfold make_with in E. injection E as <- _. right. reflexivity.
Qed.

(** another slice that ends where [s] may grow keeps its bytes *)
Lemma w_append_other mem s b s' mem' s1 : slice_ok mem s -> w_append w mem s b = (s', mem') ->
  sl_arr s1 < length mem ->
  (sl_arr s = sl_arr s1 -> sl_off s = sl_off s1 /\ sl_len s1 <= sl_len s) ->
  contents mem' s1 = contents mem s1.
Proof.
  intros [O1 O2] E La H. unfold w_append, append_slice in E. destruct (Nat.leb_spec (sl_len s + length b) (sl_cap s)) as [L|L].
  - injection E as <- <-. destruct (Nat.eq_dec (sl_arr s) (sl_arr s1)) as [Ea|Ea].
    + destruct (H Ea) as [Eo Ll]. unfold contents. rewrite <- Ea, array_upd_same by lia.
      destruct b as [|x b].
      * now rewrite overwrite_nil.
      * destruct O2 as [O2|O2]; [cbn [length] in L; lia|].
        rewrite <- Eo, skipn_overwrite by lia. unfold overwrite. rewrite firstn_app, firstn_firstn, Nat.min_l by lia.
        rewrite firstn_length, skipn_length.
        match goal with |- context [sl_len s1 - ?x] => replace (sl_len s1 - x) with 0 by lia end. now rewrite firstn_O, app_nil_r.
    + unfold contents. now rewrite array_upd_other by exact Ea.
  - unfold make_with in E. injection E as <- <-. unfold contents. now rewrite array_app by exact La.
Qed.

Lemma set_track_ok mem s i mem' : slice_ok mem s -> set_track mem s i = Ok mem' ->
  slice_ok mem' s /\ length mem' = length mem /\ i < sl_len s /\
  exists x, contents mem' s = upd (contents mem s) i x.
Proof.
  intros O E. pose proof O as [O1 O2]. unfold set_track in E. destruct (Nat.ltb_spec i (sl_len s)) as [L|]; [|discriminate]. injection E as <-.
  destruct O2 as [O2|O2]; [lia|]. assert (La : sl_arr s < length mem) by (apply array_long; lia).
  set (x := n2b _). split; [|split; [apply upd_length|split; [exact L|]]].
  - split; [exact O1|]. right. rewrite array_upd_same, upd_length by exact La. exact O2.
  - exists x. unfold contents. rewrite array_upd_same by exact La. rewrite skipn_upd, firstn_upd. reflexivity.
Qed.

(** ** One round *)
Lemma bind_Ok {A B} (r : res A) (f : A -> res B) x : bind r f = Ok x -> exists a, r = Ok a /\ f a = Ok x.
Proof. destruct r; cbn; intros H; try discriminate. eauto. Qed.

Lemma fixed_size t n : merge_kind t = KFixed n -> (n = 5 \/ n = 9 \/ n = 17 \/ n = 2) /\ 
  (t = 34 \/ t = 35 \/ t = 36 \/ t = 97)%N.
Proof.
  unfold merge_kind. repeat (match goal with |- (if ?c then _ else _) = _ -> _ => destruct c eqn:?; [try discriminate|] end); try discriminate;
    intros [= <-]; unfold typeFLOAT, typeDOUBLE, typeLONG_DOUBLE, typeSHORT_BINARY_0 in *; split; lia.
Qed.

Lemma merge_tag_gen (P : nat -> Prop) d strs objs tt_ didx rel dd b f :
  (forall v o, assoc v strs = Some o -> P o) -> (forall v o, assoc v objs = Some o -> P o) ->
  (forall v o, tfind v tt_ = Some o -> P o) -> P rel -> P (S rel) ->
  merge_tag d strs objs tt_ didx rel dd b = Ok f ->
  P (f_rel f) /\ 1 <= f_adv f /\
  (forall i, f_track f = Some i -> P i /\ (untrack b = typeREFP \/ untrack b = typeALIAS)).
Proof.
  intros Hs Ho Ht Hr Hr' H. unfold merge_tag in H. destruct (merge_kind (untrack b)) eqn:K.
  - injection H as <-. cbn. repeat split; auto; discriminate.
  - injection H as <-. cbn. repeat split; auto; discriminate.
  - destruct (varintdecode _) as [z sz|]; [|discriminate]. apply bind_Ok in H as (s & _ & H). injection H as <-.
    cbn. repeat split; auto; try lia; discriminate.
  - apply bind_Ok in H as (s & _ & H). injection H as <-.
    cbn. repeat split; auto; try discriminate. apply fixed_size in K. lia.
  - apply bind_Ok in H as ([ln sz] & _ & H). destruct ((ln <? 0) || (maxUint32 <? ln))%Z; [discriminate|].
    destruct (Nat.ltb _ _); [discriminate|]. apply bind_Ok in H as (s & _ & H).
    destruct dd; [destruct (assoc _ strs) as [saved|] eqn:A|].
    + apply bind_Ok in H as (o & _ & H). injection H as <-. cbn. repeat split; eauto; try lia; discriminate.
    + injection H as <-. cbn. repeat split; auto; try lia; discriminate.
    + injection H as <-. cbn. repeat split; auto; try lia; discriminate.
  - destruct (varintdecode _) as [off sz|]; [|discriminate].
    destruct (if (off <? 0)%Z then None else _) as [target|] eqn:T; [|discriminate].
    assert (Pt : P target) by (destruct (off <? 0)%Z; [discriminate|eauto]).
    apply bind_Ok in H as (o & _ & H). injection H as <-. cbn [f_rel f_adv f_track].
    split; [exact Hr|]. split; [lia|]. intros i.
    destruct ((untrack b =? typeALIAS) || (untrack b =? typeREFP))%N eqn:E; [|discriminate]. intros [= <-]. split; [exact Pt|].
    apply orb_true_iff in E as [E|E]; apply N.eqb_eq in E; auto.
  - destruct (varintdecode _) as [ln sz|]; [|discriminate]. destruct (ln <? 0)%Z; [discriminate|].
    apply bind_Ok in H as (s & _ & H). injection H as <-. cbn. repeat split; auto; try lia; discriminate.
  - injection H as <-. cbn. repeat split; auto; discriminate.
  - apply bind_Ok in H as ([o1 s1] & _ & H). apply bind_Ok in H as ([o2 s2] & _ & H). apply bind_Ok in H as (s & _ & H).
    injection H as <-. cbn. repeat split; auto; try lia; discriminate.
  - apply bind_Ok in H as ([o1 s1] & _ & H). destruct (assoc s1 objs) as [saved|] eqn:A.
    + apply bind_Ok in H as (o & _ & H). injection H as <-. cbn. repeat split; eauto; try lia; discriminate.
    + apply bind_Ok in H as (s & _ & H). injection H as <-. cbn. repeat split; auto; try lia; discriminate.
  - discriminate.
  - discriminate.
Qed.

Definition tabs (P : nat -> Prop) (st : mstate) : Prop :=
  (forall v o, assoc v (s_str st) = Some o -> P o) /\ (forall v o, assoc v (s_obj st) = Some o -> P o) /\
  (forall v o, tfind v (s_ttab st) = Some o -> P o).

(** what a round does to memory and tables *)
Lemma step_facts (P : nat -> Prop) g bo d st st' : slice_ok (s_mem st) (s_buf st) -> tabs P st ->
  P (sl_len (s_buf st) - bo) -> P (S (sl_len (s_buf st) - bo)) ->
  merge_step w g bo d st = Ok (Some st') ->
  exists b out mem1, nth_error (md_buf d) (s_idx st) = Some b /\
    w_append w (s_mem st) (s_buf st) out = (s_buf st', mem1) /\
    (s_mem st' = mem1 \/
     exists i, P i /\ (untrack b = typeREFP \/ untrack b = typeALIAS) /\ set_track mem1 (s_buf st') i = Ok (s_mem st')) /\
    tabs P st' /\ s_idx st < s_idx st' /\
    (exists l, s_str st' = l ++ s_str st) /\ (exists l, s_obj st' = l ++ s_obj st).
Proof.
  intros O (T1 & T2 & T3) P1 P2 H. unfold merge_step in H.
  destruct (nth_error (md_buf d) (s_idx st)) as [b|] eqn:Hb; [|discriminate].
  destruct (pop_stack (s_stack st)) as [|c rest]; [discriminate|].
  apply bind_Ok in H as (f & Hf & H). destruct (w_append w (s_mem st) (s_buf st) (f_out f)) as [s mem1] eqn:A.
  apply bind_Ok in H as (mem & Hm & H).
  destruct (merge_tag_gen P _ _ _ _ _ _ _ _ _ T1 T2 T3 P1 P2 Hf) as (F1 & F2 & F3).
  injection H as <-. exists b, (f_out f), mem1. split; [reflexivity|]. split; [exact A|].
  cbn [s_mem s_buf s_str s_obj s_idx s_ttab]. split; [|split; [|split; [|split]]].
  - destruct (f_track f) as [i|].
    + destruct (F3 i eq_refl) as [Pi Tg]. right. exists i. auto.
    + injection Hm as <-. now left.
  - split; [|split]; cbn [s_str s_obj s_ttab].
    + intros v o. destruct (f_str f) as [x|]; [|apply T1]. cbn [assoc]. destruct (bytes_eqb x v); [congruence|apply T1].
    + intros v o. destruct (f_obj f) as [x|]; [|apply T2]. cbn [assoc]. destruct (bytes_eqb x v); [congruence|apply T2].
    + intros v o. destruct (match s_tidx st with i :: _ => Nat.eqb i (S (s_idx st)) | [] => false end); [|apply T3].
      cbn [tfind]. destruct (Nat.eqb _ v); [congruence|apply T3].
  - lia.
  - destruct (f_str f) as [x|]; [now exists [(x, f_rel f)]|now exists []].
  - destruct (f_obj f) as [x|]; [now exists [(x, f_rel f)]|now exists []].
Qed.

Lemma loop_unfold fuel g bo d st : merge_loop w fuel g bo d st =
     match merge_step w g bo d st with
     | Ok None => (Ok tt, st)
     | Ok (Some st') => match fuel with O => (NoFuel, st) | S f => merge_loop w f g bo d st' end
     | Err e => (Err e, st) | Panic e => (Panic e, st) | Crash => (Crash, st) | NoFuel => (NoFuel, st)
     end.
Proof. destruct fuel; reflexivity. Qed.

Lemma loop_keeps (I : mstate -> Prop) g bo d : (forall st st', I st -> merge_step w g bo d st = Ok (Some st') -> I st') ->
  forall fuel st r fin, I st -> merge_loop w fuel g bo d st = (r, fin) -> I fin.
Proof.
  intros H. induction fuel as [|fuel IH]; intros st r fin Hi R; rewrite loop_unfold in R;
    destruct (merge_step w g bo d st) as [[st'|]| | | |] eqn:E; try (injection R as <- <-; exact Hi).
  eapply IH; [|exact R]. eauto.
Qed.

(** ** The loop, whatever happens *)
Definition Linv (L : nat) (P0 : bytes) (st : mstate) : Prop :=
  slice_ok (s_mem st) (s_buf st) /\ L + 5 <= sl_len (s_buf st) /\
  firstn L (contents (s_mem st) (s_buf st)) = P0 /\ tabs (fun o => L <= o) st.

Lemma Linv_step L P0 g d st st' : Linv L P0 st -> merge_step w g 5 d st = Ok (Some st') -> Linv L P0 st'.
Proof.
  intros (O & Ln & F & T) H.
  destruct (step_facts (fun o => L <= o) g 5 d st st' O T ltac:(cbv beta; lia) ltac:(cbv beta; lia) H) as (b & out & mem1 & _ & A & M & T' & _).
  apply (w_append_ok _ _ _ _ _ O) in A as (O1 & L1 & C1 & _).
  assert (F1 : firstn L (contents mem1 (s_buf st')) = P0).
  { rewrite C1, firstn_app, contents_length by exact O. replace (L - sl_len (s_buf st)) with 0 by lia.
    rewrite firstn_O, app_nil_r. exact F. }
  unfold Linv. destruct M as [->|(i & Li & _ & M)]; [split; [exact O1|split; [lia|split; [exact F1|exact T']]]|].
  apply (set_track_ok _ _ _ _ O1) in M as (O2 & _ & _ & x & C2).
  split; [exact O2|]. split; [lia|]. split; [|exact T'].
  rewrite C2, firstn_upd, upd_out; [exact F1|]. rewrite firstn_length. lia.
Qed.

(** a slice ending where the merged document ended before *)
Definition beside (s1 : slice) (st : mstate) : Prop :=
  sl_arr s1 < length (s_mem st) /\
  (sl_arr (s_buf st) = sl_arr s1 -> sl_off (s_buf st) = sl_off s1 /\ sl_len s1 <= sl_len (s_buf st)).
Definition no_ref (d : mdoc) (i : nat) : Prop :=
  forall b, nth_error (md_buf d) i = Some b -> untrack b <> typeREFP /\ untrack b <> typeALIAS.

Definition Kinv (s1 : slice) (C C0 : bytes) (strs objs : list (bytes * nat)) (st : mstate) : Prop :=
  slice_ok (s_mem st) (s_buf st) /\ beside s1 st /\ contents (s_mem st) s1 = C /\
  (exists x, contents (s_mem st) (s_buf st) = C0 ++ x) /\
  (exists l, s_str st = l ++ strs) /\ (exists l, s_obj st = l ++ objs).

Lemma trivial_tabs st : tabs (fun _ => True) st.
Proof. repeat split. Qed.

Lemma Kinv_step s1 C C0 strs objs g bo d st st' : no_ref d (s_idx st) -> Kinv s1 C C0 strs objs st ->
  merge_step w g bo d st = Ok (Some st') -> Kinv s1 C C0 strs objs st'.
Proof.
  intros Nr (O & [B1 B2] & Ek & (x & Ex) & (l1 & E1) & (l2 & E2)) H.
  destruct (step_facts (fun _ => True) _ _ _ _ _ O (trivial_tabs st) I I H)
    as (b & out & mem1 & Hb & A & M & _ & _ & (l3 & E3) & (l4 & E4)).
  destruct M as [M|(i & _ & [Tg|Tg] & _)]; [|now elim (proj1 (Nr _ Hb))|now elim (proj2 (Nr _ Hb))].
  pose proof (w_append_other _ _ _ _ _ s1 O A B1 B2) as Ok.
  apply (w_append_ok _ _ _ _ _ O) in A as (O1 & L1 & C1 & Lm & Sn). rewrite <- M in *.
  split; [exact O1|]. split; [|split; [congruence|split; [|split]]].
  - split; [lia|]. intros Ea. destruct Sn as [(Sa & So & _)|Sa]; [|lia]. rewrite So, L1. rewrite Sa in Ea. specialize (B2 Ea). lia.
  - exists (x ++ out). rewrite C1, Ex. now rewrite app_assoc.
  - exists (l3 ++ l1). rewrite E3, E1. now rewrite app_assoc.
  - exists (l4 ++ l2). rewrite E4, E2. now rewrite app_assoc.
Qed.

(** tables, in any document *)
Definition Tinv (strs objs : list (bytes * nat)) (st : mstate) : Prop :=
  slice_ok (s_mem st) (s_buf st) /\ (exists l, s_str st = l ++ strs) /\ (exists l, s_obj st = l ++ objs).
Lemma Tinv_step strs objs g bo d st st' : Tinv strs objs st -> merge_step w g bo d st = Ok (Some st') -> Tinv strs objs st'.
Proof.
  intros (O & (l1 & E1) & (l2 & E2)) H.
  destruct (step_facts (fun _ => True) _ _ _ _ _ O (trivial_tabs st) I I H)
    as (b & out & mem1 & Hb & A & M & _ & _ & (l3 & E3) & (l4 & E4)).
  apply (w_append_ok _ _ _ _ _ O) in A as (O1 & _).
  split; [|split; [exists (l3 ++ l1)|exists (l4 ++ l2)]].
  - destruct M as [->|(i & _ & _ & M)]; [exact O1|]. now apply (set_track_ok _ _ _ _ O1) in M as (O2 & _).
  - rewrite E3, E1. now rewrite app_assoc.
  - rewrite E4, E2. now rewrite app_assoc.
Qed.

(** ** Results other than a value, an error or a crash do not occur *)
Definition clean {A} (r : res A) : Prop := match r with Ok _ | Err _ | Crash => True | _ => False end.
Lemma clean_bind {A B} (r : res A) (f : A -> res B) : clean r -> (forall x, r = Ok x -> clean (f x)) -> clean (bind r f).
Proof. destruct r; cbn; auto. Qed.
Lemma drange_clean d i j : clean (drange d i j).
Proof. unfold drange. destruct (slice_range _ _ _); exact I. Qed.
Lemma readString_clean b : clean (readString b).
Proof.
  unfold readString. destruct b as [|t b]; [exact I|]. destruct (negb _); [exact I|].
  apply clean_bind.
  - destruct (_ <? _)%N; [exact I|]. destruct (varintdecode b); exact I.
  - intros [ln sz] _. destruct (_ || _); [exact I|]. destruct (Nat.ltb _ _); exact I.
Qed.
Lemma tagVarint_clean b n : clean (tagVarint b n).
Proof. unfold tagVarint. destruct (_ <? _)%Z; exact I. Qed.
Lemma merge_tag_clean d strs objs tt_ didx rel dd b : clean (merge_tag d strs objs tt_ didx rel dd b).
Proof.
  unfold merge_tag. destruct (merge_kind (untrack b)); try exact I.
  - destruct (varintdecode _); [|exact I]. apply clean_bind; [apply drange_clean|intros; exact I].
  - apply clean_bind; [apply drange_clean|intros; exact I].
  - apply clean_bind.
    + destruct (_ <? _)%N; [exact I|]. destruct (varintdecode _); exact I.
    + intros [ln sz] _. destruct (_ || _); [exact I|]. destruct (Nat.ltb _ _); [exact I|].
      apply clean_bind; [apply drange_clean|]. intros s _. destruct dd; [|exact I].
      destruct (assoc _ strs); [|exact I]. apply clean_bind; [apply tagVarint_clean|intros; exact I].
  - destruct (varintdecode _) as [off sz|]; [|exact I]. destruct (if (off <? 0)%Z then None else _); [|exact I].
    apply clean_bind; [apply tagVarint_clean|intros; exact I].
  - destruct (varintdecode _) as [ln sz|]; [|exact I]. destruct (ln <? 0)%Z; [exact I|].
    apply clean_bind; [apply drange_clean|intros; exact I].
  - apply clean_bind; [apply readString_clean|]. intros [o1 s1] _. apply clean_bind; [apply readString_clean|].
    intros [o2 s2] _. apply clean_bind; [apply drange_clean|intros; exact I].
  - apply clean_bind; [apply readString_clean|]. intros [o1 s1] _. destruct (assoc s1 objs).
    + apply clean_bind; [apply tagVarint_clean|intros; exact I].
    + apply clean_bind; [apply drange_clean|intros; exact I].
Qed.
Lemma merge_step_clean g bo d st : clean (merge_step w g bo d st).
Proof.
  unfold merge_step. destruct (nth_error _ _); [|exact I]. destruct (pop_stack _); [exact I|].
  apply clean_bind; [apply merge_tag_clean|]. intros f _. destruct (w_append _ _ _ _) as [s mem].
  apply clean_bind; [|intros; exact I]. destruct (f_track f); [|exact I].
  unfold set_track. destruct (Nat.ltb _ _); exact I.
Qed.
Lemma merge_loop_clean g bo d : forall fuel st, slice_ok (s_mem st) (s_buf st) -> length (md_buf d) < fuel + s_idx st ->
  clean (fst (merge_loop w fuel g bo d st)).
Proof.
  induction fuel as [|fuel IH]; intros st O L; rewrite loop_unfold;
    pose proof (merge_step_clean g bo d st) as C;
    destruct (merge_step w g bo d st) as [[st'|]| | | |] eqn:E; try exact I; try (now elim C).
  - exfalso. unfold merge_step in E. destruct (nth_error (md_buf d) (s_idx st)) eqn:N; [|discriminate].
    apply nth_error_Some_lt in N. lia.
  - destruct (step_facts (fun _ => True) _ _ _ _ _ O (trivial_tabs st) I I E) as (b & out & mem1 & Hb & A & M & _ & Lt & _).
    apply (w_append_ok _ _ _ _ _ O) in A as (O1 & _).
    apply IH; [|lia]. destruct M as [->|(i & _ & _ & M)]; [exact O1|]. now apply (set_track_ok _ _ _ _ O1) in M as (O2 & _).
Qed.

Lemma track_tag_clean buf idx t : clean (track_tag buf idx t).
Proof.
  unfold track_tag. repeat match goal with
  | |- clean (if ?c then _ else _) => destruct c
  | |- clean (match varintdecode ?x with VOk _ _ => _ | VBad _ => _ end) => destruct (varintdecode x)
  end; exact I.
Qed.
Lemma track_tag_moves buf idx t l n : track_tag buf idx t = Ok (l, n) -> 1 <= n.
Proof.
  unfold track_tag. repeat match goal with
  | |- (if ?c then _ else _) = _ -> _ => destruct c
  | |- match varintdecode ?x with VOk _ _ => _ | VBad _ => _ end = _ -> _ => destruct (varintdecode x)
  end; intros [= <- <-]; lia.
Qed.
Lemma track_loop_clean buf : forall fuel idx acc, length buf <= fuel + idx -> clean (track_loop fuel buf idx acc).
Proof.
  induction fuel as [|fuel IH]; intros idx acc L; cbn [track_loop]; destruct (nth_error buf idx) as [b|] eqn:N; try exact I.
  - apply nth_error_Some_lt in N. cbn in L. lia.
  - apply clean_bind; [apply track_tag_clean|]. intros [l n] E. apply track_tag_moves in E. apply IH. lia.
Qed.
End World.
