(** The encoder on values with sharing and cycles: it appends one item, in the grammar with
    references to earlier items, describing what the traversal of SpecKnot.v says.  Here all items
    are labelled with their offsets; KnotFacts.v passes to the numbers of the marked ones. *)
From Verif Require Import Base BaseFacts SpecVarint Varint VarintFacts Tags GoMem TagsCache
  Encode Spec SpecValue SpecShare SpecGraph SpecCycle SpecKnot GrammarFacts JsonFacts EncodeSpec ShareEncode.
From Coq Require Import ZifyBool ZifyNat ZifyN Permutation.
Ltac Zify.zify_post_hook ::= Z.div_mod_to_equations.

(** ** The grammar with every item labelled by its offset *)
Section Offsets.
Variable g : dialect.
Variable by_ : bytes.

Inductive oitem : list nat -> cmode -> nat -> node -> nat -> list nat -> Prop :=
| o_item E m p t x p' X : tag_at by_ p p t -> obody (p :: E) m p t x p' X ->
    oitem E m p (NAt p x) p' (X ++ [p])
with obody : list nat -> cmode -> nat -> N -> node -> nat -> list nat -> Prop :=
| o_plain E m q t d p' : plain_tag t -> item g by_ m q d p' -> obody E m q t (NLeaf d) p' []
| o_refn E m q x p' X : oitem E m (S q) x p' X -> obody E m q 40 (NRef x) p' X
| o_weaken E m q x p' X : oitem E m (S q) x p' X -> obody E m q 48 (NWeak x) p' X
| o_array E m q n r xs p' X : vint by_ (S q) n r -> (n <= g_max g)%N ->
    N.of_nat (length xs) = n -> oitems E m r xs p' X -> obody E m q 43 (NArr xs) p' X
| o_hash E m q n r kxs p' X : vint by_ (S q) n r -> (n <= g_max g)%N ->
    N.of_nat (length kxs) = n -> opairs E m r kxs p' X -> obody E m q 42 (NHash kxs) p' X
| o_object E m q cls r x p' X : stringish g by_ (copy_ok m) (S q) cls r ->
    oitem E m r x p' X -> obody E m q 44 (NObj cls x) p' X
| o_freeze E m q cls r s y p' X : stringish g by_ (copy_ok m) (S q) cls r ->
    at_ by_ r [x28; x2b] -> oitem E m r (NAt r (NRef (NAt (S r) (NArr [y])))) p' X ->
    string_node s y -> g_frz g cls s -> obody E m q 50 (NFreeze cls s y) p' X
| o_refp E m q n r : vint by_ (S q) n r -> N.to_nat n < q -> marked by_ (N.to_nat n) ->
    In (N.to_nat n) E -> obody E m q 41 (NBack (N.to_nat n)) r []
with oitems : list nat -> cmode -> nat -> list node -> nat -> list nat -> Prop :=
| os_nil E m p : oitems E m p [] p []
| os_cons E m p x r X xs p' Y : oitem E m p x r X -> oitems (X ++ E) m r xs p' Y ->
    oitems E m p (x :: xs) p' (Y ++ X)
with opairs : list nat -> cmode -> nat -> list (bytes * node) -> nat -> list nat -> Prop :=
| op_nil E m p : opairs E m p [] p []
| op_cons E m p k r x r' X kxs p' Y : stringish g by_ (copy_ok m) p k r ->
    oitem E m r x r' X -> opairs (X ++ E) m r' kxs p' Y ->
    opairs E m p ((k, x) :: kxs) p' (Y ++ X).
End Offsets.

Section KE.
Variable e : econfig.
Variable h : heap.
Variable g : dialect.
Variable m : cmode.
Hypothesis Hshuf : forall t A (l : list A), Permutation l (e_shuffle e t A l).
Hypothesis Hmax : (g_max g < 18446744073709551616)%N.

Notation proper_ := (proper (g_max g) (g_frz g) (e_nofreeze e) h).
Notation den_ := (den (e_perl e) (e_nofreeze e) (e_parsefloat e) h).
Notation kden_ := (kden (e_perl e) (e_nofreeze e) (e_parsefloat e) (e_layout e) h).
Notation kbody_ := (kbody (e_perl e) (e_nofreeze e) (e_parsefloat e) (e_layout e) h).
Notation kdens_ := (kdens (e_perl e) (e_nofreeze e) (e_parsefloat e) (e_layout e) h).
Notation kdenm_ := (kdenm (e_perl e) (e_nofreeze e) (e_parsefloat e) (e_layout e) h).
Notation fits_ := (fits (g_max g)).
Notation bq := (bytes -> nat -> nat -> Prop).
Notation here s := (length (s_by s)).
Notation step := (ShareEncode.step e g m).
Notation pure := (ShareEncode.pure e g m).
Notation Qkey := (ShareEncode.Qkey g m).
Notation Qlit := (ShareEncode.Qlit g).
Notation Qplain := (ShareEncode.Qplain g m).
Notation step_seq := (ShareEncode.step_seq e g m Hshuf Hmax).
Notation step_weaken := (ShareEncode.step_weaken e g m).
Notation pure_seq := (ShareEncode.pure_seq e g m Hshuf Hmax).
Notation pure_tag := (ShareEncode.pure_tag e g m Hshuf Hmax).
Notation pure_vint := (ShareEncode.pure_vint e g m Hshuf Hmax).
Notation pure_at := (ShareEncode.pure_at e g m Hshuf Hmax).
Notation pure_skey := (ShareEncode.pure_skey e g m Hshuf Hmax).
Notation pure_bkey := (ShareEncode.pure_bkey e g m Hshuf Hmax).
Notation pure_sval := (ShareEncode.pure_sval e g m Hshuf Hmax).
Notation pure_bval := (ShareEncode.pure_bval e g m Hshuf Hmax).
Notation pure_int := (ShareEncode.pure_int e g m Hshuf Hmax).
Notation pure_f32 := (ShareEncode.pure_f32 e g m Hshuf Hmax).
Notation pure_f64 := (ShareEncode.pure_f64 e g m Hshuf Hmax).
Notation pure_lit := (ShareEncode.pure_lit e g m).
Notation pure_simple := (ShareEncode.pure_simple e g m Hshuf Hmax).
Notation pure_tagn := (ShareEncode.pure_tagn e g m Hshuf Hmax).
Notation pure_tick := (ShareEncode.pure_tick e g m).
Notation pure_unflag := (ShareEncode.pure_unflag e g m).
Notation pure_weaken := (ShareEncode.pure_weaken e g m).
Notation ready_ext := (ShareEncode.ready_ext e g m Hshuf Hmax).

Hypothesis Hpf : forall s u, e_parsefloat e s = Some u -> (u < 2 ^ 64)%N.

(** ** The tables *)
Definition al (S : kenv) (E P : list nat) (s : estate) : Prop :=
  (forall n, In n E -> n < here s) /\ (forall n, In n P -> n < here s) /\
  forall a, match kfind S a with
            | None => pget (s_ptr s) a = None
            | Some o => exists n, o = Some n /\ pget (s_ptr s) a = Some n /\ In n P /\ In n E
            end.

Lemma kfind_app Y S a : kfind (Y ++ S) a = match kfind Y a with Some o => Some o | None => kfind S a end.
Proof. induction Y as [|[a' o] Y IH]; cbn [kfind app]; auto. destruct (addr_eqb a' a); auto. Qed.

(** ** Runs *)
Definition post (s s' : estate) (S : kenv) (E P : list nat) (Y : kenv) (X N : list nat) : Prop :=
  al (Y ++ S) (X ++ E) (N ++ P) s' /\ (forall n, In n X -> here s <= n).

Definition does {D : Type} (run : res estate) (s : estate) (S : kenv) (E P : list nat)
  (R : D -> kenv -> list nat -> list nat -> Prop) (Q : D -> list nat -> bq) : Prop :=
  forall s', run = Ok s' -> exists x Y X N, R x Y X N /\ post s s' S E P Y X N /\ step P (Q x X) s s' N.

Definition Ritem (s : estate) (T : node -> kenv -> Prop) (x : node) (Y : kenv) (X N : list nat) : Prop :=
  In (here s) X /\ In (here s) N /\ exists xb, x = NAt (here s) xb /\ T xb Y.
Definition Qitem (E : list nat) (x : node) (X : list nat) : bq := fun b p p' => oitem g b E m p x p' X.

Lemma al_ptr S E P s s1 : s_ptr s1 = s_ptr s -> here s <= here s1 -> al S E P s -> al S E P s1.
Proof.
  intros Ep L (A1 & A2 & A3). split; [intros n H; apply A1 in H; lia|].
  split; [intros n H; apply A2 in H; lia|]. intros a. rewrite Ep. apply A3.
Qed.

Lemma al_open S E P s s1 : s_ptr s1 = s_ptr s -> here s < here s1 -> al S E P s ->
  al S (here s :: E) (here s :: P) s1.
Proof.
  intros Ep L (A1 & A2 & A3). split; [|split].
  - intros n [<-|H]; [lia|]. apply A1 in H. lia.
  - intros n [<-|H]; [lia|]. apply A2 in H. lia.
  - intros a. specialize (A3 a). rewrite Ep. destruct (kfind S a) as [o|]; [|exact A3].
    destruct A3 as (n & G0 & G1 & G2 & G3). exists n. repeat split; auto; now right.
Qed.

Lemma does_weaken {D} run s S E P (R R' : D -> kenv -> list nat -> list nat -> Prop) (Q : D -> list nat -> bq) :
  (forall x Y X N, R x Y X N -> R' x Y X N) -> does run s S E P R Q -> does run s S E P R' Q.
Proof. intros H K s' Er. destruct (K s' Er) as (x & Y & X & N & K1 & K2). exists x, Y, X, N. auto. Qed.

Lemma item_weaken run s S E P (T T' : node -> kenv -> Prop) : (forall x Y, T x Y -> T' x Y) ->
  does run s S E P (Ritem s T) (Qitem E) -> does run s S E P (Ritem s T') (Qitem E).
Proof. intros H. apply does_weaken. intros x Y X N (A & B & xb & C & K). unfold Ritem. eauto 6. Qed.

Lemma does_leaf f d s S E P (T : node -> kenv -> Prop) : pure true f (Qplain d) -> al S E P s -> T (NLeaf d) [] ->
  does (Ok (f s)) s S E P (Ritem s T) (Qitem E).
Proof.
  intros Pf A Td s' Er. injection Er as <-. destruct (Pf s) as [Ep St]. specialize (St P).
  pose proof St as (_ & B & _). specialize (B (here s) ltac:(now left)).
  exists (NAt (here s) (NLeaf d)), [], [here s], [here s]. split; [|split].
  - split; [now left|]. split; [now left|]. eauto.
  - split; [|intros n [<-|[]]; lia]. apply (al_open S E P s (f s)); auto; lia.
  - eapply step_weaken; [|exact St]. intros fin (I & t & Ht & Hp).
    apply (o_item g fin E m (here s) t (NLeaf d) (here (f s)) []); [exact Ht|].
    now apply o_plain.
Qed.

(** an item starting with what [f] emits *)
Lemma does_item {D} (f : estate -> estate) (Q1 : bq) run s S E P
  (R : D -> kenv -> list nat -> list nat -> Prop) (Q : D -> list nat -> bq) (mkb : D -> node) (T : node -> kenv -> Prop) :
  pure true f Q1 -> al S E P s ->
  (al S (here s :: E) (here s :: P) (f s) ->
   does run (f s) S (here s :: E) (here s :: P) R Q) ->
  (forall x Y X N, R x Y X N -> T (mkb x) Y) ->
  (forall x Y X N fin r p', R x Y X N -> Q1 fin (here s) r -> Q x X fin r p' ->
     exists t, tag_at fin (here s) (here s) t /\
       obody g fin (here s :: E) m (here s) t (mkb x) p' X) ->
  does run s S E P (Ritem s T) (Qitem E).
Proof.
  intros Pf A HD HR HQ s' Er. destruct (Pf s) as [Ep St]. specialize (St P).
  pose proof St as (_ & B & _). specialize (B (here s) ltac:(now left)).
  destruct (HD ltac:(apply al_open; auto; lia) s' Er) as (x & Y & X & N & Rx & (A' & HX) & St').
  exists (NAt (here s) (mkb x)), Y, (X ++ [here s]), (N ++ [here s]). split; [|split; [split|]].
  - split; [apply in_app_iff; right; now left|]. split; [apply in_app_iff; right; now left|]. eauto.
  - rewrite <- !app_assoc. exact A'.
  - intros n. rewrite in_app_iff. intros [H|[<-|[]]]; [apply HX in H|]; lia.
  - eapply (step_seq P Q1 (Q x X)); [exact St|exact St'|].
    intros fin r K1 K2. destruct (HQ _ _ _ _ _ _ _ Rx K1 K2) as (t & Ht & Hb).
    eapply o_item; eauto.
Qed.

(** two runs in a row *)
Lemma does_bind {D1 D2 D} (run1 : res estate) run2 s S E P
  (R1 : D1 -> kenv -> list nat -> list nat -> Prop) Q1 (R2 : D1 -> kenv -> D2 -> kenv -> list nat -> list nat -> Prop)
  (Q2 : list nat -> D2 -> list nat -> bq) (mkb : D1 -> D2 -> D) (R : D -> kenv -> list nat -> list nat -> Prop) (Q : D -> list nat -> bq) :
  does run1 s S E P R1 Q1 ->
  (forall s1 x Y X N, R1 x Y X N -> al (Y ++ S) (X ++ E) (N ++ P) s1 ->
     does (run2 s1) s1 (Y ++ S) (X ++ E) (N ++ P) (R2 x Y) (Q2 (X ++ E))) ->
  (forall x y Y X N Y' X' N', R1 x Y X N -> R2 x Y y Y' X' N' -> R (mkb x y) (Y' ++ Y) (X' ++ X) (N' ++ N)) ->
  (forall x y X X' fin p r p', Q1 x X fin p r -> Q2 (X ++ E) y X' fin r p' -> Q (mkb x y) (X' ++ X) fin p p') ->
  does (bind run1 run2) s S E P R Q.
Proof.
  intros H1 H2 HR HQ s' Er. destruct run1 as [s1| | | |] eqn:E1; try discriminate Er. cbn [bind] in Er.
  destruct (H1 s1 eq_refl) as (x & Y & X & N & Rx & (A & HX) & St).
  destruct (H2 s1 x Y X N Rx A s' Er) as (y & Y' & X' & N' & Ry & (A' & HX') & St').
  pose proof (step_le _ _ _ _ _ _ _ _ St).
  exists (mkb x y), (Y' ++ Y), (X' ++ X), (N' ++ N).
  split; [eauto|]. split; [split|].
  - now rewrite <- !app_assoc.
  - intros n. rewrite in_app_iff. intros [Hn|Hn]; [apply HX' in Hn; lia|auto].
  - eapply step_seq; [exact St|exact St'|]. intros fin r K1 K2. eauto.
Qed.

(** a pure step without items first *)
Lemma does_after {D} (f : estate -> estate) (Q1 : bq) run s S E P
  (R : D -> kenv -> list nat -> list nat -> Prop) (Q Q' : D -> list nat -> bq) :
  pure false f Q1 -> al S E P s ->
  (al S E P (f s) -> does run (f s) S E P R Q) ->
  (forall x X fin p r p', Q1 fin p r -> Q x X fin r p' -> Q' x X fin p p') ->
  does run s S E P R Q'.
Proof.
  intros Pf A HD HQ s' Er. destruct (Pf s) as [Ep St]. specialize (St P). pose proof (step_le _ _ _ _ _ _ _ _ St).
  destruct (HD ltac:(eapply al_ptr; eauto) s' Er) as (x & Y & X & N & Rx & (A' & HX) & St').
  exists x, Y, X, N. split; [exact Rx|]. split; [split|].
  - exact A'.
  - intros n Hn. apply HX in Hn. lia.
  - pose proof (step_seq P Q1 (Q x X) (Q' x X) s (f s) s' [] N St St') as K.
    rewrite app_nil_r in K. apply K. intros fin r K1 K2. eauto.
Qed.

Lemma does_nil {D} (x : D) s S E P (R : D -> kenv -> list nat -> list nat -> Prop) (Q : D -> list nat -> bq) :
  al S E P s -> R x [] [] [] -> (forall fin p, Q x [] fin p p) -> does (Ok s) s S E P R Q.
Proof.
  intros A HR HQ s' Er. injection Er as <-. exists x, [], [], []. split; [exact HR|]. split; [|split; [|split]].
  - split; [exact A|]. intros n [].
  - apply fut_refl.
  - intros n [].
  - intros _ Rd. split; [exact Rd|]. intros. apply HQ.
Qed.

Lemma does_fails {D} (run : res estate) s S E P (R : D -> kenv -> list nat -> list nat -> Prop) (Q : D -> list nat -> bq) :
  (forall s', run <> Ok s') -> does run s S E P R Q.
Proof. intros H s' Er. now apply H in Er. Qed.

(** ** Values *)
Definition goes (rec : gval -> bool -> Z -> estate -> res estate) (v : gval) : Prop :=
  forall r dep s S E P, al S E P s ->
    does (rec v r dep s) s S E P (Ritem s (kbody_ S (Some (here s)) r v)) (Qitem E).

Definition Rvals (S : kenv) (vs : list gval) (xs : list node) (Y : kenv) (X N : list nat) : Prop := kdens_ S vs xs Y.
Definition Qvals (E : list nat) (xs : list node) (X : list nat) : bq := fun b p p' => oitems g b E m p xs p' X.
Definition Rpairs (S : kenv) (vs : list (bytes * gval)) (xs : list (bytes * node)) (Y : kenv) (X N : list nat) : Prop := kdenm_ S vs xs Y.
Definition Qpairs (E : list nat) (xs : list (bytes * node)) (X : list nat) : bq := fun b p p' => opairs g b E m p xs p' X.

Section Rec.
Variable rec : gval -> bool -> Z -> estate -> res estate.

Lemma elems_ok dep vs : Forall (goes rec) vs ->
  forall base s S E P, vs = cells h base (length vs) -> al S E P s ->
  does (enc_elems h rec (length vs) base dep s) s S E P (Rvals S vs) (Qvals E).
Proof.
  induction 1 as [|v vs Hv _ IH]; intros base s S E P Ev A.
  - cbn [enc_elems length]. apply (does_nil []); auto; constructor.
  - cbn [length enc_elems]. cbn [length cells seq map] in Ev. injection Ev as Ev Evs.
    rewrite <- Ev.
    eapply (does_bind _ (enc_elems h rec (length vs) (Datatypes.S base) dep) s S E P
      (Ritem s (kbody_ S (Some (here s)) false v)) (Qitem E)
      (fun _ Y => Rvals (Y ++ S) vs) Qvals cons).
    + apply Hv; auto.
    + intros s1 x Y X N _ A1. apply IH; auto.
    + intros x y Y X N Y' X' N' (_ & _ & xb & -> & K) K'. econstructor; [|exact K'].
      now apply (kd_item _ _ _ _ _ S (Some (here s))).
    + intros x y X X' fin p r p' K K'. econstructor; eauto.
Qed.

(** key and value, then the rest *)
Lemma pair_ok kf key v rest kvs dep s S E P :
  pure false kf (Qkey key) -> goes rec v -> al S E P s ->
  (forall s1 S1 E1 P1, al S1 E1 P1 s1 ->
     does (rest s1) s1 S1 E1 P1 (Rpairs S1 kvs) (Qpairs E1)) ->
  does (bind (rec v false dep (kf s)) rest) s S E P (Rpairs S ((key, v) :: kvs)) (Qpairs E).
Proof.
  intros Pk Hv A Hr.
  eapply (does_after kf (Qkey key) _ s S E P _
    (fun kds X fin p p' => exists d ds X1 X2 r, kds = (key, d) :: ds /\ X = X2 ++ X1 /\
       oitem g fin E m p d r X1 /\ opairs g fin (X1 ++ E) m r ds p' X2)); [exact Pk|exact A| |].
  - intros A1.
    eapply (does_bind _ rest (kf s) S E P (Ritem (kf s) (kbody_ S (Some (here (kf s))) false v)) (Qitem E)
      (fun _ Y => Rpairs (Y ++ S) kvs) Qpairs (fun d ds => (key, d) :: ds)).
    + apply Hv; auto.
    + intros s1 x Y X N _ A2. apply Hr; auto.
    + intros x y Y X N Y' X' N' (_ & _ & xb & -> & K) K'. econstructor; [|exact K'].
      now apply (kd_item _ _ _ _ _ S (Some (here (kf s)))).
    + intros x y X X' fin p r p' K K'. exists x, y, X, X', r. auto.
  - intros x X fin p r p' K (d & ds & X1 & X2 & r' & -> & -> & K1 & K2). econstructor; eauto.
Qed.

Lemma pairs_ok dep : forall kvs, Forall (goes rec) (map snd kvs) -> (forall k v, In (k, v) kvs -> fits_ k) ->
  forall s S E P, al S E P s ->
  does (enc_pairs e rec kvs dep s) s S E P (Rpairs S kvs) (Qpairs E).
Proof.
  induction kvs as [|[key v] kvs IH]; intros Hv F s S E P A.
  - cbn [enc_pairs]. apply (does_nil []); auto; constructor.
  - cbn [enc_pairs]. inversion Hv as [|? ? Hv1 Hv2]; subst.
    eapply (pair_ok (encodeString e key true) key v); eauto.
    + apply pure_skey. eapply F. now left.
    + intros. apply IH; auto. intros k0 v0 Hk. eapply F. right. exact Hk.
Qed.

Lemma tpairs_ok dep : (forall k r dep s s', rec (GStr k) r dep s = Ok s' -> s' = encodeString e k false s) ->
  forall kvs, Forall (goes rec) (map snd kvs) -> (forall k v, In (k, v) kvs -> fits_ k) ->
  forall s S E P, al S E P s ->
  does (enc_tpairs e rec (map (fun kv => (GStr (fst kv), snd kv)) kvs) dep s) s S E P
    (Rpairs S kvs) (Qpairs E).
Proof.
  intros Hs. induction kvs as [|[key v] kvs IH]; intros Hv F s S E P A.
  - cbn [enc_tpairs map]. apply (does_nil []); auto; constructor.
  - cbn [enc_tpairs map fst snd key_string]. inversion Hv as [|? ? Hv1 Hv2]; subst.
    set (kf := fun s => if e_perl e then encodeString e key true s else encodeString e key false s).
    assert (Pk : pure false kf (Qkey key)).
    { assert (Fk : fits_ key) by (eapply F; now left). unfold kf. destruct (e_perl e).
      - now apply pure_skey.
      - apply pure_unflag. eapply pure_weaken; [|now apply pure_sval].
        intros b p p' [K _]. eapply str_lit. exact K. }
    assert (K : does (bind (rec v false dep (kf s)) (fun s => enc_tpairs e rec (map (fun kv => (GStr (fst kv), snd kv)) kvs) dep s)) s S E P
      (Rpairs S ((key, v) :: kvs)) (Qpairs E)).
    { eapply (pair_ok kf key v); eauto. intros. apply IH; auto. intros k0 v0 Hk. eapply F. right. exact Hk. }
    intros s' Er. apply (K s'). unfold kf. destruct (e_perl e); [exact Er|].
    destruct (rec (GStr key) false dep s) as [s1| | | |] eqn:E1; try discriminate Er.
    apply Hs in E1 as ->. exact Er.
Qed.

Lemma fields_ok dep fs base :
  forall tags, Forall (goes rec) (map (fun kt : bytes * nat => hget h (base + snd kt)) tags) ->
  (forall k i, In (k, i) tags -> fits_ k) ->
  forall s S E P, al S E P s ->
  does (enc_fields e h rec fs base tags dep s) s S E P
    (Rpairs S (map (fun kt => (fst kt, hget h (base + snd kt))) tags)) (Qpairs E).
Proof.
  induction tags as [|[key i] tags IH]; intros Hv F s S E P A.
  - cbn [enc_fields map]. apply (does_nil []); auto; constructor.
  - cbn [map snd fst] in Hv |- *. inversion Hv as [|? ? Hv1 Hv2]; subst.
    assert (Fk : fits_ key) by (eapply F; now left). cbn [enc_fields].
    destruct (nth_error fs i) as [f|]; [|apply does_fails; intros; discriminate].
    destruct (f_exported f); [|apply does_fails; intros; discriminate].
    eapply (pair_ok (encodeString e key true) key); eauto.
    + now apply pure_skey.
    + intros. apply IH; auto. intros k0 i0 Hk. eapply F. right. exact Hk.
Qed.

(** ** Containers *)
Lemma ref_ok run r s S E P (T : node -> kenv -> Prop) : al S E P s ->
  (forall s1 E1 P1, al S E1 P1 s1 -> does (run s1) s1 S E1 P1 (Ritem s1 T) (Qitem E1)) ->
  does (run (open_ref e r s)) s S E P
    (Ritem s (fun x Y => exists x0, T x0 Y /\ boxed (e_perl e) r x0 x)) (Qitem E).
Proof.
  intros A H. unfold open_ref. destruct (e_perl e && negb r) eqn:Eb.
  - eapply (does_item (emit [tagb typeREFN]) (Qtag 40) _ s S E P _ _ NRef).
    + apply pure_tag; [reflexivity|discriminate].
    + exact A.
    + intros A1. apply H. exact A1.
    + intros x Y X N (_ & _ & xb & -> & K). exists xb. split; [exact K|].
      now apply (bx_ref _ _ _ (Some (here (emit [tagb typeREFN] s)))).
    + intros x Y X N fin q p' _ [Ht ->] K. exists 40%N. split; [exact Ht|]. now apply o_refn.
  - eapply item_weaken; [|apply H; exact A]. intros x Y K. exists x. split; [exact K|]. now constructor.
Qed.

Lemma kdens_length S vs xs Y : kdens_ S vs xs Y -> length xs = length vs.
Proof. induction 1; cbn; congruence. Qed.
Lemma kdenm_length S vs xs Y : kdenm_ S vs xs Y -> length xs = length vs.
Proof. induction 1; cbn; congruence. Qed.

Lemma array_ok vs base k : Forall (goes rec) vs -> vs = cells h base k ->
  (N.of_nat k <= g_max g)%N ->
  forall r dep s S E P, al S E P s ->
  does (encodeArray e h rec base k r dep s) s S E P
    (Ritem s (fun x Y => exists xs, kdens_ S vs xs Y /\ boxed (e_perl e) r (NArr xs) x)) (Qitem E).
Proof.
  intros H Ev L r dep s S E P A. unfold encodeArray.
  assert (Lk : k = length vs) by (rewrite Ev; unfold cells; now rewrite map_length, seq_length).
  destruct (Z.leb_spec (dep - 1) 0); [apply does_fails; intros; discriminate|].
  eapply item_weaken; [|apply (ref_ok (fun s => enc_elems h rec k base (dep - 1)
     (emit (tagb typeARRAY :: varint (N.of_nat k)) s)) r s S E P
     (fun x Y => exists xs, kdens_ S vs xs Y /\ x = NArr xs) A)].
  { intros d Y (d0 & (ds & K & ->) & Kb). eauto. }
  intros s1 E1 P1 A1.
  eapply (does_item (emit (tagb typeARRAY :: varint (N.of_nat k))) _ _ s1 S E1 P1 (Rvals S vs) _ NArr).
  - apply (pure_tagn 43); [reflexivity|discriminate|lia].
  - exact A1.
  - intros A2. rewrite Lk in *. apply (elems_ok _ vs H); auto.
  - intros x Y X N K. exists x. split; [exact K|reflexivity].
  - intros x Y X N fin q p' R [Ht Hv] K. exists 43%N. split; [exact Ht|].
    eapply o_array; [exact Hv|exact L| |exact K]. rewrite (kdens_length _ _ _ _ R). now rewrite Lk.
Qed.

Lemma hash_ok {K} (kvs : list K) (loop : list K -> estate -> res estate) r s S E P (T : node -> kenv -> Prop) :
  (ulen kvs <= g_max g)%N -> al S E P s ->
  (forall t s1 E1 P1, al S E1 P1 s1 -> exists kvs' : list (bytes * gval),
     (forall xs Y, kdenm_ S kvs' xs Y -> T (NHash xs) Y) /\ length kvs' = length kvs /\
     does (loop (e_shuffle e t K kvs) s1) s1 S E1 P1 (Rpairs S kvs') (Qpairs E1)) ->
  does (let s := emit (tagb typeHASH :: varint (ulen kvs)) (open_ref e r s) in
        loop (e_shuffle e (s_tick s) K kvs) (next_tick s)) s S E P
    (Ritem s (fun x Y => exists x0, T x0 Y /\ boxed (e_perl e) r x0 x)) (Qitem E).
Proof.
  intros L A H.
  apply (ref_ok (fun s => let s := emit (tagb typeHASH :: varint (ulen kvs)) s in
        loop (e_shuffle e (s_tick s) K kvs) (next_tick s)) r s S E P T A).
  intros s1 E1 P1 A1. cbv zeta. set (f := fun s => next_tick (emit (tagb typeHASH :: varint (ulen kvs)) s)).
  assert (Pf : pure true f (fun b p p' => tag_at b p p 42 /\ vint b (Datatypes.S p) (ulen kvs) p')).
  { eapply (pure_seq true (emit (tagb typeHASH :: varint (ulen kvs))) next_tick); [apply (pure_tagn 42); [reflexivity|discriminate|lia]|apply pure_tick|].
    intros b p q p' K0 ->. exact K0. }
  destruct (H (s_tick (emit (tagb typeHASH :: varint (ulen kvs)) s1)) (f s1) (here s1 :: E1) (here s1 :: P1))
    as (kvs' & HT & Hl & HD).
  { destruct (Pf s1) as [Ep St]. apply al_open; auto. destruct (St []) as (_ & B & _).
    specialize (B (here s1) ltac:(now left)). lia. }
  eapply (does_item f _ _ s1 S E1 P1 (Rpairs S kvs') _ NHash).
  - exact Pf.
  - exact A1.
  - intros _. exact HD.
  - intros x Y X N R. apply HT. exact R.
  - intros x Y X N fin q p' R [Ht Hv] K0. exists 42%N. split; [exact Ht|].
    eapply o_hash; [exact Hv|exact L| |exact K0].
    unfold ulen. rewrite (kdenm_length _ _ _ _ R). now rewrite Hl.
Qed.

(** OBJECT and its class name, then an item *)
Lemma object_ok cls run s S E P (T : nat -> node -> kenv -> Prop) (T' : node -> kenv -> Prop) : fits_ cls -> al S E P s ->
  (forall s1 E1 P1, al S E1 P1 s1 -> does (run s1) s1 S E1 P1 (Ritem s1 (T (here s1))) (Qitem E1)) ->
  (forall n x Y, T n x Y -> T' (NObj cls (NAt n x)) Y) ->
  does (run (encodeBytes e cls true (emit [tagb typeOBJECT] s))) s S E P (Ritem s T') (Qitem E).
Proof.
  intros F A H HT.
  eapply (does_item (fun s => encodeBytes e cls true (emit [tagb typeOBJECT] s))
    (fun b p p' => tag_at b p p 44 /\ stringish g b (copy_ok m) (Datatypes.S p) cls p') _ s S E P _ _ (NObj cls)).
  - eapply (pure_seq true (emit [tagb typeOBJECT]) (encodeBytes e cls true) (Qtag 44) (Qkey cls)).
    + apply pure_tag; [reflexivity|discriminate].
    + now apply pure_bkey.
    + intros b p q p' [Ht ->] Hk. auto.
  - exact A.
  - intros A1. apply H. exact A1.
  - intros x Y X N (_ & _ & xb & -> & K). auto.
  - intros x Y X N fin q p' _ [Ht Hk] K. exists 44%N. split; [exact Ht|]. eapply o_object; eauto.
Qed.

Lemma struct_ok {K} name (kvs : list K) (loop : list K -> estate -> res estate) s S E P (T : node -> kenv -> Prop) :
  fits_ name -> (ulen kvs <= g_max g)%N -> al S E P s ->
  (forall t s1 E1 P1, al S E1 P1 s1 -> exists kvs' : list (bytes * gval),
     (forall xs x o Y, kdenm_ S kvs' xs Y -> boxed (e_perl e) false (NHash xs) x -> T (NObj name (mk o x)) Y) /\
     length kvs' = length kvs /\
     does (loop (e_shuffle e t K kvs) s1) s1 S E1 P1 (Rpairs S kvs') (Qpairs E1)) ->
  does (let s := encodeBytes e name true (emit [tagb typeOBJECT] s) in
        let s := if e_perl e then emit [tagb typeREFN] s else s in
        let s := emit (tagb typeHASH :: varint (ulen kvs)) s in
        loop (e_shuffle e (s_tick s) K kvs) (next_tick s)) s S E P (Ritem s T) (Qitem E).
Proof.
  intros F L A H. cbv zeta.
  apply (object_ok name (fun s => let s := if e_perl e then emit [tagb typeREFN] s else s in
        let s := emit (tagb typeHASH :: varint (ulen kvs)) s in
        loop (e_shuffle e (s_tick s) K kvs) (next_tick s)) s S E P
        (fun _ x Y => forall o, T (NObj name (mk o x)) Y) T F A).
  - intros s1 E1 P1 A1.
    pose proof (hash_ok kvs loop false s1 S E1 P1
      (fun x0 Y => forall x o, boxed (e_perl e) false x0 x -> T (NObj name (mk o x)) Y) L A1) as G.
    unfold open_ref in G. cbn [negb] in G. rewrite andb_true_r in G. cbv zeta in G |- *.
    eapply item_weaken; [|apply G].
    + intros x Y (x0 & HT & Kb) o. auto.
    + intros t s2 E2 P2 A2. destruct (H t s2 E2 P2 A2) as (kvs' & HT & Hl & HD).
      exists kvs'. split; [|split; [exact Hl|exact HD]]. intros xs Y Kd x o Kb. eauto.
  - intros n x Y HT. apply (HT (Some n)).
Qed.

(** ** Pointers *)
Lemma refp_ok o s S E P (T : node -> kenv -> Prop) : al S E P s -> In o P -> In o E -> T (NBack o) [] ->
  does (Ok (with_by s (set_track (s_by s ++ tagb typeREFP :: varint (N.of_nat o)) o))) s S E P (Ritem s T) (Qitem E).
Proof.
  intros A Io Lo Td s0 Er. injection Er as <-. pose proof A as (A1 & A2 & A3). pose proof (A2 _ Io) as Lt.
  set (s1 := emit (tagb typeREFP :: varint (N.of_nat o)) s).
  set (s' := with_by s _).
  assert (F1 : fut P (s_by s1) (s_by s')) by (apply track_fut; exact Io).
  assert (Ls : here s' = here s1).
  { unfold s', s1. cbn [s_by with_by emit]. unfold set_track. destruct (nth_error _ o); [now rewrite upd_length|reflexivity]. }
  assert (Ls1 : here s < here s1).
  { unfold s1. cbn [s_by with_by emit]. rewrite app_length. cbn. lia. }
  exists (NAt (here s) (NBack o)), [], [here s], [here s].
  split; [|split].
  - split; [now left|]. split; [now left|]. eauto.
  - split; [|intros n [<-|[]]; lia]. apply (al_open S E P s s'); [reflexivity|lia|exact A].
  - split; [eapply fut_trans; [apply fut_app|exact F1|auto]|].
    split; [intros n [<-|[]]; lia|]. intros Sm R. split.
    { apply (ready_ext P [here s] s s'); [|reflexivity| |exact R].
      - eapply fut_trans; [apply fut_app|exact F1|auto].
      - intros n [<-|[]]. lia. }
    intros fin Hf.
    assert (Bd : (N.of_nat o < 18446744073709551616)%N) by (unfold small, two63 in Sm; lia).
    assert (Hf1 : fut ([here s] ++ P) (s_by s1) fin).
    { eapply fut_trans; [eapply fut_more; [|exact F1]|exact Hf|auto]. intros i Hi. now right. }
    destruct (pure_tagn 41 (N.of_nat o) eq_refl ltac:(discriminate) Bd s) as [_ St].
    destruct (St P) as (_ & _ & K). destruct K as [_ K']; [|exact R|].
    { change (small s1). unfold small in *. rewrite <- Ls. exact Sm. }
    destruct (K' fin Hf1) as [Ht Hv]. fold s1 in Hv.
    apply (o_item g fin E m (here s) 41 (NBack o) (here s') []); [exact Ht|].
    rewrite Ls. rewrite <- (Nat2N.id o) at 1. eapply o_refp; [exact Hv| | |].
    + rewrite Nat2N.id. exact Lt.
    + rewrite Nat2N.id.
      assert (Lo1 : o < here s1) by lia.
      destruct (nth_error (s_by s1) o) as [x|] eqn:Hx; [|apply nth_error_None in Hx; lia].
      assert (Hs' : nth_error (s_by s') o = Some (mark x)).
      { unfold s', with_by. cbn [s_by]. unfold set_track. change (s_by s ++ _) with (s_by s1). rewrite Hx.
        now rewrite nth_error_upd_same by exact Lo1. }
      destruct (Hf _ _ Hs') as (y & Hy & Cy). exists y. split; [exact Hy|].
      destruct Cy as [->|[_ ->]]; apply mark_set.
    + rewrite Nat2N.id. now right.
Qed.

Lemma getPointer_own i l v o : getPointer e (negb i) l v = Ok o ->
  own_addr (e_layout e) l v = match o with Some a => [a] | None => [] end.
Proof.
  intros H. destruct (i && is_text v) eqn:T.
  - destruct i; [|discriminate]. destruct v; try discriminate T; cbn in H; discriminate H.
  - destruct (getPointer_spec e i l v T) as (o' & E & K). rewrite E in H. injection H as ->. exact K.
Qed.

Lemma ptr_ok i l : i || negb (perl_struct (hget h l)) = true -> goes rec (hget h l) ->
  forall r dep s S E P, al S E P s ->
  does (encodePointer e rec i l (hget h l) dep s) s S E P
    (Ritem s (kbody_ S (Some (here s)) r (GPtr i l))) (Qitem E).
Proof.
  intros Hs Hv r dep s S E P A.
  unfold encodePointer. set (v := hget h l) in *.
  destruct (Z.leb_spec (dep - 1) 0); [apply does_fails; intros; discriminate|].
  assert (Sp : match v with GRegexpV _ _ | GUndefV _ | GObjV _ _ | GWeakV _ => negb i | _ => false end = false).
  { destruct v; cbn in Hs |- *; auto; destruct i; auto. }
  rewrite Sp. destruct (getPointer e (negb i) l v) as [o| | | |] eqn:Eg;
    try (apply does_fails; intros; discriminate). cbn [bind].
  pose proof (getPointer_own i l v o Eg) as Eo.
  pose proof A as (A1 & A2 & A3).
  set (offs := match pget (s_ptr s) (at_cell (e_layout e) l) with Some _ => _ | None => _ end) in *.
  assert (KC : match met (e_layout e) h S l with
    | None => offs = None
    | Some n => exists j, n = Some j /\ offs = Some j /\ In j P /\ In j E
    end).
  { unfold met, offs. pose proof (A3 (at_cell (e_layout e) l)) as B1. destruct (kfind S (at_cell (e_layout e) l)) as [o1|].
    - destruct B1 as (j & -> & -> & I & K). eauto.
    - rewrite B1. fold v. rewrite Eo. destruct o as [a|]; [|reflexivity].
      pose proof (A3 a) as B2. destruct (kfind S a) as [o2|]; [|exact B2].
      destruct B2 as (j & -> & -> & I & K). eauto. }
  destruct (met (e_layout e) h S l) as [n|] eqn:Kn.
  - destruct KC as (j & -> & -> & Ij & Lj). destruct (Nat.ltb _ _); [|apply does_fails; intros; discriminate].
    apply (refp_ok j); auto. now apply kb_back.
  - rewrite KC. set (orig := here s). set (s1 := mkEState _ _ _ _).
    assert (L1 : here s1 = Datatypes.S orig).
    { unfold s1, orig. cbn [s_by emit with_by]. rewrite app_length. cbn. lia. }
    assert (Al1 : al ((at_cell (e_layout e) l, Some orig) :: S) (orig :: E) (orig :: P) s1).
    { split; [|split].
      - rewrite L1. intros j [<-|Hj]; [lia|]. apply A1 in Hj. fold orig in Hj. lia.
      - rewrite L1. intros j [<-|Hj]; [lia|]. apply A2 in Hj. fold orig in Hj. lia.
      - intros a. cbn [s1 s_ptr kfind]. rewrite pget_cons.
        destruct (addr_eqb (at_cell (e_layout e) l) a).
        + exists orig. repeat split; auto; now left.
        + specialize (A3 a). cbn [emit with_by s_ptr]. destruct (kfind S a) as [o1|]; [|exact A3].
          destruct A3 as (j & -> & G1 & G2 & G3). exists j. repeat split; auto; now right. }
    intros s3 Er. destruct (rec v true (dep - 1)%Z s1) as [s2| | | |] eqn:R2; try discriminate Er. cbn [bind] in Er.
    destruct (Hv true (dep - 1)%Z s1 _ _ _ Al1 s2 R2)
      as (y & Y & X & N & (IX & IN & xb & -> & Dn) & (Al2 & HX) & St2).
    rewrite L1 in IX, IN, HX, Dn.
    assert (E3 : s3 = match o with Some a => mkEState (s_by s2) (s_str s2) ((a, Datatypes.S orig) :: s_ptr s2) (s_tick s2) | None => s2 end)
      by (destruct o; congruence).
    set (own := own_addr (e_layout e) l v) in *.
    exists (NAt orig (NRef (NAt (here s1) xb))), (map (fun a => (a, Some (Datatypes.S orig))) own ++ Y ++ [(at_cell (e_layout e) l, Some orig)]),
      (X ++ [orig]), (N ++ [orig]).
    assert (B3 : s_by s3 = s_by s2) by (rewrite E3; destruct o; reflexivity).
    assert (Pg : forall a, pget (s_ptr s3) a = if kfind (map (fun a => (a, Some (Datatypes.S orig))) own) a then Some (Datatypes.S orig) else pget (s_ptr s2) a).
    { intros a. rewrite E3, Eo. destruct o as [a0|]; [|reflexivity].
      cbn [map kfind s_ptr]. rewrite pget_cons. destruct (addr_eqb a0 a); reflexivity. }
    assert (Fo : forall a o1, kfind (map (fun a => (a, Some (Datatypes.S orig))) own) a = Some o1 -> o1 = Some (Datatypes.S orig)).
    { intros a o1. rewrite Eo. destruct o as [a0|]; cbn [map kfind]; [|discriminate].
      destruct (addr_eqb a0 a); congruence. }
    split; [|split; [split|]].
    + split; [apply in_app_iff; right; now left|]. split; [apply in_app_iff; right; now left|].
      exists (NRef (NAt (here s1) xb)). split; [reflexivity|]. rewrite L1.
      apply (kb_ptr _ _ _ _ _ S (Some orig) r i l (NAt (Datatypes.S orig) xb) Y Hs Kn).
      now apply (kd_item _ _ _ _ _ _ (Some (Datatypes.S orig))).
    + destruct Al2 as (C1 & C2 & C3). rewrite <- !app_assoc. cbn [app]. split; [|split].
      * intros j Hj. rewrite B3. apply C1. exact Hj.
      * intros j Hj. rewrite B3. auto.
      * intros a. rewrite kfind_app, Pg. destruct (kfind (map (fun a => (a, Some (Datatypes.S orig))) own) a) as [o1|] eqn:F1.
        { exists (Datatypes.S orig). split; [now apply Fo in F1|]. split; [reflexivity|].
          split; apply in_app_iff; now left. }
        exact (C3 a).
    + intros j. rewrite in_app_iff. fold orig. intros [Hj|[<-|[]]]; [apply HX in Hj|]; lia.
    + assert (W : step P (Qitem E (NAt orig (NRef (NAt (here s1) xb))) (X ++ [orig])) s s2 (N ++ [orig])).
      { eapply (step_seq P (Qtag 40) _ _ s s1 s2 [orig] N); [|exact St2|].
        - destruct (pure_tag 40 ltac:(reflexivity) ltac:(discriminate) s) as [_ Kt].
          destruct (Kt P) as (T1 & T2 & T3). split; [exact T1|]. split; [exact T2|].
          intros Sm R. destruct (T3 Sm R) as [T4 T5]. split; [exact T4|exact T5].
        - intros fin q [Hq ->] I. eapply o_item; [exact Hq|]. apply o_refn. exact I. }
      unfold ShareEncode.step, ready, small, strok in W |- *. rewrite B3.
      replace (s_str s3) with (s_str s2) by (rewrite E3; destruct o; reflexivity). exact W.
Qed.

Lemma perl_ok v w r : goes rec v -> (forall S o x Y, kbody_ S o false v x Y -> kbody_ S o r w x Y) ->
  forall dep s S E P, al S E P s ->
  does (encodePerlPointer rec v dep s) s S E P (Ritem s (kbody_ S (Some (here s)) r w)) (Qitem E).
Proof.
  intros Hv HD dep s S E P A. unfold encodePerlPointer.
  destruct (Z.leb_spec (dep - 1) 0); [apply does_fails; intros; discriminate|].
  eapply item_weaken; [apply HD|]. apply Hv; auto.
Qed.

(** a value frozen by its MarshalBinary method *)
Lemma user_ok name by_ v : e_nofreeze e = false -> fits_ name -> fits_ by_ -> (1 <= g_max g)%N ->
  g_frz g name by_ -> goes (encode_body e h rec) (GUser name (Some by_) v).
Proof.
  intros Nf F1 F2 L1 Fz r dep s S E P A.
  cbn [encode_body]. rewrite Nf. intros s0 Er. injection Er as <-.
  set (s1 := encodeString e name true (emit [tagb typeOBJECT_FREEZE] s)).
  set (s2 := emit (tagb typeREFN :: tagb typeARRAY :: varint 1) s1).
  set (s' := encodeBytes e by_ false s2).
  set (R := here s1).
  assert (L2 : here s2 = R + 3).
  { unfold s2. cbn [s_by emit with_by]. rewrite app_length. reflexivity. }
  assert (Pf : pure true (fun s => encodeString e name true (emit [tagb typeOBJECT_FREEZE] s))
    (fun b p p' => tag_at b p p 50 /\ stringish g b (copy_ok m) (Datatypes.S p) name p')).
  { eapply (pure_seq true (emit [tagb typeOBJECT_FREEZE]) (encodeString e name true) (Qtag 50) (Qkey name)).
    - now apply (pure_tag 50).
    - now apply pure_skey.
    - intros b p q p' [Ht ->] Hk. auto. }
  assert (Pa : pure false (emit (tagb typeREFN :: tagb typeARRAY :: varint 1))
    (fun b p p' => at_ b p [x28;x2b] /\ vint b (p + 2) 1 p')).
  { assert (K : pure false (fun s => emit (varint 1) (emit [x28;x2b] s)) (fun b p p' => at_ b p [x28;x2b] /\ vint b (p + 2) 1 p')).
    { eapply (pure_seq false (emit [x28;x2b]) (emit (varint 1)) (Qat [x28;x2b]) (Qvint 1)); [apply pure_at|now apply pure_vint|].
      intros b p q p' [Ha ->] Hv. auto. }
    intros s0. change (tagb typeREFN :: tagb typeARRAY :: varint 1) with ([x28; x2b] ++ varint 1).
    rewrite emit_app. apply K. }
  set (X := [R + 3; Datatypes.S R; R; here s]).
  set (y := NAt (R + 3) (NLeaf (DBin by_))).
  destruct (Pf s) as [Ep1 St1]. specialize (St1 P).
  destruct (Pa s1) as [Ep2 St2]. specialize (St2 ([here s] ++ P)).
  pose proof (pure_unflag _ _ (pure_bval by_ F2)) as Pb.
  destruct (Pb s2) as [Ep3 St3]. specialize (St3 ([] ++ [here s] ++ P)).
  pose proof (step_le _ _ _ _ _ _ _ _ St3) as Le3. fold s' in Le3, St3, Ep3.
  assert (Lt1 : here s < R).
  { destruct St1 as (_ & B & _). apply (B (here s)). now left. }
  assert (St : step P (Qitem E (NAt (here s) (NFreeze name by_ y)) X) s s' [here s]).
  { assert (St12 : step P (fun b p p' => tag_at b p p 50 /\ stringish g b (copy_ok m) (Datatypes.S p) name R /\
        at_ b R [x28;x2b] /\ vint b (R + 2) 1 p') s s2 [here s]).
    { eapply (step_seq P (fun b p p' => (tag_at b p p 50 /\ stringish g b (copy_ok m) (Datatypes.S p) name p') /\ p' = R) _ _ s s1 s2 [here s] [] ); [|exact St2|].
      - eapply step_weaken; [|exact St1]. intros fin K. split; [exact K|reflexivity].
      - intros fin q [[K1 K2] ->] [K3 K4]. auto. }
    eapply (step_seq P (fun b p p' => (tag_at b p p 50 /\ stringish g b (copy_ok m) (Datatypes.S p) name R /\
        at_ b R [x28;x2b] /\ vint b (R + 2) 1 p') /\ p' = R + 3) _ _ s s2 s' [here s] []); [|exact St3|].
    - eapply step_weaken; [|exact St12]. intros fin K. split; [exact K|exact L2].
    - intros fin q [(K1 & K2 & K3 & K4) ->] [K5 (t & K6 & K7)].
      assert (K8 : oitem g fin (Datatypes.S R :: R :: here s :: E) m (R + 3) y (here s') [R + 3]).
      { apply (o_item g fin _ m (R + 3) t (NLeaf (DBin by_)) (here s') []); [exact K6|].
        apply o_plain; [exact K7|]. apply (i_str g fin m (R + 3) false by_ (here s') K5). }
      assert (T40 : tag_at fin R R 40 /\ tag_at fin (Datatypes.S R) (Datatypes.S R) 43).
      { split.
        - split; [lia|]. split; [intros j Hj; lia|]. exists x28. split; [|split; [reflexivity|discriminate]].
          destruct K3 as (u1 & u2 & -> & <-). rewrite nth_error_app2 by lia. now rewrite Nat.sub_diag.
        - split; [lia|]. split; [intros j Hj; lia|]. exists x2b. split; [|split; [reflexivity|discriminate]].
          destruct K3 as (u1 & u2 & -> & <-). rewrite nth_error_app2 by lia.
          now replace (Datatypes.S (length u1) - length u1) with 1 by lia. }
      destruct T40 as [T40 T43].
      apply (o_item g fin E m (here s) 50 (NFreeze name by_ y) (here s') [R + 3; Datatypes.S R; R] K1).
      eapply o_freeze; [exact K2|exact K3| |constructor; constructor|exact Fz].
      apply (o_item g fin _ m R 40 (NRef (NAt (Datatypes.S R) (NArr [y]))) (here s') [R + 3; Datatypes.S R] T40).
      apply o_refn.
      apply (o_item g fin _ m (Datatypes.S R) 43 (NArr [y]) (here s') [R + 3] T43).
      eapply o_array with (n := 1%N) (r := R + 3); [|exact L1|reflexivity|].
      + replace (Datatypes.S (Datatypes.S R)) with (R + 2) by lia. exact K4.
      + change [R + 3] with ([] ++ [R + 3]).
        eapply os_cons; [exact K8|apply os_nil]. }
  pose proof A as (A1 & A2 & A3).
  assert (XB : forall j, In j X -> here s <= j < here s').
  { assert (here s2 < here s').
    { destruct (pure_bval by_ F2 s2) as [_ K]. destruct (K []) as (_ & B & _). apply (B (here s2)). now left. }
    cbn. intros j [<-|[<-|[<-|[<-|[]]]]]; lia. }
  assert (Ep : s_ptr s' = s_ptr s).
  { rewrite Ep3. unfold s2. rewrite Ep2. exact Ep1. }
  exists (NAt (here s) (NFreeze name by_ y)), [], X, [here s].
  split; [|split; [split|exact St]].
  - split; [unfold X; cbn; auto|]. split; [now left|]. exists (NFreeze name by_ y). split; [reflexivity|].
    apply kb_user; [reflexivity|]. constructor. constructor.
  - split; [|split].
    + intros j. rewrite in_app_iff. intros [Hj|Hj]; [apply XB in Hj; lia|apply A1 in Hj; lia].
    + intros j Hj. apply in_app_iff in Hj as [[<-|[]]|Hj]; [lia|apply A2 in Hj; lia].
    + intros a. cbn [app]. rewrite Ep. specialize (A3 a). destruct (kfind S a) as [o|]; [|exact A3].
      destruct A3 as (j & -> & G1 & G2 & G3). exists j. repeat split; auto; [now right|].
      apply (in_or_app X E). now right.
  - intros j Hj. now apply XB.
Qed.

Lemma leaf v (f : estate -> estate) d :
  (forall r dep s, encode_body e h rec v r dep s = Ok (f s)) -> atomic v = true ->
  (forall r, den_ r v d) -> pure true f (Qplain d) -> goes (encode_body e h rec) v.
Proof.
  intros Ef Sc Dn Pf r dep s S E P A.
  rewrite Ef. eapply does_leaf; [exact Pf|exact A|]. now apply kb_atom.
Qed.

Hypothesis Hmem : proper_memory (g_max g) (g_frz g) (e_nofreeze e) h.
Hypothesis Hrec : forall v, proper_ v -> goes rec v.
Hypothesis Hstr : forall k r dep s s', rec (GStr k) r dep s = Ok s' -> s' = encodeString e k false s.

Lemma cells_go base k : Forall (goes rec) (cells h base k).
Proof.
  apply Forall_forall. intros v Hv. unfold cells in Hv. apply in_map_iff in Hv as (l & <- & _).
  apply Hrec, Hmem.
Qed.
Lemma snds_go (m' : list (bytes * gval)) : (forall k v, In (k, v) m' -> proper_ v) -> Forall (goes rec) (map snd m').
Proof.
  intros H. apply Forall_forall. intros v Hv. apply in_map_iff in Hv as ([k v'] & <- & Hv). apply Hrec. eauto.
Qed.

Ltac leafy f d := eapply (leaf _ f d); [try reflexivity|reflexivity|intros r|].

Lemma body_goes v : proper_ v -> goes (encode_body e h rec) v.
Proof.
  intros Pv. destruct Pv as [|b|k z K|k z K Nn|u L|u L|str F|str F|w F|base k L|a base k L|l Nd Fl Fk
    |l mm Em Nd Fl Fk|i l| |c| |cls v F Pv|cls l F|v Pv|l|p mo F1 F2|cls w F1 F2 L|name by_ v Nf F1 F2 L1 Fz
    |name o v Nf Pv|name fs base tags F1 Tb F2 Fk|name o|].
  - (* nil *) leafy (emit [tagb typeUNDEF]) DUndef; [constructor|].
    apply (pure_simple 37); [unfold plain_tag; lia|discriminate|now constructor].
  - (* bool *) leafy (emit [tagb (if b then typeTRUE else typeFALSE)]) (DBool b); [constructor|].
    destruct b; [apply (pure_simple 59)|apply (pure_simple 58)];
      (unfold plain_tag; lia) || discriminate || now constructor.
  - (* int *)
    assert (R : (if ikind_signed k then - two63 <= z < two63 else 0 <= z < two64)%Z).
    { unfold ikind_in in K. destruct k; cbn in K |- *; unfold two63, two64; lia. }
    leafy (emit (encodeInt (ikind_signed k) (to_int (to_uint z)))) (DInt z); [constructor|].
    replace (DInt z) with (DInt (if ikind_signed k then to_int (to_uint z) else Z.of_N (to_uint (to_int (to_uint z)))));
      [apply pure_int; unfold int64; apply to_int_range|]. f_equal.
    destruct (ikind_signed k).
    + now rewrite to_int_to_uint by auto.
    + rewrite to_uint_to_int by (unfold to_uint, two64; lia). unfold to_uint, two64 in *. lia.
  - (* named int *)
    destruct (ikind_signed k) eqn:Sg; [|intros r dep s S E P A; cbn [encode_body]; rewrite Sg; apply does_fails; intros; discriminate].
    assert (R : (- two63 <= z < two63)%Z).
    { unfold ikind_in in K. destruct k; cbn in K, Sg; try discriminate; unfold two63; lia. }
    leafy (emit (encodeInt (match k with KInt => true | _ => false end) z)) (DInt z).
    { intros. cbn [encode_body]. now rewrite Sg. }
    { constructor. }
    replace (DInt z) with (DInt (if match k with KInt => true | _ => false end then z else Z.of_N (to_uint z)));
      [apply pure_int; exact R|]. f_equal.
    destruct Nn as [->|Nn]; auto. destruct k; auto; unfold to_uint, two63, two64 in *; lia.
  - (* float32 *) leafy (emit (encodeFloat u)) (DF32 u); [constructor|now apply pure_f32].
  - (* float64 *) leafy (emit (encodeDouble u)) (DF64 u); [constructor|now apply pure_f64].
  - (* string *) leafy (encodeString e str false) (DStr str); [constructor|].
    apply (pure_lit _ true). now apply pure_sval.
  - (* json.Number *) destruct (pure_json e h g m Hshuf Hmax Hpf str F) as (d & Dn & Pj).
    leafy (encodeJsonNumber e str false) d; auto.
  - (* bytes *) leafy (encodeBytes e (hview h w) false) (DBin (hview h w)); [constructor|].
    apply (pure_lit _ false). now apply pure_bval.
  - (* []interface{} *) intros r dep s S E P A.
    eapply item_weaken; [|apply (array_ok _ base k (cells_go base k) eq_refl L r dep s S E P A)].
    intros x Y (xs & K & Kb). econstructor; eauto.
  - (* typed slice *) intros r dep s S E P A.
    eapply item_weaken; [|apply (array_ok _ base k (cells_go base k) eq_refl L r dep s S E P A)].
    intros x Y (xs & K & Kb). econstructor; eauto.
  - (* map *) intros r dep s S E P A.
    cbn [encode_body]. unfold encodeStrMap. destruct (Z.leb_spec (dep - 1) 0); [apply does_fails; intros; discriminate|].
    eapply item_weaken; [|apply (hash_ok (hmap h l) (fun kvs => enc_pairs e rec kvs (dep - 1)) r s S E P
      (fun x Y => exists kxs m', x = NHash kxs /\ NoDup (map fst m') /\ Permutation (hmap h l) m' /\ kdenm_ S m' kxs Y) Fl A)].
    { intros x Y (x0 & (kvs & m' & -> & K1 & K2 & K3) & Kb). eapply kb_map; eauto. }
    intros t s1 E1 P1 A1. pose proof (Hshuf t _ (hmap h l)) as Pm.
    exists (e_shuffle e t _ (hmap h l)). split; [|split; [symmetry; now apply Permutation_length|]].
    + intros ds Y K. exists ds, (e_shuffle e t _ (hmap h l)). split; [reflexivity|]. split; [|auto].
      eapply Permutation_NoDup; [apply Permutation_map; exact Pm|exact Nd].
    + assert (Hin : forall k v, In (k, v) (e_shuffle e t _ (hmap h l)) -> In (k, v) (hmap h l))
        by (intros k v; apply Permutation_in, Permutation_sym; exact Pm).
      apply pairs_ok; auto.
      * apply snds_go. intros k v Hi. eapply (proj1 (proj2 Hmem)). eauto.
      * intros k v Hi. eapply Fk. eauto.
  - (* typed map *) intros r dep s S E P A.
    cbn [encode_body]. unfold encodeMap. destruct (Z.leb_spec (dep - 1) 0); [apply does_fails; intros; discriminate|].
    assert (Fl' : (ulen (htmap h l) <= g_max g)%N) by (rewrite Em; unfold ulen; rewrite map_length; exact Fl).
    eapply item_weaken; [|apply (hash_ok (htmap h l) (fun kvs => enc_tpairs e rec kvs (dep - 1)) r s S E P
      (fun x Y => exists kxs m', x = NHash kxs /\ NoDup (map fst m') /\
         Permutation (htmap h l) (map (fun kv => (GStr (fst kv), snd kv)) m') /\ kdenm_ S m' kxs Y) Fl' A)].
    { intros x Y (x0 & (kvs & m' & -> & K1 & K2 & K3) & Kb). eapply kb_tmap; eauto. }
    intros t s1 E1 P1 A1. pose proof (Hshuf t _ (htmap h l)) as Pm0. pose proof Pm0 as Pm.
    rewrite Em in Pm at 1. apply Permutation_sym, Permutation_map_inv in Pm as (m' & Em' & Pm).
    exists m'. split; [|split].
    + intros ds Y K. exists ds, m'. split; [reflexivity|]. split; [|split; [|exact K]].
      * eapply Permutation_NoDup; [apply Permutation_map; exact Pm|exact Nd].
      * rewrite Em. now apply Permutation_map.
    + rewrite Em, map_length. symmetry. now apply Permutation_length.
    + assert (Hin : forall k v, In (k, v) m' -> In (k, v) mm)
        by (intros k v; apply Permutation_in, Permutation_sym; exact Pm).
      rewrite Em'. apply tpairs_ok; auto.
      * apply snds_go. intros k v Hi. eapply (proj2 (proj2 Hmem) l (GStr k)). rewrite Em. apply in_map_iff.
        exists (k, v). split; [reflexivity|auto].
      * intros k v Hi. eapply Fk. eauto.
  - (* pointer *) intros r dep s S E P A. cbn [encode_body].
    destruct (i || negb (perl_struct (hget h l))) eqn:Hs.
    + apply ptr_ok; auto. apply Hrec, Hmem.
    + apply orb_false_iff in Hs as [-> Hs]. apply negb_false_iff in Hs.
      assert (K : does (encodePerlPointer rec (hget h l) dep s) s S E P (Ritem s (kbody_ S (Some (here s)) r (GPtr false l))) (Qitem E)).
      { apply perl_ok; auto; [apply Hrec, Hmem|]. intros. now apply kb_ptr_perl. }
      unfold encodePointer, encodePerlPointer in *.
      destruct (hget h l); try discriminate; exact K.
  - (* nil pointer *) intros r dep s S E P A.
    cbn [encode_body]. unfold encodeNilPointer. destruct (Z.leb_spec (dep - 1) 0); [apply does_fails; intros; discriminate|].
    rewrite emit_cons.
    eapply (does_item (emit [tagb typeREFN]) (Qtag 40) _ s S E P _ _ NRef).
    + now apply (pure_tag 40).
    + exact A.
    + intros A1. eapply (does_leaf (emit [tagb typeUNDEF]) DUndef _ S _ _ (fun x Y => x = NLeaf DUndef /\ Y = [])).
      * apply (pure_simple 37); [unfold plain_tag; lia|discriminate|now constructor].
      * exact A1.
      * auto.
    + intros x Y X N (_ & _ & xb & -> & -> & ->).
      apply (kb_nilptr _ _ _ _ _ _ _ _ (Some (here (emit [tagb typeREFN] s)))).
    + intros x Y X N fin q p' _ [Ht ->] K. exists 40%N. split; [exact Ht|]. now apply o_refn.
  - (* PerlUndef *) leafy (emit [tagb (if c then typeCANONICAL_UNDEF else typeUNDEF)]) (if c then DCanon else DUndef).
    + destruct c; [apply (dn_undef _ _ _ _ r true)|apply (dn_undef _ _ _ _ r false)].
    + destruct c; [apply (pure_simple 57)|apply (pure_simple 37)];
        (unfold plain_tag; lia) || discriminate || now constructor.
  - (* the canonical undef *) intros r dep s S E P A. cbn [encode_body].
    apply (perl_ok (GUndefV true)); auto; [apply Hrec; constructor|].
    intros S0 o x Y Dn. inversion Dn; subst. match goal with K : den _ _ _ _ _ (GUndefV true) _ |- _ => inversion K; subst end.
    apply kb_atom; [reflexivity|constructor].
  - (* PerlObject *) intros r dep s S E P A. cbn [encode_body].
    apply (object_ok cls (fun s => rec v false dep s) s S E P (fun n => kbody_ S (Some n) false v)); auto.
    + intros s1 E1 P1 A1. now apply Hrec.
    + intros n x Y K. apply kb_objv. now apply (kd_item _ _ _ _ _ S (Some n)).
  - (* *PerlObject *) intros r dep s S E P A. cbn [encode_body].
    apply (perl_ok (GObjV cls (hget h l))); auto; [apply Hrec; constructor; [exact F|apply Hmem]|].
    intros S0 o x Y Dn. inversion Dn; subst; [discriminate|]. now apply kb_objp.
  - (* PerlWeakRef *) intros r dep s S E P A. cbn [encode_body].
    eapply (does_item (emit [tagb typeWEAKEN]) (Qtag 48) _ s S E P _ _ NWeak).
    + apply pure_tag; [reflexivity|discriminate].
    + exact A.
    + intros A1. apply (Hrec v Pv false dep _ S); auto.
    + intros x Y X N (_ & _ & xb & -> & K). apply kb_weakv. now apply (kd_item _ _ _ _ _ S (Some _)).
    + intros x Y X N fin q p' _ [Ht ->] K. exists 48%N. split; [exact Ht|]. now apply o_weaken.
  - (* *PerlWeakRef *) intros r dep s S E P A. cbn [encode_body].
    apply (perl_ok (GWeakV (hget h l))); auto; [apply Hrec; constructor; apply Hmem|].
    intros S0 o x Y Dn. inversion Dn; subst; [discriminate|]. now apply kb_weakp.
  - (* regexp *)
    leafy (fun s => encodeBytes e (hview h mo) false (encodeBytes e (hview h p) false (emit [tagb typeREGEXP] s)))
      (DRegexp (hview h p) (hview h mo)); [constructor|].
    eapply (pure_seq true (fun s => encodeBytes e (hview h p) false (emit [tagb typeREGEXP] s)) (encodeBytes e (hview h mo) false)
      (fun b x x' => tag_at b x x 49 /\ strlit g b (S x) false (hview h p) x') (Qlit false (hview h mo))).
    + eapply (pure_seq true (emit [tagb typeREGEXP]) (encodeBytes e (hview h p) false) (Qtag 49) (Qlit false (hview h p))).
      * now apply (pure_tag 49).
      * apply pure_unflag. now apply pure_bval.
      * intros b x q x' [Ht ->] [Hk _]. auto.
    + apply pure_unflag. now apply pure_bval.
    + intros b x q x' [Ht Hp] [Hm _]. split; [|exists 49%N; split; [exact Ht|unfold plain_tag; lia]].
      eapply i_regexp; eauto; eapply str_lit; eauto.
  - (* PerlFreeze struct *) intros r dep s S E P A.
    set (kvs := [(name_Class, GStr cls); (name_Data, GBytes w)]).
    cbn [encode_body]. unfold encodeFreezeStruct. destruct (Z.leb_spec (dep - 1) 0); [apply does_fails; intros; discriminate|].
    apply (struct_ok name_PerlFreeze kvs (fun kvs => enc_pairs e rec kvs (dep - 1)) s S E P); auto.
    { unfold fits. cbn. lia. }
    intros t s1 E1 P1 A1. pose proof (Hshuf t _ kvs) as Pm.
    assert (Hin : forall k v, In (k, v) (e_shuffle e t _ kvs) -> In (k, v) kvs)
      by (intros k v; apply Permutation_in, Permutation_sym; exact Pm).
    exists (e_shuffle e t _ kvs). split; [|split; [symmetry; now apply Permutation_length|]].
    + intros xs x o Y K Kb. eapply kb_freezev; eauto.
    + apply pairs_ok; auto.
      * apply snds_go. intros k v Hi. apply Hin in Hi.
        destruct Hi as [[= <- <-]|[[= <- <-]|[]]]; now constructor.
      * intros k v Hi. apply Hin in Hi.
        destruct Hi as [[= <- <-]|[[= <- <-]|[]]]; unfold fits; cbn; lia.
  - (* BinaryMarshaler *) now apply user_ok.
  - (* BinaryMarshaler without freezing *) intros r dep s S E P A.
    cbn [encode_body].
    match goal with |- does (if e_nofreeze e then ?a else ?b) _ _ _ _ _ _ =>
      replace (if e_nofreeze e then a else b) with a by now rewrite Nf end.
    eapply item_weaken; [|apply (Hrec v Pv r dep s S E P A)].
    intros x Y Dn. now apply kb_user_plain.
  - (* struct *) intros r dep s S E P A.
    pose proof (field_table_perm _ _ _ Tb (tags_of_table fs)) as PT.
    cbn [encode_body]. unfold encodeStruct. destruct (Z.leb_spec (dep - 1) 0); [apply does_fails; intros; discriminate|].
    apply (struct_ok name (tags_of fs) (fun tags => enc_fields e h rec fs base tags (dep - 1)) s S E P); auto.
    { unfold ulen. rewrite <- (Permutation_length PT). exact F2. }
    intros t s1 E1 P1 A1. pose proof (Hshuf t _ (tags_of fs)) as Pm.
    set (tg := e_shuffle e t (bytes * nat) (tags_of fs)) in *.
    assert (PP : Permutation tags tg) by (eapply Permutation_trans; eauto).
    exists (map (fun kt => (fst kt, hget h (base + snd kt))) tg). split; [|split].
    + intros xs x o Y K Kb. eapply kb_struct; [|exact K|exact Kb]. destruct Tb as [Nd Tb]. split.
      * eapply Permutation_NoDup; [apply Permutation_map; exact PP|exact Nd].
      * intros k i. rewrite <- Tb. split; intros Hin; (eapply Permutation_in; [|exact Hin]); auto using Permutation_sym.
    + rewrite map_length. symmetry. now apply Permutation_length.
    + apply fields_ok; auto.
      * apply Forall_forall. intros v Hv. apply in_map_iff in Hv as (kt & <- & _). apply Hrec, Hmem.
      * intros k i Hin. eapply Fk. eapply Permutation_in; [apply Permutation_sym; exact PP|exact Hin].
  - intros r dep s S E P A. apply does_fails. intros; discriminate.
  - intros r dep s S E P A. apply does_fails. intros; discriminate.
Qed.
End Rec.

Theorem encoder_follows_knots : proper_memory (g_max g) (g_frz g) (e_nofreeze e) h ->
  forall fuel v, proper_ v -> goes (encode e h fuel) v.
Proof.
  intros Hmem. induction fuel as [|fuel IH]; intros v Pv.
  - intros r dep s S E P A. apply does_fails. intros; discriminate.
  - cbn [encode]. apply body_goes; auto. intros k r dep s s' Er. destruct fuel; [discriminate|].
    cbn in Er. now injection Er as <-.
Qed.
End KE.
