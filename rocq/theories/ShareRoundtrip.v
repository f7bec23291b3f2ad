(** Marshal followed by Unmarshal for values with shared parts. *)
From Verif Require Import Base BaseFacts SpecVarint Varint VarintFacts Tags GoMem Codecs TagsCache Encode
  Compress Header Decode Spec SpecValue SpecDoc SpecOptions SpecShare SpecGraph GrammarFacts DecodeSpec
  ValueFacts EncodeSpec EncodeTerm Document SpecOutcome OutcomeFacts DocFacts MarshalFacts Roundtrip
  RoundtripFacts GrammarDet ShareDecode ShareFacts
  ShareEncode ShareMarshal GraphFacts.
From Coq Require Import ZifyBool ZifyNat ZifyN Permutation.
Ltac Zify.zify_post_hook ::= Z.div_mod_to_equations.

(** the values without cycles that a decoder with options [c] can read back *)
Definition go_dag (c : dconfig) (e : econfig) (h : heap) (lev : addr -> nat) (nm : addr -> gval -> Prop) :
  gval -> nat -> Prop :=
  dag 2147483647 (g_frz (go_dialect c 0)) (e_nofreeze e) (e_layout e) h lev nm.

(** the values without cycles that can be written *)
Definition any_dag (e : econfig) (h : heap) (lev : addr -> nat) (nm : addr -> gval -> Prop) :
  gval -> nat -> Prop :=
  dag 18446744073709551615 (fun _ _ => True) (e_nofreeze e) (e_layout e) h lev nm.

(** every address stands for one value *)
Definition unambiguous (nm : addr -> gval -> Prop) : Prop := forall a v w, nm a v -> nm a w -> v = w.

Section SR.
Variable k : codecs.
Variable e : econfig.
Variable h : heap.
Variable lev : addr -> nat.
Variable nm : addr -> gval -> Prop.
Hypothesis Hw : sane_world e.
Hypothesis Hv : (1 <= proto e <= 3)%N.

Notation den_ := (den (e_perl e) (e_nofreeze e) (e_parsefloat e) h).
Notation sden_ := (sden (e_perl e) (e_nofreeze e) (e_parsefloat e) (e_layout e) h).

Theorem graph_published v n : any_dag e h lev nm v n -> (Z.of_nat n < depth_limit e)%Z ->
  exists b0, outcome (fun n => Marshal k n (without_compression e) h v) (Ok b0) /\
    (e_comp e = None -> outcome (fun n => Marshal k n e h v) (Ok b0)) /\
    ((Z.of_nat (length b0) < two63 - 1)%Z -> exists d,
      (exists Y, sden_ [] false v d Y) /\
      (exists body, sdocument_in CKeys standard k b0 (proto e) 0 [] d body (length body)) /\
      (lossless k -> supported (proto e) (e_comp e) -> forall b,
       outcome (fun n => Marshal k n e h v) (Ok b) -> (Z.of_nat (length b) < two63)%Z ->
       exists typ body, sdocument_in CKeys standard k b (proto e) typ [] d body (length body))).
Proof.
  intros T Ln.
  destruct (marshal_sdocuments k e h lev nm standard 18446744073709551615 (fun _ _ => True) CKeys) with (v := v) (n := n)
    as [N0 K]; auto; try reflexivity.
  destruct (plain_header e h Hv N0) as (pre & Hh & P).
  destruct (K N0 (Nat.le_refl _) None pre 0 [] Hh P) as (b0 & R0 & Rn & Rf & Rs & D). exists b0.
  assert (At : forall b, outcome (fun n => Marshal k n e h v) (Ok b) -> Marshal k N0 e h v = Ok b).
  { intros b O. apply (outcome_at _ N0 (Ok b) (mono_marshal k e h None v) O Rf). }
  split; [eapply outcome_marshal, R0|]. split; [intros C; eapply outcome_marshal, (Rn C)|]. intros L.
  cbn [standard r_memory r_packed] in *. unfold two63 in L.
  destruct D as (d & (Hd & body & Doc) & Dc); [lia|unfold two63; lia|].
  exists d. split; [exact Hd|]. split; [eauto|].
  intros Lo Su b Rb Lb. unfold two63 in Lb.
  destruct (Dc Lo Su b (At b Rb)) as (typ' & _ & body' & Doc').
  { unfold readable. cbn [standard r_memory r_packed]. unfold two63. repeat split; try lia; right; lia. }
  eauto.
Qed.

Theorem graph_read_back c v n : go_dag c e h lev nm v n -> (Z.of_nat n < depth_limit e)%Z ->
  exists b0, outcome (fun n => Marshal k n (without_compression e) h v) (Ok b0) /\
    (e_comp e = None -> outcome (fun n => Marshal k n e h v) (Ok b0)) /\
    ((N.of_nat (length b0) <= 281474976710656)%N -> exists d,
      (exists Y, sden_ [] false v d Y) /\
      ((d_perl c = false -> backs_ok d) ->
        reads k c b0 (shown (d_noref c) d) /\
        (lossless k -> supported (proto e) (e_comp e) -> forall b,
         outcome (fun n => Marshal k n e h v) (Ok b) -> (N.of_nat (length b) <= 2147483647)%N -> reads k c b (shown (d_noref c) d)))).
Proof.
  intros T Ln.
  destruct (marshal_sdocuments k e h lev nm (go_reader c) 2147483647 (g_frz (go_dialect c 0)) CAny) with (v := v) (n := n)
    as [N0 K]; auto; try reflexivity.
  destruct (plain_header e h Hv N0) as (pre & Hh & P).
  destruct (K N0 (Nat.le_refl _) None pre 0 [] Hh P) as (b0 & R0 & Rn & Rf & Rs & D). exists b0.
  assert (At : forall b, outcome (fun n => Marshal k n e h v) (Ok b) -> Marshal k N0 e h v = Ok b).
  { intros b O. apply (outcome_at _ N0 (Ok b) (mono_marshal k e h None v) O Rf). }
  split; [eapply outcome_marshal, R0|]. split; [intros C; eapply outcome_marshal, (Rn C)|]. intros L.
  cbn [go_reader r_memory r_packed] in *.
  destruct D as (d & (Hd & body & Doc) & Dc); [exact L|unfold two63; lia|].
  exists d. split; [exact Hd|]. intros Fd. split; [eapply sdocument_reads; eauto|].
  intros Lo Su b Rb Lb.
  destruct (Dc Lo Su b (At b Rb)) as (typ' & _ & body' & Doc').
  { unfold readable. cbn [go_reader r_memory r_packed]. unfold two63. repeat split; try lia; right; lia. }
  eapply sdocument_reads; eauto.
Qed.

(** unambiguous addresses: nothing but the value itself is described *)
Lemma traversal_of M F v n d Y : dag M F (e_nofreeze e) (e_layout e) h lev nm v n -> unambiguous nm ->
  sden_ [] false v d Y ->
  ((forall a v, nm a v -> ~ null (e_nofreeze e) h v) -> backs_ok d) /\
  exists d0, den_ false v d0 /\ flat d0 = flat d.
Proof.
  intros T One Dn.
  destruct (traversal_describes M F (e_perl e) (e_nofreeze e) (e_parsefloat e) (e_layout e) h lev nm One) as (K & _).
  destruct (K _ _ _ _ _ Dn n T) as ((B & d0 & D0 & E0) & _); [intros a x []|]. eauto.
Qed.

Lemma graph_same c b d v d0 : d_perl c = false -> reads k c b (unback d) -> den_ false v d0 -> flat d0 = flat d ->
  exists h' v', unmarshal_fresh k c b = Ok (h', v') /\ same (e_nofreeze e) (e_parsefloat e) (reg_of c) h h' v v'.
Proof.
  intros Pl (h' & v' & U & R) D E. exists h', v'. split; [exact U|]. rewrite Pl in R.
  apply repr_flat in R. rewrite <- E in R. apply repr_flat in R.
  rewrite (proj1 (den_unback (e_perl e) (e_nofreeze e) (e_parsefloat e) h) _ _ _ D) in R.
  eapply den_repr_same; eauto.
Qed.
End SR.

(** * Values written alike *)

(** Marshal returns [b], and the uncompressed document fits in memory *)
Definition writes (k : codecs) (e : econfig) (h : heap) (v : gval) (b : bytes) : Prop :=
  (e_comp e = None \/ lossless k /\ supported (proto e) (e_comp e)) /\
  outcome (fun n => Marshal k n e h v) (Ok b) /\ (Z.of_nat (length b) < two63 - 1)%Z /\
  forall b0, outcome (fun n => Marshal k n (without_compression e) h v) (Ok b0) -> (Z.of_nat (length b0) < two63 - 1)%Z.

Lemma writes_sdocument k e h lev nm v n b : sane_world e -> (1 <= proto e <= 3)%N ->
  any_dag e h lev nm v n -> (Z.of_nat n < depth_limit e)%Z -> writes k e h v b ->
  exists d typ body Y, sden (e_perl e) (e_nofreeze e) (e_parsefloat e) (e_layout e) h [] false v d Y /\
    sdocument_in CKeys standard k b (proto e) typ [] d body (length body).
Proof.
  intros Hw Hv T L (C & O & Lb & Sm).
  destruct (graph_published k e h lev nm Hw Hv v n T L) as (b0 & O0 & On & D).
  destruct (D (Sm _ O0)) as (d & (Y & Dn) & (body & Doc) & Dc).
  destruct C as [C|[Lo Su]].
  - pose proof (outcome_unique _ _ _ O (On C)) as E. injection E as ->. eauto 10.
  - destruct (Dc Lo Su b O) as (typ & body' & Doc'); [lia|]. eauto 10.
Qed.

Lemma writes_document k e h v n A b : sane_world e -> (1 <= proto e <= 3)%N ->
  any_tree e h v n A -> (Z.of_nat n < depth_limit e)%Z -> writes k e h v b ->
  exists d typ body, den (e_perl e) (e_nofreeze e) (e_parsefloat e) h false v d /\
    document_in CKeys standard k b (proto e) typ [] d body (length body).
Proof.
  intros Hw Hv T L (C & O & Lb & Sm).
  destruct (published_outcome k e h Hw Hv v n A T L) as (b0 & O0 & On & D).
  destruct (D (Sm _ O0)) as (d & Dn & (body & Doc) & Dc).
  destruct C as [C|[Lo Su]].
  - pose proof (outcome_unique _ _ _ O (On C)) as E. injection E as ->. eauto 10.
  - destruct (Dc Lo Su b O) as (typ & body' & Doc'); [lia|]. eauto 10.
Qed.

Theorem written_alike k e h v n A e' h' w n' A' b : sane_world e -> sane_world e' ->
  (1 <= proto e <= 3)%N -> (1 <= proto e' <= 3)%N ->
  any_tree e h v n A -> any_tree e' h' w n' A' ->
  (Z.of_nat n < depth_limit e)%Z -> (Z.of_nat n' < depth_limit e')%Z ->
  writes k e h v b -> writes k e' h' w b ->
  exists d, den (e_perl e) (e_nofreeze e) (e_parsefloat e) h false v d /\
    den (e_perl e') (e_nofreeze e') (e_parsefloat e') h' false w d.
Proof.
  intros W W' P P' T T' L L' B B'.
  destruct (writes_document _ _ _ _ _ _ _ W P T L B) as (d & typ & body & Dn & D).
  destruct (writes_document _ _ _ _ _ _ _ W' P' T' L' B') as (d' & typ' & body' & Dn' & D').
  destruct (document_det _ _ _ _ _ _ _ _ _ _ _ _ _ _ _ _ _ _ D D') as (_ & _ & _ & <- & _). eauto.
Qed.

Theorem graphs_written_alike k e h lev nm v n e' h' lev' nm' w n' b : sane_world e -> sane_world e' ->
  (1 <= proto e <= 3)%N -> (1 <= proto e' <= 3)%N ->
  any_dag e h lev nm v n -> any_dag e' h' lev' nm' w n' -> unambiguous nm -> unambiguous nm' ->
  (Z.of_nat n < depth_limit e)%Z -> (Z.of_nat n' < depth_limit e')%Z ->
  writes k e h v b -> writes k e' h' w b ->
  exists d d', den (e_perl e) (e_nofreeze e) (e_parsefloat e) h false v d /\
    den (e_perl e') (e_nofreeze e') (e_parsefloat e') h' false w d' /\ flat d = flat d'.
Proof.
  intros W W' P P' T T' U U' L L' B B'.
  destruct (writes_sdocument _ _ _ _ _ _ _ _ W P T L B) as (d & typ & body & Y & Dn & D).
  destruct (writes_sdocument _ _ _ _ _ _ _ _ W' P' T' L' B') as (d' & typ' & body' & Y' & Dn' & D').
  destruct (sdocument_det _ _ _ _ _ _ _ _ _ _ _ _ _ _ _ _ _ _ D D') as (_ & _ & _ & <- & _).
  destruct (traversal_of e h lev nm _ _ _ _ _ _ T U Dn) as (_ & d0 & D0 & E0).
  destruct (traversal_of e' h' lev' nm' _ _ _ _ _ _ T' U' Dn') as (_ & d1 & D1 & E1).
  exists d0, d1. repeat split; auto. congruence.
Qed.
