(** Marshal followed by Unmarshal. *)
From Verif Require Import Base BaseFacts SpecVarint Varint VarintFacts Tags GoMem Codecs TagsCache Encode
  Compress Header Decode Spec SpecValue SpecDoc SpecOptions GrammarFacts DecodeSpec ValueFacts
  EncodeSpec EncodeTerm Document DocFacts MarshalFacts.
From Coq Require Import ZifyBool ZifyNat ZifyN Permutation.
Ltac Zify.zify_post_hook ::= Z.div_mod_to_equations.

(** the finite values a decoder with options [c] can read back *)
Definition go_tree (c : dconfig) (e : econfig) (h : heap) : gval -> nat -> list addr -> Prop :=
  tree 2147483647 (g_frz (go_dialect c 0)) (e_nofreeze e) (e_layout e) h.

(** the finite values that can be written: every length below 2^64, every frozen object *)
Definition any_tree (e : econfig) (h : heap) : gval -> nat -> list addr -> Prop :=
  tree 18446744073709551615 (fun _ _ => True) (e_nofreeze e) (e_layout e) h.

(** Unmarshal with a new Decoder succeeds with a value standing for [d] *)
Definition reads (k : codecs) (c : dconfig) (b : bytes) (d : data) : Prop :=
  exists h' v', unmarshal_fresh k c b = Ok (h', v') /\
    repr (d_perl c) (reg_of c) (fun _ => True) h' v' d.

Lemma document_any rd k b ver typ suffix d body x :
  document_in CKeys rd k b ver typ suffix d body x -> document rd k b ver typ suffix d body x.
Proof.
  intros (pre & packed & E & P & Pk & L1 & L2 & I). exists pre, packed.
  repeat (split; [assumption|]).
  assert (W : forall g by_ p d p', item g by_ CKeys p d p' -> item g by_ CAny p d p').
  { clear. intros g by_ p d p' H.
    destruct (grammar_move g g by_ by_ 0 0) as (G & _ & _); auto using mle_refl; try lia.
    specialize (G _ _ _ _ H (Nat.le_0_l _)) as [_ G]. specialize (G CAny I).
    unfold mv in G. now rewrite !Nat.sub_0_r, !Nat.add_0_r in G. }
  unfold body_item in *. destruct (ver =? 1)%N; apply W; exact I.
Qed.

Lemma document_reads k c b ver typ suffix d body x :
  document (go_reader c) k b ver typ suffix d body x -> reads k c b d.
Proof.
  intros D.
  destruct (unmarshal_document k c b ver typ suffix d body x 0 2 (fresh_state b)) as (s' & v & U & (_ & _ & Fv) & _ & V);
    auto.
  exists (d_heap s'), v. unfold unmarshal_fresh. rewrite U. cbn [bind].
  rewrite (hget_cell _ _ _ Fv). split; [reflexivity|].
  eapply repr_stable; [|exact V]. intros. split; [exact I|reflexivity].
Qed.

Section RT.
Variable k : codecs.
Variable c : dconfig.
Variable e : econfig.
Variable h : heap.
Hypothesis Hw : sane_world e.
Hypothesis Hv : (1 <= proto e <= 3)%N.

Notation den_ := (den (e_perl e) (e_nofreeze e) (e_parsefloat e) h).

(** Everything this file is about, in one statement. *)
Theorem marshal_read_back v n A : go_tree c e h v n A -> (Z.of_nat n < depth_limit e)%Z ->
  exists N0, forall fuel, N0 <= fuel -> exists b0,
    Marshal k fuel (without_compression e) h v = Ok b0 /\
    (e_comp e = None -> Marshal k fuel e h v = Ok b0) /\
    Marshal k fuel e h v <> NoFuel /\
    (forall b, Marshal k fuel e h v = Ok b -> b = b0 \/
       supported (proto e) (e_comp e) \/ (proto e = 1%N /\ e_comp e = Some (CSnappy true))) /\
    ((N.of_nat (length b0) <= 281474976710656)%N -> exists d,
      den_ false v d /\ reads k c b0 d /\
      (lossless k -> supported (proto e) (e_comp e) -> forall b,
       Marshal k fuel e h v = Ok b -> (N.of_nat (length b) <= 2147483647)%N -> reads k c b d)).
Proof.
  intros T Ln.
  destruct (marshal_documents k e h (go_reader c) 2147483647 (g_frz (go_dialect c 0))) with (v := v) (n := n) (A := A)
    as [N0 K]; auto; try reflexivity.
  exists N0. intros fuel Lf. destruct (plain_header e h Hv fuel) as (pre & Hh & P).
  destruct (K fuel Lf None pre 0 [] Hh P) as (b0 & R0 & Rn & Rf & Rs & D). exists b0.
  split; [exact R0|]. split; [exact Rn|]. split; [exact Rf|]. split; [exact Rs|]. intros L.
  cbn [go_reader r_memory r_packed] in *.
  destruct D as (d & (Hd & body & Doc) & Dc); [exact L|unfold two63; lia|].
  exists d. split; [exact Hd|]. split; [eapply document_reads, document_any, Doc|].
  intros Lo Su b Rb Lb.
  destruct (Dc Lo Su b Rb) as (typ' & _ & body' & Doc').
  { unfold readable. cbn [go_reader r_memory r_packed]. unfold two63. repeat split; try lia; right; lia. }
  eapply document_reads, document_any, Doc'.
Qed.

Theorem marshal_published v n A : any_tree e h v n A -> (Z.of_nat n < depth_limit e)%Z ->
  exists N0, forall fuel, N0 <= fuel -> exists b0,
    Marshal k fuel (without_compression e) h v = Ok b0 /\
    (e_comp e = None -> Marshal k fuel e h v = Ok b0) /\
    Marshal k fuel e h v <> NoFuel /\
    (forall b, Marshal k fuel e h v = Ok b -> b = b0 \/
       supported (proto e) (e_comp e) \/ (proto e = 1%N /\ e_comp e = Some (CSnappy true))) /\
    ((Z.of_nat (length b0) < two63 - 1)%Z -> exists d,
      den_ false v d /\
      (exists body, document_in CKeys standard k b0 (proto e) 0 [] d body (length body)) /\
      (lossless k -> supported (proto e) (e_comp e) -> forall b,
       Marshal k fuel e h v = Ok b -> (Z.of_nat (length b) < two63)%Z ->
       exists typ body, document_in CKeys standard k b (proto e) typ [] d body (length body))).
Proof.
  intros T Ln.
  destruct (marshal_documents k e h standard 18446744073709551615 (fun _ _ => True)) with (v := v) (n := n) (A := A)
    as [N0 K]; auto; try reflexivity.
  exists N0. intros fuel Lf. destruct (plain_header e h Hv fuel) as (pre & Hh & P).
  destruct (K fuel ltac:(lia) None pre 0 [] Hh P) as (b0 & R0 & Rn & Rf & Rs & D). exists b0.
  split; [exact R0|]. split; [exact Rn|]. split; [exact Rf|]. split; [exact Rs|]. intros L.
  cbn [standard r_memory r_packed] in *. unfold two63 in L.
  destruct D as (d & (Hd & body & Doc) & Dc); [lia|unfold two63; lia|].
  exists d. split; [exact Hd|]. split; [eauto|].
  intros Lo Su b Rb Lb. unfold two63 in Lb.
  destruct (Dc Lo Su b Rb) as (typ' & _ & body' & Doc').
  { unfold readable. cbn [standard r_memory r_packed]. unfold two63. repeat split; try lia; right; lia. }
  eauto.
Qed.
End RT.
