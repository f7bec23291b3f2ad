(** Marshal and Unmarshal of graphs of typed variables. *)
From Verif Require Import Base BaseFacts SpecVarint Varint VarintFacts Tags GoMem GoTypes Codecs TagsCache Encode
  Compress Header Decode Document Spec SpecValue SpecDoc SpecOptions SpecShare SpecGraph SpecCycle SpecKnot SpecOutcome SpecTyped
  DecodeSpec DocFacts Roundtrip RoundtripFacts MarshalFacts OutcomeFacts CycleFacts KnotMarshal TypedMem SpecMem SpecTypedGraph TypedGraphDoc
  SpecTypedKnot TypedKnot.
From Coq Require Import ZifyBool ZifyNat ZifyN.

Lemma gdocument_labels rd k b ver typ suffix x body e : gdocument rd k b ver typ suffix x body e -> NoDup (labels x).
Proof.
  intros (pre & packed & _ & _ & _ & _ & _ & I). destruct I as (X & I).
  assert (E : labels x = seq 0 (length X)).
  { destruct (ver =? 1)%N; exact (proj1 (gitem_labels _ _) _ _ _ _ _ _ I). }
  rewrite E. apply seq_NoDup.
Qed.

(** [b] is read into a new variable of type [ty] as the same graph as [x] in memory [h], in new memory, and
    no other variable changes *)
Definition reads_graph (k : codecs) (c : dconfig) (v : goenv) (h : heap) (sty : loc -> option gtype) (ty : gtype) (x : gval) (b : bytes) : Prop :=
  forall hh mem ib l, nth_error hh ib = Some (CBuf b) -> nth_error mem l = Some (MCell (mzero ty)) ->
  exists h' mem' m, unmarshal_mem k c v hh mem b ib ty (l, []) = (Ok (h', mem'), mem') /\
    nth_error mem' l = Some (MCell m) /\ same_graph v h mem' sty (fun c => length mem <= c) ty x m /\
    length mem <= length mem' /\ (forall l', l' < length mem -> l' <> l -> nth_error mem' l' = nth_error mem l').

Theorem typed_knot_read_back k c e h v sty target ty x b : sane_world e -> (1 <= proto e <= 3)%N -> d_perl c = false ->
  go_proper c e h x -> typed_memory v (e_layout e) h sty target -> shape v h sty target ty x ->
  outcome (fun n => Marshal k n e h x) (Ok b) ->
  exists b0, outcome (fun n => Marshal k n (without_compression e) h x) (Ok b0) /\ (e_comp e = None -> b = b0) /\
    ((N.of_nat (length b0) <= 281474976710656)%N -> (N.of_nat (length b) <= 2147483647)%N ->
     reads_graph k c v h sty ty x b0 /\
     (lossless k -> supported (proto e) (e_comp e) -> reads_graph k c v h sty ty x b)).
Proof.
  intros Hw Hv Hp [Pm Pv] TM Sh [_ [N0 O]]. specialize (O N0 (Nat.le_refl _)). cbn beta in O.
  destruct (plain_header e h Hv N0) as (pre & Hh & P).
  destruct (marshal_gdocuments k e h (go_reader c) 2147483647 (g_frz (go_dialect c 0))) with (v := x) (fuel := N0)
    (header := @None gval) (pre := pre) (tick := 0) (suffix := @nil byte) (b := b) as (b0 & R0 & En & D); auto;
    try reflexivity.
  exists b0. split; [eapply outcome_marshal, R0|]. split; [exact En|]. intros L1 L2.
  destruct D as (y & (Y & Hk) & _ & (body & D0) & D1).
  { unfold readable. cbn [go_reader r_memory r_packed]. unfold two63. repeat split; try lia; right; lia. }
  assert (G : forall b' typ body', gdocument (go_reader c) k b' (proto e) typ [] y body' (length body') -> reads_graph k c v h sty ty x b').
  { intros b' typ body' D hh mem ib l Hib Hl. pose proof (gdocument_labels _ _ _ _ _ _ _ _ _ D) as Nl.
    pose proof (knot_fits_type v _ _ _ _ h sty target TM _ _ _ _ ty Hk Sh Nl) as Fx.
    destruct (unmarshal_mem_gdocument k c v Hp b' _ _ _ y body' _ hh mem ib ty l D Fx Hib Hl)
      as (h' & mem' & m & L & F & U & Em & Ts & Nd & Nw & Ln & Fr).
    exists h', mem', m. split; [exact U|]. split; [exact Em|]. split; [|auto].
    eapply knot_same_graph; eauto. }
  split; [eapply G, D0|]. intros Lo Su. destruct (D1 Lo Su) as (typ & body' & D'). eapply G, D'.
Qed.
