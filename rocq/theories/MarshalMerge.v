(** Marshal, then merge, then Unmarshal. *)
From Verif Require Import Base BaseFacts SpecVarint Varint VarintFacts Tags GoMem Codecs TagsCache Encode Compress Header Decode Document
  Spec SpecValue SpecDoc SpecOptions SpecMerge SpecAccept SpecOutcome DecodeSpec EncodeSpec ValueFacts LooksFacts MarshalFacts DocFacts Roundtrip
  OutcomeFacts GoSlice Merge SpecPlain MarshalLaid.
From Coq Require Import ZifyBool ZifyNat ZifyN Permutation.
Ltac Zify.zify_post_hook ::= Z.div_mod_to_equations.

(** * Documents written for plain values can be merged *)
Section Carry.
Variable k : codecs.
Variable e : econfig.
Variable h : heap.
Hypothesis Hw : sane_world e.
Hypothesis Hv : (proto e = 2 \/ proto e = 3)%N.
Hypothesis Hs : supported (proto e) (e_comp e).
Hypothesis Hl : lossless k.
Hypothesis Hm : plain_memory (negb (e_nodedup e)) (e_nofreeze e) (e_layout e) h.

Theorem marshal_mergeable fuel v b b0 : plain (negb (e_nodedup e)) (e_nofreeze e) (e_layout e) h v ->
  Marshal k fuel e h v = Ok b -> Marshal k fuel (without_compression e) h v = Ok b0 ->
  (N.of_nat (length b0) < 2147483647)%N -> (N.of_nat (length b) <= 2147483647)%N ->
  exists body, carries k b body /\ length body < length b0 /\ forall top, mergeable false top body 1.
Proof.
  intros P R R0 L0 L. destruct (fix_same e) as (E1 & E2 & E3 & E4 & E5 & E6 & E7 & E8 & E9).
  unfold Marshal, MarshalWithHeader in R, R0. rewrite fix_without in R0.
  destruct (plain_header e h ltac:(lia) fuel) as (pre & Hh & Pp).
  change (marshal_header fuel (without_compression (fix_version e)) h None) with (marshal_header fuel (fix_version e) h None) in R0.
  change (fun tick => marshal_body fuel (without_compression (fix_version e)) h pre tick v) with (fun tick => marshal_body fuel (fix_version e) h pre tick v) in R0.
  rewrite Hh in R, R0. cbn [bind] in R, R0.
  change (marshal_body fuel (without_compression (fix_version e)) h pre 0 v) with (marshal_body fuel (fix_version e) h pre 0 v) in R0.
  rewrite <- proto_fix in Hv, Hs, Pp.
  destruct (marshal_body fuel (fix_version e) h pre 0 v) as [body| | | |] eqn:B; try discriminate R.
  cbn [bind marshal_compress without_compression e_comp recovered] in R0. injection R0 as <-. cbn [bind] in R.
  destruct (marshal_compress k (fix_version e) pre body) as [[pre' packed]| | | |] eqn:C; try discriminate R.
  cbn [bind recovered] in R. injection R as <-. rewrite app_length in *. rewrite <- E2 in Hs.
  destruct (compress_packs k (fix_version e) [] pre body pre' packed Hl Hs) as (typ & P' & Le & Pk); auto.
  { lia. }
  assert (Lp : 4 < length pre).
  { destruct Pp as (_ & _ & vt & ln & -> & _ & G & _). apply vgroups_nonempty in G. rewrite !app_length. cbn [length].
    unfold magic. destruct (_ <? _)%N; cbn [length]; lia. }
  exists body. split; [|split; [lia|]].
  - exists (e_version (fix_version e)), typ, [], pre', packed. split; [reflexivity|]. split; [exact P'|].
    split; [apply Pk; unfold two63; lia|]. rewrite app_length. split; lia.
  - intros top. unfold marshal_body in B.
    destruct (N.eqb_spec (e_version (fix_version e)) 1) as [Q|_]; [lia|].
    destruct ((e_version (fix_version e) =? 2) || (e_version (fix_version e) =? 3))%N eqn:V; [clear V|lia].
    match type of B with bind ?r _ = _ => destruct r as [s'| | | |] eqn:En end; try discriminate B. cbn [bind] in B. apply Ok_eq in B.
    destruct (encode_mergeable (fix_version e) h (sane_fix e Hw)) with (f := fuel) (v := v) (r := false) (d := remainingRecursion (e_maxdepth (fix_version e)))
      (t := 0) (s' := s') (top := top) as (body1 & Eb & M).
    + now rewrite E4, E5, E8.
    + now rewrite E4, E5, E8.
    + exact En.
    + unfold smallF. rewrite B, skipn_length in L0. lia.
    + rewrite B, Eb. exact M.
Qed.
End Carry.

(** * The data of plain values has names *)
Section Named.
Variable perl nofreeze : bool.
Variable pf : bytes -> option N.
Variable dedup : bool.
Variable lay : layout.
Variable h : heap.
Hypothesis Hm : plain_memory dedup nofreeze lay h.
Notation plain_ := (plain dedup nofreeze lay h).

Lemma named_aref r d : named d -> named (aref perl r d).
Proof. unfold aref. destruct (perl && negb r); auto. Qed.
Lemma den_named :
  (forall r v d, den perl nofreeze pf h r v d -> plain_ v -> named d) /\
  (forall vs ds, dens perl nofreeze pf h vs ds -> Forall plain_ vs -> named (DArr ds)) /\
  (forall m kvs, denm perl nofreeze pf h m kvs -> Forall (fun kv => plain_ (snd kv)) m -> named (DHash kvs)).
Proof using Hm.
  destruct Hm as (Hc & Hh & Ht).
  assert (Cells : forall base n, Forall plain_ (cells h base n)).
  { intros base n. apply Forall_forall. intros v I. apply in_map_iff in I as (l & <- & _). apply Hc. }
  apply den_all_ind; intros; try exact I;
    try (match goal with |- named (aref _ _ _) => apply named_aref end); auto.
  - apply H. apply Forall_forall. intros [k v] I. cbn [snd]. apply (Hh l k). eapply Permutation_in; [symmetry; exact p|exact I].
  - apply H. apply Forall_forall. intros [k v] I. cbn [snd].
    assert (J : In (GStr k, v) (htmap h l)). { eapply Permutation_in; [symmetry; exact p|]. apply in_map_iff. now exists (k, v). }
    now apply Ht in J.
  - destruct c; exact I.
  - inversion H0; subst; [contradiction|]. split; auto.
  - inversion H0; subst; [contradiction|]. split; auto.
  - apply H. inversion H0; subst; [contradiction|auto].
  - inversion H; subst; [contradiction|]. split; auto.
  - split; [discriminate|]. apply named_aref, H. apply Forall_forall. intros [k v] I. cbn [snd]. apply Permutation_sym in p.
    eapply Permutation_in in I; [|exact p]. destruct I as [[= <- <-]|[[= <- <-]|[]]]; now apply pl_flat.
  - inversion H; subst; [contradiction|auto|congruence].
  - apply H. inversion H0; subst; [contradiction|congruence|auto].
  - inversion H0; subst; [contradiction|]. split; [auto|]. apply named_aref, H. apply Forall_forall. intros [k v] I. cbn [snd].
    apply in_map_iff in I as ([k' i] & [= <- <-] & _). apply Hc.
  - inversion H1; subst. split; [now apply H|]. now apply H0.
  - inversion H1; subst. split; [now apply H|]. now apply H0.
Qed.
End Named.

(** * What Marshal writes for a finite plain value is a document to be merged *)
Section Source.
Variable k : codecs.
Variable c : dconfig.
Variable e : econfig.
Variable h : heap.
Hypothesis Hw : sane_world e.
Hypothesis Hv : (proto e = 2 \/ proto e = 3)%N.
Hypothesis Hs : supported (proto e) (e_comp e).
Hypothesis Hl : lossless k.
Hypothesis Hm : plain_memory (negb (e_nodedup e)) (e_nofreeze e) (e_layout e) h.

Theorem marshal_source fuel v n A b b0 : plain (negb (e_nodedup e)) (e_nofreeze e) (e_layout e) h v ->
  go_tree c e h v n A -> Marshal k fuel e h v = Ok b -> Marshal k fuel (without_compression e) h v = Ok b0 ->
  (N.of_nat (length b0) < 2147483647)%N -> (N.of_nat (length b) < 2147483647)%N ->
  exists d, den (e_perl e) (e_nofreeze e) (e_parsefloat e) h false v d /\ source (go_reader c) k false b d.
Proof.
  intros P T R R0 L0 L.
  set (rd := mkReader (r_dialect (direct (go_reader c))) 2147483647 2147483646).
  assert (Mono : forall m e1 b1, fuel <= m -> Marshal k fuel e1 h v = Ok b1 -> Marshal k m e1 h v = Ok b1).
  { intros m e1 b1 Lm H. pose proof (mono_marshal k e1 h None v fuel m Lm) as M. unfold Marshal in *. rewrite M; congruence. }
  destruct (marshal_any k e h rd 2147483647 (g_frz (go_dialect c 0))) with (v := v) (n := n) (A := A)
    as [N1 K1]; auto; try reflexivity; [lia|].
  assert (Ln : (Z.of_nat n < depth_limit e)%Z).
  { destruct (plain_header e h ltac:(lia) (Nat.max fuel N1)) as (pre & Hh & Pp).
    specialize (K1 (Nat.max fuel N1) ltac:(lia) None pre 0 [] Hh Pp).
    destruct (Z.ltb_spec (Z.of_nat n) (depth_limit e)) as [Ln|Ln]; [exact Ln|]. exfalso.
    apply (Mono (Nat.max fuel N1)) in R; [|lia]. unfold Marshal in R. destruct K1 as [K1 _]. congruence. }
  destruct (marshal_documents k e h rd 2147483647 (g_frz (go_dialect c 0))) with (v := v) (n := n) (A := A)
    as [N0 K]; auto; try reflexivity; [lia|].
  set (m := Nat.max fuel N0). destruct (plain_header e h ltac:(lia) m) as (pre & Hh & Pp).
  destruct (K m ltac:(lia) None pre 0 [] Hh Pp) as (b1 & R1 & _ & _ & _ & D).
  pose proof (Mono m _ _ ltac:(lia) R0) as R0'. unfold Marshal in R0'. rewrite R1 in R0'. injection R0' as ->.
  destruct D as (d & [Hd _] & Dc); [cbn; lia|unfold two63; lia|].
  destruct (Dc Hl Hs b (Mono m _ _ ltac:(lia) R)) as (typ & _ & body & Doc).
  { repeat split; cbn; unfold two63; try lia. }
  exists d. split; [exact Hd|]. split.
  { eapply (proj1 (den_named _ _ _ _ _ _ Hm)); eauto. }
  exists (proto e), typ, [], body, (length body).
  destruct Doc as (pre' & packed & Eb & P' & Pk & M1 & M2 & I). cbn [rd r_memory r_packed r_dialect] in *.
  split; [|split; [lia|split; [lia|discriminate]]].
  exists pre', packed. cbn [direct go_reader r_packed r_memory r_dialect] in *. repeat (split; [assumption|]). split; [lia|]. split; [lia|exact I].
Qed.
End Source.
