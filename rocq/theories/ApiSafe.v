(** Unmarshal on arbitrary bytes: crashes, termination, allocation, reuse, aliasing. *)
From Verif Require Import Base BaseFacts SpecVarint Varint VarintFacts Tags GoMem Decode Codecs Compress
  Header Document DecodeSafe Sim SpecObserve Spec SpecDoc SpecHeader DocFacts HeaderFacts ApiFacts.
From Coq Require Import ZifyBool ZifyNat ZifyN.
Ltac Zify.zify_post_hook ::= Z.div_mod_to_equations.

(** Weakest precondition allowing Crash (but not NoFuel): Q after success, E after an error
    or a crash, X after a recovered panic. *)
Definition wpc {A} (m : M A) (Q : A -> dstate -> Prop) (E X : dstate -> Prop) (s : dstate) : Prop :=
  match m s with
  | (Ok a, s') => Q a s'
  | (Err _, s') | (Crash, s') => E s'
  | (Panic _, s') => X s'
  | (NoFuel, _) => False
  end.
Lemma wpc_bind A B (m : M A) (f : A -> M B) Q E X s :
  wpc m (fun a => wpc (f a) Q E X) E X s -> wpc (mbind m f) Q E X s.
Proof. unfold wpc, mbind. destruct (m s) as [[a|e|e| |] s']; auto. Qed.
Lemma wp_wpc A (m : M A) (Q : A -> dstate -> Prop) E X s : wp m Q E X s -> wpc m Q E X s.
Proof. unfold wp, wpc. destruct (m s) as [[a|e|e| |] s']; auto; contradiction. Qed.
Lemma wpc_mono A (m : M A) (Q Q' : A -> dstate -> Prop) (E E' X X' : dstate -> Prop) s :
  wpc m Q E X s -> (forall a s', Q a s' -> Q' a s') -> (forall s', E s' -> E' s') -> (forall s', X s' -> X' s') ->
  wpc m Q' E' X' s.
Proof. unfold wpc. destruct (m s) as [[a|e|e| |] s']; auto. Qed.
(** a run that satisfies [wpc] and does not crash satisfies [wp] *)
Lemma wpc_wp A (m : M A) (Q : A -> dstate -> Prop) E X s : wpc m Q E X s -> fst (m s) <> Crash -> wp m Q E X s.
Proof. unfold wp, wpc. destruct (m s) as [[a|e|e| |] s']; cbn; auto; congruence. Qed.

Section Safe.
Variable k : codecs.
Variable c : dconfig.

(** the variable a target stands for *)
Definition points (t : target) (l : loc) : Prop := match t with TgtIface x => x = l | _ => False end.
Definition target_ok (s : dstate) (t : target) : Prop :=
  match t with TgtIface l => l < length (d_heap s) /\ hget (d_heap s) l = GNil | _ => True end.

(** memory only grows, and changes at most where [P] says *)
Definition touches (P : loc -> Prop) (s s' : dstate) : Prop :=
  length (d_heap s) <= length (d_heap s') /\
  (forall l, l < length (d_heap s) -> ~ P l -> nth_error (d_heap s') l = nth_error (d_heap s) l) /\
  (made_ok (d_made s) -> made_ok (d_made s')).
Definition keeps (P : loc -> Prop) (s s' : dstate) : Prop := touches P s s' /\ d_copy s' = d_copy s.

Lemma touches_refl P s : touches P s s.
Proof. repeat split; auto. Qed.
Lemma keeps_refl P s : keeps P s s.
Proof. split; [apply touches_refl|reflexivity]. Qed.
Lemma touches_trans (P Q W : loc -> Prop) a b d : (forall l, P l -> W l) -> (forall l, Q l -> W l) ->
  touches P a b -> touches Q b d -> touches W a d.
Proof.
  intros HP HQ (A1 & A2 & A3) (B1 & B2 & B3). split; [lia|]. split; [|auto].
  intros l L N. rewrite B2 by (try lia; auto). apply A2; auto.
Qed.
Lemma keeps_trans (P Q W : loc -> Prop) a b d : (forall l, P l -> W l) -> (forall l, Q l -> W l) ->
  keeps P a b -> keeps Q b d -> keeps W a d.
Proof.
  intros HP HQ [A1 A2] [B1 B2]. split; [now apply (touches_trans P Q W a b d)|congruence].
Qed.
Lemma good_keeps l s s' : good l s s' -> keeps (eq l) s s'.
Proof. intros ((F1 & F2) & C & Mm). repeat split; auto. Qed.
Lemma goodX_touches l s s' : goodX l s s' -> touches (eq l) s s'.
Proof. intros ((F1 & F2) & Mm). repeat split; auto. Qed.

Lemma run_safe by_ ib shift idx l s : l < length (d_heap s) -> hget (d_heap s) l = GNil ->
  wp (run_decode c by_ ib shift idx l ;; ret tt) (fun _ => keeps (eq l) s) (keeps (eq l) s) (touches (eq l) s) s.
Proof.
  intros L H. apply wp_bind. unfold run_decode.
  eapply wp_mono; [apply decode_safe; auto|..].
  - unfold need, decode_fuel. destruct (d_copy s); lia.
  - intros i s' (_ & _ & G). apply wp_ret. now apply good_keeps.
  - intros s' G. now apply good_keeps.
  - intros s' G. now apply goodX_touches.
Qed.

Lemma reset_keeps P s : keeps P s (reset s).
Proof. repeat split; auto. Qed.
Lemma keeps_reset P s s' : keeps P (reset s) s' -> keeps P s s'.
Proof. exact (fun x => x). Qed.

Lemma header_wpc b ib h bs vh s : target_ok s vh ->
  wpc (unmarshal_header c b ib h bs vh) (fun _ => keeps (points vh) s) (keeps (points vh) s) (touches (points vh) s) s.
Proof.
  intros T. unfold unmarshal_header. destruct (_ || _)%bool; [apply keeps_refl|].
  apply wpc_bind. unfold fresh_tracked. unfold wpc at 1. fold (reset s).
  destruct vh as [|l|]; try apply reset_keeps.
  destruct (nth_error b (h_suffixStart h)) as [fl|]; [|apply reset_keeps].
  destruct (_ =? _)%N; [|apply reset_keeps].
  apply wp_wpc. destruct T as [T1 T2].
  exact (run_safe _ _ _ _ l (reset s) T1 T2).
Qed.

Lemma header_nocrash b ib h bs vh s :
  (vh = TgtNone \/ h_suffixSize h = 1%Z \/ h_suffixStart h < length b) -> target_ok s vh ->
  fst (unmarshal_header c b ib h bs vh s) <> Crash.
Proof.
  intros C T. unfold unmarshal_header.
  destruct (target_nil vh) eqn:N; cbn [orb]; [cbn; congruence|].
  destruct (Z.eqb_spec (h_suffixSize h) 1) as [E|E]; [cbn; congruence|].
  unfold mbind at 1. unfold fresh_tracked at 1. fold (reset s).
  destruct vh as [|l|]; try (cbn; congruence).
  destruct C as [C|[C|C]]; try congruence.
  destruct (nth_error b (h_suffixStart h)) as [fl|] eqn:Ne.
  2:{ apply nth_error_None in Ne. lia. }
  destruct (_ =? _)%N; [|cbn; congruence].
  destruct T as [T1 T2]. pose proof (run_safe (firstn bs b) ib 0 (h_suffixStart h + 1) l (reset s) T1 T2) as W.
  unfold wp in W. destruct ((run_decode c (firstn bs b) ib 0 (h_suffixStart h + 1) l;; ret tt) (reset s)) as [[u|e|e| |] s'];
    cbn; congruence || contradiction.
Qed.

Lemma slice_from_le {A} (b : list A) i : i <= length b -> slice_from b i = Some (skipn i b).
Proof. intros L. unfold slice_from. destruct (Nat.leb_spec i (length b)); [reflexivity|lia]. Qed.

Lemma body_run_wpc ver b ib bs l s : bs <= length b -> l < length (d_heap s) -> hget (d_heap s) l = GNil ->
  wpc (body_run c ver b ib bs l) (fun _ => keeps (eq l) s) (keeps (eq l) s) (touches (eq l) s) s /\
  ((ver <> 1%N -> bs <> 0) -> fst (body_run c ver b ib bs l s) <> Crash).
Proof.
  intros Lb L H. unfold body_run.
  assert (RS : forall by_ shift idx,
    wpc (run_decode c by_ ib shift idx l;; ret tt) (fun _ => keeps (eq l) s) (keeps (eq l) s) (touches (eq l) s) s /\
    fst ((run_decode c by_ ib shift idx l;; ret tt) s) <> Crash).
  { intros by_ shift idx. pose proof (run_safe by_ ib shift idx l s L H) as W. split; [now apply wp_wpc|].
    unfold wp in W. destruct ((run_decode c by_ ib shift idx l;; ret tt) s) as [[u|e|e| |] s']; cbn; congruence || contradiction. }
  destruct (N.eqb_spec ver 1) as [E|E].
  - destruct (RS b 0 bs). auto.
  - destruct (Nat.eqb_spec bs 0) as [Z|Z].
    + split; [apply keeps_refl|]. intros Hn. now apply Hn in E.
    + rewrite (slice_from_le b (bs - 1)) by lia. destruct (RS (skipn (bs - 1) b) (bs - 1) 1). auto.
Qed.

(** unpacking *)
Lemma framed_total b : (exists z, framed b = Ok z) \/ exists e, framed b = Err e.
Proof.
  unfold framed. destruct (varintdecode b) as [ln sz|] eqn:V; [|eauto].
  destruct ((ln <? 0) || (maxInt32 <? ln) || (Z.of_nat (length b) <? Z.of_nat sz + ln))%Z eqn:C; [eauto|].
  destruct (slice_range b sz (sz + Z.to_nat ln)) eqn:S; [eauto|].
  exfalso. unfold slice_range in S.
  destruct (Nat.leb_spec sz (sz + Z.to_nat ln)), (Nat.leb_spec (sz + Z.to_nat ln) (length b)); cbn in S; try discriminate; lia.
Qed.
Lemma lib_total o : (exists z, lib o = Ok z) \/ exists e, lib o = Err e.
Proof. destruct o; cbn; eauto. Qed.

Lemma to_int_modest n : (n mod 18446744073709551616 <= 281474976710656)%N -> (0 <= to_int n <= 281474976710656)%Z.
Proof.
  intros H. unfold to_int, two64, two63.
  assert (E : (Z.of_N n mod 18446744073709551616 = Z.of_N (n mod 18446744073709551616))%Z).
  { now rewrite N2Z.inj_mod. }
  rewrite E. destruct (Z.ltb_spec (Z.of_N (n mod 18446744073709551616)) 9223372036854775808); lia.
Qed.

Lemma decompress_total dk b : (dk = DZlib -> zlib_modest b) ->
  (exists z, decompress k dk b = Ok z) \/ exists e, decompress k dk b = Err e.
Proof.
  intros Z. destruct dk as [[]| |]; cbn [decompress].
  - unfold snappy_decompress. destruct (framed_total b) as [[z ->]|[e ->]]; cbn [bind]; eauto using lib_total.
  - apply lib_total.
  - unfold zlib_decompress. destruct (varintdecode b) as [uln usz|] eqn:V; [|eauto].
    apply varintdecode_inv in V as (l & rest & n & -> & -> & B & G & ->).
    rewrite slice_from_le by (rewrite app_length; lia).
    specialize (Z eq_refl l rest n eq_refl G ltac:(lia)).
    destruct (framed_total (skipn (length l) (l ++ rest))) as [[z ->]|[e ->]]; cbn [bind]; eauto.
    unfold zlibDecode. destruct (negb _); [eauto|].
    destruct ((to_int n <? 0) || (281474976710656 <? to_int n))%Z eqn:C; [|apply lib_total].
    apply to_int_modest in Z. lia.
  - unfold zstd_decompress. destruct (framed_total b) as [[z ->]|[e ->]]; cbn [bind]; eauto using lib_total.
Qed.

Lemma decompress_cases dk b : (exists z, decompress k dk b = Ok z) \/ (exists e, decompress k dk b = Err e) \/
  (decompress k dk b = Crash /\ dk = DZlib /\ ~ zlib_modest b).
Proof.
  assert (D : forall m, (dk = DZlib -> m) -> ((m -> zlib_modest b)) -> m ->
     (exists z, decompress k dk b = Ok z) \/ (exists e, decompress k dk b = Err e) \/
     (decompress k dk b = Crash /\ dk = DZlib /\ ~ zlib_modest b)).
  { intros m H1 H2 H. destruct (decompress_total dk b (fun E => H2 (H1 E))); auto. }
  destruct dk as [inc| |].
  - destruct (decompress_total (DSnappy inc) b); auto. discriminate.
  - clear D. cbn [decompress]. unfold zlib_decompress. destruct (varintdecode b) as [uln usz|] eqn:V; [|eauto].
    apply varintdecode_inv in V as (l & rest & n & -> & -> & B & G & ->).
    rewrite slice_from_le by (rewrite app_length; lia).
    destruct (framed_total (skipn (length l) (l ++ rest))) as [[z ->]|[e ->]]; cbn [bind]; eauto.
    unfold zlibDecode. destruct (negb _); [eauto|].
    destruct ((to_int n <? 0) || (281474976710656 <? to_int n))%Z eqn:C.
    + right. right. repeat split. intros Zm. specialize (Zm l rest n eq_refl G ltac:(lia)).
      apply to_int_modest in Zm. lia.
    + destruct (lib_total (zlib_dec k z)); auto.
  - destruct (decompress_total DZstd b); auto. discriminate.
Qed.

Definition unpacked (b : bytes) (ib : loc) (dec : option decompressor) (bs : nat) : M (bytes * loc) :=
  match dec with
  | None => ret (b, ib)
  | Some dk =>
      match slice_from b bs with
      | None => crash
      | Some z =>
          let! d := lift (decompress k dk z) in
          let nb := firstn bs b ++ d in
          let! l := alloc (CBuf nb) in
          ret (nb, l)
      end
  end.
Lemma mbind_ext A B (m : M A) (k1 k2 : A -> M B) s : (forall a s, k1 a s = k2 a s) -> mbind m k1 s = mbind m k2 s.
Proof. intros H. unfold mbind. destruct (m s) as [[a|e|e| |] s']; auto. Qed.
Lemma body_unfold b ib h dec bs l s : unmarshal_body k c b ib h dec bs (TgtIface l) s =
  (let! (b, ib) := unpacked b ib dec bs in fun s => body_run c (h_version h) b ib bs l (reset s)) s.
Proof.
  unfold unmarshal_body. cbn [target_nil]. fold (unpacked b ib dec bs).
  apply mbind_ext. intros [b' ib'] s'. reflexivity.
Qed.

Lemma body_nonptr b ib h dec bs s : unmarshal_body k c b ib h dec bs TgtNonPtr s =
  (let! x := unpacked b ib dec bs in fun s => (Err EBodyPointer, reset s)) s.
Proof.
  unfold unmarshal_body. cbn [target_nil]. fold (unpacked b ib dec bs).
  apply mbind_ext. intros [b' ib'] s'. reflexivity.
Qed.

Lemma unpacked_cases b ib dec bs s : bs <= length b ->
  (exists b' ib' s', unpacked b ib dec bs s = (Ok (b', ib'), s') /\ keeps (fun _ => False) s s' /\ bs <= length b' /\
     ((dec = None /\ b' = b /\ ib' = ib /\ s' = s) \/
      (dec <> None /\ firstn bs b' = firstn bs b /\ ib' = length (d_heap s) /\ s' = with_heap s (d_heap s ++ [CBuf b'])))) \/
  (exists e, unpacked b ib dec bs s = (Err e, s)) \/
  (unpacked b ib dec bs s = (Crash, s) /\ dec = Some DZlib /\ ~ zlib_modest (skipn bs b)).
Proof.
  intros Lb. destruct dec as [dk|].
  2:{ left. exists b, ib, s. split; [reflexivity|]. split; [apply keeps_refl|]. split; [exact Lb|]. left. auto. }
  unfold unpacked. rewrite (slice_from_le b bs Lb). unfold mbind, lift.
  destruct (decompress_cases dk (skipn bs b)) as [[d ->]|[[e ->]|(-> & -> & Z)]]; eauto.
  left. cbv zeta. unfold alloc, ret. eexists _, _, _. split; [reflexivity|].
  assert (Lf : length (firstn bs b) = bs) by (rewrite firstn_length; lia).
  split; [|split; [rewrite app_length; lia|]].
  - repeat split; cbn.
    + rewrite app_length. lia.
    + intros x Lx _. now apply nth_error_app1.
    + auto.
  - right. split; [discriminate|]. split; [|auto].
    rewrite <- Lf at 1. now rewrite firstn_app_len.
Qed.

Lemma hget_touch (P : loc -> Prop) s s' l : touches P s s' -> l < length (d_heap s) -> ~ P l ->
  hget (d_heap s') l = hget (d_heap s) l.
Proof. intros (A & B & _) L N. unfold hget. now rewrite (B l L N). Qed.

Lemma body_wpc b ib h dec bs vb s : target_ok s vb -> bs <= length b ->
  wpc (unmarshal_body k c b ib h dec bs vb) (fun _ => keeps (points vb) s) (keeps (points vb) s) (touches (points vb) s) s /\
  (vb = TgtNone \/ (h_version h <> 1%N -> bs <> 0) -> (vb <> TgtNone -> dec = Some DZlib -> zlib_modest (skipn bs b)) ->
   fst (unmarshal_body k c b ib h dec bs vb s) <> Crash).
Proof.
  intros T Lb. destruct vb as [|l|].
  - split; [apply keeps_refl|]. intros _ _. cbn. congruence.
  - unfold wpc. rewrite body_unfold. unfold mbind at 1 2.
    destruct (unpacked_cases b ib dec bs s Lb) as [(b' & ib' & s' & -> & K & Lb' & _)|[[e ->]|(-> & -> & Z)]].
    + destruct T as [T1 T2].
      assert (L2 : l < length (d_heap (reset s'))) by (destruct K as [(K & _) _]; cbn; lia).
      assert (H2 : hget (d_heap (reset s')) l = GNil).
      { cbn. rewrite (hget_touch (fun _ => False) s s' l (proj1 K) T1) by auto. exact T2. }
      destruct (body_run_wpc (h_version h) b' ib' bs l (reset s') Lb' L2 H2) as [W Nc].
      assert (K2 : keeps (fun _ => False) s (reset s')).
      { apply (keeps_trans (fun _ => False) (fun _ => False) _ s s'); auto. apply reset_keeps. }
      split.
      * unfold wpc in W. destruct (body_run c (h_version h) b' ib' bs l (reset s')) as [[u|e|e| |] s2];
          try exact W; cbn [points];
          first [apply (touches_trans (fun _ => False) (eq l) _ s (reset s'))|
                 apply (keeps_trans (fun _ => False) (eq l) _ s (reset s'))];
          auto; try exact (proj1 K2); try (intros ? []; reflexivity).
      * intros [Hc|Hc] _; [discriminate|]. now apply Nc.
    + split; [apply keeps_refl|]. cbn. congruence.
    + split; [apply keeps_refl|]. intros _ Zm. exfalso. apply Z, Zm; [discriminate|reflexivity].
  - unfold wpc. rewrite body_nonptr. unfold mbind at 1 2.
    destruct (unpacked_cases b ib dec bs s Lb) as [(b' & ib' & s' & -> & K & Lb' & _)|[[e ->]|(-> & -> & Z)]].
    + cbn. split; [|congruence].
      apply (keeps_trans (fun _ => False) (fun _ => False) _ s s'); auto. apply reset_keeps.
    + split; [apply keeps_refl|]. cbn. congruence.
    + split; [apply keeps_refl|]. intros _ Zm. exfalso. apply Z, Zm; [discriminate|reflexivity].
Qed.

(** * The whole call *)
Definition either (vh vb : target) (l : loc) : Prop := points vh l \/ points vb l.

Lemma raw_wpc b ib vh vb s : target_ok s vh -> target_ok s vb -> (forall l, points vh l -> ~ points vb l) ->
  wpc (unmarshal_raw k c b ib vh vb) (fun _ => keeps (either vh vb) s) (keeps (either vh vb) s) (touches (either vh vb) s) s.
Proof.
  intros Th Tb Dj.
  destruct (raw_cases k c b ib vh vb s) as [(e & E & _)|(ver & typ & l & n & rest & dec & S & T & D & B)].
  { unfold wpc. rewrite E. apply keeps_refl. }
  unfold wpc. rewrite (raw_good k c b ib vh vb s _ _ _ _ _ _ S D B).
  set (bs := Z.to_nat (bodyStart_of l n)). set (h := header_of ver typ l n).
  assert (Lb : bs <= length b) by (unfold bs; lia).
  change (wpc (unmarshal_header c b ib h bs vh;; unmarshal_body k c b ib h dec bs vb)
    (fun _ => keeps (either vh vb) s) (keeps (either vh vb) s) (touches (either vh vb) s) s).
  apply wpc_bind. eapply wpc_mono; [exact (header_wpc b ib h bs vh s Th)|..].
  - intros [] s' K.
    assert (Tb' : target_ok s' vb).
    { destruct vb as [|x|]; try exact I. destruct Tb as [T1 T2]. destruct K as [K _]. split.
      - destruct K as (K & _). lia.
      - rewrite (hget_touch _ _ _ _ K T1); [exact T2|]. intros P. exact (Dj _ P eq_refl). }
    destruct (body_wpc b ib h dec bs vb s' Tb' Lb) as [W _].
    eapply wpc_mono; [exact W|..].
    + intros [] s2 K2. eapply keeps_trans; [| |exact K|exact K2]; unfold either; auto.
    + intros s2 K2. eapply keeps_trans; [| |exact K|exact K2]; unfold either; auto.
    + intros s2 K2. eapply touches_trans; [| |exact (proj1 K)|exact K2]; unfold either; auto.
  - intros s' K. eapply keeps_trans; [| |exact K|apply (keeps_refl (points vh))]; unfold either; auto.
  - intros s' K. eapply touches_trans; [| |exact K|apply (touches_refl (points vh))]; unfold either; auto.
Qed.

Lemma start_zero l n : length l <= 10 -> (0 <= bodyStart_of l n)%Z ->
  Z.to_nat (bodyStart_of l n) = N.to_nat (body_start l n).
Proof.
  intros L. rewrite (bodyStart_spec l n L). unfold body_start, to_int, two64, two63.
  rewrite Z.mod_small by lia.
  match goal with |- context [if ?x then _ else _] => destruct x eqn:? end; lia.
Qed.

Lemma suffix_inside l n len : length l <= 10 -> (n < 9223372036854775808)%N -> n <> 0%N ->
  (0 <= bodyStart_of l n <= Z.of_nat len)%Z -> headerSize + length l < len.
Proof.
  intros L N63 Nz. rewrite (bodyStart_spec l n L). unfold body_start, headerSize.
  rewrite N.mod_small by lia. unfold to_int, two64, two63. rewrite Z.mod_small by lia.
  match goal with |- context [if ?x then _ else _] => destruct x eqn:? end; lia.
Qed.

Lemma raw_nocrash b ib vh vb s : target_ok s vh -> target_ok s vb -> (forall l, points vh l -> ~ points vb l) ->
  harmless vh vb b -> fst (unmarshal_raw k c b ib vh vb s) <> Crash.
Proof.
  intros Th Tb Dj Hm.
  destruct (raw_cases k c b ib vh vb s) as [(e & E & _)|(ver & typ & l & n & rest & dec & S & T & D & B)].
  { rewrite E. cbn. congruence. }
  rewrite (raw_good k c b ib vh vb s _ _ _ _ _ _ S D B).
  destruct (Hm _ _ _ _ _ S) as [Mh Mb].
  destruct (starts_length _ _ _ _ _ _ S) as [Len L10].
  set (h := header_of ver typ l n) in *.
  assert (C1 : vh = TgtNone \/ h_suffixSize h = 1%Z \/ h_suffixStart h < length b).
  { destruct (target_nil vh) eqn:Nv; [left; now destruct vh|right].
    destruct Mh as [N63 N0]; [now destruct vh|].
    destruct (N.eq_dec n 0) as [->|Nz].
    - left. unfold h, header_of. cbn [h_suffixSize]. rewrite (N0 eq_refl). reflexivity.
    - right. exact (suffix_inside l n (length b) (proj2 L10) N63 Nz B). }
  set (bs := Z.to_nat (bodyStart_of l n)).
  assert (Lb : bs <= length b) by (unfold bs; lia).
  assert (Eb : bs = N.to_nat (body_start l n)) by (apply start_zero; lia).
  pose proof (header_nocrash b ib h bs vh s C1 Th) as Nh.
  pose proof (header_wpc b ib h bs vh s Th) as Wh.
  unfold mbind at 1. unfold wpc in Wh.
  destruct (unmarshal_header c b ib h bs vh s) as [[[]|e|e| |] s']; cbn [fst] in *; try congruence.
  assert (Tb' : target_ok s' vb).
  { destruct vb as [|x|]; try exact I. destruct Tb as [T1 T2]. destruct Wh as [K _]. split.
    - destruct K as (K & _). lia.
    - rewrite (hget_touch _ _ _ _ K T1); [exact T2|]. intros P. exact (Dj _ P eq_refl). }
  destruct (body_wpc b ib h dec bs vb s' Tb' Lb) as [_ Nc]. apply Nc.
  - destruct (target_nil vb) eqn:Nv; [left; now destruct vb|right]. intros Hv. rewrite Eb.
    destruct Mb as [M1 _]; [now destruct vb|]. specialize (M1 Hv). lia.
  - intros Nn Ed. rewrite Eb. apply Mb; auto. subst dec. revert D. unfold documentDecompressor.
    unfold serealRaw, serealSnappy, serealSnappyIncremental, serealZlib, serealZstd.
    repeat match goal with |- context [if ?x then _ else _] => destruct x eqn:? end; try discriminate; lia.
Qed.
End Safe.
