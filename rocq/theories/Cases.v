(** Concrete settings used in the examples beside the theorems. *)
From Verif Require Import Base Tags GoMem Codecs Encode Decode Document Spec SpecValue SpecOptions Roundtrip.
From Coq Require Import Permutation.

(** a toy codec that marks compressed data, lossless and rejecting other data *)
Definition mark (m : byte) (b : bytes) : bytes := m :: b.
Definition unmark (m : byte) (b : bytes) : option bytes :=
  match b with x :: t => if byte_eqb x m then Some t else None | [] => None end.
Definition k0 : codecs := mkCodecs
  (mark xaa) (unmark xaa)
  (fun _ b => Some (mark x78 b)) (fun b => match unmark x78 b with Some _ => true | None => false end) (unmark x78)
  (fun _ _ => None) (fun _ => None).

Lemma k0_lossless : lossless k0.
Proof.
  repeat split; cbn; unfold mark; intros.
  - injection H as <-. reflexivity.
  - injection H as <-. reflexivity.
  - discriminate.
Qed.

(** addresses: a slice has that of its first element; strings have none *)
Definition lay0 : layout := mkLayout (fun l => Addr (4 * l + 4)) (fun p =>
  match p with
  | PMap l => Some (Addr (4 * l + 5))
  | PSlice b => Some (Addr (4 * b + 4))
  | PBuf l off => Some (Addr (4 * (l + 1000 * off) + 6))
  | PStr _ => None
  | PBox r => Some (Addr (4 * r + 4))
  | PCanon => Some (Addr 3)
  end).

(** default encoder options; [ev v], [ec v c]: another version, a compressor *)
Definition eopt (perl : bool) (comp : option compressor) (depth : Z) (ver : N) : econfig :=
  mkEConfig perl comp 0 false false depth ver (fun _ _ l => l) lay0 (fun _ => None).
Definition e0 : econfig := eopt false None 0 0.

Lemma eopt_sane p c d v : sane_world (eopt p c d v).
Proof. split; [intros; apply Permutation_refl|discriminate]. Qed.

(** default decoder options *)
Definition c0 : dconfig := mkDConfig false false (fun _ => None) (fun _ _ => true).
Definition c1 : dconfig := mkDConfig true false (fun _ => None) (fun _ _ => true).

(** map[string]interface{}{"a": 7, "b": []interface{}{"hi", &int8(-5)}} *)
Definition h0 : heap :=
  [CMap [([x61], GInt KInt false 7); ([x62], GSlice 1 2)];
   CV (GStr [x68; x69]); CV (GPtr false 3); CV (GInt KInt8 false (-5))].
Definition v0 : gval := GMap 0.

Lemma tree0 M F (nf : bool) sd : (2 <= M)%N -> tree M F nf sd h0 v0 3 [at_cell sd 3].
Proof.
  intros LM.
  assert (T3 : tree M F nf sd h0 (GPtr false 3) 1 [at_cell sd 3]).
  { change 1 with (S 0). apply (t_ptr M F nf sd h0 false 3 0 []); [reflexivity|reflexivity|intros a _ []|].
    apply t_int. cbn. unfold ikind_in. cbn. lia. }
  assert (T1 : tree M F nf sd h0 (GSlice 1 2) 2 [at_cell sd 3]).
  { apply t_slice; [lia|]. change (cells h0 1 2) with [GStr [x68; x69]; GPtr false 3].
    apply (ts_cons _ _ _ _ _ _ 0 [] _ 1 [at_cell sd 3]); [apply t_str; unfold fits; cbn; lia| |intros a []].
    apply (ts_cons _ _ _ _ _ _ 1 [at_cell sd 3] _ 0 []); [exact T3|apply ts_nil|intros a _ []]. }
  apply t_map; [| | |].
  - cbn. repeat constructor; cbn; intuition discriminate.
  - unfold fits. cbn. lia.
  - intros k v [[= <- <-]|[[= <- <-]|[]]]; unfold fits; cbn; lia.
  - change (map snd (hmap h0 0)) with [GInt KInt false 7; GSlice 1 2].
    apply (ts_cons _ _ _ _ _ _ 0 [] _ 2 [at_cell sd 3]); [apply t_int; unfold ikind_in; cbn; lia| |intros a []].
    apply (ts_cons _ _ _ _ _ _ 2 [at_cell sd 3] _ 0 []); [exact T1|apply ts_nil|intros a _ []].
Qed.

(** what Marshal writes for it in protocol 3 *)
Definition doc0 : bytes :=
  [x3d; xf3; x72; x6c; x03; x00;
   x2a; x02; x27; x01; x61; x07; x27; x01; x62; x2b; x02; x27; x02; x68; x69; x28; x1b].
Example doc0_marshalled : Marshal k0 10 e0 h0 v0 = Ok doc0.
Proof. vm_compute. reflexivity. Qed.
