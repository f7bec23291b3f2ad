(** Independent specification of encoder options. *)
From Verif Require Import Base Encode.
From Coq Require Import Permutation.

(** version 0 stands for the newest version the encoder writes *)
Definition proto (e : econfig) : N := if (e_version e =? 0)%N then 3 else e_version e.

(** The outside world behaves: iterating over a map yields each entry once, and parsed
    floats are 64-bit patterns. *)
Definition sane_world (e : econfig) : Prop :=
  (forall t A (l : list A), Permutation l (e_shuffle e t A l)) /\
  (forall s u, e_parsefloat e s = Some u -> (u < 18446744073709551616)%N).

(** nesting allowed by MaxRecursionDepth *)
Definition depth_limit (e : econfig) : Z :=
  if (0 <? e_maxdepth e)%Z then e_maxdepth e else 2147483647.

(** Combinations of protocol version and compression the format defines: plain Snappy in
    version 1, incremental Snappy from version 2, zlib from version 3. *)
Definition supported (ver : N) (c : option compressor) : Prop :=
  match c with
  | None => True
  | Some (CSnappy inc) => inc = negb (ver =? 1)%N
  | Some (CZlib _) => (3 <= ver)%N
  | Some (CZstd _) => False
  end.

Definition without_compression (e : econfig) : econfig :=
  mkEConfig (e_perl e) None (e_threshold e) (e_nodedup e) (e_nofreeze e)
            (e_maxdepth e) (e_version e) (e_shuffle e) (e_layout e) (e_parsefloat e).

Definition without_dedup (e : econfig) : econfig :=
  mkEConfig (e_perl e) (e_comp e) (e_threshold e) true (e_nofreeze e)
            (e_maxdepth e) (e_version e) (e_shuffle e) (e_layout e) (e_parsefloat e).
