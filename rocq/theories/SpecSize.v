(** Calls to a Merger that differ in ExpectedSize only. *)
From Verif Require Import Base Codecs GoSlice Merge.

(** the public fields other than ExpectedSize (merge.go 33-58) *)
Definition resized (a b : mconfig) : Prop :=
  g_top a = g_top b /\ g_comp a = g_comp b /\ g_threshold a = g_threshold b /\ g_dedupe a = g_dedupe b /\ g_flat a = g_flat b.

(** the same document, with the same bytes beyond its end *)
Definition resized_call (a b : call) : Prop :=
  resized (c_conf a) (c_conf b) /\ c_doc a = c_doc b /\ c_spare a = c_spare b.

(** 0, or room for the first five bytes of the header *)
Definition usable (g : mconfig) : Prop := g_expected g = 0 \/ 5 <= g_expected g.
