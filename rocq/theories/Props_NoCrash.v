(** C68: Marshal answers with a document or with an error, whatever it is given. *)
From Verif Require Import Base GoMem Tags Codecs Encode Document SpecOptions SpecOutcome NoCrash Cases.
From Coq Require Import Permutation.

(** C68.  On every memory (cyclic, shared, with pointers to nothing), for every value, header and
    options, however Go orders the entries of its maps, MarshalWithHeader returns, and what it
    returns is a document or an error: it never panics, not even with a runtime error such as an
    index out of range when it goes back to flag what a pointer was found to point to again. *)
Theorem C68_marshal_answers : forall k e h header v,
  (forall t A (l : list A), Permutation l (e_shuffle e t A l)) ->
  (exists doc, outcome (fun n => MarshalWithHeader k n e h header v) (Ok doc)) \/
  (exists x, outcome (fun n => MarshalWithHeader k n e h header v) (Err x)).
Proof. exact marshal_answers. Qed.
Print Assumptions C68_marshal_answers.

(** A pointer to itself is a document, in which the flag is set on its first byte; a struct with
    a tagged field that is not exported, and a pointer to an interface holding a string, are errors. *)
Example C68_case :
  Marshal k0 10 (eopt false None 0 3) [CV (GPtr true 0)] (GPtr true 0) =
    Ok [x3d;xf3;x72;x6c;x03;x00;xa8;x29;x01] /\
  Marshal k0 10 (eopt false None 0 3) [CV GNil] (GStruct [x54] [mkField [x61] [x62] false] 0) = Err EReflect /\
  Marshal k0 10 (eopt false None 0 3) [CV (GStr [x61])] (GPtr true 0) = Err EReflect.
Proof. repeat split; vm_compute; reflexivity. Qed.
