(** C63, C64: header and body read in one call; calls made one after the other in one memory.
    [call_result k c new_decoder (ReqBoth b)] is what a new Decoder's UnmarshalHeaderBody gives:
    an error, or memory and the two variables.  [observe n h v] is what is seen of the value [v] in
    memory [h] down to depth [n]. *)
From Verif Require Import Base Tags GoMem Decode Codecs Compress Header Document SpecObserve SpecSession Session
  RelocApi Cases.

(** C63.  UnmarshalHeaderBody gives what UnmarshalHeader and Unmarshal give separately: the error
    of the first that fails, or both values. *)
Theorem C63_header_then_body : forall k c b,
  header_then_body (unmarshal_header_fresh k c b) (unmarshal_fresh k c b) (call_result k c new_decoder (ReqBoth b)).
Proof. exact both_results. Qed.
Print Assumptions C63_header_then_body.

(** header: an array of 1 and a reference to the array; body: {"a": <COPY of the key>}.  With a bad
    reference in the header Unmarshal still reads the body, but UnmarshalHeaderBody returns the
    header's error; a truncated body is reported after a good header. *)
Definition two_parts : bytes := [x3d;xf3;x72;x6c;x03;x06;x01;xab;x02;x01;x29;x07;x51;x61;x61;x2f;x02].
Definition bad_head : bytes := firstn 11 two_parts ++ x17 :: skipn 12 two_parts.
Definition seen3 (r : res (heap * gval * gval)) : option (obs * obs) :=
  match r with Ok (h, x, y) => Some (observe 3 h x, observe 3 h y) | _ => None end.
Definition seen2 (r : res (heap * gval)) : option obs := match r with Ok (h, x) => Some (observe 3 h x) | _ => None end.
Example C63_case :
  seen2 (unmarshal_header_fresh k0 c0 two_parts) = Some (OSlice [OInt KInt false 1; OPtr false (OSlice [OCut; OCut])]) /\
  seen2 (unmarshal_fresh k0 c0 two_parts) = Some (OMap [([x61], OBytes [x61])]) /\
  seen3 (call_result k0 c0 new_decoder (ReqBoth two_parts)) =
    Some (OSlice [OInt KInt false 1; OPtr false (OSlice [OCut; OCut])], OMap [([x61], OBytes [x61])]) /\
  unmarshal_header_fresh k0 c0 bad_head = Err EBadOffset /\
  seen2 (unmarshal_fresh k0 c0 bad_head) = Some (OMap [([x61], OBytes [x61])]) /\
  call_result k0 c0 new_decoder (ReqBoth bad_head) = Err EBadOffset /\
  unmarshal_fresh k0 c0 (firstn 14 two_parts) = Err ETruncated /\
  call_result k0 c0 new_decoder (ReqBoth (firstn 14 two_parts)) = Err ETruncated.
Proof. vm_compute. repeat split; reflexivity. Qed.

(** C64.  One Decoder, one memory, any calls one after the other, none of which ends in a panic
    recovered by the API (see C24): at the end, the variables of every call that returned no error
    look as after the same call by a new Decoder alone in memory, the others returned the same
    error, and nothing that was in memory before has changed. *)
Theorem C64_calls_do_not_disturb : forall k c qs h os s,
  (forall q, In q qs -> call_panics k c new_decoder q = false) ->
  session k c qs (mkDState h [] 0 []) = (os, s) ->
  Forall2 (fun q o => same_results (seen_later (d_heap s) o) (call_result k c new_decoder q)) qs os /\
  forall l, l < length h -> nth_error (d_heap s) l = nth_error h l.
Proof.
  intros k c qs h os s H E. destruct (session_results k c qs H (mkDState h [] 0 []) eq_refl) as (_ & K & F).
  rewrite E in K, F. cbn in K, F. auto.
Qed.
Print Assumptions C64_calls_do_not_disturb.

(** a document with header and body, one that is refused, a regular expression; memory held one
    variable *)
Definition regexp_doc : bytes := [x3d;xf3;x72;x6c;x03;x00;x31;x61;x61;x60].
Definition calls : list request := [ReqBoth two_parts; ReqHeader bad_head; ReqBody regexp_doc].
Example C64_case :
  map (call_panics k0 c0 new_decoder) calls = [false; false; false] /\
  let '(os, s) := session k0 c0 calls (mkDState [CV (GBool true)] [] 0 []) in
  map fst os = [Ok tt; Err EBadOffset; Ok tt] /\
  map (fun o => seen3 (seen_later (d_heap s) o)) os =
    [Some (OSlice [OInt KInt false 1; OPtr false (OSlice [OCut; OCut])], OMap [([x61], OBytes [x61])]);
     None; Some (ONil, OPtr false (ORegexp [x61] []))] /\
  nth_error (d_heap s) 0 = Some (CV (GBool true)).
Proof. vm_compute. repeat split; reflexivity. Qed.
