(** Several calls of one Decoder in one memory. *)
From Verif Require Import Base Tags GoMem Decode Codecs Compress Header Document.

Section Session.
Variable k : codecs.
Variable c : dconfig.

(** One call of Unmarshal, UnmarshalHeader or UnmarshalHeaderBody, decode.go 98-112 and 172-263:
    the document and the two variables, both nil, are the next three cells of the memory, which
    otherwise holds whatever the program put there.  The Decoder keeps copyDepth and tracked.
    The second component is the cell of the document. *)
Definition session_call (q : request) (s : dstate) : (res unit * loc) * dstate :=
  let n := length (d_heap s) in
  let start b := with_heap s (d_heap s ++ [CBuf b; CV GNil; CV GNil]) in
  let '(r, s') := match q with
    | ReqBody b => unmarshal_raw k c b n TgtNone (TgtIface (n + 2)) (start b)
    | ReqHeader b => unmarshal_raw k c b n (TgtIface (n + 1)) TgtNone (start b)
    | ReqBoth b => unmarshal_raw k c b n (TgtIface (n + 1)) (TgtIface (n + 2)) (start b)
    end in
  (recovered r, n, s').
Fixpoint session (qs : list request) (s : dstate) : list (res unit * loc) * dstate :=
  match qs with
  | [] => ([], s)
  | q :: qs' =>
      let '(o, s1) := session_call q s in
      let '(os, s2) := session qs' s1 in
      (o :: os, s2)
  end.
End Session.
