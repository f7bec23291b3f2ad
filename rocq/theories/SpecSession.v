(** What a program sees of calls made one after the other in one memory. *)
From Verif Require Import Base GoMem Decode Document SpecObserve.

(** the header and body variables of a call, looked at in the memory [h]; [n] is the cell of the
    document, the variables are the next two *)
Definition seen_later (h : heap) (o : res unit * loc) : res (heap * gval * gval) :=
  bind (fst o) (fun _ => Ok (h, hget h (snd o + 1), hget h (snd o + 2))).

(** two outcomes a caller cannot tell apart *)
Definition same_results (r1 r2 : res (heap * gval * gval)) : Prop :=
  match r1, r2 with
  | Ok (h1, x1, y1), Ok (h2, x2, y2) =>
      forall n, observe n h1 x1 = observe n h2 x2 /\ observe n h1 y1 = observe n h2 y2
  | Err e1, Err e2 => e1 = e2
  | Crash, Crash => True
  | _, _ => False
  end.

(** What UnmarshalHeaderBody should give, in terms of the outcomes of UnmarshalHeader and
    Unmarshal: the header's error first, then the body's, or both values. *)
Definition header_then_body (rh rb : res (heap * gval)) (both : res (heap * gval * gval)) : Prop :=
  match rh with
  | Ok (h1, v1) =>
      match rb with
      | Ok (h2, v2) => exists h x y, both = Ok (h, x, y) /\
          forall n, observe n h x = observe n h1 v1 /\ observe n h y = observe n h2 v2
      | Err e => both = Err e
      | Crash => both = Crash
      | _ => False
      end
  | Err e => both = Err e
  | Crash => both = Crash
  | _ => False
  end.
