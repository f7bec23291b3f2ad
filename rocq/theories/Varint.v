(** Variable-length integers. *)
From Verif Require Import Base.

(** varint, encode.go 675-683: low 7 bits first, continuation bit 0x80.
    The Go loop runs until n < 0x80; a 64-bit n needs at most 10 rounds, which is
    the loop bound used here. *)
Fixpoint varint_loop (fuel : nat) (n : N) : bytes :=
  match fuel with
  | O => []
  | S f =>
      if (n <? 128)%N then [n2b n]
      else n2b (N.lor (N.land n 255) 128) :: varint_loop f (N.shiftr n 7)
  end.

(** The argument is a Go uint: 64 bits. *)
Definition varint (n : N) : bytes := varint_loop 10 (n mod 18446744073709551616).

(** Results of varintdecode: the int and the number of bytes used, or
    ErrCorrupt{errBadVarint} with the number of bytes looked at. *)
Inductive vres : Type :=
| VOk (n : Z) (sz : nat)
| VBad (sz : nat).

(** varintdecode, decode.go 1240-1258.  [n] is the accumulator as 64 unsigned bits,
    reinterpreted as int on return. *)
Fixpoint vdec_loop (by_ : bytes) (s : N) (i : nat) (n : N) : vres :=
  match by_ with
  | [] => VBad i
  | b :: rest =>
      let n' := N.lor n (N.land (N.shiftl (N.land (b2n b) 127) s) (N.ones 64)) in
      if (N.land (b2n b) 128 =? 0)%N then VOk (to_int n') (S i)
      else if (63 <? s + 7)%N then VBad (S i)
      else vdec_loop rest (s + 7) (S i) n'
  end.

Definition varintdecode (by_ : bytes) : vres := vdec_loop by_ 0 0 0.
