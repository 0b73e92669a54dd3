(* What a packed bitmap and a hexadecimal literal say. *)
From Coq Require Import List NArith Arith Bool.
Import ListNotations.

(* a texel is set if it is not 0 *)
Definition set_texel (x : N) : bool := negb (N.eqb x 0).

(* texel i of the bitmap; 0 beyond its end *)
Definition texel (bs : list N) (i : nat) : bool := set_texel (nth i bs 0%N).

(* the value of a hexadecimal digit, given as a character code *)
Definition digit_value (c : N) : option N :=
  if (N.leb 48 c && N.leb c 57)%bool then Some (c - 48)%N
  else if (N.leb 97 c && N.leb c 102)%bool then Some (c - 87)%N
  else None.

(* the value of a sequence of digits, most significant first *)
Fixpoint digits_value (acc : N) (s : list N) : option N :=
  match s with
  | [] => Some acc
  | c :: r => match digit_value c with
              | Some d => digits_value (16 * acc + d) r
              | None => None
              end
  end.

(* the value of a literal: 0, or 0x and at least one digit *)
Definition literal_value (s : list N) : option N :=
  match s with
  | [48%N] => Some 0%N
  | 48%N :: 120%N :: c :: r => digits_value 0 (c :: r)
  | _ => None
  end.
