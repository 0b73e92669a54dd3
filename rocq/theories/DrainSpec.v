(* What a source of bytes (a socket, a pipe) does, and what it means to have
   read all of it.  Nothing here depends on the library. *)
From Coq Require Import List Arith ZArith.

(* The bytes that will ever come are a sequence.  [arrived i] of them have come
   when the i-th call is made; a call may fail; else it gives the next so many
   bytes: never more than was asked for, nor than have arrived. *)
Record source (A : Type) := {
  byte_at : nat -> A;
  arrived : nat -> nat;
  fails : nat -> option Z;                 (* errno of the i-th call *)
  give : nat -> Z -> nat -> nat            (* call, asked for, available *)
}.
Arguments byte_at {A}. Arguments arrived {A}. Arguments fails {A}. Arguments give {A}.

Definition lawful {A} (w : source A) : Prop :=
  forall i cap avail, (Z.of_nat (give w i cap avail) <= Z.max 0 cap)%Z /\ give w i cap avail <= avail.

(* gives all there is, up to what was asked for *)
Definition willing {A} (w : source A) : Prop :=
  forall i cap avail, (0 <= cap)%Z -> Z.of_nat (give w i cap avail) = Z.min cap (Z.of_nat avail).

(* the n bytes from the c-th on *)
Definition bytes {A} (w : source A) (c n : nat) : list A := map (byte_at w) (seq c n).
