(* Model of the packing of bitmap fonts, lib/ui/EmbeddedBitmapFont.fu. *)
From Coq Require Import List NArith Arith Bool.
Import ListNotations.

(* bytes_to_bits (lib/ui/EmbeddedBitmapFont.fu:25-41): the loop over the bytes,
   with ret, buffer and bit; a u64 is an N, and bit is below 64, so that the
   shift loses nothing *)
Fixpoint to_bits (bs : list N) (buffer : N) (bit : nat) (ret : list N) : list N :=
  match bs with
  | [] => if Nat.eqb bit 0 then ret else ret ++ [buffer]
  | x :: r =>
      let buffer := N.lor buffer (N.shiftl (if N.eqb x 0 then 0 else 1) (N.of_nat bit)) in
      let bit := S bit in
      if Nat.eqb bit 64
      then to_bits r 0 0 (ret ++ [buffer])
      else to_bits r buffer bit ret
  end.

Definition bytes_to_bits (bs : list N) : list N := to_bits bs 0 0 [].

(* bits_to_bytes (lib/ui/EmbeddedBitmapFont.fu:43-54); i >> 6 and i & 63 are
   i / 64 and i mod 64, i being non-negative *)
Definition bits_to_bytes (bitfield : list N) : list N :=
  map (fun i =>
         let index := i / 64 in
         let bit := N.of_nat (i mod 64) in
         if N.eqb (N.land (nth index bitfield 0%N) (N.shiftl 1 bit)) 0 then 0%N else 255%N)
      (seq 0 (length bitfield * 64)).

(* hex (lib/ui/EmbeddedBitmapFont.fu:108-121): the digits, the least significant
   first; a u64 has at most 16 of them *)
Fixpoint hex_digits (fuel : nat) (v : N) : list N :=
  match fuel with
  | O => []
  | S fuel' =>
      if N.eqb v 0 then []
      else
        let c := N.land v 15 in
        (if N.leb 10 c then 97 + (c - 10) else 48 + c)%N :: hex_digits fuel' (N.shiftr v 4)
  end.

Definition hex (v : N) : list N :=
  if N.eqb v 0 then [48%N] else rev (hex_digits 16 v ++ [120%N; 48%N]).

(* the codepoints of the unpacked font (lib/ui/EmbeddedBitmapFont.fu:16-19):
   for each codepoint its position; the loop runs downwards; u16 positions *)
Fixpoint set_nth (l : list N) (n : nat) (x : N) : list N :=
  match l, n with
  | [], _ => []
  | _ :: r, O => x :: r
  | y :: r, S n' => y :: set_nth r n' x
  end.

Fixpoint place (cps : list nat) (i : nat) (font : list N) : list N :=
  match i with
  | O => font
  | S i' => place cps i' (set_nth font (nth i' cps 0) (N.of_nat i' mod 65536))
  end.

Definition unpack_codepoints (cps : list nat) : list N :=
  place cps (length cps) (repeat 0%N (S (last cps 0))).

(* the codepoints that are emitted (lib/ui/EmbeddedBitmapFont.fu:124-129) *)
Definition emit_codepoints (font : list N) : list nat :=
  filter (fun c => orb (negb (N.eqb (nth c font 0%N) 0)) (Nat.eqb c 0)) (seq 0 (length font)).
