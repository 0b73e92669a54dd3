(* C79: what is packed into an embedded bitmap font is unpacked again. *)
From Coq Require Import List NArith Arith Bool Lia.
From Verif Require Import FontSpec FontModel FontProof.
Import ListNotations.

(* Packing texels and unpacking them gives 255 for each set texel and 0 for the
   others, padded with 0 to a multiple of 64. *)
Theorem C79_texels_survive : forall bs,
  length (bits_to_bytes (bytes_to_bits bs)) = (length bs + 63) / 64 * 64 /\
  forall i, nth i (bits_to_bytes (bytes_to_bits bs)) 0%N = if texel bs i then 255%N else 0%N.
Proof. exact round_trip. Qed.
Print Assumptions C79_texels_survive.

(* The literal emitted for a u64 has its value. *)
Theorem C79_literals_have_their_value : forall v,
  (v < 2 ^ 64)%N -> literal_value (hex v) = Some v.
Proof. exact hex_ok. Qed.
Print Assumptions C79_literals_have_their_value.

(* Unpacking an increasing list of codepoints that starts with 0 gives each its
   position and all others 0, and emitting the font again gives the list. *)
Theorem C79_codepoints_survive : forall r,
  (forall p q, p < q -> q < length (0 :: r) -> nth p (0 :: r) 0 < nth q (0 :: r) 0) ->
  (forall c, In c r -> (N.of_nat c < 65536)%N) ->
  emit_codepoints (unpack_codepoints (0 :: r)) = 0 :: r /\
  (forall p, p < length (0 :: r) -> nth (nth p (0 :: r) 0) (unpack_codepoints (0 :: r)) 0%N = N.of_nat p) /\
  (forall c, ~ In c r -> nth c (unpack_codepoints (0 :: r)) 0%N = 0%N).
Proof.
  intros r H B.
  assert (A : above 1 r).
  { assert (G : forall l n, (forall p q, p < q -> q < length (n :: l) -> nth p (n :: l) 0 < nth q (n :: l) 0) ->
      above (S n) l).
    { induction l as [| y l IH]; intros n Q; cbn; [exact I |]. split.
      - apply (Q 0 1); cbn; lia.
      - apply IH. intros p q Hp Hq. apply (Q (S p) (S q)); cbn in *; lia. }
    apply G. exact H. }
  destruct (codepoints_ok r A B) as (E & P & Z). split; [exact E | split; [| exact Z]].
  intros p Hp. apply P. cbn in Hp. lia.
Qed.
Print Assumptions C79_codepoints_survive.

Example texels_70 :
  let bs := (1 :: repeat 0 62 ++ [7; 0; 9; 0; 0; 200])%N in
  bytes_to_bits bs = [0x8000000000000001; 0x12]%N /\ length bs = 69.
Proof. split; reflexivity. Qed.

Example literals : hex 0x2f0a = [48; 120; 50; 102; 48; 97]%N /\ hex 0 = [48]%N.
Proof. split; reflexivity. Qed.

Example codepoints_ex :
  unpack_codepoints [0; 2; 3; 6] = [0; 0; 1; 2; 0; 0; 3]%N /\
  emit_codepoints [0; 0; 1; 2; 0; 0; 3]%N = [0; 2; 3; 6].
Proof. split; reflexivity. Qed.
