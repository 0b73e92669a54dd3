(** Models of include/fu/decstr.cpp (u64dec, i64dec) and of the decimal parsers of src/helpers.fu. *)
From Verif Require Export Words.
Open Scope Z_scope.

(** decstr.cpp:6-18 [fu::u64dec]: [do { d = num % 10; num /= 10; res.insert(0, d + '0'); } while (num)].
    20 rounds are enough for 64 bits (proved: never out of fuel). *)
Fixpoint u64dec_loop (fuel : nat) (num : Z) (res : list Z) : option (list Z) :=
  match fuel with
  | O => None
  | S f =>
      let d := num mod 10 in
      let num' := num / 10 in
      let res' := (d + 48) :: res in
      if num' =? 0 then Some res' else u64dec_loop f num' res'
  end.
Definition u64dec (num : Z) : option (list Z) := u64dec_loop 20 num [].

(** decstr.cpp:20-33 [fu::i64dec]; the literal is "-9223372036854775808". *)
Definition min_text : list Z := [45; 57; 50; 50; 51; 51; 55; 50; 48; 51; 54; 56; 53; 52; 55; 55; 53; 56; 48; 56].
Definition i64dec (num : Z) : option (list Z) :=
  if num <? 0 then
    if num =? - 2 ^ 63 then Some min_text
    else do res <- u64dec (- num); Some (45 :: res)
  else u64dec num.

(** src/helpers.fu:86-100 [parse10u32(ref offset, str)]: the result and the new offset.
    str[offset] traps for a negative offset.  One round per byte of str. *)
Fixpoint parse10_loop (fuel : nat) (str : list Z) (offset result : Z) : option (Z * Z) :=
  match fuel with
  | O => Some (result, offset)
  | S f =>
      if offset <? Z.of_nat (length str) then
        do c <- (if offset <? 0 then None else nth_error str (Z.to_nat offset));
        if (c <? 48) || (57 <? c) then Some (result, offset)
        else parse10_loop f str (offset + 1) (wadd 32 (wmul 32 result 10) (wsub 32 c 48))
      else Some (result, offset)
  end.
Definition parse10u32 (offset : Z) (str : list Z) : option (Z * Z) :=
  parse10_loop (S (length str)) str offset 0.

(** src/helpers.fu:102-113 [parse10s32].  The final int product traps on overflow (INT_MIN * -1;
    undefined behaviour in the generated C++). *)
Definition parse10s32 (offset : Z) (str : list Z) : option (Z * Z) :=
  if Z.of_nat (length str) <=? offset then Some (0, offset)
  else
    do c <- (if offset <? 0 then None else nth_error str (Z.to_nat offset));
    let '(offset, mul) := if c =? 45 then (offset + 1, -1) else (offset, 1) in
    do r <- parse10u32 offset str;
    let p := signed 32 (fst r) * mul in
    if (p <? - 2 ^ 31) || (2 ^ 31 <=? p) then None else Some (p, snd r).
