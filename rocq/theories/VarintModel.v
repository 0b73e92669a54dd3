(** Models of the varint codecs: src/helpers.fu (parseVarint, appendVarint) and
    src/lifetime.fu (parse7bit, append7bit).  Bytes and u32s are Z; None is a throw, a trap, or a
    shift by 32 or more (undefined in the generated C++). *)
From Verif Require Export Words.
Open Scope Z_scope.

(** byte(v | 0x80): the low 7 bits with the top bit set. *)
Definition cont_byte (v : Z) : Z := wrap 8 (Z.lor v 128).

(** src/helpers.fu:151-165 [appendVarint]: the bytes appended.  [while (v >= 64)]: at most 5 rounds
    for a u32 (proved: never out of fuel). *)
Fixpoint append_varint_loop (fuel : nat) (v : Z) : option (list Z) :=
  match fuel with
  | O => None
  | S f =>
      if 64 <=? v then do r <- append_varint_loop f (wshr v 7); Some (cont_byte v :: r)
      else
        let add := if v <? 10 then 48 else if v <? 36 then 65 - 10 else 95 - 36 in
        Some [wrap 8 (wadd 32 v add)]
  end.
Definition append_varint (str : list Z) (v : Z) : option (list Z) :=
  do r <- append_varint_loop 6 v; Some (str ++ r).

(** The shared loop of helpers.fu:134-139 and lifetime.fu:49-54:
    [while (offset < str.len && (c = str[offset++]) >= 128) { result |= (c & 0x7f) << shift; shift += 7; }].
    Gives result, shift, c, offset.  A negative offset traps. *)
Fixpoint scan_loop (fuel : nat) (str : list Z) (offset shift result c : Z) : option (Z * Z * Z * Z) :=
  match fuel with
  | O => None
  | S f =>
      if offset <? Z.of_nat (length str) then
        do c <- (if offset <? 0 then None else nth_error str (Z.to_nat offset));
        let offset := offset + 1 in
        if 128 <=? c then
          if 32 <=? shift then None
          else scan_loop f str offset (shift + 7) (Z.lor result (wshl 32 (Z.land c 127) shift)) c
        else Some (result, shift, c, offset)
      else Some (result, shift, c, offset)
  end.
Definition scan (str : list Z) (offset : Z) := scan_loop (S (length str)) str offset 0 0 0.

(** helpers.fu:128-149 [parseVarint]: the value and the new offset. *)
Definition parse_varint (offset : Z) (str : list Z) : option (Z * Z) :=
  do q <- scan str offset;
  let '(result, shift, c, offset) := q in
  do sub <- (if (48 <=? c) && (c <=? 57) then Some 48
             else if (65 <=? c) && (c <=? 90) then Some (65 - 10)
             else if (95 <=? c) && (c <=? 122) then Some (95 - 36)
             else None);
  if 32 <=? shift then None
  else Some (Z.lor result (wshl 32 (wsub 32 c sub) shift), offset).

(** lifetime.fu:59-68 [append7bit]. *)
Fixpoint append7_loop (fuel : nat) (v : Z) : option (list Z) :=
  match fuel with
  | O => None
  | S f =>
      if 128 <=? v then do r <- append7_loop f (wshr v 7); Some (cont_byte v :: r)
      else Some [wrap 8 v]
  end.
Definition append7bit (str : list Z) (v : Z) : option (list Z) :=
  do r <- append7_loop 6 v; Some (str ++ r).

(** lifetime.fu:43-57 [parse7bit]. *)
Definition parse7bit (str : list Z) (offset : Z) : option (Z * Z) :=
  do q <- scan str offset;
  let '(result, shift, c, offset) := q in
  if 32 <=? shift then None
  else Some (Z.lor result (wshl 32 c shift), offset).
