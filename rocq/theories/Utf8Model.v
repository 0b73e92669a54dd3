(** Model of lib/unicode.fu: utf8 (encode) and codepoints (decode).  Bytes and u32 code points are Z;
    None is an index out of bounds. *)
From Verif Require Export Words.
Open Scope Z_scope.

(** unicode.fu:7-36 [utf8(codepoint)]. *)
Definition utf8 (c : Z) : list Z :=
  if c <=? 127 then [wrap 8 c]
  else if c <=? 2047 then
    [wrap 8 (Z.lor (Z.land (wshr c 6) 31) 192); wrap 8 (Z.lor (Z.land (wshr c 0) 63) 128)]
  else if c <=? 65535 then
    [wrap 8 (Z.lor (Z.land (wshr c 12) 15) 224); wrap 8 (Z.lor (Z.land (wshr c 6) 63) 128);
     wrap 8 (Z.lor (Z.land (wshr c 0) 63) 128)]
  else if c <=? 1114111 then
    [wrap 8 (Z.lor (Z.land (wshr c 18) 7) 240); wrap 8 (Z.lor (Z.land (wshr c 12) 63) 128);
     wrap 8 (Z.lor (Z.land (wshr c 6) 63) 128); wrap 8 (Z.lor (Z.land (wshr c 0) 63) 128)]
  else [].

(** What a call of codepoints reports: each(c, i) or error(i0). *)
Inductive event := Each (c : Z) (i : nat) | Error (i0 : nat).

(** unicode.fu:50-58: how many continuation bytes the lead byte announces; None is the error break. *)
Definition extra_of (c : Z) : option nat :=
  if Z.land c 224 =? 192 then Some 1%nat
  else if Z.land c 240 =? 224 then Some 2%nat
  else if Z.land c 248 =? 240 then Some 3%nat
  else None.

(** unicode.fu:68-79: [do { i++; b = utf8[i]; if (b & 0xc0 != 0x80) error; c = c << 6 | b & ~0xc0; } while (i < i1)].
    n is the number of rounds left; inr is the error break.  The result carries i. *)
Fixpoint cont_loop (n : nat) (s : list Z) (i : nat) (c : Z) : option (Z * nat + nat) :=
  match n with
  | O => Some (inl (c, i))
  | S n' =>
      do b <- nth_error s (S i);
      if Z.land b 192 =? 128
      then cont_loop n' s (S i) (Z.lor (wshl 32 c 6) (Z.land b (Z.lxor 192 (2 ^ 32 - 1))))
      else Some (inr (S i))
  end.

(** unicode.fu:40-97, one round of the outer loop from i: the event and the i the round ends with. *)
Definition round (s : list Z) (i : nat) : option (event * nat) :=
  do c <- nth_error s i;
  if 128 <=? c then
    match extra_of c with
    | None => Some (Error i, i)
    | Some extra =>
        let c := Z.land c (wshr 63 (Z.of_nat extra)) in
        let i1 := (i + extra)%nat in
        if (length s <? i1)%nat then Some (Error i, i)
        else do r <- cont_loop extra s i c;
             match r with
             | inl (c, j) => Some (Each c j, j)
             | inr j => Some (Error i, j)
             end
    end
  else Some (Each c i, i).

(** unicode.fu:40 [for (mut i = 0; i < utf8.len; i++)]; fuel: i grows every round. *)
Fixpoint codepoints_loop (fuel : nat) (s : list Z) (i : nat) : option (list event) :=
  match fuel with
  | O => None
  | S f =>
      if (i <? length s)%nat then
        do r <- round s i;
        do rest <- codepoints_loop f s (S (snd r));
        Some (fst r :: rest)
      else Some []
  end.
Definition codepoints (s : list Z) : option (list event) := codepoints_loop (S (length s)) s 0.
