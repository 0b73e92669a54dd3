(** Model of src/lexer.fu: the source text to tokens.
    Bytes are Z in 0..255, positions are nat, [lidx] - the position of the last newline - is Z, starting at -1.
    Ok; Fail: an error is reported, with the position it points at (the rest of the message is not modelled); Trap: an access out
    of bounds, the failed self-test of token_lc (53-55), or a loop which does not end.
    Simplified: lengths and positions are unbounded (ints in the code); [parseHex() << 4 | parseHex()] (124) is taken left to
    right.  FAIL itself, which prints and throws, is not modelled. *)
From Verif Require Export Utf8Model AsciiModel.
Open Scope Z_scope.

Inductive lex_error := LeadingZero | BadNumber | HexExponent | BadEscape | Unterminated | NotOneByte | BadChar.
Inductive res (A : Type) := Ok (a : A) | Fail (e : lex_error) (at_ : nat) | Trap.
Arguments Ok {A}. Arguments Fail {A}. Arguments Trap {A}.
Definition bindr {A B} (x : res A) (f : A -> res B) : res B := match x with Ok a => f a | Fail e i => Fail e i | Trap => Trap end.
Notation "'let*' x := e 'in' k" := (bindr e (fun x => k)) (at level 200, x pattern, k at level 200).
(** src[i], and idx < end && src[idx]: zero past the end *)
Definition get (src : list Z) (i : nat) : res Z := match nth_error src i with Some c => Ok c | None => Trap end.
Definition peek (src : list Z) (i : nat) : Z := nth i src 0.
(** src.slice(a, b) *)
Definition slice (src : list Z) (a b : nat) : res (list Z) :=
  if ((a <=? b) && (b <=? length src))%nat then Ok (firstn (b - a) (skipn a src)) else Trap.

(** module.fu Kind, as used here; Token and LineColChars *)
Inductive kind := Sof | Id | Int | Real | Str | Char | Op | Eof.
Record token := Tok { t_kind : kind; t_value : list Z; t_line : nat; t_col : Z; t_chars : nat }.
(** lexer.fu:43-58 *)
Definition token_lc (k : kind) (value : list Z) (idx0 idx1 line : nat) (col : Z) : res token :=
  if (0 <=? col) && (idx0 <=? idx1)%nat && (length value <=? idx1 - idx0)%nat then Ok (Tok k value line col (idx1 - idx0)) else Trap.
Definition token_at (k : kind) (value : list Z) (idx0 idx1 line : nat) (lidx : Z) : res token :=
  token_lc k value idx0 idx1 line (Z.of_nat idx0 - lidx).

Definition in_range (a c b : Z) : bool := (a <=? c) && (c <=? b).
Definition is_digit (c : Z) : bool := in_range 48 c 57.
Definition is_alpha (c : Z) : bool := in_range 65 c 90 || in_range 97 c 122.
Definition is_hexletter (c : Z) : bool := in_range 97 c 102 || in_range 65 c 70.
(** lexer.fu:6-32 *)
Definition OPTOKENS : list Z := [123; 125; 91; 93; 40; 41; 33; 63; 126; 64; 35; 36; 37; 94; 38; 42; 47; 45; 43; 60; 61; 62; 44; 46; 59; 58; 124].
Definition is_op (c : Z) : bool := existsb (Z.eqb c) OPTOKENS.
Definition MBOPS : list (list Z) :=
  [[43; 43]; [45; 45];
   [60; 60]; [62; 62];
   [61; 61]; [33; 61]; [60; 61]; [62; 61];
   [61; 62]; [45; 62]; [124; 62]; [60; 124];
   [63; 63]; [63; 58];
   [46; 46]; [46; 46; 46]; [58; 58];
   [38; 38]; [124; 124]; [91; 93]; [91; 46; 46; 93];
   [43; 61]; [45; 61]; [42; 61]; [47; 61]; [37; 61];
   [38; 61]; [124; 61]; [94; 61]; [60; 60; 61]; [62; 62; 61]; [126; 61];
   [38; 38; 61]; [124; 124; 61];
   [46; 61]; [58; 61];
   [43; 37]; [45; 37]; [42; 37];
   [43; 37; 61]; [45; 37; 61]; [42; 37; 61];
   [60; 62]; [33; 60; 62]].
Definition is_mbop (s : list Z) : bool := existsb (fun t => if list_eq_dec Z.eq_dec s t then true else false) MBOPS.
Definition MBOPS_maxLen : nat := 4.

(** ** lexer.fu:85-168 UNSAFE_unescapeStr *)
(** 102-110; [i] is before the digit *)
Definition parseHex (esc : list Z) (i idx0 : nat) : res (Z * nat) :=
  let i := S i in
  let* c := get esc i in
  if in_range 48 c 57 then Ok (c - 48, i)
  else if in_range 65 c 70 then Ok (c - 65 + 10, i)
  else if in_range 97 c 102 then Ok (c - 97 + 10, i)
  else Fail BadEscape idx0.
(** 139-155: up to six digits and the closing brace; the codepoint, and where the brace is *)
Fixpoint unicode_digits (fuel : nat) (esc : list Z) (i n idx0 : nat) (codepoint : Z) (digits : nat) : res (Z * nat * nat) :=
  match fuel with
  | O => Trap
  | S f =>
      let i := S i in
      if (i <? n)%nat then
        let* c := get esc i in
        if c =? 125 then Ok (codepoint, digits, i)
        else if (digits =? 6)%nat then Fail BadEscape idx0
        else let* (d, i) := parseHex esc (i - 1) idx0 in
             unicode_digits f esc i n idx0 (Z.lor (wshl 32 codepoint 4) d) (S digits)
      else Fail BadEscape idx0
  end.
(** 115-126 *)
Definition simple_escape (c1 quot : Z) : option Z :=
  if c1 =? 92 then Some 92
  else if c1 =? 110 then Some 10 else if c1 =? 114 then Some 13 else if c1 =? 116 then Some 9
  else if c1 =? 102 then Some 12 else if c1 =? 118 then Some 11
  else if c1 =? 48 then Some 0 else if c1 =? 97 then Some 7 else if c1 =? 98 then Some 8 else if c1 =? 101 then Some 27
  else if c1 =? quot then Some quot else None.
(** 94-163: what is appended, and the position of the last byte of the escape which starts at [idx0] *)
Definition escape (esc : list Z) (idx0 n : nat) (quot : Z) : res (list Z * nat) :=
  let i := S idx0 in
  let* c1 := get esc i in
  match simple_escape c1 quot with
  | Some b => Ok ([b], i)
  | None =>
      if c1 =? 120 then
        if (n <=? i + 2)%nat then Fail BadEscape idx0 else
        let* (h, i) := parseHex esc i idx0 in
        let* (l, i) := parseHex esc i idx0 in
        Ok ([wrap 8 (Z.lor (wshl 32 h 4) l)], i)
      else if c1 =? 117 then
        if (i =? n)%nat then Fail BadEscape idx0 else
        let i := S i in
        let* b := get esc i in
        if negb (b =? 123) then Fail BadEscape idx0 else
        let* (cp, digits, i) := unicode_digits 8 esc i n idx0 0 0 in
        if (digits =? 0)%nat then Fail BadEscape idx0 else
        match utf8 cp with [] => Fail BadEscape idx0 | out => Ok (out, i) end
      else Fail BadEscape idx0
  end.
Fixpoint unescape (fuel : nat) (esc : list Z) (i n : nat) (quot : Z) (out : list Z) : res (list Z) :=
  match fuel with
  | O => Trap
  | S f =>
      if (i <? n)%nat then
        let* c := get esc i in
        if c =? 92 then let* (b, i) := escape esc i n quot in unescape f esc (S i) n quot (out ++ b)
        else unescape f esc (S i) n quot (out ++ [c])
      else Ok out
  end.
Definition UNSAFE_unescapeStr (esc : list Z) (idx0 idx1 : nat) (quot : Z) : res (list Z) :=
  unescape (S (length esc)) esc (S idx0) (idx1 - 1) quot [].

(** ** The main loop, lexer.fu:170-491.  Each kind of piece: [idx] is just past its first byte, which is at [idx0]. *)
(** 187-203: the end of an identifier *)
Fixpoint id_end (fuel : nat) (src : list Z) (idx : nat) : res nat :=
  match fuel with
  | O => Trap
  | S f => if (idx <? length src)%nat then
             let* c := get src idx in
             if is_alpha c || (c =? 95) || is_digit c then id_end f src (S idx) else Ok idx
           else Ok idx
  end.
(** 250-326: the end of a number, whether there is a dot, and an exponent; [max]: the last decimal digit *)
Fixpoint num_end (fuel : nat) (src : list Z) (idx0 idx : nat) (hex ob : bool) (max : Z) (dot exp : bool) : res (nat * bool * bool) :=
  match fuel with
  | O => Trap
  | S f =>
      if (idx <? length src)%nat then
        let* c := get src idx in
        let idx := S idx in
        let next_digit := is_digit (peek src idx) || hex && is_hexletter (peek src idx) in
        if in_range 48 c max || hex && is_hexletter c then num_end f src idx0 idx hex ob max dot exp
        else if ob then Ok ((idx - 1)%nat, dot, exp)
        else if c =? 46 then
          if negb next_digit then Ok ((idx - 1)%nat, dot, exp)
          else if dot || exp then Fail BadNumber idx0
          else num_end f src idx0 idx hex ob max true exp
        else if (if hex then (c =? 112) || (c =? 80) else (c =? 101) || (c =? 69)) then
          if exp then Fail BadNumber idx0
          else num_end f src idx0 (if (peek src idx =? 45) || (peek src idx =? 43) then S idx else idx) hex ob max dot true
        else if c =? 95 then
          if negb next_digit then Ok ((idx - 1)%nat, dot, exp) else num_end f src idx0 idx hex ob max dot exp
        else Ok ((idx - 1)%nat, dot, exp)
      else Ok (idx, dot, exp)
  end.
(** 213-352; [c]: the first digit *)
Definition number (src : list Z) (idx0 idx : nat) (c : Z) (line : nat) (lidx : Z) : res (token * nat) :=
  let c1 := peek src idx in
  let* (hex, ob, max, idx) :=
    (if c =? 48 then
       if (c1 =? 120) || (c1 =? 88) then Ok (true, false, 57, S idx)
       else if (c1 =? 111) || (c1 =? 79) then Ok (false, true, 55, S idx)
       else if (c1 =? 98) || (c1 =? 66) then Ok (false, true, 49, S idx)
       else if is_digit c1 then Fail LeadingZero idx0
       else Ok (false, false, 57, idx)
     else Ok (false, false, 57, idx)) in
  let* (idx, dot, exp) := num_end (S (length src)) src idx0 idx hex ob max false false in
  let* trail := get src (idx - 1) in
  if negb (is_digit trail) && negb (hex && is_hexletter trail) then Fail BadNumber idx0 else
  let* str := slice src idx0 idx in
  if hex && dot && negb exp then Fail HexExponent idx0 else
  let* low := match lower str with Some s => Ok s | None => Trap end in
  let* t := token_at (if dot || exp then Real else Int) low idx0 idx line lidx in
  Ok (t, idx).
(** 363-393: past the closing quote, whether there were escapes, lines *)
Fixpoint str_end (fuel : nat) (src : list Z) (idx0 idx : nat) (c : Z) (esc : bool) (line : nat) (lidx : Z) : res (nat * bool * nat * Z) :=
  match fuel with
  | O => Trap
  | S f =>
      if (idx <? length src)%nat then
        let* c1 := get src idx in
        let idx := S idx in
        if c1 =? c then Ok (idx, esc, line, lidx)
        else if c1 =? 92 then str_end f src idx0 (S idx) c true line lidx
        else if c1 =? 10 then
          if negb (c =? 96) then Fail Unterminated idx0
          else str_end f src idx0 idx c esc (S line) (Z.of_nat idx - 1)
        else str_end f src idx0 idx c esc line lidx
      else Fail Unterminated idx0
  end.
(** 355-413 *)
Definition string_lit (src : list Z) (idx0 idx : nat) (c : Z) (line : nat) (lidx : Z) : res (token * nat * nat * Z) :=
  let col := Z.of_nat idx - lidx - 1 in
  let line0 := line in
  let* (idx1, esc, line, lidx) := str_end (S (length src)) src idx0 idx c false line lidx in
  let* str := (if esc then UNSAFE_unescapeStr src idx0 idx1 c else slice src (S idx0) (idx1 - 1)) in
  if (c =? 39) && negb (length str =? 1)%nat then Fail NotOneByte idx0 else
  let* t := token_lc (if c =? 39 then Char else Str) str idx0 idx1 line0 col in
  Ok (t, idx1, line, lidx).
(** 416-429 *)
Fixpoint line_comment (fuel : nat) (src : list Z) (idx line : nat) (lidx : Z) : res (nat * nat * Z) :=
  match fuel with
  | O => Trap
  | S f => if (idx <? length src)%nat then
             let* c1 := get src idx in
             if c1 =? 10 then Ok (S idx, S line, Z.of_nat (S idx) - 1) else line_comment f src (S idx) line lidx
           else Ok (idx, line, lidx)
  end.
(** 432-449 *)
Fixpoint block_comment (fuel : nat) (src : list Z) (idx line : nat) (lidx : Z) : res (nat * nat * Z) :=
  match fuel with
  | O => Trap
  | S f => if (idx <? length src)%nat then
             let* c := get src idx in
             let idx := S idx in
             if c =? 10 then block_comment f src idx (S line) (Z.of_nat idx - 1)
             else if (c =? 42) && (peek src idx =? 47) then Ok (S idx, line, lidx)
             else block_comment f src idx line lidx
           else Ok (idx, line, lidx)
  end.
(** 454-467 *)
Fixpoint op_run (fuel : nat) (src : list Z) (idx maxLookahead : nat) : res nat :=
  match fuel with
  | O => Ok idx
  | S f => if (idx <? maxLookahead)%nat then
             let* c := get src idx in if is_op c then op_run f src (S idx) maxLookahead else Ok idx
           else Ok idx
  end.
(** 469-482 *)
Fixpoint op_shorten (fuel : nat) (src : list Z) (idx0 idx : nat) : res (list Z * nat) :=
  match fuel with
  | O => Trap
  | S f => let* candidate := slice src idx0 idx in
           if (length candidate =? 1)%nat || is_mbop candidate then Ok (candidate, idx) else op_shorten f src idx0 (idx - 1)
  end.
Definition operator (src : list Z) (idx0 idx line : nat) (lidx : Z) : res (token * nat) :=
  let maxLookahead := Nat.min (idx0 + MBOPS_maxLen) (length src) in
  let* idx := op_run 5 src idx maxLookahead in
  let* (candidate, idx) := op_shorten 5 src idx0 idx in
  let* t := token_at Op candidate idx0 idx line lidx in
  Ok (t, idx).
(** 170-491: one round of the loop: the token, if any, and where to go on *)
Definition lex_step (src : list Z) (idx line : nat) (lidx : Z) : res (option token * nat * nat * Z) :=
  let idx0 := idx in
  let* c := get src idx in
  let idx := S idx in
  if c <=? 32 then
    if c =? 10 then Ok (None, idx, S line, Z.of_nat idx - 1) else Ok (None, idx, line, lidx)
  else if is_alpha c || (c =? 95) then
    let* idx := id_end (S (length src)) src idx in
    let* v := slice src idx0 idx in
    let* t := token_at Id v idx0 idx line lidx in
    Ok (Some t, idx, line, lidx)
  else if is_digit c then
    let* (t, idx) := number src idx0 idx c line lidx in Ok (Some t, idx, line, lidx)
  else if (c =? 39) || (c =? 34) || (c =? 96) then
    let* (t, idx, line, lidx) := string_lit src idx0 idx c line lidx in Ok (Some t, idx, line, lidx)
  else if (c =? 47) && (peek src idx =? 47) then
    let* (idx, line, lidx) := line_comment (S (length src)) src (S idx) line lidx in Ok (None, idx, line, lidx)
  else if (c =? 47) && (peek src idx =? 42) then
    let* (idx, line, lidx) := block_comment (S (length src)) src (S idx) line lidx in Ok (None, idx, line, lidx)
  else if is_op c then
    let* (t, idx) := operator src idx0 idx line lidx in Ok (Some t, idx, line, lidx)
  else Fail BadChar idx0.
Fixpoint lex_loop (fuel : nat) (src : list Z) (idx line : nat) (lidx : Z) (tokens : list token) : res (nat * nat * list token) :=
  match fuel with
  | O => Trap
  | S f =>
      if (idx <? length src)%nat then
        let* (t, idx, line, lidx) := lex_step src idx line lidx in
        lex_loop f src idx line lidx (match t with Some t => tokens ++ [t] | None => tokens end)
      else Ok (idx, line, tokens)
  end.
(** lexer.fu:36-503 *)
Definition lex (src : list Z) : res (list token) :=
  let* sof := token_at Sof [] 0 0 1 (-1) in
  let* (idx, line, tokens) := lex_loop (S (length src)) src 0 1 (-1) [sof] in
  let* eof := token_at Eof [] idx idx (S line) (Z.of_nat idx) in
  Ok (tokens ++ [eof]).
