(** What literals mean in C++17 on a machine with 32-bit int and 64-bit long long ([lex.icon],
    [lex.fcon], [lex.string], [lex.ccon], [expr.unary.op], [expr.type.conv]): the forms that the
    code generator can emit, read character by character. *)
From Coq Require Import String List ZArith Bool Lia.
From Verif Require Import IntlitSpec LexerSpec.
Import ListNotations.
Notation length := List.length.
Open Scope Z_scope.

(** ** Strings and characters *)
(** [\] and one character: that, and what it stands for. *)
Definition cpp_escapes : list (Z * Z) :=
  [(39, 39); (34, 34); (63, 63); (92, 92); (97, 7); (98, 8); (102, 12); (110, 10); (114, 13); (116, 9); (118, 11)].
Fixpoint lookup (c : Z) (l : list (Z * Z)) : option Z :=
  match l with [] => None | (k, v) :: l => if c =? k then Some v else lookup c l end.
Definition hex_value (c : Z) : option Z :=
  if (48 <=? c) && (c <=? 57) then Some (c - 48)
  else if (97 <=? c) && (c <=? 102) then Some (c - 87)
  else if (65 <=? c) && (c <=? 70) then Some (c - 55) else None.
Definition oct_value (c : Z) : option Z := if (48 <=? c) && (c <=? 55) then Some (c - 48) else None.
(** Where the reader is: outside; inside; after a backslash; in a hexadecimal escape; in an octal
    one, of so many digits. *)
Inductive where_ := Outside | Inside | Backslash | HexEsc (n : option Z) | OctEsc (digits : nat) (n : Z).
Definition emit (b : Z) (r : option (list Z * list Z)) : option (list Z * list Z) :=
  match r with Some (v, rest) => Some (b :: v, rest) | None => None end.
(** The value of a literal in quotes [q] and what follows it.  Strings that follow each other
    directly are one.  A hexadecimal escape takes all the digits there are, and must be a byte. *)
Fixpoint cpp_quoted (q : Z) (s : where_) (t : list Z) : option (list Z * list Z) :=
  match t with
  | [] => match s with Outside => Some ([], []) | _ => None end
  | c :: t' =>
      let inside (_ : unit) :=
        if c =? q then cpp_quoted q Outside t'
        else if c =? 92 then cpp_quoted q Backslash t'
        else if (c =? 10) || (c =? 13) then None
        else emit c (cpp_quoted q Inside t') in
      match s with
      | Outside => if (c =? 34) && (q =? 34) then cpp_quoted q Inside t' else Some ([], t)
      | Inside => inside tt
      | Backslash =>
          if c =? 120 then cpp_quoted q (HexEsc None) t'
          else match oct_value c with
               | Some d => cpp_quoted q (OctEsc 1 d) t'
               | None => match lookup c cpp_escapes with Some b => emit b (cpp_quoted q Inside t') | None => None end
               end
      | HexEsc n =>
          match hex_value c with
          | Some d => cpp_quoted q (HexEsc (Some (16 * (match n with Some n => n | None => 0 end) + d))) t'
          | None => match n with Some n => if n <=? 255 then emit n (inside tt) else None | None => None end
          end
      | OctEsc k n =>
          match (if (k <? 3)%nat then oct_value c else None) with
          | Some d => cpp_quoted q (OctEsc (S k) (8 * n + d)) t'
          | None => if n <=? 255 then emit n (inside tt) else None
          end
      end
  end.
Definition cpp_string (t : list Z) : option (list Z * list Z) :=
  match t with c :: t' => if c =? 34 then cpp_quoted 34 Inside t' else None | [] => None end.
Definition cpp_char (t : list Z) : option (Z * list Z) :=
  match t with
  | c :: t' => if c =? 39 then match cpp_quoted 39 Inside t' with Some ([b], rest) => Some (b, rest) | _ => None end else None
  | [] => None
  end.

(** ** Numbers *)
Inductive prim := I8 | I16 | I32 | I64 | U8 | U16 | U32 | U64 | F32 | F64.
Definition fits (p : prim) (v : Z) : bool :=
  match p with
  | I8 => (- 2 ^ 7 <=? v) && (v <? 2 ^ 7) | I16 => (- 2 ^ 15 <=? v) && (v <? 2 ^ 15)
  | I32 => (- 2 ^ 31 <=? v) && (v <? 2 ^ 31) | I64 => (- 2 ^ 63 <=? v) && (v <? 2 ^ 63)
  | U8 => (0 <=? v) && (v <? 2 ^ 8) | U16 => (0 <=? v) && (v <? 2 ^ 16)
  | U32 => (0 <=? v) && (v <? 2 ^ 32) | U64 => (0 <=? v) && (v <? 2 ^ 64)
  | F32 | F64 => true
  end.
(** Conversion: modulo the width; to a floating type the value, not rounded. *)
Definition convert (p : prim) (v : Z) : Z :=
  match p with
  | I8 => (v + 2 ^ 7) mod 2 ^ 8 - 2 ^ 7 | I16 => (v + 2 ^ 15) mod 2 ^ 16 - 2 ^ 15
  | I32 => (v + 2 ^ 31) mod 2 ^ 32 - 2 ^ 31 | I64 => (v + 2 ^ 63) mod 2 ^ 64 - 2 ^ 63
  | U8 => v mod 2 ^ 8 | U16 => v mod 2 ^ 16 | U32 => v mod 2 ^ 32 | U64 => v mod 2 ^ 64
  | F32 | F64 => v
  end.

Definition is_digit (b c : Z) : bool := match digit_of c with Some d => d <? b | None => false end.
Fixpoint span (P : Z -> bool) (t : list Z) : list Z * list Z :=
  match t with
  | [] => ([], [])
  | c :: t' => if P c then let '(a, r) := span P t' in (c :: a, r) else ([], t)
  end.
Definition value_of (b : Z) (ds : list Z) : Z :=
  fold_left (fun n c => n * b + match digit_of c with Some d => d | None => 0 end) ds 0.
Fixpoint strip (p t : list Z) : option (list Z) :=
  match p, t with
  | [], _ => Some t
  | a :: p, c :: t => if a =? c then strip p t else None
  | _ :: _, [] => None
  end.
(** The suffix: unsigned, long long. *)
Definition suffix (t : list Z) : option (bool * bool) :=
  if list_eq_dec Z.eq_dec t [] then Some (false, false)
  else if list_eq_dec Z.eq_dec t (text "u") then Some (true, false)
  else if list_eq_dec Z.eq_dec t (text "ll") then Some (false, true)
  else if list_eq_dec Z.eq_dec t (text "ull") then Some (true, true) else None.
(** The type is the first of these in which the value fits. *)
Definition candidates (decimal u l : bool) : list prim :=
  match u, l with
  | true, true => [U64]
  | true, false => [U32; U64]
  | false, true => if decimal then [I64] else [I64; U64]
  | false, false => if decimal then [I32; I64] else [I32; U32; I64; U64]
  end.
Definition int_literal (b : Z) (decimal : bool) (t : list Z) : option (prim * Z) :=
  let '(ds, rest) := span (is_digit b) t in
  match ds, suffix rest with
  | _ :: _, Some (u, l) =>
      let v := value_of b ds in
      match List.find (fun p => fits p v) (candidates decimal u l) with Some p => Some (p, v) | None => None end
  | _, _ => None
  end.
(** A decimal floating literal that is a whole number: digits, a dot, zeroes, maybe f. *)
Definition float_literal (ds rest : list Z) : option (prim * Z) :=
  let '(zs, f) := span (fun c => c =? 48) rest in
  match ds, zs with
  | _ :: _, _ :: _ =>
      if list_eq_dec Z.eq_dec f [] then Some (F64, value_of 10 ds)
      else if list_eq_dec Z.eq_dec f (text "f") then Some (F32, value_of 10 ds) else None
  | _, _ => None
  end.
Definition cpp_literal (t : list Z) : option (prim * Z) :=
  match strip (text "0x") t with
  | Some t' => int_literal 16 false t'
  | None =>
  match strip (text "0b") t with
  | Some t' => int_literal 2 false t'
  | None =>
  let '(ds, rest) := span (is_digit 10) t in
  match strip (text ".") rest with
  | Some rest' => float_literal ds rest'
  | None => match strip (text "0") t with Some _ => int_literal 8 false t | None => int_literal 10 true t end
  end end end.
(** [-] and [+]: negation of an unsigned value wraps. *)
Definition cpp_unary (t : list Z) : option (prim * Z) :=
  match strip (text "-") t with
  | Some t' => match cpp_literal t' with Some (p, v) => Some (p, match p with U32 | U64 => convert p (- v) | _ => - v end) | None => None end
  | None => match strip (text "+") t with Some t' => cpp_literal t' | None => cpp_literal t end
  end.
(** [T(e)] *)
Definition cast_names : list (list Z * prim) :=
  [(text "fu::i8", I8); (text "short", I16); (text "fu::u8", U8); (text "uint16_t", U16); (text "float", F32)].
Fixpoint strip_cast (l : list (list Z * prim)) (t : list Z) : option (prim * list Z) :=
  match l with
  | [] => None
  | (n, p) :: l => match strip (n ++ text "(") t with Some t' => Some (p, t') | None => strip_cast l t end
  end.
(** The text before the last character, if that is [)]. *)
Definition strip_close (t : list Z) : option (list Z) :=
  match rev t with c :: t' => if c =? 41 then Some (rev t') else None | [] => None end.
Definition cpp_expr (t : list Z) : option (prim * Z) :=
  match strip_cast cast_names t with
  | Some (p, t') =>
      match strip_close t' with
      | Some e => match cpp_unary e with Some (_, v) => Some (p, convert p v) | None => None end
      | None => None
      end
  | None =>
  if list_eq_dec Z.eq_dec t (text "(-9223372036854775807-1)") then Some (I64, -9223372036854775807 - 1)
  else cpp_unary t
  end.

(** ** What the lexer gives for an integer (C37): digits, and underscores before digits; a decimal
    one does not begin with two digits of which the first is 0. *)
Definition int_token (r : radix) (body : list Z) : Prop :=
  (r = Dec -> body <> [] /\ is_digit 10 (nth 0 body 0) = true /\ ~ (nth 0 body 0 = 48 /\ is_digit 10 (nth 1 body 0) = true)) /\
  existsb (is_digit (radix_base r)) body = true.
Definition whole (s : sign) (n : Z) : Z := match s with Minus => - n | _ => n end.
