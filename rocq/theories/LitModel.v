(** Model of how literals get their type (src/solver.fu:5961-6017 solveInt) and their C++ text
    (src/codegen.fu:684-690 hex, xHH; 2132-2178 escapeStringLiteral; 2810-2871
    cgArithmeticLiteral, for the built-in types and not for enums).  Signs are moved into literals by
    the parser (src/parser.fu:2183-2202). *)
From Coq Require Import String List ZArith Bool Lia.
From Verif Require Import IntlitModel LexerSpec LitSpec.
Import ListNotations.
Notation length := List.length.
Open Scope Z_scope.

(** codegen.fu:684-690 *)
Definition hex (x : Z) : Z := if x <? 10 then 48 + x else 65 + (x - 10).
Definition xHH (c : Z) : list Z := [120; hex (Z.land (Z.shiftr c 4) 15); hex (Z.land c 15)].
(** [c.i8] *)
Definition as_i8 (c : Z) : Z := if c <? 128 then c else c - 256.

(** codegen.fu:2132-2178 *)
Fixpoint escape_loop (quot : Z) (str : list Z) : list Z :=
  match str with
  | [] => []
  | c :: str =>
      (if c =? 10 then [92; 110]
       else if c =? 13 then [92; 114]
       else if c =? 9 then [92; 116]
       else if c =? 11 then [92; 118]
       else if c =? 92 then [92; 92]
       else if as_i8 c <? 32 then
         92 :: xHH c ++
         match str with
         | next :: _ =>
             if (quot =? 34) && ((97 <=? next) && (next <=? 102) || (65 <=? next) && (next <=? 70) || (48 <=? next) && (next <=? 70))
             then [34; 34] else []
         | [] => []
         end
       else (if c =? quot then [92] else []) ++ [c]) ++ escape_loop quot str
  end.
Definition escapeStringLiteral (str : list Z) (quot : Z) : list Z := [quot] ++ escape_loop quot str ++ [quot].

(** solver.fu:5966-6003; [None]: "Bad int literal." *)
Definition want (h : option prim) (p : prim) : bool :=
  match h, p with
  | Some I8, I8 | Some I16, I16 | Some I32, I32 | Some I64, I64 | Some U8, U8 | Some U16, U16 | Some U32, U32 | Some U64, U64
  | Some F32, F32 | Some F64, F64 => true
  | _, _ => false
  end.
Definition solve_int (h : option prim) (L : intlit) : option prim :=
  if negb (is_unsigned L) &&
     ((minsize_f L <=? 32) && want h F32 || (minsize_f L <=? 64) && want h F64 || (minsize_i L <=? 32) && want h I32 ||
      (minsize_i L <=? 64) && want h I64 || (minsize_i L <=? 16) && want h I16 || (minsize_i L <=? 8) && want h I8) then h
  else if negb (is_signed L) &&
     ((minsize_u L <=? 32) && want h U32 || (minsize_u L <=? 64) && want h U64 || (minsize_u L <=? 16) && want h U16 ||
      (minsize_u L <=? 8) && want h U8) then h
  else if is_unsigned L || negb (is_signed L) && negb (base L =? 10) then
    if minsize_u L <=? 32 then Some U32 else if minsize_u L <=? 64 then Some U64 else None
  else
    if minsize_i L <=? 32 then Some I32 else if minsize_i L <=? 64 then Some I64 else None.

Definition has (c : Z) (t : list Z) : bool := existsb (Z.eqb c) t.
Definition is_u (p : prim) : bool := match p with U8 | U16 | U32 | U64 => true | _ => false end.
Definition is_f (p : prim) : bool := match p with F32 | F64 => true | _ => false end.
(** codegen.fu:348-381 primAnnotBase *)
Definition annot (p : prim) : list Z :=
  match p with
  | I8 => text "fu::i8" | I16 => text "short" | I32 => text "int" | I64 => text "int64_t"
  | U8 => text "fu::u8" | U16 => text "uint16_t" | U32 => text "unsigned" | U64 => text "uint64_t"
  | F32 => text "float" | F64 => text "double"
  end.
(** codegen.fu:2810-2871 *)
Definition cg_arith (p : prim) (value : list Z) : list Z :=
  let src := filter (fun c => negb (c =? 95)) value in
  let src := if is_u p then (if has 117 src then src else src ++ text "u") else src in
  let src :=
    if is_f p then
      let src := if negb (has 46 src) && negb (has (if has 120 src then 112 else 101) src) then src ++ text ".0" else src in
      match p with
      | F32 => if has 120 src then text "float(" ++ src ++ text ")" else src ++ text "f"
      | _ => src
      end
    else src in
  let src := match strip (text "0o") src with Some t => 48 :: t | None => src end in
  if is_f p then src
  else if (16 <? length src)%nat && match intlit_parse src with Some L => is_negative L && (absval L =? 2 ^ 63) | None => false end
  then text "(-9223372036854775807-1)"
  else match p with
       | U64 | I64 => if has 108 src then src else src ++ text "ll"
       | U32 | I32 => src
       | _ => annot p ++ text "(" ++ src ++ text ")"
       end.

(** parser.fu:2183-2195 createPrefix: [op] is a sign. *)
Definition with_sign (op : Z) (value : list Z) : list Z :=
  match value with
  | sign :: v => if (sign =? 43) || (sign =? 45) then (if sign =? op then 43 else 45) :: v else op :: value
  | [] => [op]
  end.
