(** Model of the expressions of src/parser.fu (1778-2534): literals, identifiers, parentheses, prefix, postfix and infix operators,
    the conditional, type checks and casts, member access, calls, indexing, slicing and array literals.
    Outcomes: POk; PFail: a parse error; PWarned: a warning when no more are allowed (warn, 243-249, fails then); POther: something
    which is not modelled - blocks, lambdas, functions and structs as expressions, type parameters, [::] chains; PTrap: an access out
    of bounds, or an endless loop.
    The state is _idx and the number of warnings still allowed.  _precedence and _col0 are set on the way in and restored on the way
    out of the functions here, so they are arguments.
    Simplified: source positions of nodes (_loc, token) and the text of messages are not modelled; the identifiers fn, infix, prefix,
    postfix, struct, union and _ are POther whatever follows; _TODO_FIX_dollarOk is false (we are not in the arguments of a
    function declaration), so there are no type parameters. *)
From Coq Require Import String Ascii.
From Verif Require Export LexerModel.
From Coq Require Import List Lia ZArith.
Import ListNotations.
Open Scope Z_scope.
Open Scope list_scope.

Inductive pres (A : Type) := POk (a : A) | PFail | PWarned | POther | PTrap.
Arguments POk {A}. Arguments PFail {A}. Arguments PWarned {A}. Arguments POther {A}. Arguments PTrap {A}.
Definition pbind {A B} (x : pres A) (f : A -> pres B) : pres B := match x with POk a => f a | PFail => PFail | PWarned => PWarned | POther => POther | PTrap => PTrap end.
Notation "'do*' x := e 'in' k" := (pbind e (fun x => k)) (at level 200, x pattern, k at level 200).
Definition bytes (s : string) : list Z := map (fun c => Z.of_nat (nat_of_ascii c)) (list_ascii_of_string s).
Definition same (a b : list Z) : bool := if list_eq_dec Z.eq_dec a b then true else false.
Definition has (l : list string) (v : list Z) : bool := existsb (fun s => same v (bytes s)) l.

(** module.fu Node, kind.fu, flags.fu: what is used here; [parens]: PS_PARENS *)
Inductive nkind := K_int | K_real | K_str | K_char | K_bool | K_call | K_call_indir | K_arrlit | K_definit | K_not | K_if | K_and | K_or
  | K_typeassert | K_typecast | K_let | K_argid.
Scheme Equality for nkind.
Record flags := Flags { f_operator : bool; f_dot : bool; f_argparens : bool; f_named : bool; f_optional : bool }.
Definition no_flags := Flags false false false false false.
Definition F_OPERATOR := Flags true false false false false.
Definition F_CALL_HAS_DOT := Flags false true false false false.
Definition F_CALL_HAS_ARGPARENS := Flags false false true false false.
Definition or_flags (a b : flags) : flags := Flags (f_operator a || f_operator b) (f_dot a || f_dot b) (f_argparens a || f_argparens b) (f_named a || f_named b) (f_optional a || f_optional b).
Definition any_flag (a : flags) : bool := f_operator a || f_dot a || f_argparens a || f_named a || f_optional a.
Definition named_flag (b : bool) := Flags false false false b false.
Inductive node := Node (k : nkind) (v : list Z) (f : flags) (parens : bool) (items : list node).
Definition n_kind n := let '(Node k _ _ _ _) := n in k.
Definition n_value n := let '(Node _ v _ _ _) := n in v.
Definition n_flags n := let '(Node _ _ f _ _) := n in f.
Definition n_parens n := let '(Node _ _ _ p _) := n in p.
Definition n_items n := let '(Node _ _ _ _ l) := n in l.

(** parser.fu:15-92 *)
Record prec := Prec { p_formal : nat; p_whitesp : Z; p_tokidx : nat }.
Definition P_RESET := Prec 1000 0 0.
Definition P_PREFIX_UNARY := Prec 1 0 0.
Definition PREFIX : list string := ["++"; "+"; "--"; "-"; "!"; "~"; "?"; "*"; "&"; "-%"]%string.
Definition POSTFIX : list string := ["++"; "--"; "[]"; "[..]"]%string.
Definition BINOPS : list (list string) :=
  [["*"; "/"; "%"; "*%"]; ["+"; "-"; "+%"; "-%"]; ["<<"; ">>"]; ["&"]; ["^"]; ["|"]; ["~"]; ["<>"; "!<>"]; ["=>"; "->"]; ["<"; "<="; ">"; ">="]; ["=="; "!="]; ["&&"]; ["||"];
   ["?"; "="; "+="; "-="; "**="; "*="; "/="; "%="; "<<="; ">>="; "&="; "^="; "|="; "||="; "&&="; ".="; "~="; ":="; "+%="; "-%="; "*%="]; ["<|"]; ["|>"]]%string.
Fixpoint precedence_from (p : nat) (l : list (list string)) (v : list Z) : option nat :=
  match l with [] => None | ops :: l => if has ops v then Some p else precedence_from (S p) l v end.
Definition PRECEDENCE (v : list Z) : option nat := precedence_from 2 BINOPS v.
(** the last three but one are right to left: 15 and 16 *)
Definition RIGHT_TO_LEFT (p : nat) : bool := (p =? 15)%nat || (p =? 16)%nat.

(** 243-249 *)
Definition warn_unless {A} (ok : bool) (w : nat) (k : nat -> pres A) : pres A :=
  if ok then k w else match w with O => PWarned | S w => k w end.

(** 2183-2202; op.only is op[0] *)
Definition createPrefix (op : list Z) (expr : node) : pres node :=
  let '(Node k v f p items) := expr in
  if (same op (bytes "+") || same op (bytes "-")) && (match k with K_int | K_real => true | _ => false end) then
    match v with
    | [] => PTrap
    | sign :: v' => if (sign =? 43) || (sign =? 45) then POk (Node k ((if sign =? hd 0 op then 43 else 45) :: v') f p items)
                    else POk (Node k (op ++ v) f p items)
    end
  else if same op (bytes "!") then POk (Node K_not [] no_flags false [expr])
  else POk (Node K_call op F_OPERATOR false [expr]).
(** 2526-2539 *)
Definition createCall (id : list Z) (f : flags) (args : list node) : node := Node K_call id f false args.
Definition createRead (id : list Z) : pres node :=
  if has ["true"; "false"]%string id then POk (Node K_bool id no_flags false [])
  else match id with [] => PFail | _ => POk (createCall id no_flags []) end.
(** 2681-2712 *)
Definition flattenIfSame (kind : nkind) (left right : node) : node :=
  Node kind [] no_flags false
    (if nkind_beq (n_kind left) kind && nkind_beq (n_kind right) kind then n_items left ++ n_items right
     else if nkind_beq (n_kind left) kind then n_items left ++ [right]
     else if nkind_beq (n_kind right) kind then left :: n_items right
     else [left; right]).
(** 1955-1984, 1773-1776 *)
Definition pipelineRight (left right : node) : pres node :=
  let '(Node k v f p items) := right in
  if negb (nkind_beq k K_call) then PFail
  else if f_dot f then match items with [] => PTrap | x :: items => POk (Node k v f p (x :: left :: items)) end
  else POk (Node k v f p (left :: items)).
Definition pipelineLeft (left right : node) : pres node :=
  let '(Node k v f p items) := left in
  if negb (nkind_beq k K_call) then PFail else POk (Node k v (or_flags f F_CALL_HAS_ARGPARENS) p (items ++ [right])).
Definition letShorthand (left right : node) : pres node :=
  let '(Node k v f _ items) := left in
  if negb (nkind_beq k K_call) || any_flag f || negb (match items with [] => true | _ => false end) then PFail
  else POk (Node K_let v no_flags false [right]).
(** 1916-1939: what a binary operator makes of its sides; with a warning for an unparenthesized && or || on the left *)
Definition createBinary (op : list Z) (left right : node) (w : nat) : pres (node * nat) :=
  if same op (bytes "||") then POk (flattenIfSame K_or left right, w)
  else if same op (bytes "&&") then POk (flattenIfSame K_and left right, w)
  else warn_unless (negb (nkind_beq (n_kind left) K_and || nkind_beq (n_kind left) K_or) || n_parens left) w (fun w =>
    if same op (bytes "|>") then do* n := pipelineRight left right in POk (n, w)
    else if same op (bytes "<|") then do* n := pipelineLeft left right in POk (n, w)
    else if same op (bytes ":=") then do* n := letShorthand left right in POk (n, w)
    else if same op (bytes "->") then POk (Node K_typeassert [] no_flags false [left; right], w)
    else if same op (bytes "=>") then POk (Node K_typecast [] no_flags false [left; right], w)
    else POk (createCall op F_OPERATOR [left; right], w)).
(** helpers.fu:20-34, parser.fu:2405-2425; [a && b ? c : d] is [(a && b) ? c : d] *)
Definition hasIdentifierChars (id : list Z) : bool := existsb (fun c => (c =? 95) || in_range 97 c 122 || in_range 65 c 90 || in_range 48 c 57) id.
Fixpoint getAutoName (expr : node) : pres (list Z) :=
  match expr with
  | Node k v _ _ items =>
      if hasIdentifierChars v && nkind_beq k K_call then POk v
      else match items with
           | [] => PFail
           | x :: rest =>
               let i := if nkind_beq k K_and && negb (length items =? 1)%nat then (if nkind_beq k K_if then 1%nat else 0%nat) else 0%nat in
               if (i =? 0)%nat then getAutoName x else match rest with y :: _ => getAutoName y | [] => PTrap end
           end
  end.
Definition createArgID (id : list Z) (expr : node) (optional : bool) : node := Node K_argid id (Flags false false false false optional) false [expr].
(** 2443-2492 *)
Definition createCallExpression (expr : node) (args : list node) (named : bool) : pres node :=
  let '(Node k v f parens items) := expr in
  let flags := or_flags f (named_flag named) in
  let indirect := POk (Node K_call_indir [] (named_flag named) false (expr :: args)) in
  if parens then indirect
  else if nkind_beq k K_call && f_dot flags && negb (f_argparens flags) then
    match items with
    | [head] => match v with [] => PFail | _ => POk (createCall v (or_flags flags F_CALL_HAS_ARGPARENS) (head :: args)) end
    | _ => PTrap
    end
  else if nkind_beq k K_call && negb (f_dot flags || f_argparens flags) then
    match v with [] => PFail | _ => POk (createCall v (or_flags flags F_CALL_HAS_ARGPARENS) args) end
  else indirect.

Section parser.
Variable tokens : list token.
Definition tok (i : nat) : pres token := match nth_error tokens i with Some t => POk t | None => PTrap end.
(** tokens.if(exists: i) *)
Definition tok_if (i : nat) : token := nth i tokens (Tok Sof [] 0 0 0).
Definition is_tok (k : kind) (v : list Z) (t : token) : bool := (match t_kind t, k with Op, Op | Id, Id => true | _, _ => false end) && same (t_value t) v.
Definition is_o (v : string) (t : token) : bool := is_tok Op (bytes v) t.
(** 277-317 *)
Definition consume (k : kind) (v : string) (i : nat) : pres nat := do* t := tok i in if is_tok k (bytes v) t then POk (S i) else PFail.
Definition tryConsume (k : kind) (v : string) (i : nat) : pres (bool * nat) := do* t := tok i in POk (if is_tok k (bytes v) t then (true, S i) else (false, i)).

(** Calls of parseExpression: _col0, M_LINT_UNARY_PRECEDENCE, precedence, _idx, warnings left *)
Definition parser := Z -> bool -> prec -> nat -> nat -> pres (node * nat * nat).

(** 397-419 *)
Definition softComma (endop : string) (i w : nat) : pres (nat * nat) :=
  do* peek := tok i in
  if is_o "," peek then POk (S i, w)
  else if is_o endop peek then POk (i, w)
  else do* prev := tok (i - 1) in
    let is_str t := match t_kind t with Str => true | _ => false end in
    warn_unless (negb (Bool.eqb (is_str peek) (is_str prev))) w (fun w => POk (i, w)).
(** 2285-2320: the name, sliceSyntax_used, the arguments so far, whether some are named *)
Definition commaJuggle (endop : string) (slice used : bool) (args : list node) (named : bool) (i w : nat) : pres (list Z * bool * list node * bool * nat * nat) :=
  do* peek := tok i in
  if slice && negb used && is_o ".." peek then
    do* (args, named) :=
      (match args with
       | [] => POk (args, named)
       | _ => let lst := last args (Node K_definit [] no_flags false []) in
              if nkind_beq (n_kind lst) K_argid then PFail else POk (removelast args ++ [createArgID (bytes "start") lst false], true)
       end) in
    let i := S i in
    do* peek := tok i in
    if is_o "," peek then POk ([], true, args, named, S i, w) else POk (bytes "end", true, args, named, i, w)
  else match args with
       | [] => POk ([], used, args, named, i, w)
       | _ => do* (i, w) := softComma endop i w in POk ([], used, args, named, i, w)
       end.
(** 2336-2367: the name, autoName, optional *)
Definition argName (name : list Z) (i : nat) : pres (list Z * bool * bool * nat) :=
  do* tok0 := tok i in
  match name with
  | _ :: _ => POk (name, false, false, i)
  | [] =>
      if is_o "?:" tok0 then POk ([], true, true, S i)
      else if is_o ":" tok0 then POk ([], true, false, S i)
      else match t_kind tok0 with
           | Id => do* tok1 := tok (S i) in
                   if is_o ":" tok1 then POk (t_value tok0, false, false, S (S i))
                   else if is_o "?:" tok1 then POk (t_value tok0, false, true, S (S i))
                   else POk ([], false, false, i)
           | _ => POk ([], false, false, i)
           end
  end.
(** 2274-2403 *)
Fixpoint parseCallArgs (fuel : nat) (parse : parser) (endop : string) (slice : bool) (col0 : Z) (used : bool) (args : list node) (named : bool) (i w : nat)
  : pres (list node * bool * bool * nat * nat) :=
  match fuel with
  | O => PTrap
  | S fuel =>
      do* (name, used, args, named, i, w) := commaJuggle endop slice used args named i w in
      do* (fin, i) := tryConsume Op endop i in
      if fin then POk (args, named, used, i, w) else
      do* tok0 := tok i in
      do* prev := tok (i - 1) in
      let col := if (t_line prev <? t_line tok0)%nat then Z.max (t_col tok0) col0 else col0 in
      do* (name, autoName, optional, i) := argName name i in
      do* (expr, i, w) := parse col false P_RESET i w in
      do* name := (if autoName : bool then getAutoName expr else POk name) in
      let isNamed := match name with [] => false | _ => true end in
      parseCallArgs fuel parse endop slice col0 used (args ++ [if isNamed then createArgID name expr optional else expr]) (named || isNamed) i w
  end.
(** 2432-2441, 2513-2523, 2500-2511 *)
Definition parseCallExpression (fuel : nat) (parse : parser) (col0 : Z) (expr : node) (i w : nat) : pres (node * nat * nat) :=
  do* (args, named, _, i, w) := parseCallArgs fuel parse ")" false col0 false [] false i w in
  do* n := createCallExpression expr args named in POk (n, i, w).
Definition parseIndexExpression (fuel : nat) (parse : parser) (col0 : Z) (expr : node) (i w : nat) : pres (node * nat * nat) :=
  do* (args, named, used, i, w) := parseCallArgs fuel parse "]" true col0 false [] false i w in
  POk (createCall (bytes (if used : bool then "[..]" else "[]")) (or_flags (named_flag named) F_OPERATOR) (expr :: args), i, w).
Definition parseArrayLiteral (fuel : nat) (parse : parser) (col0 : Z) (i w : nat) : pres (node * nat * nat) :=
  do* (args, named, _, i, w) := parseCallArgs fuel parse "]" false col0 false [] false i w in
  POk (Node K_arrlit [] (named_flag named) false args, i, w).
(** 2204-2219 *)
Definition parseAccessExpression (expr : node) (i w : nat) : pres (node * nat * nat) :=
  do* t := tok i in
  match t_kind t with
  | Id => POk (createCall (t_value t) F_CALL_HAS_DOT [expr], S i, w)
  | _ => if is_o "::" t then POther else PFail
  end.
(** 2114-2121, 2166-2181 *)
Definition parseParens (parse : parser) (col0 : Z) (i w : nat) : pres (node * nat * nat) :=
  do* (out, i, w) := parse col0 false P_RESET i w in
  do* i := consume Op ")" i in
  let '(Node k v f _ items) := out in POk (Node k v f true items, i, w).
Definition parsePrefix (parse : parser) (col0 : Z) (op : list Z) (i w : nat) : pres (node * nat * nat) :=
  if has PREFIX op then
    do* (expr, i, w) := parse col0 (same op (bytes "-") || same op (bytes "+")) P_PREFIX_UNARY i w in
    do* n := createPrefix op expr in POk (n, i, w)
  else PFail.
(** 2022-2107 *)
Definition not_modelled_ids : list string := ["fn"; "infix"; "prefix"; "postfix"; "struct"; "union"; "_"]%string.
Definition not_modelled_ops : list string := ["{"; "$"; "|"; "||"; "."; "::"]%string.
Definition leaf_kind (k : kind) : option nkind := match k with Int => Some K_int | Real => Some K_real | Str => Some K_str | Char => Some K_char | _ => None end.
Definition parseExpressionHead (fuel : nat) (parse : parser) (col0 : Z) (i w : nat) : pres (node * nat * nat) :=
  do* t := tok i in
  let i := S i in
  let v := t_value t in
  match t_kind t with
  | Id => if has not_modelled_ids v then POther else do* n := createRead v in POk (n, i, w)
  | Op =>
      if is_o "(" t then parseParens parse col0 i w
      else if has not_modelled_ops v then POther
      else if is_o "[" t then parseArrayLiteral fuel parse col0 i w
      else if is_o "[]" t then POk (Node K_definit [] no_flags false [], i, w)
      else parsePrefix parse col0 v i w
  | k => match leaf_kind k with Some k => POk (Node k v no_flags false [], i, w) | None => PFail end
  end.
(** 1454-1480 *)
Definition parseTypeAnnot (parse : parser) (col0 : Z) (i w : nat) : pres (node * nat * nat) :=
  do* (hasRef, i) := tryConsume Op "&" i in
  do* (hasMut, i) := (if hasRef : bool then tryConsume Id "mut" i else POk (false, i)) in
  do* (res, i, w) := parse col0 false P_PREFIX_UNARY i w in
  POk (if hasRef : bool then createCall (bytes (if hasMut : bool then "&mut" else "&")) F_OPERATOR [res] else res, i, w).

(** 1842-1848 *)
Definition whitespaceDiff (prev next : token) : Z :=
  if (t_line prev <? t_line next)%nat then 10 else Z.max 0 (Z.min 1 (t_col next - t_col prev - Z.of_nat (t_chars prev))).
(** 1855-1891: whether the whitespace around op, at [i], goes against the precedence; then, if it is a miss, _idx is left at the
    outer operator *)
Definition misleading (op : token) (p1 : nat) (P : prec) (miss : bool) (whitesp : Z) : bool :=
  if (p_tokidx P =? 0)%nat then false else
  let diff := whitesp - p_whitesp P in
  let indent := t_col op - t_col (tok_if (p_tokidx P)) in
  (if miss then diff <? 0 else 0 <? diff) && negb (p1 =? p_formal P)%nat
    && (negb (1 <? Z.abs diff) || (if miss then 0 <=? indent else indent <=? 0))
    && negb (RIGHT_TO_LEFT p1) && negb (RIGHT_TO_LEFT (p_formal P)).
(** 1850-1940; None: not taken *)
Definition tryParseBinary (parse : parser) (col0 : Z) (lhs : node) (op : token) (p1 : nat) (P : prec) (i w : nat) : pres (option node * nat * nat) :=
  let miss := (p_formal P <? p1)%nat || (p1 =? p_formal P)%nat && negb (RIGHT_TO_LEFT p1) in
  let whitesp := Z.max (whitespaceDiff (tok_if (i - 1)) op) (whitespaceDiff op (tok_if (S i))) in
  let lint := misleading op p1 P miss whitesp in
  warn_unless (negb lint) w (fun w =>
  if miss then POk (None, if lint then p_tokidx P else i, w) else
  let p1 := Prec p1 whitesp i in
  let i := S i in
  let v := t_value op in
  if same v (bytes "?") then
    do* (mid, i, w) := parse col0 false P_RESET i w in
    do* i := consume Op ":" i in
    do* (rhs, i, w) := parse col0 false p1 i w in
    POk (Some (Node K_if [] no_flags false [lhs; mid; rhs]), i, w)
  else
    do* (rhs, i, w) := (if same v (bytes "->") || same v (bytes "=>") then parseTypeAnnot parse col0 i w else parse col0 false p1 i w) in
    do* (n, w) := createBinary v lhs rhs w in POk (Some n, i, w)).
(** 1986-2020 *)
Definition tryParseExpressionTail (fuel : nat) (parse : parser) (col0 : Z) (mode : bool) (P : prec) (head : node) (i w : nat) : pres (option node * nat * nat) :=
  do* t := tok i in
  let some (r : pres (node * nat * nat)) := do* (n, i, w) := r in POk (Some n, i, w) in
  match t_kind t with
  | Op =>
      let v := t_value t in
      if is_o ";" t then POk (None, i, w)
      else if is_o "." t then warn_unless (negb mode) w (fun w => some (parseAccessExpression head (S i) w))
      else if is_o "(" t then warn_unless (negb mode) w (fun w => some (parseCallExpression fuel parse col0 head (S i) w))
      else if is_o "[" t then warn_unless (negb mode) w (fun w => some (parseIndexExpression fuel parse col0 head (S i) w))
      else match PRECEDENCE v with
           | Some p1 => tryParseBinary parse col0 head t p1 P i w
           | None =>
               if has POSTFIX v then
                 POk (Some (createCall (if is_o "++" t || is_o "--" t then bytes "postfix" ++ v else v) F_OPERATOR [head]), S i, w)
               else if is_o "::" t then POther else POk (None, i, w)
           end
  | _ => POk (None, i, w)
  end.
(** 1778-1840 *)
Fixpoint parseExpression (fuel : nat) (col0 : Z) (mode : bool) (P : prec) (i w : nat) : pres (node * nat * nat) :=
  match fuel with
  | O => PTrap
  | S f =>
      do* t := tok i in
      warn_unless (col0 <=? t_col t) w (fun w =>
      do* (head, i, w) := parseExpressionHead f (parseExpression f) col0 i w in
      tails f col0 (mode && match n_kind head with K_int | K_real => true | _ => false end) P head i w)
  end
with tails (fuel : nat) (col0 : Z) (mode : bool) (P : prec) (head : node) (i w : nat) : pres (node * nat * nat) :=
  match fuel with
  | O => PTrap
  | S f =>
      do* r := tryParseExpressionTail f (parseExpression f) col0 mode P head i w in
      match r with
      | (None, i, w) => POk (head, i, w)
      | (Some out, i', w) => do* t1 := tok i in warn_unless (col0 <? t_col t1) w (fun w => tails f col0 mode P out i' w)
      end
  end.
End parser.
