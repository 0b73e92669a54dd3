(** What an expression is, as a tree, how it is spelled and what it means: independent of how it is parsed.
    Only the type of the result (node and its parts) is shared with ParserModel, with [bytes] (the bytes of an ASCII string) and
    [has] (membership in a list of strings). *)
From Coq Require Import String Ascii.
From Verif Require Export ParserModel.
From Coq Require Import List Lia ZArith.
Import ListNotations.
Open Scope Z_scope.
Open Scope list_scope.
Notation length := List.length.

(** * Trees *)
Inductive sep := Juxt | Comma | Dots | DotsComma.
Inductive label := Plain | Named (id : list Z) (optional : bool) | Auto (optional : bool).
Inductive expr :=
| ELit (k : kind) (v : list Z)                             (* 1  1.5  "s"  'c' *)
| EId (v : list Z)                                         (* x *)
| EDefault                                                 (* [] *)
| EParen (e : expr)                                        (* (e) *)
| EArr (a : args)                                          (* [a, b] *)
| EPre (op : list Z) (e : expr)                            (* -e *)
| EPost (e : expr) (op : list Z)                           (* e++ *)
| EDot (e : expr) (id : list Z)                            (* e.id *)
| ECall (e : expr) (a : args)                              (* e(a, b) *)
| EIndex (e : expr) (a : args)                             (* e[a] e[a..b] *)
| EBin (l : expr) (op : list Z) (r : expr)                 (* l op r *)
| ECond (c a b : expr)                                     (* c ? a : b *)
| EType (l : expr) (op : list Z) (r : option bool) (t : expr)  (* l -> t, l => t, l -> &t, l -> &mut t *)
with args :=
| ANil (s : sep)                                           (* what is before the closing parenthesis *)
| ACons (s : sep) (l : label) (e : expr) (a : args).       (* an argument, after what separates it from the previous one *)

(** * Spelling *)
Definition sym := (kind * list Z)%type.
Definition o (s : string) : sym := (Op, bytes s).
Definition spell_sep (s : sep) : list sym := match s with Juxt => [] | Comma => [o ","] | Dots => [o ".."] | DotsComma => [o ".."; o ","] end.
Definition spell_label (l : label) : list sym :=
  match l with
  | Plain => []
  | Named id opt => [(Id, id); if opt then o "?:" else o ":"]
  | Auto opt => [if opt then o "?:" else o ":"]
  end.
Fixpoint spell (e : expr) : list sym :=
  match e with
  | ELit k v => [(k, v)]
  | EId v => [(Id, v)]
  | EDefault => [o "[]"]
  | EParen e => o "(" :: spell e ++ [o ")"]
  | EArr a => o "[" :: spell_args a ++ [o "]"]
  | EPre op e => (Op, op) :: spell e
  | EPost e op => spell e ++ [(Op, op)]
  | EDot e id => spell e ++ [o "."; (Id, id)]
  | ECall e a => spell e ++ o "(" :: spell_args a ++ [o ")"]
  | EIndex e a => spell e ++ o "[" :: spell_args a ++ [o "]"]
  | EBin l op r => spell l ++ (Op, op) :: spell r
  | ECond c a b => spell c ++ o "?" :: spell a ++ o ":" :: spell b
  | EType l op r t => spell l ++ (Op, op) :: (match r with None => [] | Some false => [o "&"] | Some true => [o "&"; (Id, bytes "mut")] end) ++ spell t
  end
with spell_args (a : args) : list sym :=
  match a with
  | ANil s => spell_sep s
  | ACons s l e a => spell_sep s ++ spell_label l ++ spell e ++ spell_args a
  end.

(** * Precedence: binary operators, from the tightest *)
Definition ranks : list (nat * list string) :=
  [ (2%nat,  ["*"; "/"; "%"; "*%"]);
    (3%nat,  ["+"; "-"; "+%"; "-%"]);
    (4%nat,  ["<<"; ">>"]);
    (5%nat,  ["&"]);
    (6%nat,  ["^"]);
    (7%nat,  ["|"]);
    (8%nat,  ["~"]);
    (9%nat,  ["<>"; "!<>"]);
    (10%nat, ["=>"; "->"]);
    (11%nat, ["<"; "<="; ">"; ">="]);
    (12%nat, ["=="; "!="]);
    (13%nat, ["&&"]);
    (14%nat, ["||"]);
    (15%nat, ["?"; "="; "+="; "-="; "**="; "*="; "/="; "%="; "<<="; ">>="; "&="; "^="; "|="; "||="; "&&="; ".="; "~="; ":="; "+%="; "-%="; "*%="]);
    (16%nat, ["<|"]);
    (17%nat, ["|>"]) ]%string.
Definition rank (v : list Z) : option nat := option_map fst (List.find (fun r => has (snd r) v) ranks).
Definition right_to_left (p : nat) : bool := (p =? 15)%nat || (p =? 16)%nat.
Definition unary : nat := 1.
Definition anything : nat := 1000.
(** an operator of rank q may stand at the top of an operand of rank p *)
Definition takes (p q : nat) : bool := (q <? p)%nat || (q =? p)%nat && right_to_left p.
Definition prefix_ops : list string := ["++"; "+"; "--"; "-"; "!"; "~"; "?"; "*"; "&"; "-%"]%string.
Definition postfix_ops : list string := ["++"; "--"; "[]"; "[..]"]%string.
(** what is always part of the operand before it *)
Definition sticky : list string := ["."; "("; "["; "::"; "++"; "--"; "[]"; "[..]"]%string.
(** an operand of rank p ends before the symbol s *)
Definition ends (p : nat) (s : sym) : bool :=
  match s with
  | (Op, v) => negb (has sticky v) && match rank v with Some q => negb (takes p q) | None => true end
  | _ => true
  end.
(** the operators along the left edge of e may stand in an operand of rank p *)
Fixpoint fits (p : nat) (e : expr) : bool :=
  match e with
  | EBin l op _ | EType l op _ _ => match rank op with Some q => takes p q | None => false end && fits p l
  | ECond c _ _ => takes p 15 && fits p c
  | _ => true
  end.
(** the last operand of e, if it has one, ends before s *)
Definition follows (e : expr) (s : sym) : bool :=
  match e with
  | EPre _ _ | EType _ _ _ _ => ends unary s
  | EBin _ op _ => match rank op with Some q => ends q s | None => false end
  | ECond _ _ _ => ends 15 s
  | _ => true
  end.
Definition sym_is (s : sym) (x : sym) : bool := match fst s, fst x with Op, Op | Id, Id => true | _, _ => false end && same (snd s) (snd x).
Definition first (l : list sym) (otherwise : sym) : sym := hd otherwise l.
(** keywords which begin something else than what is modelled *)
Definition reserved : list string := ["fn"; "infix"; "prefix"; "postfix"; "struct"; "union"; "_"]%string.
Definition is_colon (s : sym) : bool := sym_is s (o ":") || sym_is s (o "?:").
(** [name :] *)
Definition like_label (l : list sym) : bool := match l with (Id, _) :: s :: _ => is_colon s | _ => false end.
Definition dots (s : sep) : bool := match s with Dots | DotsComma => true | _ => false end.
Definition is_nil (v : list Z) : bool := match v with [] => true | _ => false end.

(** The tree is the one which the precedence of operators calls for. *)
Fixpoint wf (e : expr) : bool :=
  match e with
  | ELit k v => match k with Int | Real => negb (is_nil v) | Str | Char => true | _ => false end
  | EId v => negb (is_nil v) && negb (has reserved v)
  | EDefault => true
  | EParen e => wf e
  | EArr a => wf_args (o "]") false true a
  | EPre op e => has prefix_ops op && wf e && fits unary e
  | EPost e op => has postfix_ops op && wf e && follows e (Op, op)
  | EDot e id => negb (is_nil id) && wf e && follows e (o ".")
  | ECall e a => wf e && follows e (o "(") && wf_args (o ")") false true a
  | EIndex e a => wf e && follows e (o "[") && wf_args (o "]") true true a
  | EBin l op r =>
      match rank op with Some q => fits q r | None => false end && negb (has ["?"; "->"; "=>"]%string op) && wf l && follows l (Op, op) && wf r
  | ECond c a b => wf c && follows c (o "?") && wf a && wf b && fits 15 b
  | EType l op r t =>
      has ["->"; "=>"]%string op && wf l && follows l (Op, op) && wf t && fits unary t
      && match r with
         | None => negb (sym_is (first (spell t) (o "")) (o "&"))
         | Some false => negb (sym_is (first (spell t) (o "")) (Id, bytes "mut"))
         | Some true => true
         end
  end
(** closing parenthesis; whether .. may still come; whether no argument came yet *)
with wf_args (close : sym) (slice none : bool) (a : args) : bool :=
  match a with
  | ANil s => (negb (dots s) || slice) && negb (none && match s with Comma => true | _ => false end)
  | ACons s l e a =>
      (negb (dots s) || slice) && negb (none && match s with Comma => true | _ => false end)
      && wf e && ends anything (first (spell_args a) close)
      && match s, l with
         | Dots, Plain => true
         | Dots, _ => false
         | _, Plain => negb (like_label (spell e ++ [first (spell_args a) close]))
         | _, Named id _ => negb (is_nil id)
         | _, Auto _ => true
         end
      && wf_args close (slice && negb (dots s)) false a
  end.

(** * Meaning *)
Definition leaf (k : kind) : nkind := match k with Int => K_int | Real => K_real | Str => K_str | _ => K_char end.
Definition numeric (n : node) : bool := match n_kind n with K_int | K_real => true | _ => false end.
Definition in_parens (n : node) : node := Node (n_kind n) (n_value n) (n_flags n) true (n_items n).
(** [-1] is a literal: the sign becomes a part of it, two signs become one *)
Definition signed (op v : list Z) : list Z :=
  match v with c :: v' => if (c =? 43) || (c =? 45) then (if same [c] op then 43 else 45) :: v' else op ++ v | [] => op end.
Definition unop (op : list Z) (n : node) : node :=
  if has ["+"; "-"]%string op && numeric n then Node (n_kind n) (signed op (n_value n)) (n_flags n) (n_parens n) (n_items n)
  else if has ["!"]%string op then Node K_not [] no_flags false [n]
  else Node K_call op F_OPERATOR false [n].
(** [a && b && c] is one node *)
Definition operands (k : nkind) (n : node) : list node := if nkind_beq (n_kind n) k then n_items n else [n].
Definition binop (op : list Z) (l r : node) : option node :=
  if has ["||"]%string op then Some (Node K_or [] no_flags false (operands K_or l ++ operands K_or r))
  else if has ["&&"]%string op then Some (Node K_and [] no_flags false (operands K_and l ++ operands K_and r))
  else if has ["|>"]%string op then
    (* l becomes the first argument of the call r, after the receiver *)
    match r with
    | Node K_call v f p items => Some (Node K_call v f p (if f_dot f then firstn 1 items ++ l :: skipn 1 items else l :: items))
    | _ => None
    end
  else if has ["<|"]%string op then
    match l with Node K_call v f p items => Some (Node K_call v (Flags (f_operator f) (f_dot f) true (f_named f) (f_optional f)) p (items ++ [r])) | _ => None end
  else if has [":="]%string op then
    match l with Node K_call v (Flags false false false false false) _ [] => Some (Node K_let v no_flags false [r]) | _ => None end
  else Some (Node K_call op F_OPERATOR false [l; r]).
Definition castop (op : list Z) (l t : node) : node := Node (if has ["->"]%string op then K_typeassert else K_typecast) [] no_flags false [l; t].
Definition ref (r : option bool) (t : node) : node :=
  match r with None => t | Some m => Node K_call (bytes (if m then "&mut" else "&")) F_OPERATOR false [t] end.
(** the name which [:e] gives to its argument: the first one along the left edge *)
Definition is_name_char (c : Z) : bool := (c =? 95) || ((97 <=? c) && (c <=? 122)) || ((65 <=? c) && (c <=? 90)) || ((48 <=? c) && (c <=? 57)).
Fixpoint auto_name (n : node) : option (list Z) :=
  match n with
  | Node k v _ _ items =>
      if nkind_beq k K_call && existsb is_name_char v then Some v else match items with x :: _ => auto_name x | [] => None end
  end.
(** the name of an argument, and whether it is optional, after the separator s *)
Definition arg_name (s : sep) (l : label) (n : node) : option (list Z * bool) :=
  match s, l with
  | Dots, _ => Some (bytes "end", false)
  | _, Plain => Some ([], false)
  | _, Named id opt => Some (id, opt)
  | _, Auto opt => option_map (fun v => (v, opt)) (auto_name n)
  end.
Definition arg (name : list Z) (opt : bool) (n : node) : node := if is_nil name then n else Node K_argid name (Flags false false false false opt) false [n].
Definition next_sep (a : args) : sep := match a with ANil s => s | ACons s _ _ _ => s end.
(** a name given to a function, a member given to its receiver, or a call of some other expression *)
Definition named (b : bool) (f : flags) : flags := Flags (f_operator f) (f_dot f) (f_argparens f) (f_named f || b) (f_optional f).
Definition argparens (f : flags) : flags := Flags (f_operator f) (f_dot f) true (f_named f) (f_optional f).
Definition call (e : expr) (callee : node) (l : list node) (isnamed : bool) : node :=
  match e, callee with
  | EId _, Node K_call v _ _ _ => Node K_call v (named isnamed (argparens no_flags)) false l
  | EDot _ _, Node K_call v _ _ receiver => Node K_call v (named isnamed (argparens F_CALL_HAS_DOT)) false (receiver ++ l)
  | (EIndex _ _ | EPost _ _), Node K_call v f _ _ => Node K_call v (named isnamed (argparens f)) false l (* the callee is lost *)
  | _, _ => Node K_call_indir [] (named isnamed no_flags) false (callee :: l)
  end.
Definition obind {A B} (x : option A) (f : A -> option B) : option B := match x with Some a => f a | None => None end.
Fixpoint has_dots (a : args) : bool := match a with ANil s => dots s | ACons s _ _ a => dots s || has_dots a end.
Fixpoint denote (e : expr) : option node :=
  match e with
  | ELit k v => Some (Node (leaf k) v no_flags false [])
  | EId v => Some (if has ["true"; "false"]%string v then Node K_bool v no_flags false [] else Node K_call v no_flags false [])
  | EDefault => Some (Node K_definit [] no_flags false [])
  | EParen e => option_map in_parens (denote e)
  | EArr a => obind (denote_args a) (fun '(l, nm) => Some (Node K_arrlit [] (named nm no_flags) false l))
  | EPre op e => option_map (unop op) (denote e)
  | EPost e op => option_map (fun n => Node K_call (if has ["++"; "--"]%string op then bytes "postfix" ++ op else op) F_OPERATOR false [n]) (denote e)
  | EDot e id => option_map (fun n => Node K_call id F_CALL_HAS_DOT false [n]) (denote e)
  | ECall e a => obind (denote e) (fun n => obind (denote_args a) (fun '(l, nm) => Some (call e n l nm)))
  | EIndex e a =>
      obind (denote e) (fun n => obind (denote_args a) (fun '(l, nm) =>
        Some (Node K_call (bytes (if has_dots a then "[..]" else "[]")) (named nm F_OPERATOR) false (n :: l))))
  | EBin l op r => obind (denote l) (fun l => obind (denote r) (fun r => binop op l r))
  | ECond c a b => obind (denote c) (fun c => obind (denote a) (fun a => obind (denote b) (fun b => Some (Node K_if [] no_flags false [c; a; b]))))
  | EType l op r t => obind (denote l) (fun l => obind (denote t) (fun t => Some (castop op l (ref r t))))
  end
(** the arguments, and whether one is named; what is before .. is named start, and cannot have a name of its own; what is after it is named end *)
with denote_args (a : args) : option (list node * bool) :=
  match a with
  | ANil _ => Some ([], false)
  | ACons s l e a =>
      obind (denote e) (fun n =>
      obind (arg_name s l n) (fun '(name, opt) =>
      let dots_next := match a with ANil s | ACons s _ _ _ => dots s end in
      if dots_next && negb (is_nil name) then None else
      let name := if dots_next then bytes "start" else name in
      obind (denote_args a) (fun '(rest, nm) => Some (arg name opt n :: rest, nm || negb (is_nil name)))))
  end.

(** * Where the tokens are *)
Definition sym_of (t : token) : sym := (t_kind t, t_value t).
(** the tokens from i on are l *)
Definition spelled (ts : list token) (i : nat) (l : list sym) : Prop := forall k s, nth_error l k = Some s -> option_map sym_of (nth_error ts (i + k)) = Some s.
Definition sym_at (ts : list token) (i : nat) : sym := match nth_error ts i with Some t => sym_of t | None => (Eof, []) end.
(** the tokens from i up to j, where an operand of rank p ends, are the expression e *)
Definition reads_as (ts : list token) (p i : nat) (e : expr) (j : nat) : Prop :=
  wf e = true /\ fits p e = true /\ spelled ts i (spell e) /\ j = (i + length (spell e))%nat /\ (j < length ts)%nat /\ ends p (sym_at ts j) = true.

(** what the lexer gives: names and numbers are not empty, and EOF is the last token *)
Definition lexed (ts : list token) : Prop :=
  (exists ts0 t, ts = ts0 ++ [t] /\ t_kind t = Eof) /\ forall t, In t ts -> match t_kind t with Id | Int | Real => t_value t <> [] | _ => True end.

(** * What is not warned about *)
(** -1.abs *)
Fixpoint innermost (e : expr) : expr :=
  match e with EPost l _ | EDot l _ | ECall l _ | EIndex l _ | EBin l _ _ | ECond l _ _ | EType l _ _ _ => innermost l | _ => e end.
Fixpoint accessed (e : expr) : bool :=
  match e with
  | EDot _ _ | ECall _ _ | EIndex _ _ => true
  | EPost l _ | EBin l _ _ | ECond l _ _ | EType l _ _ _ => accessed l
  | _ => false
  end.
Definition numeric_head (e : expr) : bool := match denote (innermost e) with Some n => numeric n | None => false end.
(** && and || on the left of other operators *)
Definition bare_logic (e : expr) : bool := match e with EBin _ op _ => has ["&&"; "||"]%string op | _ => false end.
Definition is_str (s : sym) : bool := match fst s with Str => true | _ => false end.
Fixpoint tidy (e : expr) : bool :=
  match e with
  | EParen e | EPost e _ | EDot e _ => tidy e
  | EPre op e => tidy e && negb (has ["-"; "+"]%string op && numeric_head e && accessed e)
  | EArr a => tidy_args None a
  | ECall e a | EIndex e a => tidy e && tidy_args None a
  | EBin l op r => tidy l && tidy r && negb (negb (has ["&&"; "||"]%string op) && bare_logic l)
  | ECond c a b => tidy c && tidy a && tidy b
  | EType l _ _ t => tidy l && tidy t && negb (bare_logic l)
  | _ => true
  end
(** commas may be left out only between a string and what is not a string *)
with tidy_args (prev : option sym) (a : args) : bool :=
  match a with
  | ANil _ => true
  | ACons s l e a =>
      tidy e && tidy_args (Some (last (spell e) (o ""))) a
      && match s, prev with Juxt, Some prev => xorb (is_str prev) (is_str (first (spell_label l ++ spell e) (o ""))) | _, _ => true end
  end.
(** All on one line, to the right of col0, and with the same space (or with none) around every operator. *)
Definition space (ts : list token) (k : nat) : Z :=
  let at_ k := nth k ts (Tok Sof [] 0 0 0) in
  let gap a b := if (t_line a <? t_line b)%nat then 10 else Z.max 0 (Z.min 1 (t_col b - t_col a - Z.of_nat (t_chars a))) in
  Z.max (gap (at_ (k - 1)%nat) (at_ k)) (gap (at_ k) (at_ (S k))).
Definition even (ts : list token) (col0 : Z) (i j : nat) : Prop :=
  exists line sp, forall k t, (i <= k < j)%nat -> nth_error ts k = Some t ->
    t_line t = line /\ col0 < t_col t /\ (t_kind t = Op -> rank (t_value t) <> None -> space ts k = sp).
