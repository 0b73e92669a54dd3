(** * C71: what the generated C++ text of an expression means.

    Independent of the compiler: the C++ expression grammar (tokens to tree)
    and the meaning of C++ expression trees, following [expr] of the C++
    standard.  Nothing here refers to the code generator. *)

From Coq Require Import String List ZArith Bool Ascii Lia.
Import ListNotations.
Open Scope string_scope.
Open Scope list_scope.
Notation length := List.length.

(** ** Tokens and trees *)

(** The tokens of C++ an expression is made of: identifiers and type names,
    literals, punctuators. *)
Inductive tok := TId (x : string) | TNum (s : string) | TP (p : string).

Inductive cpp :=
| CId (x : string)
| CNum (s : string)
| CCall (f : string) (a : cargs)
| CField (e : cpp) (f : string)
| CIdx (e i : cpp)
| CPost (e : cpp) (op : string)
| CPre (op : string) (e : cpp)
| CBin (op : string) (a b : cpp)
| CCond (c a b : cpp)
| CAsg (op : string) (l r : cpp)
| CComma (a b : cpp)
with cargs := ANil | ACons (e : cpp) (a : cargs).

(** ** The grammar *)

(** Unary prefix operators ([expr.unary]). *)
Definition prefix_ops : list string := ["-"; "+"; "!"; "~"; "++"; "--"; "*"; "&"].

(** Binary operators and how tightly they bind ([expr.mul] … [expr.log.or]). *)
Definition prec (op : string) : option nat :=
  if existsb (String.eqb op) ["*"; "/"; "%"] then Some 10
  else if existsb (String.eqb op) ["+"; "-"] then Some 9
  else if existsb (String.eqb op) ["<<"; ">>"] then Some 8
  else if existsb (String.eqb op) ["<"; ">"; "<="; ">="] then Some 7
  else if existsb (String.eqb op) ["=="; "!="] then Some 6
  else if String.eqb op "&" then Some 5
  else if String.eqb op "^" then Some 4
  else if String.eqb op "|" then Some 3
  else if String.eqb op "&&" then Some 2
  else if String.eqb op "||" then Some 1
  else None.

(** Assignment operators ([expr.ass]). *)
Definition asg_ops : list string :=
  ["="; "+="; "-="; "*="; "/="; "%="; "&="; "|="; "^="; "<<="; ">>="].

Definition is_in (p : string) (l : list string) : bool := existsb (String.eqb p) l.

(** What the next token allows: a prefix operator, more of a postfix
    expression, a binary operator of at least the given strength, the rest of
    a conditional or of an assignment. *)
Definition at_prefix (ts : list tok) : bool :=
  match ts with TP p :: _ => is_in p prefix_ops | _ => false end.
Definition at_postfix (ts : list tok) : bool :=
  match ts with TP p :: _ => is_in p ["."; "["; "++"; "--"] | _ => false end.
Definition at_binary (k : nat) (ts : list tok) : bool :=
  match ts with
  | TP p :: _ => match prec p with Some q => Nat.leb k q | None => false end
  | _ => false
  end.
Definition at_asg (ts : list tok) : bool :=
  match ts with TP p :: _ => is_in p ("?" :: asg_ops) | _ => false end.
Definition at_tok (p : string) (ts : list tok) : bool :=
  match ts with TP q :: _ => String.eqb q p | _ => false end.

(** [X ts e rest]: the longest [X] at the front of [ts] is [e], and [rest]
    follows it.  Binary operators associate to the left, assignment and the
    conditional to the right; the middle of a conditional is a full
    expression. *)
Inductive prim : list tok -> cpp -> list tok -> Prop :=
| prim_num s r : prim (TNum s :: r) (CNum s) r
| prim_id x r : at_tok "(" r = false -> prim (TId x :: r) (CId x) r
| prim_call f r a r' : args r a r' -> prim (TId f :: TP "(" :: r) (CCall f a) r'
| prim_paren r e r' : expr r e (TP ")" :: r') -> prim (TP "(" :: r) e r'
with args : list tok -> cargs -> list tok -> Prop :=
| args_none r : args (TP ")" :: r) ANil r
| args_some r a r' : at_tok ")" r = false -> args1 r a r' -> args r a r'
with args1 : list tok -> cargs -> list tok -> Prop :=
| args1_one r e r' : asg r e (TP ")" :: r') -> args1 r (ACons e ANil) r'
| args1_more r e r1 a r' :
    asg r e (TP "," :: r1) -> args1 r1 a r' -> args1 r (ACons e a) r'
with post : list tok -> cpp -> list tok -> Prop :=
| post_ ts e r e' r' : prim ts e r -> ptail e r e' r' -> post ts e' r'
with ptail : cpp -> list tok -> cpp -> list tok -> Prop :=
| ptail_field e f r e' r' :
    ptail (CField e f) r e' r' -> ptail e (TP "." :: TId f :: r) e' r'
| ptail_index e r i r1 e' r' :
    expr r i (TP "]" :: r1) -> ptail (CIdx e i) r1 e' r' -> ptail e (TP "[" :: r) e' r'
| ptail_inc e op r e' r' :
    op = "++" \/ op = "--" ->
    ptail (CPost e op) r e' r' -> ptail e (TP op :: r) e' r'
| ptail_end e r : at_postfix r = false -> ptail e r e r
with un : list tok -> cpp -> list tok -> Prop :=
| un_pre op r e r' :
    is_in op prefix_ops = true -> un r e r' -> un (TP op :: r) (CPre op e) r'
| un_post r e r' : at_prefix r = false -> post r e r' -> un r e r'
with bin : nat -> list tok -> cpp -> list tok -> Prop :=
| bin_ k ts e r e' r' : un ts e r -> btail k e r e' r' -> bin k ts e' r'
with btail : nat -> cpp -> list tok -> cpp -> list tok -> Prop :=
| btail_op k q e op r e2 r1 e' r' :
    prec op = Some q -> k <= q -> bin (S q) r e2 r1 ->
    btail k (CBin op e e2) r1 e' r' -> btail k e (TP op :: r) e' r'
| btail_end k e r : at_binary k r = false -> btail k e r e r
with asg : list tok -> cpp -> list tok -> Prop :=
| asg_ ts e r e' r' : bin 1 ts e r -> atail e r e' r' -> asg ts e' r'
with atail : cpp -> list tok -> cpp -> list tok -> Prop :=
| atail_cond e r a r1 b r' :
    expr r a (TP ":" :: r1) -> asg r1 b r' -> atail e (TP "?" :: r) (CCond e a b) r'
| atail_asg e op r b r' :
    is_in op asg_ops = true -> asg r b r' -> atail e (TP op :: r) (CAsg op e b) r'
| atail_end e r : at_asg r = false -> atail e r e r
with expr : list tok -> cpp -> list tok -> Prop :=
| expr_ ts e r e' r' : asg ts e r -> etail e r e' r' -> expr ts e' r'
with etail : cpp -> list tok -> cpp -> list tok -> Prop :=
| etail_comma e r b r1 e' r' :
    asg r b r1 -> etail (CComma e b) r1 e' r' -> etail e (TP "," :: r) e' r'
| etail_end e r : at_tok "," r = false -> etail e r e r.

(** A text that is one expression, to its end. *)
Definition is_expression (ts : list tok) (e : cpp) : Prop := expr ts e [].

(** A text that is the condition between the parentheses of [if (…)]. *)
Definition is_condition (ts : list tok) (e : cpp) : Prop :=
  forall r, expr (ts ++ TP ")" :: r) e (TP ")" :: r).

(** ** What expressions do *)

(** The program's memory — variables and their fields — and what has been
    called so far. *)
Record state := { mem : list string -> Z; log : list (string * list Z) }.

(** The meaning of literals, of operators other than the logical ones, of
    conversions and of function calls is arbitrary. *)
Record ops := {
  numv : string -> Z;                                  (* a literal *)
  un1 : string -> Z -> Z;                              (* prefix operator *)
  bin2 : string -> Z -> Z -> Z;                        (* binary operator *)
  conv : string -> Z -> Z;                             (* T(v) *)
  fld : Z -> string -> Z;                              (* v.f *)
  idx : Z -> Z -> Z;                                   (* v[i] *)
  upd : string -> Z -> Z -> Z;                         (* old op= v *)
  inc : string -> Z -> Z;                              (* old++ *)
  ret : string -> list Z -> state -> Z * state;        (* f(…) *)
  is_type : string -> bool                             (* names of types *)
}.

Definition truth (v : Z) : bool := negb (Z.eqb v 0).
Definition ofb (b : bool) : Z := if b then 1%Z else 0%Z.

Fixpoint strs_eqb (p q : list string) : bool :=
  match p, q with
  | [], [] => true
  | x :: p, y :: q => String.eqb x y && strs_eqb p q
  | _, _ => false
  end.

Definition store (p : list string) (v : Z) (s : state) : state :=
  {| mem := fun q => if strs_eqb p q then v else mem s q; log := log s |}.

(** Temporaries of the generated code: [_0], [_1], … *)
Definition is_digit (a : ascii) : bool :=
  (Nat.leb 48 (nat_of_ascii a) && Nat.leb (nat_of_ascii a) 57)%bool.
Definition is_temp (x : string) : bool :=
  match list_ascii_of_string x with
  | u :: d :: r => Ascii.eqb u "_"%char && forallb is_digit (d :: r)
  | _ => false
  end.

(** State of the generated program: the program's state and the temporaries. *)
Definition cstate := (state * (string -> Z))%type.

Section Meaning.
Variable O : ops.

(** The variable or field an expression names. *)
Fixpoint place (e : cpp) : option (list string) :=
  match e with
  | CId x => if is_temp x then None else Some [x]
  | CField e f => match place e with Some p => Some (p ++ [f]) | None => None end
  | _ => None
  end.

Definition tmp_set (x : string) (v : Z) (t : string -> Z) : string -> Z :=
  fun y => if String.eqb x y then v else t y.

(** C++ evaluation: [None] for text a compiler rejects (assignment to
    something that is not a variable, an operator that does not exist). *)
Fixpoint ceval (e : cpp) (c : cstate) : option (Z * cstate) :=
  match e with
  | CId x => Some (if is_temp x then snd c x else mem (fst c) [x], c)
  | CNum s => Some (numv O s, c)
  | CCall f a =>
      match cevals a c with
      | Some (vs, c1) =>
          if is_type O f then
            match vs with [v] => Some (conv O f v, c1) | _ => None end
          else
            let (v, s) := ret O f vs (fst c1) in Some (v, (s, snd c1))
      | None => None
      end
  | CField e f =>
      match place (CField e f) with
      | Some p => Some (mem (fst c) p, c)
      | None =>
          match ceval e c with
          | Some (v, c1) => Some (fld O v f, c1)
          | None => None
          end
      end
  | CIdx e i =>
      match ceval e c with
      | Some (v, c1) =>
          match ceval i c1 with
          | Some (w, c2) => Some (idx O v w, c2)
          | None => None
          end
      | None => None
      end
  | CPost e op =>
      match place e with
      | Some p =>
          Some (mem (fst c) p, (store p (inc O op (mem (fst c) p)) (fst c), snd c))
      | None => None
      end
  | CPre op e =>
      if (String.eqb op "++" || String.eqb op "--")%bool then
        match place e with
        | Some p =>
            let v := inc O op (mem (fst c) p) in
            Some (v, (store p v (fst c), snd c))
        | None => None
        end
      else
        match ceval e c with
        | Some (v, c1) =>
            Some (if String.eqb op "!" then ofb (negb (truth v)) else un1 O op v, c1)
        | None => None
        end
  | CBin op a b =>
      match ceval a c with
      | Some (v, c1) =>
          if (String.eqb op "&&" && negb (truth v))%bool then Some (0%Z, c1)
          else if (String.eqb op "||" && truth v)%bool then Some (1%Z, c1)
          else
            match ceval b c1 with
            | Some (w, c2) =>
                Some (if (String.eqb op "&&" || String.eqb op "||")%bool
                      then ofb (truth w) else bin2 O op v w, c2)
            | None => None
            end
      | None => None
      end
  | CCond i a b =>
      match ceval i c with
      | Some (v, c1) => if truth v then ceval a c1 else ceval b c1
      | None => None
      end
  | CAsg op l r =>
      match ceval r c with
      | Some (v, (s, t)) =>
          match l with
          | CId x =>
              if is_temp x then
                if String.eqb op "=" then Some (v, (s, tmp_set x v t)) else None
              else
                let w := if String.eqb op "=" then v else upd O op (mem s [x]) v in
                Some (w, (store [x] w s, t))
          | _ =>
              match place l with
              | Some p =>
                  let w := if String.eqb op "=" then v else upd O op (mem s p) v in
                  Some (w, (store p w s, t))
              | None => None
              end
          end
      | None => None
      end
  | CComma a b =>
      match ceval a c with
      | Some (_, c1) => ceval b c1
      | None => None
      end
  end
with cevals (a : cargs) (c : cstate) : option (list Z * cstate) :=
  match a with
  | ANil => Some ([], c)
  | ACons e a =>
      match ceval e c with
      | Some (v, c1) =>
          match cevals a c1 with
          | Some (vs, c2) => Some (v :: vs, c2)
          | None => None
          end
      | None => None
      end
  end.

End Meaning.

(** ** fu expressions and what they mean *)

(** [b] on [XAnd], [XOr] and [XIf]: the expression's type is [bool]. *)
Inductive fx :=
| XNum (s : string)                                    (* 5 *)
| XNeg (s : string)                                    (* the literal -5 *)
| XPath (x : string) (fs : list string)                (* x, x.f, x.f.g *)
| XCall (f : string) (es : fxs)                        (* f(a, b) *)
| XConv (t : string) (e : fx)                          (* t(e) *)
| XFld (e : fx) (f : string)                           (* e.f *)
| XIdx (e i : fx)                                      (* e[i] *)
| XPre (narrow : option string) (op : string) (e : fx) (* -e ~e +e *)
| XInc (op : string) (x : string) (fs : list string)   (* ++x *)
| XPostInc (op : string) (x : string) (fs : list string)
| XBin (narrow : option string) (op : string) (a b : fx)
| XAsg (op : string) (x : string) (fs : list string) (e : fx)
| XNot (e : fx)
| XAnd (b : bool) (es : fxs)
| XOr (b : bool) (es : fxs)
| XIf (b b1 b2 : bool) (c e1 e2 : fx)                  (* c ? e1 : e2; b1, b2: e1, e2 are of type bool *)
| XVoid (e : fx)                                       (* an expression without a value *)
with fxs := XNil | XCons (e : fx) (es : fxs).

Section FuMeaning.
Variable O : ops.

(** Arithmetic on types narrower than [int] wraps in that type. *)
Definition wrap (narrow : option string) (v : Z) : Z :=
  match narrow with Some t => conv O t v | None => v end.

Definition asbool (b : bool) (v : Z) : Z := if b then ofb (truth v) else v.

(** [a && b]: [a] when it is falsy, otherwise [b]; [a || b]: [a] when it is
    truthy, otherwise [b]; later operands are only evaluated when reached. *)
Fixpoint feval (e : fx) (s : state) : Z * state :=
  match e with
  | XNum n => (numv O n, s)
  | XNeg n => (un1 O "-" (numv O n), s)
  | XPath x fs => (mem s (x :: fs), s)
  | XCall f es => let (vs, s1) := fevals es s in ret O f vs s1
  | XConv t e => let (v, s1) := feval e s in (conv O t v, s1)
  | XFld e f => let (v, s1) := feval e s in (fld O v f, s1)
  | XIdx e i =>
      let (v, s1) := feval e s in
      let (w, s2) := feval i s1 in (idx O v w, s2)
  | XPre narrow op e => let (v, s1) := feval e s in (wrap narrow (un1 O op v), s1)
  | XInc op x fs =>
      let v := inc O op (mem s (x :: fs)) in (v, store (x :: fs) v s)
  | XPostInc op x fs =>
      (mem s (x :: fs), store (x :: fs) (inc O op (mem s (x :: fs))) s)
  | XBin narrow op a b =>
      let (v, s1) := feval a s in
      let (w, s2) := feval b s1 in (wrap narrow (bin2 O op v w), s2)
  | XAsg op x fs e =>
      let (v, s1) := feval e s in
      let w := if String.eqb op "=" then v else upd O op (mem s1 (x :: fs)) v in
      (w, store (x :: fs) w s1)
  | XNot e => let (v, s1) := feval e s in (ofb (negb (truth v)), s1)
  | XAnd b es => fand b es s
  | XOr b es => for_ b es s
  | XIf b _ _ c e1 e2 =>
      let (v, s1) := feval c s in
      let (w, s2) := if truth v then feval e1 s1 else feval e2 s1 in (asbool b w, s2)
  | XVoid e => let (_, s1) := feval e s in (0%Z, s1)
  end
with fevals (es : fxs) (s : state) : list Z * state :=
  match es with
  | XNil => ([], s)
  | XCons e es =>
      let (v, s1) := feval e s in
      let (vs, s2) := fevals es s1 in (v :: vs, s2)
  end
with fand (b : bool) (es : fxs) (s : state) : Z * state :=
  match es with
  | XNil => (1%Z, s)
  | XCons e XNil => let (v, s1) := feval e s in (asbool b v, s1)
  | XCons e es =>
      let (v, s1) := feval e s in
      if truth v then fand b es s1 else (asbool b v, s1)
  end
with for_ (b : bool) (es : fxs) (s : state) : Z * state :=
  match es with
  | XNil => (0%Z, s)
  | XCons e XNil => let (v, s1) := feval e s in (asbool b v, s1)
  | XCons e es =>
      let (v, s1) := feval e s in
      if truth v then (asbool b v, s1) else for_ b es s1
  end.

End FuMeaning.

(** ** Expressions the compiler handles *)

Definition plain (e : fx) : Prop := match e with XVoid _ => False | _ => True end.

(** The operator the text of an expression starts with. *)
Fixpoint headop (e : fx) : option string :=
  match e with
  | XNeg _ => Some "-"
  | XPre None op _ => Some op
  | XInc op _ _ => Some op
  | XNot _ => Some "!"
  | XVoid e => headop e
  | _ => None
  end.

Definition runs_together (op : string) (e : fx) : bool :=
  match headop e with
  | Some o => (is_in op ["-"; "+"] && (String.eqb o op || String.eqb o (op ++ op)%string))%bool
  | None => false
  end.

Definition value_ops : list string :=
  ["*"; "/"; "%"; "+"; "-"; "<<"; ">>"; "<"; ">"; "<="; ">="; "=="; "!="; "&"; "^"; "|"].

Definition is_path (e : fx) : bool := match e with XPath _ _ => true | _ => false end.

Fixpoint len (es : fxs) : nat := match es with XNil => 0 | XCons _ es => S (len es) end.

Section Covered.
Variable O : ops.

Definition narrow_ok (nr : option string) : Prop :=
  match nr with Some t => is_type O t = true | None => True end.

Definition bool_valued (e : fx) : Prop :=
  forall s, fst (feval O e s) = 0%Z \/ fst (feval O e s) = 1%Z.

(** Names of variables are not those of temporaries; conversions name types,
    calls do not; operators are C++'s; [&&] and [||] have two operands or more;
    only an operand of a [bool] [&&] or [||] may be without a value; what is
    said to be of type [bool] is 0 or 1.  Beyond that, two kinds of expression
    are left out because their text means something else (see the refuted
    claims): a [-] or [+] whose operand's text starts with that operator
    ([runs_together]), and a field or element of an operator expression
    ([headop]). *)
Fixpoint ok (e : fx) : Prop :=
  match e with
  | XNum _ | XNeg _ => True
  | XPath x _ => is_temp x = false
  | XCall f es => is_type O f = false /\ okl es
  | XConv t e => is_type O t = true /\ ok e /\ plain e
  | XFld e _ => ok e /\ plain e /\ headop e = None /\ is_path e = false
  | XIdx e i => ok e /\ plain e /\ headop e = None /\ ok i /\ plain i
  | XPre nr op e =>
      is_in op ["-"; "+"; "~"] = true /\ narrow_ok nr /\ ok e /\ plain e /\
      runs_together op e = false
  | XInc op x _ => (op = "++" \/ op = "--") /\ is_temp x = false
  | XPostInc op x _ => (op = "++" \/ op = "--") /\ is_temp x = false
  | XBin nr op a b =>
      is_in op value_ops = true /\ narrow_ok nr /\ ok a /\ plain a /\ ok b /\ plain b
  | XAsg op x _ e => is_in op asg_ops = true /\ is_temp x = false /\ ok e /\ plain e
  | XNot e => ok e /\ plain e
  | XAnd b es => 2 <= len es /\ (if b then okc es else okl es)
  | XOr b es => 2 <= len es /\ (if b then okc es else okl es /\ ok_or es)
  | XIf b b1 b2 c e1 e2 =>
      ok c /\ plain c /\ ok e1 /\ plain e1 /\ ok e2 /\ plain e2 /\
      (b = true -> b1 = true -> bool_valued e1) /\
      (b = true -> b2 = true -> bool_valued e2)
  | XVoid e => ok e /\ plain e
  end
(** operands that have a value *)
with okl (es : fxs) : Prop :=
  match es with XNil => True | XCons e es => ok e /\ plain e /\ okl es end
(** operands that may have none *)
with okc (es : fxs) : Prop :=
  match es with XNil => True | XCons e es => ok e /\ okc es end
(** [a && b || c] where a value is wanted: one is wanted of [a && b] *)
with ok_or (es : fxs) : Prop :=
  match es with
  | XNil => True
  | XCons e es =>
      match e with XAnd b its => es = XNil \/ (b = false /\ okl its /\ 2 <= len its) | _ => True end
      /\ ok_or es
  end.

End Covered.
