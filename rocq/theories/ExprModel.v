(** * C71: the text codegen emits for expressions (src/codegen.fu).

    The output is a list of C++ tokens.  The generator concatenates strings:
    the places where it puts two tokens next to each other without a space in
    between are an operator and its operand (emitPrefixOp, emitPostfixOp,
    cgNot), [f(], [(e], [x.f] and [a[i]]; of these only a prefix operator
    followed by an operand that itself starts with an operator can run
    together with it, and [glue] models that.

    Not modelled: references and the pointers they become (ptr_flip None
    throughout), copy/move wrappers, explicit sequencing of arguments through
    temporaries (ooe_header), discarded arguments, blocks, loops, jumps, array
    and string literals, method calls and conversions that go through a third
    type. *)

From Coq Require Import String List ZArith Bool Ascii Lia.
From Verif Require Import ExprSpec.
Import ListNotations.
Open Scope string_scope.
Open Scope list_scope.

(** src/codegen.fu:17-46: the modes an expression is emitted in, as far as
    they matter here: none, M_PARENS (parentheses are already around it),
    M_STMT (it is a statement of its own). *)
Inductive mode := MNone | MParens | MStmt.

(** src/codegen.fu:2289-2313 binSkipParens *)
Definition last_is_eq (id : string) : bool :=
  match rev (list_ascii_of_string id) with
  | c :: _ => Ascii.eqb c "="%char
  | [] => false
  end.

Definition bin_skip_parens (id : string) (m : mode) : bool :=
  match m with
  | MStmt => true
  | MParens =>
      if last_is_eq id then (String.eqb id "==" || String.eqb id "!=")%bool else true
  | MNone => false
  end.

(** C++ lexing of an operator directly followed by other text
    ([lex.pptoken], the longest token is taken): [-] [-x] is [--x], and
    [-] [--x] is [-- -x]. *)
Definition glue (op : string) (ts : list tok) : list tok :=
  match ts with
  | TP o :: r =>
      if (is_in op ["-"; "+"] && String.eqb o op)%bool then TP (op ++ op)%string :: r
      else if (is_in op ["-"; "+"] && String.eqb o (op ++ op)%string)%bool
      then TP (op ++ op)%string :: TP op :: r
      else TP op :: ts
  | _ => TP op :: ts
  end.

(** src/codegen.fu:2696, 2716-2745 cgCall of a variable, of a field of it *)
Definition cg_path (x : string) (fs : list string) : list tok :=
  TId x :: flat_map (fun f => [TP "."; TId f]) fs.

(** src/codegen.fu:2504-2510 unpromote; [narrow] is the annotation of an 8 or
    16 bit integer type ([affectedByIntegerPromotions], 2493-2502) *)
Definition unpromote (narrow : option string) (ts : list tok) : list tok :=
  match narrow with
  | Some t => TId t :: TP "(" :: ts ++ [TP ")"]
  | None => ts
  end.

Definition paren (ts : list tok) : list tok := TP "(" :: ts ++ [TP ")"].

(** src/codegen.fu:2517-2531 emitPrefixOp, emitBinaryOp *)
Definition emit_prefix (narrow : option string) (op : string) (a : list tok) : list tok :=
  unpromote narrow (glue op a).

Definition emit_binary (narrow : option string) (op : string) (m : mode) (a b : list tok)
  : list tok :=
  if bin_skip_parens op m then a ++ [TP op] ++ b
  else unpromote narrow (paren (a ++ [TP op] ++ b)).

(** Decimal digits of a number of temporaries. *)
Definition digit_char (n : nat) : ascii := ascii_of_nat (48 + n).
Fixpoint dec (fuel n : nat) : list ascii :=
  match fuel with
  | O => []
  | S k => if Nat.ltb n 10 then [digit_char n]
           else dec k (Nat.div n 10) ++ [digit_char (Nat.modulo n 10)]
  end.

(** src/codegen.fu:3754 TEMPVAR_declare: ["_" ~ numTEMPVARs++] *)
Definition temp_name (n : nat) : string :=
  string_of_list_ascii ("_"%char :: dec (S n) n).

(** src/codegen.fu:3093-3100, 3116-3126 [tv] of cgAnd and cgOr: declared when
    first needed, then reused *)
Definition tv_get (tv : option string) (n : nat) : string * nat :=
  match tv with Some x => (x, n) | None => (temp_name n, S n) end.

(** src/codegen.fu:3138-3151 isFieldChain *)
Definition is_field_chain (e : fx) : bool :=
  match e with XPath _ _ => true | _ => false end.

(** src/codegen.fu:3110-3136 via, both: [trivial ? trivial :] for a field
    chain, [(tv = expr) ? tv :] otherwise.  The copy or move in the consequent
    (TEMPVAR_consume) is left out. *)
Definition via (e : fx) (g : list tok * nat) (tv : option string)
  : list tok * nat * option string :=
  let (ts, n) := g in
  if is_field_chain e then (ts ++ [TP "?"] ++ ts ++ [TP ":"], n, tv)
  else
    let (x, n1) := tv_get tv n in
    (TP "(" :: TId x :: TP "=" :: ts ++ [TP ")"; TP "?"; TId x; TP ":"], n1, Some x).

(** src/codegen.fu:3155-3162: an item without a value is false *)
Definition concat_term (e : fx) (ts : list tok) : list tok :=
  match e with
  | XVoid _ => TP "(" :: ts ++ [TP ","; TNum "0"; TP ")"]
  | _ => ts
  end.

(** src/codegen.fu:2979-2983 cgIf: [!!(…)] around what is not of type bool *)
Definition boolify (b bi : bool) (ts : list tok) : list tok :=
  if (b && negb bi)%bool then TP "!" :: TP "!" :: TP "(" :: ts ++ [TP ")"] else ts.

Definition skip_parens (m : mode) : bool := match m with MParens => true | _ => false end.
Definition wrap_unless (m : mode) (ts : list tok) : list tok :=
  if skip_parens m then ts else paren ts.

Definition single (es : fxs) : bool := match es with XCons _ XNil => true | _ => false end.

(** src/codegen.fu:3454-3500 cgNode, with 2315 cgNot, 2318-2700 cgCall,
    2956-2986 cgIf, 2988-3024 cgAnd, 3026-3077 cgOr.  The number is
    [numTEMPVARs]. *)
Fixpoint cg (m : mode) (e : fx) (n : nat) {struct e} : list tok * nat :=
  match e with
  | XNum s => ([TNum s], n)
  | XNeg s => ([TP "-"; TNum s], n)
  | XPath x fs => (cg_path x fs, n)
  | XCall f es =>
      let (a, n1) := cg_args es n in (TId f :: TP "(" :: a ++ [TP ")"], n1)
  | XConv t e =>
      let (a, n1) := cg MNone e n in (TId t :: TP "(" :: a ++ [TP ")"], n1)
  | XFld e f =>
      let (a, n1) := cg MNone e n in (a ++ [TP "."; TId f], n1)
  | XIdx e i =>
      let (a, n1) := cg MNone e n in
      let (b, n2) := cg MNone i n1 in (a ++ TP "[" :: b ++ [TP "]"], n2)
  | XPre narrow op e =>
      let (a, n1) := cg MNone e n in (emit_prefix narrow op a, n1)
  | XInc op x fs => (glue op (cg_path x fs), n)
  | XPostInc op x fs => (cg_path x fs ++ [TP op], n)
  | XBin narrow op a b =>
      let (ta, n1) := cg MNone a n in
      let (tb, n2) := cg MNone b n1 in (emit_binary narrow op m ta tb, n2)
  | XAsg op x fs e =>
      let (tb, n1) := cg MNone e n in (emit_binary None op m (cg_path x fs) tb, n1)
  | XNot e =>
      let (a, n1) := cg MNone e n in (glue "!" a, n1)
  | XAnd b es =>
      if b then
        let (ts, n1) := cg_concat "&&" (if single es then MParens else MNone) es n in
        (wrap_unless m ts, n1)
      else
        let (ts, n1) := cg_vand es n None in (wrap_unless m ts, n1)
  | XOr b es =>
      if b then
        let (ts, n1) := cg_concat "||" (if single es then MParens else MNone) es n in
        (wrap_unless m ts, n1)
      else
        let (ts, n1) := cg_vor es n None in (wrap_unless m ts, n1)
  | XIf b b1 b2 c e1 e2 =>
      let (tc, n1) := cg MNone c n in
      let (t1, n2) := cg MNone e1 n1 in
      let (t2, n3) := cg MNone e2 n2 in
      (paren (tc ++ [TP "?"] ++ boolify b b1 t1 ++ [TP ":"] ++ boolify b b2 t2), n3)
  | XVoid e => cg MNone e n
  end
(** src/codegen.fu:2480-2497 REST: arguments in order, separated by commas *)
with cg_args (es : fxs) (n : nat) {struct es} : list tok * nat :=
  match es with
  | XNil => ([], n)
  | XCons e XNil => cg MNone e n
  | XCons e es =>
      let (a, n1) := cg MNone e n in
      let (r, n2) := cg_args es n1 in (a ++ [TP ","] ++ r, n2)
  end
(** src/codegen.fu:3151-3170 cgAndOr_concat *)
with cg_concat (op : string) (m : mode) (es : fxs) (n : nat) {struct es} : list tok * nat :=
  match es with
  | XNil => ([], n)
  | XCons e XNil => let (a, n1) := cg m e n in (concat_term e a, n1)
  | XCons e es =>
      let (a, n1) := cg m e n in
      let (r, n2) := cg_concat op m es n1 in (concat_term e a ++ [TP op] ++ r, n2)
  end
(** src/codegen.fu:3009-3020 cgAnd where the value is wanted *)
with cg_vand (es : fxs) (n : nat) (tv : option string) {struct es} : list tok * nat :=
  match es with
  | XNil => ([], n)
  | XCons e XNil => cg MNone e n
  | XCons e es =>
      let '(v, n1, tv1) := via e (cg MNone e n) tv in
      let (r, n2) := cg_vand es n1 tv1 in (TP "!" :: v ++ r, n2)
  end
(** src/codegen.fu:3046-3072 cgOr where the value is wanted *)
with cg_vor (es : fxs) (n : nat) (tv : option string) {struct es} : list tok * nat :=
  match es with
  | XNil => ([], n)
  | XCons e XNil => cg MNone e n
  | XCons e es =>
      let '(v, n1, tv1) :=
        match e with
        | XAnd _ its => cg_andvia its n tv
        | _ => via e (cg MNone e n) tv
        end in
      let (r, n2) := cg_vor es n1 tv1 in (v ++ r, n2)
  end
(** src/codegen.fu:3053-3067: the [a && b || c] pattern *)
with cg_andvia (es : fxs) (n : nat) (tv : option string) {struct es}
  : list tok * nat * option string :=
  match es with
  | XNil => ([], n, tv)
  | XCons e XNil => via e (cg MNone e n) tv
  | XCons e es =>
      let (a, n1) := cg MNone e n in
      let '(r, n2, tv2) := cg_andvia es n1 tv in
      (concat_term e a ++ [TP "&&"] ++ r, n2, tv2)
  end.
