(** * C73: statements in the code generator (src/codegen.fu).

    954-969 cgStatements, 998-1205 cgBlock (statements only), 2072-2127 cgJump,
    2956-2978 cgIf, 2993-3001 cgAnd, 3031-3039 cgOr, 3270-3312 cgLoop, 3314-3343
    cgTryCatch, 3817-3856 cgNodes.

    The output is a list of tokens, white space included, since the generator
    looks at the last character of a line.  Expressions are taken as given
    ([text]).  Not modelled: blocks as expressions, loops with a preheader, defer
    and pragmas, the error variable of a catch, BUG on declarations at the end of
    a block, names of labels (taken as given). *)

From Coq Require Import List ZArith Bool Lia.
From Verif Require Import StmtSpec.
Import ListNotations.

(** ** What is looked for in text *)

Definition test_texts (c : test) : list text :=
  match c with One t => [t] | All ts => ts | NoneOf ts => ts end.

(** [src.has('{')] *)
Definition has_brace (ts : list tok) : bool :=
  existsb (fun t => match t with
    | TOpen => true
    | TText x | TWhile x | TFor x => tbrace x
    | TIf c => existsb tbrace (test_texts c)
    | _ => false end) ts.

(** [src.has("if")] *)
Definition has_if (ts : list tok) : bool :=
  existsb (fun t => match t with
    | TText x | TWhile x | TFor x => tif x
    | TIf _ => true
    | _ => false end) ts.

(** [src.has("goto " ~ name ~ ";")]; a goto is always followed by a semicolon *)
Definition has_goto (l : nat) (ts : list tok) : bool :=
  existsb (fun t => match t with TGoto k => Nat.eqb k l | _ => false end) ts.

Definition last_is_semi (ts : list tok) : bool :=
  match rev ts with TSemi :: _ => true | _ => false end.

(** ** Lines *)

(** src/codegen.fu:959-966: one line; a line break comes first either way *)
Definition put (line : list tok) : list tok :=
  match line with
  | [] => []
  | _ => TNL :: line ++ [if last_is_semi line then TNL else TSemi]
  end.

(** src/codegen.fu:3843-3852: declarations of temporaries are lines of their own *)
Definition lines_of (temps : nat) (line : list tok) : list (list tok) :=
  repeat [TDecl] temps ++ [line].

(** src/codegen.fu:954-969 cgStatements *)
Definition statements (lines : list (list tok)) : list tok := flat_map put lines.

(** src/codegen.fu:1176-1204: curly braces, or none *)
Definition curlies (opt : bool) (nodes : nat) (lines : list (list tok)) (name : option nat) : list tok :=
  let src := statements lines in
  let used := match name with Some l => has_goto l src | None => false end in
  if (negb opt || negb (Nat.eqb nodes 1) || negb (Nat.eqb (length lines) 1)
      || used || has_brace src || has_if src)%bool
  then
    match name with
    | Some l =>
        if used then TNL :: TOpen :: TOpen :: src ++ [TNL; TClose; TLabel l; TSemi; TNL; TClose]
        else TNL :: TOpen :: src ++ [TNL; TClose]
    | None => TNL :: TOpen :: src ++ [TNL; TClose]
    end
  else src.

(** Temporaries declared for a statement outside of it: for its conditions, and
    for those of an [else if] (codegen.fu:2965-2968, where the alternative is not
    a block of its own). *)
Definition sum (ts : list text) : nat := fold_right (fun t n => ttemps t + n) 0 ts.

Fixpoint own_temps (s : st) : nat :=
  match s with
  | SEmpty | SGoto _ | SBlock _ _ | STry _ _ => 0
  | SExpr t | SGive t _ => ttemps t
  | SIf c _ b =>
      ttemps c + match b with SIf _ _ _ | SAnd _ _ => own_temps b | _ => 0 end
  | SAnd cs _ | SOr cs _ => sum cs
  | SWhile c _ _ | SFor c _ _ | SDo _ c _ => ttemps c
  end.

(** src/codegen.fu:3288-3296: the label of a loop *)
Definition break_label (l : nat) (body : list tok) : list tok :=
  if has_goto l body then [TLabel l; TSemi] else [].

(** src/codegen.fu:998-1007: a statement that is not a block, as a block *)
Definition sub_of (temps : nat) (line : list tok) : list tok :=
  curlies true 1 (lines_of temps line) None.

(** A statement as a line ([cgNode(node, M_STMT)]), and as what follows an [if]
    or a loop ([blockWrapSubstatement(node)]). *)
Fixpoint gen (s : st) : list tok * list tok :=
  let both line := (line, sub_of (own_temps s) line) in
  match s with
  | SEmpty => both []
  | SExpr t => both [TText t]
  | SGoto l => both [TGoto l]
  | SGive t l => both [TOpen; TText t; TSemi; TGoto l; TSemi; TClose]
  | SIf c a b =>
      let alt := match b with SIf _ _ _ | SAnd _ _ => fst (gen b) | _ => snd (gen b) end in
      both (TIf (One c) :: snd (gen a) ++ match alt with [] => [] | _ => TNL :: TElse :: alt end)
  | SAnd cs a => both (TIf (All cs) :: snd (gen a))
  | SOr cs a => both (TIf (NoneOf cs) :: snd (gen a))
  | SBlock l ss =>
      let lines := flat_map (fun x => lines_of (own_temps x) (fst (gen x))) ss in
      (curlies false (length ss) lines (Some l), curlies true (length ss) lines (Some l))
  | SWhile c a l => both (TWhile c :: snd (gen a) ++ break_label l (snd (gen a)))
  | SFor h a l => both (TFor h :: snd (gen a) ++ break_label l (snd (gen a)))
  | SDo a c l => both (TDo :: snd (gen a) ++ TNL :: TWhile c :: break_label l (snd (gen a)))
  | STry a b =>
      both (TNL :: TTry :: TNL :: TOpen :: snd (gen a) ++ TNL :: TClose :: TNL :: TCatch :: TNL :: TOpen ::
            snd (gen b) ++ [TNL; TClose; TNL])
  end.

(** The statements of a function's body. *)
Definition cg_statements (ss : list st) : list tok :=
  statements (flat_map (fun x => lines_of (own_temps x) (fst (gen x))) ss).
