(** * C73: nesting of statements.

    A small language of statements, the C++ statements it is turned into, how a
    C++ compiler reads those, and when the two have the same structure.
    Nothing here refers to the compiler. *)

From Coq Require Import List ZArith Bool Lia.
Import ListNotations.

(** ** The source *)

(** A piece of C++ text without statements in it — an expression — with what can
    be found in it: a brace, the letters [if]; and how many temporaries have to
    be declared for it first. *)
Record text := { tid : Z; tbrace : bool; tif : bool; ttemps : nat }.

(** What a conditional tests: an expression, all of some, none of some. *)
Inductive test := One (t : text) | All (ts : list text) | NoneOf (ts : list text).

Inductive st :=
| SEmpty
| SExpr (t : text)                        (* an expression, a return *)
| SGoto (l : nat)                         (* leaving the block or loop called l *)
| SGive (t : text) (l : nat)              (* … with a value *)
| SIf (c : text) (s1 s2 : st)             (* no else: SEmpty *)
| SAnd (cs : list text) (s : st)
| SOr (cs : list text) (s : st)
| SBlock (l : nat) (ss : list st)
| SWhile (c : text) (s : st) (l : nat)
| SFor (h : text) (s : st) (l : nat)
| SDo (s : st) (c : text) (l : nat)
| STry (s1 s2 : st).

(** ** C++ *)

Inductive tok :=
| TNL                                     (* line breaks, indentation *)
| TSemi | TOpen | TClose
| TText (t : text) | TGoto (l : nat) | TLabel (l : nat) | TDecl
| TIf (c : test) | TElse | TWhile (c : text) | TFor (h : text) | TDo | TTry | TCatch.

Inductive cst :=
| CNop | CText (t : text) | CGoto (l : nat) | CLabel (l : nat) | CDecl
| CBlock (ss : list cst)
| CIf (c : test) (s1 s2 : cst)
| CWhile (c : text) (s : cst) | CFor (h : text) (s : cst) | CDo (s : cst) (c : text)
| CTry (ss1 ss2 : list cst).

Definition no_else (ts : list tok) : Prop := forall r, ts <> TElse :: r.

(** [reads ts s r]: the tokens [ts] start with the statement [s], and [r] is
    left.  An [else] belongs to the nearest [if] ([stmt.if]). *)
Inductive reads : list tok -> cst -> list tok -> Prop :=
| r_nop : forall r, reads (TSemi :: r) CNop r
| r_text : forall t r, reads (TText t :: TSemi :: r) (CText t) r
| r_goto : forall l r, reads (TGoto l :: TSemi :: r) (CGoto l) r
| r_label : forall l r, reads (TLabel l :: TSemi :: r) (CLabel l) r
| r_decl : forall r, reads (TDecl :: TSemi :: r) CDecl r
| r_block : forall ts ss r, reads_all ts ss (TClose :: r) -> reads (TOpen :: ts) (CBlock ss) r
| r_if : forall c ts s r, reads ts s r -> no_else r -> reads (TIf c :: ts) (CIf c s CNop) r
| r_ifelse : forall c ts s1 s2 r1 r, reads ts s1 (TElse :: r1) -> reads r1 s2 r ->
    reads (TIf c :: ts) (CIf c s1 s2) r
| r_while : forall c ts s r, reads ts s r -> reads (TWhile c :: ts) (CWhile c s) r
| r_for : forall h ts s r, reads ts s r -> reads (TFor h :: ts) (CFor h s) r
| r_do : forall c ts s r, reads ts s (TWhile c :: TSemi :: r) -> reads (TDo :: ts) (CDo s c) r
| r_try : forall ts ss1 ss2 r1 r,
    reads_all ts ss1 (TClose :: TCatch :: TOpen :: r1) -> reads_all r1 ss2 (TClose :: r) ->
    reads (TTry :: TOpen :: ts) (CTry ss1 ss2) r
with reads_all : list tok -> list cst -> list tok -> Prop :=
| r_nil : forall r, reads_all r [] r
| r_cons : forall ts s ss r1 r, reads ts s r1 -> reads_all r1 ss r -> reads_all ts (s :: ss) r.

(** White space does not count. *)
Definition is_nl (t : tok) : bool := match t with TNL => true | _ => false end.
Definition strip (ts : list tok) : list tok := filter (fun t => negb (is_nl t)) ts.

(** ** Structure *)

(** What a list of statements does, with braces, empty statements and
    declarations of temporaries left out. *)
Inductive nf :=
| NText (t : text) | NGoto (l : nat) | NLabel (l : nat)
| NIf (c : test) (a b : list nf)
| NWhile (c : text) (a : list nf) | NFor (h : text) (a : list nf) | NDo (a : list nf) (c : text)
| NTry (a b : list nf).

Fixpoint cpp_nf (s : cst) : list nf :=
  match s with
  | CNop | CDecl => []
  | CText t => [NText t]
  | CGoto l => [NGoto l]
  | CLabel l => [NLabel l]
  | CBlock ss => flat_map cpp_nf ss
  | CIf c a b => [NIf c (cpp_nf a) (cpp_nf b)]
  | CWhile c a => [NWhile c (cpp_nf a)]
  | CFor h a => [NFor h (cpp_nf a)]
  | CDo a c => [NDo (cpp_nf a) c]
  | CTry a b => [NTry (flat_map cpp_nf a) (flat_map cpp_nf b)]
  end.

(** Whether [s] has a jump to [l]. *)
Fixpoint jumps (l : nat) (s : st) : bool :=
  match s with
  | SEmpty | SExpr _ => false
  | SGoto k | SGive _ k => Nat.eqb k l
  | SIf _ a b => (jumps l a || jumps l b)%bool
  | SAnd _ a | SOr _ a | SWhile _ a _ | SFor _ a _ | SDo a _ _ => jumps l a
  | SBlock _ ss => existsb (jumps l) ss
  | STry a b => (jumps l a || jumps l b)%bool
  end.

Definition end_label (l : nat) (used : bool) : list nf := if used then [NLabel l] else [].

(** Leaving a block or a loop goes to its end: that is where its label is. *)
Fixpoint src_nf (s : st) : list nf :=
  match s with
  | SEmpty => []
  | SExpr t => [NText t]
  | SGoto l => [NGoto l]
  | SGive t l => [NText t; NGoto l]
  | SIf c a b => [NIf (One c) (src_nf a) (src_nf b)]
  | SAnd cs a => [NIf (All cs) (src_nf a) []]
  | SOr cs a => [NIf (NoneOf cs) (src_nf a) []]
  | SBlock l ss => flat_map src_nf ss ++ end_label l (existsb (jumps l) ss)
  | SWhile c a l => NWhile c (src_nf a) :: end_label l (jumps l a)
  | SFor h a l => NFor h (src_nf a) :: end_label l (jumps l a)
  | SDo a c l => NDo (src_nf a) c :: end_label l (jumps l a)
  | STry a b => [NTry (src_nf a) (src_nf b)]
  end.

(** ** Statements left out below *)

Definition is_loop (s : st) : bool :=
  match s with SWhile _ _ _ | SFor _ _ _ | SDo _ _ _ => true | _ => false end.

(** Nothing at all: an empty statement, or a block with just that. *)
Definition blank (s : st) : bool :=
  match s with SEmpty => true | SBlock _ [SEmpty] => true | _ => false end.

(** A loop on its own, perhaps in a block. *)
Definition lone_loop (s : st) : bool :=
  match s with SBlock _ [x] => is_loop x | _ => is_loop s end.

(** What is left out: a loop whose body is nothing but a loop, or nothing but a
    jump out of it; a do-loop that is left by name or does nothing; an if with an
    else whose consequent is empty. *)
Fixpoint tame (s : st) : bool :=
  match s with
  | SEmpty | SExpr _ | SGoto _ | SGive _ _ => true
  | SIf _ a b => (tame a && tame b && (negb (blank a) || blank b))%bool
  | SAnd _ a | SOr _ a => tame a
  | SBlock _ ss => forallb tame ss
  | SWhile _ a l | SFor _ a l =>
      (tame a && negb (lone_loop a) &&
       negb match a with SGoto k => Nat.eqb k l | SBlock _ [SGoto k] => Nat.eqb k l | _ => false end)%bool
  | SDo a _ l => (tame a && negb (lone_loop a) && negb (blank a) && negb (jumps l a))%bool
  | STry a b => (tame a && tame b)%bool
  end.
