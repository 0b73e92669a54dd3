(** C70.  What names mean in C++: an unqualified name is the innermost visible variable of that name,
    else the global of that name; a name written with [::] is the global; a block may not declare a
    name twice, nor a body a name of its function's, [for]'s or handler's head.
    This file knows nothing of how the names are chosen. *)
From Coq Require Import String Ascii List ZArith Bool Lia.
From Verif Require Import LexerSpec DecSpec.
Import ListNotations.
Notation length := List.length.
Open Scope Z_scope.

Definition name := list Z.
Definition name_eq : forall a b : name, {a = b} + {a <> b} := list_eq_dec Z.eq_dec.

(** What a name can mean: the local [l] of the program (arguments included), a helper variable of the
    generator's, or the global of that name. *)
Inductive entity := ELocal (l : Z) | EHelper (n : name) | EGlobal (n : name).

(** C++ code, reduced to its names.  Each name carries what it has to mean. *)
Inductive cexpr :=
| CNop | CSeq (a b : cexpr)
| CName (n : name) (e : entity)
| CRoot (n : name) (e : entity)                              (** [::n] *)
| CSub (b : cstmts)                                          (** { ... } or a statement expression *)
with cstmts :=
| CNil
| CExp (e : cexpr) (r : cstmts)
| CDecl (n : name) (e : entity) (r : cstmts)                 (** [T n;] *)
| CInit (n : name) (e : entity) (i : cexpr) (r : cstmts)     (** [T n = i;]: n is visible in i *)
| CFor (d : option (name * entity)) (i : cexpr) (b r : cstmts)  (** [for (T n = i...; ...; ...) { b }] *)
| CTry (a : cstmts) (o : name) (b r : cstmts).               (** [try { a } catch (... o) { b }] *)

Definition env := list (name * entity).
Fixpoint meaning (F : env) (n : name) : entity :=
  match F with
  | [] => EGlobal n
  | (m, e) :: F => if name_eq m n then e else meaning F n
  end.

(** A new variable: its name is not declared in this block, and the program's local it is for has no
    other variable here. *)
Definition fresh (F : env) (here : list name) (n : name) (e : entity) : Prop :=
  ~ In n here /\ (forall l, e = ELocal l -> ~ In e (map snd F)).

Fixpoint expr_ok (F : env) (c : cexpr) : Prop :=
  match c with
  | CNop => True
  | CSeq a b => expr_ok F a /\ expr_ok F b
  | CName n e => meaning F n = e
  | CRoot n e => EGlobal n = e
  | CSub b => stmts_ok F [] b
  end
with stmts_ok (F : env) (here : list name) (c : cstmts) : Prop :=
  match c with
  | CNil => True
  | CExp e r => expr_ok F e /\ stmts_ok F here r
  | CDecl n e r => fresh F here n e /\ stmts_ok ((n, e) :: F) (n :: here) r
  | CInit n e i r => fresh F here n e /\ expr_ok ((n, e) :: F) i /\ stmts_ok ((n, e) :: F) (n :: here) r
  | CFor None i b r => expr_ok F i /\ stmts_ok F [] b /\ stmts_ok F here r
  | CFor (Some (n, e)) i b r =>
      fresh F [] n e /\ expr_ok ((n, e) :: F) i /\ stmts_ok ((n, e) :: F) [n] b /\ stmts_ok F here r
  | CTry a o b r => stmts_ok F [] a /\ stmts_ok ((o, EHelper o) :: F) [o] b /\ stmts_ok F here r
  end.

(** A function: its parameters, then its body. *)
Fixpoint fn_ok (F : env) (here : list name) (ps : list (name * entity)) (b : cstmts) : Prop :=
  match ps with
  | [] => stmts_ok F here b
  | (n, e) :: ps => fresh F here n e /\ fn_ok ((n, e) :: F) (n :: here) ps b
  end.

(** Identifiers and the keywords of C++20. *)
Definition id_char (c : Z) : Prop := 97 <= c <= 122 \/ 65 <= c <= 90 \/ 48 <= c <= 57 \/ c = 95.
Fixpoint words (w s : string) : list name :=
  match s with
  | EmptyString => match w with EmptyString => [] | _ => [text w] end
  | String c s =>
      if Ascii.eqb c " "%char then text w :: words EmptyString s else words (String.append w (String c EmptyString)) s
  end.
Definition cpp_keywords : list name := words ""
  "alignas alignof and and_eq asm auto bitand bitor bool break case catch char char8_t char16_t char32_t class compl concept const consteval constexpr constinit const_cast continue co_await co_return co_yield decltype default delete do double dynamic_cast else enum explicit export extern false float for friend goto if inline int long mutable namespace new noexcept not not_eq nullptr operator or or_eq private protected public register reinterpret_cast requires return short signed sizeof static static_assert static_cast struct switch template this thread_local throw true try typedef typeid typename union unsigned using virtual void volatile wchar_t while xor xor_eq".
Definition cpp_identifier (n : name) : Prop :=
  Forall id_char n /\ (exists c t, n = c :: t /\ ~ 48 <= c <= 57) /\ ~ In n cpp_keywords.

(** Names of the shapes the generator keeps for itself. *)
Definition reserved (n : name) : Prop :=
  (exists s k, decimal s k /\ (n = text "_" ++ s \/ n = text "BL_" ++ s ++ text "_v")) \/ n = text "o_0".
(** [n] is [b], or [b] with an underscore and a number. *)
Definition derived (b n : name) : Prop := n = b \/ exists s k, decimal s k /\ n = b ++ text "_" ++ s.
