(** * C72: order of evaluation of arguments.

    What it means for a call to evaluate its arguments in a given order, and
    what C++ promises about the arguments of a call (nothing: any order).
    Nothing here refers to the compiler. *)

From Coq Require Import List ZArith Bool Permutation Sorting.Sorted Lia.
Import ListNotations.

(** ** State and arguments *)

(** The program's state: what its variables hold — locals, and what its
    reference arguments refer to — and what it has printed. *)
Inductive region := Local (locid : Z) | RefArg (pos : nat).
Record state := { reg : region -> Z; out : list Z }.

Definition same (s s' : state) : Prop := (forall r, reg s r = reg s' r) /\ out s = out s'.

(** Evaluating an argument gives a value and changes the state. *)
Definition comp := state -> Z * state.

(** ** Evaluation in an order *)

(** Argument values so far, and the state. *)
Definition conf := ((nat -> Z) * state)%type.

Definition set (v : nat -> Z) (i : nat) (x : Z) : nat -> Z :=
  fun j => if Nat.eqb j i then x else v j.

Definition eval1 (f : nat -> comp) (c : conf) (i : nat) : conf :=
  (set (fst c) i (fst (f i (snd c))), snd (f i (snd c))).

(** Evaluating the arguments [l], in that order. *)
Definition evals (f : nat -> comp) (l : list nat) (c : conf) : conf := fold_left (eval1 f) l c.

Definition same_conf (c c' : conf) : Prop :=
  (forall i, fst c i = fst c' i) /\ same (snd c) (snd c').

(** What C++ may do with [(t1 = a1, t2 = a2, f(…))]: the assignments in the
    order written, then the arguments written in the call in any order. *)
Definition cpp_may (f : nat -> comp) (header inline : list nat) (c c' : conf) : Prop :=
  exists p, Permutation inline p /\ c' = evals f p (evals f header c).

(** ** fu's order *)

(** Arguments from left to right, but those that are passed as mutable
    references (or implicitly) after the others.  [late] says which are. *)
Definition before (late : nat -> bool) (i j : nat) : Prop :=
  (late i = false /\ late j = true) \/ (late i = late j /\ i < j).

Definition fu_order (n : nat) (late : nat -> bool) (o : list nat) : Prop :=
  Permutation o (seq 0 n) /\ StronglySorted (before late) o.

(** ** What an argument may touch *)

Record footprint := { reads : list region; writes : list region; moves : list region }.

Definition changes (p : footprint) : list region := writes p ++ moves p.

(** A sound footprint: the argument's value and what it leaves behind depend on
    what it reads only, it changes only what is listed, everything it changes
    is among what it reads, and it prints nothing. *)
Record within (f : comp) (p : footprint) : Prop := {
  w_frame : forall s r, ~ In r (changes p) -> reg (snd (f s)) r = reg s r;
  w_dep : forall s s', (forall r, In r (reads p) -> reg s r = reg s' r) ->
    fst (f s) = fst (f s') /\
    forall r, In r (changes p) -> reg (snd (f s)) r = reg (snd (f s')) r;
  w_incl : incl (changes p) (reads p);
  w_quiet : forall s, out (snd (f s)) = out s
}.

(** Naming a variable, to pass it as a reference: no effect, and always the
    same reference. *)
Definition names_a_place (f : comp) : Prop :=
  (forall s, snd (f s) = s) /\ forall s s', fst (f s) = fst (f s').
