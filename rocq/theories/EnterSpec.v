(** * C76: what is to be done on entry to a loop.

    The meaning is in [LoopSpec]: [rounds] does it once, after the first test.
    This says of which programs the claim is made. *)

From Coq Require Import List Arith Bool.
From Verif Require Import LoopSpec.
Import ListNotations.

(** There is a jump to [k] in a statement. *)
Fixpoint jumps {W : Type} (k : nat) (x : st W) : bool :=
  match x with
  | Jump h => Nat.eqb h k
  | If _ _ a _ b => existsb (jumps k) a || existsb (jumps k) b
  | Block _ ss => existsb (jumps k) ss
  | Loop _ _ _ pre _ body _ _ =>
      existsb (jumps k) body || match pre with Some (_, ss) => existsb (jumps k) ss | None => false end
  | _ => false
  end.

(** What is to be done on entry is not a block that is jumped out of by its own
    name, not a bare jump or loop, and does not jump out of the loop it
    belongs to. *)
Definition plain {W : Type} (h : nat) (p : option nat * list (st W)) : Prop :=
  fst p = None /\ existsb (jumps h) (snd p) = false /\
  match snd p with [Jump _] | [Loop _ _ _ _ _ _ _ _] => False | _ => True end.

Inductive neat {W : Type} : st W -> Prop :=
| n_act : forall f, neat (Act f)
| n_jump : forall h, neat (Jump h)
| n_return : neat Return
| n_if : forall c ha a hb b, neat_all a -> neat_all b -> neat (If c ha a hb b)
| n_block : forall h ss, neat_all ss -> neat (Block h ss)
| n_loop : forall h init c hb body post until, neat_all body -> neat (Loop h init c None hb body post until)
| n_enter : forall h init c p hb body post until, plain h p -> neat_all (snd p) -> neat_all body ->
    neat (Loop h init c (Some p) hb body post until)
with neat_all {W : Type} : list (st W) -> Prop :=
| n_nil : neat_all []
| n_cons : forall x ss, neat x -> neat_all ss -> neat_all (x :: ss).
