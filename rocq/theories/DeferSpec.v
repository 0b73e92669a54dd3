(** * C74: deferred statements.

    What it means for a block to run its deferred statements when it is left.
    Nothing here refers to the compiler or to C++. *)

From Coq Require Import List ZArith Bool.
Import ListNotations.

(** [defer], [defer:err], [defer:ok] *)
Inductive kind := Always | IfErr | IfOk.

(** How a statement ends: normally; with an error; by leaving [n] more loops
    ([break], or [return] out of everything); with the program aborted. *)
Inductive outcome := Done | Threw (e : Z) | Left (n : nat) | Died.

Section Deferred.

(** The state of the program. *)
Variable W : Type.

Inductive st :=
| Act (f : W -> W * option Z)              (* may throw *)
| Leave (n : nat)
| If (c : W -> bool) (a b : list st)
| Block (ss : list st)
| Loop (ss : list st)                      (* until left *)
| Try (a b : list st)
| Defer (k : kind) (ss : list st).

(** When a deferred statement is due. *)
Definition due (k : kind) (o : outcome) : bool :=
  match k, o with
  | Always, _ => true
  | IfErr, Threw _ => true
  | IfErr, _ => false
  | IfOk, Threw _ => false
  | IfOk, _ => true
  end.

(** [runs_all ss w ds o w']: running the statements [ss] of a block in [w], with
    [ds] deferred so far (latest first), ends in [w'] with [o].
    [unwinds ds o w o' w']: running what of [ds] is due when a block is left with
    [o]: the latest first, each once.  An error out of a deferred statement
    aborts; otherwise the block is left as it was going to be. *)
Inductive runs : st -> W -> outcome -> W -> Prop :=
| r_act : forall (f : W -> W * option Z) w w' o, f w = (w', o) ->
    runs (Act f) w (match o with None => Done | Some e => Threw e end) w'
| r_leave : forall n w, runs (Leave n) w (Left n) w
| r_if : forall (c : W -> bool) a b w o w', runs_all (if c w then a else b) w [] o w' -> runs (If c a b) w o w'
| r_block : forall ss w o w', runs_all ss w [] o w' -> runs (Block ss) w o w'
| r_again : forall ss w w1 o w', runs_all ss w [] Done w1 -> runs (Loop ss) w1 o w' -> runs (Loop ss) w o w'
| r_break : forall ss w w', runs_all ss w [] (Left 0) w' -> runs (Loop ss) w Done w'
| r_outer : forall ss w n w', runs_all ss w [] (Left (S n)) w' -> runs (Loop ss) w (Left n) w'
| r_loop_threw : forall ss w e w', runs_all ss w [] (Threw e) w' -> runs (Loop ss) w (Threw e) w'
| r_loop_died : forall ss w w', runs_all ss w [] Died w' -> runs (Loop ss) w Died w'
| r_try : forall a b w o w', runs_all a w [] o w' -> (forall e, o <> Threw e) -> runs (Try a b) w o w'
| r_catch : forall a b w e w1 o w', runs_all a w [] (Threw e) w1 -> runs_all b w1 [] o w' ->
    runs (Try a b) w o w'
with runs_all : list st -> W -> list (kind * list st) -> outcome -> W -> Prop :=
| r_end : forall w ds o w', unwinds ds Done w o w' -> runs_all [] w ds o w'
| r_defer : forall k b ss w ds o w', runs_all ss w ((k, b) :: ds) o w' ->
    runs_all (Defer k b :: ss) w ds o w'
| r_next : forall x ss w ds w1 o w', (forall k b, x <> Defer k b) ->
    runs x w Done w1 -> runs_all ss w1 ds o w' -> runs_all (x :: ss) w ds o w'
| r_exit : forall x ss w ds o1 w1 o w', (forall k b, x <> Defer k b) ->
    runs x w o1 w1 -> o1 <> Done -> o1 <> Died -> unwinds ds o1 w1 o w' ->
    runs_all (x :: ss) w ds o w'
| r_died : forall x ss w ds w1, (forall k b, x <> Defer k b) ->
    runs x w Died w1 -> runs_all (x :: ss) w ds Died w1
with unwinds : list (kind * list st) -> outcome -> W -> outcome -> W -> Prop :=
| u_nil : forall o w, unwinds [] o w o w
| u_skip : forall k b ds o w o' w', due k o = false -> unwinds ds o w o' w' ->
    unwinds ((k, b) :: ds) o w o' w'
| u_run : forall k b ds o w ob w1 o' w', due k o = true -> runs_all b w [] ob w1 ->
    (ob = Done \/ exists n, ob = Left n) -> unwinds ds o w1 o' w' ->
    unwinds ((k, b) :: ds) o w o' w'
| u_die : forall k b ds o w ob w1, due k o = true -> runs_all b w [] ob w1 ->
    (ob = Died \/ exists e, ob = Threw e) -> unwinds ((k, b) :: ds) o w Died w1.

End Deferred.

Arguments Act {W}. Arguments Leave {W}. Arguments If {W}. Arguments Block {W}.
Arguments Loop {W}. Arguments Try {W}. Arguments Defer {W}.
Arguments runs {W}. Arguments runs_all {W}. Arguments unwinds {W}.
