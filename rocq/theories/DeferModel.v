(** * C74: deferred statements in C++.

    include/fu/defer.h:14-60 (defer, defer_if_err, defer_if_ok),
    src/codegen.fu:1216-1225 (cgDefer), src/solver.fu:5376-5387 (a deferred
    statement at the end of a block).

    C++ is modelled as far as it matters: a block's objects are destroyed in
    reverse order of construction when it is left in any way;
    [std::uncaught_exceptions()] counts the exceptions on their way to a handler,
    so it goes up by one while a block is left with an exception, and down when
    the handler is entered; an exception out of a destructor ends the program; a
    [return] in the lambda that a deferred statement becomes ends the lambda. *)

From Coq Require Import List ZArith Bool Lia.
From Verif Require Import DeferSpec.
Import ListNotations.

Section Cpp.

Variable W : Type.

(** defer.h:14-60: an object: which of the three, its [fn], and [ue], the count
    when it was constructed *)
Definition obj := (kind * list (st W) * nat)%type.

(** defer.h:17, 34, 51: the condition in the destructor; [now] is
    [std::uncaught_exceptions()] *)
Definition fires (k : kind) (ue now : nat) : bool :=
  match k with
  | Always => true
  | IfErr => negb (Nat.eqb ue now)
  | IfOk => Nat.eqb ue now
  end.

Definition in_flight (o : outcome) : nat := match o with Threw _ => 1 | _ => 0 end.

(** Running; [u] is [std::uncaught_exceptions()], [fuel] bounds the number of
    steps ([None]: not enough). *)
Fixpoint exec (fuel u : nat) (x : st W) (w : W) : option (outcome * W) :=
  match fuel with
  | O => None
  | S fuel =>
      match x with
      | Act f => let (w', e) := f w in Some (match e with None => Done | Some e => Threw e end, w')
      | Leave n => Some (Left n, w)
      | If c a b => exec_all fuel u (if c w then a else b) w []
      | Block ss => exec_all fuel u ss w []
      | Loop ss =>
          match exec_all fuel u ss w [] with
          | Some (Done, w1) => exec fuel u (Loop ss) w1
          | Some (Left 0, w1) => Some (Done, w1)
          | Some (Left (S n), w1) => Some (Left n, w1)
          | r => r
          end
      | Try a b =>
          match exec_all fuel u a w [] with
          | Some (Threw _, w1) => exec_all fuel u b w1 []
          | r => r
          end
      | Defer _ _ => None
      end
  end
(** The statements of a block; [objs] are its objects, latest first. *)
with exec_all (fuel u : nat) (ss : list (st W)) (w : W) (objs : list obj) : option (outcome * W) :=
  match fuel with
  | O => None
  | S fuel =>
      match ss with
      | [] => destroy fuel u objs Done w
      | Defer k b :: ss => exec_all fuel u ss w ((k, b, u) :: objs)
      | x :: ss =>
          match exec fuel u x w with
          | Some (Done, w1) => exec_all fuel u ss w1 objs
          | Some (Died, w1) => Some (Died, w1)
          | Some (o, w1) => destroy fuel u objs o w1
          | None => None
          end
      end
  end
(** Leaving the block with [o]. *)
with destroy (fuel u : nat) (objs : list obj) (o : outcome) (w : W) : option (outcome * W) :=
  match fuel with
  | O => None
  | S fuel =>
      match objs with
      | [] => Some (o, w)
      | (k, b, ue) :: objs =>
          let now := u + in_flight o in
          if fires k ue now then
            match exec_all fuel now b w [] with
            | Some (Done, w1) | Some (Left _, w1) => destroy fuel u objs o w1
            | Some (_, w1) => Some (Died, w1)
            | None => None
            end
          else destroy fuel u objs o w
      end
  end.

(** src/solver.fu:5376-5387: a deferred statement at the end of a block becomes an
    ordinary one; a [defer:err] there is dropped *)
Definition unwrap_tail (ss : list (st W)) : list (st W) :=
  match rev ss with
  | Defer IfErr _ :: r => rev r
  | Defer _ b :: r => rev r ++ [Block b]
  | _ => ss
  end.

End Cpp.

Arguments exec {W}. Arguments exec_all {W}. Arguments destroy {W}. Arguments unwrap_tail {W}.
