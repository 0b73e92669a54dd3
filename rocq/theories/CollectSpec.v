(** A child that writes, and what is to be collected. *)
From Coq Require Import List Arith ZArith Bool Lia.
Import ListNotations.

(** Two streams: stdout and stderr. *)
Inductive stream := Out | Err.
Definition stream_eqb (a b : stream) : bool := match a, b with Out, Out | Err, Err => true | _, _ => false end.
(** A child: it writes and closes its streams, and exits at the end. *)
Inductive act := Write (s : stream) (data : list Z) | Close (s : stream).
Definition child := list act.

(** All it writes to a stream; writes to a stream it has closed come to nothing. *)
Fixpoint output (c : child) (s : stream) : list Z :=
  match c with
  | [] => []
  | Write s' data :: c => (if stream_eqb s s' then data else []) ++ output c s
  | Close s' :: c => if stream_eqb s s' then [] else output c s
  end.
(** It writes nothing more once it has closed a stream. *)
Fixpoint closes_last (c : child) : bool :=
  match c with
  | [] => true
  | Write _ _ :: c => closes_last c
  | Close _ :: c => forallb (fun a => match a with Close _ => true | Write _ data => match data with [] => true | _ => false end end) c
  end.
(** The size of a child: what it has to do. *)
Definition size (c : child) : nat :=
  list_sum (map (fun a => match a with Write _ data => 1 + length data | Close _ => 1 end) c).
