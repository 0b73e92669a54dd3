(** Model of spawn (lib/spawn.fu:70-253, 341-459).  A file descriptor is a number and 0 stands for
    none, as in the code.  The system's answers are arguments: the descriptors of new pipes, and
    whether posix_spawnp and what comes before it succeeds.  Simplified: one thread; close frees
    the descriptor whether or not it reports an error; error codes are one boolean; PATH lookup
    and signal masks are left out. *)
From Verif Require Import SpawnSpec.
From Coq Require Import List Arith Bool Lia.
Import ListNotations.

(** spawn.fu:21-24 *)
Record pipe_t := { p_r : nat; p_w : nat }.
Definition no_pipe : pipe_t := {| p_r := 0; p_w := 0 |}.
(** the generated operator bool of a struct: any field is not zero *)
Definition truthy (p : pipe_t) : bool := negb (Nat.eqb (p_r p) 0) || negb (Nat.eqb (p_w p) 0).

(** spawn.fu:70-124 *)
Definition make_pipe (s : nat) (answer : option (nat * nat)) (t : table) : option (pipe_t * table) :=
  match answer with
  | Some (r, w) => Some ({| p_r := r; p_w := w |}, put (put t r (Some (ReadEnd s, true))) w (Some (WriteEnd s, true)))
  | None => None
  end.

(** spawn.fu:200-230 [Pipe] *)
Definition pipe_actions (p : pipe_t) (which : nat) : list action :=
  if truthy p then
    if Nat.eqb which 0 then
      (if Nat.eqb (p_w p) 0 then [] else [AClose (p_w p)])
      ++ [ADup2 (p_r p) 0]
      ++ (if Nat.eqb (p_r p) 0 then [] else [AClose (p_r p)])
    else
      (if Nat.eqb (p_r p) 0 then [] else [AClose (p_r p)])
      ++ [ADup2 (p_w p) which]
      ++ (if Nat.eqb (p_w p) which then [] else [AClose (p_w p)])
  else [AOpenNull which].

(** spawn.fu:133-253: the child's descriptors when its program starts, or None: an error. *)
Definition spawn_fds (argv_empty : bool) (works : bool) (t : table) (pout perr pin : pipe_t) : option table :=
  if argv_empty then None
  else if works then option_map exec (acts (pipe_actions pin 0 ++ pipe_actions pout 1 ++ pipe_actions perr 2) t)
  else None.

(** spawn.fu:387-391 *)
Definition close_both (p : pipe_t) (t : table) : table := put (put t (p_r p) None) (p_w p) None.
Definition is_pipe (m : mode) : bool := match m with Pipe => true | _ => false end.
Definition is_parent (m : mode) : bool := match m with Parent => true | _ => false end.
Definition when {A} (b : bool) (f : A -> A) (x : A) : A := if b then f x else x.

(** spawn.fu:341-346 *)
Record child_t := { in_fd : nat; out_fd : nat; err_fd : nat }.
Record answers_t := { a_out : option (nat * nat); a_err : option (nat * nat); a_in : option (nat * nat); a_empty : bool; a_works : bool }.

(** spawn.fu:402-459: the parent's descriptors afterwards; and if it succeeds what it knows of the
    child, and the child's descriptors. *)
Definition spawn_child (a : answers_t) (out_m err_m in_m : mode) (t : table) : table * option (child_t * table) :=
  match (if is_pipe out_m then make_pipe 1 (a_out a) t else Some (no_pipe, t)) with
  | None => (t, None)
  | Some (pout, t1) =>
    match (if is_pipe err_m then make_pipe 2 (a_err a) t1 else Some (no_pipe, t1)) with
    | None => (when (is_pipe out_m) (close_both pout) t1, None)
    | Some (perr, t2) =>
      match (if is_pipe in_m then make_pipe 0 (a_in a) t2 else Some (no_pipe, t2)) with
      | None => (when (is_pipe err_m) (close_both perr) (when (is_pipe out_m) (close_both pout) t2), None)
      | Some (pin, t3) =>
        let pout := if is_parent out_m then {| p_r := p_r pout; p_w := 1 |} else pout in
        let perr := if is_parent err_m then {| p_r := p_r perr; p_w := 2 |} else perr in
        let pin := if is_parent in_m then {| p_r := 0; p_w := p_w pin |} else pin in
        match spawn_fds (a_empty a) (a_works a) t3 pout perr pin with
        | None => (when (is_pipe in_m) (close_both pin) (when (is_pipe err_m) (close_both perr)
                    (when (is_pipe out_m) (close_both pout) t3)), None)
        | Some c =>
            let t4 := when (is_pipe out_m) (fun t => put t (p_w pout) None) t3 in
            let t5 := when (is_pipe err_m) (fun t => put t (p_w perr) None) t4 in
            let t6 := when (is_pipe in_m) (fun t => put t (p_r pin) None) t5 in
            (t6, Some ({| out_fd := p_r pout; err_fd := p_r perr; in_fd := p_w pin |}, c))
        end
      end
    end
  end.
