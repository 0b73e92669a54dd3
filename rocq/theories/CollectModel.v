(** Model of the collecting spawn (lib/spawn.fu:263-315 fu_waitpid, 357-372 close, 464-571) and the
    child it reads from, as a transition system.  A pipe holds at most [cap] bytes; a write moves
    any non-empty part that fits, and blocks while nothing does; a read takes any non-empty part.
    poll reports data, or the end of a stream (POLLHUP without POLLIN).  Simplified: the two
    buffers are different strings; the child's program is fixed and does not read; no other
    process has the write ends. *)
From Verif Require Import CollectSpec.
From Coq Require Import List Arith ZArith Bool Lia.
Import ListNotations.

Inductive pc := Poll | Ready (in_out in_err : bool) | Half (did : bool) (in_err : bool) | Waiting | Done.
Record st := {
  prog : child; ended : bool;                        (* the child: what it has still to do; it has exited *)
  shut : stream -> bool;                             (* it has closed the stream *)
  buf : stream -> list Z;                            (* in the pipe *)
  got : stream -> list Z;                            (* stdout_buf, stderr_buf *)
  at_ : pc; err : bool;
  status : option nat                                (* ExitStatus; None: as fu_waitpid sets it at first, -1 *)
}.
Definition upd {A} (f : stream -> A) (s : stream) (v : A) : stream -> A := fun s' => if stream_eqb s' s then v else f s'.

Definition start (c : child) : st :=
  {| prog := c; ended := false; shut := fun _ => false; buf := fun _ => []; got := fun _ => [];
     at_ := Poll; err := false; status := None |}.

Definition nonempty {A} (l : list A) : bool := match l with [] => false | _ => true end.
(** spawn.fu:547: there is something to report. *)
Definition reported (x : st) (s : stream) : bool := nonempty (buf x s) || shut x s.

Section Steps.
Variables (cap : nat) (code : nat).

Definition with_prog (x : st) (c : child) : st :=
  {| prog := c; ended := ended x; shut := shut x; buf := buf x; got := got x; at_ := at_ x; err := err x; status := status x |}.
Definition goto (x : st) (p : pc) : st :=
  {| prog := prog x; ended := ended x; shut := shut x; buf := buf x; got := got x; at_ := p; err := err x; status := status x |}.
Definition fails (x : st) (p : pc) : st :=
  {| prog := prog x; ended := ended x; shut := shut x; buf := buf x; got := got x; at_ := p; err := true; status := status x |}.
(** spawn.fu:491-531 ReadFD *)
Definition take (x : st) (s : stream) (n : nat) (p : pc) : st :=
  {| prog := prog x; ended := ended x; shut := shut x; buf := upd (buf x) s (skipn n (buf x s));
     got := upd (got x) s (got x s ++ firstn n (buf x s)); at_ := p; err := err x; status := status x |}.
(** spawn.fu:547, 561-566: after both reads *)
Definition after (did1 did2 : bool) (x : st) : pc := if negb did1 && negb did2 then Waiting else if err x then Waiting else Poll.

(** [true]: a system call failed. *)
Inductive step : bool -> st -> st -> Prop :=
(* the child *)
| c_write x s data rest n : ended x = false -> prog x = Write s data :: rest -> shut x s = false ->
    0 < n <= length data -> length (buf x s) + n <= cap ->
    step false x {| prog := Write s (skipn n data) :: rest; ended := false; shut := shut x;
              buf := upd (buf x) s (buf x s ++ firstn n data); got := got x; at_ := at_ x; err := err x; status := status x |}
| c_written x s data rest : ended x = false -> prog x = Write s data :: rest -> data = [] \/ shut x s = true ->
    step false x (with_prog x rest)
| c_close x s rest : ended x = false -> prog x = Close s :: rest ->
    step false x {| prog := rest; ended := false; shut := upd (shut x) s true;
              buf := buf x; got := got x; at_ := at_ x; err := err x; status := status x |}
| c_exit x : ended x = false -> prog x = [] ->
    step false x {| prog := []; ended := true; shut := fun _ => true;
              buf := buf x; got := got x; at_ := at_ x; err := err x; status := status x |}
(* 547-559: poll reports, or fails *)
| p_poll x : at_ x = Poll -> reported x Out || reported x Err = true ->
    step false x (goto x (Ready (nonempty (buf x Out)) (nonempty (buf x Err))))
| p_poll_fails x : at_ x = Poll -> step true x (fails x Waiting)
(* 562: stdout *)
| p_read_out x e n : at_ x = Ready true e -> 0 < n <= length (buf x Out) -> step false x (take x Out n (Half true e))
| p_read_out_fails x e : at_ x = Ready true e -> step true x (fails x (Half false e))
| p_skip_out x e : at_ x = Ready false e -> step false x (goto x (Half false e))
(* 563: stderr, and round again or out *)
| p_read_err x d n : at_ x = Half d true -> 0 < n <= length (buf x Err) -> step false x (take x Err n (after d true x))
| p_read_err_fails x d : at_ x = Half d true -> step true x (fails x Waiting)
| p_skip_err x d : at_ x = Half d false -> step false x (goto x (after d false x))
(* 483, 357-372, 263-315: the child is waited for; its error is not looked at *)
| p_wait x : at_ x = Waiting -> ended x = true ->
    step false x {| prog := prog x; ended := true; shut := shut x; buf := buf x; got := got x; at_ := Done; err := err x; status := Some code |}
| p_wait_fails x : at_ x = Waiting ->
    step true x {| prog := prog x; ended := ended x; shut := shut x; buf := buf x; got := got x; at_ := Done; err := err x; status := None |}.

(** Any number of steps, [k] of them failures; polls that are interrupted (552-556) change nothing
    and are left out. *)
Inductive runs : nat -> nat -> st -> st -> Prop :=
| runs_0 x : runs 0 0 x x
| runs_S f k n x y z : runs k n x y -> step f y z -> runs ((if f then 1 else 0) + k) (S n) x z.
End Steps.
