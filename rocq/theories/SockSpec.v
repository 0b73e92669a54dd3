(** A connection: the peer, the kernel, and the program behind the event loop. *)
From Coq Require Import List Arith ZArith Bool Lia.
Import ListNotations.

(** What the peer may do: send, finish sending (and still receive), reset the connection. *)
Inductive peer := Send (data : list Z) | Finish | Reset.
(** What the program may do when the event loop calls it: read; have something to say; write what
    it has not yet said, of which the kernel takes [k] bytes; close; read or write later.
    [ReadFails], [FlushFails]: the call gives an error. *)
Inductive call := Read | ReadFails | Say (data : list Z) | Flush (k : nat) | FlushFails | CloseIt | ReadLater | WriteLater.
(** While it runs, the peer goes on. *)
Inductive act := Prog (c : call) | Peer (p : peer).

(** How a program behaves, depending on whether it is told that there is something to read, and
    that it can write. *)
Definition behaviour := bool -> bool -> list act -> Prop.
(** It reads whenever there is something to read. *)
Definition reads : behaviour := fun readable _ l => readable = true -> In (Prog Read) l.
(** It reads only then. *)
Definition reads_when_told : behaviour := fun readable _ l => readable = false -> ~ In (Prog Read) l.
(** It neither closes the connection nor meets an error. *)
Definition keeps_going : behaviour := fun _ _ l => ~ In (Prog CloseIt) l /\ ~ In (Prog ReadFails) l /\ ~ In (Prog FlushFails) l.
(** The last thing it does is to write what it has not yet said. *)
Definition flushes : behaviour := fun _ _ l => exists l' k, l = l' ++ [Prog (Flush k)].
(** The same, but only if told that it can write: what lib/ev/HTTP.fu does. *)
Definition flushes_when_told : behaviour := fun _ writeable l =>
  if writeable then exists l' k, l = l' ++ [Prog (Flush k)] else forall k, ~ In (Prog (Flush k)) l.

Definition both (A B : behaviour) : behaviour := fun r w l => A r w l /\ B r w l.
Definition good_reader : behaviour := both reads keeps_going.
Definition good_server : behaviour := both good_reader (both reads_when_told flushes).

Definition prefix (a b : list Z) : Prop := exists r, b = a ++ r.
