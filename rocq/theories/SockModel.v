(** Model of the event loop's handling of one connection (lib/ev/Loop.fu:589-621, 697-824, 1161-1184
    and 1317-1366, the Linux part) with the kernel and the peer.  [err.retry_later], which
    lib/Errno.fu does not define, is taken to be should_retry_later.  Simplified: SocketState is a
    record of booleans (packing into the user data is C40); read_exhaustive (lib/FD.fu:95-118)
    takes all that is there; the system's choices (writability, errors, how much is taken) are
    arguments. *)
From Verif Require Import SockSpec.
From Coq Require Import List Arith ZArith Bool Lia.
Import ListNotations.

(** Loop.fu:60-77 *)
Record state := { rd : bool; wr : bool; reof : bool; weof : bool; read_asap : bool; write_asap : bool; read_later : bool; write_later : bool }.
Record sticky := { s_rd : bool; s_wr : bool; s_reof : bool; s_weof : bool }.

Record conn := {
  rx : list Z; fin : bool; reset : bool; sent : list Z;    (* the kernel; all the peer has sent *)
  armed_in : bool; armed_out : bool; kept : sticky;        (* the registration *)
  closed : bool; closed_err : bool;                        (* socket_closed was called; with an error *)
  got : list Z; pending : list Z                           (* the program: what it has read, and not yet said *)
}.

(** A new connection (658-690), with or without [want_write_before_read]. *)
Definition accepted (write_first : bool) : conn :=
  {| rx := []; fin := false; reset := false; sent := [];
     armed_in := true; armed_out := write_first;
     kept := {| s_rd := false; s_wr := negb write_first; s_reof := false; s_weof := false |};
     closed := false; closed_err := false; got := []; pending := [] |}.

(** The peer. *)
Definition peer_does (p : peer) (x : conn) : conn :=
  if fin x then x else
  match p with
  | Send d => {| rx := rx x ++ d; fin := false; reset := reset x; sent := sent x ++ d; armed_in := armed_in x; armed_out := armed_out x;
                 kept := kept x; closed := closed x; closed_err := closed_err x; got := got x; pending := pending x |}
  | Finish => {| rx := rx x; fin := true; reset := reset x; sent := sent x; armed_in := armed_in x; armed_out := armed_out x;
                 kept := kept x; closed := closed x; closed_err := closed_err x; got := got x; pending := pending x |}
  | Reset => {| rx := []; fin := true; reset := true; sent := sent x; armed_in := armed_in x; armed_out := armed_out x;
                 kept := kept x; closed := closed x; closed_err := closed_err x; got := got x; pending := pending x |}
  end.

Definition has {A} (l : list A) : bool := match l with [] => false | _ => true end.
(** What epoll reports, given whether the socket can be written to: EPOLLIN and EPOLLOUT as
    registered, EPOLLRDHUP and EPOLLHUP always (597-601). *)
Definition bits (can_write : bool) (x : conn) : state :=
  {| rd := s_rd (kept x) || armed_in x && (has (rx x) || fin x);
     wr := s_wr (kept x) || armed_out x && can_write;
     reof := s_reof (kept x) || fin x;
     weof := s_weof (kept x) || reset x;
     read_asap := false; write_asap := false; read_later := false; write_later := false |}.
(** Whether there is anything to report. *)
Definition reports (can_write error : bool) (x : conn) : bool :=
  armed_in x && (has (rx x) || fin x) || armed_out x && can_write || fin x || reset x || error.

(** 703-761: the calls the program can make.  Working state, and event_ERR. *)
Definition set_read_asap (s : state) := {| rd := rd s; wr := wr s; reof := reof s; weof := weof s; read_asap := true; write_asap := write_asap s; read_later := read_later s; write_later := write_later s |}.
Definition set_write_asap (s : state) := {| rd := rd s; wr := wr s; reof := reof s; weof := weof s; read_asap := read_asap s; write_asap := true; read_later := read_later s; write_later := write_later s |}.
Definition set_reof (s : state) := {| rd := rd s; wr := wr s; reof := true; weof := weof s; read_asap := read_asap s; write_asap := write_asap s; read_later := read_later s; write_later := write_later s |}.
Definition set_both (s : state) := {| rd := rd s; wr := wr s; reof := true; weof := true; read_asap := read_asap s; write_asap := write_asap s; read_later := read_later s; write_later := write_later s |}.
Definition set_read_later (s : state) := {| rd := rd s; wr := wr s; reof := reof s; weof := weof s; read_asap := read_asap s; write_asap := write_asap s; read_later := true; write_later := write_later s |}.
Definition set_write_later (s : state) := {| rd := rd s; wr := wr s; reof := reof s; weof := weof s; read_asap := read_asap s; write_asap := write_asap s; read_later := read_later s; write_later := true |}.
Definition with_rx (x : conn) (r g : list Z) : conn :=
  {| rx := r; fin := fin x; reset := reset x; sent := sent x; armed_in := armed_in x; armed_out := armed_out x;
     kept := kept x; closed := closed x; closed_err := closed_err x; got := g; pending := pending x |}.
Definition with_pending (x : conn) (p : list Z) : conn :=
  {| rx := rx x; fin := fin x; reset := reset x; sent := sent x; armed_in := armed_in x; armed_out := armed_out x;
     kept := kept x; closed := closed x; closed_err := closed_err x; got := got x; pending := p |}.

Definition calls (c : call) (w : conn * state * bool) : conn * state * bool :=
  let '(x, s, e) := w in
  match c with
  | Read =>                                                  (* 703-721 *)
      let s := set_read_asap s in
      if has (rx x) then (with_rx x [] (got x ++ rx x), s, e)
      else if fin x then (x, set_reof s, e) else (x, s, e)
  | ReadFails => (x, set_read_asap s, true)
  | Say d => (with_pending x (pending x ++ d), s, e)
  | Flush k =>                                               (* 723-745 *)
      let y := with_pending x (skipn k (pending x)) in
      if negb e && has (pending y) then (y, set_write_asap s, e) else (y, s, e)
  | FlushFails => (x, s, true)
  | CloseIt => (x, set_both s, e)                            (* 759 *)
  | ReadLater => (x, set_read_later s, e)
  | WriteLater => (x, set_write_later s, e)
  end.
Definition act_does (a : act) (w : conn * state * bool) : conn * state * bool :=
  match a with
  | Prog c => calls c w
  | Peer p => let '(x, s, e) := w in (peer_does p x, s, e)
  end.
Fixpoint acts (l : list act) (w : conn * state * bool) : conn * state * bool :=
  match l with [] => w | a :: l => acts l (act_does a w) end.

(** 765-768 *)
Definition must_close (s : state) : bool :=
  if reof s then weof s || negb (write_asap s || write_later s)
  else rd s && negb (read_asap s || read_later s).
Definition closes (e : bool) (x : conn) : conn :=
  {| rx := rx x; fin := fin x; reset := reset x; sent := sent x; armed_in := false; armed_out := false;
     kept := kept x; closed := true; closed_err := e; got := got x; pending := pending x |}.
(** 770-806: close, or register again *)
Definition rearm (mod_fails : bool) (w : conn * state * bool) : conn :=
  let '(x, s, e) := w in
  if must_close s || e then closes e x
  else if mod_fails then closes true x
  else
    let for_recv := negb (reof s) && (read_asap s || negb (rd s)) in
    let for_write := negb (weof s) && (write_asap s || negb (wr s)) in
    {| rx := rx x; fin := fin x; reset := reset x; sent := sent x; armed_in := for_recv; armed_out := for_write;
       kept := {| s_rd := negb for_recv && rd s; s_wr := negb for_write && wr s; s_reof := reof s; s_weof := weof s |};
       closed := false; closed_err := false; got := got x; pending := pending x |}.

(** Whether the program is called (747). *)
Definition is_called (s : state) : bool := rd s || wr s.
(** One event.  [l]: what the program does, if it is called. *)
Definition event (can_write error mod_fails : bool) (l : list act) (x : conn) : conn :=
  let s := bits can_write x in
  let x0 := {| rx := rx x; fin := fin x; reset := reset x; sent := sent x; armed_in := false; armed_out := false;
               kept := kept x; closed := closed x; closed_err := closed_err x; got := got x; pending := pending x |} in
  rearm mod_fails (if is_called s then acts l (x0, s, error) else (x0, s, error)).

(** Any history: the peer acts, events are handled; [B] says how the program behaves, [faults]
    whether the system may give errors. *)
Section Runs.
Variables (B : behaviour) (faults : bool).
Inductive runs : conn -> conn -> Prop :=
| r_refl x : runs x x
| r_peer x y p : runs x y -> closed y = false -> runs x (peer_does p y)
| r_event x y cw er mf l : runs x y -> closed y = false ->
    (faults = false -> er = false /\ mf = false) ->
    reports cw er y = true ->
    (is_called (bits cw y) = true -> B (rd (bits cw y)) (wr (bits cw y)) l) ->
    runs x (event cw er mf l y).
End Runs.
