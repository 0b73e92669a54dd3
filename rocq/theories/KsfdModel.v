(** Model of the epoll user-data packing of lib/ev/Loop.fu. *)
From Verif Require Export Words.
Open Scope Z_scope.

(** lib/ev/Loop.fu:94-106 [ksfd_pack].  STATE_OFFSET = 4, STATE_MASK = 0xf
    (lines 91-92).  [kind], [state] are u8 enums/flags, [user32] a u32; a fd
    outside 0..0xffffff fails the assert. *)
Definition ksfd_pack (kind fd state user32 : Z) : option Z :=
  if (0 <=? fd) && (fd <=? 0xffffff) then
    Some (Z.lor (Z.lor (Z.lor kind (wshl 64 fd 8)) (wshl 64 (Z.land state 0xf) 4)) (wshl 64 user32 32))
  else None.

(** lib/ev/Loop.fu:108-121 [ksfd_unpack]: (kind, fd, state, user32); [state0] is
    the caller's state, which is or-ed into. *)
Definition ksfd_unpack (ksfd state0 : Z) : Z * Z * Z * Z :=
  let kind := wrap 8 (Z.land ksfd 0xf) in
  let state := Z.lor state0 (wrap 8 (Z.land (wshr ksfd 4) 0xf)) in
  let user32 := wrap 32 (wshr ksfd 32) in
  let fd := signed 32 (Z.land (wshr ksfd 8) 0xffffff) in
  (kind, fd, state, user32).
