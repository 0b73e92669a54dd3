(** Fixed-width unsigned words as [Z], and the C operators on them.
    Definitions only. *)
From Verif Require Export Common.
Open Scope Z_scope.

(** Truncation to [w] bits: what an assignment to a u8/u32/u64 does. *)
Definition wrap (w x : Z) : Z := x mod 2 ^ w.
(** [x] fits in an unsigned [w]-bit word. *)
Definition word (w x : Z) : Prop := 0 <= x < 2 ^ w.
(** Unsigned [+], [-], [*], [<<] truncated to the word; [>>] and the bitwise
    operators need no truncation. *)
Definition wadd (w a b : Z) : Z := wrap w (a + b).
Definition wsub (w a b : Z) : Z := wrap w (a - b).
Definition wmul (w a b : Z) : Z := wrap w (a * b).
Definition wshl (w a k : Z) : Z := wrap w (Z.shiftl a k).
Definition wshr (a k : Z) : Z := Z.shiftr a k.

(** Two's complement reading of a [w]-bit word: [int(x)] for a u32, etc. *)
Definition signed (w x : Z) : Z :=
  let y := wrap w x in if y <? 2 ^ (w - 1) then y else y - 2 ^ w.

(** A byte value. *)
Definition byte (c : Z) : Prop := 0 <= c < 256.
