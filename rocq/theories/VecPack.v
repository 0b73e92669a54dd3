(** Bit-level model of fu::vec's control word: include/fu/vec.h:30-190.
    Words are unsigned 32-bit values in [Z]; [signed 32] gives the fu::i reading. *)
From Verif Require Export Words.
Open Scope Z_scope.

(** What the template depends on about the element type T: sizeof(T),
    is_trivially_destructible, alignof(T) <= alignof(T* ), is_copy_constructible. *)
Record elt := { esz : Z; e_trivial : bool; e_aligned : bool; e_copiable : bool }.

Section Pack.
Context (e : elt).

(** vec.h:30-36 *)
Definition TRIVIAL : bool := e_trivial e.
Definition SHAREABLE : bool := e_copiable e.
(** vec.h:38-43; (16 - 1) / sizeof(T). *)
Definition SMALL_CAPA : Z := if e_trivial e && e_aligned e then 15 / esz e else 0.
(** vec.h:45 *)
Definition HAS_SMALL : bool := negb (SMALL_CAPA =? 0).
(** vec.h:51-52 on a little-endian machine. *)
Definition PACK_CAPA : bool := HAS_SMALL && (esz e <? 4).
(** vec.h:54-59 *)
Definition IS_BIG_MASK : Z := if PACK_CAPA then Z.shiftl 15 24 else 15.
Definition SMALL_SIZE_OFFSET : Z := if PACK_CAPA then 28 else 4.
Definition SMALL_SIZE_MASK : Z := 15.
(** vec.h:128; the word with only bit 31 set. *)
Definition SIGN_BIT : Z := 2 ^ 31.
Definition NOT_SIGN : Z := 2 ^ 31 - 1.

(** vec.h:94-97 [UNSAFE__Unpack]: rotate left by 8. *)
Definition unpack (p : Z) : Z :=
  if PACK_CAPA then Z.lor (wshl 32 p 8) (wshr p 24) else p.
(** vec.h:99-102 [UNSAFE__Pack]: rotate right by 8. *)
Definition pack (a : Z) : Z :=
  if PACK_CAPA then Z.lor (wshl 32 a 24) (wshr a 8) else a.
(** vec.h:104-118 [UNSAFE__HAS_SMALL__EnsureActualLooksBig]. *)
Definition looks_big (a : Z) : Z :=
  if Z.land IS_BIG_MASK (pack a) =? 0 then a - 1 else a.

(** vec.h:123-126 [small()]. *)
Definition is_small (p : Z) : bool :=
  if HAS_SMALL then Z.land p IS_BIG_MASK =? 0 else false.
(** vec.h:130-137 [capa()], a signed value: negative means "maybe shared". *)
Definition capa (p : Z) : Z :=
  if HAS_SMALL then (if is_small p then SMALL_CAPA else signed 32 (unpack p))
  else signed 32 p.
(** vec.h:139-144 [shared_capa()]: capa() &~ SIGN_BIT. *)
Definition shared_capa (p : Z) : Z :=
  if SHAREABLE then Z.land (wrap 32 (capa p)) NOT_SIGN else capa p.
(** vec.h:146-151 [UNSAFE__MarkUnique]: new control word. *)
Definition mark_unique (p : Z) : Z := pack (shared_capa p).
(** vec.h:153-158 [UNSAFE__MarkShared]: new control word. *)
Definition mark_shared (p : Z) : Z := pack (Z.lor (unpack p) SIGN_BIT).
(** vec.h:175-178 [UNSAFE__ReadSmallSize]: arithmetic shift, then mask. *)
Definition small_size (p : Z) : Z :=
  if HAS_SMALL then Z.land (wshr p SMALL_SIZE_OFFSET) SMALL_SIZE_MASK else 0.
(** vec.h:180-187 [UNSAFE__WriteSmall]: new control word; with PACK_CAPA only the
    most significant byte is stored, the three others hold element bytes. *)
Definition write_small (p n : Z) : Z :=
  if PACK_CAPA then Z.lor (Z.land p (2 ^ 24 - 1)) (Z.shiftl (wrap 8 (Z.shiftl n 4)) 24)
  else Z.shiftl (Z.land n SMALL_SIZE_MASK) SMALL_SIZE_OFFSET.
(** vec.h:199-206 [size()] given the control word and big.size. *)
Definition vsize (p bigsize : Z) : Z := if is_small p then small_size p else bigsize.

(** The 16 bytes of the struct, little-endian: byte offsets of the control word
    PACK are 12..15 (vec.h:67-77), element i of an inline vec occupies
    [i*sizeof(T), (i+1)*sizeof(T)) (vec.h:219-225). *)
Definition pack_byte (p j : Z) : Z := wrap 8 (wshr p (8 * (j - 12))).
(** The control word after the inline element bytes [k, k+len) of the struct have
    been overwritten with arbitrary bytes: byte j of the result is [f j] inside the
    range and unchanged outside. *)
Definition overwrite_pack (p lo hi : Z) (f : Z -> Z) : Z :=
  let b j := if (lo <=? j) && (j <? hi) then wrap 8 (f j) else pack_byte p j in
  b 12 + b 13 * 2 ^ 8 + b 14 * 2 ^ 16 + b 15 * 2 ^ 24.
End Pack.
