(** Model of swapping arrays and array ranges: include/fu/mem/memswap.cpp, vec_range.h:463-530.
    Storage is a list of elements (bytes move with their elements); junk is what grow without ZEROFILL leaves. *)
From Verif Require Export Common.

Section Swap.
Context {T : Type} (junk : T).

(** memswap.cpp:3-11, on a[ia ..] and b[ib ..], two different arrays *)
Fixpoint memswap (n : nat) (a : list T) (ia : nat) (b : list T) (ib : nat) : option (list T * list T) :=
  match n with
  | O => Some (a, b)
  | S n =>
      do temp <- nth_error a ia;
      do y <- nth_error b ib;
      do a <- upd a ia y;
      do b <- upd b ib temp;
      memswap n a (S ia) b (S ib)
  end.
(** std::memcpy from src[s ..] to dst[d ..], another array; std::memmove has the same effect within one array. *)
Definition memcpy (dst : list T) (d : nat) (src : list T) (s n : nat) : option (list T) :=
  if (d + n <=? length dst) && (s + n <=? length src) then Some (firstn d dst ++ firstn n (skipn s src) ++ skipn (d + n) dst) else None.
Definition memmove (l : list T) (d s n : nat) : option (list T) := memcpy l d l s n.

(** vec_range.h:303-317 grow<false> of the range [L, len - R) to n elements: junk is inserted at its end. *)
Definition range_grow (v : list T) (L R n : nat) : list T :=
  let size := length v - (L + R) in
  firstn (L + size) v ++ repeat junk (n - size) ++ skipn (L + size) v.

(** vec_range.h:489-530, once shorter and longer are known (492-499): [s] with [Ls .. len - Rs), [l] with [Ll .. len - Rl) *)
Definition swap_core (s : list T) (Ls Rs : nat) (l : list T) (Ll Rl : nat) : option (list T * list T) :=
  let size_short := length s - (Ls + Rs) in
  let size_long := length l - (Ll + Rl) in
  let s := if size_short <? size_long then range_grow s Ls Rs size_long else s in
  do r <- memswap size_short s Ls l Ll;
  let s := fst r in
  let l := snd r in
  if size_short <? size_long then
    do s <- memcpy s (Ls + size_short) l (Ll + size_short) (size_long - size_short);
    let right_long := Rl in
    do l <- (if right_long =? 0 then Some l else memmove l (Ll + size_short) (Ll + size_long) right_long);
    Some (s, firstn (Ll + size_short + right_long) l)
  else Some (s, l).
(** vec_range.h:489-499 *)
Definition swap_ranges (a : list T) (La Ra : nat) (b : list T) (Lb Rb : nat) : option (list T * list T) :=
  let size_a := length a - (La + Ra) in
  let size_b := length b - (Lb + Rb) in
  if size_a <? size_b then swap_core a La Ra b Lb Rb
  else do r <- swap_core b Lb Rb a La Ra; Some (snd r, fst r).
(** vec_range.h:463-487: whole arrays exchange their control words (vec.h:1222-1226) *)
Definition swap_mut (a : list T) (La Ra : nat) (b : list T) (Lb Rb : nat) : option (list T * list T) :=
  if (La =? 0) && (Ra =? 0) && (Lb =? 0) && (Rb =? 0) then Some (b, a) else swap_ranges a La Ra b Lb Rb.
End Swap.
