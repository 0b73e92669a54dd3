(** Model of lib/tea.fu. *)
From Verif Require Export Words.
Open Scope Z_scope.

(** lib/tea.fu:2-6 [struct TEA]: (v0, v1), two u32. *)
Definition tea := (Z * Z)%type.

(** lib/tea.fu:8-11 [u64(tea)]. *)
Definition tea_u64 (t : tea) : Z := Z.lor (fst t) (wshl 64 (snd t) 32).

(** lib/tea.fu:13-19 [non_zero]. *)
Definition tea_non_zero (t : tea) : tea :=
  if (fst t =? 0) && (snd t =? 0) then (0xffffffff, snd t) else t.

(** lib/tea.fu:32, 45, 58: [((x<<4) + a) ^ (x + sum) ^ ((x>>5) + b)]. *)
Definition tea_mix (x sum a b : Z) : Z :=
  Z.lxor (Z.lxor (wadd 32 (wshl 32 x 4) a) (wadd 32 x sum)) (wadd 32 (wshr x 5) b).

(** lib/tea.fu:30-33 (= 43-46 = 56-59): the loop body; also returns the new sum. *)
Definition tea_round (sum : Z) (t : tea) : Z * tea :=
  let sum := wadd 32 sum 0x9e3779b9 in
  let v0 := wadd 32 (fst t) (tea_mix (snd t) sum 0xA341316C 0xC8013EA4) in
  let v1 := wadd 32 (snd t) (tea_mix v0 sum 0xAD90777D 0x7E95761E) in
  (sum, (v0, v1)).

Fixpoint tea_rounds (n : nat) (sum : Z) (t : tea) : tea :=
  match n with
  | O => t
  | S n' => let '(sum', t') := tea_round sum t in tea_rounds n' sum' t'
  end.

(** lib/tea.fu:24-35, 37-48, 50-61. *)
Definition r4 (t : tea) : tea := tea_rounds 4 0 t.
Definition r8 (t : tea) : tea := tea_rounds 8 0 t.
Definition r16 (t : tea) : tea := tea_rounds 16 0 t.

(** lib/tea.fu:66-71 [hash(ref res, other: TEA)]. *)
Definition hash_tea (res other : tea) : tea :=
  r16 (Z.lxor (fst res) (snd other), Z.lxor (snd res) (fst other)).

(** lib/tea.fu:73-78 [hash(ref res, v: u64)]. *)
Definition hash_u64 (res : tea) (v : Z) : tea :=
  r16 (Z.lxor (fst res) (wrap 32 (wshr v 32)), Z.lxor (snd res) (wrap 32 v)).

(** lib/tea.fu:80-84 [hash(ref res, v: u32)]. *)
Definition hash_u32 (res : tea) (v : Z) : tea := r16 (Z.lxor (fst res) v, snd res).

(** Element [i] of [u8view.view(u32)] (lib/tea.fu:90): the four bytes at 4i, read
    in the machine's (little-endian) order.  Big-endian machines: not modelled. *)
Definition u32_at (s : list Z) (i : nat) : option Z :=
  do b0 <- nth_error s (4 * i);
  do b1 <- nth_error s (4 * i + 1);
  do b2 <- nth_error s (4 * i + 2);
  do b3 <- nth_error s (4 * i + 3);
  Some (b0 + 256 * (b1 + 256 * (b2 + 256 * b3))).

(** lib/tea.fu:93-98: [for (i = 1; i < u32view.len; i += 2)]; [fuel] = trip count,
    [k] = (i - 1) / 2. *)
Fixpoint hash_tuples (fuel k : nat) (s : list Z) (res : tea) : option tea :=
  match fuel with
  | O => Some res
  | S f =>
      do a <- u32_at s (2 * k);
      do b <- u32_at s (2 * k + 1);
      hash_tuples f (S k) s (r16 (Z.lxor (fst res) a, Z.lxor (snd res) b))
  end.

(** lib/tea.fu:108-113: the trailing bytes, most significant first. *)
Fixpoint hash_last (fuel i : nat) (s : list Z) (last : Z) : option Z :=
  match fuel with
  | O => Some last
  | S f => do b <- nth_error s i; hash_last f (S i) s (Z.lor (wshl 32 last 8) b)
  end.

(** lib/tea.fu:86-121 [hash(ref res, u8view: byte[])].  u32len = len & ~3. *)
Definition hash_bytes (res : tea) (s : list Z) : option tea :=
  let len := length s in
  let n32 := (len / 4)%nat in
  let u32len := (4 * n32)%nat in
  do res <- hash_tuples (n32 / 2) 0 s res;
  if (len mod 8 =? 0)%nat then Some res
  else
    do res <- (if (n32 mod 2 =? 1)%nat
               then do w <- u32_at s (n32 - 1); Some (Z.lxor (fst res) w, snd res)
               else Some res);
    do last <- hash_last (len - u32len) u32len s 0;
    Some (r16 (fst res, Z.lxor (snd res) last)).

(** lib/tea.fu:126-151 [digest62(v: u64, chars)]. '0'=48 'a'=97 'A'=65. *)
Definition char62 (c : Z) : Z :=
  if c <? 10 then wrap 8 (c - 0 + 48) else if c <? 36 then wrap 8 (c - 10 + 97) else wrap 8 (c - 36 + 65).
Fixpoint digest_loop (char : Z -> Z) (base : Z) (n : nat) (v : Z) : list Z :=
  match n with
  | O => []
  | S n' => char (v mod base) :: digest_loop char base n' (v / base)
  end.
Definition digest62 (v : Z) (chars : Z) : list Z :=
  let chars := if (0 <? chars) && (chars <? 11) then chars else 11 in
  digest_loop char62 62 (Z.to_nat chars) v.

(** lib/tea.fu:153-170 [digest16(v: u64, chars)]. *)
Definition char16 (c : Z) : Z := if c <? 10 then wrap 8 (c - 0 + 48) else wrap 8 (c - 10 + 97).
Definition digest16 (v : Z) (chars : Z) : list Z :=
  let chars := if (0 <? chars) && (chars <? 16) then chars else 16 in
  digest_loop char16 16 (Z.to_nat chars) v.
