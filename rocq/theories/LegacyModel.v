(** Model of include/fu/vec/LEGACY_cmp.h and include/fu/vec/LEGACY_find.h.
    A vec or view is an address and an element count; memory is a function
    from byte addresses to bytes, so that two views may alias. *)
From Verif Require Export Common.
Open Scope Z_scope.

Record lview := { lv_addr : Z; lv_size : nat }.

(** [bytes M a n]: the n bytes at address a. *)
Fixpoint bytes (M : Z -> Z) (a : Z) (n : nat) : list Z :=
  match n with O => [] | S n' => M a :: bytes M (a + 1) n' end.

(** A candidate for the C library's memcmp: memory, two addresses, a byte
    count.  The theorems quantify over every candidate meeting [memcmp_ok]
    in LegacySpec.v, as the C standard fixes only the sign. *)
Definition memcmp_t := (Z -> Z) -> Z -> Z -> nat -> Z.

(** LEGACY_cmp.h:16-29 [operator==].  Note the byte count given to memcmp is the
    ELEMENT count s0. *)
Definition legacy_eq (mc : memcmp_t) (M : Z -> Z) (a b : lview) : bool :=
  let d0 := lv_addr a in
  let d1 := lv_addr b in
  let s0 := lv_size a in
  let s1 := lv_size b in
  let diff := negb (Nat.eqb s0 s1) in
  let same := orb (d0 =? d1) (andb (negb diff) (Nat.eqb s0 0)) in
  let cheap := orb same diff in
  if cheap then same else (mc M d0 d1 s0 =? 0).

(** LEGACY_cmp.h:31-35 [operator!=]. *)
Definition legacy_ne mc M a b : bool := negb (legacy_eq mc M a b).

(** LEGACY_cmp.h:45-51 [strcmp].  int is unbounded here: the sizes are
    non-negative 32-bit ints, so s0 - s1 cannot overflow. *)
Definition legacy_strcmp (mc : memcmp_t) (M : Z -> Z) (d0 : Z) (s0 : nat) (d1 : Z) (s1 : nat) : Z :=
  let s := if Nat.ltb s0 s1 then s0 else s1 in
  let cmp := mc M d0 d1 s in
  let dif := Z.of_nat s0 - Z.of_nat s1 in
  if cmp =? 0 then dif else cmp.

(** LEGACY_cmp.h:53-71 the four ordering operators. *)
Definition legacy_lt mc M a b := legacy_strcmp mc M (lv_addr a) (lv_size a) (lv_addr b) (lv_size b) <? 0.
Definition legacy_gt mc M a b := 0 <? legacy_strcmp mc M (lv_addr a) (lv_size a) (lv_addr b) (lv_size b).
Definition legacy_le mc M a b := legacy_strcmp mc M (lv_addr a) (lv_size a) (lv_addr b) (lv_size b) <=? 0.
Definition legacy_ge mc M a b := 0 <=? legacy_strcmp mc M (lv_addr a) (lv_size a) (lv_addr b) (lv_size b).

(** LEGACY_find.h.  Here the haystack and needle are lists (read only, so
    aliasing is irrelevant); an element read outside the haystack is [None].
    A candidate memmem takes the two byte lists and returns the offset of the match. *)
Definition memmem_t := list Z -> list Z -> option nat.

(** LEGACY_find.h:15-34 [lfind(haystack, needle)] and 36-58 [lfind(.., start)]:
    release build, the assert is compiled out and start is clamped. *)
Definition clamp0 (start size : Z) : Z :=
  let start := if 0 <? start then start else 0 in
  if start <? size then start else size.
Definition lfind (mm : memmem_t) (h n : list Z) (start : Z) : Z :=
  let size := Z.of_nat (length h) in
  let start := clamp0 start size in
  match mm (skipn (Z.to_nat start) h) n with
  | Some k => start + Z.of_nat k
  | None => -1
  end.

(** LEGACY_find.h:60-86 [lfind(.., start, end)].  [size - start] is cast to
    size_t: when it is negative the search runs off the haystack ([None]). *)
Definition lfind_between (mm : memmem_t) (h n : list Z) (start end_ : Z) : option Z :=
  let size := Z.of_nat (length h) in
  let start := clamp0 start size in
  let size := if size <? end_ then size else end_ in
  let size := if 0 <? size then size else 0 in
  if size - start <? 0 then None else
  Some (match mm (firstn (Z.to_nat (size - start)) (skipn (Z.to_nat start) h)) n with
        | Some k => start + Z.of_nat k
        | None => -1
        end).

(** The compare loop shared by lmatch (108-112) and rmatch (152-156):
    [for (; search < end; search++, match++) if ( *search != *match) return false]. *)
Fixpoint match_loop (h : list Z) (at_ : nat) (n : list Z) : option bool :=
  match n with
  | [] => Some true
  | c :: n' =>
      match nth_error h at_ with
      | None => None
      | Some d => if c =? d then match_loop h (S at_) n' else Some false
      end
  end.

(** LEGACY_find.h:88-115 [lmatch]. *)
Definition lmatch (h n : list Z) (start : Z) : option bool :=
  let size := Z.of_nat (length h) in
  let start := if 0 <=? start then start else 0 in
  let start := if start <=? size then start else size in
  if size - start <? Z.of_nat (length n) then Some false
  else match_loop h (Z.to_nat start) n.

(** LEGACY_find.h:131-159 [rmatch]. *)
Definition rmatch (h n : list Z) (start : Z) : option bool :=
  let size := Z.of_nat (length h) in
  let start := if 0 <=? start then start else 0 in
  let start := if start <=? size then start else size in
  if size - start <? Z.of_nat (length n) then Some false
  else match_loop h (Z.to_nat (size - start)) n.
