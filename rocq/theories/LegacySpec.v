(** What C44 means, independently of the code. *)
From Verif Require Export LegacyModel.
Open Scope Z_scope.

(** The elements of a view whose elements are esz bytes wide: element i is the
    list of bytes at address addr + i*esz. *)
Definition elem (M : Z -> Z) (esz : nat) (a : lview) (i : nat) : list Z :=
  bytes M (lv_addr a + Z.of_nat (i * esz)) esz.
Definition same_elements (M : Z -> Z) (esz : nat) (a b : lview) : Prop :=
  lv_size a = lv_size b /\ forall i, (i < lv_size a)%nat -> elem M esz a i = elem M esz b i.

(** Lexicographic order on byte strings, a proper prefix being smaller. *)
Inductive lex_lt : list Z -> list Z -> Prop :=
| lex_prefix : forall y b, lex_lt [] (y :: b)
| lex_head : forall x y a b, x < y -> lex_lt (x :: a) (y :: b)
| lex_tail : forall x a b, lex_lt a b -> lex_lt (x :: a) (x :: b).

(** The C standard's contract for memcmp: the sign of the difference of the
    first differing byte, zero when there is none. *)
Definition memcmp_ok (mc : memcmp_t) : Prop := forall M a b n,
  (mc M a b n = 0 <-> bytes M a n = bytes M b n) /\
  (mc M a b n < 0 <-> lex_lt (bytes M a n) (bytes M b n)).

(** The view's contents as a byte string (byte elements). *)
Definition str_of (M : Z -> Z) (a : lview) : list Z := bytes M (lv_addr a) (lv_size a).

(** [n] occurs in [h] at [k]. *)
Definition occurs_at (h n : list Z) (k : nat) : Prop := firstn (length n) (skipn k h) = n /\ (k + length n <= length h)%nat.
(** memmem's contract: the least occurrence. *)
Definition memmem_ok (mm : memmem_t) : Prop := forall h n,
  match mm h n with
  | Some k => occurs_at h n k /\ forall j, (j < k)%nat -> ~ occurs_at h n j
  | None => forall j, ~ occurs_at h n j
  end.
