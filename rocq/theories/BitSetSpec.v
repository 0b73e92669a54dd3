(** A BitSet as a set of natural numbers (C16, C17). *)
From Verif Require Export BitSetModel.
From Coq Require Export Sorted.
Open Scope Z_scope.

(** i is a member: its bit is set. *)
Definition member (d : list Z) (i : nat) : Prop :=
  exists b, nth_error d (i / 8) = Some b /\ Z.testbit b (Z.of_nat (i mod 8)) = true.

(** Every byte is a byte, and the last one is not zero. *)
Definition canonical (d : list Z) : Prop :=
  Forall byte d /\ (d = [] \/ exists d' x, d = d' ++ [x] /\ x <> 0).

(** Everything the public operations can build, starting from nothing.  Index arguments are
    the non-negative ints. *)
Definition index (i : Z) := 0 <= i < 2 ^ 31.
Inductive built : list Z -> Prop :=
| b_new : built []
| b_clear d : built d -> built (clear d)
| b_clear_from d i d' : built d -> index i -> clear_from d i = Some d' -> built d'
| b_add d i d' r : built d -> index i -> add d i = Some (d', r) -> built d'
| b_remove d i d' r : built d -> index i -> remove d i = Some (d', r) -> built d'
| b_add_set d o d' : built d -> built o -> add_set d o = Some d' -> built d'
| b_remove_set d o d' : built d -> built o -> remove_set d o = Some d' -> built d'
| b_add_range d i d' : built d -> index i -> add_range d i = Some d' -> built d'
| b_negated d i d' : built d -> index i -> negated d i = Some d' -> built d'.
