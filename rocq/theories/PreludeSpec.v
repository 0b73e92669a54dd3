(** What the array helpers should do, independently of their code (C26, C28, C29). *)
From Verif Require Export PreludeModel.
From Coq Require Export Permutation.
Open Scope nat_scope.

Section Spec.
Context {T : Type}.

(** [n] occurs in [h] at index [k]. *)
Definition occurs_at (h n : list T) (k : nat) : Prop :=
  exists pre suf, h = pre ++ n ++ suf /\ length pre = k.

(** [r] is the index of the first occurrence at or after [from] and ending by [to]; None when
    there is none. *)
Definition first_occurrence (h n : list T) (from to : nat) (r : option nat) : Prop :=
  let ok k := occurs_at h n k /\ from <= k /\ k + length n <= to in
  match r with
  | Some k => ok k /\ forall j, ok j -> k <= j
  | None => forall j, ~ ok j
  end.

(** [splits sep s ps]: ps are the pieces of s cut at every separator, scanning from the left. *)
Inductive splits (sep : list T) : list T -> list (list T) -> Prop :=
| splits_last : forall s, (forall k, ~ occurs_at s sep k) -> splits sep s [s]
| splits_more : forall p rest ps,
    (forall k, occurs_at (p ++ sep ++ rest) sep k -> length p <= k) ->
    splits sep rest ps -> splits sep (p ++ sep ++ rest) (p :: ps).

(** Concatenation with a separator between neighbours. *)
Fixpoint joined (sep : list T) (ps : list (list T)) : list T :=
  match ps with
  | [] => []
  | [p] => p
  | p :: ps' => p ++ sep ++ joined sep ps'
  end.
Definition sep_arr (s : sep_t (T := T)) : list T :=
  match s with SepNone => [] | SepItem c => [c] | SepArr l => l end.

(** Items with their indices. *)
Definition indexed (a : list T) : list (T * nat) := combine a (seq 0 (length a)).
End Spec.
