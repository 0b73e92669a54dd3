(** Shared vocabulary of the models: out-of-bounds-aware array accesses on
    lists, fixed-width words, and the laws expected of a three-way comparison.
    No proofs here. *)
From Coq Require Export List Arith ZArith Lia Bool.
Export ListNotations.

(** ** Option monad *)
Definition obind {A B} (m : option A) (f : A -> option B) : option B :=
  match m with Some a => f a | None => None end.
Notation "'do' x <- m ; k" := (obind m (fun x => k))
  (at level 200, x binder, m at level 100, k at level 200).

(** ** Array primitives.
    fu arrays are modelled as lists; an access that the runtime would reject
    (or that would be undefined behaviour) is [None]. *)

(** [arr[i] = x]  (bounds-checked element reference; include/fu/vec.h:480-530
    and include/fu/view.h assert the index). *)
Fixpoint upd {A} (l : list A) (i : nat) (x : A) : option (list A) :=
  match l, i with
  | [], _ => None
  | _ :: t, O => Some (x :: t)
  | h :: t, S j => match upd t j x with Some t' => Some (h :: t') | None => None end
  end.

(** [arr.insert(i, x)]: requires i <= len (include/fu/vec.h insert). *)
Definition insert_at {A} (i : nat) (x : A) (l : list A) : option (list A) :=
  if i <=? length l then Some (firstn i l ++ x :: skipn i l) else None.

(** [arr.splice(i, n)]: removes n elements at i; requires i + n <= len. *)
Definition splice_out {A} (i n : nat) (l : list A) : option (list A) :=
  if i + n <=? length l then Some (firstn i l ++ skipn (i + n) l) else None.

(** [arr[a .. b]] for 0 <= a <= b <= len (include/fu/view.h get_view). *)
Definition sub_list {A} (a b : nat) (l : list A) : list A :=
  firstn (b - a) (skipn a l).

(** [arr.swap(i, j)]: std::swap(a.mutref(i), a.mutref(j))
    (include/fu/vec/view_swap.h:9-13); both accesses are bounds-checked. *)
Definition swap_at {A} (i j : nat) (l : list A) : option (list A) :=
  do x <- nth_error l i;
  do y <- nth_error l j;
  do l1 <- upd l i y;
  upd l1 j x.

(** ** The laws expected of [a <> b] (negative / zero / positive int). *)
Record cmp_lawful {K} (cmp : K -> K -> Z) : Prop := {
  cmp_zero  : forall a b, cmp a b = 0%Z <-> a = b;
  cmp_anti  : forall a b, (cmp a b < 0)%Z <-> (0 < cmp b a)%Z;
  cmp_trans : forall a b c, (cmp a b < 0)%Z -> (cmp b c < 0)%Z -> (cmp a c < 0)%Z
}.
