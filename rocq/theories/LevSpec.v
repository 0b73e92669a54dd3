(** Edit distance, independently of any algorithm. *)
From Verif Require Import Common.

(** One single-character insertion, deletion or substitution anywhere. *)
Inductive edit1 : list Z -> list Z -> Prop :=
| E_ins p x s : edit1 (p ++ s) (p ++ x :: s)
| E_del p x s : edit1 (p ++ x :: s) (p ++ s)
| E_sub p x y s : edit1 (p ++ x :: s) (p ++ y :: s).

(** A script of exactly n edits. *)
Inductive edits : nat -> list Z -> list Z -> Prop :=
| Es_nil a : edits 0 a a
| Es_step n a b c : edits n a b -> edit1 b c -> edits (S n) a c.

Definition is_edit_distance (a b : list Z) (n : nat) : Prop :=
  edits n a b /\ forall m, edits m a b -> n <= m.
