(** Stable de-duplication: keep the first occurrence of each item. *)
From Verif Require Import Common.
Section S.
Context {Str : Type} (eq_dec : forall a b : Str, {a = b} + {a <> b}).
Fixpoint keep_first (seen l : list Str) : list Str :=
  match l with
  | [] => []
  | x :: r => if in_dec eq_dec x seen then keep_first seen r else x :: keep_first (x :: seen) r
  end.
End S.
