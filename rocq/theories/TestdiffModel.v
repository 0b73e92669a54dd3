(** Model of src/testdiff.fu.  Strings are an abstract type with a lawful [<>]
    (src/prelude.fu:794-831, see PreludeModel); std::sort (src/prelude.fu:297-322)
    is an oracle: any function that returns a sorted permutation. *)
From Verif Require Import Common.
From Coq Require Import Permutation Sorted.

(** What std::sort(first, last, less) guarantees for a strict total order. *)
Definition sort_ok (sort : forall A : Type, (A -> A -> bool) -> list A -> list A) : Prop :=
  forall (A : Type) (less : A -> A -> bool),
    (forall x, less x x = false) ->
    (forall x y z, less x y = true -> less y z = true -> less x z = true) ->
    forall l, (forall x y, In x l -> In y l -> x <> y -> less x y = true \/ less y x = true) ->
    Permutation l (sort A less l) /\
    StronglySorted (fun x y => less y x = false) (sort A less l).

Section T.
Context {Str : Type} (scmp : Str -> Str -> Z).
Context (sort : forall A : Type, (A -> A -> bool) -> list A -> list A).

(** src/testdiff.fu:12-13: diffs.data.map(|i, data| Dedupe(:data, index: i)). *)
Definition td_index (l : list Str) : list (Str * nat) := combine l (seq 0 (length l)).

(** src/testdiff.fu:30: (a.data <> b.data || a.index <> b.index) < 0. *)
Definition td_less1 (a b : Str * nat) : bool :=
  let c := scmp (fst a) (fst b) in
  let c' := if (c =? 0)%Z then (if snd a <? snd b then (-1)%Z else if snd b <? snd a then 1%Z else 0%Z) else c in
  (c' <? 0)%Z.

(** src/testdiff.fu:32-34: backwards loop, i = len-1 .. 1. *)
Fixpoint td_dedupe_loop (i : nat) (l : list (Str * nat)) : option (list (Str * nat)) :=
  match i with
  | O => Some l
  | S i' =>
    (* i --> 1 : test i > 1, then decrement *)
    if 1 <? i then
      do a <- nth_error l (i' - 1);
      do b <- nth_error l i';
      if (scmp (fst a) (fst b) =? 0)%Z
      then do l' <- splice_out i' 1 l; td_dedupe_loop i' l'
      else td_dedupe_loop i' l
    else Some l
  end.

(** src/testdiff.fu:36: a.index < b.index. *)
Definition td_less2 (a b : Str * nat) : bool := snd a <? snd b.

(** src/testdiff.fu:7-40 [serialize], up to the final [join()] (plain
    concatenation), which is applied to exactly this list. *)
Definition td_serialize_parts (l : list Str) : option (list Str) :=
  let d := sort _ td_less1 (td_index l) in
  do d' <- td_dedupe_loop (length d) d;
  Some (map fst (sort _ td_less2 d')).
End T.
