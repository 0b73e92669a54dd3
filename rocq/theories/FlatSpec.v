(** Specification of the flat containers: what a user of src/flat.fu expects,
    stated without reference to how the containers store their keys.
    A set over K is its membership predicate; a map is a partial function;
    a counted set is a multiplicity function. *)
From Verif Require Import Common.

Section S.
Context {K : Type}.

(** One user-level operation on a set, with the result it must report. *)
Inductive sop := SAdd (k : K) | SRemove (k : K) | SClear
               | SAddAll (b : list K) | SKeep (b : list K) | SRemoveAll (b : list K).

(** Members after the operation, given the members before. *)
Definition spec_after (o : sop) (mem : K -> Prop) : K -> Prop :=
  match o with
  | SAdd k => fun x => x = k \/ mem x
  | SRemove k => fun x => x <> k /\ mem x
  | SClear => fun _ => False
  | SAddAll b => fun x => In x b \/ mem x
  | SKeep b => fun x => mem x /\ In x b
  | SRemoveAll b => fun x => mem x /\ ~ In x b
  end.

Fixpoint spec_run (os : list sop) (mem : K -> Prop) : K -> Prop :=
  match os with [] => mem | o :: os' => spec_run os' (spec_after o mem) end.

(** Map operations. *)
Context {V : Type}.
Inductive mop := MSet (k : K) (v : V) | MRemove (k : K) | MClear
               | MModify (k : K) (init : V) (f : V -> V).

Definition mspec_after (eqb : K -> K -> bool) (o : mop) (m : K -> option V) : K -> option V :=
  match o with
  | MSet k v => fun x => if eqb x k then Some v else m x
  | MRemove k => fun x => if eqb x k then None else m x
  | MClear => fun _ => None
  | MModify k init f => fun x => if eqb x k
        then Some (f (match m k with Some v => v | None => init end)) else m x
  end.
Fixpoint mspec_run eqb (os : list mop) (m : K -> option V) : K -> option V :=
  match os with [] => m | o :: os' => mspec_run eqb os' (mspec_after eqb o m) end.

(** Counted-set operations; the state is the multiplicity of each key. *)
Inductive cop := CIncr (k : K) | CDecr (k : K) | CRemove (k : K) | CClear.
Definition cspec_after (eqb : K -> K -> bool) (o : cop) (m : K -> nat) : K -> nat :=
  match o with
  | CIncr k => fun x => if eqb x k then S (m x) else m x
  | CDecr k => fun x => if eqb x k then Nat.pred (m x) else m x
  | CRemove k => fun x => if eqb x k then 0 else m x
  | CClear => fun _ => 0
  end.
Fixpoint cspec_run eqb (os : list cop) (m : K -> nat) : K -> nat :=
  match os with [] => m | o :: os' => cspec_run eqb os' (cspec_after eqb o m) end.
End S.
Arguments sop : clear implicits.
Arguments mop : clear implicits.
Arguments cop : clear implicits.

(** Sum of multiplicities over a list of keys. *)
Fixpoint msum {K : Type} (mu : K -> nat) (U : list K) : nat :=
  match U with [] => 0 | k :: U' => mu k + msum mu U' end.
