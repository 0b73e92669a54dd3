(** * C72: argument order in the solver and the code generator.

    src/module.fu:427-506 (argsForward, argsReverse), src/solver.fu:15424-15700
    (ensureArgSequencing, one call), src/codegen.fu:2318-2475 (cgCall, the
    sequencing of arguments). *)

From Coq Require Import List ZArith Bool Lia.
From Verif Require Import OrderSpec.
Import ListNotations.

(** ** Traversals of an argument list *)

(** src/module.fu:436-439: the key an argument is visited by; [late] is
    [F_IMPLICIT || is_mutref] *)
Definition key (rtl : bool) (i : nat) (late : bool) : bool :=
  if rtl then Nat.eqb i 0 else late.

Fixpoint keys_from (rtl : bool) (i : nat) (lates : list bool) : list bool :=
  match lates with
  | [] => []
  | l :: ls => key rtl i l :: keys_from rtl (S i) ls
  end.

(** src/module.fu:436-450: one pass; calls [(i, seqIdx, ooe_isLast)], the next
    [seqIdx], and whether an argument was left for another pass *)
Fixpoint fwd_pass (keys : list bool) (i : nat) (pass : bool) (seqIdx start n : nat)
  : list (nat * nat * bool) * nat * bool :=
  match keys with
  | [] => ([], seqIdx, false)
  | k :: ks =>
      if Bool.eqb pass k then
        let '(r, q, skipped) := fwd_pass ks (S i) pass (S seqIdx) start n in
        ((if Nat.leb start seqIdx then [(i, seqIdx, Nat.eqb seqIdx (n - 1))] else []) ++ r, q, skipped)
      else
        let '(r, q, _) := fwd_pass ks (S i) pass seqIdx start n in (r, q, true)
  end.

(** src/module.fu:427-451 argsForward *)
Definition args_forward (rtl : bool) (lates : list bool) (start : nat) : list (nat * nat * bool) :=
  let keys := keys_from rtl 0 lates in
  let n := length lates in
  let '(r0, q0, again) := fwd_pass keys 0 false 0 start n in
  if again then let '(r1, _, _) := fwd_pass keys 0 true q0 start n in r0 ++ r1 else r0.

(** src/module.fu:480-497: one pass from the right; calls
    [(i, revSeqIdx, ooe_isLast)].  The list is walked from its end: [keys] is
    given reversed, [i] counts down. *)
Fixpoint rev_pass (rkeys : list bool) (pass : bool) (q : nat) (last : bool)
  : list (nat * nat * bool) * nat * bool * bool :=
  match rkeys with
  | [] => ([], q, last, false)
  | k :: ks =>
      if Bool.eqb pass k then
        let '(r, q', last', skipped) := rev_pass ks pass (S q) false in
        ((length ks, q, last) :: r, q', last', skipped)
      else
        let '(r, q', last', _) := rev_pass ks pass q last in (r, q', last', true)
  end.

(** src/module.fu:471-498 argsReverse *)
Definition args_reverse (rtl : bool) (lates : list bool) : list (nat * nat * bool) :=
  let rkeys := rev (keys_from rtl 0 lates) in
  let '(r1, q1, last1, again) := rev_pass rkeys true 0 true in
  if again then let '(r0, _, _, _) := rev_pass rkeys false q1 last1 in r1 ++ r0 else r1.

Definition indices (l : list (nat * nat * bool)) : list nat := map (fun x => fst (fst x)) l.

(** ** The solver: which arguments must be sequenced *)

Definition region_eqb (a b : region) : bool :=
  match a, b with
  | Local x, Local y => Z.eqb x y
  | RefArg i, RefArg j => Nat.eqb i j
  | _, _ => false
  end.

(** src/solver.fu:15458-15460 has_inter; the two halves of Regions, locids and
    arguments, are kept apart by [region]'s constructors *)
Definition has_inter (a b : list region) : bool :=
  existsb (fun x => existsb (region_eqb x) b) a.

(** src/solver.fu:15485-15487 [|=] *)
Definition join (a b : footprint) : footprint :=
  {| reads := reads a ++ reads b; writes := writes a ++ writes b; moves := moves a ++ moves b |}.
Definition nothing : footprint := {| reads := []; writes := []; moves := [] |}.

(** src/solver.fu:15642-15655: the note, or none *)
Definition conflict (inner parallel : footprint) : bool :=
  (has_inter (moves inner) (reads parallel) || has_inter (moves parallel) (reads inner)
   || has_inter (writes inner) (reads parallel) || has_inter (writes parallel) (reads inner))%bool.

(** src/solver.fu:15656 [MUSTSEQ_mask |= 1 << (i & 31)] *)
Definition bit (i : nat) : Z := Z.shiftl 1 (Z.of_nat (Nat.modulo i 32)).

(** src/solver.fu:15592-15657: the arguments from last to first; [inner] is what
    the argument before this one touched, [parallel] what the ones before that
    did.  [fp] is what visiting an argument collects. *)
Fixpoint mustseq (fp : nat -> footprint) (l : list (nat * nat * bool))
    (inner parallel : footprint) (mask : Z) : Z :=
  match l with
  | [] => mask
  | (i, q, _) :: l =>
      let parallel :=
        match q with 0 => parallel | 1 => inner | _ => join parallel inner end in
      let inner := fp i in
      let mask := if conflict inner parallel then Z.lor mask (bit i) else mask in
      mustseq fp l inner parallel mask
  end.

(** src/solver.fu:15565-15570, 15663: only for calls whose arguments C++ leaves
    unsequenced *)
Definition mustseq_mask (rtl : bool) (lates : list bool) (fp : nat -> footprint) : Z :=
  if (negb rtl && Nat.ltb 1 (length lates))%bool
  then mustseq fp (args_reverse rtl lates) nothing nothing 0
  else 0.

(** ** The code generator: putting arguments into temporaries *)

(** src/codegen.fu:2357-2376: of an argument — it has no value ([discard]),
    there is nothing to emit for it ([junk]), it is a chain of fields of a
    variable ([chain]), it is converted to a view on the way ([slice]) *)
Record arg := { discard : bool; junk : bool; chain : bool; slice : bool }.

(** src/codegen.fu:3140-3150 isPointlessMustSeq *)
Definition pointless (a : arg) : bool := if slice a then false else chain a.

(** the value of 32 bits as an i32 *)
Definition i32 (z : Z) : Z := if Z.testbit z 31 then (z - 2 ^ 32)%Z else z.

(** src/codegen.fu:2351-2455: the arguments in order; gives the arguments
    evaluated in [ooe_header], in order, and those left in the call.  [None] is
    the BUG of 2403. *)
Fixpoint plan (rtl : bool) (lates : list bool) (args : nat -> arg) (mask : Z)
    (l : list (nat * nat * bool)) : option (list nat * list nat) :=
  match l with
  | [] => Some ([], [])
  | (i, seqIdx, _) :: l =>
      match plan rtl lates args mask l with
      | None => None
      | Some (header, inline) =>
          let a := args i in
          let must := negb (Z.eqb (Z.land mask (bit i)) 0) in
          let rest_pointless :=
            forallb (fun j => pointless (args j)) (indices (args_forward rtl lates (seqIdx + 1))) in
          if discard a then
            if junk a then (if must then None else Some (header, inline))
            else Some (i :: header, inline)
          else if must then
            if (pointless a
                || (Z.ltb (i32 (Z.land mask (Z.lnot (bit i)))) (i32 mask) && rest_pointless))%bool
            then Some (header, i :: inline)
            else Some (i :: header, inline)
          else Some (header, i :: inline)
      end
  end.

Definition cg_args (rtl : bool) (lates : list bool) (args : nat -> arg) (mask : Z)
  : option (list nat * list nat) :=
  plan rtl lates args mask (args_forward rtl lates 0).
