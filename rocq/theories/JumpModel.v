(* Model of the removal of redundant jumps by src/solver.fu, propagateType.
   The types of the expressions, the discarding of unused items, `defer`, the
   copy-or-move decisions and the wrapping of the expression of a jump to a
   block whose value is irrelevant (5182-5201, 5226-5238) are left out; the
   items of a block are a chain of Seq; the arguments of a call are two. *)
Require Import List Arith Bool.
From Verif Require Import JumpSpec.

(* HM_LabelUsed of a block, as the occurrence of a jump to it that was kept
   (src/solver.fu:5176-5178 sets it, 5279-5282 clears it on entry) *)
Fixpoint uses (g : nat) (e : ex) : bool :=
  match e with
  | Empty => false
  | Op _ a b | And a b | Or a b | Seq a b => uses g a || uses g b
  | If c a b => uses g c || uses g a || uses g b
  | Rep _ b => uses g b
  | Jump h e0 => Nat.eqb g h || uses g e0
  | Block _ _ e0 => uses g e0
  end.

(* is_never, as far as it can be seen from the expression itself: in the
   compiler it is a type, which operations have as well *)
Fixpoint never (e : ex) : bool :=
  match e with
  | Jump _ _ => true
  | If _ a b => never a && never b
  | Seq _ b => never b
  | Block h _ e0 => never e0 && negb (uses h e0)
  | _ => false
  end.

(* tryInjectJumps, injectJumps (src/solver.fu:5209-5259) *)
Fixpoint inject (h : nat) (e : ex) : ex :=
  if never e then e else
  match e with
  | Block g k e0 => if uses g e0 then Jump h e else Block g k (inject h e0)
  | Seq a b => Seq a (inject h b)
  | If c a b => If c (inject h a) (inject h b)
  | _ => Jump h e
  end.

(* while (h.kills) h = h.kills  (src/solver.fu:5128-5130) *)
Fixpoint chase (fuel : nat) (kills : nat -> option nat) (h : nat) : nat :=
  match fuel with
  | O => h
  | S fuel' => match kills h with Some k => chase fuel' kills k | None => h end
  end.

(* redundant = kills && kills.index <= h.index (src/solver.fu:5162) *)
Definition redundant (kills : option nat) (h : nat) : bool :=
  match kills with Some k => Nat.leb k h | None => false end.

(* kills || h, unless in a function that returns a value (src/solver.fu:5391) *)
Definition tail_kills (k : kind) (kills : option nat) (h : nat) : option nat :=
  match k with
  | ValueFn => None
  | _ => match kills with Some k => Some k | None => Some h end
  end.

(* one item only *)
Definition single (e : ex) : bool := match e with Seq _ _ => false | _ => true end.

(* the tail item is an unlabelled block: unwrap it (src/solver.fu:5476-5486) *)
Fixpoint splice (e : ex) : ex :=
  match e with
  | Seq a b => Seq a (splice b)
  | Block g Plain e0 => if uses g e0 then e else e0
  | _ => e
  end.

(* Unwrap single item blocks, else unwrap the tail (src/solver.fu:5434-5488) *)
Definition finish (h : nat) (k : kind) (e : ex) : ex :=
  match k with
  | Plain => if single e && negb (uses h e) then e else Block h k (splice e)
  | _ => Block h k (splice e)
  end.

(* propagateType: kills is the block the value of the expression is the value
   of, outer is h.kills of the blocks around it.  if (src/solver.fu:4440-4457),
   and/or (4396-4401),
   a && never, a || never among the items of a block (5310-5345), jump (5126-5260), block (5263-5474) *)
Fixpoint simp (kills : option nat) (outer : nat -> option nat) (e : ex) : ex :=
  match e with
  | Empty => Empty
  | Op n a b => Op n (simp None outer a) (simp None outer b)
  | If c a b => If (simp None outer c) (simp kills outer a) (simp kills outer b)
  | And a b => And (simp None outer a) (simp None outer b)
  | Or a b => Or (simp None outer a) (simp None outer b)
  | Rep n b => Rep n (simp None outer b)
  | Seq a b =>
      match a with
      | And a0 c =>
          if never c then If (simp None outer a0) (simp kills outer c) (simp kills outer b)
          else Seq (And (simp None outer a0) (simp None outer c)) (simp kills outer b)
      | Or a0 c =>
          if never c then If (simp None outer a0) (simp kills outer b) (simp kills outer c)
          else Seq (Or (simp None outer a0) (simp None outer c)) (simp kills outer b)
      | _ => Seq (simp None outer a) (simp kills outer b)
      end
  | Jump h0 e0 =>
      let h := chase (S h0) outer h0 in
      if redundant kills h
      then simp kills outer e0
      else inject h (simp (Some h) outer e0)
  | Block h k e0 =>
      let outer' := fun g => if Nat.eqb g h then kills else outer g in
      finish h k (simp (tail_kills k kills h) outer' e0)
  end.

(* the body of a function: nothing around it *)
Definition simplify (e : ex) : ex := simp None (fun _ => None) e.
