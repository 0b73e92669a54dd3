(* What an expression with labelled blocks and jumps means, with the value
   each block hands on.  Nothing here depends on the compiler.

   An expression is evaluated in a state; it either finishes with a value or
   jumps, with a value, to the end of the block with the given label.  Blocks
   are numbered in the order in which they are entered by the compiler, so a
   block inside another has the larger number. *)
Require Import List Arith Bool.

Inductive ex : Type :=
| Empty                                   (* the empty expression *)
| Op (n : nat) (a b : ex)                 (* a call: both arguments, then operation n *)
| If (c a b : ex)
| And (a b : ex)                          (* a && b *)
| Or (a b : ex)                           (* a || b *)
| Rep (n : nat) (b : ex)                  (* repeat b as often as the state says *)
| Seq (a b : ex)                          (* a; b  (the items of a block) *)
| Jump (h : nat) (e : ex)                 (* leave block h with the value of e *)
| Block (h : nat) (k : kind) (e : ex)     (* :h { e } *)
with kind : Type :=
| Plain                                   (* not a function's *)
| VoidFn                                  (* the body of a function returning nothing *)
| ValueFn.                                (* the body of a function returning a value *)

Section Meaning.
  Context {St V : Type}.
  Variable op : nat -> V -> V -> St -> St * V.
  Variable truthy : V -> bool.
  Variable nothing : V.
  Variable times : nat -> St -> nat.

  Inductive res := Val (v : V) | Out (h : nat) (v : V).

  Definition bind (r : St * res) (k : St -> V -> St * res) : St * res :=
    match snd r with Val v => k (fst r) v | Out h v => (fst r, Out h v) end.

  Definition catch (h : nat) (r : St * res) : St * res :=
    match snd r with
    | Val v => (fst r, Val v)
    | Out g v => if Nat.eqb g h then (fst r, Val v) else (fst r, Out g v)
    end.

  Fixpoint again (k : nat) (body : St -> St * res) (s : St) : St * res :=
    match k with
    | O => (s, Val nothing)
    | S k' => bind (body s) (fun s' _ => again k' body s')
    end.

  Fixpoint ev (e : ex) (s : St) {struct e} : St * res :=
    match e with
    | Empty => (s, Val nothing)
    | Op n a b =>
        bind (ev a s) (fun s1 x =>
        bind (ev b s1) (fun s2 y =>
        (fst (op n x y s2), Val (snd (op n x y s2)))))
    | If c a b => bind (ev c s) (fun s1 x => if truthy x then ev a s1 else ev b s1)
    | And a b => bind (ev a s) (fun s1 x => if truthy x then ev b s1 else (s1, Val x))
    | Or a b => bind (ev a s) (fun s1 x => if truthy x then (s1, Val x) else ev b s1)
    | Rep n b => again (times n s) (ev b) s
    | Seq a b => bind (ev a s) (fun s1 _ => ev b s1)
    | Jump h e0 => bind (ev e0 s) (fun s1 x => (s1, Out h x))
    | Block h _ e0 => catch h (ev e0 s)
    end.
End Meaning.
Arguments Val {V}. Arguments Out {V}. Arguments res : clear implicits.

(* g is a target of a jump of e that is not a block of e *)
Fixpoint leaves_to (g : nat) (e : ex) : Prop :=
  match e with
  | Empty => False
  | Op _ a b | And a b | Or a b | Seq a b => leaves_to g a \/ leaves_to g b
  | If c a b => leaves_to g c \/ leaves_to g a \/ leaves_to g b
  | Rep _ b => leaves_to g b
  | Jump h e0 => g = h \/ leaves_to g e0
  | Block h _ e0 => g <> h /\ leaves_to g e0
  end.

(* the labels of the blocks of e are at least n, and grow inwards *)
Fixpoint numbered (n : nat) (e : ex) : Prop :=
  match e with
  | Empty => True
  | Op _ a b | And a b | Or a b | Seq a b => numbered n a /\ numbered n b
  | If c a b => numbered n c /\ numbered n a /\ numbered n b
  | Rep _ b => numbered n b
  | Jump _ e0 => numbered n e0
  | Block h _ e0 => n <= h /\ numbered (S h) e0
  end.

(* when the expression of a jump itself jumps out of that expression, it goes
   at least as far out as the jump it is in *)
Fixpoint outward (e : ex) : Prop :=
  match e with
  | Empty => True
  | Op _ a b | And a b | Or a b | Seq a b => outward a /\ outward b
  | If c a b => outward c /\ outward a /\ outward b
  | Rep _ b => outward b
  | Jump h e0 => (forall g, leaves_to g e0 -> g <= h) /\ outward e0
  | Block _ _ e0 => outward e0
  end.

(* the body of a function: jumps only to its own blocks, numbered inwards *)
Definition program (e : ex) : Prop :=
  numbered 0 e /\ forall g, ~ leaves_to g e.

(* both do the same in every state, whatever the operations are *)
Definition same (e e' : ex) : Prop :=
  forall (St V : Type) (op : nat -> V -> V -> St -> St * V)
         (truthy : V -> bool) (nothing : V) (times : nat -> St -> nat) (s : St),
    ev op truthy nothing times e s = ev op truthy nothing times e' s.

(* the last thing e does on some path is to jump to g *)
Fixpoint ends_in (g : nat) (e : ex) : Prop :=
  match e with
  | Jump h _ => g = h
  | If _ a b => ends_in g a \/ ends_in g b
  | Seq _ b => ends_in g b
  | Block _ ValueFn _ => False
  | Block _ _ e0 => ends_in g e0
  | _ => False
  end.

(* no block, other than the body of a function that returns a value, ends in a
   jump to its own end *)
Fixpoint tidy (e : ex) : Prop :=
  match e with
  | Empty => True
  | Op _ a b | And a b | Or a b | Seq a b => tidy a /\ tidy b
  | If c a b => tidy c /\ tidy a /\ tidy b
  | Rep _ b => tidy b
  | Jump _ e0 => tidy e0
  | Block h k e0 => tidy e0 /\ (k <> ValueFn -> ~ ends_in h e0)
  end.
