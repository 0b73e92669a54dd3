(** * C75: loops and jumps.

    What it means for loops and jumps to run as written.  Nothing here refers to
    the compiler or to C++. *)

From Coq Require Import List Arith Bool.
Import ListNotations.

(** How a statement ends: normally, with a jump to the end of the block or loop
    [h], or with a return. *)
Inductive outcome := Done | To (h : nat) | Returned.

Section Loops.

(** The state of the program. *)
Variable W : Type.

Definition cond := W -> W * bool.

(** A block may have a name [h].  [Jump h] is every one of [break], [continue] and
    jumps to a label: [break] names a loop, [continue] the block that is the
    body of the loop.
    [Loop h init c pre hb body post until] is
    [for (init; c; post) on enter pre then body] or [do body while (until)]. *)
Inductive st :=
| Act (f : W -> W)
| Jump (h : nat)
| Return
| If (c : cond) (ha : option nat) (a : list st) (hb : option nat) (b : list st)
| Block (h : option nat) (ss : list st)
| Loop (h : nat) (init : option (W -> W)) (c : option cond) (pre : option (option nat * list st))
    (hb : option nat) (body : list st) (post : option (W -> W)) (until : option cond).

Definition act (f : option (W -> W)) (w : W) : W := match f with Some f => f w | None => w end.
Definition test (c : option cond) (w : W) : W * bool := match c with Some c => c w | None => (w, true) end.

(** A jump to the end of [h] ends there. *)
Definition caught (h : option nat) (o : outcome) : outcome :=
  match h, o with
  | Some h, To k => if Nat.eqb k h then Done else To k
  | _, _ => o
  end.

Definition leaves (h : option nat) (r : option (outcome * W)) : option (outcome * W) :=
  match r with Some (o, w) => Some (caught h o, w) | None => None end.

(** Running for at most [fuel] steps. *)
Fixpoint exec (fuel : nat) (x : st) (w : W) : option (outcome * W) :=
  match fuel with
  | O => None
  | S fuel =>
      match x with
      | Act f => Some (Done, f w)
      | Jump h => Some (To h, w)
      | Return => Some (Returned, w)
      | If c ha a hb b =>
          let (w1, t) := c w in
          if t then leaves ha (exec_all fuel a w1) else leaves hb (exec_all fuel b w1)
      | Block h ss => leaves h (exec_all fuel ss w)
      | Loop h init c pre hb body post until =>
          leaves (Some h) (rounds fuel c pre hb body post until (act init w))
      end
  end
with exec_all (fuel : nat) (ss : list st) (w : W) : option (outcome * W) :=
  match fuel with
  | O => None
  | S fuel =>
      match ss with
      | [] => Some (Done, w)
      | x :: ss =>
          match exec fuel x w with
          | Some (Done, w1) => exec_all fuel ss w1
          | r => r
          end
      end
  end
(** The rounds of a loop: the test, the first time round what is to be done on
    entry, the body, what comes after it, the test after it. *)
with rounds (fuel : nat) (c : option cond) (pre : option (option nat * list st)) (hb : option nat)
    (body : list st) (post : option (W -> W)) (until : option cond) (w : W) : option (outcome * W) :=
  match fuel with
  | O => None
  | S fuel =>
      let (w1, t) := test c w in
      if t then
        match match pre with Some (h, ss) => leaves h (exec_all fuel ss w1) | None => Some (Done, w1) end with
        | Some (Done, w2) =>
            match leaves hb (exec_all fuel body w2) with
            | Some (Done, w3) =>
                let (w4, again) := test until (act post w3) in
                if again then rounds fuel c None hb body post until w4 else Some (Done, w4)
            | r => r
            end
        | r => r
        end
      else Some (Done, w1)
  end.

(** Blocks and loops inside one another have different names ([hs] are those
    around). *)
Fixpoint scoped (hs : list nat) (x : st) : Prop :=
  let fix all (hs : list nat) (ss : list st) : Prop :=
    match ss with [] => True | x :: ss => scoped hs x /\ all hs ss end in
  let block (hs : list nat) (h : option nat) (ss : list st) : Prop :=
    match h with Some h => ~ In h hs /\ all (h :: hs) ss | None => all hs ss end in
  match x with
  | If _ ha a hb b => block hs ha a /\ block hs hb b
  | Block h ss => block hs h ss
  | Loop h _ _ pre hb body _ _ =>
      ~ In h hs /\ block (h :: hs) hb body /\
      match pre with Some (hp, ss) => block (h :: hs) hp ss | None => True end
  | _ => True
  end.

Fixpoint scoped_all (hs : list nat) (ss : list st) : Prop :=
  match ss with [] => True | x :: ss => scoped hs x /\ scoped_all hs ss end.

Definition scoped_block (hs : list nat) (h : option nat) (ss : list st) : Prop :=
  match h with Some h => ~ In h hs /\ scoped_all (h :: hs) ss | None => scoped_all hs ss end.

End Loops.

Arguments Act {W}. Arguments Jump {W}. Arguments Return {W}. Arguments If {W}. Arguments Block {W}.
Arguments Loop {W}. Arguments act {W}. Arguments test {W}. Arguments leaves {W}.
Arguments exec {W}. Arguments exec_all {W}. Arguments rounds {W}.
Arguments scoped {W}. Arguments scoped_all {W}. Arguments scoped_block {W}.
