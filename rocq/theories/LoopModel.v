(** * C75: the code for loops and jumps.

    src/codegen.fu:2072-2127 (cgJump), 1101-1214 and 1000-1027 (cgBlock),
    3250-3312 (cgLoop), 2956-2978 (cgIf).  Expressions, values of blocks and
    jumps with a value are not modelled; the layout is (C73). *)

From Coq Require Import List Arith Bool.
From Verif Require Import LoopSpec.
Import ListNotations.

Section Code.

Variable W : Type.

(** The C++.  A label stands at the end of a block, in another pair of braces
    ([{ { ... } BL_n:; }]), or after a loop. *)
Inductive cst :=
| CAct (f : W -> W)
| CBreak
| CContinue
| CGoto (n : nat)
| CReturn
| CIf (c : cond W) (a : list cst) (la : option nat) (b : list cst) (lb : option nat)
| CBlock (ss : list cst) (l : option nat)
| CFor (init : option (W -> W)) (c : option (cond W)) (post : option (W -> W))
    (body : list cst) (lb : option nat) (l : option nat)
| CDo (body : list cst) (lb : option nat) (post : option (W -> W)) (c : cond W) (l : option nat).

Inductive cout := CDone | CBrk | CCnt | CGo (n : nat) | CRet.

(** A goto continues at the label. *)
Definition ccaught (l : option nat) (o : cout) : cout :=
  match l, o with
  | Some l, CGo n => if Nat.eqb n l then CDone else CGo n
  | _, _ => o
  end.

Definition cleaves (l : option nat) (r : option (cout * W)) : option (cout * W) :=
  match r with Some (o, w) => Some (ccaught l o, w) | None => None end.

(** How C++ runs: [break] leaves the innermost loop, [continue] goes on with what
    follows the body of the innermost loop. *)
Fixpoint cexec (fuel : nat) (x : cst) (w : W) : option (cout * W) :=
  match fuel with
  | O => None
  | S fuel =>
      match x with
      | CAct f => Some (CDone, f w)
      | CBreak => Some (CBrk, w)
      | CContinue => Some (CCnt, w)
      | CGoto n => Some (CGo n, w)
      | CReturn => Some (CRet, w)
      | CIf c a la b lb =>
          let (w1, t) := c w in
          if t then cleaves la (cexec_all fuel a w1) else cleaves lb (cexec_all fuel b w1)
      | CBlock ss l => cleaves l (cexec_all fuel ss w)
      | CFor init c post body lb l => cleaves l (crounds fuel c body lb post None (act init w))
      | CDo body lb post c l => cleaves l (crounds fuel None body lb post (Some c) w)
      end
  end
with cexec_all (fuel : nat) (ss : list cst) (w : W) : option (cout * W) :=
  match fuel with
  | O => None
  | S fuel =>
      match ss with
      | [] => Some (CDone, w)
      | x :: ss =>
          match cexec fuel x w with
          | Some (CDone, w1) => cexec_all fuel ss w1
          | r => r
          end
      end
  end
(** [for (; c; post) body] (no [until]); [do body while (post, until)] (no [c]) *)
with crounds (fuel : nat) (c : option (cond W)) (body : list cst) (lb : option nat)
    (post : option (W -> W)) (until : option (cond W)) (w : W) : option (cout * W) :=
  match fuel with
  | O => None
  | S fuel =>
      let (w1, t) := test c w in
      if t then
        match cleaves lb (cexec_all fuel body w1) with
        | Some (CDone, w3) | Some (CCnt, w3) =>
            let (w4, again) := test until (act post w3) in
            if again then crounds fuel c body lb post until w4 else Some (CDone, w4)
        | Some (CBrk, w3) => Some (CDone, w3)
        | r => r
        end
      else Some (CDone, w1)
  end.

(** codegen.fu:1194, 3292: [src.has("goto " ~ name ~ ";")] *)
Fixpoint uses (n : nat) (x : cst) : bool :=
  match x with
  | CGoto m => Nat.eqb m n
  | CIf _ a _ b _ => existsb (uses n) a || existsb (uses n) b
  | CBlock ss _ => existsb (uses n) ss
  | CFor _ _ _ ss _ _ => existsb (uses n) ss
  | CDo ss _ _ _ _ => existsb (uses n) ss
  | _ => false
  end.

Definition label (n : nat) (code : list cst) : option nat :=
  if existsb (uses n) code then Some n else None.

(** codegen.fu:180-181, [_current_fn.blocks] (latest first; a block without a name
    has no helpers) *)
Record env := Env { brk : option nat; cnt : option nat; blocks : list (option nat * nat) }.

Definition is (h : nat) (o : option nat) : bool :=
  match o with Some k => Nat.eqb h k | None => false end.

(** codegen.fu:2078-2092: findBlock *)
Fixpoint find_block (h : nat) (bs : list (option nat * nat)) : option nat :=
  match bs with
  | [] => None
  | (o, n) :: bs => if is h o then Some n else find_block h bs
  end.

Definition push (b : option nat * nat) (e : env) : env := Env (brk e) (cnt e) (b :: blocks e).

(** [n] is [_current_fn.num_labels]; [None] is [BUG]. *)
Fixpoint gen (e : env) (x : st W) (n : nat) : option (cst * nat) :=
  let fix gens (e : env) (ss : list (st W)) (n : nat) : option (list cst * nat) :=
    match ss with
    | [] => Some ([], n)
    | x :: ss =>
        match gen e x n with
        | None => None
        | Some (c, n) =>
            match gens e ss n with None => None | Some (cs, n) => Some (c :: cs, n) end
        end
    end in
  (* 1101-1214: cgBlock *)
  let block (e : env) (h : option nat) (ss : list (st W)) (n : nat) : option (list cst * option nat * nat) :=
    match gens (push (h, n) e) ss (S n) with
    | None => None
    | Some (code, m) => Some (code, label n code, m)
    end in
  match x with
  | Act f => Some (CAct f, n)
  | Return => Some (CReturn, n)
  (* 2072-2127: cgJump *)
  | Jump h =>
      match find_block h (blocks e) with
      | None => None
      | Some m => Some (if is h (brk e) then CBreak else if is h (cnt e) then CContinue else CGoto m, n)
      end
  | If c ha a hb b =>
      match block e ha a n with
      | None => None
      | Some (ca, la, n) =>
          match block e hb b n with
          | None => None
          | Some (cb, lb, n) => Some (CIf c ca la cb lb, n)
          end
      end
  | Block h ss =>
      match block e h ss n with
      | None => None
      | Some (code, l, n) => Some (CBlock code l, n)
      end
  (* 3250-3312: cgLoop; 1025-1026: the body's [can_cont] *)
  | Loop h init c pre hb body post until =>
      match pre, block (Env (Some h) hb ((Some h, n) :: blocks e)) hb body (S n) with
      | None, Some (code, lb, m) =>
          match until with
          | None => Some (CFor init c post code lb (label n code), m)
          | Some u =>
              match init, c with
              | None, None => Some (CDo code lb post u (label n code), m)
              | _, _ => None
              end
          end
      | _, _ => None
      end
  end.

Fixpoint gens (e : env) (ss : list (st W)) (n : nat) : option (list cst * nat) :=
  match ss with
  | [] => Some ([], n)
  | x :: ss =>
      match gen e x n with
      | None => None
      | Some (c, n) =>
          match gens e ss n with None => None | Some (cs, n) => Some (c :: cs, n) end
      end
  end.

Definition gen_block (e : env) (h : option nat) (ss : list (st W)) (n : nat) : option (list cst * option nat * nat) :=
  match gens (push (h, n) e) ss (S n) with
  | None => None
  | Some (code, m) => Some (code, label n code, m)
  end.

(** The body of a function. *)
Definition gen_fn (ss : list (st W)) : option (list cst) :=
  match gens (Env None None []) ss 0 with Some (code, _) => Some code | None => None end.

End Code.

Arguments CAct {W}. Arguments CBreak {W}. Arguments CContinue {W}. Arguments CGoto {W}. Arguments CReturn {W}.
Arguments CIf {W}. Arguments CBlock {W}. Arguments CFor {W}. Arguments CDo {W}.
Arguments cexec {W}. Arguments cexec_all {W}. Arguments crounds {W}. Arguments cleaves {W}.
Arguments uses {W}. Arguments label {W}. Arguments gen {W}. Arguments gens {W}. Arguments gen_block {W}.
Arguments gen_fn {W}.
