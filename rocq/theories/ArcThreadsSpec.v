(** What it means for threads to share vec blocks correctly: the actions a program
    performs, which memory each action touches, when one action happens before
    another (the C++ memory model's relation, for the operations used here), what a
    data race is, and which value each vec variable should hold.  Nothing in this
    file depends on the model of the code. *)
From Coq Require Import List Arith ZArith Bool Lia Relations.Relation_Operators.
Import ListNotations.
Set Implicit Arguments.

Section Spec.
Context {A : Type}.

(** One action of one thread.  Vec variables and blocks are numbered; a block's
    number is never used again. *)
Inductive action :=
| ANew (v b : nat) (x : A)           (* v becomes a vec with value x in a new block b *)
| ARead (v b : nat) (x : A)          (* v is read, giving x *)
| AStart (v w b : nat)               (* w is about to become a copy of v: v is looked at *)
| AMark (v b : nat)                  (* v is marked as shared *)
| AIncr (v w b : nat) (c : Z)        (* the counter of b goes up to c; w is now a copy of v *)
| AMove (v w : nat)                  (* v is moved into w *)
| ADrop (v b : nat)                  (* v is destroyed; its reference to b is to be released *)
| ADecr (b : nat) (c : Z)            (* the counter of b goes down to c *)
| AFree (b : nat)                    (* block b is given back to the allocator *)
| ACheck (v b r : nat) (ok : bool)   (* the counter of b is loaded; action r had stored what is
                                        read; if it says "not shared", v is marked so *)
| AWrite (v b : nat) (f : A -> A)    (* v is modified in place *)
| AClone (v b b' : nat) (f : A -> A) (* v is modified in a new block b', copied from b *)
| AGrow (v b b' : nat) (f : A -> A)  (* the elements of v move to a new block b'; b is freed *)
| ASend (v u : nat)                  (* v is handed to thread u through a queue or lock *)
| ARecv (v : nat)                    (* ... and received *)
| ALend (v u : nat)                  (* thread u may read and copy v (e.g. a parallel_for) *)
| AAccept (v : nat)
| AGive (v : nat)                    (* ... has finished with it *)
| AReclaim (v u : nat).              (* ... and the owner has waited for that *)

Record ev := { who : nat; act : action }.
Definition trace := list ev.

(** ** Memory touched *)
Inductive loc := LData (b : nat) | LCount (b : nat) | LWord (v : nat).
Inductive kind := Rd | Wr | At.   (* plain read, plain write, atomic operation *)

(** Elements of a block, counter of a block, and the words of the vec object itself. *)
Definition acc (a : action) : list (loc * kind) :=
  match a with
  | ANew v b _ => [(LWord v, Wr); (LData b, Wr); (LCount b, Wr)]
  | ARead v b _ => [(LWord v, Rd); (LData b, Rd)]
  | AStart v w b => [(LWord v, Rd)]
  | AMark v b => [(LWord v, Wr)]
  | AIncr v w b _ => [(LWord w, Wr); (LCount b, At)]
  | AMove v w => [(LWord v, Wr); (LWord w, Wr)]
  | ADrop v b => [(LWord v, Wr)]
  | ADecr b _ => [(LCount b, At)]
  | AFree b => [(LData b, Wr); (LCount b, Wr)]
  | ACheck v b r ok => [(LWord v, if ok then Wr else Rd); (LCount b, At)]
  | AWrite v b _ => [(LWord v, Wr); (LData b, Wr)]
  | AClone v b b' _ => [(LWord v, Wr); (LData b, Rd); (LData b', Wr); (LCount b', Wr)]
  | AGrow v b b' _ => [(LWord v, Wr); (LData b, Wr); (LCount b, Wr); (LData b', Wr); (LCount b', Wr)]
  | ASend _ _ | ARecv _ | ALend _ _ | AAccept _ | AGive _ | AReclaim _ _ => []
  end.

Definition clash (k1 k2 : kind) : Prop :=
  match k1, k2 with Rd, Rd => False | At, At => False | _, _ => True end.

(** Two actions touch [l], not both reading it and not both atomically. *)
Definition conflict (a1 a2 : action) (l : loc) : Prop :=
  exists k1 k2, In (l, k1) (acc a1) /\ In (l, k2) (acc a2) /\ clash k1 k2.

(** ** Happens before
    [acq] says whether the load of the counter that looks for "not shared" is an
    acquire load.  Between threads: a decrement (acq_rel) of a counter comes before
    any later decrement of it, and before a load with acquire that reads it or a later
    value; handing over, lending and taking back synchronise. *)
Definition syncs (acq : bool) (i : nat) (e1 e2 : ev) : Prop :=
  match act e1, act e2 with
  | ADecr b _, ADecr b' _ => b = b'
  | ADecr b _, ACheck _ b' r _ => acq = true /\ b = b' /\ i <= r
  | ASend v u, ARecv v' => v = v' /\ who e2 = u
  | ALend v u, AAccept v' => v = v' /\ who e2 = u
  | AGive v, AReclaim v' u => v = v' /\ who e1 = u
  | _, _ => False
  end.

Definition edge (acq : bool) (tr : trace) (i j : nat) : Prop :=
  exists e1 e2, nth_error tr i = Some e1 /\ nth_error tr j = Some e2 /\ i < j
    /\ (who e1 = who e2 \/ syncs acq i e1 e2).

Definition hb (acq : bool) (tr : trace) : nat -> nat -> Prop := clos_trans nat (edge acq tr).

(** Action [i] is in the past of thread [t]. *)
Definition known (acq : bool) (tr : trace) (t i : nat) : Prop :=
  exists j e, nth_error tr j = Some e /\ who e = t /\ (i = j \/ hb acq tr i j).

(** Actions [i] and [j] race on [l]. *)
Definition race (acq : bool) (tr : trace) (i j : nat) (l : loc) : Prop :=
  exists e1 e2, nth_error tr i = Some e1 /\ nth_error tr j = Some e2 /\ i < j
    /\ conflict (act e1) (act e2) l /\ ~ hb acq tr i j.

(** ** The value each vec variable should hold, as if nothing were shared *)
Definition set (m : nat -> option A) (v : nat) (x : option A) : nat -> option A :=
  fun w => if Nat.eqb w v then x else m w.
Definition vals_step (m : nat -> option A) (a : action) : nat -> option A :=
  match a with
  | ANew v _ x => set m v (Some x)
  | AIncr v w _ _ => set m w (m v)
  | AMove v w => set (set m w (m v)) v None
  | ADrop v _ => set m v None
  | AWrite v _ f | AClone v _ _ f | AGrow v _ _ f => set m v (option_map f (m v))
  | _ => m
  end.
Definition values (tr : trace) : nat -> option A :=
  fold_left (fun m e => vals_step m (act e)) tr (fun _ => None).

(** ** Freeing *)
Definition frees (a : action) (b : nat) : Prop :=
  match a with AFree b' => b' = b | AGrow _ b' _ _ => b' = b | _ => False end.
Definition touches (a : action) (b : nat) : Prop :=
  exists k, In (LData b, k) (acc a) \/ In (LCount b, k) (acc a).

(** The value an action leaves in the counter of [b]. *)
Definition stores (a : action) (b : nat) : option Z :=
  match a with
  | ANew _ b' _ | AClone _ _ b' _ | AGrow _ _ b' _ => if Nat.eqb b' b then Some 0%Z else None
  | AIncr _ _ b' c | ADecr b' c => if Nat.eqb b' b then Some c else None
  | _ => None
  end.
End Spec.
Arguments action : clear implicits.
Arguments ev : clear implicits.
Arguments trace : clear implicits.
