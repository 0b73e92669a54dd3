(** Model of threads that share vec blocks: include/fu/mem/arc.h (the counter) and the
    parts of include/fu/vec.h that read, copy, move, destroy and modify vecs.

    Any number of threads take turns in any order; each operation is split where it
    touches memory that another thread might touch.  Simplifications, stated once:
    - all vecs are of the big representation (the small one has no block), a block's
      contents is one value of an arbitrary type, and an in-place modification of it is
      one action (a bulk modification is a sequence of them); the element-level story is
      VecModel.v, where one thread at a time is considered.  A shared vec of plain data may
      be shortened by changing its own words only (vec.h:526-535): no block is involved;
    - a vec object belongs to one thread at a time, which may hand it over or lend it for
      reading through some synchronising channel: the language has no other way to share
      one;
    - a block's number is not reused, so the allocator's own synchronisation is not needed;
    - plain (non-atomic) reads give the latest value in the interleaving, which the
      theorems on races justify; the relaxed load of the counter may give an outdated
      value, as far as coherence allows;
    - elements are plain data (a block holds no reference to other blocks). *)
From Verif Require Export ArcThreadsSpec.
From Coq Require Import List Arith ZArith Bool Lia.
Import ListNotations.
Set Implicit Arguments.
Open Scope nat_scope.

Fixpoint put {X} (l : list X) (i : nat) (x : X) : list X :=
  match l, i with
  | [], _ => []
  | _ :: t, O => x :: t
  | h :: t, S j => h :: put t j x
  end.

Section Model.
Context {A : Type}.

(** Who has a vec object: its owner, or it is under way to a thread ([s] is the number of
    the sending action).  Not in the C++ code: this is the discipline the language's
    ownership rules impose on it. *)
Inductive own := Own (t : nat) | Transit (u s : nat).
Inductive lend := Offered (u s : nat) | Held (u : nat) | Returned (u s : nat).
Definition borrower (l : lend) : nat :=
  match l with Offered u _ => u | Held u => u | Returned u _ => u end.

(** vec.h:61-69: [big.data], and the sign bit of [big.PACK] ([true]: the vec believes its
    block is not shared, vec.h:123-139). *)
Record var := { v_own : own; v_lent : list lend; v_val : option (nat * bool) }.
(** arc.h:32: [m_arc] (number of references minus one) and the elements behind it. *)
Record blk := { k_live : bool; k_cnt : Z; k_val : A }.
(** Where a thread is inside an operation. *)
Inductive pc :=
| Idle
| Copy1 (v w b : nat)      (* vec.h:325 done: big copied *)
| Copy2 (v w b : nat)      (* vec.h:332-334 done: both marked shared *)
| Release (b : nat)        (* about to call decr, vec.h:267 *)
| Freeing (b : nat).       (* decr said "last one", vec.h:267-273 *)

Record st := { vars : list var; blks : list blk; pcs : list pc; tr : trace A }.

Definition with_val (x : var) (p : option (nat * bool)) : var :=
  {| v_own := v_own x; v_lent := v_lent x; v_val := p |}.
Definition with_own (x : var) (o : own) : var :=
  {| v_own := o; v_lent := v_lent x; v_val := v_val x |}.
Definition with_lent (x : var) (l : list lend) : var :=
  {| v_own := v_own x; v_lent := l; v_val := v_val x |}.

(** A thread may read a vec it owns or was lent; it may change one it owns and lends to nobody. *)
Definition reader (t : nat) (x : var) : Prop := v_own x = Own t \/ In (Held t) (v_lent x).
Definition sole (t : nat) (x : var) : Prop := v_own x = Own t /\ v_lent x = [].

Definition log (s : st) (t : nat) (a : action A) : trace A := tr s ++ [{| who := t; act := a |}].
Definition fresh (s : st) : nat := length (blks s).
Definition now (s : st) : nat := length (tr s).

Inductive step (acq : bool) (s : st) : st -> Prop :=
(** vec.h:569-602 [_Splice] with is_Init, and vec.h:155-160 [UNSAFE__WriteBig]: a vec built
    from elements; the block starts with counter 0 (arc.cpp:183-184, [new (header) fu_ARC()]). *)
| S_new t v x a : nth_error (pcs s) t = Some Idle -> nth_error (vars s) v = Some x ->
    sole t x -> v_val x = None ->
    step acq s {| vars := put (vars s) v (with_val x (Some (fresh s, true)));
                  blks := blks s ++ [{| k_live := true; k_cnt := 0; k_val := a |}];
                  pcs := pcs s; tr := log s t (ANew v (fresh s) a) |}
(** vec.h:213-219 [data()] and a read through it. *)
| S_read t v x b o k : nth_error (pcs s) t = Some Idle -> nth_error (vars s) v = Some x ->
    reader t x -> v_val x = Some (b, o) -> nth_error (blks s) b = Some k ->
    step acq s {| vars := vars s; blks := blks s; pcs := pcs s;
                  tr := log s t (ARead v b (k_val k)) |}
(** vec.h:324-330: the copy constructor reads the source's words. *)
| S_start t v w x y b o : nth_error (pcs s) t = Some Idle ->
    nth_error (vars s) v = Some x -> nth_error (vars s) w = Some y ->
    reader t x -> sole t y -> v_val x = Some (b, o) -> v_val y = None -> v <> w ->
    step acq s {| vars := vars s; blks := blks s; pcs := put (pcs s) t (Copy1 v w b);
                  tr := log s t (AStart v w b) |}
(** vec.h:334 [c.UNSAFE__MarkShared()]: a store to the (const) source, vec.h:148-153. *)
| S_mark t v w b x : nth_error (pcs s) t = Some (Copy1 v w b) -> nth_error (vars s) v = Some x ->
    step acq s {| vars := put (vars s) v
                    (with_val x (option_map (fun p => (fst p, false)) (v_val x)));
                  blks := blks s; pcs := put (pcs s) t (Copy2 v w b);
                  tr := log s t (AMark v b) |}
(** vec.h:337 [arc->incr()], arc.h:44-47; the new vec is marked shared (vec.h:332). *)
| S_incr t v w b y k : nth_error (pcs s) t = Some (Copy2 v w b) ->
    nth_error (vars s) w = Some y -> nth_error (blks s) b = Some k ->
    step acq s {| vars := put (vars s) w (with_val y (Some (b, false)));
                  blks := put (blks s) b {| k_live := k_live k; k_cnt := k_cnt k + 1; k_val := k_val k |};
                  pcs := put (pcs s) t Idle;
                  tr := log s t (AIncr v w b (k_cnt k + 1)) |}
(** vec.h:341-345 (move constructor), vec.h:361-368 (after the target was destroyed). *)
| S_move t v w x y p : nth_error (pcs s) t = Some Idle ->
    nth_error (vars s) v = Some x -> nth_error (vars s) w = Some y ->
    sole t x -> sole t y -> v_val x = Some p -> v_val y = None -> v <> w ->
    step acq s {| vars := put (put (vars s) w (with_val y (Some p))) v (with_val x None);
                  blks := blks s; pcs := pcs s; tr := log s t (AMove v w) |}
(** vec.h:231-247, 252-258 (destructor), up to the call of decr. *)
| S_drop t v x b o : nth_error (pcs s) t = Some Idle -> nth_error (vars s) v = Some x ->
    sole t x -> v_val x = Some (b, o) ->
    step acq s {| vars := put (vars s) v (with_val x None); blks := blks s;
                  pcs := put (pcs s) t (Release b); tr := log s t (ADrop v b) |}
(** vec.h:265-267, arc.h:49-55 [decr]: true when the counter was 0. *)
| S_decr t b k : nth_error (pcs s) t = Some (Release b) -> nth_error (blks s) b = Some k ->
    step acq s {| vars := vars s;
                  blks := put (blks s) b {| k_live := k_live k; k_cnt := k_cnt k - 1; k_val := k_val k |};
                  pcs := put (pcs s) t (if Z.eqb (k_cnt k) 0 then Freeing b else Idle);
                  tr := log s t (ADecr b (k_cnt k - 1)) |}
(** vec.h:268-272: destructors and fu_ARC_DEALLOC. *)
| S_free t b k : nth_error (pcs s) t = Some (Freeing b) -> nth_error (blks s) b = Some k ->
    step acq s {| vars := vars s;
                  blks := put (blks s) b {| k_live := false; k_cnt := k_cnt k; k_val := k_val k |};
                  pcs := put (pcs s) t Idle; tr := log s t (AFree b) |}
(** vec.h:377-400, 539-541 [slow_check_unique], arc.h:57-60 [unique]: the load gives what some
    action [r] stored, provided the thread does not know of a later one (coherence). *)
| S_check t v x b o r er c : nth_error (pcs s) t = Some Idle -> nth_error (vars s) v = Some x ->
    sole t x -> v_val x = Some (b, o) ->
    nth_error (tr s) r = Some er -> stores (act er) b = Some c ->
    (forall r' er', r < r' -> nth_error (tr s) r' = Some er' -> stores (act er') b <> None ->
       ~ known acq (tr s) t r') ->
    step acq s {| vars := if Z.eqb c 0 then put (vars s) v (with_val x (Some (b, true))) else vars s;
                  blks := blks s; pcs := pcs s;
                  tr := log s t (ACheck v b r (Z.eqb c 0)) |}
(** vec.h:468-509: enough capacity and the mark says "not shared": in place. *)
| S_write t v x b k f : nth_error (pcs s) t = Some Idle -> nth_error (vars s) v = Some x ->
    sole t x -> v_val x = Some (b, true) -> nth_error (blks s) b = Some k ->
    step acq s {| vars := vars s;
                  blks := put (blks s) b {| k_live := k_live k; k_cnt := k_cnt k; k_val := f (k_val k) |};
                  pcs := pcs s; tr := log s t (AWrite v b f) |}
(** vec.h:555-598, 650-687: reallocate, copy the old elements, then release the old block. *)
| S_clone t v x b o k f : nth_error (pcs s) t = Some Idle -> nth_error (vars s) v = Some x ->
    sole t x -> v_val x = Some (b, o) -> nth_error (blks s) b = Some k ->
    step acq s {| vars := put (vars s) v (with_val x (Some (fresh s, true)));
                  blks := blks s ++ [{| k_live := true; k_cnt := 0; k_val := f (k_val k) |}];
                  pcs := put (pcs s) t (Release b); tr := log s t (AClone v b (fresh s) f) |}
(** vec.h:609-647, 298-313: elements with destructors are moved to the new block and the old
    one is freed without touching its counter; only if the mark (or a check just before,
    vec.h:612) says "not shared". *)
| S_grow t v x b k f : nth_error (pcs s) t = Some Idle -> nth_error (vars s) v = Some x ->
    sole t x -> v_val x = Some (b, true) -> nth_error (blks s) b = Some k ->
    step acq s {| vars := put (vars s) v (with_val x (Some (fresh s, true)));
                  blks := put (blks s) b {| k_live := false; k_cnt := k_cnt k; k_val := k_val k |}
                          ++ [{| k_live := true; k_cnt := 0; k_val := f (k_val k) |}];
                  pcs := pcs s; tr := log s t (AGrow v b (fresh s) f) |}
(** Handing over and lending (no counterpart in vec.h, see above). *)
| S_send t v x u : nth_error (pcs s) t = Some Idle -> nth_error (vars s) v = Some x -> sole t x ->
    step acq s {| vars := put (vars s) v (with_own x (Transit u (now s))); blks := blks s;
                  pcs := pcs s; tr := log s t (ASend v u) |}
| S_recv u v x i : nth_error (pcs s) u = Some Idle -> nth_error (vars s) v = Some x ->
    v_own x = Transit u i ->
    step acq s {| vars := put (vars s) v (with_own x (Own u)); blks := blks s;
                  pcs := pcs s; tr := log s u (ARecv v) |}
| S_lend t v x u : nth_error (pcs s) t = Some Idle -> nth_error (vars s) v = Some x ->
    v_own x = Own t -> Forall (fun l => borrower l <> u) (v_lent x) ->
    step acq s {| vars := put (vars s) v (with_lent x (Offered u (now s) :: v_lent x));
                  blks := blks s; pcs := pcs s; tr := log s t (ALend v u) |}
| S_accept u v x i l1 l2 : nth_error (pcs s) u = Some Idle -> nth_error (vars s) v = Some x ->
    v_lent x = l1 ++ Offered u i :: l2 ->
    step acq s {| vars := put (vars s) v (with_lent x (l1 ++ Held u :: l2));
                  blks := blks s; pcs := pcs s; tr := log s u (AAccept v) |}
| S_give u v x l1 l2 : nth_error (pcs s) u = Some Idle -> nth_error (vars s) v = Some x ->
    v_lent x = l1 ++ Held u :: l2 ->
    step acq s {| vars := put (vars s) v (with_lent x (l1 ++ Returned u (now s) :: l2));
                  blks := blks s; pcs := pcs s; tr := log s u (AGive v) |}
| S_reclaim t v x u i l1 l2 : nth_error (pcs s) t = Some Idle -> nth_error (vars s) v = Some x ->
    v_own x = Own t -> v_lent x = l1 ++ Returned u i :: l2 ->
    step acq s {| vars := put (vars s) v (with_lent x (l1 ++ l2));
                  blks := blks s; pcs := pcs s; tr := log s t (AReclaim v u) |}.

(** At the start every variable is an empty vec of some thread, and nothing is allocated. *)
Definition start (owners : list nat) (threads : nat) : st :=
  {| vars := map (fun t => {| v_own := Own t; v_lent := []; v_val := None |}) owners;
     blks := []; pcs := repeat Idle threads; tr := [] |}.

Inductive reach (acq : bool) (owners : list nat) (threads : nat) : st -> Prop :=
| R_start : reach acq owners threads (start owners threads)
| R_step s s' : reach acq owners threads s -> step acq s s' -> reach acq owners threads s'.
End Model.
Arguments st : clear implicits.
Arguments blk : clear implicits.
