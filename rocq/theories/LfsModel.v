(** Model of include/lockfree/stack.hpp (the task stack): any number of threads, interleaved at every access to
    shared memory.  Words and pointers are u64s (Z).  Simplifications: accesses are sequentially consistent
    (the code asks for relaxed/acquire/release), and a debug build's assertions are not steps: they are the
    predicate [tag_assert]. *)
From Verif Require Export Words.
Open Scope Z_scope.

(** stack.hpp:25-28; [a] is ALIGN_BITS *)
Definition PTR_48 : Z := 0x0000ffffffffffff.
Definition PTR_4x (a : Z) : Z := Z.land PTR_48 (Z.lxor (wsub 64 (wshl 64 1 a) 1) (2 ^ 64 - 1)).
(** stack.hpp:40 *)
Definition tag_assert (a ptr : Z) : bool := Z.land ptr (Z.lxor (PTR_4x a) (2 ^ 64 - 1)) =? 0.
(** stack.hpp:33-45 *)
Definition tag (a ptr lastID : Z) : Z := Z.lor (wshr ptr a) (wshl 64 (wadd 64 lastID 1) (48 - a)).
(** stack.hpp:47-52 *)
Definition untag (a tagged : Z) : Z := Z.land (wshl 64 tagged a) PTR_48.
(** stack.hpp:54-57 *)
Definition tagof (a tagged : Z) : Z := wshr tagged (48 - a).

(** Where a thread is.  [chain]: the nodes being pushed, first to last (the code sees only the two ends).
    [v] is bookkeeping for the statements, not part of the code: how many updates of head had succeeded when
    state0 was read. *)
Inductive pc :=
| Idle
| PushLoad (chain : list Z)                              (* about to run stack.hpp:67 *)
| PushStore (chain : list Z) (state0 : Z) (v : nat)      (* 72 *)
| PushCas (chain : list Z) (state0 : Z) (v : nat)        (* 79 *)
| PushDone
| PopLoad                                                (* 91 *)
| PopNode (state0 : Z) (v : nat)                         (* 96-100 *)
| PopCas (state0 state1 : Z) (v : nat)                   (* 104 *)
| PopDone (node : Z).                                    (* 113 *)

(** [held n]: the clients hold node n: it is neither in the stack nor in the hands of an operation.
    [updates] counts the successful updates of head (bookkeeping). *)
Record state := { head : Z; next : Z -> Z; held : Z -> bool; pcs : nat -> pc; updates : nat }.
Definition setf {A} (f : nat -> A) (t : nat) (x : A) : nat -> A := fun u => if Nat.eqb u t then x else f u.
Definition setz {A} (f : Z -> A) (n : Z) (x : A) : Z -> A := fun m => if m =? n then x else f m.
Definition give_away (held : Z -> bool) (chain : list Z) : Z -> bool :=
  fun n => if in_dec Z.eq_dec n chain then false else held n.

Inductive event :=
| CallPush (t : nat) (chain : list Z) | RetPush (t : nat)
| CallPop (t : nat) | RetPop (t : nat) (node : Z).

(** What a caller hands in: non-null pointers of 48 bits, aligned. *)
Definition node_ok (a n : Z) : Prop := 0 < n < 2 ^ 48 /\ n mod 2 ^ a = 0.
Fixpoint linked (next : Z -> Z) (chain : list Z) (end_ : Z) : Prop :=
  match chain with
  | [] => True
  | [n] => next n = end_
  | n :: ((m :: _) as r) => next n = m /\ linked next r end_
  end.
Definition hd0 (l : list Z) : Z := match l with [] => 0 | n :: _ => n end.
Definition last0 (l : list Z) : Z := last l 0.

Inductive step (a : Z) (s : state) : option event -> state -> Prop :=
(** A client calls push with a chain of nodes it holds, linked through next from the first to the last. *)
| call_push t chain e : pcs s t = Idle -> chain <> [] -> NoDup chain ->
    (forall n, In n chain -> held s n = true /\ node_ok a n) -> linked (next s) chain e ->
    step a s (Some (CallPush t chain)) {| head := head s; next := next s; held := give_away (held s) chain; pcs := setf (pcs s) t (PushLoad chain); updates := updates s |}
(** 67-68 *)
| push_load t chain : pcs s t = PushLoad chain ->
    step a s None {| head := head s; next := next s; held := held s; pcs := setf (pcs s) t (PushStore chain (head s) (updates s)); updates := updates s |}
(** 72-73 *)
| push_store t chain s0 v : pcs s t = PushStore chain s0 v ->
    step a s None {| head := head s; next := setz (next s) (last0 chain) (untag a s0); held := held s; pcs := setf (pcs s) t (PushCas chain s0 v); updates := updates s |}
(** 75-82: the exchange succeeds *)
| push_cas_ok t chain s0 v : pcs s t = PushCas chain s0 v -> head s = s0 ->
    step a s None {| head := tag a (hd0 chain) (tagof a s0); next := next s; held := held s; pcs := setf (pcs s) t PushDone; updates := S (updates s) |}
(** 79-85: it fails, possibly spuriously (weak); state0 becomes the current head *)
| push_cas_fail t chain s0 v : pcs s t = PushCas chain s0 v ->
    step a s None {| head := head s; next := next s; held := held s; pcs := setf (pcs s) t (PushStore chain (head s) (updates s)); updates := updates s |}
| ret_push t : pcs s t = PushDone ->
    step a s (Some (RetPush t)) {| head := head s; next := next s; held := held s; pcs := setf (pcs s) t Idle; updates := updates s |}
| call_pop t : pcs s t = Idle ->
    step a s (Some (CallPop t)) {| head := head s; next := next s; held := held s; pcs := setf (pcs s) t PopLoad; updates := updates s |}
(** 91-92 *)
| pop_load t : pcs s t = PopLoad ->
    step a s None {| head := head s; next := next s; held := held s; pcs := setf (pcs s) t (PopNode (head s) (updates s)); updates := updates s |}
(** 96-97, 113: the stack was empty *)
| pop_null t s0 v : pcs s t = PopNode s0 v -> untag a s0 = 0 ->
    step a s None {| head := head s; next := next s; held := held s; pcs := setf (pcs s) t (PopDone 0); updates := updates s |}
(** 99-102: reads node->next, whoever has the node by now *)
| pop_next t s0 v : pcs s t = PopNode s0 v -> untag a s0 <> 0 ->
    step a s None {| head := head s; next := next s; held := held s; pcs := setf (pcs s) t (PopCas s0 (tag a (next s (untag a s0)) (tagof a s0)) v); updates := updates s |}
(** 104-107: success *)
| pop_cas_ok t s0 s1 v : pcs s t = PopCas s0 s1 v -> head s = s0 ->
    step a s None {| head := s1; next := next s; held := held s; pcs := setf (pcs s) t (PopDone (untag a s0)); updates := S (updates s) |}
(** 104-110: failure, possibly spurious *)
| pop_cas_fail t s0 s1 v : pcs s t = PopCas s0 s1 v ->
    step a s None {| head := head s; next := next s; held := held s; pcs := setf (pcs s) t (PopNode (head s) (updates s)); updates := updates s |}
| ret_pop t n : pcs s t = PopDone n ->
    step a s (Some (RetPop t n)) {| head := head s; next := next s; held := if n =? 0 then held s else setz (held s) n true; pcs := setf (pcs s) t Idle; updates := updates s |}
(** A client writes anything into a node it holds (its memory is its own). *)
| scribble n x : held s n = true -> word 64 x ->
    step a s None {| head := head s; next := setz (next s) n x; held := held s; pcs := pcs s; updates := updates s |}.

(** stack.hpp:20: head starts as 0.  The clients hold any set of nodes [H]; memory is arbitrary. *)
Definition start (H : Z -> bool) (mem : Z -> Z) : state :=
  {| head := 0; next := mem; held := H; pcs := fun _ => Idle; updates := 0 |}.

(** No pop is overtaken by 2^(16+ALIGN_BITS) successful updates between its read of head and its exchange:
    the tag does not wrap around unnoticed. *)
Definition fresh (a : Z) (s : state) : Prop :=
  forall t s0 s1 v, pcs s t = PopCas s0 s1 v -> Z.of_nat (updates s) - Z.of_nat v < 2 ^ (16 + a).

(** Executions through such states, with their calls and returns. *)
Inductive run (a : Z) (s0 : state) : list event -> state -> Prop :=
| run_nil : run a s0 [] s0
| run_tau es s s' : run a s0 es s -> fresh a s -> step a s None s' -> run a s0 es s'
| run_ev es e s s' : run a s0 es s -> fresh a s -> step a s (Some e) s' -> run a s0 (es ++ [e]) s'.
