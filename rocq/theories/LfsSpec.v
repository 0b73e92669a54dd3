(** The atomic stack: what C10 says the lock-free stack behaves like.  Each operation is called, takes effect
    at one instant between its call and its return, and returns. *)
From Verif Require Export LfsModel.
Open Scope Z_scope.

Inductive op := SIdle | SPush (chain : list Z) | SPushed | SPop | SPopped (node : Z).
Record atomic := { contents : list Z; ops : nat -> op }.
Inductive atomic_step (s : atomic) : option event -> atomic -> Prop :=
| a_call_push t chain : ops s t = SIdle -> atomic_step s (Some (CallPush t chain)) {| contents := contents s; ops := setf (ops s) t (SPush chain) |}
| a_push t chain : ops s t = SPush chain -> atomic_step s None {| contents := chain ++ contents s; ops := setf (ops s) t SPushed |}
| a_ret_push t : ops s t = SPushed -> atomic_step s (Some (RetPush t)) {| contents := contents s; ops := setf (ops s) t SIdle |}
| a_call_pop t : ops s t = SIdle -> atomic_step s (Some (CallPop t)) {| contents := contents s; ops := setf (ops s) t SPop |}
| a_pop t n r : ops s t = SPop -> contents s = n :: r -> atomic_step s None {| contents := r; ops := setf (ops s) t (SPopped n) |}
| a_pop_empty t : ops s t = SPop -> contents s = [] -> atomic_step s None {| contents := []; ops := setf (ops s) t (SPopped 0) |}
| a_ret_pop t n : ops s t = SPopped n -> atomic_step s (Some (RetPop t n)) {| contents := contents s; ops := setf (ops s) t SIdle |}.

Inductive atomic_run (s0 : atomic) : list event -> atomic -> Prop :=
| ar_nil : atomic_run s0 [] s0
| ar_tau es s s' : atomic_run s0 es s -> atomic_step s None s' -> atomic_run s0 es s'
| ar_ev es e s s' : atomic_run s0 es s -> atomic_step s (Some e) s' -> atomic_run s0 (es ++ [e]) s'.
Definition empty_stack : atomic := {| contents := []; ops := fun _ => SIdle |}.

(** Where a node can be. *)
Inductive place := WithClients | InStack | InHandsOf (t : nat).
Definition in_hands (n : Z) (p : pc) : Prop :=
  match p with
  | PushLoad c | PushStore c _ _ | PushCas c _ _ => In n c
  | PopDone m => m = n /\ n <> 0
  | _ => False
  end.
Definition located (s : state) (stack : list Z) (n : Z) (p : place) : Prop :=
  match p with
  | WithClients => held s n = true
  | InStack => In n stack
  | InHandsOf t => in_hands n (pcs s t)
  end.

(** Executions without the assumption on the tag. *)
Inductive any_run (a : Z) (s0 : state) : state -> Prop :=
| any_nil : any_run a s0 s0
| any_step s e s' : any_run a s0 s -> step a s e s' -> any_run a s0 s'.
