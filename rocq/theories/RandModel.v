(** Model of lib/rand.fu and lib/shuffle.fu. *)
From Verif Require Export Words.
Open Scope Z_scope.

(** lib/rand.fu:20-22 and 42-44: one xorshift64 step. *)
Definition xorshift64 (x : Z) : Z :=
  let x := Z.lxor x (wshr x 12) in
  let x := Z.lxor x (wshl 64 x 25) in
  Z.lxor x (wshr x 27).

(** lib/rand.fu:9-26 [rand_u64_seed]: 1 | usec | sec << 32, sixteen steps. *)
Definition rand_seed (sec usec : Z) : Z :=
  Nat.iter 16 xorshift64 (Z.lor (Z.lor 1 (wrap 64 usec)) (wshl 64 sec 32)).

(** lib/rand.fu:56: the value handed out for a new state. *)
Definition rand_out (next : Z) : Z := wmul 64 next 0x2545f4914f6cdd1d.

(** lib/rand.fu:31-57 [next_u64] run by any number of threads on the one
    atomic [rand_u64_state].  A thread is between calls, or inside the loop
    holding [prev]; only atomic accesses are visible to the others, so the
    computation of [next] is merged with the compare-exchange that uses it. *)
Inductive rthread := Idle | Loop (prev : Z).
Record rstate := { shared : Z; threads : list rthread; draws : list (nat * Z) }.

Inductive rstep : rstate -> rstate -> Prop :=
| r_call : forall st t ths,       (* rand.fu:36 load *)
    nth_error (threads st) t = Some Idle ->
    upd (threads st) t (Loop (shared st)) = Some ths ->
    rstep st {| shared := shared st; threads := ths; draws := draws st |}
| r_cas_ok : forall st t ths prev,  (* rand.fu:46-52 success: break, return *)
    nth_error (threads st) t = Some (Loop prev) ->
    shared st = prev ->
    upd (threads st) t Idle = Some ths ->
    rstep st {| shared := xorshift64 prev; threads := ths;
                draws := draws st ++ [(t, rand_out (xorshift64 prev))] |}
| r_cas_fail : forall st t ths prev, (* failure (also spurious: _weak): prev reloaded *)
    nth_error (threads st) t = Some (Loop prev) ->
    upd (threads st) t (Loop (shared st)) = Some ths ->
    rstep st {| shared := shared st; threads := ths; draws := draws st |}.

Inductive rreach (seed : Z) (n : nat) : rstate -> Prop :=
| rr_init : rreach seed n {| shared := seed; threads := repeat Idle n; draws := [] |}
| rr_step : forall s s', rreach seed n s -> rstep s s' -> rreach seed n s'.

(** lib/shuffle.fu:2-8 [xorshift32]. *)
Definition xorshift32 (x : Z) : Z :=
  let x := Z.lxor x (wshl 32 x 13) in
  let x := Z.lxor x (wshr x 17) in
  Z.lxor x (wshl 32 x 5).

(** lib/shuffle.fu:15-20: the loop; [fuel] = n - 1 - i. *)
Fixpoint shuffle_loop {A} (fuel : nat) (n i : nat) (seed : Z) (arr : list A) : option (list A * Z) :=
  match fuel with
  | O => Some (arr, seed)
  | S fuel' =>
      let seed := xorshift32 seed in
      let idx := (i + Z.to_nat (seed mod Z.of_nat (n - i)))%nat in
      do arr' <- swap_at i idx arr;
      shuffle_loop fuel' n (S i) seed arr'
  end.

(** lib/shuffle.fu:10-21 [shuffle(ref arr, ref seed)]. Array lengths are i32 in fu. *)
Definition shuffle {A} (arr : list A) (seed : Z) : option (list A * Z) :=
  let seed := if seed =? 0 then wrap 32 (Z.of_nat (length arr)) else seed in
  shuffle_loop (length arr - 1) (length arr) 0 seed arr.
