(** * C76: what is to be done on entry to a loop is done once, after the first
    test and before the first round. *)

From Coq Require Import List Arith Bool Lia.
From Verif Require Import LoopSpec LoopModel LoopProof EnterSpec EnterModel EnterProof PropsC75.
Import ListNotations.

(** The C++ ends in a state by reaching its end, or by return, exactly if the
    source does, and in no other way.  Missing: blocks on entry that are jumped
    out of by their own name, and bare jumps and loops on entry. *)
Theorem C76_on_enter_partial : forall (W : Type) (ss : list (st W)) ss' code,
  scoped_all [] ss -> neat_all ss ->
  lowers ss = Some ss' -> gen_fn ss' = Some code ->
  forall w w' c,
    (exists n, cexec_all n code w = Some (c, w')) <->
    (exists n, exec_all n ss w = Some (Done, w')) /\ c = CDone \/
    (exists n, exec_all n ss w = Some (Returned, w')) /\ c = CRet.
Proof.
  intros W ss ss' code S N L G w w' c.
  pose proof (proj2 (lower_scoped W) ss N ss' L [] S) as S'.
  pose proof (proj2 (lower_ok W) ss N ss' L) as E.
  pose proof (C75_jumps W ss' code G S') as J.
  split.
  - intros [n R]. destruct (J n w) as [[_ A]|[(w1 & A & B)|(w1 & A & B)]]; [congruence|left|right];
      rewrite B in R; injection R as <- <-; (split; [|reflexivity]); apply E; exists n; exact A.
  - intros [[R ->]|[R ->]]; apply E in R; destruct R as [n R];
      destruct (J n w) as [[A _]|[(w1 & A & B)|(w1 & A & B)]]; try congruence;
      rewrite A in R; injection R as ->; exists n; exact B.
Qed.
Print Assumptions C76_on_enter_partial.

(** What is done on entry is done if and only if the first test succeeds: for a
    loop that may do nothing but count, in closed form. *)
Local Notation cnt_state := (nat * nat * nat)%type.   (* entries, rounds, limit *)

Local Definition counting (h : nat) : st cnt_state :=
  Loop h None (Some (fun w => (w, Nat.ltb (snd (fst w)) (snd w))))
    (Some (None, [Act (fun w => (S (fst (fst w)), snd (fst w), snd w)); Block None []])) None
    [Act (fun w => (fst (fst w), S (snd (fst w)), snd w))] None None.

Local Lemma counting_plain : forall h, neat_all [counting h] /\ scoped_all [] [counting h].
Proof.
  intros h. split; [|cbn; tauto].
  repeat first [apply n_nil | apply n_cons | apply n_enter | apply n_act | apply n_block].
  repeat split.
Qed.

Local Lemma counting_rounds : forall k e r l, r + k = l ->
  exists n, rounds n (Some (fun w : cnt_state => (w, Nat.ltb (snd (fst w)) (snd w)))) None None
    [Act (fun w => (fst (fst w), S (snd (fst w)), snd w))] None None (e, r, l) = Some (Done, (e, l, l)).
Proof.
  induction k as [|k IH]; intros e r l E.
  - exists 1. rewrite rounds_S. cbn [test fst snd]. rewrite (proj2 (Nat.ltb_ge r l)) by lia.
    replace r with l by lia. reflexivity.
  - destruct (IH e (S r) l ltac:(lia)) as [n H]. exists (S (S (S n))). rewrite rounds_S. cbn [test fst snd].
    rewrite (proj2 (Nat.ltb_lt r l)) by lia.
    change (exec_all (S (S n)) [Act (fun w : cnt_state => (fst (fst w), S (snd (fst w)), snd w))] (e, r, l))
      with (Some (Done, (e, S r, l))).
    cbn [leaves caught test act].
    apply (proj2 (proj2 (more_le _ n (S (S n)) ltac:(lia)))). exact H.
Qed.

Theorem C76_once : forall h limit ss' code, lowers [counting h] = Some ss' -> gen_fn ss' = Some code ->
  exists n, cexec_all n code (0, 0, limit) = Some (CDone, (if Nat.eqb limit 0 then 0 else 1, limit, limit)).
Proof.
  intros h limit ss' code L G. destruct (counting_plain h) as [N Sc].
  apply (C76_on_enter_partial _ _ _ _ Sc N L G). left. split; [|reflexivity].
  destruct (Nat.eqb_spec limit 0) as [->|Z].
  - exists 5. reflexivity.
  - destruct (counting_rounds (limit - 1) 1 1 limit ltac:(lia)) as [n H].
    exists (S (S (S (S (S (S (S n))))))). rewrite exec_all_cons. unfold counting at 1. rewrite exec_loop, rounds_eq.
    cbn [test act fst snd]. rewrite (proj2 (Nat.ltb_lt 0 limit)) by lia.
    change (exec_all (S (S (S (S n)))) [Act (fun w : cnt_state => (S (fst (fst w)), snd (fst w), snd w)); Block None []] (0, 0, limit))
      with (Some (Done, (1, 0, limit))).
    cbn [leaves caught].
    change (exec_all (S (S (S (S n)))) [Act (fun w : cnt_state => (fst (fst w), S (snd (fst w)), snd w))] (1, 0, limit))
      with (Some (Done, (1, 1, limit))).
    cbn [leaves caught test act].
    rewrite (proj2 (proj2 (more_le _ n (S (S (S (S n)))) ltac:(lia))) _ _ _ _ _ _ _ _ H). reflexivity.
Qed.
Print Assumptions C76_once.

(** ** What goes wrong *)

Local Definition add (x : nat) : st (list nat) := Act (fun w => w ++ [x]).
Local Definition below (n : nat) : option (cond (list nat)) := Some (fun w => (w, Nat.ltb (length w) n)).

Local Definition runs_as (ss : list (st (list nat))) (a : list nat) : Prop := exists n, exec_all n ss [] = Some (Done, a).
Local Definition cpp_runs_as (ss : list (st (list nat))) (a : list nat) : Prop :=
  exists ss' code n, lowers ss = Some ss' /\ gen_fn ss' = Some code /\ cexec_all n code [] = Some (CDone, a).

(** [:a { for (; ..; ) on enter break :a then { .. }; add 5 }]: the jump on entry
    leaves only the loop. *)
Theorem C76_bare_jump_refuted : exists ss a b, scoped_all [] ss /\ a <> b /\ runs_as ss a /\ cpp_runs_as ss b.
Proof.
  exists [Block (Some 1) [Loop 2 None (below 1) (Some (None, [Jump 1])) None [add 4] None None; add 5]], [], [5].
  split; [cbn; intuition discriminate|]. split; [discriminate|]. split.
  - exists 20. reflexivity.
  - do 2 eexists. exists 20. split; [reflexivity|]. split; [reflexivity|]. vm_compute. reflexivity.
Qed.
Print Assumptions C76_bare_jump_refuted.

(** [for (; ..; ) on enter :a { if (..) break :a; } then { .. }]: leaving the block
    on entry also leaves out the loop. *)
Theorem C76_own_label_refuted : exists ss a b, scoped_all [] ss /\ a <> b /\ runs_as ss a /\ cpp_runs_as ss b.
Proof.
  exists [Loop 2 None (below 1) (Some (Some 3, [If (fun w => (w, true)) None [Jump 3] None []; Block None []]))
            None [add 4] None None], [4], [].
  split; [cbn; intuition discriminate|]. split; [discriminate|]. split.
  - exists 20. reflexivity.
  - do 2 eexists. exists 20. split; [reflexivity|]. split; [reflexivity|]. vm_compute. reflexivity.
Qed.
Print Assumptions C76_own_label_refuted.

(** ** An example *)

Local Definition prog : list (st (list nat)) :=
  [Loop 1 (Some (fun w => w ++ [100])) (below 12)
     (Some (None, [add 1; Block (Some 5) [add 2; Jump 5; add 3]])) (Some 2)
     [add 10; If (fun w => (w, Nat.eqb (length w) 7)) None [Jump 2] None [];
      Loop 3 None (below 9) (Some (None, [add 30; Block None []])) None [add 40; Jump 3] None None]
     (Some (fun w => w ++ [70])) None; add 80].

Example C76_ex_ok : neat_all prog /\ scoped_all [] prog.
Proof.
  split.
  - repeat first [apply n_nil | apply n_cons | apply n_act | apply n_enter | apply n_if | apply n_block | apply n_jump
                 | apply n_loop | (repeat split; fail)].
  - cbn. repeat split; intuition discriminate.
Qed.

Example C76_ex_runs : exists a, runs_as prog a /\ cpp_runs_as prog a /\ 12 <= length a.
Proof.
  eexists. split; [exists 60; vm_compute; reflexivity|]. split.
  - do 2 eexists. exists 60. split; [reflexivity|]. split; [reflexivity|]. vm_compute. reflexivity.
  - cbn. lia.
Qed.
