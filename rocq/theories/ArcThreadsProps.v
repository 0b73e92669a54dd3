(** Threads sharing vec blocks: the theorems (C59, C60). *)
From Verif Require Import ArcThreads ArcThreadsBase ArcThreadsInv ArcThreadsStep ArcThreadsStep2 ArcThreadsStep3
  ArcThreadsRace ArcThreadsRace2 ArcThreadsMore.
From Coq Require Import List Arith ZArith Bool Lia Relations.Relation_Operators.
Import ListNotations.
Open Scope nat_scope.

(** ** C59: every thread sees its own values; blocks are freed once, in time, and never used again *)

(** Whatever the threads do and however they are interleaved, reading a vec gives the value
    that the copies, moves and modifications of that vec alone account for. *)
Theorem vec_threads_read_their_own_values {A} acq owners n (s : st A) :
  reach acq owners n s ->
  forall i t v b x, nth_error (tr s) i = Some {| who := t; act := ARead v b x |} ->
    values (firstn i (tr s)) v = Some x.
Proof. intros R i t v b x H. destruct (reach_inv R) as [_ J]. pose proof (i_reads J) as D. exact (D i _ v b x H eq_refl). Qed.
Print Assumptions vec_threads_read_their_own_values.

(** A freed block is never touched again: neither its elements nor its counter. *)
Theorem vec_threads_no_use_after_free {A} acq owners n (s : st A) :
  reach acq owners n s ->
  forall i j e1 e2 b, nth_error (tr s) i = Some e1 -> nth_error (tr s) j = Some e2 ->
    frees (act e1) b -> touches (act e2) b -> j <= i.
Proof.
  intros R i j e1 e2 b H1 H2 F T. destruct (reach_inv R) as [_ J].
  destruct (Nat.le_gt_cases j i) as [|L]; auto. exfalso. pose proof (i_dead J) as D. exact (D i j e1 e2 b L H1 F H2 T).
Qed.
Print Assumptions vec_threads_no_use_after_free.

(** No block is freed twice. *)
Theorem vec_threads_freed_once {A} acq owners n (s : st A) :
  reach acq owners n s ->
  forall i j e1 e2 b, nth_error (tr s) i = Some e1 -> nth_error (tr s) j = Some e2 ->
    frees (act e1) b -> frees (act e2) b -> i = j.
Proof.
  intros R i j e1 e2 b H1 H2 F1 F2.
  pose proof (vec_threads_no_use_after_free acq owners n s R i j e1 e2 b H1 H2 F1 (frees_touches _ _ F2)).
  pose proof (vec_threads_no_use_after_free acq owners n s R j i e2 e1 b H2 H1 F2 (frees_touches _ _ F1)). lia.
Qed.
Print Assumptions vec_threads_freed_once.

(** When every vec is gone and every thread has finished what it was doing, every block that
    was ever touched has been freed. *)
Theorem vec_threads_no_leak {A} acq owners n (s : st A) :
  reach acq owners n s ->
  (forall v x, nth_error (vars s) v = Some x -> v_val x = None) ->
  (forall t p, nth_error (pcs s) t = Some p -> p = Idle) ->
  forall i e b, nth_error (tr s) i = Some e -> touches (act e) b ->
    exists j ej, nth_error (tr s) j = Some ej /\ frees (act ej) b.
Proof. apply all_gone. Qed.
Print Assumptions vec_threads_no_leak.

(** A block some vec refers to is not freed, and holds that vec's value. *)
Theorem vec_threads_referenced_blocks_live {A} acq owners n (s : st A) :
  reach acq owners n s ->
  forall v x b o, nth_error (vars s) v = Some x -> v_val x = Some (b, o) ->
    (exists k, nth_error (blks s) b = Some k /\ values (tr s) v = Some (k_val k))
    /\ forall i e, nth_error (tr s) i = Some e -> ~ frees (act e) b.
Proof.
  intros R v x b o H1 H2. destruct (holds_value R v H1 H2) as (k & E & L & V & C). split; [eauto|].
  intros i e Hi HF. destruct (reach_inv R) as [_ J]. destruct (i_gone J _ _ Hi HF) as (k' & E' & D). congruence.
Qed.
Print Assumptions vec_threads_referenced_blocks_live.

(** A thread in the middle of a copy, a destruction or a release is never blocked. *)
Theorem vec_threads_never_block {A} acq owners n (s : st A) :
  reach acq owners n s -> forall t p, nth_error (pcs s) t = Some p -> p <> Idle ->
  exists s' a, step acq s s' /\ tr s' = tr s ++ [{| who := t; act := a |}].
Proof. apply under_way. Qed.
Print Assumptions vec_threads_never_block.

(** ** C60: order of accesses *)

(** A load of the counter that says "not shared" - relaxed, and so possibly outdated as far
    as the memory model goes - has read the latest value: nothing was stored in between. *)
Theorem vec_threads_not_shared_is_current {A} acq owners n (s : st A) :
  reach acq owners n s ->
  forall i t v b r, nth_error (tr s) i = Some {| who := t; act := ACheck v b r true |} ->
  forall j e, r < j -> j < i -> nth_error (tr s) j = Some e -> stores (act e) b = None.
Proof. intros R i t v b r H. pose proof (check_current R) as D. exact (D i _ v b r H eq_refl). Qed.
Print Assumptions vec_threads_not_shared_is_current.

(** If that load were an acquire load, no two threads would ever race on a block. *)
Theorem vec_threads_no_race_on_blocks_with_acquire {A} owners n (s : st A) :
  reach true owners n s -> forall i j b, ~ race true (tr s) i j (LData b) /\ ~ race true (tr s) i j (LCount b).
Proof.
  intros R i j b. destruct (reach_inv R) as [_ J].
  split; intros (e1 & e2 & H1 & H2 & L & C & N); destruct (i_race J L H1 H2 C) as [H|(Q & _)]; try congruence; auto.
Qed.
Print Assumptions vec_threads_no_race_on_blocks_with_acquire.

(** With the relaxed load of the code: the only races on a block are between an access through
    a reference that has been released since, and a modification in place (or a move of the
    elements to a larger block) by the thread that found itself the only one left. *)
Theorem vec_threads_races_on_blocks_partial {A} acq owners n (s : st A) :
  reach acq owners n s -> forall i j l b, l = LData b \/ l = LCount b -> race acq (tr s) i j l ->
  acq = false
  /\ (exists t v, (exists f, nth_error (tr s) j = Some {| who := t; act := AWrite v b f |})
       \/ (exists b' f, nth_error (tr s) j = Some {| who := t; act := AGrow v b b' f |}))
  /\ (exists d t c, nth_error (tr s) d = Some {| who := t; act := ADecr b c |} /\ (i = d \/ hb acq (tr s) i d)).
Proof.
  intros R i j l b Hl (e1 & e2 & H1 & H2 & L & C & N). destruct (reach_inv R) as [_ J].
  destruct (i_race J L H1 H2 C) as [H|H]; [congruence|].
  assert (X : excused acq (tr s) i (act e1) (act e2) (LData b)) by (destruct Hl as [->| ->]; exact H).
  destruct X as (Q1 & Q2 & d & ed & c & D1 & D2 & D3). split; auto. destruct e2 as [t2 a2], ed as [td ad]. cbn in *. subst ad.
  split; [|exists d, td, c; auto].
  exists t2. destruct Q2 as [(v & f & ->)|(v & b' & f & ->)]; exists v; [left|right]; eauto.
Qed.
Print Assumptions vec_threads_races_on_blocks_partial.

(** The words of the vec objects themselves: the only races involve a copy, which marks its
    source as shared. *)
Theorem vec_threads_races_on_objects_partial {A} acq owners n (s : st A) :
  reach acq owners n s -> forall i j v, race acq (tr s) i j (LWord v) ->
  exists t b, nth_error (tr s) i = Some {| who := t; act := AMark v b |}
           \/ nth_error (tr s) j = Some {| who := t; act := AMark v b |}.
Proof.
  intros R i j v (e1 & e2 & H1 & H2 & L & C & N). destruct (reach_inv R) as [_ J].
  destruct (i_race J L H1 H2 C) as [H|[(b & H)|(b & H)]]; [congruence| |]; [destruct e1 as [t a]|destruct e2 as [t a]];
    cbn in H; subst a; exists t, b; auto.
Qed.
Print Assumptions vec_threads_races_on_objects_partial.

(** *** Concrete runs *)
Lemma not_hb {A} acq (tr : trace A) (S : list nat) i j :
  (forall k l, In k (i :: S) -> edge acq tr k l -> In l S) -> ~ In j S -> ~ hb acq tr i j.
Proof.
  intros C N H. apply N. clear N.
  assert (G : forall k l, hb acq tr k l -> In k (i :: S) -> In l S).
  { intros k l Q. induction Q as [k l E|k l m E1 IH1 E2 IH2]; intros Hk; eauto. apply IH2. right. auto. }
  apply (G i j H). left. auto.
Qed.

(** One more step of a run, with the state put in normal form. *)
Local Ltac go R tac :=
  let R' := fresh in
  match type of R with reach ?q ?o ?n _ =>
    eassert (R' : reach q o n _) by (eapply R_step; [exact R|tac]); clear R; rename R' into R; cbn in R end.

Section Runs.
Let A := nat.
Definition E (t : nat) (a : action A) : ev A := {| who := t; act := a |}.
(** Thread 0 makes a vec, copies it, hands the copy to thread 1, which reads and drops it;
    thread 0 finds itself alone and writes in place. *)
Definition run1 : trace A :=
  [E 0 (ANew 0 0 7); E 0 (AStart 0 1 0); E 0 (AMark 0 0); E 0 (AIncr 0 1 0 1); E 0 (ASend 1 1);
   E 1 (ARecv 1); E 1 (ARead 1 0 7); E 1 (ADrop 1 0); E 1 (ADecr 0 0);
   E 0 (ACheck 0 0 8 true); E 0 (AWrite 0 0 S)].
Lemma run1_reach acq : exists s : st A, reach acq [0; 0] 2 s /\ tr s = run1.
Proof.
  assert (R := R_start (A := A) acq [0; 0] 2).
  cbn in R.
  go R ltac:(eapply S_new with (t := 0) (v := 0) (a := 7); [reflexivity|reflexivity|split; reflexivity|reflexivity]).
  go R ltac:(eapply S_start with (t := 0) (v := 0) (w := 1); [reflexivity|reflexivity|reflexivity|left; reflexivity|split; reflexivity|reflexivity|reflexivity|discriminate]).
  go R ltac:(eapply S_mark with (t := 0); reflexivity).
  go R ltac:(eapply S_incr with (t := 0); reflexivity).
  go R ltac:(eapply S_send with (t := 0) (v := 1) (u := 1); [reflexivity|reflexivity|split; reflexivity]).
  go R ltac:(eapply S_recv with (u := 1) (v := 1); reflexivity).
  go R ltac:(eapply S_read with (t := 1) (v := 1); [reflexivity|reflexivity|left; reflexivity|reflexivity|reflexivity]).
  go R ltac:(eapply S_drop with (t := 1) (v := 1); [reflexivity|reflexivity|split; reflexivity|reflexivity]).
  go R ltac:(eapply S_decr with (t := 1); reflexivity).
  go R ltac:(eapply S_check with (t := 0) (v := 0) (r := 8); [reflexivity|reflexivity|split; reflexivity|reflexivity|reflexivity|reflexivity|]; intros r' er' L H _ _; exfalso; apply nth_lt in H; cbn in H; lia).
  go R ltac:(eapply S_write with (t := 0) (v := 0) (f := S); [reflexivity|reflexivity|split; reflexivity|reflexivity|reflexivity]).
  eexists. split; [exact R|reflexivity].
Qed.

(** The first run, up to the end: thread 0 drops its vec as well, and the block is freed. *)
Lemma run3_reach acq : exists s : st A, reach acq [0; 0] 2 s
  /\ (forall v x, nth_error (vars s) v = Some x -> v_val x = None)
  /\ (forall t p, nth_error (pcs s) t = Some p -> p = Idle)
  /\ tr s = run1 ++ [E 0 (ARead 0 0 8); E 0 (ADrop 0 0); E 0 (ADecr 0 (-1)); E 0 (AFree 0)].
Proof.
  assert (R := R_start (A := A) acq [0; 0] 2).
  cbn in R.
  go R ltac:(eapply S_new with (t := 0) (v := 0) (a := 7); [reflexivity|reflexivity|split; reflexivity|reflexivity]).
  go R ltac:(eapply S_start with (t := 0) (v := 0) (w := 1); [reflexivity|reflexivity|reflexivity|left; reflexivity|split; reflexivity|reflexivity|reflexivity|discriminate]).
  go R ltac:(eapply S_mark with (t := 0); reflexivity).
  go R ltac:(eapply S_incr with (t := 0); reflexivity).
  go R ltac:(eapply S_send with (t := 0) (v := 1) (u := 1); [reflexivity|reflexivity|split; reflexivity]).
  go R ltac:(eapply S_recv with (u := 1) (v := 1); reflexivity).
  go R ltac:(eapply S_read with (t := 1) (v := 1); [reflexivity|reflexivity|left; reflexivity|reflexivity|reflexivity]).
  go R ltac:(eapply S_drop with (t := 1) (v := 1); [reflexivity|reflexivity|split; reflexivity|reflexivity]).
  go R ltac:(eapply S_decr with (t := 1); reflexivity).
  go R ltac:(eapply S_check with (t := 0) (v := 0) (r := 8); [reflexivity|reflexivity|split; reflexivity|reflexivity|reflexivity|reflexivity|]; intros r' er' L H _ _; exfalso; apply nth_lt in H; cbn in H; lia).
  go R ltac:(eapply S_write with (t := 0) (v := 0) (f := S); [reflexivity|reflexivity|split; reflexivity|reflexivity|reflexivity]).
  go R ltac:(eapply S_read with (t := 0) (v := 0); [reflexivity|reflexivity|left; reflexivity|reflexivity|reflexivity]).
  go R ltac:(eapply S_drop with (t := 0) (v := 0); [reflexivity|reflexivity|split; reflexivity|reflexivity]).
  go R ltac:(eapply S_decr with (t := 0); reflexivity).
  go R ltac:(eapply S_free with (t := 0); reflexivity).
  eexists. split; [exact R|]. cbn. split; [|split; [|reflexivity]].
  - intros v x H. destruct v as [|[|v]]; cbn in H; try (injection H as <-; reflexivity). destruct v; discriminate.
  - intros t p H. destruct t as [|[|t]]; cbn in H; try (injection H as <-; reflexivity). destruct t; discriminate.
Qed.

(** Thread 0 lends a vec to threads 1 and 2; one reads it while the other copies it. *)
Definition run2 : trace A :=
  [E 0 (ANew 0 0 7); E 0 (ALend 0 1); E 0 (ALend 0 2); E 1 (AAccept 0); E 2 (AAccept 0);
   E 2 (ARead 0 0 7); E 1 (AStart 0 1 0); E 1 (AMark 0 0)].
Lemma run2_reach acq : exists s : st A, reach acq [0; 1] 3 s /\ tr s = run2.
Proof.
  assert (R := R_start (A := A) acq [0; 1] 3).
  cbn in R.
  go R ltac:(eapply S_new with (t := 0) (v := 0) (a := 7); [reflexivity|reflexivity|split; reflexivity|reflexivity]).
  go R ltac:(eapply S_lend with (t := 0) (v := 0) (u := 1); [reflexivity|reflexivity|reflexivity|constructor]).
  go R ltac:(eapply S_lend with (t := 0) (v := 0) (u := 2); [reflexivity|reflexivity|reflexivity|constructor; [discriminate|constructor]]).
  go R ltac:(eapply S_accept with (u := 1) (v := 0) (l1 := [Offered 2 2]) (l2 := []); [reflexivity|reflexivity|reflexivity]).
  go R ltac:(eapply S_accept with (u := 2) (v := 0) (l1 := []) (l2 := [Held 1]); [reflexivity|reflexivity|reflexivity]).
  go R ltac:(eapply S_read with (t := 2) (v := 0); [reflexivity|reflexivity|right; cbn; auto|reflexivity|reflexivity]).
  go R ltac:(eapply S_start with (t := 1) (v := 0) (w := 1); [reflexivity|reflexivity|reflexivity|right; cbn; auto|split; reflexivity|reflexivity|reflexivity|discriminate]).
  go R ltac:(eapply S_mark with (t := 1); reflexivity).
  eexists. split; [exact R|reflexivity].
Qed.

End Runs.

Local Ltac edges := intros k l Hk (e1 & e2 & H1 & H2 & L & Q); cbn in Hk;
  repeat match goal with H : _ \/ _ |- _ => destruct H as [<-|H] end; try contradiction;
  vm_compute in H1; injection H1 as <-;
  repeat (destruct l as [|l]; [first [exfalso; lia | vm_compute in H2; injection H2 as <-; cbn in Q |- *;
    first [tauto | intuition discriminate]]|]);
  try (exfalso; apply nth_lt in H2; cbn in H2; lia).

(** The relaxed load of the code lets a write in place race with an earlier read by a thread
    that has dropped its copy since (arc.h:57-60 would have to be an acquire load). *)
Theorem vec_threads_relaxed_check_races :
  exists s : st nat, reach false [0; 0] 2 s /\ race false (tr s) 6 10 (LData 0).
Proof.
  destruct (run1_reach false) as (s & R & T). exists s. split; auto. rewrite T.
  eexists _, _. split; [reflexivity|]. split; [reflexivity|]. split; [lia|]. split.
  - exists Rd, Wr. cbn. auto.
  - apply not_hb with (S := [7; 8]); [|cbn; lia]. edges.
Qed.
Print Assumptions vec_threads_relaxed_check_races.

(** Copying a vec writes to it, so threads that were lent a vec race when one copies it while
    another reads it. *)
Theorem vec_threads_copy_of_borrowed_races acq :
  exists s : st nat, reach acq [0; 1] 3 s /\ race acq (tr s) 5 7 (LWord 0).
Proof.
  destruct (run2_reach acq) as (s & R & T). exists s. split; auto. rewrite T.
  eexists _, _. split; [reflexivity|]. split; [reflexivity|]. split; [lia|]. split.
  - exists Rd, Wr. cbn. auto.
  - apply not_hb with (S := []); [|cbn; lia]. edges.
Qed.
Print Assumptions vec_threads_copy_of_borrowed_races.
