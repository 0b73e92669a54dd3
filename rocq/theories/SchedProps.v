(** C12: parallel_for is a barrier.  Nested calls, any number of threads, any interleaving, spurious wake-ups and lost
    worker notifications included. *)
From Verif Require Import SchedModel SchedProofs SchedProofs2.
Local Arguments slot : simpl never.

(** The counter a frame will still read or write. *)
Definition touches (f : frame) : option nat :=
  match f with
  | FRun (Some j) _ _ => Some j      (* a batch of job j, to be counted off when it ends *)
  | FStart j _ _ => Some j
  | FDec j DFetch => Some j
  | FWait j _ => Some j
  | FWorker _ (KNotify tk) => Some (tk_job tk)
  | _ => None
  end.
Definition job_exists (s : sched) (j : nat) : Prop := jobs s j <> None.
(** Job j was started and its parallel_for has returned. *)
Definition returned (s : sched) (j : nat) : Prop := j < njobs s /\ jobs s j = None.
(** How many times batch b of job j has run to its end. *)
Definition pair_dec (x y : nat * nat) : {x = y} + {x <> y}.
Proof. decide equality; apply Nat.eq_dec. Defined.
Definition times (s : sched) (j b : nat) : nat := count_occ pair_dec (ran s) (j, b).
Definition finished (mains : list body) (s : sched) : Prop := forall t, t < length mains -> nth_error (threads s) t = Some [].
Inductive steps (addr : nat -> nat) : sched -> sched -> Prop :=
| steps_none s : steps addr s s
| steps_more s t s' s'' : step addr s t s' -> steps addr s' s'' -> steps addr s s''.

Local Lemma times_cr s j b : times s j b = cr j b (ran s).
Proof.
  unfold times, cr. induction (ran s) as [|[x y] l IH]; [reflexivity|]. cbn [count_occ sumf fst snd].
  destruct (pair_dec (x, y) (j, b)) as [e|e].
  - injection e as -> ->. rewrite !eqn_same, IH. lia.
  - rewrite IH. destruct (Nat.eq_dec x j) as [->|n]; [|rewrite (eqn_ne _ _ n); lia].
    destruct (Nat.eq_dec y b) as [->|n]; [congruence|rewrite (eqn_ne _ _ n); lia].
Qed.

(** When a parallel_for has returned, every one of its batches has run, exactly once, and nobody is left who knows of it. *)
Theorem parfor_is_a_barrier : forall addr mains workers s j, reachable addr (initial mains workers) s -> returned s j ->
  (forall b, times s j b = if b <? sizes s j then 1 else 0) /\
  (forall tk, In tk (tasks s) -> tk_job tk <> j) /\
  (forall t fs f, nth_error (threads s) t = Some fs -> In f fs -> touches f <> Some j).
Proof.
  intros addr mains workers s j r [_ e]. pose proof (reach_inv _ _ _ _ r) as I. refine (conj _ (conj _ _)).
  - intros b. rewrite times_cr. rewrite (ran_all _ _ _ _ _ I e). reflexivity.
  - intros tk i q. apply (task_live _ _ _ _ I i). congruence.
  - intros t fs f h i q. apply (frame_live _ _ _ _ _ _ _ I h i (q : running f = Some j)). exact e.
Qed.
Print Assumptions parfor_is_a_barrier.

(** At no time has a batch run twice, or one that the job does not have. *)
Theorem parfor_runs_no_batch_twice : forall addr mains workers s j b, reachable addr (initial mains workers) s ->
  times s j b <= 1 /\ (sizes s j <= b -> times s j b = 0).
Proof.
  intros addr mains workers s j b r. pose proof (reach_inv _ _ _ _ r) as I. rewrite times_cr.
  pose proof (iD _ _ _ I j b) as d. destruct (Nat.ltb_spec b (sizes s j)); cbn in d; lia.
Qed.
Print Assumptions parfor_runs_no_batch_twice.

(** No thread and no task refers to a counter that is gone. *)
Theorem parfor_counters_outlive_their_users : forall addr mains workers s, reachable addr (initial mains workers) s ->
  (forall t fs f j, nth_error (threads s) t = Some fs -> In f fs -> touches f = Some j -> job_exists s j) /\
  (forall tk, In tk (tasks s) -> job_exists s (tk_job tk)).
Proof.
  intros addr mains workers s r. pose proof (reach_inv _ _ _ _ r) as I. split.
  - intros t fs f j h i q. exact (frame_live _ _ _ _ _ _ _ I h i (q : running f = Some j)).
  - intros tk i. exact (task_live _ _ _ _ I i).
Qed.
Print Assumptions parfor_counters_outlive_their_users.

(** The count of what is left is exact: it is zero only when every batch has run. *)
Theorem parfor_count_is_exact : forall addr mains workers s j p, reachable addr (initial mains workers) s -> jobs s j = Some p ->
  p <= sizes s j /\ (p = 0 -> forall b, b < sizes s j -> times s j b = 1).
Proof.
  intros addr mains workers s j p r e. pose proof (reach_inv _ _ _ _ r) as I. split.
  - exact (pend_le_sizes _ _ _ _ r _ _ e).
  - intros -> b l. rewrite times_cr. rewrite (ran_all0 _ _ _ _ _ I e). apply Nat.ltb_lt in l. rewrite l. reflexivity.
Qed.
Print Assumptions parfor_count_is_exact.

(** Two threads never hold the same mutex. *)
Theorem parfor_mutexes_exclude : forall addr mains workers s t u f g fs gs k, reachable addr (initial mains workers) s ->
  nth_error (threads s) t = Some (f :: fs) -> nth_error (threads s) u = Some (g :: gs) ->
  holds addr f = Some k -> holds addr g = Some k -> t = u.
Proof.
  intros addr mains workers s t u f g fs gs k r h1 h2 e1 e2. pose proof (reach_inv _ _ _ _ r) as I.
  pose proof (iJ _ _ _ I _ _ _ _ h1 e1). pose proof (iJ _ _ _ I _ _ _ _ h2 e2). congruence.
Qed.
Print Assumptions parfor_mutexes_exclude.

(** No deadlock, no lost wake-up: while a main program has not returned someone can move, without any help from
    spurious wake-ups. *)
Theorem parfor_never_gets_stuck : forall addr mains workers s t fs, reachable addr (initial mains workers) s ->
  t < length mains -> nth_error (threads s) t = Some fs -> fs <> [] -> exists u s', step addr s u s'.
Proof.
  intros addr mains workers s t fs r l h n. pose proof (reach_inv _ _ _ _ r) as I. destruct fs as [|f fs]; [easy|].
  exact (not_stuck _ _ _ _ _ _ I l h).
Qed.
Print Assumptions parfor_never_gets_stuck.

(** And no livelock: however the threads are scheduled, they make finitely many steps. *)
Theorem parfor_cannot_run_forever : forall addr (run : nat -> sched), ~ (forall i, exists t, step addr (run i) t (run (S i))).
Proof.
  intros addr run h.
  assert (go : forall s, Acc (fun s' s => exists t, step addr s t s') s -> forall i, run i <> s).
  { induction 1 as [s _ IH]. intros i e. destruct (h i) as [t st]. rewrite e in st. exact (IH (run (S i)) (ex_intro _ t st) (S i) eq_refl). }
  exact (go (run 0) (steps_end addr (run 0)) 0 eq_refl).
Qed.
Print Assumptions parfor_cannot_run_forever.

Local Lemma reach_steps addr s0 s s' : reachable addr s0 s -> steps addr s s' -> reachable addr s0 s'.
Proof. intros r st. induction st; [exact r|]. apply IHst. eapply reach_step; eauto. Qed.
Local Lemma threads_length addr s0 s : reachable addr s0 s -> length (threads s) = length (threads s0).
Proof.
  induction 1 as [|s t s' r IH st|s t s' r IH st]; [reflexivity| |]; rewrite <- IH; destruct st; prj; rewrite ?set_nth_length; try reflexivity.
  - destruct H0; rewrite ?set_nth_length; reflexivity.
  - apply map_length.
  - destruct H0; rewrite ?set_nth_length; reflexivity.
Qed.
Local Lemma finished_dec mains s : length mains <= length (threads s) ->
  finished mains s \/ exists t fs, t < length mains /\ nth_error (threads s) t = Some fs /\ fs <> [].
Proof.
  unfold finished. intros len.
  assert (go : forall n, n <= length (threads s) -> (forall t, t < n -> nth_error (threads s) t = Some []) \/ exists t fs, t < n /\ nth_error (threads s) t = Some fs /\ fs <> []).
  { induction n as [|n IH]; intros l; [left; lia|]. destruct IH as [a|(t & fs & a & b & c)]; [lia| |right; exists t, fs; repeat split; auto].
    destruct (nth_error (threads s) n) as [[|f fs]|] eqn:e.
    - left. intros t h. destruct (Nat.eq_dec t n) as [->|ne]; [exact e|apply a; lia].
    - right. exists n, (f :: fs). repeat split; [lia|exact e|discriminate].
    - apply nth_error_None in e. lia. }
  apply go. exact len.
Qed.

(** So from everywhere, letting the threads run, every main program returns; and by then no task and no job is left,
    and every batch of every parallel_for ever called, nested or not, has run exactly once. *)
Theorem parfor_finishes : forall addr mains workers s, reachable addr (initial mains workers) s -> exists s', steps addr s s' /\ finished mains s'.
Proof.
  intros addr mains workers s r. revert r. induction (steps_end addr s) as [s _ IH]. intros r.
  destruct (finished_dec mains s) as [f|(t & fs & l & h & n)].
  - rewrite (threads_length _ _ _ r). cbn. rewrite app_length, map_length. lia.
  - exists s. split; [constructor|exact f].
  - destruct (parfor_never_gets_stuck _ _ _ _ _ _ r l h n) as (u & s1 & st).
    destruct (IH s1 (ex_intro _ u st)) as (s' & q1 & q2); [eapply reach_step; eauto|]. exists s'. split; [econstructor; eauto|exact q2].
Qed.
Print Assumptions parfor_finishes.
Theorem parfor_leaves_nothing_behind : forall addr mains workers s, reachable addr (initial mains workers) s -> finished mains s ->
  tasks s = [] /\ forall j, jobs s j = None /\ forall b, times s j b = if b <? sizes s j then 1 else 0.
Proof.
  intros addr mains workers s r fin. pose proof (reach_inv _ _ _ _ r) as I.
  assert (nj : forall j, jobs s j = None). { apply (no_jobs_left _ _ _ I). intros t fs l h. specialize (fin t l). congruence. }
  split.
  - destruct (tasks s) as [|tk l] eqn:e; [reflexivity|]. exfalso. apply (task_live _ _ _ tk I); [rewrite e; left; reflexivity|apply nj].
  - intros j. split; [apply nj|]. intros b. rewrite times_cr. rewrite (ran_all _ _ _ _ _ I (nj j)). reflexivity.
Qed.
Print Assumptions parfor_leaves_nothing_behind.

(** ---------- non-vacuity: a main program with one parallel_for of three batches, the second of which calls another of
    two; two workers ---------- *)
Definition ex_main : body := Body [([Body []; Body [([Body []], Body [])]], Body [])].
Definition ex_addr (j : nat) : nat := 4 * j.
Definition ex0 := initial [ex_main] 2.
Definition ex1 : sched :=
  {| threads := set_nth (threads ex0) 0 (FStart (njobs ex0) (length [Body []; Body [([Body []], Body [])]]) (Body []) :: FWait (njobs ex0) WCheck :: FRun None 0 [] :: []);
     tasks := tasks_of (njobs ex0) 0 [Body []; Body [([Body []], Body [])]] ++ tasks ex0;
     jobs := setf (jobs ex0) (njobs ex0) (Some (S (length [Body []; Body [([Body []], Body [])]])));
     njobs := S (njobs ex0); mutex := mutex ex0;
     sizes := setf (sizes ex0) (njobs ex0) (S (length [Body []; Body [([Body []], Body [])]])); ran := ran ex0 |}.
Local Lemma ex1_reach : reachable ex_addr ex0 ex1.
Proof. eapply reach_step; [constructor|]. exact (call_many ex_addr ex0 0 None 0 [Body []; Body [([Body []], Body [])]] (Body []) [] [] eq_refl ltac:(discriminate)). Qed.
Local Lemma sizes_grow addr s s' : steps addr s s' -> njobs s <= njobs s' /\ forall j, j < njobs s -> sizes s' j = sizes s j.
Proof.
  induction 1 as [|s t s1 s2 st _ [IH1 IH2]]; [split; auto|].
  assert (g : njobs s <= njobs s1 /\ forall j, j < njobs s -> sizes s1 j = sizes s j).
  { destruct st; prj; split; try lia; auto. intros j l. unfold setf. destruct (Nat.eqb_spec j (njobs s)); [lia|reflexivity]. }
  destruct g as [g1 g2]. split; [lia|]. intros j l. rewrite IH2 by lia. auto.
Qed.
(** It reaches a state where all is done, and in it the three batches of the first call have run once each. *)
Example parfor_example : exists s, reachable ex_addr (initial [ex_main] 2) s /\ finished [ex_main] s /\ returned s 0 /\ sizes s 0 = 3 /\
  times s 0 0 = 1 /\ times s 0 1 = 1 /\ times s 0 2 = 1 /\ times s 0 3 = 0.
Proof.
  destruct (parfor_finishes ex_addr [ex_main] 2 ex1 ex1_reach) as (s & st & fin).
  pose proof (reach_steps _ _ _ _ ex1_reach st) as r. destruct (sizes_grow _ _ _ st) as [g1 g2]. cbn [ex1 njobs ex0 initial] in g1, g2.
  assert (sz : sizes s 0 = 3) by (rewrite g2 by lia; reflexivity).
  destruct (parfor_leaves_nothing_behind _ _ _ _ r fin) as [_ d]. destruct (d 0) as [d1 d2]. rewrite sz in d2.
  exists s. refine (conj r (conj fin (conj (conj _ d1) (conj sz (conj (d2 0) (conj (d2 1) (conj (d2 2) (d2 3)))))))). lia.
Qed.

(** A state where the main program sleeps in its wait while a worker still runs a batch: two batches, one worker. *)
Definition sl_main : body := Body [([Body []], Body [])].
Definition z0 := initial [sl_main] 1.
Definition z1 : sched :=
  {| threads := set_nth (threads z0) 0 (FStart (njobs z0) (length [Body []]) (Body []) :: FWait (njobs z0) WCheck :: FRun None 0 [] :: []);
     tasks := tasks_of (njobs z0) 0 [Body []] ++ tasks z0;
     jobs := setf (jobs z0) (njobs z0) (Some (S (length [Body []])));
     njobs := S (njobs z0); mutex := mutex z0; sizes := setf (sizes z0) (njobs z0) (S (length [Body []])); ran := ran z0 |}.
Definition bot : list frame := [FRun None 0 []].
Definition z2 := upd_tasks (goto z1 1 (FRun (Some 0) 0 [] :: FWorker false KTry :: [])) [].
Definition z3 := upd_threads z2 (set_nth (threads z2) 0 (FRun (Some 0) 1 [] :: FWait 0 WCheck :: bot)).
Definition z4 := {| threads := set_nth (threads z3) 0 (FDec 0 DFetch :: FWait 0 WCheck :: bot); tasks := tasks z3; jobs := jobs z3; njobs := njobs z3;
  mutex := mutex z3; sizes := sizes z3; ran := (0, 1) :: ran z3 |}.
Definition z5 := upd_jobs (goto z4 0 (FWait 0 WCheck :: bot)) (setf (jobs z4) 0 (Some 1)).
Definition z6 := goto z5 0 (FWait 0 WTry :: bot).
Definition z7 := goto z6 0 (FWait 0 WLock :: bot).
Definition z8 := upd_mutex (goto z7 0 (FWait 0 WRecheck :: bot)) (setf (mutex z7) (slot ex_addr 0) (Some 0)).
Definition z9 := goto z8 0 (FWait 0 WEnter :: bot).
Definition z10 := upd_mutex (goto z9 0 (FWait 0 WSleep :: bot)) (setf (mutex z9) (slot ex_addr 0) None).
Example parfor_sleeps : reachable ex_addr (initial [sl_main] 1) z10 /\
  nth_error (threads z10) 0 = Some [FWait 0 WSleep; FRun None 0 []] /\ nth_error (threads z10) 1 = Some [FRun (Some 0) 0 []; FWorker false KTry] /\
  jobs z10 0 = Some 1.
Proof.
  split; [|repeat split].
  eapply reach_step. 2: exact (wait_sleep ex_addr z9 0 0 bot eq_refl).
  eapply reach_step. 2: exact (wait_recheck_more ex_addr z8 0 0 0 bot eq_refl eq_refl).
  eapply reach_step. 2: exact (wait_lock ex_addr z7 0 0 bot eq_refl eq_refl).
  eapply reach_step. 2: exact (wait_idle ex_addr z6 0 0 bot eq_refl eq_refl).
  eapply reach_step. 2: exact (wait_more ex_addr z5 0 0 0 bot eq_refl eq_refl).
  eapply reach_step. 2: exact (dec_more ex_addr z4 0 0 0 _ eq_refl eq_refl).
  eapply reach_step. 2: exact (end_batch ex_addr z3 0 0 1 _ eq_refl).
  eapply reach_step. 2: exact (start_last ex_addr z2 0 0 1 (Body []) _ _ eq_refl (wake_none _)).
  eapply reach_step. 2: exact (worker_take ex_addr z1 1 {| tk_job := 0; tk_no := 0; tk_body := Body [] |} [] [] eq_refl eq_refl).
  eapply reach_step. 2: exact (call_many ex_addr z0 0 None 0 [Body []] (Body []) [] [] eq_refl ltac:(discriminate)).
  constructor.
Qed.
