(** Model of parallel_for's scheduling (include/par/parfor.cpp): the task stack, the worker loop, PBC_Wait and
    PBC_Decrement, nested parallel_fors included.  Any number of threads, interleaved at every access to shared
    state.  Simplifications: push and try_pop are atomic (C10); accesses are sequentially consistent; notify_one
    on the workers' condition variable may wake no one (the code itself calls it best effort); the pre-C++20
    build (mutex and condition variable) is the one modelled. *)
From Coq Require Export List Lia PeanoNat Bool.
Export ListNotations.

(** What a batch (or the main program) does: a sequence of parallel_for calls, each with the bodies of its
    batches: all but the last, and the last (parfor.cpp:505-533; there is always at least one). *)
Inductive body := Body (calls : list (list body * body)).
Definition calls_of (b : body) : list (list body * body) := match b with Body c => c end.

(** parfor.cpp:420-449 PBC_Wait *)
Inductive waitpc :=
| WCheck      (* about to load pending, 422 *)
| WTry        (* about to try_pop, 424 *)
| WLock       (* about to lock, 430 *)
| WRecheck    (* locked; about to load pending again, 440 *)
| WEnter      (* locked; about to wait, 443 *)
| WSleep      (* waiting on the condition variable *)
| WWake       (* notified; about to lock again *)
| WUnlock     (* locked; about to unlock and loop *)
| WRet.       (* locked; about to unlock and return, 441 *)
(** parfor.cpp:367-418 PBC_Decrement *)
Inductive decpc :=
| DFetch      (* about to fetch_add, 369 *)
| DLock       (* about to lock, 386 *)
| DUnlock     (* about to unlock, 387 *)
| DNotify.    (* about to notify_all, 393 *)

(** A task: its job, its number within the job, its body. *)
Record task := { tk_job : nat; tk_no : nat; tk_body : body }.

(** parfor.cpp:130-185 the worker loop *)
Inductive workpc :=
| KTry              (* about to try_pop, 156 *)
| KLock             (* about to lock, 163 *)
| KEnter            (* locked; about to wait, 164 *)
| KSleep            (* waiting *)
| KWake             (* notified; about to lock again *)
| KUnlock           (* locked; about to unlock and loop *)
| KNotify (t : task). (* has a task; about to notify another worker, 176-180 *)

(** A thread's call stack, innermost first. *)
Inductive frame :=
| FRun (job : option nat) (no : nat) (rest : list (list body * body))   (* running a batch; None: the main program *)
| FStart (job no : nat) (b : body)        (* parallel_for, tasks pushed; about to notify and run the last batch, 554-556 *)
| FDec (job : nat) (p : decpc)            (* PBC_Decrement *)
| FWait (job : nat) (p : waitpc)          (* PBC_Wait of parallel_for; the job lives in this frame *)
| FWorker (notify_another : bool) (p : workpc).

(** jobs j: the counter (PendingBatchCount) of job j while it exists.  mutex k: who holds the mutex of slot k.
    sizes and ran are bookkeeping for the statements: how many batches job j has, which batches have finished. *)
Record sched := {
  threads : list (list frame);
  tasks : list task;
  jobs : nat -> option nat;
  njobs : nat;
  mutex : nat -> option nat;
  sizes : nat -> nat;
  ran : list (nat * nat)
}.

Section Sched.
(** parfor.cpp:95-98: the mutex/condition variable a counter uses is chosen by its address: any function. *)
Context (addr : nat -> nat).
Definition slot (j : nat) : nat := addr j mod 99.
(** parfor.cpp:65 stack_MCV: the workers' own. *)
Definition wslot : nat := 99.

Definition setf {A} (f : nat -> A) (t : nat) (x : A) : nat -> A := fun u => if Nat.eqb u t then x else f u.
Fixpoint set_nth {A} (l : list A) (i : nat) (x : A) : list A :=
  match l, i with
  | [], _ => []
  | _ :: l, O => x :: l
  | y :: l, S i => y :: set_nth l i x
  end.

(** notify_all on the condition variable of slot k. *)
Definition wake_frame (k : nat) (f : frame) : frame :=
  match f with
  | FWait j WSleep => if Nat.eqb (slot j) k then FWait j WWake else f
  | _ => f
  end.
Definition wake_all (k : nat) (ths : list (list frame)) : list (list frame) := map (map (wake_frame k)) ths.
(** notify_one on the workers' condition variable. *)
Inductive wake_one (ths : list (list frame)) : list (list frame) -> Prop :=
| wake_none : wake_one ths ths
| wake_some t nb fs : nth_error ths t = Some (FWorker nb KSleep :: fs) -> wake_one ths (set_nth ths t (FWorker nb KWake :: fs)).

(** The first n batches of a call as tasks of job j, numbered from i. *)
Fixpoint tasks_of (j i : nat) (bs : list body) : list task :=
  match bs with [] => [] | b :: bs => {| tk_job := j; tk_no := i; tk_body := b |} :: tasks_of j (S i) bs end.

Definition upd_threads (s : sched) (ths : list (list frame)) : sched :=
  {| threads := ths; tasks := tasks s; jobs := jobs s; njobs := njobs s; mutex := mutex s; sizes := sizes s; ran := ran s |}.
Definition upd_mutex (s : sched) (m : nat -> option nat) : sched :=
  {| threads := threads s; tasks := tasks s; jobs := jobs s; njobs := njobs s; mutex := m; sizes := sizes s; ran := ran s |}.
Definition upd_jobs (s : sched) (jb : nat -> option nat) : sched :=
  {| threads := threads s; tasks := tasks s; jobs := jb; njobs := njobs s; mutex := mutex s; sizes := sizes s; ran := ran s |}.
Definition upd_tasks (s : sched) (l : list task) : sched :=
  {| threads := threads s; tasks := l; jobs := jobs s; njobs := njobs s; mutex := mutex s; sizes := sizes s; ran := ran s |}.
Definition goto (s : sched) (t : nat) (fs : list frame) : sched := upd_threads s (set_nth (threads s) t fs).

(** [step s t s']: thread t moves. *)
Inductive step (s : sched) (t : nat) : sched -> Prop :=
(** 466-542: a call with a single batch runs it in place, without a counter *)
| call_one o n b rest fs : nth_error (threads s) t = Some (FRun o n (([], b) :: rest) :: fs) ->
    step s t (goto s t (FRun o n (calls_of b ++ rest) :: fs))
(** 505-553: the counter is made and all tasks but the last are pushed *)
| call_many o n others b rest fs : nth_error (threads s) t = Some (FRun o n ((others, b) :: rest) :: fs) -> others <> [] ->
    step s t {| threads := set_nth (threads s) t (FStart (njobs s) (length others) b :: FWait (njobs s) WCheck :: FRun o n rest :: fs);
                tasks := tasks_of (njobs s) 0 others ++ tasks s;
                jobs := setf (jobs s) (njobs s) (Some (S (length others)));
                njobs := S (njobs s); mutex := mutex s;
                sizes := setf (sizes s) (njobs s) (S (length others)); ran := ran s |}
(** 554-556 *)
| start_last j n b fs ths : nth_error (threads s) t = Some (FStart j n b :: fs) -> wake_one (threads s) ths ->
    step s t (upd_threads s (set_nth ths t (FRun (Some j) n (calls_of b) :: fs)))
(** parfor.hpp:61-64: the batch is done; its counter is decremented *)
| end_batch j n fs : nth_error (threads s) t = Some (FRun (Some j) n [] :: fs) ->
    step s t {| threads := set_nth (threads s) t (FDec j DFetch :: fs); tasks := tasks s; jobs := jobs s; njobs := njobs s;
                mutex := mutex s; sizes := sizes s; ran := (j, n) :: ran s |}
| end_main n fs : nth_error (threads s) t = Some (FRun None n [] :: fs) -> step s t (goto s t fs)
(** 369: not the last one *)
| dec_more j p fs : nth_error (threads s) t = Some (FDec j DFetch :: fs) -> jobs s j = Some (S (S p)) ->
    step s t (upd_jobs (goto s t fs) (setf (jobs s) j (Some (S p))))
(** 369: the last one *)
| dec_last j fs : nth_error (threads s) t = Some (FDec j DFetch :: fs) -> jobs s j = Some 1 ->
    step s t (upd_jobs (goto s t (FDec j DLock :: fs)) (setf (jobs s) j (Some 0)))
| dec_lock j fs : nth_error (threads s) t = Some (FDec j DLock :: fs) -> mutex s (slot j) = None ->
    step s t (upd_mutex (goto s t (FDec j DUnlock :: fs)) (setf (mutex s) (slot j) (Some t)))
| dec_unlock j fs : nth_error (threads s) t = Some (FDec j DUnlock :: fs) ->
    step s t (upd_mutex (goto s t (FDec j DNotify :: fs)) (setf (mutex s) (slot j) None))
| dec_notify j fs : nth_error (threads s) t = Some (FDec j DNotify :: fs) ->
    step s t (upd_threads s (set_nth (wake_all (slot j) (threads s)) t fs))
(** 422: pending is zero, parallel_for returns and its counter is gone *)
| wait_done j fs : nth_error (threads s) t = Some (FWait j WCheck :: fs) -> jobs s j = Some 0 ->
    step s t (upd_jobs (goto s t fs) (setf (jobs s) j None))
| wait_more j p fs : nth_error (threads s) t = Some (FWait j WCheck :: fs) -> jobs s j = Some (S p) ->
    step s t (goto s t (FWait j WTry :: fs))
(** 424, 187-197: run any task *)
| wait_work j tk tks fs : nth_error (threads s) t = Some (FWait j WTry :: fs) -> tasks s = tk :: tks ->
    step s t (upd_tasks (goto s t (FRun (Some (tk_job tk)) (tk_no tk) (calls_of (tk_body tk)) :: FWait j WCheck :: fs)) tks)
| wait_idle j fs : nth_error (threads s) t = Some (FWait j WTry :: fs) -> tasks s = [] ->
    step s t (goto s t (FWait j WLock :: fs))
| wait_lock j fs : nth_error (threads s) t = Some (FWait j WLock :: fs) -> mutex s (slot j) = None ->
    step s t (upd_mutex (goto s t (FWait j WRecheck :: fs)) (setf (mutex s) (slot j) (Some t)))
| wait_recheck_more j p fs : nth_error (threads s) t = Some (FWait j WRecheck :: fs) -> jobs s j = Some (S p) ->
    step s t (goto s t (FWait j WEnter :: fs))
| wait_recheck_done j fs : nth_error (threads s) t = Some (FWait j WRecheck :: fs) -> jobs s j = Some 0 ->
    step s t (goto s t (FWait j WRet :: fs))
| wait_ret j fs : nth_error (threads s) t = Some (FWait j WRet :: fs) ->
    step s t (upd_mutex (upd_jobs (goto s t fs) (setf (jobs s) j None)) (setf (mutex s) (slot j) None))
(** 443: releases the mutex and sleeps, in one go *)
| wait_sleep j fs : nth_error (threads s) t = Some (FWait j WEnter :: fs) ->
    step s t (upd_mutex (goto s t (FWait j WSleep :: fs)) (setf (mutex s) (slot j) None))
| wait_relock j fs : nth_error (threads s) t = Some (FWait j WWake :: fs) -> mutex s (slot j) = None ->
    step s t (upd_mutex (goto s t (FWait j WUnlock :: fs)) (setf (mutex s) (slot j) (Some t)))
| wait_unlock j fs : nth_error (threads s) t = Some (FWait j WUnlock :: fs) ->
    step s t (upd_mutex (goto s t (FWait j WCheck :: fs)) (setf (mutex s) (slot j) None))
(** 156-183 *)
| worker_idle nb fs : nth_error (threads s) t = Some (FWorker nb KTry :: fs) -> tasks s = [] ->
    step s t (goto s t (FWorker nb KLock :: fs))
| worker_lock nb fs : nth_error (threads s) t = Some (FWorker nb KLock :: fs) -> mutex s wslot = None ->
    step s t (upd_mutex (goto s t (FWorker nb KEnter :: fs)) (setf (mutex s) wslot (Some t)))
| worker_sleep nb fs : nth_error (threads s) t = Some (FWorker nb KEnter :: fs) ->
    step s t (upd_mutex (goto s t (FWorker nb KSleep :: fs)) (setf (mutex s) wslot None))
| worker_relock nb fs : nth_error (threads s) t = Some (FWorker nb KWake :: fs) -> mutex s wslot = None ->
    step s t (upd_mutex (goto s t (FWorker nb KUnlock :: fs)) (setf (mutex s) wslot (Some t)))
| worker_unlock nb fs : nth_error (threads s) t = Some (FWorker nb KUnlock :: fs) ->
    step s t (upd_mutex (goto s t (FWorker true KTry :: fs)) (setf (mutex s) wslot None))
| worker_take tk tks fs : nth_error (threads s) t = Some (FWorker false KTry :: fs) -> tasks s = tk :: tks ->
    step s t (upd_tasks (goto s t (FRun (Some (tk_job tk)) (tk_no tk) (calls_of (tk_body tk)) :: FWorker false KTry :: fs)) tks)
| worker_take_notify tk tks fs : nth_error (threads s) t = Some (FWorker true KTry :: fs) -> tasks s = tk :: tks ->
    step s t (upd_tasks (goto s t (FWorker false (KNotify tk) :: fs)) tks)
| worker_notify nb tk fs ths : nth_error (threads s) t = Some (FWorker nb (KNotify tk) :: fs) -> wake_one (threads s) ths ->
    step s t (upd_threads s (set_nth ths t (FRun (Some (tk_job tk)) (tk_no tk) (calls_of (tk_body tk)) :: FWorker nb KTry :: fs))).

(** A wait may also end on its own. *)
Inductive spurious (s : sched) (t : nat) : sched -> Prop :=
| spurious_wait j fs : nth_error (threads s) t = Some (FWait j WSleep :: fs) -> spurious s t (goto s t (FWait j WWake :: fs))
| spurious_worker nb fs : nth_error (threads s) t = Some (FWorker nb KSleep :: fs) -> spurious s t (goto s t (FWorker nb KWake :: fs)).

(** The main programs, one thread each, and the workers. *)
Definition initial (mains : list body) (workers : nat) : sched :=
  {| threads := map (fun b => [FRun None 0 (calls_of b)]) mains ++ repeat [FWorker false KTry] workers;
     tasks := []; jobs := fun _ => None; njobs := 0; mutex := fun _ => None; sizes := fun _ => 0; ran := [] |}.

Inductive reachable (s0 : sched) : sched -> Prop :=
| reach_refl : reachable s0 s0
| reach_step s t s' : reachable s0 s -> step s t s' -> reachable s0 s'
| reach_spurious s t s' : reachable s0 s -> spurious s t s' -> reachable s0 s'.
End Sched.
