(** Model of how parallel_for cuts its index range into batches (include/par/parfor.cpp:466-559) and of the
    array helpers built on it (lib/par.fu).  size_t values are Z in [0, 2^64). *)
From Verif Require Export Words.
Open Scope Z_scope.

(** parfor.cpp:477-485: the most batches to use. *)
Definition max_batches (workers : Z) : Z :=
  let m := wadd 64 workers 1 in
  if (64 <? m) || (m =? 1) then m else 64.

(** parfor.cpp:490-496: how many batches; None is a division by zero. *)
Definition batch_count (workers size per_batch : Z) : option Z :=
  if per_batch =? 0 then None else
  let batches := size / per_batch in
  let m := max_batches workers in
  let batches := if batches <? m then batches else m in
  Some (if 1 <? batches then batches else 1).

(** parfor.cpp:508-530: the loop over i < batches; (start, end) of each task. *)
Fixpoint fill_tasks (n : nat) (i per_batch : Z) : list (Z * Z) :=
  match n with
  | O => []
  | S n => (wmul 64 i per_batch, wmul 64 (wadd 64 i 1) per_batch) :: fill_tasks n (wadd 64 i 1) per_batch
  end.

(** parfor.cpp:532-533: [tasks[batches - 1].end = size]. *)
Fixpoint set_last_end (tasks : list (Z * Z)) (size : Z) : list (Z * Z) :=
  match tasks with
  | [] => []
  | [t] => [(fst t, size)]
  | t :: r => t :: set_last_end r size
  end.

(** parfor.cpp:466-533: all batches, as [start, end) pairs. *)
Definition batches_of (workers size per_batch : Z) : option (list (Z * Z)) :=
  do n <- batch_count workers size per_batch;
  if n =? 0 then None else
  Some (set_last_end (fill_tasks (Z.to_nat n) 0 (size / n)) size).

(** lib/par.fu:26-56: [size_t(min > 1 ? min : 1)] and the int end; each batch visits its indices in order
    ([for (i = start; i < end; i++)]). *)
Definition par_batches (workers min end_ : Z) : option (list (Z * Z)) :=
  batches_of workers (wrap 64 end_) (wrap 64 (if 1 <? min then min else 1)).
Fixpoint visit_range (n : nat) (i : Z) : list Z :=
  match n with O => [] | S n => i :: visit_range n (i + 1) end.
Definition batch_visits (b : Z * Z) : list Z := visit_range (Z.to_nat (snd b - fst b)) (fst b).

(** lib/par.fu:10-19 map: result[i] = visit(arr[i], i), for the indices in the order they happen to run.
    None cells are the junk of grow_junk. *)
Fixpoint par_writes {T U} (f : T -> Z -> U) (arr : list T) (order : list Z) (result : list (option U)) : option (list (option U)) :=
  match order with
  | [] => Some result
  | i :: order =>
      do x <- (if i <? 0 then None else nth_error arr (Z.to_nat i));
      do r <- upd result (Z.to_nat i) (Some (f x i));
      par_writes f arr order r
  end.
Definition par_map {T U} (f : T -> Z -> U) (arr : list T) (order : list Z) : option (list (option U)) :=
  par_writes f arr order (repeat None (length arr)).
