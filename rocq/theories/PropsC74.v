(** * C74: deferred statements run when their block is left, latest first, each
    once, and exactly those that are due. *)

From Coq Require Import List ZArith Bool Lia.
From Verif Require Import DeferSpec DeferModel DeferProof.
Import ListNotations.
Local Open Scope Z_scope.

(** What the C++ does is what is meant, whatever number [u] of exceptions is
    already on its way when the block is entered (a block in a deferred
    statement, itself run because of an error). *)
Theorem C74_cpp_sound : forall (W : Type) (fuel u : nat) (ss : list (st W)) w o w',
  exec_all fuel u ss w [] = Some (o, w') -> runs_all ss w [] o w'.
Proof. intros W fuel u ss w o w' E. apply (proj1 (proj2 (sound W fuel)) u ss w [] o w' E). Qed.
Print Assumptions C74_cpp_sound.

Theorem C74_cpp_complete : forall (W : Type) (ss : list (st W)) w o w',
  runs_all ss w [] o w' ->
  exists N, forall fuel u, (N <= fuel)%nat -> exec_all fuel u ss w [] = Some (o, w').
Proof. intros W ss w o w' R. apply (proj1 (proj2 (complete W)) ss w [] o w' R). Qed.
Print Assumptions C74_cpp_complete.

(** The result does not depend on anything else. *)
Theorem C74_deterministic : forall (W : Type) (ss : list (st W)) w ds o w' o2 w2,
  runs_all ss w ds o w' -> runs_all ss w ds o2 w2 -> o = o2 /\ w' = w2.
Proof. intros. eapply runs_all_det; eassumption. Qed.
Print Assumptions C74_deterministic.

Local Lemma fold_step : forall W o (ds : list (kind * (W -> W))) w,
  fold_left (step W o) ds w = fold_left (fun w g => g w) (map snd (filter (fun d => due (fst d) o) ds)) w.
Proof.
  intros W o. induction ds as [|[k g] ds IH]; intros w; [reflexivity|].
  cbn [fold_left filter fst snd]. unfold step at 2. cbn [fst snd].
  destruct (due k o); cbn [map fold_left snd]; apply IH.
Qed.

Local Definition how (e : option Z) : outcome := match e with None => Done | Some e => Threw e end.

(** The order, without the rules: a block that defers any number of statements
    and then does [f] does [f], then the deferred ones that are due, from the
    last to the first, and ends as [f] did. *)
Theorem C74_order : forall (W : Type) (f : W -> W * option Z) (ds : list (kind * (W -> W))) w o w',
  runs_all (map (fun d => Defer (fst d) [Act (fun w => (snd d w, None))]) ds ++ [Act f]) w [] o w' <->
  o = how (snd (f w)) /\
  w' = fold_left (fun w g => g w) (map snd (filter (fun d => due (fst d) o) (rev ds))) (fst (f w)).
Proof.
  intros W f ds w o w'. destruct (f w) as [w1 e] eqn:F. cbn [fst snd].
  pose proof (defers_run W f ds [] w w1 e F) as R. cbn [map] in R. rewrite app_nil_r in R.
  rewrite fold_step in R. split.
  - intros Q. destruct (runs_all_det W _ _ _ _ _ _ _ Q R) as [-> ->]. split; reflexivity.
  - intros [-> ->]. exact R.
Qed.
Print Assumptions C74_order.

(** The same of the C++. *)
Theorem C74_cpp_order : forall (W : Type) (f : W -> W * option Z) (ds : list (kind * (W -> W))) w,
  exists N, forall fuel u, (N <= fuel)%nat ->
    exec_all fuel u (map (fun d => Defer (fst d) [Act (fun w => (snd d w, None))]) ds ++ [Act f]) w [] =
    Some (how (snd (f w)),
          fold_left (fun w g => g w) (map snd (filter (fun d => due (fst d) (how (snd (f w)))) (rev ds))) (fst (f w))).
Proof. intros W f ds w. apply C74_cpp_complete, C74_order. auto. Qed.
Print Assumptions C74_cpp_order.

(** A deferred statement at the end of a block, which the compiler turns into an
    ordinary one, makes no difference if it always ends normally. *)
Theorem C74_trailing_partial : forall (W : Type) (ss : list (st W)),
  (forall pre k b, ss = pre ++ [Defer k b] -> forall w o w', runs_all b w [] o w' -> o = Done) ->
  forall w o w', runs_all (unwrap_tail ss) w [] o w' <-> runs_all ss w [] o w'.
Proof. intros W ss H. apply unwrap_ok. exact H. Qed.
Print Assumptions C74_trailing_partial.

(** ** Examples *)

Local Definition note (x : Z) : st (list Z) := Act (fun w => (w ++ [x], None)).
Local Definition throw (e : Z) : st (list Z) := Act (fun w => (w, Some e)).

(** A deferred statement that throws ends the program, unless it is the last
    statement of its block: then the error can be caught. *)
Theorem C74_trailing_throw_refuted : exists ss : list (st (list Z)),
  runs_all [Try ss [note 7]] [] [] Died [1] /\
  runs_all [Try (unwrap_tail ss) [note 7]] [] [] Done [1; 7].
Proof.
  exists [note 1; Defer Always [throw 5]]. split.
  - apply (C74_cpp_sound _ 9 0). reflexivity.
  - apply (C74_cpp_sound _ 9 0). reflexivity.
Qed.
Print Assumptions C74_trailing_throw_refuted.

(** Without an error: the last first, and no [defer:err]. *)
Example C74_ex_ok :
  runs_all [Defer Always [note 1]; note 10; Defer IfErr [note 2]; Defer IfOk [note 3]; note 20] [] [] Done [10; 20; 3; 1].
Proof. apply (C74_cpp_sound _ 20 0). reflexivity. Qed.

(** With one: what comes after it is not deferred. *)
Example C74_ex_err :
  runs_all [Defer Always [note 1]; Defer IfErr [note 2]; Defer IfOk [note 3]; throw 5; Defer Always [note 4]] [] []
    (Threw 5) [2; 1].
Proof. apply (C74_cpp_sound _ 20 0). reflexivity. Qed.

(** A block in a deferred statement, run because of an error, has its own
    deferred statements, and they go by how that block is left. *)
Example C74_ex_nested :
  exec_all 40 0
    [Try [Defer Always [Defer IfErr [note 2]; Defer IfOk [note 3];
                        Try [Defer IfErr [note 4]; Defer IfOk [note 5]; throw 9] [note 6]];
          throw 8] [note 7]] [] [] = Some (Done, [4; 6; 3; 7]).
Proof. reflexivity. Qed.

(** Leaving a loop is not an error. *)
Example C74_ex_break :
  runs_all [Loop [Defer IfOk [note 1]; Defer IfErr [note 2];
                  If (fun w => Nat.ltb (length w) 2) [note 3] [Leave 0]; note 4]; note 5] [] []
    Done [3; 4; 1; 1; 5].
Proof. apply (C74_cpp_sound _ 40 0). reflexivity. Qed.

(** The hypothesis of [C74_trailing_partial] is met, and something is rewritten. *)
Example C74_ex_trailing :
  let ss := [note 1; Defer IfOk [note 2]] in
  (forall pre k b, ss = pre ++ [Defer k b] -> forall w o w', runs_all b w [] o w' -> o = Done) /\
  unwrap_tail ss = [note 1; Block [note 2]].
Proof.
  split; [|reflexivity]. intros pre k b E w o w' R.
  apply (app_inj_tail [note 1] pre) in E. destruct E as [_ [= <- <-]].
  assert (R2 : runs_all [note 2] w [] Done (w ++ [2])) by (apply (C74_cpp_sound _ 5 0); reflexivity).
  destruct (C74_deterministic _ _ _ _ _ _ _ _ R R2) as [-> _]. reflexivity.
Qed.
