(** C67: collecting a child's output. *)
From Verif Require Import CollectSpec CollectModel CollectLemmas.
From Coq Require Import List Arith ZArith Bool Lia.
Import ListNotations.

(** What is collected is the beginning of what the child writes, always: whatever the child does,
    and whatever fails. *)
Theorem what_is_collected_was_written cap code k n c x :
  runs cap code k n (start c) x -> forall s, exists rest, output c s = got x s ++ rest.
Proof.
  intros R s. pose proof (runs_inv cap code (whole c) (fun f x y S => whole_step cap code f x y c S) _ _ _ _ R (whole_start c) s) as W.
  eexists. exact W.
Qed.
Print Assumptions what_is_collected_was_written.

(** When spawn reports success, all of the child's output has been collected - if the child writes
    nothing more after it has closed one of its streams.
    Missing: children that close one stream and go on writing to the other; see below. *)
Theorem all_output_is_collected_partial cap code k n c x :
  closes_last c = true -> runs cap code k n (start c) x -> at_ x = Done -> err x = false ->
  forall s, got x s = output c s.
Proof. intros H R A E. apply (collected cap code k n c x H R); auto. Qed.
Print Assumptions all_output_is_collected_partial.

(** It does not stall either: as long as no call fails there is always a next step, until it is done. *)
Theorem collecting_never_stalls_partial cap code k n c x :
  0 < cap -> closes_last c = true -> runs cap code k n (start c) x -> err x = false -> at_ x <> Done ->
  exists y, step cap code false x y.
Proof. apply never_stalls. Qed.
Print Assumptions collecting_never_stalls_partial.

(** And it does not go on for ever: the steps of the two together are bounded by what the child
    has to do (interrupted polls not counted), whatever the child does and whatever fails. *)
Theorem collecting_ends cap code k n c x : runs cap code k n (start c) x -> n <= 6 * size c + 5.
Proof. apply bounded. Qed.
Print Assumptions collecting_ends.

(** If no call fails there is no error, and the status is the child's. *)
Theorem the_status_is_the_childs_partial cap code n c x :
  runs cap code 0 n (start c) x -> err x = false /\ (at_ x = Done -> ended x = true /\ status x = Some code).
Proof. apply no_faults. Qed.
Print Assumptions the_status_is_the_childs_partial.

(** An ordinary child, with pipes of two bytes: the whole of its output, in parts. *)
Local Ltac go l := eapply runs_S with (f := false); [|l].
Local Definition talks : child := [Write Out [1; 2; 3]%Z; Write Err [9]%Z; Write Out [4]%Z].
Example all_output_is_collected_ex : closes_last talks = true /\
  exists n x, runs 2 7 0 n (start talks) x /\ at_ x = Done /\ err x = false /\ status x = Some 7
    /\ got x Out = [1; 2; 3; 4]%Z /\ got x Err = [9]%Z.
Proof.
  split; [reflexivity|].
  assert (R : exists n, exists x, runs 2 7 0 n (start talks) x /\ (at_ x, err x, status x, got x Out, got x Err) = (Done, false, Some 7, [1; 2; 3; 4]%Z, [9]%Z)).
  { assert (S : forall n x y, runs 2 7 0 n (start talks) x -> step 2 7 false x y -> runs 2 7 0 (S n) (start talks) y).
    { intros n x y R S. exact (runs_S 2 7 false 0 n _ x y R S). }
    pose proof (runs_0 2 7 (start talks)) as R.
    eapply S in R; [|eapply c_write with (n := 2); cbn; try reflexivity; cbn; lia]. cbn in R.
    eapply S in R; [|eapply p_poll; cbn; reflexivity]. cbn in R.
    eapply S in R; [|eapply p_read_out with (n := 1); cbn; [reflexivity|lia]]. cbn in R.
    eapply S in R; [|eapply c_write with (n := 1); cbn; try reflexivity; cbn; lia]. cbn in R.
    eapply S in R; [|eapply c_written; cbn; auto]. cbn in R.
    eapply S in R; [|eapply p_skip_err; cbn; reflexivity]. cbn in R.
    eapply S in R; [|eapply c_write with (n := 1); cbn; try reflexivity; cbn; lia]. cbn in R.
    eapply S in R; [|eapply c_written; cbn; auto]. cbn in R.
    eapply S in R; [|eapply p_poll; cbn; reflexivity]. cbn in R.
    eapply S in R; [|eapply p_read_out with (n := 2); cbn; [reflexivity|lia]]. cbn in R.
    eapply S in R; [|eapply p_read_err with (n := 1); cbn; [reflexivity|lia]]. cbn in R.
    eapply S in R; [|eapply c_write with (n := 1); cbn; try reflexivity; cbn; lia]. cbn in R.
    eapply S in R; [|eapply c_written; cbn; auto]. cbn in R.
    eapply S in R; [|eapply c_exit; cbn; reflexivity]. cbn in R.
    eapply S in R; [|eapply p_poll; cbn; reflexivity]. cbn in R.
    eapply S in R; [|eapply p_read_out with (n := 1); cbn; [reflexivity|lia]]. cbn in R.
    eapply S in R; [|eapply p_skip_err; cbn; reflexivity]. cbn in R.
    eapply S in R; [|eapply p_poll; cbn; reflexivity]. cbn in R.
    eapply S in R; [|eapply p_skip_out; cbn; reflexivity]. cbn in R.
    eapply S in R; [|eapply p_skip_err; cbn; reflexivity]. cbn in R.
    eapply S in R; [|eapply p_wait; cbn; reflexivity]. cbn in R.
    eexists. eexists. split; [exact R|]. reflexivity. }
  destruct R as (n & x & R & E). exists n, x. injection E as E1 E2 E3 E4 E5. auto 10.
Qed.

(** Without the proviso output is lost: a child that closes its standard output, and then says
    something on standard error. *)
Theorem all_output_is_collected_refuted : forall cap code, 0 < cap ->
  exists c n x, runs cap code 0 n (start c) x /\ at_ x = Done /\ err x = false /\ status x = Some code
    /\ output c Err = [1]%Z /\ got x Err = [].
Proof.
  intros cap code H. exists [Close Out; Write Err [1]%Z].
  assert (S : forall n x y, runs cap code 0 n (start [Close Out; Write Err [1]%Z]) x -> step cap code false x y -> runs cap code 0 (S n) (start [Close Out; Write Err [1]%Z]) y).
  { intros n x y R S. exact (runs_S cap code false 0 n _ x y R S). }
  pose proof (runs_0 cap code (start [Close Out; Write Err [1]%Z])) as R.
  eapply S in R; [|eapply c_close; cbn; reflexivity]. cbn in R.
  eapply S in R; [|eapply p_poll; cbn; reflexivity]. cbn in R.
  eapply S in R; [|eapply p_skip_out; cbn; reflexivity]. cbn in R.
  eapply S in R; [|eapply p_skip_err; cbn; reflexivity]. cbn in R.
  eapply S in R; [|eapply c_write with (n := 1); cbn; try reflexivity; cbn; lia]. cbn in R.
  eapply S in R; [|eapply c_written; cbn; auto]. cbn in R.
  eapply S in R; [|eapply c_exit; cbn; reflexivity]. cbn in R.
  eapply S in R; [|eapply p_wait; cbn; reflexivity]. cbn in R.
  eexists. eexists. split; [exact R|]. cbn. auto 10.
Qed.
Print Assumptions all_output_is_collected_refuted.

(** Worse, if it says more than the pipe holds, both wait for each other for ever. *)
Theorem collecting_never_stalls_refuted : forall cap code, 0 < cap ->
  exists c n x, runs cap code 0 n (start c) x /\ err x = false /\ at_ x = Waiting /\ ended x = false
    /\ forall y, ~ step cap code false x y.
Proof.
  intros cap code H. set (c := [Close Out; Write Err (repeat 1%Z (S cap))]).
  assert (S : forall n x y, runs cap code 0 n (start c) x -> step cap code false x y -> runs cap code 0 (S n) (start c) y).
  { intros n x y R S. exact (runs_S cap code false 0 n _ x y R S). }
  pose proof (runs_0 cap code (start c)) as R. exists c.
  eapply S in R; [|eapply c_close; unfold c; cbn; reflexivity]. cbn in R.
  eapply S in R; [|eapply p_poll; cbn; reflexivity]. cbn in R.
  eapply S in R; [|eapply p_skip_out; cbn; reflexivity]. cbn in R.
  eapply S in R; [|eapply p_skip_err; cbn; reflexivity]. cbn [goto prog ended shut buf got at_ err status after negb andb] in R.
  eapply S in R; [|eapply c_write with (n := cap); cbn; try reflexivity; cbn; rewrite ?repeat_length; lia].
  eexists. eexists. split; [exact R|]. split; [reflexivity|]. split; [reflexivity|]. split; [reflexivity|].
  intros y Y. cbn [goto prog ended shut buf got at_ err status after negb andb] in Y.
  assert (Lb : length (firstn cap (1%Z :: repeat 1%Z cap)) = cap) by (rewrite firstn_length; cbn [length]; rewrite repeat_length; lia).
  assert (Ls : length (skipn cap (1%Z :: repeat 1%Z cap)) = 1) by (rewrite skipn_length; cbn [length]; rewrite repeat_length; lia).
  inversion Y; subst; cbn in *; try discriminate.
  - match goal with E : Write _ _ :: _ = Write _ _ :: _ |- _ => injection E as <- <- <- end. cbn in *. unfold upd in *. cbn in *. lia.
  - match goal with E : Write _ _ :: _ = Write _ _ :: _ |- _ => injection E as <- <- <- end. cbn in *.
    match goal with E : _ \/ _ |- _ => destruct E as [E|E]; [rewrite E in Ls; discriminate|discriminate] end.
Qed.
Print Assumptions collecting_never_stalls_refuted.

(** An interrupted wait is not an error: success is reported, with no status, of a child that is
    still running. *)
Theorem the_status_is_the_childs_refuted : forall cap code, 0 < cap ->
  exists c n x, runs cap code 1 n (start c) x /\ at_ x = Done /\ err x = false /\ ended x = false /\ status x = None.
Proof.
  intros cap code H. exists [Close Out].
  pose proof (runs_0 cap code (start [Close Out])) as R.
  eapply runs_S with (f := false) in R; [|eapply c_close; cbn; reflexivity]. cbn in R.
  eapply runs_S with (f := false) in R; [|eapply p_poll; cbn; reflexivity]. cbn in R.
  eapply runs_S with (f := false) in R; [|eapply p_skip_out; cbn; reflexivity]. cbn in R.
  eapply runs_S with (f := false) in R; [|eapply p_skip_err; cbn; reflexivity]. cbn in R.
  eapply runs_S with (f := true) in R; [|eapply p_wait_fails; cbn; reflexivity]. cbn in R.
  eexists. eexists. split; [exact R|]. cbn. auto.
Qed.
Print Assumptions the_status_is_the_childs_refuted.
