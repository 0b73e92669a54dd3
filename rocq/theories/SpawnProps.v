(** C66: spawn and descriptors. *)
From Verif Require Import SpawnSpec SpawnModel SpawnLemmas.
From Coq Require Import List Arith Bool Lia.
Import ListNotations.

(** The pipes the system gives in answer to a spawn have free descriptors. *)
Local Notation given a out_m err_m in_m :=
  (pipe_fds out_m (a_out a) ++ pipe_fds err_m (a_err a) ++ pipe_fds in_m (a_in a)).

(** A parent with its three streams, a listening socket that is not to be inherited, and a log file that is. *)
Local Definition parent : table := fun f => nth f (map Some [(Had 0, false); (Had 1, false); (Had 2, false); (Had 3, true); (Had 4, false)]) None.
Local Definition ok : answers_t := {| a_out := Some (5, 6); a_err := Some (7, 8); a_in := Some (9, 10); a_empty := false; a_works := true |}.
Local Definition no_third : answers_t := {| a_out := Some (5, 6); a_err := Some (7, 8); a_in := None; a_empty := false; a_works := true |}.
Local Definition no_program : answers_t := {| a_out := Some (5, 6); a_err := Some (7, 8); a_in := Some (9, 10); a_empty := false; a_works := false |}.
Local Lemma parent_streams : has_streams parent.
Proof. repeat split; discriminate. Qed.
Local Lemma parent_free l : (forall f, In f l -> 5 <= f) -> NoDup l -> all_free parent l.
Proof. intros H N. split; auto. intros f Hf. unfold parent. apply nth_overflow. cbn. apply H. auto. Qed.

(** Whatever fails - a pipe, the program, an empty command - the parent's descriptors are as before. *)
Theorem a_failed_spawn_leaves_no_descriptor a out_m err_m in_m t t' :
  has_streams t -> all_free t (given a out_m err_m in_m) ->
  spawn_child a out_m err_m in_m t = (t', None) -> same t' t.
Proof. intros Hs Hf E. pose proof (spawn_child_result a out_m err_m in_m t Hs Hf) as R. rewrite E in R. exact R. Qed.
Print Assumptions a_failed_spawn_leaves_no_descriptor.
Example a_failed_spawn_leaves_no_descriptor_ex :
  snd (spawn_child no_third Pipe Pipe Pipe parent) = None /\ snd (spawn_child no_program Pipe Pipe Pipe parent) = None
  /\ has_streams parent /\ all_free parent (given no_third Pipe Pipe Pipe) /\ all_free parent (given no_program Pipe Pipe Pipe).
Proof.
  split; [reflexivity|]. split; [reflexivity|]. split; [apply parent_streams|].
  split; apply parent_free; cbn; try (intros; lia); repeat constructor; cbn; lia.
Qed.

(** A spawn that succeeds leaves the parent with what it had and its own end of each pipe it asked
    for, at the descriptors it is told and closed when another program is started; nothing else. *)
Theorem a_spawn_leaves_one_end_of_each_pipe a out_m err_m in_m t t' ch c :
  has_streams t -> all_free t (given a out_m err_m in_m) ->
  spawn_child a out_m err_m in_m t = (t', Some (ch, c)) ->
  forall f o b, t' f = Some (o, b) <->
    t f = Some (o, b) \/ b = true /\ In (f, o) (ends_kept out_m err_m in_m (out_fd ch) (err_fd ch) (in_fd ch)).
Proof.
  intros Hs Hf E f o b. pose proof (spawn_child_result a out_m err_m in_m t Hs Hf) as R. rewrite E in R.
  destruct R as (Go & Ge & Gi & -> & _ & R0 & R1 & R2 & R3). cbn [out_fd err_fd in_fd].
  pose proof (free a out_m err_m in_m t Hf) as F.
  assert (Ko : forall x, In x (pipe_fds out_m (a_out a)) -> exists r w, out_m = Pipe /\ a_out a = Some (r, w) /\ (x = r \/ x = w)).
  { destruct out_m; try (intros x []). destruct (a_out a) as [[r w]|]; [|intros x []]. intros x [<-|[<-|[]]]; eauto 10. }
  assert (Ke : forall x, In x (pipe_fds err_m (a_err a)) -> exists r w, err_m = Pipe /\ a_err a = Some (r, w) /\ (x = r \/ x = w)).
  { destruct err_m; try (intros x []). destruct (a_err a) as [[r w]|]; [|intros x []]. intros x [<-|[<-|[]]]; eauto 10. }
  assert (Ki : forall x, In x (pipe_fds in_m (a_in a)) -> exists r w, in_m = Pipe /\ a_in a = Some (r, w) /\ (x = r \/ x = w)).
  { destruct in_m; try (intros x []). destruct (a_in a) as [[r w]|]; [|intros x []]. intros x [<-|[<-|[]]]; eauto 10. }
  split.
  - intros H. destruct (in_dec Nat.eq_dec f (pipe_fds out_m (a_out a))) as [Io|No].
    { destruct (Ko f Io) as (r & w & Em & Ea & X). destruct (R1 r w Em Ea) as (Y1 & Y2). right.
      destruct X as [-> | ->]; [|congruence]. rewrite Y1 in H. injection H as <- <-. split; auto. rewrite Em, Ea. cbn. auto. }
    destruct (in_dec Nat.eq_dec f (pipe_fds err_m (a_err a))) as [Ie|Ne].
    { destruct (Ke f Ie) as (r & w & Em & Ea & X). destruct (R2 r w Em Ea) as (Y1 & Y2). right.
      destruct X as [-> | ->]; [|congruence]. rewrite Y1 in H. injection H as <- <-. split; auto. rewrite Em, Ea. cbn. apply in_or_app. right. left. auto. }
    destruct (in_dec Nat.eq_dec f (pipe_fds in_m (a_in a))) as [Ii|Ni].
    { destruct (Ki f Ii) as (r & w & Em & Ea & X). destruct (R3 r w Em Ea) as (Y1 & Y2). right.
      destruct X as [-> | ->]; [congruence|]. rewrite Y1 in H. injection H as <- <-. split; auto. rewrite Em, Ea. cbn. apply in_or_app. right. apply in_or_app. right. left. auto. }
    left. rewrite R0 in H; auto.
  - intros [H|[-> H]].
    + rewrite R0; auto; intros X; rewrite F in H; try discriminate; auto.
    + unfold ends_kept in H. apply in_app_or in H. destruct H as [H|H]; [|apply in_app_or in H; destruct H as [H|H]].
      * destruct out_m; try (destruct H; fail). destruct (a_out a) as [[r w]|] eqn:Ea; [|discriminate]. destruct H as [[= <- <-]|[]]. apply (R1 r w); auto.
      * destruct err_m; try (destruct H; fail). destruct (a_err a) as [[r w]|] eqn:Ea; [|discriminate]. destruct H as [[= <- <-]|[]]. apply (R2 r w); auto.
      * destruct in_m; try (destruct H; fail). destruct (a_in a) as [[r w]|] eqn:Ea; [|discriminate]. destruct H as [[= <- <-]|[]]. apply (R3 r w); auto.
Qed.
Print Assumptions a_spawn_leaves_one_end_of_each_pipe.
Example a_spawn_leaves_one_end_of_each_pipe_ex :
  let '(t', r) := spawn_child ok Pipe Pipe Pipe parent in
  has_streams parent /\ all_free parent (given ok Pipe Pipe Pipe)
  /\ option_map fst r = Some {| in_fd := 10; out_fd := 5; err_fd := 7 |}
  /\ map t' [4; 5; 6; 7; 8; 9; 10; 11]
     = [Some (Had 4, false); Some (ReadEnd 1, true); None; Some (ReadEnd 2, true); None; None; Some (WriteEnd 0, true); None].
Proof.
  cbn -[parent]. split; [apply parent_streams|]. split; [|split; reflexivity].
  apply parent_free; cbn; try (intros; lia); repeat constructor; cbn; lia.
Qed.

(** The child's streams are the pipes, and the parent's output streams, where asked for.
    Missing: streams to be ignored, and the parent's input; see the refutations below. *)
Theorem the_child_gets_its_streams_partial a out_m err_m in_m t t' ch c :
  has_streams t -> all_free t (given a out_m err_m in_m) ->
  spawn_child a out_m err_m in_m t = (t', Some (ch, c)) ->
  (in_m = Pipe -> sees c 0 = wanted_stream t 0 in_m)
  /\ (out_m <> Ignore -> sees c 1 = wanted_stream t 1 out_m)
  /\ (err_m <> Ignore -> sees c 2 = wanted_stream t 2 err_m).
Proof.
  intros Hs Hf E. pose proof (spawn_child_result a out_m err_m in_m t Hs Hf) as R. rewrite E in R.
  destruct R as (_ & _ & _ & _ & (c0 & -> & C0 & C1 & C2 & _) & _). unfold sees, exec. rewrite C0, C1, C2.
  split; [|split].
  - intros ->. reflexivity.
  - destruct out_m; cbn; try congruence. intros _. destruct (t 1) as [[]|]; reflexivity.
  - destruct err_m; cbn; try congruence. intros _. destruct (t 2) as [[]|]; reflexivity.
Qed.
Print Assumptions the_child_gets_its_streams_partial.
Example the_child_gets_its_streams_ex :
  match snd (spawn_child ok Pipe Parent Pipe parent) with
  | Some (_, c) => map (sees c) [0; 1; 2] = [Some (ReadEnd 0); Some (WriteEnd 1); Some (Had 2)]
  | None => False
  end.
Proof. reflexivity. Qed.

(** An ignored stream is not /dev/null: it is closed, always.  It is opened with O_CLOEXEC at the
    right place, and so is gone when the program starts; the first file the child opens will be
    its standard output. *)
Theorem an_ignored_stream_is_dev_null_refuted :
  (forall a out_m err_m in_m t t' ch c,
     has_streams t -> all_free t (given a out_m err_m in_m) ->
     spawn_child a out_m err_m in_m t = (t', Some (ch, c)) ->
     (in_m = Ignore -> c 0 = None) /\ (out_m = Ignore -> c 1 = None) /\ (err_m = Ignore -> c 2 = None))
  /\ exists t' ch c, spawn_child ok Pipe Ignore Ignore parent = (t', Some (ch, c)) /\ sees c 2 <> wanted_stream parent 2 Ignore.
Proof.
  split.
  - intros a out_m err_m in_m t t' ch c Hs Hf E. pose proof (spawn_child_result a out_m err_m in_m t Hs Hf) as R. rewrite E in R.
    destruct R as (_ & _ & _ & _ & (c0 & -> & C0 & C1 & C2 & _) & _). unfold exec. rewrite C0, C1, C2.
    split; [|split]; intros ->; reflexivity.
  - destruct (spawn_child ok Pipe Ignore Ignore parent) as [t' [[ch c]|]] eqn:E; [|discriminate]. exists t', ch, c. split; auto.
    injection E as _ _ <-. discriminate.
Qed.
Print Assumptions an_ignored_stream_is_dev_null_refuted.

(** The parent's standard input is never handed on: descriptor 0 is taken for none. *)
Theorem the_parents_input_is_handed_on_refuted :
  (forall a out_m err_m t t' ch c,
     has_streams t -> all_free t (given a out_m err_m Parent) ->
     spawn_child a out_m err_m Parent t = (t', Some (ch, c)) -> c 0 = None)
  /\ exists t' ch c, spawn_child ok Pipe Pipe Parent parent = (t', Some (ch, c)) /\ sees c 0 <> wanted_stream parent 0 Parent.
Proof.
  split.
  - intros a out_m err_m t t' ch c Hs Hf E. pose proof (spawn_child_result a out_m err_m Parent t Hs Hf) as R. rewrite E in R.
    destruct R as (_ & _ & _ & _ & (c0 & -> & C0 & C1 & C2 & _) & _). unfold exec. rewrite C0. reflexivity.
  - destruct (spawn_child ok Pipe Pipe Parent parent) as [t' [[ch c]|]] eqn:E; [|discriminate]. exists t', ch, c. split; auto.
    injection E as _ _ <-. discriminate.
Qed.
Print Assumptions the_parents_input_is_handed_on_refuted.

(** Besides its three streams the child has what the parent lets its children inherit, and no more:
    no end of its own pipes or of any other child's is left open in it. *)
Theorem the_child_inherits_nothing_else a out_m err_m in_m t t' ch c :
  has_streams t -> all_free t (given a out_m err_m in_m) ->
  spawn_child a out_m err_m in_m t = (t', Some (ch, c)) ->
  forall f, 2 < f -> forall o b, c f = Some (o, b) <-> t f = Some (o, false) /\ b = false.
Proof.
  intros Hs Hf E f L o b. pose proof (spawn_child_result a out_m err_m in_m t Hs Hf) as R. rewrite E in R.
  destruct R as (_ & _ & _ & _ & (c0 & -> & _ & _ & _ & C) & _). unfold exec. rewrite C by auto.
  destruct (t f) as [[o' []]|]; split; try discriminate; try (intros [? ?]; congruence).
  intros [= -> <-]. auto.
Qed.
Print Assumptions the_child_inherits_nothing_else.
Example the_child_inherits_nothing_else_ex :
  match snd (spawn_child ok Pipe Pipe Pipe parent) with
  | Some (_, c) => map c [3; 4; 5; 6; 7; 8; 9; 10] = [None; Some (Had 4, false); None; None; None; None; None; None]
  | None => False
  end.
Proof. reflexivity. Qed.

(** Two children one after another: the second has nothing of the first's pipes. *)
Theorem one_child_has_nothing_of_another a1 out1 err1 in1 a2 out2 err2 in2 t t1 ch1 c1 t2 ch2 c2 :
  has_streams t -> all_free t (given a1 out1 err1 in1) -> spawn_child a1 out1 err1 in1 t = (t1, Some (ch1, c1)) ->
  all_free t1 (given a2 out2 err2 in2) -> spawn_child a2 out2 err2 in2 t1 = (t2, Some (ch2, c2)) ->
  forall f, 2 < f -> forall o b, c2 f = Some (o, b) -> t f = Some (o, false).
Proof.
  intros Hs H1 E1 H2 E2 f L o b H.
  assert (Hs1 : has_streams t1).
  { destruct Hs as (A & B & C). pose proof (a_spawn_leaves_one_end_of_each_pipe a1 out1 err1 in1 t t1 ch1 c1 (conj A (conj B C)) H1 E1) as K.
    repeat split; intros X.
    - destruct (t 0) as [[o0 b0]|] eqn:Y; [|congruence]. rewrite (proj2 (K 0 o0 b0) (or_introl Y)) in X. discriminate.
    - destruct (t 1) as [[o0 b0]|] eqn:Y; [|congruence]. rewrite (proj2 (K 1 o0 b0) (or_introl Y)) in X. discriminate.
    - destruct (t 2) as [[o0 b0]|] eqn:Y; [|congruence]. rewrite (proj2 (K 2 o0 b0) (or_introl Y)) in X. discriminate. }
  apply (the_child_inherits_nothing_else a2 out2 err2 in2 t1 t2 ch2 c2 Hs1 H2 E2 f L o b) in H. destruct H as [H _].
  apply (a_spawn_leaves_one_end_of_each_pipe a1 out1 err1 in1 t t1 ch1 c1 Hs H1 E1) in H. destruct H as [H|[H _]]; [auto|discriminate].
Qed.
Print Assumptions one_child_has_nothing_of_another.
Example one_child_has_nothing_of_another_ex :
  let '(t1, _) := spawn_child ok Pipe Pipe Pipe parent in
  let a2 := {| a_out := Some (6, 8); a_err := Some (9, 11); a_in := None; a_empty := false; a_works := true |} in
  all_free t1 (given a2 Pipe Pipe Ignore) /\ snd (spawn_child a2 Pipe Pipe Ignore t1) <> None.
Proof.
  cbn -[parent]. split; [split|discriminate].
  - repeat constructor; cbn; lia.
  - intros f [<-|[<-|[<-|[<-|[]]]]]; reflexivity.
Qed.
