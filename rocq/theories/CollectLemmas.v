(** Proofs about collecting a child's output. *)
From Verif Require Import CollectSpec CollectModel.
From Coq Require Import List Arith ZArith Bool Lia.
Import ListNotations.

Lemma upd_same {A} (f : stream -> A) s v : upd f s v s = v.
Proof. unfold upd. destruct s; reflexivity. Qed.
Lemma seq_spec a b : reflect (a = b) (stream_eqb a b).
Proof. destruct a, b; constructor; congruence. Qed.
Lemma upd_other {A} (f : stream -> A) s v s' : s' <> s -> upd f s v s' = f s'.
Proof. intros H. unfold upd. destruct (seq_spec s' s); congruence. Qed.

Definition quiet (c : child) : bool :=
  forallb (fun a => match a with Close _ => true | Write _ data => match data with [] => true | _ => false end end) c.
Lemma quiet_output c s : quiet c = true -> output c s = [].
Proof.
  induction c as [|[s' d|s'] c IH]; cbn; auto.
  - destruct d; [|discriminate]. cbn. intros H. destruct (stream_eqb s s'); cbn; auto.
  - intros H. destruct (stream_eqb s s'); auto.
Qed.

(** ** Nothing is made up *)
Definition left_ (x : st) (s : stream) : list Z := if shut x s then [] else output (prog x) s.
Definition whole (c : child) (x : st) : Prop := forall s, output c s = got x s ++ buf x s ++ left_ x s.
Lemma whole_step cap code f x y c : step cap code f x y -> whole c x -> whole c y.
Proof.
  intros H W s. specialize (W s). unfold left_ in *. destruct H; cbn [prog shut buf got with_prog goto fails take] in *; auto.
  - rewrite W. rewrite H0. cbn [output]. destruct (seq_spec s s0) as [->|N].
    + rewrite upd_same, H1. rewrite <- !app_assoc. f_equal. f_equal.
      rewrite (app_assoc (firstn n data)), firstn_skipn. reflexivity.
    + rewrite upd_other by auto. reflexivity.
  - rewrite W, H0. cbn [output]. f_equal. f_equal. destruct (seq_spec s s0) as [->|N]; auto.
    destruct H1 as [-> | ->]; reflexivity.
  - rewrite W, H0. cbn [output]. f_equal. f_equal. destruct (seq_spec s s0) as [->|N].
    + rewrite upd_same. destruct (shut x s0); auto.
    + rewrite upd_other by auto. auto.
  - rewrite W, H0. cbn [output]. destruct (shut x s); auto.
  - rewrite W. destruct (seq_spec s Out) as [->|N]; [rewrite !upd_same|rewrite !upd_other by auto; auto].
    rewrite <- app_assoc. f_equal. rewrite app_assoc, firstn_skipn. auto.
  - rewrite W. destruct (seq_spec s Err) as [->|N]; [rewrite !upd_same|rewrite !upd_other by auto; auto].
    rewrite <- app_assoc. f_equal. rewrite app_assoc, firstn_skipn. auto.
Qed.
Lemma whole_start c : whole c (start c).
Proof. intros s. reflexivity. Qed.

(** ** Well-behaved children *)
Definition any_shut (x : st) : Prop := shut x Out = true \/ shut x Err = true.
Definition dry (x : st) : Prop := any_shut x /\ buf x Out = [] /\ buf x Err = [].
Definition pc_ok (x : st) : Prop :=
  match at_ x with
  | Poll => err x = false
  | Ready a b => err x = false /\ (a = true -> buf x Out <> []) /\ (b = true -> buf x Err <> []) /\ (a = false -> b = false -> dry x)
  | Half d b => (b = true -> buf x Err <> []) /\ (d = false -> b = false -> err x = true \/ dry x)
  | Waiting | Done => err x = true \/ dry x
  end.
Record tidy (x : st) : Prop := {
  t_quiet : any_shut x -> quiet (prog x) = true;
  t_last : closes_last (prog x) = true;
  t_ended : ended x = true -> (forall s, shut x s = true);
  t_pc : pc_ok x }.

Lemma quiet_last c : quiet c = true -> closes_last c = true.
Proof. induction c as [|[s d|s] c IH]; cbn; auto. destruct d; [auto|discriminate]. Qed.
Lemma nonempty_true {A} (l : list A) : nonempty l = true <-> l <> [].
Proof. destruct l; cbn; split; congruence. Qed.
Lemma nonempty_false {A} (l : list A) : nonempty l = false <-> l = [].
Proof. destruct l; cbn; split; congruence. Qed.

(** What the parent is waiting for does not go away. *)
Lemma pc_ok_mono x y : at_ y = at_ x -> err y = err x -> (forall s, buf x s <> [] -> buf y s <> []) ->
  (dry x -> dry y) -> pc_ok x -> pc_ok y.
Proof.
  unfold pc_ok. intros E1 E2 B D. rewrite E1, E2. destruct (at_ x); auto; intros H.
  - destruct H as (A1 & A2 & A3 & A4). auto 10.
  - destruct H as (A1 & A2). split; auto. intros X Y. destruct (A2 X Y); auto.
  - destruct H; auto.
  - destruct H; auto.
Qed.

Lemma tidy_step cap code f x y : step cap code f x y -> tidy x -> tidy y.
Proof.
  intros H [Q L E P]. destruct H.
  - (* write *) assert (NQ : ~ any_shut x). { intros A. specialize (Q A). rewrite H0 in Q. cbn in Q. destruct data; [cbn in H2; lia|discriminate]. }
    constructor; cbn.
    + intros A. destruct (NQ A).
    + rewrite H0 in L. exact L.
    + discriminate.
    + eapply pc_ok_mono; [| | | |exact P]; cbn; auto.
      * intros s' X. destruct (seq_spec s' s) as [->|N]; [rewrite upd_same; destruct (buf x s); [congruence|discriminate]|rewrite upd_other; auto].
      * intros (A & _). destruct (NQ A).
  - (* written *) constructor; cbn.
    + intros A. specialize (Q A). rewrite H0 in Q. cbn in Q. destruct data; [exact Q|discriminate].
    + rewrite H0 in L. exact L.
    + congruence.
    + eapply pc_ok_mono; [| | | |exact P]; cbn; auto.
  - (* close *) constructor; cbn.
    + intros _. rewrite H0 in L. exact L.
    + rewrite H0 in L. apply quiet_last. exact L.
    + discriminate.
    + eapply pc_ok_mono; [| | | |exact P]; cbn; auto. intros (A & B & C). split; auto.
      unfold any_shut in *; cbn. destruct A as [A|A]; [left|right]; unfold upd; destruct (stream_eqb _ s); auto.
  - (* exit *) constructor; cbn; auto. 
    eapply pc_ok_mono; [| | | |exact P]; cbn; auto. intros (A & B & C). split; auto. left. reflexivity.
  - (* poll *) constructor; cbn; auto. unfold pc_ok in *. cbn. rewrite H in P. split; auto. split; [apply nonempty_true|]. split; [apply nonempty_true|].
    intros A B. apply nonempty_false in A. apply nonempty_false in B. unfold reported in H0. rewrite A, B in H0. cbn in H0.
    split; [|auto]. apply orb_true_iff in H0. exact H0.
  - constructor; cbn; auto; unfold pc_ok; cbn; auto.
  - (* read out *) constructor; cbn; auto. unfold pc_ok in *. cbn. rewrite H in P. destruct P as (A1 & A2 & A3 & A4).
    split; [|discriminate]. intros X. unfold upd. cbn. auto.
  - constructor; cbn; auto. unfold pc_ok in *. cbn. rewrite H in P. destruct P as (A1 & A2 & A3 & A4). split; auto.
  - constructor; cbn; auto. unfold pc_ok in *. cbn. rewrite H in P. destruct P as (A1 & A2 & A3 & A4). split; auto.
  - (* read err *) constructor; cbn; auto. unfold pc_ok in *. cbn. unfold after. rewrite andb_false_r. destruct (err x) eqn:Ex; auto.
  - constructor; cbn; auto; unfold pc_ok; cbn; auto.
  - constructor; cbn; auto. unfold pc_ok in *. cbn. rewrite H in P. unfold after. rewrite andb_true_r.
    destruct d; cbn; [destruct (err x) eqn:Ex; auto|]. apply P; auto.
  - constructor; cbn; auto. unfold pc_ok in *. cbn. rewrite H in P. exact P.
  - constructor; cbn; auto. unfold pc_ok in *. cbn. rewrite H in P. exact P.
Qed.
Lemma tidy_start c : closes_last c = true -> tidy (start c).
Proof. intros H. constructor; cbn; auto; try discriminate. intros [A|A]; discriminate. Qed.

Lemma runs_inv cap code (I : st -> Prop) : (forall f x y, step cap code f x y -> I x -> I y) ->
  forall k n x y, runs cap code k n x y -> I x -> I y.
Proof. intros S k n x y R. induction R; eauto. Qed.

Lemma collected cap code k n c x : closes_last c = true -> runs cap code k n (start c) x ->
  at_ x = Waiting \/ at_ x = Done -> err x = false -> forall s, got x s = output c s.
Proof.
  intros H R A E s.
  pose proof (runs_inv cap code tidy (tidy_step cap code) _ _ _ _ R (tidy_start c H)) as [Q L En P].
  pose proof (runs_inv cap code (whole c) (fun f x y S => whole_step cap code f x y c S) _ _ _ _ R (whole_start c) s) as W.
  assert (D : dry x) by (unfold pc_ok in P; destruct A as [A|A]; rewrite A in P; destruct P as [P|P]; congruence).
  destruct D as (A1 & A2 & A3). rewrite W. unfold left_. rewrite (quiet_output (prog x) s (Q A1)).
  destruct s; rewrite ?A2, ?A3; destruct (shut x _); rewrite !app_nil_r; auto.
Qed.

(** ** No stalling *)
Lemma child_moves cap code x : ended x = false -> 
  (forall s data rest, prog x = Write s data :: rest -> data <> [] -> shut x s = false -> length (buf x s) < cap) ->
  exists y, step cap code false x y.
Proof.
  intros E H. destruct (prog x) as [|[s data|s] rest] eqn:Ep.
  - eexists. apply c_exit; auto.
  - destruct data as [|b data]; [eexists; eapply c_written; eauto|].
    destruct (shut x s) eqn:Es; [eexists; eapply c_written; eauto|].
    specialize (H s (b :: data) rest eq_refl ltac:(discriminate) Es).
    eexists. eapply c_write with (n := 1); eauto; cbn; lia.
  - eexists. eapply c_close; eauto.
Qed.
Lemma never_stalls cap code k n c x : 0 < cap -> closes_last c = true -> runs cap code k n (start c) x ->
  err x = false -> at_ x <> Done -> exists y, step cap code false x y.
Proof.
  intros Hc H R E N. pose proof (runs_inv cap code tidy (tidy_step cap code) _ _ _ _ R (tidy_start c H)) as [Q L En P].
  unfold pc_ok in P. destruct (at_ x) eqn:A.
  - destruct (reported x Out || reported x Err) eqn:B; [eexists; apply p_poll; auto|].
    apply orb_false_iff in B. unfold reported in B. destruct B as [B1 B2]. apply orb_false_iff in B1, B2.
    destruct B1 as [B1 S1], B2 as [B2 S2]. apply nonempty_false in B1, B2.
    apply child_moves.
    + destruct (ended x) eqn:Ee; auto. rewrite (En eq_refl) in S1. discriminate.
    + intros [] data rest _ _ _; rewrite ?B1, ?B2; auto.
  - destruct P as (P1 & P2 & P3 & P4). destruct in_out; [|eexists; apply p_skip_out; eauto].
    eexists. eapply p_read_out with (n := 1); eauto. destruct (buf x Out); [exfalso; apply P2; auto|cbn; lia].
  - destruct P as (P1 & P2). destruct in_err; [|eexists; eapply p_skip_err; eauto].
    eexists. eapply p_read_err with (n := 1); eauto. destruct (buf x Err); [exfalso; apply P1; auto|cbn; lia].
  - destruct P as [P|P]; [congruence|]. destruct (ended x) eqn:Ee; [eexists; apply p_wait; auto|].
    apply child_moves; auto. intros s data rest Ep Nd _. specialize (Q (proj1 P)). rewrite Ep in Q. cbn in Q. destruct data; [congruence|discriminate].
  - congruence.
Qed.

(** ** Every run ends *)
Definition weight (a : act) : nat := match a with Write _ data => 1 + 6 * length data | Close _ => 1 end.
Definition pc_weight (p : pc) : nat := match p with Poll => 4 | Ready _ _ => 3 | Half true _ => 6 | Half false _ => 2 | Waiting => 1 | Done => 0 end.
Definition todo (x : st) : nat :=
  list_sum (map weight (prog x)) + (if ended x then 0 else 1) + 5 * length (buf x Out) + 5 * length (buf x Err) + pc_weight (at_ x).
Lemma upd_lengths (f : stream -> list Z) s v :
  length (upd f s v Out) + length (upd f s v Err) + length (f s) = length (f Out) + length (f Err) + length v.
Proof. destruct s; unfold upd; cbn; lia. Qed.
Lemma todo_step cap code f x y : step cap code f x y -> todo y < todo x.
Proof.
  intros H. unfold todo. destruct H; cbn [prog ended buf at_ with_prog goto fails take].
  - rewrite H, H0. cbn [map list_sum fold_right weight]. pose proof (upd_lengths (buf x) s (buf x s ++ firstn n data)) as U.
    rewrite app_length, firstn_length in U. rewrite skipn_length. unfold list_sum. cbn [fold_right]. lia.
  - rewrite H0. cbn [map]. unfold list_sum. cbn [fold_right weight]. lia.
  - rewrite H, H0. cbn [map]. unfold list_sum. cbn [fold_right weight]. lia.
  - rewrite H, H0. cbn. lia.
  - rewrite H. cbn. lia.
  - rewrite H. cbn. lia.
  - rewrite H. pose proof (upd_lengths (buf x) Out (skipn n (buf x Out))) as U. rewrite skipn_length in U. cbn [pc_weight]. lia.
  - rewrite H. cbn. lia.
  - rewrite H. cbn. lia.
  - rewrite H. pose proof (upd_lengths (buf x) Err (skipn n (buf x Err))) as U. rewrite skipn_length in U.
    unfold after. rewrite andb_false_r. destruct d, (err x); cbn [pc_weight]; lia.
  - rewrite H. destruct d; cbn; lia.
  - rewrite H. unfold after. rewrite andb_true_r. destruct d; cbn; [destruct (err x)|]; cbn; lia.
  - rewrite H, H0. cbn. lia.
  - rewrite H. cbn. lia.
Qed.
Lemma bounded cap code k n c x : runs cap code k n (start c) x -> n <= 6 * size c + 5.
Proof.
  intros R. assert (G : n + todo x <= todo (start c)).
  { remember (start c) as x0. clear Heqx0. induction R as [|f k n x y z R IH S]; [lia|]. pose proof (todo_step _ _ _ _ _ S). lia. }
  assert (T : todo (start c) <= 6 * size c + 5).
  { unfold todo. cbn [start prog ended buf at_ length pc_weight]. unfold size.
    assert (X : list_sum (map weight c) <= 6 * list_sum (map (fun a => match a with Write _ data => 1 + length data | Close _ => 1 end) c)).
    { clear. unfold list_sum. induction c as [|[s d|s] c IH]; cbn [map fold_right weight]; lia. }
    lia. }
  lia.
Qed.

(** ** Without failures *)
Lemma no_faults cap code n c x : runs cap code 0 n (start c) x ->
  err x = false /\ (at_ x = Done -> ended x = true /\ status x = Some code).
Proof.
  intros R. remember 0 as k eqn:Ek. remember (start c) as x0 eqn:E0.
  assert (G : err x = false /\ (at_ x = Done -> ended x = true /\ status x = Some code)); [|exact G].
  induction R as [|f k n x y z R IH S]; [subst; split; [reflexivity|discriminate]|].
  destruct f; [discriminate|]. destruct (IH Ek E0) as [I1 I2]. clear IH R.
  inversion S; subst; cbn in *; (split; [assumption|]); try discriminate; try (intros X; destruct (I2 X); auto; congruence); auto.
  - intros X. unfold after in X. rewrite andb_false_r, I1 in X. discriminate.
  - intros X. unfold after in X. rewrite andb_true_r, I1 in X. destruct d; discriminate.
Qed.
