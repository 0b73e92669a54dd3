From Verif Require Import SockSpec SockModel SockLemmas.
From Coq Require Import List Arith ZArith Bool Lia.
Import ListNotations.

(** Whatever the program does and whatever goes wrong: what it reads is what the peer sent, in
    order, nothing twice and nothing left out. *)
Theorem bytes_arrive_in_order : forall B faults w x, runs B faults (accepted w) x -> prefix (got x) (sent x).
Proof. intros B f w x R. destruct (runs_ordered _ _ _ _ R) as (r & E & _). now exists r. Qed.
Print Assumptions bytes_arrive_in_order.

(** No wake-up is lost, whatever the program does in an event.
    If it reads when called, or was not told that there is something to read, then the loop wakes
    up for whatever is left and whatever the peer does next. *)
Theorem reading_is_woken : forall B faults w x cw er mf l,
  runs B faults (accepted w) x -> closed x = false ->
  let y := event cw er mf l x in closed y = false ->
  rd (bits cw x) = false \/ is_called (bits cw x) = true /\ In (Prog Read) l ->
  (rx y <> [] -> forall cw' er', reports cw' er' y = true) /\
  (forall p cw' er', p = Finish \/ p = Reset \/ (exists d, d <> [] /\ p = Send d) -> reports cw' er' (peer_does p y) = true).
Proof.
  intros B f w x cw er mf l R C y CY H.
  pose proof (runs_base _ _ _ _ R) as Bx. pose proof (event_base cw er mf l x Bx C) as By. fold y in By.
  assert (A : armed_in y = true \/ fin y = true).
  { unfold y in CY, By |- *. rewrite event_done in *. destruct (done cw er l x) as [[z s] e] eqn:D.
    destruct (done_facts _ _ _ _ _ _ _ Bx C D) as (F1 & F2 & F3 & F4 & F5 & F6).
    destruct (not_closed _ _ _ _ CY) as (M & -> & ->).
    destruct (s_reof (kept (rearm false (z, s, false)))) eqn:Q; [right; now apply (b_reof _ By)|].
    left. unfold rearm in *. rewrite M in *. cbn in *. rewrite Q. cbn.
    destruct H as [H|[H I]].
    - rewrite F5. rewrite H. apply orb_true_r.
    - unfold done in D. unfold is_called in D, H. cbn in D, H. rewrite H in D.
      destruct (acts_grow _ _ _ _ _ _ _ D) as (_ & _ & _ & _ & _ & _ & K & _). now rewrite (K I). }
  split.
  - intros N cw' er'. unfold reports. destruct A as [A|A]; rewrite A; [|cbn; now rewrite !orb_true_r].
    destruct (rx y); [congruence|]. reflexivity.
  - intros p cw' er' P. unfold reports. destruct (peer_keeps p y) as (K1 & _). rewrite K1, (peer_arrives p y P).
    destruct A as [A|A]; [now rewrite A|]. rewrite (peer_fin p y A), A. now rewrite !orb_true_r.
Qed.
Print Assumptions reading_is_woken.

(** If it was told that there is something to read and did not read, it is told again at the next
    event, whatever the peer does in between. *)
Theorem unread_is_told_again : forall cw er mf l x,
  rd (bits cw x) = true -> ~ In (Prog Read) l -> ~ In (Prog ReadFails) l ->
  let y := event cw er mf l x in closed y = false ->
  forall (ps : list peer) cw', rd (bits cw' (fold_left (fun y p => peer_does p y) ps y)) = true.
Proof.
  intros cw er mf l x T N1 N2 y CY ps cw'.
  assert (K : s_rd (kept y) = true).
  { unfold y in *. rewrite event_done in *. destruct (done cw er l x) as [[z s] e] eqn:D.
    destruct (not_closed _ _ _ _ CY) as (M & -> & ->).
    unfold done, is_called in D. rewrite T in D. cbn [orb] in D.
    destruct (acts_grow _ _ _ _ _ _ _ D) as (A1 & _).
    assert (RA : read_asap s = false).
    { assert (G : forall l x s e x' s' e', ~ In (Prog Read) l -> ~ In (Prog ReadFails) l -> acts l (x, s, e) = (x', s', e') -> read_asap s = false -> read_asap s' = false).
      { clear. induction l as [|a l IH]; cbn; intros x s e x' s' e' M1 M2 E H; [now injection E as <- <- <-|].
        destruct (act_does a (x, s, e)) as [[x1 s1] e1] eqn:Q. apply (IH _ _ _ _ _ _ (fun i => M1 (or_intror i)) (fun i => M2 (or_intror i)) E).
        destruct a as [c|p]; cbn in Q; [|now injection Q as <- <- <-].
        destruct c; cbn in Q; try (now injection Q as <- <- <-); try (exfalso; tauto).
        destruct (negb e && has (skipn k (pending x))); now injection Q as <- <- <-. }
      exact (G _ _ _ _ _ _ _ N1 N2 D eq_refl). }
    unfold rearm. rewrite M. cbn. rewrite RA, A1, T. cbn. now rewrite andb_false_r. }
  assert (P : forall ps z, s_rd (kept z) = true -> s_rd (kept (fold_left (fun y p => peer_does p y) ps z)) = true).
  { clear. induction ps as [|p ps IH]; cbn; auto. intros z H. apply IH. destruct (peer_keeps p z) as (_ & _ & K & _). now rewrite K. }
  cbn. now rewrite (P ps y K).
Qed.
Print Assumptions unread_is_told_again.

(** If it wrote last and could not write everything, it is woken and told as soon as it can write. *)
Theorem writing_is_woken : forall B faults w x cw er mf l l' k,
  runs B faults (accepted w) x -> closed x = false ->
  is_called (bits cw x) = true -> l = l' ++ [Prog (Flush k)] ->
  let y := event cw er mf l x in closed y = false -> pending y <> [] ->
  forall (ps : list peer) er', let z := fold_left (fun y p => peer_does p y) ps y in reports true er' z = true /\ wr (bits true z) = true.
Proof.
  intros B f w x cw er mf l l' k R C IC -> y CY N ps er' z.
  pose proof (runs_base _ _ _ _ R) as Bx.
  assert (A : armed_out y = true).
  { unfold y in *. rewrite event_done in *. destruct (done cw er (l' ++ [Prog (Flush k)]) x) as [[t s] e] eqn:D.
    destruct (done_facts _ _ _ _ _ _ _ Bx C D) as (F1 & F2 & _).
    destruct (not_closed _ _ _ _ CY) as (M & -> & ->). pose proof (weof_closes _ F2 M) as W.
    destruct (rearm_same false t s false) as (_ & _ & _ & _ & _ & R6). rewrite R6 in N.
    unfold done in D. rewrite IC in D. destruct (acts_flush _ _ _ _ _ _ _ _ D eq_refl) as [|WA]; [tauto|].
    unfold rearm. rewrite M. cbn. now rewrite W, WA. }
  assert (P : forall ps z, armed_out z = true -> armed_out (fold_left (fun y p => peer_does p y) ps z) = true).
  { clear. induction ps as [|p ps IH]; cbn; auto. intros z H. apply IH. destruct (peer_keeps p z) as (_ & K & _). now rewrite K. }
  specialize (P ps y A). fold z in P. unfold reports. cbn. rewrite P. cbn. split; [|apply orb_true_r]. now rewrite !orb_true_r.
Qed.
Print Assumptions writing_is_woken.

(** A program that reads whenever it is told: whatever has been sent and not yet read makes the loop
    call it, it is told that there is something to read, and after that call it has all of it. *)
Theorem what_is_sent_is_read : forall w x,
  runs good_reader false (accepted w) x -> reset x = false -> closed x = false -> got x <> sent x ->
  forall cw, reports cw false x = true /\ rd (bits cw x) = true /\ is_called (bits cw x) = true /\
  forall l, good_reader true (wr (bits cw x)) l -> let y := event cw false false l x in reset y = false -> prefix (sent x) (got y).
Proof.
  intros w x R RS C N cw. pose proof (runs_inv _ _ R RS) as [I1 I2 I3 I4]. pose proof (runs_ordered _ _ _ _ R) as (r & S & A & _).
  rewrite (A RS) in S. assert (X : rx x <> []). { intros X. rewrite X, app_nil_r in S. congruence. }
  assert (H : has (rx x) = true). { destruct (rx x); [congruence|reflexivity]. }
  assert (AI : armed_in x = true). { apply I1; auto. destruct (s_reof (kept x)) eqn:Q; auto. destruct (I2 C eq_refl). congruence. }
  assert (RD : rd (bits cw x) = true). { cbn. rewrite AI, H. cbn. apply orb_true_r. }
  assert (IC : is_called (bits cw x) = true). { unfold is_called. now rewrite RD. }
  repeat split; auto.
  - unfold reports. now rewrite AI, H.
  - intros l [G1 G2] y RY. unfold y in *. rewrite event_done in *. destruct (done cw false l x) as [[t s] e] eqn:D.
    destruct (rearm_same false t s e) as (_ & _ & R3 & _ & R5 & _). rewrite R3 in RY. rewrite R5.
    unfold done in D. rewrite IC in D. change (sent x) with (sent (start x)). eapply (acts_read l); eauto.
    eexists. cbn. split; [exact S|]. split; congruence.
Qed.
Print Assumptions what_is_sent_is_read.

(** The connection of such a program is closed only when the peer has finished and the program has
    read all that the peer sent. *)
Theorem closed_after_everything_was_read : forall w x,
  runs good_reader false (accepted w) x -> reset x = false -> closed x = true -> fin x = true /\ got x = sent x.
Proof.
  intros w x R RS C. pose proof (runs_inv _ _ R RS) as [I1 I2 I3 I4]. pose proof (runs_ordered _ _ _ _ R) as (r & S & A & _).
  destruct (I4 C) as [F X]. split; auto. rewrite (A RS), X, app_nil_r in S. congruence.
Qed.
Print Assumptions closed_after_everything_was_read.

(** Output.  The full claim: a connection whose peer goes on receiving is not closed while the
    program has something to say.  Proved for a program that reads when told and only then, and
    whose last act in each call is an attempt to write, whether or not it is told that it can;
    while it has something to say, it is woken as soon as it can write. *)
Theorem closed_after_everything_was_said_partial : forall w x,
  runs good_server false (accepted w) x -> reset x = false ->
  (closed x = true -> pending x = []) /\
  (closed x = false -> pending x <> [] -> forall er, reports true er x = true /\ wr (bits true x) = true).
Proof.
  intros w x R RS. pose proof (runs_oinv _ _ R RS) as [J O1 O2 O3]. split; auto.
  intros C P er. unfold reports. cbn. rewrite (O2 C P). cbn. rewrite !orb_true_r. auto.
Qed.
Print Assumptions closed_after_everything_was_said_partial.

(** Refuted for a program that writes only when told that it can, as lib/ev/HTTP.fu does: a client
    that finishes sending after its request loses the response that was not taken at once. *)
Theorem closed_after_everything_was_said_refuted :
  exists x, runs (both good_reader (both reads_when_told flushes_when_told)) false (accepted false) x /\ reset x = false /\
            closed x = true /\ pending x = [9%Z] /\ sent x = [1%Z].
Proof.
  pose (B := both good_reader (both reads_when_told flushes_when_told)).
  assert (R : runs B false (accepted false) (accepted false)) by constructor.
  eapply r_peer with (p := Send [1%Z]) in R; [|reflexivity]. cbn in R.
  eapply r_peer with (p := Finish) in R; [|reflexivity]. cbn in R.
  eapply r_event with (cw := true) (er := false) (mf := false) (l := [Prog Read; Prog (Say [8%Z; 9%Z]); Prog (Flush 1)]) in R;
    [|reflexivity|auto|reflexivity|]; cbn in R.
  2:{ intros _. unfold B, both, good_reader, both, reads, keeps_going, reads_when_told, flushes_when_told. cbn.
      repeat split; try (intros [|[|[|[]]]]; discriminate); auto; try discriminate. exists [Prog Read; Prog (Say [8%Z; 9%Z])], 1. reflexivity. }
  eapply r_event with (cw := false) (er := false) (mf := false) (l := [Prog Read]) in R;
    [|reflexivity|auto|reflexivity|]; cbn in R.
  2:{ intros _. unfold B, both, good_reader, both, reads, keeps_going, reads_when_told, flushes_when_told. cbn.
      repeat split; try (intros [|[]]; discriminate); auto; try discriminate. intros k [|[]]; discriminate. }
  eexists. split; [exact R|]. repeat split.
Qed.
Print Assumptions closed_after_everything_was_said_refuted.

(** Refuted for a program that says it will read later, as the API offers: when the peer has
    finished, the connection is closed although the program has not read what it sent. *)
Theorem reading_later_loses_input_refuted :
  exists x, runs keeps_going false (accepted false) x /\ reset x = false /\ closed x = true /\ sent x = [1%Z] /\ got x = [] /\ closed_err x = false.
Proof.
  assert (R : runs keeps_going false (accepted false) (accepted false)) by constructor.
  eapply r_peer with (p := Send [1%Z]) in R; [|reflexivity]. cbn in R.
  eapply r_peer with (p := Finish) in R; [|reflexivity]. cbn in R.
  eapply r_event with (cw := true) (er := false) (mf := false) (l := [Prog ReadLater]) in R;
    [|reflexivity|auto|reflexivity|]; cbn in R.
  2:{ intros _. unfold keeps_going. cbn. repeat split; intros [|[]]; discriminate. }
  eexists. split; [exact R|]. repeat split.
Qed.
Print Assumptions reading_later_loses_input_refuted.

(** Refuted: closing while something is still to be written ("Will close after writes complete",
    lib/ev/HTTP.fu) closes at once. *)
Theorem close_waits_for_writes_refuted :
  exists x, runs (both reads flushes) false (accepted false) x /\ reset x = false /\ closed x = true /\ pending x = [9%Z] /\ fin x = false.
Proof.
  assert (R : runs (both reads flushes) false (accepted false) (accepted false)) by constructor.
  eapply r_peer with (p := Send [1%Z]) in R; [|reflexivity]. cbn in R.
  eapply r_event with (cw := true) (er := false) (mf := false) (l := [Prog Read; Prog (Say [8%Z; 9%Z]); Prog CloseIt; Prog (Flush 1)]) in R;
    [|reflexivity|auto|reflexivity|]; cbn in R.
  2:{ intros _. split; [intros _; cbn; auto|]. exists [Prog Read; Prog (Say [8%Z; 9%Z]); Prog CloseIt], 1. reflexivity. }
  eexists. split; [exact R|]. repeat split.
Qed.
Print Assumptions close_waits_for_writes_refuted.

(** Refuted: the loop sleeps until something changes.  A peer that has finished and is slow to
    receive keeps it busy: an event is reported again and again and changes nothing. *)
Theorem loop_sleeps_refuted :
  exists x l, runs good_server false (accepted false) x /\ reset x = false /\ closed x = false /\ pending x = [9%Z] /\
    reports false false x = true /\ good_server (rd (bits false x)) (wr (bits false x)) l /\ event false false false l x = x.
Proof.
  assert (R : runs good_server false (accepted false) (accepted false)) by constructor.
  eapply r_peer with (p := Send [1%Z]) in R; [|reflexivity]. cbn in R.
  eapply r_peer with (p := Finish) in R; [|reflexivity]. cbn in R.
  eapply r_event with (cw := true) (er := false) (mf := false) (l := [Prog Read; Prog (Say [8%Z; 9%Z]); Prog (Flush 1)]) in R;
    [|reflexivity|auto|reflexivity|]; cbn in R.
  2:{ intros _. unfold good_server, both, good_reader, both, reads, keeps_going, reads_when_told, flushes. cbn.
      repeat split; try (intros [|[|[|[]]]]; discriminate); auto; try discriminate. exists [Prog Read; Prog (Say [8%Z; 9%Z])], 1. reflexivity. }
  eexists. exists [Prog Read; Prog (Flush 0)]. split; [exact R|]. do 4 (split; [reflexivity|]). split; [|reflexivity].
  unfold good_server, both, good_reader, both, reads, keeps_going, reads_when_told, flushes. cbn.
  repeat split; try (intros [|[|[]]]; discriminate); auto; try discriminate. exists [Prog Read], 0. reflexivity.
Qed.
Print Assumptions loop_sleeps_refuted.

(** A case: a request in two parts, a response of two parts, while the peer goes on; then it ends. *)
Example a_conversation :
  exists x, runs good_server false (accepted false) x /\ reset x = false /\ closed x = true /\ got x = [1; 2; 3]%Z /\ pending x = [].
Proof.
  assert (R : runs good_server false (accepted false) (accepted false)) by constructor.
  eapply r_peer with (p := Send [1%Z]) in R; [|reflexivity]. cbn in R.
  eapply r_event with (cw := true) (er := false) (mf := false) (l := [Prog Read; Prog (Say [8%Z; 9%Z]); Peer (Send [2; 3]%Z); Prog (Flush 1)]) in R;
    [|reflexivity|auto|reflexivity|]; cbn in R.
  2:{ intros _. unfold good_server, both, good_reader, both, reads, keeps_going, reads_when_told, flushes. cbn.
      repeat split; try (intros [|[|[|[|[]]]]]; discriminate); auto; try discriminate. exists [Prog Read; Prog (Say [8%Z; 9%Z]); Peer (Send [2; 3]%Z)], 1. reflexivity. }
  eapply r_peer with (p := Finish) in R; [|reflexivity]. cbn in R.
  eapply r_event with (cw := true) (er := false) (mf := false) (l := [Prog Read; Prog (Flush 7)]) in R;
    [|reflexivity|auto|reflexivity|]; cbn in R.
  2:{ intros _. unfold good_server, both, good_reader, both, reads, keeps_going, reads_when_told, flushes. cbn.
      repeat split; try (intros [|[|[]]]; discriminate); auto; try discriminate. exists [Prog Read], 7. reflexivity. }
  eexists. split; [exact R|]. repeat split.
Qed.
