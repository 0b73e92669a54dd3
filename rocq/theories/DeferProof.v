(** * C74: proofs about deferred statements *)

From Coq Require Import List ZArith Bool Lia.
From Verif Require Import DeferSpec DeferModel.
Import ListNotations.

Section P.

Variable W : Type.

Scheme runs_ind3 := Induction for runs Sort Prop
  with runs_all_ind3 := Induction for runs_all Sort Prop
  with unwinds_ind3 := Induction for unwinds Sort Prop.
Combined Scheme runs_mut from runs_ind3, runs_all_ind3, unwinds_ind3.

Definition tag (u : nat) (d : kind * list (st W)) : obj W := (fst d, snd d, u).

Lemma fires_due : forall k u o, fires k u (u + in_flight o) = due k o.
Proof.
  intros k u o. destruct k; [reflexivity| |]; destruct o; cbn [in_flight fires due];
    rewrite ?Nat.add_0_r, ?Nat.eqb_refl; try reflexivity;
    rewrite (proj2 (Nat.eqb_neq _ _)) by lia; reflexivity.
Qed.

Lemma is_defer_dec : forall x : st W, {d | x = Defer (fst d) (snd d)} + {forall k b, x <> Defer k b}.
Proof.
  intros x. destruct x; try (right; intros; discriminate). left. exists (k, ss). reflexivity.
Defined.

Lemma exec_all_other : forall fuel u x ss w objs, (forall k b, x <> Defer k b) ->
  exec_all (S fuel) u (x :: ss) w objs =
  match exec fuel u x w with
  | Some (Done, w1) => exec_all fuel u ss w1 objs
  | Some (Died, w1) => Some (Died, w1)
  | Some (o, w1) => destroy fuel u objs o w1
  | None => @None (outcome * W)
  end.
Proof.
  intros fuel u x ss w objs N. destruct x; try reflexivity. exfalso. eapply N. reflexivity.
Qed.

Lemma exec_loop : forall fuel u ss w,
  exec (S fuel) u (Loop ss) w =
  match exec_all fuel u ss w [] with
  | Some (Done, w1) => exec fuel u (Loop ss) w1
  | Some (Left 0, w1) => Some (Done, w1)
  | Some (Left (S n), w1) => Some (Left n, w1)
  | r => r : option (outcome * W)
  end.
Proof. reflexivity. Qed.

Lemma exec_try : forall fuel u a b w,
  exec (S fuel) u (Try a b) w =
  match exec_all fuel u a w [] with
  | Some (Threw _, w1) => exec_all fuel u b w1 []
  | r => r : option (outcome * W)
  end.
Proof. reflexivity. Qed.

Lemma destroy_cons : forall fuel u k b ue objs o w,
  destroy (S fuel) u ((k, b, ue) :: objs) o w =
  if fires k ue (u + in_flight o) then
    match exec_all fuel (u + in_flight o) b w [] with
    | Some (Done, w1) | Some (Left _, w1) => destroy fuel u objs o w1
    | Some (_, w1) => Some (Died, w1)
    | None => @None (outcome * W)
    end
  else destroy fuel u objs o w.
Proof. reflexivity. Qed.

Lemma sound : forall fuel,
  (forall u x w o w', exec fuel u x w = Some (o, w') -> @runs W x w o w') /\
  (forall u ss w ds o w', exec_all fuel u ss w (map (tag u) ds) = Some (o, w') -> runs_all ss w ds o w') /\
  (forall u ds o1 w o w', destroy fuel u (map (tag u) ds) o1 w = Some (o, w') -> unwinds ds o1 w o w').
Proof.
  induction fuel as [|fuel (IH1 & IH2 & IH3)]; [repeat split; discriminate|].
  assert (IH2' : forall u ss w o w', exec_all fuel u ss w [] = Some (o, w') -> @runs_all W ss w [] o w').
  { intros u ss w o w' E. apply (IH2 u ss w [] o w' E). }
  split; [|split].
  - intros u x w o w' E. destruct x.
    + cbn [exec] in E. destruct (f w) as [w1 e] eqn:F. injection E as <- <-. apply r_act, F.
    + cbn [exec] in E. injection E as <- <-. constructor.
    + apply r_if, (IH2' _ _ _ _ _ E).
    + apply r_block, (IH2' _ _ _ _ _ E).
    + rewrite exec_loop in E. destruct (exec_all fuel u ss w []) as [[ob w1]|] eqn:F; [|discriminate E].
      apply IH2' in F. destruct ob as [|e|[|n]|]; try (injection E as <- <-).
      * eapply r_again; [exact F|]. apply (IH1 _ _ _ _ _ E).
      * apply r_loop_threw, F.
      * apply r_break, F.
      * apply r_outer, F.
      * apply r_loop_died, F.
    + rewrite exec_try in E. destruct (exec_all fuel u a w []) as [[ob w1]|] eqn:F; [|discriminate E].
      apply IH2' in F. destruct ob as [|e|n|].
      * injection E as <- <-. apply r_try; [exact F|discriminate].
      * eapply r_catch; [exact F|]. apply (IH2' _ _ _ _ _ E).
      * injection E as <- <-. apply r_try; [exact F|discriminate].
      * injection E as <- <-. apply r_try; [exact F|discriminate].
    + discriminate.
  - intros u ss w ds o w' E. destruct ss as [|x ss].
    + apply r_end, (IH3 u), E.
    + destruct (is_defer_dec x) as [[[k b] ->]|N].
      * cbn [exec_all fst snd] in E. apply r_defer, (IH2 u). exact E.
      * rewrite exec_all_other in E by exact N.
        destruct (exec fuel u x w) as [[ob w1]|] eqn:F; [|discriminate E].
        apply IH1 in F. destruct ob as [|e|n|].
        -- eapply r_next; [exact N|exact F|]. apply (IH2 u), E.
        -- eapply r_exit; [exact N|exact F|discriminate|discriminate|]. apply (IH3 u), E.
        -- eapply r_exit; [exact N|exact F|discriminate|discriminate|]. apply (IH3 u), E.
        -- injection E as <- <-. apply r_died; assumption.
  - intros u ds o1 w o w' E. destruct ds as [|[k b] ds].
    + cbn [map destroy] in E. injection E as <- <-. constructor.
    + cbn [map tag fst snd] in E. unfold tag at 1 in E. cbn [fst snd] in E. rewrite destroy_cons, fires_due in E. destruct (due k o1) eqn:D; [|apply u_skip; [exact D|apply (IH3 u), E]].
      destruct (exec_all fuel (u + in_flight o1) b w []) as [[ob w1]|] eqn:F; [|discriminate].
      apply IH2' in F. destruct ob.
      * eapply u_run; [exact D|exact F|left; reflexivity|]. apply (IH3 u), E.
      * injection E as <- <-. eapply u_die; [exact D|exact F|right; eauto].
      * eapply u_run; [exact D|exact F|right; eauto|]. apply (IH3 u), E.
      * injection E as <- <-. eapply u_die; [exact D|exact F|left; reflexivity].
Qed.

Lemma complete :
  (forall x w o w', @runs W x w o w' ->
    exists N, forall m u, N <= m -> exec m u x w = Some (o, w')) /\
  (forall ss w ds o w', @runs_all W ss w ds o w' ->
    exists N, forall m u, N <= m -> exec_all m u ss w (map (tag u) ds) = Some (o, w')) /\
  (forall ds o1 w o w', @unwinds W ds o1 w o w' ->
    exists N, forall m u, N <= m -> destroy m u (map (tag u) ds) o1 w = Some (o, w')).
Proof.
  apply runs_mut.
  - intros f w w' o E. exists 1. intros [|m] u L; [lia|]. cbn [exec]. rewrite E. reflexivity.
  - intros n w. exists 1. intros [|m] u L; [lia|]. reflexivity.
  - intros c a b w o w' _ (N & H). exists (S N). intros [|m] u L; [lia|]. cbn [exec]. apply (H m u). lia.
  - intros ss w o w' _ (N & H). exists (S N). intros [|m] u L; [lia|]. cbn [exec]. apply (H m u). lia.
  - intros ss w w1 o w' _ (N & H) _ (N2 & H2). exists (S (N + N2)). intros [|m] u L; [lia|]. rewrite exec_loop.
    cbn [map] in H. rewrite (H m u) by lia. apply H2. lia.
  - intros ss w w' _ (N & H). exists (S N). intros [|m] u L; [lia|]. rewrite exec_loop. cbn [map] in H.
    rewrite (H m u) by lia. reflexivity.
  - intros ss w n w' _ (N & H). exists (S N). intros [|m] u L; [lia|]. rewrite exec_loop. cbn [map] in H.
    rewrite (H m u) by lia. reflexivity.
  - intros ss w e w' _ (N & H). exists (S N). intros [|m] u L; [lia|]. rewrite exec_loop. cbn [map] in H.
    rewrite (H m u) by lia. reflexivity.
  - intros ss w w' _ (N & H). exists (S N). intros [|m] u L; [lia|]. rewrite exec_loop. cbn [map] in H.
    rewrite (H m u) by lia. reflexivity.
  - intros a b w o w' _ (N & H) D. exists (S N). intros [|m] u L; [lia|]. rewrite exec_try. cbn [map] in H.
    rewrite (H m u) by lia. destruct o; try reflexivity. exfalso. eapply D. reflexivity.
  - intros a b w e w1 o w' _ (N & H) _ (N2 & H2). exists (S (N + N2)). intros [|m] u L; [lia|]. rewrite exec_try.
    cbn [map] in H, H2. rewrite (H m u) by lia. apply (H2 m u). lia.
  - intros w ds o w' _ (N & H). exists (S N). intros [|m] u L; [lia|]. cbn [exec_all]. apply H. lia.
  - intros k b ss w ds o w' _ (N & H). exists (S N). intros [|m] u L; [lia|]. cbn [exec_all]. apply (H m u). lia.
  - intros x ss w ds w1 o w' D _ (N & H) _ (N2 & H2). exists (S (N + N2)). intros [|m] u L; [lia|].
    rewrite exec_all_other by exact D. rewrite (H m u) by lia. apply H2. lia.
  - intros x ss w ds o1 w1 o w' D _ (N & H) D1 D2 _ (N2 & H2). exists (S (N + N2)). intros [|m] u L; [lia|].
    rewrite exec_all_other by exact D. rewrite (H m u) by lia.
    destruct o1; try contradiction; apply H2; lia.
  - intros x ss w ds w1 D _ (N & H). exists (S N). intros [|m] u L; [lia|].
    rewrite exec_all_other by exact D. rewrite (H m u) by lia. reflexivity.
  - intros o w. exists 1. intros [|m] u L; [lia|]. reflexivity.
  - intros k b ds o w o' w' D _ (N & H). exists (S N). intros [|m] u L; [lia|].
    cbn [map]. unfold tag at 1. cbn [fst snd]. rewrite destroy_cons, fires_due, D. apply H. lia.
  - intros k b ds o w ob w1 o' w' D _ (N & H) Q _ (N2 & H2). exists (S (N + N2)). intros [|m] u L; [lia|].
    cbn [map]. unfold tag at 1. cbn [fst snd]. rewrite destroy_cons, fires_due, D. cbn [map] in H. rewrite (H m (u + in_flight o)) by lia.
    destruct Q as [-> | [n ->]]; apply H2; lia.
  - intros k b ds o w ob w1 D _ (N & H) Q. exists (S N). intros [|m] u L; [lia|].
    cbn [map]. unfold tag at 1. cbn [fst snd]. rewrite destroy_cons, fires_due, D. cbn [map] in H. rewrite (H m (u + in_flight o)) by lia.
    destruct Q as [-> | [e ->]]; reflexivity.
Qed.

Lemma runs_all_det : forall ss w ds o w' o2 w2,
  @runs_all W ss w ds o w' -> runs_all ss w ds o2 w2 -> o = o2 /\ w' = w2.
Proof.
  intros ss w ds o w' o2 w2 A B.
  destruct (proj1 (proj2 complete) _ _ _ _ _ A) as (N & H).
  destruct (proj1 (proj2 complete) _ _ _ _ _ B) as (M & G).
  specialize (H (N + M) 0 ltac:(lia)). specialize (G (N + M) 0 ltac:(lia)). rewrite H in G.
  injection G as -> ->. auto.
Qed.

(** ** The end of a block *)

Lemma tail_swap : forall t1 t2 : list (st W),
  (forall w ds o w', runs_all t1 w ds o w' -> runs_all t2 w ds o w') ->
  forall pre w ds o w', runs_all (pre ++ t1) w ds o w' -> runs_all (pre ++ t2) w ds o w'.
Proof.
  intros t1 t2 H. induction pre as [|x pre IH]; intros w ds o w' R; [apply H, R|].
  cbn in *. inversion R; subst.
  - apply r_defer, IH. assumption.
  - eapply r_next; eauto.
  - eapply r_exit; eauto.
  - eapply r_died; eauto.
Qed.

Definition calm (b : list (st W)) : Prop := forall w o w', runs_all b w [] o w' -> o = Done.

Lemma tail_block : forall k b, k <> IfErr -> calm b -> forall w ds o w',
  runs_all [Block b] w ds o w' <-> runs_all [@Defer W k b] w ds o w'.
Proof.
  intros k b K C w ds o w'.
  assert (D : due k Done = true) by (destruct k; [reflexivity|contradiction|reflexivity]).
  split; intros R.
  - apply r_defer, r_end. inversion R; subst.
    + match goal with H : runs (Block b) _ _ _ |- _ => inversion H; subst end.
      eapply u_run; [exact D|eassumption|left; reflexivity|].
      match goal with H : runs_all [] _ _ _ _ |- _ => inversion H; subst; assumption end.
    + exfalso. match goal with H : runs (Block b) _ _ _ |- _ => inversion H; subst end.
      match goal with H : runs_all b _ _ _ _ |- _ => apply C in H; contradiction end.
    + exfalso. match goal with H : runs (Block b) _ _ _ |- _ => inversion H; subst end.
      match goal with H : runs_all b _ _ _ _ |- _ => apply C in H; discriminate end.
  - inversion R; subst;
      try (exfalso; match goal with H : forall k b, _ <> _ |- _ => eapply H; reflexivity end).
    match goal with H : runs_all [] _ _ _ _ |- _ => inversion H; subst end.
    match goal with H : unwinds _ Done _ _ _ |- _ => inversion H; subst end.
    + congruence.
    + assert (ob = Done) by (eapply C; eassumption). subst ob.
      eapply r_next; [discriminate|apply r_block; eassumption|]. apply r_end. assumption.
    + assert (ob = Done) by (eapply C; eassumption). subst ob.
      match goal with H : _ \/ _ |- _ => destruct H as [H | [? H]]; discriminate end.
Qed.

Lemma tail_err : forall b w ds o w',
  runs_all [] w ds o w' <-> runs_all [@Defer W IfErr b] w ds o w'.
Proof.
  intros b w ds o w'. split; intros R.
  - apply r_defer, r_end. apply u_skip; [reflexivity|]. inversion R; subst. assumption.
  - inversion R; subst;
      try (exfalso; match goal with H : forall k b, _ <> _ |- _ => eapply H; reflexivity end).
    match goal with H : runs_all [] _ _ _ _ |- _ => inversion H; subst end.
    match goal with H : unwinds _ Done _ _ _ |- _ => inversion H; subst end; try discriminate.
    apply r_end. assumption.
Qed.

Lemma unwrap_ok : forall ss : list (st W),
  (forall pre k b, ss = pre ++ [Defer k b] -> calm b) ->
  forall w o w', runs_all (unwrap_tail ss) w [] o w' <-> runs_all ss w [] o w'.
Proof.
  intros ss H w o w'. unfold unwrap_tail.
  destruct (rev ss) as [|x r] eqn:E; [reflexivity|].
  assert (Es : ss = rev r ++ [x]).
  { apply (f_equal (@rev _)) in E. rewrite rev_involutive in E. cbn in E. exact E. }
  destruct x; try reflexivity. specialize (H _ _ _ Es). rewrite Es.
  destruct k.
  - split; apply tail_swap; intros; apply (tail_block Always); try discriminate; assumption.
  - rewrite <- (app_nil_r (rev r)) at 1. split; apply tail_swap; intros; [apply tail_err|eapply tail_err]; eassumption.
  - split; apply tail_swap; intros; apply (tail_block IfOk); try discriminate; assumption.
Qed.

(** ** Order *)

Definition quiet (g : W -> W) : list (st W) := [Act (fun w => (g w, None))].

Lemma quiet_runs : forall g w, runs_all (quiet g) w [] Done (g w).
Proof.
  intros g w. eapply r_next; [discriminate|apply (r_act W (fun w => (g w, None)) w (g w) None eq_refl)|].
  apply r_end. constructor.
Qed.

Definition step (o : outcome) (w : W) (d : kind * (W -> W)) : W := if due (fst d) o then snd d w else w.

Lemma quiet_unwinds : forall ds o w,
  unwinds (map (fun d => (fst d, quiet (snd d))) ds) o w o (fold_left (step o) ds w).
Proof.
  induction ds as [|[k g] ds IH]; intros o w; [constructor|].
  cbn [map fst snd fold_left]. unfold step at 2. cbn [fst snd]. destruct (due k o) eqn:D.
  - eapply u_run; [exact D|apply quiet_runs|left; reflexivity|apply IH].
  - apply u_skip; [exact D|apply IH].
Qed.

Lemma defers_run : forall (f : W -> W * option Z) ds acc w w1 e, f w = (w1, e) ->
  runs_all (map (fun d => Defer (fst d) (quiet (snd d))) ds ++ [Act f]) w
    (map (fun d => (fst d, quiet (snd d))) acc)
    (match e with None => Done | Some e => Threw e end)
    (fold_left (step (match e with None => Done | Some e => Threw e end)) (rev ds ++ acc) w1).
Proof.
  intros f. induction ds as [|[k g] ds IH]; intros acc w w1 e F.
  - cbn [map app rev]. destruct e as [e|].
    + eapply r_exit; [discriminate|apply (r_act W f w w1 (Some e) F)|discriminate|discriminate|].
      apply quiet_unwinds.
    + eapply r_next; [discriminate|apply (r_act W f w w1 None F)|]. apply r_end, quiet_unwinds.
  - cbn [map app rev fst snd]. apply r_defer. rewrite <- app_assoc. cbn [app].
    apply (IH ((k, g) :: acc) w w1 e F).
Qed.

End P.
