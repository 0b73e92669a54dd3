(** Every step keeps the invariant of ArcThreadsInv.v. *)
From Verif Require Import ArcThreads ArcThreadsBase ArcThreadsInv.
From Coq Require Import List Arith ZArith Bool Lia.
Import ListNotations.
Set Implicit Arguments.
Open Scope nat_scope.

Ltac pinv H := apply put_inv in H; destruct H as [(-> & -> & _)|(? & H)].

Section Step.
Context {A : Type} (acq : bool).
Notation st := (st A).
Notation trace := (trace A).
Notation pknows := (@pknows A acq).
Notation dom := (@dom A acq).
Notation PP := (@PP A acq).
Notation inv := (@inv A acq).
Notation step := (@step A acq).

Lemma step_tr s s' : step s s' -> exists t a, tr s' = tr s ++ [{| who := t; act := a |}].
Proof. destruct 1; cbn; unfold log; eauto. Qed.

Lemma values_snoc (tr : trace) e : values (tr ++ [e]) = vals_step (values tr) (act e).
Proof. unfold values. rewrite fold_left_app. auto. Qed.

(** Marks of sending and lending. *)
Lemma own_pres s s' : inv s -> step s s' ->
  forall v x u i, nth_error (vars s') v = Some x -> v_own x = Transit u i ->
    v_lent x = [] /\ exists e, nth_error (tr s') i = Some e /\ act e = ASend v u.
Proof.
  intros I S.
  assert (K : forall t a v x u i, nth_error (vars s) v = Some x -> v_own x = Transit u i ->
    v_lent x = [] /\ exists e, nth_error (log s t a) i = Some e /\ act e = ASend v u).
  { intros t a v x u i H1 H2. destruct (i_own I _ H1 H2) as (Q & e & Q1 & Q2).
    split; auto. exists e. split; auto. apply nth_app. auto. }
  assert (K2 : forall t a v x x' u i, nth_error (vars s) v = Some x -> v_own x' = Transit u i ->
    v_own x = v_own x' -> v_lent x = v_lent x' ->
    v_lent x' = [] /\ exists e, nth_error (log s t a) i = Some e /\ act e = ASend v u).
  { intros t a v x x' u i H1 H2 H3 H4. rewrite <- H4. apply (K t a v x u i); congruence. }
  destruct S; cbn [vars tr]; intros v2 x2 u2 i2 Hx Ho; try (eapply K; eauto; fail);
    try (pinv Hx; [eapply K2; eauto|eapply K; eauto]; fail).
  - pinv Hx; [eapply K2; eauto|]. pinv Hx; [eapply K2; eauto|eapply K; eauto].
  - destruct (c =? 0)%Z; [pinv Hx; [eapply K2; eauto|eapply K; eauto]|eapply K; eauto].
  - pinv Hx; [|eapply K; eauto]. cbn in Ho. injection Ho as -> <-. cbn. destruct H1 as [_ H1]. split; auto.
    eexists. split; [apply nth_snoc|]. auto.
  - pinv Hx; [discriminate Ho|eapply K; eauto].
  - pinv Hx; [|eapply K; eauto]. cbn in Ho. congruence.
  - pinv Hx; [|eapply K; eauto]. cbn in Ho. destruct (i_own I _ H0 Ho) as (Q & _). rewrite Q in H1. destruct l1; discriminate.
  - pinv Hx; [|eapply K; eauto]. cbn in Ho. destruct (i_own I _ H0 Ho) as (Q & _). rewrite Q in H1. destruct l1; discriminate.
  - pinv Hx; [|eapply K; eauto]. cbn in Ho. congruence.
Qed.

Lemma lend_pres s s' : inv s -> step s s' ->
  forall v x l, nth_error (vars s') v = Some x -> In l (v_lent x) ->
    match l with
    | Offered u i => exists e, nth_error (tr s') i = Some e /\ act e = ALend v u
    | Held _ => True
    | Returned u i => exists e, nth_error (tr s') i = Some e /\ who e = u /\ act e = AGive v
    end.
Proof.
  intros I S.
  assert (K : forall t a v x l, nth_error (vars s) v = Some x -> In l (v_lent x) ->
    match l with
    | Offered u i => exists e, nth_error (log s t a) i = Some e /\ act e = ALend v u
    | Held _ => True
    | Returned u i => exists e, nth_error (log s t a) i = Some e /\ who e = u /\ act e = AGive v
    end).
  { intros t a v x l H1 H2. pose proof (i_lend I _ _ H1 H2) as Q. destruct l; auto.
    - destruct Q as (e & Q1 & Q2). exists e. split; auto. apply nth_app; auto.
    - destruct Q as (e & Q1 & Q2). exists e. split; auto. apply nth_app; auto. }
  destruct S; cbn [vars tr]; intros v2 x2 l Hx Hl; try (eapply K; eauto; fail);
    try (pinv Hx; eapply K; eauto; fail).
  - pinv Hx; [eapply K; eauto|]. pinv Hx; eapply K; eauto.
  - destruct (c =? 0)%Z; [pinv Hx; eapply K; eauto|eapply K; eauto].
  - pinv Hx; [|eapply K; eauto]. cbn in Hl. destruct Hl as [<-|Hl]; [|eapply K; eauto].
    eexists. split; [apply nth_snoc|]. auto.
  - pinv Hx; [|eapply K; eauto]. cbn in Hl. apply in_app_iff in Hl. destruct Hl as [Hl|[<-|Hl]]; auto;
      (eapply K; eauto; rewrite H1; apply in_app_iff; cbn; auto).
  - pinv Hx; [|eapply K; eauto]. cbn in Hl. apply in_app_iff in Hl. destruct Hl as [Hl|[<-|Hl]];
      try (eapply K; eauto; rewrite H1; apply in_app_iff; cbn; auto; fail).
    eexists. split; [apply nth_snoc|]. auto.
  - pinv Hx; [|eapply K; eauto]. cbn in Hl. apply in_app_iff in Hl. eapply K; eauto. rewrite H2.
    apply in_app_iff. cbn. tauto.
Qed.

(** How those with a say on a vec object change. *)
Lemma step_parties s s' : inv s -> step s s' ->
  forall v x', nth_error (vars s') v = Some x' ->
    exists x, nth_error (vars s) v = Some x /\ PP (tr s) (tr s') (parties x) (parties x').
Proof.
  intros I S.
  assert (K : forall t a v x, nth_error (vars s) v = Some x ->
    exists x0, nth_error (vars s) v = Some x0 /\ PP (tr s) (log s t a) (parties x0) (parties x)).
  { intros t a v x H1. exists x. split; auto. apply PP_refl. }
  assert (K2 : forall t a v x x', nth_error (vars s) v = Some x -> parties x' = parties x ->
    exists x0, nth_error (vars s) v = Some x0 /\ PP (tr s) (log s t a) (parties x0) (parties x')).
  { intros t a v x x' H1 E. exists x. split; auto. rewrite E. apply PP_refl. }
  destruct S; cbn [vars tr]; intros v2 x2 Hx; try (eapply K; eauto; fail);
    try (pinv Hx; [eapply K2; eauto|eapply K; eauto]; fail).
  - pinv Hx; [eapply K2; eauto|]. pinv Hx; [eapply K2; eauto|eapply K; eauto].
  - destruct (c =? 0)%Z; [pinv Hx; [eapply K2; eauto|eapply K; eauto]|eapply K; eauto].
  - (* send *) pinv Hx; [|eapply K; eauto]. exists x. split; auto.
    rewrite (sole_parties H1). unfold parties. cbn. destruct H1 as [_ H1]. rewrite H1. cbn.
    split; intros p [<-|[]]; eexists; (split; [left; reflexivity|]); apply dom_out.
  - (* recv *) pinv Hx; [|eapply K; eauto]. exists x. split; auto.
    destruct (i_own I _ H0 H1) as (Q & e & Q1 & Q2). unfold parties. cbn. rewrite H1, Q. cbn.
    assert (D : dom (tr s) (log s u (ARecv v)) (PE i) (PT u)).
    { eapply dom_in; eauto. unfold syncs. rewrite Q2. cbn. auto. }
    split; intros p [<-|[]]; eexists; (split; [left; reflexivity|]); auto.
  - (* lend *) pinv Hx; [|eapply K; eauto]. exists x. split; auto. unfold parties. cbn. rewrite H1. cbn.
    split; intros p Hp.
    + destruct Hp as [<-|[<-|Hp]].
      * exists (PT t). split; [cbn; auto|apply dom_refl].
      * exists (PT t). split; [cbn; auto|]. apply dom_out.
      * exists p. split; [cbn; auto|apply dom_refl].
    + exists p. split; [cbn in *; tauto|apply dom_refl].
  - (* accept *) pinv Hx; [|eapply K; eauto]. exists x. split; auto. unfold parties. cbn [v_own v_lent with_lent].
    destruct (i_lend I _ (Offered u i) H0) as (e & Q1 & Q2); [rewrite H1; apply in_app_iff; cbn; auto|].
    assert (D : dom (tr s) (log s u (AAccept v)) (PE i) (PT u)).
    { eapply dom_in; eauto. unfold syncs. rewrite Q2. cbn. auto. }
    rewrite H1, !map_app. cbn [map lend_party].
    split; intros p Hp.
    + destruct Hp as [<-|Hp]; [eexists; split; [left; reflexivity|apply dom_refl]|].
      apply in_app_iff in Hp. destruct Hp as [Hp|[<-|Hp]].
      * exists p. split; [right; apply in_app_iff; cbn; auto|apply dom_refl].
      * exists (PE i). split; [right; apply in_app_iff; cbn; auto|auto].
      * exists p. split; [right; apply in_app_iff; cbn; auto|apply dom_refl].
    + destruct Hp as [<-|Hp]; [eexists; split; [left; reflexivity|apply dom_refl]|].
      apply in_app_iff in Hp. destruct Hp as [Hp|[<-|Hp]].
      * exists p. split; [right; apply in_app_iff; cbn; auto|apply dom_refl].
      * exists (PT u). split; [right; apply in_app_iff; cbn; auto|auto].
      * exists p. split; [right; apply in_app_iff; cbn; auto|apply dom_refl].
  - (* give *) pinv Hx; [|eapply K; eauto]. exists x. split; auto. unfold parties. cbn [v_own v_lent with_lent].
    assert (D : dom (tr s) (log s u (AGive v)) (PT u) (PE (now s))) by apply dom_out.
    rewrite H1, !map_app. cbn [map lend_party].
    split; intros p Hp.
    + destruct Hp as [<-|Hp]; [eexists; split; [left; reflexivity|apply dom_refl]|].
      apply in_app_iff in Hp. destruct Hp as [Hp|[<-|Hp]].
      * exists p. split; [right; apply in_app_iff; cbn; auto|apply dom_refl].
      * exists (PT u). split; [right; apply in_app_iff; cbn; auto|auto].
      * exists p. split; [right; apply in_app_iff; cbn; auto|apply dom_refl].
    + destruct Hp as [<-|Hp]; [eexists; split; [left; reflexivity|apply dom_refl]|].
      apply in_app_iff in Hp. destruct Hp as [Hp|[<-|Hp]].
      * exists p. split; [right; apply in_app_iff; cbn; auto|apply dom_refl].
      * exists (PE (now s)). split; [right; apply in_app_iff; cbn; auto|auto].
      * exists p. split; [right; apply in_app_iff; cbn; auto|apply dom_refl].
  - (* reclaim *) pinv Hx; [|eapply K; eauto]. exists x. split; auto. unfold parties. cbn [v_own v_lent with_lent].
    destruct (i_lend I _ (Returned u i) H0) as (e & Q1 & Q2 & Q3); [rewrite H2; apply in_app_iff; cbn; auto|].
    assert (D : dom (tr s) (log s t (AReclaim v u)) (PE i) (PT t)).
    { eapply dom_in; eauto. unfold syncs. rewrite Q3. cbn. auto. }
    rewrite H2, H1, !map_app. cbn [map lend_party own_party].
    split; intros p Hp.
    + exists p. split; [|apply dom_refl]. destruct Hp as [<-|Hp]; [left; auto|right].
      apply in_app_iff in Hp. apply in_app_iff. cbn. tauto.
    + destruct Hp as [<-|Hp]; [eexists; split; [left; reflexivity|apply dom_refl]|].
      apply in_app_iff in Hp. destruct Hp as [Hp|[<-|Hp]].
      * exists p. split; [right; apply in_app_iff; cbn; auto|apply dom_refl].
      * exists (PT t). split; [left; auto|auto].
      * exists p. split; [right; apply in_app_iff; cbn; auto|apply dom_refl].
Qed.

(** What a step of one thread leaves to the others. *)
Definition marked (x x' : var) : Prop :=
  v_val x' = v_val x \/ v_val x' = option_map (fun p => (fst p, false)) (v_val x).
Lemma step_others s s' : inv s -> step s s' -> exists t a, tr s' = log s t a
  /\ (forall u, u <> t -> nth_error (pcs s') u = nth_error (pcs s) u)
  /\ (forall u p, u <> t -> nth_error (pcs s) u = Some p -> p <> Idle ->
       (forall v x, nth_error (vars s) v = Some x -> reader u x ->
        exists x', nth_error (vars s') v = Some x' /\ reader u x' /\ marked x x')
       /\ (forall v x, nth_error (vars s) v = Some x -> sole u x ->
        exists x', nth_error (vars s') v = Some x' /\ sole u x' /\ marked x x')).
Proof.
  intros I S.
  assert (SR : forall t u x, u <> t -> sole t x -> reader u x -> False).
  { intros t u x N [Q1 Q2] [R|R]; [congruence|]. rewrite Q2 in R. destruct R. }
  assert (SS : forall t u x, u <> t -> sole t x -> sole u x -> False).
  { intros t u x N [Q1 Q2] [R1 R2]. congruence. }
  assert (Z : forall t u v (x x' : var), u <> t -> nth_error (vars s) v = Some x -> sole t x ->
     (forall v0 x0, nth_error (vars s) v0 = Some x0 -> reader u x0 ->
        exists x1, nth_error (put (vars s) v x') v0 = Some x1 /\ reader u x1 /\ marked x0 x1)
     /\ (forall v0 x0, nth_error (vars s) v0 = Some x0 -> sole u x0 ->
        exists x1, nth_error (put (vars s) v x') v0 = Some x1 /\ sole u x1 /\ marked x0 x1)).
  { intros t u v x x' N Hx Hs. split; intros v0 x0 H0 R; (destruct (Nat.eq_dec v0 v) as [->|D];
      [exfalso; assert (x0 = x) by congruence; subst x0; eauto|]);
      exists x0; rewrite put_ne by auto; unfold marked; auto. }
  assert (Y : forall u, (forall v x, nth_error (vars s) v = Some x -> reader u x ->
        exists x', nth_error (vars s) v = Some x' /\ reader u x' /\ marked x x')
       /\ (forall v x, nth_error (vars s) v = Some x -> sole u x ->
        exists x', nth_error (vars s) v = Some x' /\ sole u x' /\ marked x x')).
  { intros u. split; intros v x H R; exists x; unfold marked; auto. }
  destruct S; cbn [vars pcs tr]; do 2 eexists; (split; [reflexivity|]);
    (split; [intros u2 N; rewrite ?put_ne by auto; auto; fail|]);
    intros u2 p2 N Hp2 Nid; try (apply Y; fail); try (eapply Z; eauto; fail).
  - (* mark *)
    split; intros v0 x0 H1 R; (destruct (Nat.eq_dec v0 v) as [->|D];
      [exists (with_val x (option_map (fun p => (fst p, false)) (v_val x)));
       assert (x0 = x) by congruence; subst x0; rewrite (put_eq _ _ _ H0); unfold marked; cbn; auto
      |exists x0; rewrite put_ne by auto; unfold marked; auto]).
  - (* incr *)
    pose proof (i_pc I _ H) as (D & x & y0 & Q1 & Q2 & Q3 & Q4 & Q5 & Q6).
    assert (y0 = y) by congruence. subst y0. eapply Z; eauto.
  - (* move *)
    split; intros v0 x0 Hx0 R.
    + destruct (Nat.eq_dec v0 v) as [->|D]; [exfalso; assert (x0 = x) by congruence; subst x0; eauto|].
      destruct (Nat.eq_dec v0 w) as [->|D2]; [exfalso; assert (x0 = y) by congruence; subst x0; eauto|].
      exists x0. rewrite !put_ne by auto. unfold marked; auto.
    + destruct (Nat.eq_dec v0 v) as [->|D]; [exfalso; assert (x0 = x) by congruence; subst x0; eauto|].
      destruct (Nat.eq_dec v0 w) as [->|D2]; [exfalso; assert (x0 = y) by congruence; subst x0; eauto|].
      exists x0. rewrite !put_ne by auto. unfold marked; auto.
  - (* check *) destruct (c =? 0)%Z; [eapply Z; eauto|apply Y].
  - (* recv *)
    split; intros v0 x0 Hx0 R; (destruct (Nat.eq_dec v0 v) as [->|D];
      [assert (x0 = x) by congruence; subst x0|exists x0; rewrite put_ne by auto; unfold marked; auto]).
    + exists (with_own x (Own u)). rewrite (put_eq _ _ _ H0). split; auto. split; [|left; auto].
      destruct R as [R|R]; [congruence|right; auto].
    + destruct R as [R _]. congruence.
  - (* lend *)
    split; intros v0 x0 Hx0 R; (destruct (Nat.eq_dec v0 v) as [->|D];
      [assert (x0 = x) by congruence; subst x0|exists x0; rewrite put_ne by auto; unfold marked; auto]).
    + eexists. rewrite (put_eq _ _ _ H0). split; [reflexivity|]. split; [|left; auto].
      destruct R as [R|R]; [congruence|right; cbn; auto].
    + destruct R as [R _]. congruence.
  - (* accept *)
    split; intros v0 x0 Hx0 R; (destruct (Nat.eq_dec v0 v) as [->|D];
      [assert (x0 = x) by congruence; subst x0|exists x0; rewrite put_ne by auto; unfold marked; auto]).
    + eexists. rewrite (put_eq _ _ _ H0). split; [reflexivity|]. split; [|left; auto].
      destruct R as [R|R]; [left; auto|right; cbn]. rewrite H1 in R. apply in_app_iff in R. apply in_app_iff.
      cbn in *. destruct R as [R|[R|R]]; auto. discriminate.
    + destruct R as [_ R]. rewrite H1 in R. destruct l1; discriminate.
  - (* give *)
    split; intros v0 x0 Hx0 R; (destruct (Nat.eq_dec v0 v) as [->|D];
      [assert (x0 = x) by congruence; subst x0|exists x0; rewrite put_ne by auto; unfold marked; auto]).
    + eexists. rewrite (put_eq _ _ _ H0). split; [reflexivity|]. split; [|left; auto].
      destruct R as [R|R]; [left; auto|right; cbn]. rewrite H1 in R. apply in_app_iff in R. apply in_app_iff.
      cbn in *. destruct R as [R|[R|R]]; auto. congruence.
    + destruct R as [_ R]. rewrite H1 in R. destruct l1; discriminate.
  - (* reclaim *)
    split; intros v0 x0 Hx0 R; (destruct (Nat.eq_dec v0 v) as [->|D];
      [assert (x0 = x) by congruence; subst x0|exists x0; rewrite put_ne by auto; unfold marked; auto]).
    + eexists. rewrite (put_eq _ _ _ H0). split; [reflexivity|]. split; [|left; auto].
      destruct R as [R|R]; [left; auto|right; cbn]. rewrite H2 in R. apply in_app_iff in R. apply in_app_iff.
      cbn in *. destruct R as [R|[R|R]]; auto. discriminate.
    + destruct R as [_ R]. rewrite H2 in R. destruct l1; discriminate.
Qed.
End Step.
