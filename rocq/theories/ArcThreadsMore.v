(** More about threads that share vec blocks: nothing leaks, a load that says "not shared"
    is up to date, and an operation under way can always go on. *)
From Verif Require Import ArcThreads ArcThreadsBase ArcThreadsInv ArcThreadsStep ArcThreadsStep2 ArcThreadsStep3 ArcThreadsRace ArcThreadsRace2.
From Coq Require Import List Arith ZArith Bool Lia.
Import ListNotations.
Set Implicit Arguments.
Open Scope nat_scope.

Section More.
Context {A : Type} (acq : bool).
Notation st := (st A).
Notation trace := (trace A).
Notation inv := (@inv A acq).
Notation step := (@step A acq).
Notation reach := (@reach A acq).

Lemma gone_freed owners n s : reach owners n s ->
  forall b k, nth_error (blks s) b = Some k -> k_live k = false ->
    exists i e, nth_error (tr s) i = Some e /\ frees (act e) b.
Proof.
  induction 1 as [|s s' R IH S]; intros b2 k2 Hk HL; [destruct b2; discriminate|].
  assert (K : forall t a k, tr s' = log s t a -> nth_error (blks s) b2 = Some k -> k_live k = false ->
    exists i e, nth_error (tr s') i = Some e /\ frees (act e) b2).
  { intros t a k Ht H1 H2. destruct (IH _ _ H1 H2) as (i & e & Q1 & Q2). exists i, e. split; auto.
    rewrite Ht. apply nth_app; auto. }
  assert (N : forall t a, tr s' = log s t a -> frees a b2 -> exists i e, nth_error (tr s') i = Some e /\ frees (act e) b2).
  { intros t a Ht F. exists (length (tr s)), {| who := t; act := a |}. split; auto. rewrite Ht. apply nth_snoc. }
  destruct S; cbn [blks] in Hk; try (eapply K; [reflexivity|eauto|auto]; fail);
    try (apply nth_snoc_inv in Hk; destruct Hk as [[_ ->]|[_ Hk]]; [discriminate|eapply K; [reflexivity|eauto|auto]]; fail);
    try (apply put_inv in Hk; destruct Hk as [(-> & -> & _)|(_ & Hk)]; [|eapply K; [reflexivity|eauto|auto]];
         first [eapply K; [reflexivity|eauto|auto; fail] | eapply N; [reflexivity|reflexivity]]; fail).
  apply nth_snoc_inv in Hk. destruct Hk as [[_ ->]|[_ Hk]]; [discriminate|].
  apply put_inv in Hk. destruct Hk as [(-> & -> & _)|(_ & Hk)]; [eapply N; reflexivity|eapply K; [reflexivity|eauto|auto]].
Qed.

Lemma check_current owners n s : reach owners n s ->
  forall i e v b r, nth_error (tr s) i = Some e -> act e = ACheck v b r true ->
    forall j ej, r < j -> j < i -> nth_error (tr s) j = Some ej -> stores (act ej) b = None.
Proof.
  induction 1 as [|s s' R IH S]; intros i e v b r Hi Ha j ej L1 L2 Hj; [destruct i; discriminate|].
  destruct (reach_inv R) as [I _]. destruct (step_tr S) as (t & a & Ht). rewrite Ht in Hi, Hj.
  apply nth_snoc_inv in Hi. apply nth_snoc_inv in Hj. destruct Hi as [[-> ->]|[LI Hi]].
  - destruct Hj as [[-> _]|[_ Hj]]; [lia|]. cbn in Ha. subst a.
    destruct S; cbn [tr] in Ht; apply log_inj in Ht; destruct Ht as [-> Q]; try discriminate Q.
    injection Q as <- <- <- C. apply Z.eqb_eq in C. subst c.
    destruct (check_last _ I H0 H1 H2 H3 H4 H5) as (k & _ & _ & L). specialize (L j L1).
    match goal with |- ?X = None => destruct X eqn:E; auto end. exfalso. apply L. exists ej. split; auto. congruence.
  - destruct Hj as [[-> _]|[LJ Hj]]; [lia|]. exact (IH i e v b r Hi Ha j ej L1 L2 Hj).
Qed.

Lemma all_gone owners n s : reach owners n s ->
  (forall v x, nth_error (vars s) v = Some x -> v_val x = None) ->
  (forall t p, nth_error (pcs s) t = Some p -> p = Idle) ->
  forall i e b, nth_error (tr s) i = Some e -> touches (act e) b ->
    exists j ej, nth_error (tr s) j = Some ej /\ frees (act ej) b.
Proof.
  intros R HV HP i e b Hi Hb. destruct (reach_inv R) as [I _].
  pose proof (touched_lt _ I Hi Hb) as LT.
  destruct (nth_error (blks s) b) as [k|] eqn:E; [|apply nth_error_None in E; lia].
  destruct (k_live k) eqn:L; [|eapply gone_freed; eauto]. exfalso.
  pose proof (i_blk I b E) as B. rewrite L in B. destruct B as [B1 B2].
  assert (R0 : refs s b = 0).
  { unfold refs. rewrite !sum_all0; auto.
    - intros p H. apply In_nth_error in H. destruct H as [t H]. rewrite (HP _ _ H). auto.
    - intros x H. apply In_nth_error in H. destruct H as [v H]. unfold hv. rewrite (HV _ _ H). auto. }
  assert (F0 : nfree s b = 0).
  { unfold nfree. apply sum_all0. intros p H. apply In_nth_error in H. destruct H as [t H]. rewrite (HP _ _ H). auto. }
  rewrite R0 in B1. rewrite F0 in B2. cbn in B1. rewrite B1 in B2. discriminate.
Qed.

Lemma under_way owners n s : reach owners n s -> forall t p, nth_error (pcs s) t = Some p -> p <> Idle ->
  exists s' a, step s s' /\ tr s' = tr s ++ [{| who := t; act := a |}].
Proof.
  intros R t p Hp N. destruct (reach_inv R) as [I _]. destruct p as [|v w b|v w b|b|b].
  - congruence.
  - destruct (i_pc I _ Hp) as (D & x & y & o & Q1 & _). do 2 eexists. split; [eapply S_mark; eauto|reflexivity].
  - destruct (i_pc I _ Hp) as (D & x & y & Q1 & Q2 & Q3 & Q4 & Q5 & Q6).
    destruct (i_var I _ Q1 Q5) as (k & E & _).
    do 2 eexists. split; [eapply S_incr; eauto|reflexivity].
  - destruct (ref_live (HP t) I (ref_pc _ _ Hp)) as (k & E & _).
    do 2 eexists. split; [eapply S_decr; eauto|reflexivity].
  - destruct (freeing_live _ I Hp) as [(k & E & _) _].
    do 2 eexists. split; [eapply S_free; eauto|reflexivity].
Qed.

(** What a vec holds now, and that only the last reference's release frees a block. *)
Lemma holds_value owners n s : reach owners n s -> forall v x b o, nth_error (vars s) v = Some x ->
  v_val x = Some (b, o) -> exists k, nth_error (blks s) b = Some k /\ k_live k = true
    /\ values (tr s) v = Some (k_val k) /\ (o = true -> k_cnt k = 0%Z).
Proof. intros R. destruct (reach_inv R) as [I _]. apply (i_var I). Qed.
End More.
