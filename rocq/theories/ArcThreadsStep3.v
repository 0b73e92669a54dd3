(** Every step keeps the invariant of ArcThreadsInv.v, concluded: values, histories of
    counters, and the invariant as a whole. *)
From Verif Require Import ArcThreads ArcThreadsBase ArcThreadsInv ArcThreadsStep ArcThreadsStep2.
From Coq Require Import List Arith ZArith Bool Lia.
Import ListNotations.
Set Implicit Arguments.
Open Scope nat_scope.

Section Step.
Context {A : Type} (acq : bool).
Notation st := (st A).
Notation trace := (trace A).
Notation pknows := (@pknows A acq).
Notation dom := (@dom A acq).
Notation PP := (@PP A acq).
Notation inv := (@inv A acq).
Notation step := (@step A acq).

Lemma set_eq (m : nat -> option A) v x : set m v x v = x.
Proof. unfold set. rewrite Nat.eqb_refl. auto. Qed.
Lemma set_ne (m : nat -> option A) v x w : w <> v -> set m v x w = m w.
Proof. intros N. unfold set. rewrite (proj2 (Nat.eqb_neq _ _) N). auto. Qed.

Lemma var_pres s s' : inv s -> step s s' ->
  forall v x b o, nth_error (vars s') v = Some x -> v_val x = Some (b, o) ->
    exists k, nth_error (blks s') b = Some k /\ k_live k = true
      /\ values (tr s') v = Some (k_val k) /\ (o = true -> k_cnt k = 0%Z).
Proof.
  intros I S.
  assert (K : forall v x b o, nth_error (vars s) v = Some x -> v_val x = Some (b, o) ->
    exists k, nth_error (blks s) b = Some k /\ k_live k = true
      /\ values (tr s) v = Some (k_val k) /\ (o = true -> k_cnt k = 0%Z)) by apply (i_var I).
  assert (OV : forall v x b v2 x2 o2, nth_error (vars s) v = Some x -> v_val x = Some (b, true) ->
    nth_error (vars s) v2 = Some x2 -> v_val x2 = Some (b, o2) -> v2 = v).
  { intros v x b v2 x2 o2 H1 H2 H3 H4. destruct (K _ _ _ _ H1 H2) as (k & E & _ & _ & C).
    destruct (ref_only (HV v2) (HV v) I (ref_var _ _ H3 H4) (ref_var _ _ H1 H2) E (C eq_refl)) as [Q _].
    injection Q as ->. auto. }
  destruct S; cbn [vars blks tr]; unfold log; rewrite ?values_snoc; cbn [act vals_step];
    intros v2 x2 b2 o2 Hx Hv; try (eapply K; eauto; fail).
  - (* new *) pinv Hx.
    + cbn in Hv. injection Hv as <- <-. eexists. split; [apply nth_snoc|]. rewrite set_eq. cbn. auto.
    + destruct (K _ _ _ _ Hx Hv) as (k & E & L & V & C). exists k. rewrite set_ne by auto.
      split; [apply nth_app; auto|auto].
  - (* mark *) pinv Hx; [|eapply K; eauto]. cbn in Hv.
    destruct (v_val x) as [[b' o']|] eqn:E; [|discriminate]. cbn in Hv. injection Hv as <- <-.
    destruct (K _ _ _ _ H0 E) as (k & E1 & L & V & C). exists k. repeat (split; auto). discriminate.
  - (* incr *)
    pose proof (i_pc I _ H) as (D & x & y0 & Q1 & Q2 & Q3 & Q4 & Q5 & Q6).
    assert (y0 = y) by congruence. subst y0. pinv Hx.
    + cbn in Hv. injection Hv as <- <-. rewrite set_eq.
      destruct (K _ _ _ _ Q1 Q5) as (k' & E & L & V & C). assert (k' = k) by congruence. subst k'.
      eexists. split; [apply (put_eq _ _ _ H1)|]. cbn. split; auto. split; auto. discriminate.
    + rewrite set_ne by auto. destruct (K _ _ _ _ Hx Hv) as (k' & E & L & V & C).
      destruct (Nat.eq_dec b2 b) as [->|N].
      * assert (k' = k) by congruence. subst k'. eexists. split; [apply (put_eq _ _ _ H1)|]. cbn.
        split; auto. split; auto. intros ->. exfalso.
        assert (v = v2) by (eapply OV; eauto). subst. congruence.
      * exists k'. rewrite put_ne by auto. auto.
  - (* move *) pinv Hx; [cbn in Hv; discriminate|]. rewrite set_ne by auto. pinv Hx.
    + rewrite set_eq. cbn in Hv. injection Hv as ->. eapply K; eauto.
    + rewrite set_ne by auto. eapply K; eauto.
  - (* drop *) pinv Hx; [cbn in Hv; discriminate|]. rewrite set_ne by auto. eapply K; eauto.
  - (* decr *) destruct (K _ _ _ _ Hx Hv) as (k' & E & L & V & C).
    destruct (Nat.eq_dec b2 b) as [->|N].
    + assert (k' = k) by congruence. subst k'. eexists. split; [apply (put_eq _ _ _ H0)|]. cbn.
      split; auto. split; auto. intros ->. exfalso.
      destruct (ref_only (HV v2) (HP t) I (ref_var _ _ Hx Hv) (ref_pc _ _ H) E (C eq_refl)) as [Q _]. discriminate.
    + exists k'. rewrite put_ne by auto. auto.
  - (* free *) destruct (K _ _ _ _ Hx Hv) as (k' & E & L & V & C).
    destruct (Nat.eq_dec b2 b) as [->|N].
    + exfalso. destruct (ref_live (HV v2) I (ref_var _ _ Hx Hv)) as (k2 & _ & _ & _ & F).
      pose proof (sum_ge (hf b) _ _ H) as G. cbn in G. rewrite Nat.eqb_refl in G. unfold nfree in F. lia.
    + exists k'. rewrite put_ne by auto. auto.
  - (* check *) destruct (Z.eqb_spec c 0) as [->|N]; [|eapply K; eauto].
    pinv Hx; [|eapply K; eauto]. cbn in Hv. injection Hv as <- <-.
    destruct (K _ _ _ _ H0 H2) as (k & E & L & V & _).
    destruct (check_last _ I H0 H1 H2 H3 H4 H5) as (k' & E' & C' & _).
    assert (k' = k) by congruence. subst k'. exists k. auto.
  - (* write *) destruct (K _ _ _ _ Hx Hv) as (k' & E & L & V & C).
    destruct (Nat.eq_dec v2 v) as [->|N].
    + assert (x2 = x) by congruence. subst x2. rewrite Hv in H2. injection H2 as -> ->.
      assert (k' = k) by congruence. subst k'. eexists. split; [apply (put_eq _ _ _ H3)|].
      rewrite set_eq, V. cbn. auto.
    + rewrite set_ne by auto. exists k'. rewrite put_ne; auto. intros ->. apply N. eapply OV; eauto.
  - (* clone *) pinv Hx.
    + cbn in Hv. injection Hv as <- <-. eexists. split; [apply nth_snoc|]. rewrite set_eq.
      destruct (K _ _ _ _ H0 H2) as (k' & E & L & V & C). assert (k' = k) by congruence. subst k'.
      rewrite V. cbn. auto.
    + destruct (K _ _ _ _ Hx Hv) as (k' & E & L & V & C). exists k'. rewrite set_ne by auto.
      split; [apply nth_app; auto|auto].
  - (* grow *) pinv Hx.
    + cbn in Hv. injection Hv as <- <-. eexists.
      split; [unfold fresh; rewrite <- (put_len (blks s) b {| k_live := false; k_cnt := k_cnt k; k_val := k_val k |}); apply nth_snoc|].
      rewrite set_eq.
      destruct (K _ _ _ _ H0 H2) as (k' & E & L & V & C). assert (k' = k) by congruence. subst k'.
      rewrite V. cbn. auto.
    + destruct (K _ _ _ _ Hx Hv) as (k' & E & L & V & C). exists k'. rewrite set_ne by auto.
      split; [|auto]. apply nth_app. rewrite put_ne; auto. intros ->. apply H4. eapply OV; eauto.
  - pinv Hx; eapply K; eauto.
  - pinv Hx; eapply K; eauto.
  - pinv Hx; eapply K; eauto.
  - pinv Hx; eapply K; eauto.
  - pinv Hx; eapply K; eauto.
  - pinv Hx; eapply K; eauto.
Qed.

(** ** Histories of counters *)
Lemma stored_snoc (tr : trace) e i b : stored (tr ++ [e]) i b ->
  stored tr i b \/ (i = length tr /\ stores (act e) b <> None).
Proof.
  intros (e0 & H1 & H2). apply nth_snoc_inv in H1. destruct H1 as [[-> ->]|[_ H1]]; auto. left. exists e0. auto.
Qed.
Lemma stored_ext (tr r : trace) i b : stored tr i b -> stored (tr ++ r) i b.
Proof. intros (e0 & H1 & H2). exists e0. split; auto. apply nth_app; auto. Qed.

Lemma hist_pres s s' : inv s -> step s s' ->
  forall b k, nth_error (blks s') b = Some k -> k_live k = true ->
    forall r er, nth_error (tr s') r = Some er -> stores (act er) b = Some 0%Z ->
      (k_cnt k = 0%Z /\ forall r', r < r' -> ~ stored (tr s') r' b)
      \/ (exists r' e v w, r < r' /\ nth_error (tr s') r' = Some e /\ act e = AIncr v w b 1)
      \/ k_cnt k = (-1)%Z.
Proof.
  intros I S b2 k2 Hk2 L2 r er Hr Hs.
  (* a step that stores nothing in the counter of b2 *)
  assert (K : forall t a k, tr s' = log s t a -> stores a b2 = None -> nth_error (blks s) b2 = Some k ->
    k_live k = true -> k_cnt k = k_cnt k2 ->
    (k_cnt k2 = 0%Z /\ forall r', r < r' -> ~ stored (tr s') r' b2)
      \/ (exists r' e v w, r < r' /\ nth_error (tr s') r' = Some e /\ act e = AIncr v w b2 1)
      \/ k_cnt k2 = (-1)%Z).
  { intros t a k Ht Hn Hk HL HC. rewrite Ht in Hr. apply nth_snoc_inv in Hr. rewrite <- HC.
    destruct Hr as [[-> ->]|[_ Hr]]; [cbn in Hs; congruence|].
    destruct (i_hist I _ Hk HL _ Hr Hs) as [[Q1 Q2]|[(r' & e & v & w & Q1 & Q2 & Q3)|Q]]; auto.
    - left. split; auto. intros r' Hlt Hst. rewrite Ht in Hst. apply stored_snoc in Hst.
      destruct Hst as [Hst|[_ Hst]]; [eapply Q2; eauto|]. cbn in Hst. auto.
    - right. left. exists r', e, v, w. split; auto. split; auto. rewrite Ht. apply nth_app; auto. }
  (* a new block *)
  assert (N : forall t a, tr s' = log s t a -> b2 = fresh s -> k_cnt k2 = 0%Z ->
    (k_cnt k2 = 0%Z /\ forall r', r < r' -> ~ stored (tr s') r' b2)
      \/ (exists r' e v w, r < r' /\ nth_error (tr s') r' = Some e /\ act e = AIncr v w b2 1)
      \/ k_cnt k2 = (-1)%Z).
  { intros t a Ht -> HC. left. split; auto. destruct (i_fresh I (le_n (length (blks s)))) as (_ & _ & F).
    rewrite Ht in Hr. apply nth_snoc_inv in Hr. destruct Hr as [[-> ->]|[_ Hr]].
    - intros r' Hlt (e & H1 & _). rewrite Ht in H1. apply nth_lt in H1. unfold log in H1. rewrite app_length in H1. cbn in H1. lia.
    - destruct (F _ _ Hr) as [_ F2]. unfold fresh in *. congruence. }
  assert (NE : forall x y, y <> x -> (x =? y) = false) by (intros; apply Nat.eqb_neq; auto).
  destruct S; cbn [blks] in *; try (eapply K; eauto; reflexivity).
  - apply nth_snoc_inv in Hk2. destruct Hk2 as [[E ->]|[LT Hk2]]; [eapply N; cbn; eauto|].
    eapply K; [reflexivity|cbn; rewrite NE by (unfold fresh; lia); reflexivity|eauto|auto|auto].
  - (* incr *) apply put_inv in Hk2. destruct Hk2 as [(-> & -> & _)|(D & Hk2)].
    + cbn [k_cnt k_live] in *. cbn [tr] in Hr. apply nth_snoc_inv in Hr.
      pose proof (i_pc I _ H) as (D & x & y0 & Q1 & Q2 & Q3 & Q4 & Q5 & Q6).
      destruct (ref_live (HV v) I (ref_var _ _ Q1 Q5)) as (k' & E' & L' & C' & F').
      pose proof (refs_ge_var _ _ Q1 Q5). assert (k' = k) by congruence. subst k'.
      destruct Hr as [[-> ->]|[LT Hr]].
      * cbn in Hs. rewrite Nat.eqb_refl in Hs. injection Hs as Hs. lia.
      * destruct (i_hist I _ E' L' _ Hr Hs) as [[P1 P2]|[(r' & e & v' & w' & P1 & P2 & P3)|P]]; [| |lia].
        -- right. left. exists (now s), {| who := t; act := AIncr v w b (k_cnt k + 1) |}, v, w.
           split; [auto|]. split; [apply nth_snoc|]. cbn. rewrite P1. auto.
        -- right. left. exists r', e, v', w'. split; auto. split; auto. apply nth_app; auto.
    + eapply K; [reflexivity|cbn; rewrite NE by auto; reflexivity|eauto|auto|auto].
  - (* decr *) apply put_inv in Hk2. destruct Hk2 as [(-> & -> & _)|(D & Hk2)].
    + cbn [k_cnt k_live] in *. cbn [tr] in Hr. apply nth_snoc_inv in Hr.
      destruct Hr as [[-> ->]|[LT Hr]].
      * cbn in Hs. rewrite Nat.eqb_refl in Hs. injection Hs as Hs. left. split; auto.
        intros r' Hlt (e & Q1 & _). cbn [tr] in Q1. apply nth_lt in Q1. unfold log in Q1. rewrite app_length in Q1. cbn in Q1. lia.
      * destruct (i_hist I _ H0 L2 _ Hr Hs) as [[P1 P2]|[(r' & e & v' & w' & P1 & P2 & P3)|P]]; [lia| |].
        -- right. left. exists r', e, v', w'. split; auto. split; auto. apply nth_app; auto.
        -- destruct (ref_live (HP t) I (ref_pc _ _ H)) as (k' & E' & L' & C' & F').
           pose proof (refs_ge_pc _ _ H). assert (k' = k) by congruence. subst k'. lia.
    + eapply K; [reflexivity|cbn; rewrite NE by auto; reflexivity|eauto|auto|auto].
  - (* free *) apply put_inv in Hk2. destruct Hk2 as [(-> & -> & _)|(D & Hk2)]; [discriminate|].
    eapply K; [reflexivity|reflexivity|eauto|auto|auto].
  - (* write *) apply put_inv in Hk2. destruct Hk2 as [(-> & -> & _)|(D & Hk2)]; (eapply K; [reflexivity|reflexivity|eauto|auto|auto]).
  - apply nth_snoc_inv in Hk2. destruct Hk2 as [[E ->]|[LT Hk2]]; [eapply N; cbn; eauto|].
    eapply K; [reflexivity|cbn; rewrite NE by (unfold fresh; lia); reflexivity|eauto|auto|auto].
  - apply nth_snoc_inv in Hk2. rewrite put_len in Hk2. destruct Hk2 as [[E ->]|[LT Hk2]]; [eapply N; cbn; eauto|].
    apply put_inv in Hk2. destruct Hk2 as [(-> & -> & _)|(D & Hk2)]; [discriminate|].
    eapply K; [reflexivity|cbn; rewrite NE by (unfold fresh; lia); reflexivity|eauto|auto|auto].
Qed.

(** ** Where references come from and go to *)
Definition evolves (s s' : st) (t : nat) (a : action A) : Prop :=
  (forall h' b P', ref s' h' = Some (b, P') ->
      (exists h P, ref s h = Some (b, P) /\ PP (tr s) (tr s') P P')
      \/ (P' = [PT t] /\ (exists h P, ref s h = Some (b, P) /\ In (PT t) P) /\ stores a b <> None)
      \/ (P' = [PT t] /\ b = fresh s /\ forall i e, nth_error (tr s) i = Some e -> ~ touches (act e) b /\ stores (act e) b = None))
  /\ (forall h b P, ref s h = Some (b, P) ->
      (exists h' P', ref s' h' = Some (b, P') /\ PP (tr s) (tr s') P P')
      \/ (P = [PT t] /\ exists c, a = ADecr b c)
      \/ (exists v b' f, a = AGrow v b b' f)).

Lemma ref_HV_inv (s : st) v b P : ref s (HV v) = Some (b, P) ->
  exists x o, nth_error (vars s) v = Some x /\ v_val x = Some (b, o) /\ P = parties x.
Proof.
  cbn. destruct (nth_error (vars s) v) as [x|] eqn:E; [|discriminate].
  destruct (v_val x) as [[b' o]|] eqn:Q; [|discriminate]. intros H. injection H as -> <-. eauto.
Qed.
Lemma ref_HP_inv (s : st) t b P : ref s (HP t) = Some (b, P) -> nth_error (pcs s) t = Some (Release b) /\ P = [PT t].
Proof.
  cbn. destruct (nth_error (pcs s) t) as [[]|] eqn:E; try discriminate. intros H. injection H as -> <-. auto.
Qed.

Lemma step_evolves s s' : inv s -> step s s' -> exists t a, tr s' = log s t a /\ evolves s s' t a.
Proof.
  intros I S. pose proof (step_parties I S) as SP.
  assert (VB : forall v x b o x' o', nth_error (vars s) v = Some x -> v_val x = Some (b, o) ->
    nth_error (vars s') v = Some x' -> v_val x' = Some (b, o') -> PP (tr s) (tr s') (parties x) (parties x')).
  { intros v x b o x' o' H1 H2 H3 H4. destruct (SP _ _ H3) as (x0 & E & Q). congruence. }
  (* a variable that keeps its block *)
  assert (BK : forall v x b o x' o', nth_error (vars s) v = Some x -> v_val x = Some (b, o) ->
    nth_error (vars s') v = Some x' -> v_val x' = Some (b, o') ->
    exists h P, ref s h = Some (b, P) /\ PP (tr s) (tr s') P (parties x')).
  { intros. exists (HV v), (parties x). split; [eapply ref_var; eauto|eauto]. }
  assert (FW : forall v x b o x' o', nth_error (vars s) v = Some x -> v_val x = Some (b, o) ->
    nth_error (vars s') v = Some x' -> v_val x' = Some (b, o') ->
    exists h P, ref s' h = Some (b, P) /\ PP (tr s) (tr s') (parties x) P).
  { intros. exists (HV v), (parties x'). split; [eapply ref_var; eauto|eauto]. }
  assert (XR : forall P, PP (tr s) (tr s') P P) by (destruct (step_tr S) as (t & a & ->); intros; apply PP_refl).
  assert (FR : forall i e, nth_error (tr s) i = Some e -> ~ touches (act e) (fresh s) /\ stores (act e) (fresh s) = None)
    by (destruct (i_fresh I (le_n (length (blks s)))) as (_ & _ & F); exact F).
  (* threads whose release goes on *)
  assert (BP : forall t b, nth_error (pcs s) t = Some (Release b) ->
    exists h P, ref s h = Some (b, P) /\ PP (tr s) (tr s') P [PT t]).
  { intros t b H. exists (HP t), [PT t]. split; [apply ref_pc; auto|auto]. }
  assert (FP : forall t b, nth_error (pcs s') t = Some (Release b) ->
    exists h P, ref s' h = Some (b, P) /\ PP (tr s) (tr s') [PT t] P).
  { intros t b H. exists (HP t), [PT t]. split; [apply ref_pc; auto|auto]. }
  clear VB.
  (* steps that change no reference *)
  assert (SAME : forall t a,
    (forall v x' b o', nth_error (vars s') v = Some x' -> v_val x' = Some (b, o') ->
       exists x o, nth_error (vars s) v = Some x /\ v_val x = Some (b, o)) ->
    (forall v x b o, nth_error (vars s) v = Some x -> v_val x = Some (b, o) ->
       exists x' o', nth_error (vars s') v = Some x' /\ v_val x' = Some (b, o')) ->
    (forall u b, nth_error (pcs s') u = Some (Release b) <-> nth_error (pcs s) u = Some (Release b)) ->
    evolves s s' t a).
  { intros t a H1 H2 H3. split.
    - intros [v|u] b P' HR; left.
      + apply ref_HV_inv in HR. destruct HR as (x' & o' & E & V & ->).
        destruct (H1 _ _ _ _ E V) as (x & o & E2 & V2). eauto.
      + apply ref_HP_inv in HR. destruct HR as (E & ->). apply H3 in E. auto.
    - intros [v|u] b P HR; left.
      + apply ref_HV_inv in HR. destruct HR as (x & o & E & V & ->).
        destruct (H2 _ _ _ _ E V) as (x' & o' & E2 & V2). eauto.
      + apply ref_HP_inv in HR. destruct HR as (E & ->). apply H3 in E. auto. }
  assert (V1 : forall v x x', nth_error (vars s) v = Some x ->
     match v_val x, v_val x' with Some (b, _), Some (b', _) => b = b' | None, None => True | _, _ => False end ->
    (forall v0 x0 b o', nth_error (put (vars s) v x') v0 = Some x0 -> v_val x0 = Some (b, o') ->
       exists x o, nth_error (vars s) v0 = Some x /\ v_val x = Some (b, o))
    /\ (forall v0 x0 b o, nth_error (vars s) v0 = Some x0 -> v_val x0 = Some (b, o) ->
       exists x1 o', nth_error (put (vars s) v x') v0 = Some x1 /\ v_val x1 = Some (b, o'))).
  { intros v x x' Hx M. split; intros v0 x0 b o H1 H2.
    - pinv H1; [|eauto]. rewrite H2 in M. destruct (v_val x) as [[b' o']|] eqn:E; [|destruct M]. subst. eauto.
    - destruct (Nat.eq_dec v0 v) as [->|N]; [|exists x0, o; rewrite put_ne; auto].
      assert (x0 = x) by congruence. subst x0. rewrite H2 in M.
      destruct (v_val x') as [[b' o']|] eqn:E; [|destruct M]. subst b'. exists x', o'. rewrite (put_eq _ _ _ Hx). auto. }
  assert (M0 : forall x x', v_val x' = v_val x -> match v_val x, v_val x' with Some (b, _), Some (b', _) => b = b' | None, None => True | _, _ => False end).
  { intros x x' ->. destruct (v_val x) as [[]|]; auto. }
  assert (P1 : forall t p p', nth_error (pcs s) t = Some p -> (forall b, p <> Release b) -> (forall b, p' <> Release b) ->
    forall u b, nth_error (put (pcs s) t p') u = Some (Release b) <-> nth_error (pcs s) u = Some (Release b)).
  { intros t p p' H1 H2 H3 u b. destruct (Nat.eq_dec u t) as [->|N]; [|rewrite put_ne by auto; tauto].
    rewrite (put_eq _ _ _ H1), H1. split; intros H; injection H; intros Q; exfalso; [eapply H3|eapply H2]; eauto. }
  destruct S; cbn [vars pcs tr] in *; do 2 eexists; (split; [reflexivity|]);
    try (apply SAME; [eauto|eauto|tauto]; fail);
    try (match goal with |- evolves _ {| vars := put _ ?v ?X |} _ _ =>
           destruct (V1 v x X H0 (M0 x X eq_refl)) as [W1 W2]; apply SAME; [apply W1|apply W2|tauto] end; fail).
  - (* new *) split.
    + intros [v2|u] b P' HR.
      * apply ref_HV_inv in HR. destruct HR as (x' & o' & E & V & ->). cbn [vars] in E. pose proof E as E0. pinv E.
        -- right. right. cbn in V. injection V as <- <-. rewrite parties_val, (sole_parties H1). auto.
        -- left. eauto.
      * apply ref_HP_inv in HR. destruct HR as (E & ->). left. eauto.
    + intros [v2|u] b P HR; left.
      * apply ref_HV_inv in HR. destruct HR as (x2 & o & E & V & ->).
        assert (N : v2 <> v) by (intros ->; congruence). eapply FW; eauto. rewrite put_ne; eauto.
      * apply ref_HP_inv in HR. destruct HR as (E & ->). eauto.
  - (* start *) apply SAME; [eauto|eauto|]. eapply P1; eauto; discriminate.
  - (* mark *)
    assert (M : match v_val x, v_val (with_val x (option_map (fun p => (fst p, false)) (v_val x))) with Some (b, _), Some (b', _) => b = b' | None, None => True | _, _ => False end).
    { cbn. destruct (v_val x) as [[]|]; cbn; auto. }
    destruct (V1 _ _ _ H0 M) as [W1 W2]. apply SAME; [apply W1|apply W2|]. eapply P1; eauto; discriminate.
  - (* incr *)
    pose proof (i_pc I _ H) as (D & x & y0 & Q1 & Q2 & Q3 & Q4 & Q5 & Q6).
    assert (y0 = y) by congruence. subst y0.
    pose proof (P1 _ _ Idle H ltac:(discriminate) ltac:(discriminate)) as PI. split.
    + intros [v2|u] b2 P' HR.
      * apply ref_HV_inv in HR. destruct HR as (x' & o' & E & V & ->). cbn [vars] in E. pose proof E as E0. pinv E.
        -- right. left. cbn in V. injection V as <- <-. rewrite parties_val, (sole_parties Q4). split; auto.
           split; [|cbn; rewrite Nat.eqb_refl; discriminate].
           exists (HV v), (parties x). split; [eapply ref_var; eauto|apply reader_party; auto].
        -- left. eauto.
      * apply ref_HP_inv in HR. destruct HR as (E & ->). left. cbn [pcs] in E. apply PI in E. eauto.
    + intros [v2|u] b2 P HR; left.
      * apply ref_HV_inv in HR. destruct HR as (x2 & o & E & V & ->).
        assert (N : v2 <> w) by (intros ->; congruence). eapply FW; eauto. rewrite put_ne; eauto.
      * apply ref_HP_inv in HR. destruct HR as (E & ->). apply FP. apply PI. auto.
  - (* move *)
    assert (Ew : nth_error (put (put (vars s) w (with_val y (Some p))) v (with_val x None)) w = Some (with_val y (Some p)))
      by (rewrite put_ne by auto; apply (put_eq _ _ _ H1)).
    destruct p as [b0 o0]. split.
    + intros [v2|u] b P' HR; left.
      * apply ref_HV_inv in HR. destruct HR as (x' & o' & E & V & ->). cbn [vars] in E. pose proof E as E0.
        pinv E; [discriminate|]. pinv E.
        -- cbn in V. injection V as -> ->. rewrite parties_val, (sole_parties H3).
           exists (HV v), (parties x). split; [eapply ref_var; eauto|]. rewrite (sole_parties H2). auto.
        -- eauto.
      * apply ref_HP_inv in HR. destruct HR as (E & ->). eauto.
    + intros [v2|u] b P HR; left.
      * apply ref_HV_inv in HR. destruct HR as (x2 & o & E & V & ->).
        destruct (Nat.eq_dec v2 v) as [->|N].
        -- assert (x2 = x) by congruence. subst x2. rewrite V in H4. injection H4 as -> ->.
           exists (HV w), (parties (with_val y (Some (b0, o0)))). split; [eapply ref_var; [cbn [vars]; eauto|reflexivity]|].
           rewrite parties_val, (sole_parties H3), (sole_parties H2). auto.
        -- assert (N2 : v2 <> w) by (intros ->; congruence). eapply FW; eauto. rewrite !put_ne; eauto.
      * apply ref_HP_inv in HR. destruct HR as (E & ->). eauto.
  - (* drop *) split.
    + intros [v2|u] b2 P' HR; left.
      * apply ref_HV_inv in HR. destruct HR as (x' & o' & E & V & ->). cbn [vars] in E. pose proof E as E0. pinv E; [discriminate|]. eauto.
      * apply ref_HP_inv in HR. destruct HR as (E & ->). cbn [pcs] in E. apply put_inv in E.
        destruct E as [(-> & E & _)|(N & E)]; [|eauto]. injection E as ->.
        exists (HV v), (parties x). split; [eapply ref_var; eauto|]. rewrite (sole_parties H1). auto.
    + intros [v2|u] b2 P HR; left.
      * apply ref_HV_inv in HR. destruct HR as (x2 & o2 & E & V & ->).
        destruct (Nat.eq_dec v2 v) as [->|N].
        -- assert (x2 = x) by congruence. subst x2. rewrite V in H2. injection H2 as -> ->.
           rewrite (sole_parties H1). apply FP. apply (put_eq _ _ _ H).
        -- eapply FW; eauto. rewrite put_ne; eauto.
      * apply ref_HP_inv in HR. destruct HR as (E & ->). apply FP. rewrite put_ne; auto. intros ->. congruence.
  - (* decr *) split.
    + intros [v2|u] b2 P' HR; left.
      * apply ref_HV_inv in HR. destruct HR as (x' & o' & E & V & ->). eauto.
      * apply ref_HP_inv in HR. destruct HR as (E & ->). cbn [pcs] in E. apply put_inv in E.
        destruct E as [(-> & E & _)|(N & E)]; [destruct (k_cnt k =? 0)%Z; discriminate|eauto].
    + intros [v2|u] b2 P HR.
      * left. apply ref_HV_inv in HR. destruct HR as (x2 & o2 & E & V & ->). eauto.
      * apply ref_HP_inv in HR. destruct HR as (E & ->). destruct (Nat.eq_dec u t) as [->|N].
        -- right. left. split; auto. rewrite E in H. injection H as ->. eauto.
        -- left. apply FP. rewrite put_ne; auto.
  - (* free *) apply SAME; [eauto|eauto|]. eapply P1; eauto; discriminate.
  - (* check *)
    destruct (c =? 0)%Z; [|apply SAME; [eauto|eauto|tauto]].
    assert (M : match v_val x, v_val (with_val x (Some (b, true))) with Some (b, _), Some (b', _) => b = b' | None, None => True | _, _ => False end).
    { cbn. rewrite H2. auto. }
    destruct (V1 _ _ (with_val x (Some (b, true))) H0 M) as [W1 W2]. apply SAME; [apply W1|apply W2|tauto].
  - (* clone *) split.
    + intros [v2|u] b2 P' HR.
      * apply ref_HV_inv in HR. destruct HR as (x' & o' & E & V & ->). cbn [vars] in E. pose proof E as E0. pinv E.
        -- right. right. cbn in V. injection V as <- <-. rewrite parties_val, (sole_parties H1). auto.
        -- left. eauto.
      * apply ref_HP_inv in HR. destruct HR as (E & ->). cbn [pcs] in E. apply put_inv in E. left.
        destruct E as [(-> & E & _)|(N & E)]; [|eauto]. injection E as ->.
        exists (HV v), (parties x). split; [eapply ref_var; eauto|]. rewrite (sole_parties H1). auto.
    + intros [v2|u] b2 P HR; left.
      * apply ref_HV_inv in HR. destruct HR as (x2 & o2 & E & V & ->).
        destruct (Nat.eq_dec v2 v) as [->|N].
        -- assert (x2 = x) by congruence. subst x2. rewrite V in H2. injection H2 as -> ->.
           rewrite (sole_parties H1). apply FP. apply (put_eq _ _ _ H).
        -- eapply FW; eauto. rewrite put_ne; eauto.
      * apply ref_HP_inv in HR. destruct HR as (E & ->). apply FP. rewrite put_ne; auto. intros ->. congruence.
  - (* grow *) split.
    + intros [v2|u] b2 P' HR.
      * apply ref_HV_inv in HR. destruct HR as (x' & o' & E & V & ->). cbn [vars] in E. pose proof E as E0. pinv E.
        -- right. right. cbn in V. injection V as <- <-. rewrite parties_val, (sole_parties H1). auto.
        -- left. eauto.
      * apply ref_HP_inv in HR. destruct HR as (E & ->). left. eauto.
    + intros [v2|u] b2 P HR.
      * apply ref_HV_inv in HR. destruct HR as (x2 & o2 & E & V & ->).
        destruct (Nat.eq_dec v2 v) as [->|N].
        -- right. right. assert (x2 = x) by congruence. subst x2. rewrite V in H2. injection H2 as -> ->. eauto.
        -- left. eapply FW; eauto. rewrite put_ne; eauto.
      * apply ref_HP_inv in HR. destruct HR as (E & ->). left. eauto.
Qed.

Lemma zero_pres s s' : inv s -> step s s' ->
  forall b i e v w, nth_error (tr s') i = Some e -> act e = AIncr v w b 1 ->
    forall h P, ref s' h = Some (b, P) ->
      exists p i', In p P /\ i <= i' /\ stored (tr s') i' b /\ pknows (tr s') p i'.
Proof.
  intros I S b i e v w Hi Ha h P HR.
  destruct (step_evolves I S) as (t & a & Ht & EV & _).
  assert (NOW : stores a b <> None -> P = [PT t] \/ In (PT t) P ->
    exists p i', In p P /\ i <= i' /\ stored (tr s') i' b /\ pknows (tr s') p i').
  { intros Q1 Q2. exists (PT t), (length (tr s)). split; [destruct Q2 as [->|Q2]; cbn; auto|].
    split; [apply nth_lt in Hi; rewrite Ht in Hi; unfold log in Hi; rewrite app_length in Hi; cbn in Hi; lia|].
    rewrite Ht. split; [exists {| who := t; act := a |}; split; [apply nth_snoc|auto]|]. cbn. apply known_now. }
  destruct (EV _ _ _ HR) as [(h0 & P0 & H1 & H2)|[(-> & _ & H2)|(-> & -> & F)]]; [|auto|].
  - rewrite Ht in Hi. apply nth_snoc_inv in Hi. destruct Hi as [[-> ->]|[LT Hi]].
    + (* the increment just made: from 0 to 1, so there are exactly two references *)
      cbn in Ha. subst a. clear NOW.
      destruct S; cbn [tr] in Ht; apply log_inj in Ht; destruct Ht as [-> Q]; try discriminate Q.
      injection Q as -> -> -> C.
      pose proof (i_pc I _ H) as (D & x & y0 & Q1 & Q2 & Q3 & Q4 & Q5 & Q6).
      assert (y0 = y) by congruence. subst y0. assert (C0 : k_cnt k = 0%Z) by lia.
      destruct (ref_only h0 (HV v) I H1 (ref_var _ _ Q1 Q5) H3 C0) as [-> ->].
      destruct H2 as [_ H2]. destruct (H2 _ (reader_party Q3)) as (p' & Hp & Dm).
      exists (PT t). exists (length (tr s)).
      assert (IN : In (PT t) P).
      { cbn [ref vars] in HR. destruct h as [v2|u].
        - apply ref_HV_inv in HR. destruct HR as (x' & o' & E & V & ->). cbn [vars] in E. pinv E.
          + rewrite parties_val, (sole_parties Q4). cbn. auto.
          + assert (EQ : HV v2 = HV v) by (eapply ref_only; eauto using ref_var). injection EQ as ->.
            assert (x' = x) by congruence. subst. apply reader_party; auto.
        - exfalso. apply ref_HP_inv in HR. destruct HR as (E & ->). cbn [pcs] in E. apply put_inv in E.
          destruct E as [(_ & E & _)|(N & E)]; [discriminate|].
          assert (EQ : HP u = HV v) by (eapply ref_only; eauto using ref_var, ref_pc). discriminate. }
      split; auto. split; auto. split; [|apply known_now].
      eexists. split; [apply nth_snoc|]. cbn. rewrite Nat.eqb_refl. discriminate.
    + destruct (i_zero I _ Hi Ha h0 H1) as (p & i' & Q1 & Q2 & Q3 & Q4).
      destruct H2 as [_ H2]. destruct (H2 _ Q1) as (p' & Hp & Dm).
      exists p', i'. split; auto. split; auto. rewrite Ht. split; [apply stored_ext; auto|]. rewrite <- Ht. apply Dm; auto.
  - rewrite Ht in Hi. apply nth_snoc_inv in Hi. destruct Hi as [[-> ->]|[LT Hi]].
    + apply NOW; auto. cbn in Ha. subst a. cbn. rewrite Nat.eqb_refl. discriminate.
    + exfalso. destruct (F _ _ Hi) as [_ Q]. rewrite Ha in Q. cbn in Q. rewrite Nat.eqb_refl in Q. discriminate.
Qed.

Theorem inv_step s s' : inv s -> step s s' -> inv s'.
Proof.
  intros I S. constructor.
  - eapply own_pres; eauto.
  - eapply lend_pres; eauto.
  - eapply var_pres; eauto.
  - eapply pc_pres; eauto.
  - eapply blk_pres; eauto.
  - eapply fresh_pres; eauto.
  - eapply hist_pres; eauto.
  - eapply zero_pres; eauto.
Qed.

Theorem inv_start owners n : inv (start owners n).
Proof.
  assert (VV : forall v x, nth_error (vars (start (A:=A) owners n)) v = Some x -> v_val x = None /\ v_lent x = [] /\ exists t, v_own x = Own t).
  { intros v x H. apply nth_error_In in H. cbn in H. apply in_map_iff in H. destruct H as (t & <- & _). cbn. eauto. }
  assert (PV : forall t p, nth_error (pcs (start (A:=A) owners n)) t = Some p -> p = Idle).
  { intros t p H. apply nth_error_In in H. cbn in H. apply repeat_spec in H. auto. }
  constructor.
  - intros v x u i H1 H2. destruct (VV _ _ H1) as (_ & _ & t & Q). congruence.
  - intros v x l H1 H2. destruct (VV _ _ H1) as (_ & Q & _). rewrite Q in H2. destruct H2.
  - intros v x b o H1 H2. destruct (VV _ _ H1) as (Q & _). congruence.
  - intros t p H. rewrite (PV _ _ H). exact Logic.I.
  - intros b k H. destruct b; discriminate.
  - intros b _. split; [|split].
    + unfold refs. rewrite !sum_all0; auto.
      * intros p H. apply In_nth_error in H. destruct H as [t H]. rewrite (PV _ _ H). auto.
      * intros x H. apply In_nth_error in H. destruct H as [v H]. destruct (VV _ _ H) as (Q & _). unfold hv. rewrite Q. auto.
    + unfold nfree. apply sum_all0. intros p H. apply In_nth_error in H. destruct H as [t H]. rewrite (PV _ _ H). auto.
    + intros i e H. destruct i; discriminate.
  - intros b k H. destruct b; discriminate.
  - intros b i e v w H. destruct i; discriminate.
Qed.
End Step.
