(** Every step keeps the invariant of ArcThreadsInv.v, continued: operations under way,
    counters, values. *)
From Verif Require Import ArcThreads ArcThreadsBase ArcThreadsInv ArcThreadsStep.
From Coq Require Import List Arith ZArith Bool Lia.
Import ListNotations.
Set Implicit Arguments.
Open Scope nat_scope.

Section Step.
Context {A : Type} (acq : bool).
Notation st := (st A).
Notation trace := (trace A).
Notation pknows := (@pknows A acq).
Notation dom := (@dom A acq).
Notation PP := (@PP A acq).
Notation inv := (@inv A acq).
Notation step := (@step A acq).

Lemma log_inj (s : st) t a t' a' : log s t a = log s t' a' -> t = t' /\ a = a'.
Proof. unfold log. intros H. apply app_inj_tail in H. destruct H as [_ H]. injection H as -> ->. auto. Qed.

Lemma pc_pres s s' : inv s -> step s s' ->
  forall t p, nth_error (pcs s') t = Some p -> pc_ok s' t p.
Proof.
  intros I S. destruct (step_others I S) as (t & a & Ht & Hpc & Ho).
  assert (O : forall u p, u <> t -> nth_error (pcs s') u = Some p -> pc_ok s' u p).
  { intros u p N Hp. rewrite Hpc in Hp by auto. pose proof (i_pc I _ Hp) as Q.
    destruct p; cbn in *; auto.
    - destruct (Ho u _ N Hp) as [R1 R2]; [discriminate|].
      destruct Q as (D & x & y & o & Q1 & Q2 & Q3 & Q4 & Q5 & Q6). split; auto.
      destruct (R1 _ _ Q1 Q3) as (x' & X1 & X2 & X3). destruct (R2 _ _ Q2 Q4) as (y' & Y1 & Y2 & Y3).
      destruct X3 as [X3|X3]; rewrite Q5 in X3; cbn in X3;
      destruct Y3 as [Y3|Y3]; rewrite Q6 in Y3; cbn in Y3;
        do 3 eexists; split; eauto; split; eauto.
    - destruct (Ho u _ N Hp) as [R1 R2]; [discriminate|].
      destruct Q as (D & x & y & Q1 & Q2 & Q3 & Q4 & Q5 & Q6). split; auto.
      destruct (R1 _ _ Q1 Q3) as (x' & X1 & X2 & X3). destruct (R2 _ _ Q2 Q4) as (y' & Y1 & Y2 & Y3).
      destruct X3 as [X3|X3]; rewrite Q5 in X3; cbn in X3;
      destruct Y3 as [Y3|Y3]; rewrite Q6 in Y3; cbn in Y3;
        do 2 eexists; split; eauto; split; eauto. }
  intros u p Hp. destruct (Nat.eq_dec u t) as [->|N]; [|auto].
  clear Hpc Ho O.
  destruct S; cbn [tr pcs vars] in *; apply log_inj in Ht; destruct Ht as [<- <-];
    try (rewrite H in Hp; injection Hp as <-; exact Logic.I);
    try (rewrite (put_eq _ _ _ H) in Hp; injection Hp as <-; exact Logic.I).
  - rewrite (put_eq _ _ _ H) in Hp. injection Hp as <-. cbn. split; auto.
    exists x, y, o. auto 10.
  - rewrite (put_eq _ _ _ H) in Hp. injection Hp as <-.
    pose proof (i_pc I _ H) as (D & x0 & y & o & Q1 & Q2 & Q3 & Q4 & Q5 & Q6).
    assert (x0 = x) by congruence. subst x0.
    cbn. split; auto.
    exists (with_val x (option_map (fun p => (fst p, false)) (v_val x))), y.
    split; [apply (put_eq _ _ _ H0)|]. split; [rewrite put_ne; auto|]. cbn. rewrite Q5. cbn. auto 10.
  - rewrite (put_eq _ _ _ H) in Hp. injection Hp as <-. destruct (k_cnt k =? 0)%Z; exact Logic.I.
Qed.

(** ** Counting *)
Definition e1 (x y : nat) : nat := if x =? y then 1 else 0.
Definition inc (a : action A) (b : nat) : nat :=
  match a with
  | ANew _ b' _ | AIncr _ _ b' _ | AClone _ _ b' _ | AGrow _ _ b' _ => e1 b' b
  | _ => 0 end.
Definition dec (a : action A) (b : nat) : nat :=
  match a with ADecr b' _ | AGrow _ b' _ _ => e1 b' b | _ => 0 end.
Definition finc (a : action A) (b : nat) : nat :=
  match a with ADecr b' c => if Z.eqb c (-1) then e1 b' b else 0 | _ => 0 end.
Definition fdec (a : action A) (b : nat) : nat :=
  match a with AFree b' => e1 b' b | _ => 0 end.

Ltac sums b2 :=
  repeat match goal with
  | H : nth_error (vars ?s) ?v = Some ?x |- context [sumf (hv b2) (put (vars ?s) ?v ?y)] =>
      lazymatch goal with
      | _ : sumf (hv b2) (put (vars s) v y) + _ = _ |- _ => fail
      | _ => pose proof (sum_put (hv b2) (vars s) _ y H)
      end
  | H : nth_error (pcs ?s) ?v = Some ?x |- context [sumf (hp b2) (put (pcs ?s) ?v ?y)] =>
      lazymatch goal with
      | _ : sumf (hp b2) (put (pcs s) v y) + _ = _ |- _ => fail
      | _ => pose proof (sum_put (hp b2) (pcs s) _ y H)
      end
  | H : nth_error (pcs ?s) ?v = Some ?x |- context [sumf (hf b2) (put (pcs ?s) ?v ?y)] =>
      lazymatch goal with
      | _ : sumf (hf b2) (put (pcs s) v y) + _ = _ |- _ => fail
      | _ => pose proof (sum_put (hf b2) (pcs s) _ y H)
      end
  end.
Ltac vals :=
  repeat match goal with
  | H : context [hv ?b2 ?x], E : v_val ?x = Some _ |- _ => rewrite (hv_val x b2 E) in H
  | H : context [hv ?b2 ?x], E : v_val ?x = None |- _ => rewrite (hv_none x b2 E) in H
  | H : context [hv ?b2 (with_val ?x (Some (?b, ?o)))] |- _ =>
      rewrite (hv_val (with_val x (Some (b, o))) b2 eq_refl) in H
  | H : context [hv ?b2 (with_val ?x None)] |- _ =>
      rewrite (hv_none (with_val x None) b2 eq_refl) in H
  | H : context [hv ?b2 (with_lent ?x ?y)] |- _ => change (hv b2 (with_lent x y)) with (hv b2 x) in H
  | H : context [hv ?b2 (with_own ?x ?y)] |- _ => change (hv b2 (with_own x y)) with (hv b2 x) in H
  end; cbn [hp hf] in *.
Ltac counts b2 := unfold refs, nfree, inc, dec, finc, fdec, e1; cbn [vars pcs]; sums b2; vals.

Lemma step_counts s s' : inv s -> step s s' -> exists t a, tr s' = log s t a /\
  forall b, refs s' b + dec a b = refs s b + inc a b /\ nfree s' b + fdec a b = nfree s b + finc a b.
Proof.
  intros I S. destruct S; cbn [tr]; do 2 eexists; (split; [reflexivity|]); intros b2;
    try (counts b2; split; lia).
  - (* mark *)
    pose proof (i_pc I _ H) as (D & x0 & y & o & Q1 & Q2 & Q3 & Q4 & Q5 & Q6).
    assert (x0 = x) by congruence. subst x0. rewrite Q5. cbn [option_map fst]. counts b2. split; lia.
  - (* incr *)
    pose proof (i_pc I _ H) as (D & x & y0 & Q1 & Q2 & Q3 & Q4 & Q5 & Q6).
    assert (y0 = y) by congruence. subst y0. counts b2. split; lia.
  - (* move *)
    destruct p as [b o].
    assert (Hx' : nth_error (put (vars s) w (with_val y (Some (b, o)))) v = Some x) by (rewrite put_ne; auto).
    unfold refs, nfree; cbn [vars pcs inc dec finc fdec].
    pose proof (sum_put (hv b2) _ _ (with_val x None) Hx') as S1.
    pose proof (sum_put (hv b2) _ _ (with_val y (Some (b, o))) H1) as S2.
    rewrite (hv_none (with_val x None) b2 eq_refl), (hv_val x b2 H4) in S1.
    rewrite (hv_val (with_val y (Some (b, o))) b2 eq_refl), (hv_none y b2 H5) in S2.
    split; lia.
  - (* decr *)
    assert (E : (k_cnt k - 1 =? -1)%Z = (k_cnt k =? 0)%Z) by (destruct (Z.eqb_spec (k_cnt k) 0), (Z.eqb_spec (k_cnt k - 1) (-1)); auto; lia).
    cbn [finc fdec inc dec]. rewrite E. destruct (k_cnt k =? 0)%Z; counts b2; split; lia.
  - (* check *) destruct (c =? 0)%Z; counts b2; split; lia.
Qed.

(** ** Blocks *)
Lemma blk_pres s s' : inv s -> step s s' ->
  forall b k, nth_error (blks s') b = Some k ->
    if k_live k
    then k_cnt k = (Z.of_nat (refs s' b) - 1)%Z
         /\ Z.of_nat (nfree s' b) = (if Z.eqb (k_cnt k) (-1) then 1 else 0)%Z
    else refs s' b = 0 /\ nfree s' b = 0.
Proof.
  intros I S. destruct (step_counts I S) as (t & a & Ht & C).
  intros b2 k2 Hk2. specialize (C b2).
  assert (K : dec a b2 = 0 -> inc a b2 = 0 -> finc a b2 = 0 -> fdec a b2 = 0 ->
    nth_error (blks s) b2 = Some k2 -> if k_live k2
    then k_cnt k2 = (Z.of_nat (refs s' b2) - 1)%Z
         /\ Z.of_nat (nfree s' b2) = (if Z.eqb (k_cnt k2) (-1) then 1 else 0)%Z
    else refs s' b2 = 0 /\ nfree s' b2 = 0).
  { intros D1 D2 D3 D4 Hk. rewrite D1, D2, D3, D4 in C.
    assert (E1 : refs s' b2 = refs s b2) by lia. assert (E2 : nfree s' b2 = nfree s b2) by lia.
    rewrite E1, E2. apply (i_blk I); auto. }
  assert (NE : forall x y, x <> y -> e1 x y = 0) by (intros x y N; unfold e1; rewrite (proj2 (Nat.eqb_neq _ _) N); auto).
  assert (EQ : forall x, e1 x x = 1) by (intros; unfold e1; rewrite Nat.eqb_refl; auto).
  assert (F : refs s (fresh s) = 0 /\ nfree s (fresh s) = 0)
    by (destruct (i_fresh I (le_n _)) as (F1 & F2 & _); auto).
  set (R' := refs s' b2) in *. set (N' := nfree s' b2) in *. clearbody R' N'.
  destruct S; cbn [tr blks] in *; apply log_inj in Ht; destruct Ht as [<- <-];
    try (apply K; auto; fail); cbn [inc dec finc fdec] in *.
  - (* new *) apply nth_snoc_inv in Hk2. destruct Hk2 as [[-> ->]|[L Hk2]]; cbn [k_live k_cnt].
    + rewrite EQ in C. unfold fresh in *. split; [lia|]. change (0 =? -1)%Z with false. lia.
    + apply K; auto; apply NE; unfold fresh; lia.
  - (* incr *) apply put_inv in Hk2. destruct Hk2 as [(-> & -> & _)|(N & Hk2)].
    + pose proof (i_blk I _ H1) as B. cbn [k_live k_cnt].
      pose proof (i_pc I _ H) as (D & x & y0 & Q1 & Q2 & Q3 & Q4 & Q5 & Q6).
      destruct (ref_live (HV v) I (ref_var _ _ Q1 Q5)) as (k' & E' & L' & C' & F').
      assert (k' = k) by congruence. subst k'. rewrite L' in *. rewrite EQ in C.
      pose proof (refs_ge_var _ _ Q1 Q5).
      split; [lia|]. destruct (Z.eqb_spec (k_cnt k + 1) (-1)); lia.
    + apply K; auto.
  - (* decr *) apply put_inv in Hk2. destruct Hk2 as [(-> & -> & _)|(N & Hk2)].
    + destruct (ref_live (HP _) I (ref_pc _ _ H)) as (k' & E' & L' & C' & F').
      assert (k' = k) by congruence. subst k'. cbn [k_live k_cnt]. rewrite L'. rewrite EQ in C.
      pose proof (refs_ge_pc _ _ H).
      split; [lia|]. destruct (Z.eqb_spec (k_cnt k - 1) (-1)); lia.
    + apply K; auto. rewrite NE by auto. destruct (_ =? _)%Z; auto.
  - (* free *) apply put_inv in Hk2. destruct Hk2 as [(-> & -> & _)|(N & Hk2)].
    + cbn [k_live k_cnt]. rewrite EQ in C. pose proof (i_blk I _ H0) as B.
      pose proof (sum_ge (hf b) _ _ H) as G. cbn in G. rewrite Nat.eqb_refl in G.
      fold (nfree s b) in G. destruct (k_live k); [|lia]. destruct B as [B1 B2].
      destruct (Z.eqb_spec (k_cnt k) (-1)); lia.
    + apply K; auto.
  - (* write *) apply put_inv in Hk2. destruct Hk2 as [(-> & -> & _)|(N & Hk2)].
    + cbn [k_live k_cnt]. pose proof (i_blk I _ H3) as B.
      cbn in C. assert (E1 : R' = refs s b) by lia. assert (E2 : N' = nfree s b) by lia. rewrite E1, E2. auto.
    + apply K; auto.
  - (* clone *) apply nth_snoc_inv in Hk2. destruct Hk2 as [[-> ->]|[L Hk2]]; cbn [k_live k_cnt].
    + rewrite EQ in C. unfold fresh in *. split; [lia|]. change (0 =? -1)%Z with false. lia.
    + apply K; auto; apply NE; unfold fresh; lia.
  - (* grow *) apply nth_snoc_inv in Hk2. rewrite put_len in Hk2. destruct Hk2 as [[-> ->]|[L Hk2]].
    + cbn [k_live k_cnt]. unfold fresh in *. rewrite EQ in C.
      assert (b < length (blks s)) by (eapply nth_lt; eauto).
      rewrite NE in C by lia. split; [lia|]. change (0 =? -1)%Z with false. lia.
    + apply put_inv in Hk2. destruct Hk2 as [(-> & -> & _)|(N & Hk2)].
      * cbn [k_live k_cnt]. rewrite EQ in C. rewrite NE in C by (unfold fresh; lia).
        destruct (i_var I _ H0 H2) as (k' & E' & L' & V' & O').
        destruct (ref_live (HV v) I (ref_var _ _ H0 H2)) as (k'' & E'' & L'' & C'' & F'').
        assert (k' = k) by congruence. assert (k'' = k) by congruence. subst. specialize (O' eq_refl). lia.
      * apply K; auto; apply NE; unfold fresh; lia.
Qed.

Lemma fresh_pres s s' : inv s -> step s s' ->
  forall b, length (blks s') <= b -> refs s' b = 0 /\ nfree s' b = 0
    /\ forall i e, nth_error (tr s') i = Some e -> ~ touches (act e) b /\ stores (act e) b = None.
Proof.
  intros I S b2 Hb. destruct (step_counts I S) as (t & a & Ht & C). specialize (C b2).
  assert (L : length (blks s) <= b2 /\ inc a b2 = 0 /\ finc a b2 = 0 /\ ~ touches a b2 /\ stores a b2 = None).
  { assert (NE : forall x, x < b2 -> (x =? b2) = false) by (intros; apply Nat.eqb_neq; lia).
    assert (V : forall v x b o, nth_error (vars s) v = Some x -> v_val x = Some (b, o) -> b < length (blks s)).
    { intros v x b o H1 H2. destruct (i_var I _ H1 H2) as (k & E & _). eapply nth_lt; eauto. }
    assert (T : forall a : action A, (forall b k, In (LData b, k) (acc a) \/ In (LCount b, k) (acc a) -> b < b2) -> ~ touches a b2).
    { intros a0 Q (k & H). specialize (Q _ _ H). lia. }
    destruct S; cbn [tr blks] in *; apply log_inj in Ht; destruct Ht as [<- <-];
      rewrite ?app_length, ?put_len in Hb; cbn [length] in Hb;
      repeat match goal with
      | H : nth_error (vars s) ?v = Some ?x, E : v_val ?x = Some (?b, _) |- _ =>
          lazymatch goal with _ : b < length (blks s) |- _ => fail | _ => pose proof (V _ _ _ _ H E) end
      | H : nth_error (blks s) ?b = Some _ |- _ =>
          lazymatch goal with _ : b < length (blks s) |- _ => fail | _ => pose proof (nth_lt _ _ H) end
      end;
      (split; [lia|]); unfold inc, finc, stores, e1; rewrite ?NE by (unfold fresh; lia);
      (split; [reflexivity|]); (split; [first [reflexivity|match goal with |- context [if ?c then _ else _] => destruct c; reflexivity end]|]); (split; [|reflexivity]);
      apply T; cbn [acc]; intros b' k' Hin; cbn in Hin; unfold fresh in *;
      repeat match goal with
      | H : _ \/ _ |- _ => destruct H
      | H : (_, _) = (_, _) |- _ => first [discriminate H | injection H; intros; subst; clear H]
      | H : False |- _ => destruct H
      end; try lia. }
  destruct L as (L & Z1 & Z2 & Z3 & Z4). destruct (i_fresh I L) as (F1 & F2 & F3).
  rewrite Z1, Z2 in C.
  split; [lia|]. split; [lia|].
  intros i e Hi. rewrite Ht in Hi. apply nth_snoc_inv in Hi. destruct Hi as [[-> ->]|[_ Hi]]; auto. apply (F3 _ _ Hi).
Qed.
End Step.
