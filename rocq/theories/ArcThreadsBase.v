(** Lists with one place changed, sums, happens-before under one more action, and who
    knows what: groundwork for ArcThreadsInv.v. *)
From Verif Require Import ArcThreads.
From Coq Require Import List Arith ZArith Bool Lia Relations.Relation_Operators.
Import ListNotations.
Set Implicit Arguments.
Open Scope nat_scope.

Lemma put_len {X} (l : list X) i x : length (put l i x) = length l.
Proof. revert i; induction l; destruct i; cbn; auto. Qed.
Lemma put_eq {X} (l : list X) i x y : nth_error l i = Some y -> nth_error (put l i x) i = Some x.
Proof. revert i; induction l; destruct i; cbn; intros; try discriminate; auto. Qed.
Lemma put_ne {X} (l : list X) i j x : j <> i -> nth_error (put l i x) j = nth_error l j.
Proof. revert i j; induction l; destruct i, j; cbn; intros; auto; try congruence. Qed.
Lemma put_inv {X} (l : list X) i j x z : nth_error (put l i x) j = Some z ->
  (j = i /\ z = x /\ exists y, nth_error l i = Some y) \/ (j <> i /\ nth_error l j = Some z).
Proof.
  intros H. destruct (Nat.eq_dec j i) as [->|D].
  - left. destruct (nth_error l i) as [y|] eqn:E.
    + rewrite (put_eq _ _ x E) in H. injection H as <-. eauto.
    + exfalso. apply nth_error_None in E. assert (L : i < length (put l i x)) by (apply nth_error_Some; congruence).
      rewrite put_len in L. lia.
  - right. rewrite put_ne in H by auto. auto.
Qed.

Fixpoint sumf {X} (f : X -> nat) (l : list X) : nat :=
  match l with [] => 0 | x :: r => f x + sumf f r end.
Lemma sum_put {X} (f : X -> nat) l i x y : nth_error l i = Some x ->
  sumf f (put l i y) + f x = sumf f l + f y.
Proof. revert i; induction l; destruct i; cbn; intros H; try discriminate; [injection H as <-; lia|]. specialize (IHl _ H). lia. Qed.
Lemma sum_ge {X} (f : X -> nat) l i x : nth_error l i = Some x -> f x <= sumf f l.
Proof. revert i; induction l; destruct i; cbn; intros H; try discriminate; [injection H as <-; lia|]. specialize (IHl _ H). lia. Qed.
Lemma sum_ge2 {X} (f : X -> nat) l i j x y : i <> j -> nth_error l i = Some x -> nth_error l j = Some y ->
  f x + f y <= sumf f l.
Proof.
  revert i j; induction l as [|a l IH]; destruct i, j; cbn; intros N H1 H2; try discriminate; try congruence.
  - injection H1 as <-. pose proof (sum_ge f _ _ H2). lia.
  - injection H2 as <-. pose proof (sum_ge f _ _ H1). lia.
  - assert (N' : i <> j) by (intros ->; auto). specialize (IH _ _ N' H1 H2). lia.
Qed.
Lemma sum_pos {X} (f : X -> nat) l : 0 < sumf f l -> exists i x, nth_error l i = Some x /\ 0 < f x.
Proof.
  induction l as [|a l IH]; cbn; [lia|]. intros H.
  destruct (f a) eqn:E.
  - destruct IH as (i & x & P & Q); [lia|]. exists (S i), x. auto.
  - exists 0, a. cbn. split; [auto|lia].
Qed.
Lemma sum_zero {X} (f : X -> nat) l i x : sumf f l = 0 -> nth_error l i = Some x -> f x = 0.
Proof. intros H E. pose proof (sum_ge f _ _ E). lia. Qed.
Lemma sum_all0 {X} (f : X -> nat) l : (forall x, In x l -> f x = 0) -> sumf f l = 0.
Proof. induction l; cbn; auto. intros H. rewrite IHl by auto. rewrite H by auto. auto. Qed.

Section HB.
Context {A : Type} (acq : bool).
Notation trace := (trace A).

Lemma nth_app {X} (l r : list X) i x : nth_error l i = Some x -> nth_error (l ++ r) i = Some x.
Proof. intros H. rewrite nth_error_app1; auto. apply nth_error_Some. congruence. Qed.
Lemma nth_snoc {X} (l : list X) x : nth_error (l ++ [x]) (length l) = Some x.
Proof. rewrite nth_error_app2, Nat.sub_diag; auto. Qed.
Lemma nth_snoc_inv {X} (l : list X) x i y : nth_error (l ++ [x]) i = Some y ->
  (i = length l /\ y = x) \/ (i < length l /\ nth_error l i = Some y).
Proof.
  intros H. destruct (Nat.lt_trichotomy i (length l)) as [L|[->|G]].
  - right. rewrite nth_error_app1 in H by auto. auto.
  - left. rewrite nth_snoc in H. injection H as <-. auto.
  - exfalso. assert (i < length (l ++ [x])) by (apply nth_error_Some; congruence). rewrite app_length in H0. cbn in H0. lia.
Qed.
Lemma nth_lt {X} (l : list X) i x : nth_error l i = Some x -> i < length l.
Proof. intros H. apply nth_error_Some. congruence. Qed.

Lemma edge_ext (tr r : trace) i j : edge acq tr i j -> edge acq (tr ++ r) i j.
Proof.
  intros (e1 & e2 & H1 & H2 & H3 & H4). exists e1, e2.
  split; [apply nth_app; auto|]. split; [apply nth_app; auto|]. auto.
Qed.
Lemma hb_ext (tr r : trace) i j : hb acq tr i j -> hb acq (tr ++ r) i j.
Proof. induction 1; [apply t_step, edge_ext; auto|eapply t_trans; eauto]. Qed.
Lemma known_ext (tr r : trace) t i : known acq tr t i -> known acq (tr ++ r) t i.
Proof.
  intros (j & e & H1 & H2 & H3). exists j, e. split; [apply nth_app; auto|]. split; [auto|].
  destruct H3; auto. right. apply hb_ext; auto.
Qed.
Lemma hb_lt (tr : trace) i j : hb acq tr i j -> i < j /\ j < length tr.
Proof.
  induction 1 as [i j (e1 & e2 & H1 & H2 & H3 & H4)|i j k H1 IH1 H2 IH2].
  - split; auto. eapply nth_lt; eauto.
  - lia.
Qed.
Lemma known_lt (tr : trace) t i : known acq tr t i -> i < length tr.
Proof. intros (j & e & H1 & H2 & [->|H3]); [eapply nth_lt; eauto|]. apply hb_lt in H3. lia. Qed.

Section Snoc.
Variables (tr : trace) (t : nat) (a : action A).
Let tr' : trace := tr ++ [{| who := t; act := a |}].

Lemma known_now : known acq tr' t (length tr).
Proof. exists (length tr), {| who := t; act := a |}. split; [apply nth_snoc|]. auto. Qed.
Lemma hb_now i : known acq tr t i -> hb acq tr' i (length tr).
Proof.
  intros (j & e & H1 & H2 & H3).
  assert (E : edge acq tr' j (length tr)).
  { exists e, {| who := t; act := a |}. split; [apply nth_app; auto|]. split; [apply nth_snoc|].
    split; [eapply nth_lt; eauto|]. left. auto. }
  destruct H3 as [->|H3]; [apply t_step; auto|]. eapply t_trans; [apply hb_ext; eauto|apply t_step; auto].
Qed.
Lemma known_hb i : hb acq tr' i (length tr) -> known acq tr' t i.
Proof. intros H. exists (length tr), {| who := t; act := a |}. split; [apply nth_snoc|]. auto. Qed.
Lemma hb_sync i j e : nth_error tr j = Some e -> syncs acq j e {| who := t; act := a |} ->
  i = j \/ hb acq tr i j -> hb acq tr' i (length tr).
Proof.
  intros H1 H2 H3.
  assert (E : edge acq tr' j (length tr)).
  { exists e, {| who := t; act := a |}. split; [apply nth_app; auto|]. split; [apply nth_snoc|].
    split; [eapply nth_lt; eauto|]. right. auto. }
  destruct H3 as [->|H3]; [apply t_step; auto|]. eapply t_trans; [apply hb_ext; eauto|apply t_step; auto].
Qed.
End Snoc.

(** Those with a say on a vec object: its owner (or the action that sent it) and whoever
    it is lent to (or the actions that lent or returned it). *)
Inductive party := PT (t : nat) | PE (s : nat).
Definition pknows (tr : trace) (p : party) (i : nat) : Prop :=
  match p with PT t => known acq tr t i | PE s => i = s \/ hb acq tr i s end.
Definition own_party (o : own) := match o with Own t => PT t | Transit _ s => PE s end.
Definition lend_party (l : lend) :=
  match l with Offered _ s => PE s | Held u => PT u | Returned _ s => PE s end.
Definition parties (x : var) : list party := own_party (v_own x) :: map lend_party (v_lent x).

Definition dom (tr tr' : trace) (p p' : party) : Prop := forall i, pknows tr p i -> pknows tr' p' i.
Lemma dom_refl tr r p : dom tr (tr ++ r) p p.
Proof. intros i. destruct p; cbn; [apply known_ext|]. intros [->|H]; auto. right. apply hb_ext; auto. Qed.
Lemma dom_out tr t a : dom tr (tr ++ [{| who := t; act := a |}]) (PT t) (PE (length tr)).
Proof. intros i H. cbn. right. apply hb_now. exact H. Qed.
Lemma dom_in tr t a j e : nth_error tr j = Some e -> syncs acq j e {| who := t; act := a |} ->
  dom tr (tr ++ [{| who := t; act := a |}]) (PE j) (PT t).
Proof. intros H1 H2 i H. cbn in *. apply known_hb. eapply hb_sync; eauto. Qed.

Definition PP (tr tr' : trace) (P P' : list party) : Prop :=
  (forall p', In p' P' -> exists p, In p P /\ dom tr tr' p p')
  /\ (forall p, In p P -> exists p', In p' P' /\ dom tr tr' p p').
Lemma PP_refl tr r P : PP tr (tr ++ r) P P.
Proof. split; intros p H; exists p; split; auto using dom_refl. Qed.
End HB.

Lemma sole_parties t x : sole t x -> parties x = [PT t].
Proof. intros [H1 H2]. unfold parties. rewrite H1, H2. auto. Qed.
Lemma reader_party t x : reader t x -> In (PT t) (parties x).
Proof.
  unfold parties. intros [H|H]; [left; rewrite H; auto|]. right. apply in_map_iff. exists (Held t). auto.
Qed.
Lemma parties_val x p : parties (with_val x p) = parties x.
Proof. auto. Qed.
