(** The invariant of threads that share vec blocks, second part: who knows of which
    accesses; hence which accesses are ordered. *)
From Verif Require Import ArcThreads ArcThreadsBase ArcThreadsInv ArcThreadsStep ArcThreadsStep2 ArcThreadsStep3.
From Coq Require Import List Arith ZArith Bool Lia.
Import ListNotations.
Set Implicit Arguments.
Open Scope nat_scope.

Section Race.
Context {A : Type} (acq : bool).
Notation st := (st A).
Notation trace := (trace A).
Notation pknows := (@pknows A acq).
Notation dom := (@dom A acq).
Notation PP := (@PP A acq).
Notation inv := (@inv A acq).
Notation step := (@step A acq).
Notation hb := (@hb A acq).

Definition writes (a : action A) (b : nat) : Prop := In (LData b, Wr) (acc a) \/ In (LCount b, Wr) (acc a).
Definition ismark (a : action A) (v : nat) : Prop := exists b, a = AMark v b.
(** Released before: a decrement of the counter of [b] comes after [i]. *)
Definition released (tr : trace) (i b : nat) : Prop :=
  exists j e c, nth_error tr j = Some e /\ act e = ADecr b c /\ (i = j \/ hb tr i j).

Definition excused (tr : trace) (i : nat) (a1 a2 : action A) (l : loc) : Prop :=
  match l with
  | LWord v => ismark a1 v \/ ismark a2 v
  | LData b | LCount b => acq = false
      /\ ((exists v f, a2 = AWrite v b f) \/ (exists v b' f, a2 = AGrow v b b' f)) /\ released tr i b
  end.

Record inv2 (s : st) : Prop := {
  i_W : forall i e b, nth_error (tr s) i = Some e -> writes (act e) b ->
    forall h P p, ref s h = Some (b, P) -> In p P -> pknows (tr s) p i;
  i_R : forall i e b k, nth_error (tr s) i = Some e -> touches (act e) b ->
    nth_error (blks s) b = Some k -> k_live k = true ->
    (exists h P p, ref s h = Some (b, P) /\ In p P /\ pknows (tr s) p i) \/ released (tr s) i b;
  i_F : forall t b, nth_error (pcs s) t = Some (Freeing b) ->
    forall i e, nth_error (tr s) i = Some e -> touches (act e) b -> known acq (tr s) t i;
  i_O : acq = true -> forall v x b, nth_error (vars s) v = Some x -> v_val x = Some (b, true) ->
    forall i e, nth_error (tr s) i = Some e -> touches (act e) b ->
      exists p, In p (parties x) /\ pknows (tr s) p i;
  i_dead : forall i j e1 e2 b, i < j -> nth_error (tr s) i = Some e1 -> frees (act e1) b ->
    nth_error (tr s) j = Some e2 -> ~ touches (act e2) b;
  i_gone : forall i e b, nth_error (tr s) i = Some e -> frees (act e) b ->
    exists k, nth_error (blks s) b = Some k /\ k_live k = false;
  i_word : forall v x i e k, nth_error (vars s) v = Some x -> nth_error (tr s) i = Some e ->
    In (LWord v, k) (acc (act e)) -> exists p, In p (parties x) /\ pknows (tr s) p i;
  i_wordw : forall v x i e, nth_error (vars s) v = Some x -> nth_error (tr s) i = Some e ->
    In (LWord v, Wr) (acc (act e)) -> ~ ismark (act e) v ->
    forall p, In p (parties x) -> pknows (tr s) p i;
  i_race : forall i j e1 e2 l, i < j -> nth_error (tr s) i = Some e1 -> nth_error (tr s) j = Some e2 ->
    conflict (act e1) (act e2) l -> hb (tr s) i j \/ excused (tr s) i (act e1) (act e2) l;
  i_reads : forall i e v b x, nth_error (tr s) i = Some e -> act e = ARead v b x ->
    values (firstn i (tr s)) v = Some x
}.

Ltac acc_inv :=
  repeat match goal with
  | H : In _ (_ :: _) |- _ => destruct H as [H|H]
  | H : In _ [] |- _ => destruct H
  | H : (_, _) = (_, _) |- _ => first [discriminate H | injection H; intros; subst; clear H]
  end.

(** The part of a block a step touches, and by what right. *)
Lemma touch_kind s s' t a : inv s -> step s s' -> tr s' = log s t a ->
  forall b k, In (LData b, k) (acc a) \/ In (LCount b, k) (acc a) ->
  b = fresh s
  \/ (a = AFree b /\ nth_error (pcs s) t = Some (Freeing b))
  \/ (((exists v f, a = AWrite v b f) \/ (exists v b' f, a = AGrow v b b' f))
      /\ exists v x, nth_error (vars s) v = Some x /\ sole t x /\ v_val x = Some (b, true))
  \/ (k <> Wr /\ exists h P, ref s h = Some (b, P) /\ In (PT t) P).
Proof.
  intros I S Ht b0 k0 Hin.
  assert (RV : forall v x b o, nth_error (vars s) v = Some x -> reader t x -> v_val x = Some (b, o) ->
    exists h P, ref s h = Some (b, P) /\ In (PT t) P).
  { intros v x b o H1 H2 H3. exists (HV v), (parties x). split; [eapply ref_var; eauto|apply reader_party; auto]. }
  assert (SV : forall x, sole t x -> reader t x) by (intros x [Q _]; left; auto).
  destruct S; cbn [tr] in Ht; apply log_inj in Ht; destruct Ht as [-> <-]; cbn [acc] in Hin;
    destruct Hin as [Hin|Hin]; acc_inv; auto;
    try (right; right; right; split; [discriminate|eauto]; fail);
    try (right; right; left; split; [left; eauto|eauto]; fail);
    try (right; right; left; split; [right; eauto|eauto]; fail).
  - pose proof (i_pc I _ H) as (D & x & y0 & Q1 & Q2 & Q3 & Q4 & Q5 & Q6).
    right; right; right; split; [discriminate|eauto].
  - right; right; right; split; [discriminate|]. exists (HP t), [PT t]. split; [apply ref_pc; auto|left; auto].
Qed.

Lemma touch_post s s' t a : inv s -> step s s' -> tr s' = log s t a ->
  forall b k, touches a b -> nth_error (blks s') b = Some k -> k_live k = true ->
  (exists h P, ref s' h = Some (b, P) /\ In (PT t) P) \/ (exists c, a = ADecr b c).
Proof.
  intros I S Ht b0 k0 (kk & Hin) Hk HL.
  assert (RV : forall v x b o, nth_error (vars s') v = Some x -> reader t x -> v_val x = Some (b, o) ->
    exists h P, ref s' h = Some (b, P) /\ In (PT t) P).
  { intros v x b o H1 H2 H3. exists (HV v), (parties x). split; [eapply ref_var; eauto|apply reader_party; auto]. }
  assert (SV : forall x p, sole t x -> reader t (with_val x p)) by (intros x p [Q _]; left; auto).
  assert (SV' : forall x, sole t x -> reader t x) by (intros x [Q _]; left; auto).
  destruct S; cbn [tr] in Ht; apply log_inj in Ht; destruct Ht as [-> <-]; cbn [acc] in Hin;
    cbn [vars blks] in *;
    destruct Hin as [Hin|Hin]; acc_inv; eauto;
    try (left; eapply RV; [eapply put_eq; eauto|eauto|reflexivity]; fail).
  - pose proof (i_pc I _ H) as (D & x & y0 & Q1 & Q2 & Q3 & Q4 & Q5 & Q6).
    assert (y0 = y) by congruence. subst y0.
    left. eapply RV; [eapply put_eq; eauto|eauto|reflexivity].
  - rewrite (put_eq _ _ _ H0) in Hk. injection Hk as <-. discriminate.
  - rewrite (put_eq _ _ _ H0) in Hk. injection Hk as <-. discriminate.
  - left. destruct (c =? 0)%Z; [eapply RV; [eapply put_eq; eauto|eauto|reflexivity]|eauto].
  - left. exists (HP t), [PT t]. split; [apply ref_pc; cbn; eapply put_eq; eauto|left; auto].
  - exfalso. pose proof (nth_lt _ _ H3) as LT.
    rewrite nth_error_app1 in Hk by (rewrite put_len; auto). rewrite (put_eq _ _ _ H3) in Hk. injection Hk as <-. discriminate.
  - exfalso. pose proof (nth_lt _ _ H3) as LT.
    rewrite nth_error_app1 in Hk by (rewrite put_len; auto). rewrite (put_eq _ _ _ H3) in Hk. injection Hk as <-. discriminate.
Qed.

(** Likewise for the words of a vec object. *)
Lemma word_pre s s' t a : inv s -> step s s' -> tr s' = log s t a ->
  forall v x k, In (LWord v, k) (acc a) -> nth_error (vars s) v = Some x ->
  k <> At /\ In (PT t) (parties x) /\ (k = Wr -> ~ ismark a v -> parties x = [PT t]).
Proof.
  intros I S Ht v0 x0 k0 Hin Hx.
  assert (SV : forall x p k, sole t x -> k <> At -> k <> At /\ In (PT t) (parties x) /\ (k = Wr -> p -> parties x = [PT t])).
  { intros x p k Q N. split; auto. rewrite (sole_parties Q). cbn. auto. }
  assert (RV : forall x p, reader t x -> Rd <> At /\ In (PT t) (parties x) /\ (Rd = Wr -> p -> parties x = [PT t])).
  { intros x p Q. split; [discriminate|]. split; [apply reader_party; auto|discriminate]. }
  destruct S; cbn [tr] in Ht; apply log_inj in Ht; destruct Ht as [-> <-]; cbn [acc] in Hin; acc_inv;
    repeat match goal with H1 : nth_error (vars s) ?v = Some ?x, H2 : nth_error (vars s) ?v = Some ?y |- _ =>
      first [constr_eq x y; clear H2 | assert (y = x) by congruence; subst y] end;
    try (apply SV; [assumption|discriminate]; fail); try (apply RV; assumption).
  - pose proof (i_pc I _ H) as (D & x1 & y0 & o & Q1 & Q2 & Q3 & Q4 & Q5 & Q6).
    assert (x1 = x) by congruence. subst x1.
    split; [discriminate|]. split; [apply reader_party; auto|]. intros _ N. exfalso. apply N. exists b. auto.
  - pose proof (i_pc I _ H) as (D & x & y0 & Q1 & Q2 & Q3 & Q4 & Q5 & Q6).
    assert (y0 = y) by congruence. subst y0. apply SV; [auto|discriminate].
  - apply SV; [assumption|]. destruct (c =? 0)%Z; discriminate.
Qed.

Lemma word_post s s' t a : inv s -> step s s' -> tr s' = log s t a ->
  forall v x k, In (LWord v, k) (acc a) -> nth_error (vars s') v = Some x ->
  In (PT t) (parties x) /\ (k = Wr -> ~ ismark a v -> parties x = [PT t]).
Proof.
  intros I S Ht v x' k Hin Hx'.
  assert (E : exists x, nth_error (vars s) v = Some x /\ parties x' = parties x).
  { destruct S; cbn [tr] in Ht; apply log_inj in Ht; destruct Ht as [-> <-]; cbn [acc] in Hin; try (destruct Hin; fail);
      cbn [vars] in Hx'; try (eauto; fail); try (pinv Hx'; eauto; fail).
    - pinv Hx'; eauto. pinv Hx'; eauto.
    - destruct (c =? 0)%Z; [pinv Hx'; eauto|eauto]. }
  destruct E as (x & Hx & ->). destruct (word_pre _ _ I S Ht _ _ Hin Hx) as (_ & Q1 & Q2). auto.
Qed.

Lemma dead_stays s s' b k : step s s' -> nth_error (blks s) b = Some k -> k_live k = false ->
  exists k', nth_error (blks s') b = Some k' /\ k_live k' = false.
Proof.
  intros S Hk HL. assert (LT : b < length (blks s)) by (eapply nth_lt; eauto).
  assert (PT : forall b0 k0 k1, nth_error (blks s) b0 = Some k0 -> (k_live k0 = false -> k_live k1 = false) ->
    exists k', nth_error (put (blks s) b0 k1) b = Some k' /\ k_live k' = false).
  { intros b0 k0 k1 H1 H2. destruct (Nat.eq_dec b b0) as [->|N].
    - exists k1. rewrite (put_eq _ _ _ H1). split; auto. apply H2. congruence.
    - exists k. rewrite put_ne; auto. }
  destruct S; cbn [blks]; eauto;
    try (exists k; split; [apply nth_app; auto|auto]; fail).
  destruct (PT b0 k0 {| k_live := false; k_cnt := k_cnt k0; k_val := k_val k0 |} H3) as (k' & E & L); auto.
  exists k'. split; auto. apply nth_app; auto.
Qed.

Lemma live_before s s' b k' : inv s -> step s s' -> b < length (blks s) ->
  nth_error (blks s') b = Some k' -> k_live k' = true ->
  exists k, nth_error (blks s) b = Some k /\ k_live k = true.
Proof.
  intros I S LT Hk HL. destruct (nth_error (blks s) b) as [k|] eqn:E.
  - exists k. split; auto. destruct (k_live k) eqn:L; auto.
    destruct (dead_stays _ S E L) as (k2 & E2 & L2). congruence.
  - apply nth_error_None in E. lia.
Qed.

(** Which vecs believe, after a step, that they are not shared. *)
Lemma own_origin s s' t a : inv s -> step s s' -> tr s' = log s t a ->
  forall v x' b, nth_error (vars s') v = Some x' -> v_val x' = Some (b, true) ->
  (exists v0 x0, nth_error (vars s) v0 = Some x0 /\ v_val x0 = Some (b, true)
     /\ forall p, In p (parties x0) -> exists p', In p' (parties x') /\ dom (tr s) (tr s') p p')
  \/ (b = fresh s /\ parties x' = [PT t])
  \/ (exists r, a = ACheck v b r true /\ parties x' = [PT t]
      /\ (exists o x, nth_error (vars s) v = Some x /\ v_val x = Some (b, o) /\ parties x = [PT t])
      /\ (exists k, nth_error (blks s) b = Some k /\ k_cnt k = 0%Z)
      /\ forall r', r < r' -> ~ stored (tr s) r' b).
Proof.
  intros I S Ht v2 x2 b2 Hx Hv. pose proof (step_parties I S) as SP.
  assert (K : forall x, nth_error (vars s) v2 = Some x -> v_val x = v_val x2 ->
    (exists v0 x0, nth_error (vars s) v0 = Some x0 /\ v_val x0 = Some (b2, true)
     /\ forall p, In p (parties x0) -> exists p', In p' (parties x2) /\ dom (tr s) (tr s') p p')).
  { intros x H1 H2. exists v2, x. split; auto. split; [congruence|].
    destruct (SP _ _ Hx) as (x0 & E & Q). assert (x0 = x) by congruence. subst. apply Q. }
  destruct S; cbn [tr vars] in *; apply log_inj in Ht; destruct Ht as [-> <-]; pose proof Hx as Hx0;
    try (left; apply (K x2); auto; fail);
    try (pinv Hx; [left; apply (K x); auto|left; apply (K x2); auto]; fail).
  - pinv Hx; [|left; apply (K x2); auto]. right. left. cbn in Hv. injection Hv as <-. rewrite parties_val. split; auto. apply sole_parties; auto.
  - pinv Hx; [|left; apply (K x2); auto]. cbn in Hv. destruct (v_val x) as [[]|]; discriminate.
  - pinv Hx; [|left; apply (K x2); auto]. discriminate.
  - pinv Hx; [discriminate|]. pinv Hx; [|left; apply (K x2); auto].
    left. exists v, x. cbn in Hv. injection Hv as ->. split; auto. split; auto.
    rewrite parties_val, (sole_parties H2), (sole_parties H3). intros p [<-|[]]. exists (PT t). split; [left; auto|apply dom_refl].
  - pinv Hx; [discriminate|]. left; apply (K x2); auto.
  - destruct (Z.eqb_spec c 0) as [->|N]; [|left; apply (K x2); auto]. pinv Hx; [|left; apply (K x2); auto].
    right. right. cbn in Hv. injection Hv as ->. destruct (check_last _ I H0 H1 H2 H3 H4 H5) as (k & E & C & L).
    exists r. split; auto. rewrite parties_val, (sole_parties H1). split; auto. split; [|eauto].
    exists o, x. rewrite (sole_parties H1). auto.
  - pinv Hx; [|left; apply (K x2); auto]. right. left. cbn in Hv. injection Hv as <-. rewrite parties_val. split; auto. apply sole_parties; auto.
  - pinv Hx; [|left; apply (K x2); auto]. right. left. cbn in Hv. injection Hv as <-. rewrite parties_val. split; auto. apply sole_parties; auto.
Qed.

Lemma fresh_untouched s i e : inv s -> nth_error (tr s) i = Some e -> ~ touches (act e) (fresh s).
Proof. intros I H. destruct (i_fresh I (le_n (length (blks s)))) as (_ & _ & F). apply (F _ _ H). Qed.
Lemma touched_lt s i e b : inv s -> nth_error (tr s) i = Some e -> touches (act e) b -> b < length (blks s).
Proof.
  intros I H T. destruct (Nat.lt_ge_cases b (length (blks s))) as [|G]; auto. exfalso.
  destruct (i_fresh I G) as (_ & _ & F). destruct (F _ _ H). auto.
Qed.
Lemma fresh_noref s h P : inv s -> ref s h = Some (fresh s, P) -> False.
Proof.
  intros I H. apply ref_ge in H. destruct (i_fresh I (le_n (length (blks s)))) as (F & _). unfold fresh in H. lia.
Qed.
Lemma dead_noref s h b P k : inv s -> ref s h = Some (b, P) -> nth_error (blks s) b = Some k -> k_live k = true.
Proof. intros I H E. destruct (ref_live h I H) as (k' & E' & L & _). congruence. Qed.
Lemma freeing_live s t b : inv s -> nth_error (pcs s) t = Some (Freeing b) ->
  (exists k, nth_error (blks s) b = Some k /\ k_live k = true) /\ refs s b = 0.
Proof.
  intros I H. pose proof (sum_ge (hf b) _ _ H) as G. cbn in G. rewrite Nat.eqb_refl in G. fold (nfree s b) in G.
  destruct (nth_error (blks s) b) as [k|] eqn:E.
  - pose proof (i_blk I b E) as B. destruct (k_live k) eqn:L; [|lia]. destruct B as [B1 B2].
    split; [eauto|]. destruct (Z.eqb_spec (k_cnt k) (-1)); lia.
  - apply nth_error_None in E. destruct (i_fresh I E) as (_ & F & _). lia.
Qed.
Lemma touches_writes (a : action A) b : writes a b -> touches a b.
Proof. intros [H|H]; exists Wr; auto. Qed.
Lemma frees_touches (a : action A) b : frees a b -> touches a b.
Proof. destruct a; cbn; try tauto; intros ->; exists Wr; left; cbn; auto. Qed.
End Race.
