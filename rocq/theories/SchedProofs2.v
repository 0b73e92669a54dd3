(** More proofs about SchedModel: nothing gets stuck, everything ends. *)
From Coq Require Import Wf_nat.
From Verif Require Import SchedModel SchedProofs.
Local Arguments slot : simpl never.

Section Progress.
Context (addr : nat -> nat) (nm : nat).
Definition can_move (s : sched) : Prop := exists t s', step addr s t s'.
Ltac mv := eexists; eexists; econstructor; eauto; fail.

Lemma holder_moves s k u : Inv addr nm s -> mutex s k = Some u -> can_move s.
Proof.
  intros I h. destruct (iI _ _ _ I _ _ h) as (f & r & q1 & q2).
  destruct f as [| |j []|j []|nb []]; cbn in q2; try discriminate.
  - eexists; eexists; eapply dec_unlock; eauto.
  - assert (l : jobs s j <> None) by (eapply (frame_live addr nm); eauto; cbn; auto).
    destruct (jobs s j) as [[|p]|] eqn:e; [| |congruence].
    + eexists; eexists; eapply wait_recheck_done; eauto.
    + eexists; eexists; eapply wait_recheck_more; eauto.
  - eexists; eexists; eapply wait_sleep; eauto.
  - eexists; eexists; eapply wait_unlock; eauto.
  - eexists; eexists; eapply wait_ret; eauto.
  - eexists; eexists; eapply worker_sleep; eauto.
  - eexists; eexists; eapply worker_unlock; eauto.
Qed.

Lemma top_moves s t f fs : Inv addr nm s -> nth_error (threads s) t = Some (f :: fs) ->
  can_move s \/ (exists j, f = FWait j WSleep) \/ (exists nb, f = FWorker nb KSleep).
Proof.
  intros I h.
  destruct f as [o n [|[[|o1 others] b] rest]|j n b|j []|j []|nb []].
  - left. destruct o as [j|]; eexists; eexists; [eapply end_batch|eapply end_main]; eauto.
  - left. eexists; eexists; eapply call_one; eauto.
  - left. eexists; eexists; eapply call_many; eauto. discriminate.
  - left. eexists; eexists; eapply start_last; eauto. constructor.
  - left. pose proof (iC _ _ _ I j) as c. pose proof (cnt_ge (mP j) _ _ _ _ h (or_introl eq_refl)) as g. cbn [mP] in g. rewrite eqn_same in g.
    unfold pend in c. destruct (jobs s j) as [[|[|p]]|] eqn:e; try lia.
    + eexists; eexists; eapply dec_last; eauto.
    + eexists; eexists; eapply dec_more; eauto.
  - left. destruct (mutex s (slot addr j)) as [u|] eqn:e; [eapply holder_moves; eauto|]. eexists; eexists; eapply dec_lock; eauto.
  - left. eexists; eexists; eapply dec_unlock; eauto.
  - left. eexists; eexists; eapply dec_notify; eauto.
  - left. assert (l : jobs s j <> None) by (eapply (frame_live addr nm); eauto; cbn; auto).
    destruct (jobs s j) as [[|p]|] eqn:e; [| |congruence].
    + eexists; eexists; eapply wait_done; eauto.
    + eexists; eexists; eapply wait_more; eauto.
  - left. destruct (tasks s) eqn:e; [|destruct t0]; eexists; eexists; [eapply wait_idle|eapply wait_work]; eauto.
  - left. destruct (mutex s (slot addr j)) as [u|] eqn:e; [eapply holder_moves; eauto|]. eexists; eexists; eapply wait_lock; eauto.
  - left. assert (l : jobs s j <> None) by (eapply (frame_live addr nm); eauto; cbn; auto).
    destruct (jobs s j) as [[|p]|] eqn:e; [| |congruence].
    + eexists; eexists; eapply wait_recheck_done; eauto.
    + eexists; eexists; eapply wait_recheck_more; eauto.
  - left. eexists; eexists; eapply wait_sleep; eauto.
  - right; left. eauto.
  - left. destruct (mutex s (slot addr j)) as [u|] eqn:e; [eapply holder_moves; eauto|]. eexists; eexists; eapply wait_relock; eauto.
  - left. eexists; eexists; eapply wait_unlock; eauto.
  - left. eexists; eexists; eapply wait_ret; eauto.
  - left. destruct (tasks s) eqn:e; [eexists; eexists; eapply worker_idle; eauto|].
    destruct nb; eexists; eexists; [eapply worker_take_notify|eapply worker_take]; eauto.
  - left. destruct (mutex s wslot) as [u|] eqn:e; [eapply holder_moves; eauto|]. eexists; eexists; eapply worker_lock; eauto.
  - left. eexists; eexists; eapply worker_sleep; eauto.
  - right; right. eauto.
  - left. destruct (mutex s wslot) as [u|] eqn:e; [eapply holder_moves; eauto|]. eexists; eexists; eapply worker_relock; eauto.
  - left. eexists; eexists; eapply worker_unlock; eauto.
  - left. eexists; eexists; eapply worker_notify; eauto. constructor.
Qed.

Lemma sleeper_moves s : Inv addr nm s -> forall d j t fs, njobs s - j <= d -> nth_error (threads s) t = Some (FWait j WSleep :: fs) -> can_move s.
Proof.
  intros I. induction d as [|d IH]; intros j t fs hd h.
  { pose proof (frame_small addr nm s t _ _ j I h (or_introl eq_refl) eq_refl). lia. }
  pose proof (frame_live addr nm s t _ _ j I h (or_introl eq_refl) eq_refl) as l.
  destruct (jobs s j) as [[|p]|] eqn:e; [| |congruence].
  - pose proof (iF _ _ _ I j e) as f. pose proof (cnt_ge (mS j) _ _ _ _ h (or_introl eq_refl)) as g. cbn [mS] in g. rewrite eqn_same in g.
    destruct (cnt_pos (mD3 j) (threads s)) as (u & us & x & h2 & i & q); [lia|].
    destruct us as [|y r]; [easy|]. destruct i as [->|i].
    + destruct (top_moves _ _ _ _ I h2) as [m|[[k ->]|[nb ->]]]; [exact m|cbn in q; lia|cbn in q; lia].
    + destruct (iH _ _ _ I _ _ h2) as [[rs _] _]. rewrite Forall_forall in rs. specialize (rs _ i). destruct x as [| |? []| |]; cbn in *; try lia; easy.
  - pose proof (iC _ _ _ I j) as c. unfold pend in c. rewrite e in c.
    pose proof (cnt_ge (mI j) _ _ _ _ h (or_introl eq_refl)) as g. cbn [mI] in g. rewrite eqn_same in g.
    rewrite (iG _ _ _ I j) in c by lia.
    destruct (cnt_pos (mP j) (threads s)) as (u & us & x & h2 & i & q); [lia|].
    destruct us as [|y r]; [easy|]. destruct i as [->|i].
    + destruct (top_moves _ _ _ _ I h2) as [m|[[k ->]|[nb ->]]]; [exact m|cbn in q; lia|cbn in q; lia].
    + destruct (iH _ _ _ I _ _ h2) as [[rs od] _]. rewrite Forall_forall in rs. specialize (rs _ i).
      destruct (top_moves _ _ _ _ I h2) as [m|[[k ->]|[nb ->]]]; [exact m| |].
      * cbn in od. destruct od as [[lo _] _]. rewrite Forall_forall in lo. specialize (lo _ i).
        assert (j < k). { destruct x as [[k'|]| | |k' []|? []]; cbn in *; try lia; try easy.
          destruct (Nat.eq_dec k' j) as [->|ne]; [lia|]. rewrite (eqn_ne _ _ ne) in q. lia. }
        eapply (IH k); eauto.
        lia.
      * cbn in od. destruct od as [-> _]. easy.
Qed.

Lemma not_stuck s t f fs : Inv addr nm s -> t < nm -> nth_error (threads s) t = Some (f :: fs) -> can_move s.
Proof.
  intros I l h. destruct (top_moves _ _ _ _ I h) as [m|[[j ->]|[nb ->]]]; [exact m| |].
  - eapply sleeper_moves; eauto.
  - destruct (iH _ _ _ I _ _ h) as [_ k]. inversion_clear k as [|? ? k1 _]. unfold kind in k1. apply Nat.ltb_lt in l. rewrite k1 in l. discriminate.
Qed.

(** No job outlives the main programs. *)
Lemma no_jobs_left s : Inv addr nm s -> (forall t fs, t < nm -> nth_error (threads s) t = Some fs -> fs = []) -> forall j, jobs s j = None.
Proof.
  intros I fin j. induction j as [j IH] using lt_wf_ind.
  destruct (jobs s j) as [p|] eqn:e; [exfalso|reflexivity].
  pose proof (iB _ _ _ I j) as b. unfold live in b. rewrite e in b.
  destruct (cnt_pos (mW j) (threads s)) as (u & us & x & h & i & q); [lia|].
  destruct x as [| | |k pc|]; cbn in q; try lia.
  destruct (Nat.eq_dec k j) as [->|ne]; [|rewrite (eqn_ne _ _ ne) in q; lia].
  destruct (iH _ _ _ I _ _ h) as [[_ od] kd].
  assert (fr : exists o n cs, In (FRun o n cs) us /\ lowid j (FRun o n cs)).
  { clear - od i. induction us as [|f r IH]; [easy|]. cbn in od. destruct od as [o1 o2]. destruct i as [->|i].
    - destruct o1 as [lo (o & n & cs & r' & ->)]. inversion_clear lo. exists o, n, cs. cbn. auto.
    - destruct (IH i o2) as (o & n & cs & q1 & q2). exists o, n, cs. cbn; auto. }
  destruct fr as (o & n & cs & i2 & lo). destruct o as [k|].
  - cbn in lo. apply (frame_live addr nm s u us _ k I h i2 eq_refl). apply IH. exact lo.
  - rewrite Forall_forall in kd. specialize (kd _ i2). unfold kind in kd. apply Nat.ltb_lt in kd. rewrite (fin _ _ kd h) in i2. easy.
Qed.
Lemma nothing_pending s j : Inv addr nm s -> jobs s j = None -> ct j (tasks s) = 0 /\ cnt (mP j) (threads s) = 0.
Proof. intros I e. pose proof (iC _ _ _ I j) as c. unfold pend in c. rewrite e in c. lia. Qed.
Lemma ran_all s j b : Inv addr nm s -> jobs s j = None -> cr j b (ran s) = b2n (b <? sizes s j).
Proof.
  intros I e. pose proof (iD _ _ _ I j b) as d. destruct (nothing_pending s j I e) as [z1 z2].
  assert (ctb j b (tasks s) <= ct j (tasks s)) by (apply sumf_le; intros x; pose proof (eqn_le (tk_no x) b); nia).
  assert (cnt (mR j b) (threads s) <= cnt (mP j) (threads s)).
  { apply cnt_le. intros [[k|] n0 ?|k n0 ?|? []|? []|? []]; cbn; try lia.
    - pose proof (eqn_le n0 b); nia.
    - pose proof (eqn_le n0 b); nia.
    - pose proof (eqn_le (tk_no t) b); nia. }
  lia.
Qed.
End Progress.

(* ---------- termination ---------- *)
Fixpoint wbody (b : body) : nat :=
  match b with
  | Body calls => (fix wcalls cs := match cs with
      | [] => 0
      | (others, b) :: cs => (fix wl l := match l with [] => 0 | o :: l => 7 + wbody o + wl l end) others + wbody b + 8 + wcalls cs
      end) calls
  end.
Fixpoint wothers (l : list body) : nat := match l with [] => 0 | o :: l => 7 + wbody o + wothers l end.
Fixpoint wcalls (cs : list (list body * body)) : nat := match cs with [] => 0 | (others, b) :: cs => wothers others + wbody b + 8 + wcalls cs end.
Lemma wbody_calls b : wbody b = wcalls (calls_of b).
Proof.
  destruct b as [cs]. cbn [calls_of]. induction cs as [|[os b] cs IH]; [reflexivity|].
  cbn [wcalls]. rewrite <- IH. clear IH.
  assert (e : (fix wl l := match l with [] => 0 | o :: l => 7 + wbody o + wl l end) os = wothers os).
  { induction os; cbn; [reflexivity|]. f_equal. }
  rewrite <- e. cbn. lia.
Qed.
Lemma wcalls_app a b : wcalls (a ++ b) = wcalls a + wcalls b.
Proof. induction a as [|[os x] a IH]; cbn; lia. Qed.

Definition wF f := match f with
  | FRun _ _ cs => 5 + wcalls cs
  | FStart _ _ b => 6 + wbody b
  | FDec _ DFetch => 4 | FDec _ DLock => 3 | FDec _ DUnlock => 2 | FDec _ DNotify => 1
  | FWait _ _ => 1
  | FWorker _ (KNotify tk) => 6 + wbody (tk_body tk)
  | _ => 0 end.
Definition wR f := match f with
  | FWait _ p => match p with WWake => 8 | WUnlock => 7 | WCheck => 6 | WTry => 5 | WLock => 4 | WRecheck => 3 | WEnter => 2 | WRet => 1 | WSleep => 0 end
  | FWorker _ p => match p with KWake => 5 | KUnlock => 4 | KTry => 3 | KLock => 2 | KEnter => 1 | KSleep => 0 | KNotify _ => 0 end
  | _ => 0 end.
Definition wT (l : list task) := sumf (fun tk => 7 + wbody (tk_body tk)) l.
Lemma wT_tasks_of j i os : wT (tasks_of j i os) = wothers os.
Proof. revert i. induction os as [|o os IH]; intros i; cbn; [reflexivity|]. unfold wT in IH. rewrite IH. reflexivity. Qed.
Lemma wF_wake addr k : forall f, wF (wake_frame addr k f) = wF f. Proof. wk. Qed.
Global Hint Resolve wF_wake : wake.
Definition wW s := wT (tasks s) + cnt wF (threads s).

Lemma step_decreases addr s t s' : step addr s t s' -> wW s' < wW s \/ (wW s' = wW s /\ cnt wR (threads s') < cnt wR (threads s)).
Proof.
  unfold wW. intros st. destruct st; prj; counts; cbn [wF wR] in *; rewrite ?wbody_calls, ?wcalls_app in *; cbn [wcalls] in *; rewrite ?wbody_calls in *;
    repeat match goal with H : tasks s = _ |- _ => rewrite H in * end.
  all: try (left; unfold wT in *; cbn [sumf] in *; rewrite ?wbody_calls in *; lia).
  all: try (right; lia).
  left. unfold wT in *. rewrite sumf_app. fold (wT (tasks_of (njobs s) 0 others)). rewrite wT_tasks_of. lia.
Qed.
Lemma steps_end addr s : Acc (fun s' s => exists t, step addr s t s') s.
Proof.
  assert (go : forall a b s, wW s <= a -> cnt wR (threads s) <= b -> Acc (fun s' s => exists t, step addr s t s') s).
  { clear. induction a as [a IHa] using lt_wf_ind. induction b as [b IHb] using lt_wf_ind. intros s ha hb.
    constructor. intros s' [t st]. destruct (step_decreases _ _ _ _ st) as [l|[l1 l2]].
    - apply (IHa (wW s') ltac:(lia) (cnt wR (threads s'))); lia.
    - apply (IHb (cnt wR (threads s')) ltac:(lia)); lia. }
  apply (go _ _ _ (le_n _) (le_n _)).
Qed.

(* ---------- the count is exact ---------- *)
Lemma ran_all0 addr nm s j b : Inv addr nm s -> jobs s j = Some 0 -> cr j b (ran s) = b2n (b <? sizes s j).
Proof.
  intros I e. pose proof (iD _ _ _ I j b) as d. pose proof (iC _ _ _ I j) as c. unfold pend in c. rewrite e in c.
  assert (ctb j b (tasks s) <= ct j (tasks s)) by (apply sumf_le; intros x; pose proof (eqn_le (tk_no x) b); nia).
  assert (cnt (mR j b) (threads s) <= cnt (mP j) (threads s)).
  { apply cnt_le. intros [[k|] n0 ?|k n0 ?|? []|? []|? []]; cbn; try lia.
    - pose proof (eqn_le n0 b); nia.
    - pose proof (eqn_le n0 b); nia.
    - pose proof (eqn_le (tk_no t) b); nia. }
  lia.
Qed.
Lemma pend_le_sizes addr mains workers s : reachable addr (initial mains workers) s -> forall j p, jobs s j = Some p -> p <= sizes s j.
Proof.
  induction 1 as [|s t s' r IH st|s t s' r IH st]; intros j p e.
  - discriminate.
  - destruct st; prj; eauto; revert e; unfold setf; match goal with |- context [Nat.eqb j ?k] => destruct (Nat.eqb_spec j k) as [->|ne] end; eauto; intros e; try discriminate; injection e as <-; auto;
      match goal with h : jobs s _ = Some _ |- _ => specialize (IH _ _ h); lia end.
  - destruct st; prj; eauto.
Qed.
