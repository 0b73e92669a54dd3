(** Proofs about SchedModel. *)
From Verif Require Import SchedModel.
Local Arguments slot : simpl never.

(* ---------- lists ---------- *)
Lemma set_nth_length {A} (l : list A) i x : length (set_nth l i x) = length l.
Proof. revert i; induction l as [|y l IH]; intros [|i]; cbn; auto. Qed.
Lemma set_nth_same {A} (l : list A) i x y : nth_error l i = Some y -> nth_error (set_nth l i x) i = Some x.
Proof. revert i; induction l as [|z l IH]; intros [|i] h; cbn in *; try discriminate; auto. Qed.
Lemma set_nth_other {A} (l : list A) i k x : i <> k -> nth_error (set_nth l i x) k = nth_error l k.
Proof. revert i k; induction l as [|z l IH]; intros [|i] [|k] h; cbn in *; try congruence; auto. Qed.
Lemma set_nth_nth {A} (l : list A) i k x z : nth_error (set_nth l i x) k = Some z -> (k = i /\ z = x) \/ (k <> i /\ nth_error l k = Some z).
Proof.
  intros h. destruct (Nat.eq_dec k i) as [->|e].
  - left. split; [reflexivity|].
    destruct (nth_error l i) as [y|] eqn:hy.
    + rewrite (set_nth_same _ _ _ _ hy) in h. congruence.
    + apply nth_error_None in hy. rewrite <- (set_nth_length l i x) in hy. apply nth_error_None in hy. congruence.
  - right. rewrite set_nth_other in h by congruence. auto.
Qed.

Fixpoint sumf {A} (g : A -> nat) (l : list A) : nat := match l with [] => 0 | x :: l => g x + sumf g l end.
Lemma sumf_app {A} (g : A -> nat) l l' : sumf g (l ++ l') = sumf g l + sumf g l'.
Proof. induction l; cbn; lia. Qed.
Lemma sumf_le {A} (g h : A -> nat) l : (forall x, g x <= h x) -> sumf g l <= sumf h l.
Proof. intros le. induction l as [|x l IH]; cbn; [lia|]. specialize (le x). lia. Qed.
Lemma sumf_pos {A} (g : A -> nat) l : 0 < sumf g l -> exists x, In x l /\ 0 < g x.
Proof.
  induction l as [|x l IH]; cbn; [lia|]. intros h. destruct (g x) eqn:e.
  - destruct IH as (y & hy & p); [lia|]. exists y. auto.
  - exists x. split; [auto|lia].
Qed.
Lemma sumf_in {A} (g : A -> nat) l x : In x l -> g x <= sumf g l.
Proof. induction l as [|y l IH]; cbn; [easy|]. intros [->|h]; [lia|]. specialize (IH h). lia. Qed.
Lemma sumf_zero {A} (g : A -> nat) l : (forall x, In x l -> g x = 0) -> sumf g l = 0.
Proof. induction l as [|y l IH]; cbn; intros h; [easy|]. rewrite (h y) by auto. apply IH. auto. Qed.
Lemma sumf_map {A B} (g : B -> nat) (f : A -> B) l : sumf g (map f l) = sumf (fun x => g (f x)) l.
Proof. induction l; cbn; auto. Qed.
Lemma sumf_ext {A} (g h : A -> nat) l : (forall x, g x = h x) -> sumf g l = sumf h l.
Proof. intros e. induction l; cbn; auto. Qed.

Definition cnt (g : frame -> nat) (ths : list (list frame)) : nat := sumf (sumf g) ths.
Lemma sumf_set {A} (g : A -> nat) l t old new : nth_error l t = Some old -> sumf g (set_nth l t new) + g old = sumf g l + g new.
Proof.
  revert t; induction l as [|y l IH]; intros [|t] h; cbn in *; try discriminate.
  - injection h as ->. lia.
  - specialize (IH _ h). lia.
Qed.
Lemma cnt_set g ths t old new : nth_error ths t = Some old -> cnt g (set_nth ths t new) + sumf g old = cnt g ths + sumf g new.
Proof. apply sumf_set. Qed.
Lemma cnt_le g h ths : (forall x, g x <= h x) -> cnt g ths <= cnt h ths.
Proof. intros le. apply sumf_le. intros x. apply sumf_le. exact le. Qed.
Lemma cnt_ge g ths t fs f : nth_error ths t = Some fs -> In f fs -> g f <= cnt g ths.
Proof. intros h i. pose proof (sumf_in g fs f i). pose proof (sumf_in (sumf g) ths fs (nth_error_In _ _ h)). unfold cnt. lia. Qed.
Lemma cnt_pos g ths : 0 < cnt g ths -> exists t fs f, nth_error ths t = Some fs /\ In f fs /\ 0 < g f.
Proof.
  intros h. destruct (sumf_pos _ _ h) as (fs & i & p). destruct (sumf_pos _ _ p) as (f & i' & p').
  destruct (In_nth_error _ _ i) as [t ht]. eauto 6.
Qed.

(* ---------- measures ---------- *)
Definition b2n (b : bool) : nat := if b then 1 else 0.
Definition eqn (a b : nat) : nat := b2n (Nat.eqb a b).
Definition mW j f := match f with FWait k _ => eqn k j | _ => 0 end.
Definition mP j f := match f with
  | FRun (Some k) _ _ | FStart k _ _ | FDec k DFetch => eqn k j
  | FWorker _ (KNotify tk) => eqn (tk_job tk) j
  | _ => 0 end.
Definition mR j b f := match f with
  | FRun (Some k) n _ | FStart k n _ => eqn k j * eqn n b
  | FWorker _ (KNotify tk) => eqn (tk_job tk) j * eqn (tk_no tk) b
  | _ => 0 end.
Definition mE j f := match f with FWait k WEnter => eqn k j | _ => 0 end.
Definition mS j f := match f with FWait k WSleep => eqn k j | _ => 0 end.
Definition mD j f := match f with FDec k DLock => eqn k j | _ => 0 end.
Definition mD3 j f := match f with FDec k DFetch => 0 | FDec k _ => eqn k j | _ => 0 end.
Definition mI j f := match f with FWait k (WCheck | WTry) => 0 | FWait k _ => eqn k j | _ => 0 end.
Definition mT j f := match f with FWait k WRet => eqn k j | _ => 0 end.
Definition ct j (l : list task) := sumf (fun tk => eqn (tk_job tk) j) l.
Definition ctb j b (l : list task) := sumf (fun tk => eqn (tk_job tk) j * eqn (tk_no tk) b) l.
Definition cr j b (l : list (nat * nat)) := sumf (fun p => eqn (fst p) j * eqn (snd p) b) l.

Definition holds (addr : nat -> nat) (f : frame) : option nat := match f with
  | FWait j (WRecheck | WEnter | WUnlock | WRet) => Some (slot addr j)
  | FDec j DUnlock => Some (slot addr j)
  | FWorker _ (KEnter | KUnlock) => Some wslot
  | _ => None end.

Definition resting f := match f with FRun _ _ _ => True | FWait _ WCheck => True | FWorker _ KTry => True | _ => False end.
Definition lowid j f := match f with FRun (Some k) _ _ => k < j | FWait k _ => k < j | _ => True end.
Fixpoint ordered (fs : list frame) : Prop := match fs with
  | [] => True
  | f :: r => match f with FWait j _ => Forall (lowid j) r /\ (exists o n cs r', r = FRun o n cs :: r') | FWorker _ _ => r = [] | _ => True end /\ ordered r end.
Definition wf (fs : list frame) : Prop := match fs with [] => True | f :: r => Forall resting r end /\ ordered fs.
Definition kind (main : bool) f : Prop := match f with FWorker _ _ => main = false | FRun None _ _ => main = true | _ => True end.

Definition pend (s : sched) j := match jobs s j with Some p => p | None => 0 end.
Definition live (s : sched) j := match jobs s j with Some _ => 1 | None => 0 end.

Record Inv (addr : nat -> nat) (nm : nat) (s : sched) : Prop := {
  iA : forall j, njobs s <= j -> jobs s j = None /\ sizes s j = 0;
  iB : forall j, cnt (mW j) (threads s) = live s j;
  iC : forall j, pend s j = ct j (tasks s) + cnt (mP j) (threads s);
  iD : forall j b, ctb j b (tasks s) + cnt (mR j b) (threads s) + cr j b (ran s) = b2n (Nat.ltb b (sizes s j));
  iE : forall j, jobs s j = Some 0 -> cnt (mE j) (threads s) <= cnt (mD j) (threads s);
  iF : forall j, jobs s j = Some 0 -> cnt (mS j) (threads s) <= cnt (mD3 j) (threads s);
  iG : forall j, 0 < cnt (mI j) (threads s) -> ct j (tasks s) = 0;
  iH : forall t fs, nth_error (threads s) t = Some fs -> wf fs /\ Forall (kind (Nat.ltb t nm)) fs;
  iI : forall k t, mutex s k = Some t -> exists f r, nth_error (threads s) t = Some (f :: r) /\ holds addr f = Some k;
  iJ : forall t f r k, nth_error (threads s) t = Some (f :: r) -> holds addr f = Some k -> mutex s k = Some t;
  iK : forall j, 0 < cnt (mT j) (threads s) -> jobs s j = Some 0
}.

(* ---------- waking ---------- *)
Lemma wake_one_nth ths ths' u : wake_one ths ths' ->
  nth_error ths' u = nth_error ths u \/ exists nb fs, nth_error ths u = Some (FWorker nb KSleep :: fs) /\ nth_error ths' u = Some (FWorker nb KWake :: fs).
Proof.
  intros [|t nb fs h]; [auto|]. destruct (Nat.eq_dec t u) as [<-|e].
  - right. exists nb, fs. split; [exact h|]. eapply set_nth_same, h.
  - left. apply set_nth_other, e.
Qed.
Lemma wake_one_cnt g ths ths' : (forall nb, g (FWorker nb KSleep) = g (FWorker nb KWake)) -> wake_one ths ths' -> cnt g ths' = cnt g ths.
Proof.
  intros e [|t nb fs h]; [auto|]. pose proof (cnt_set g ths t _ (FWorker nb KWake :: fs) h) as q.
  cbn in q. specialize (e nb). lia.
Qed.
Lemma wake_all_nth addr k ths u : nth_error (wake_all addr k ths) u = option_map (map (wake_frame addr k)) (nth_error ths u).
Proof. unfold wake_all. apply nth_error_map. Qed.
Lemma wake_all_cnt addr k g ths : (forall f, g (wake_frame addr k f) = g f) -> cnt g (wake_all addr k ths) = cnt g ths.
Proof.
  intros e. unfold cnt, wake_all. rewrite sumf_map. apply sumf_ext. intros fs. rewrite sumf_map. apply sumf_ext, e.
Qed.
Lemma resting_wake addr k r : Forall resting r -> map (wake_frame addr k) r = r.
Proof.
  induction 1 as [|f r h hr IH]; [reflexivity|]. cbn. rewrite IH. f_equal.
  destruct f as [| | |j []|]; try easy.
Qed.

Lemma eqn_same j : eqn j j = 1. Proof. unfold eqn. rewrite Nat.eqb_refl. reflexivity. Qed.
Lemma eqn_ne i j : i <> j -> eqn i j = 0. Proof. intros h. unfold eqn. apply Nat.eqb_neq in h. rewrite h. reflexivity. Qed.
Lemma eqn_le i j : eqn i j <= 1. Proof. unfold eqn. destruct (i =? j); cbn; lia. Qed.

(* ---------- the tasks of a call ---------- *)
Lemma ct_app j a b : ct j (a ++ b) = ct j a + ct j b. Proof. apply sumf_app. Qed.
Lemma ctb_app j n a b : ctb j n (a ++ b) = ctb j n a + ctb j n b. Proof. apply sumf_app. Qed.
Lemma ct_tasks_of j k i bs : ct j (tasks_of k i bs) = eqn k j * length bs.
Proof. revert i. induction bs as [|b bs IH]; intros i; cbn; [lia|]. unfold ct in IH. rewrite IH. lia. Qed.
Lemma ctb_tasks_of j k n i bs : ctb j n (tasks_of k i bs) = eqn k j * b2n ((i <=? n) && (n <? i + length bs)).
Proof.
  revert i. induction bs as [|b bs IH]; intros i; cbn [tasks_of length ctb sumf tk_job tk_no].
  - destruct (Nat.leb_spec i n), (Nat.ltb_spec n (i + 0)); cbn; lia.
  - unfold ctb in IH. rewrite IH. unfold eqn at 2.
    destruct (Nat.leb_spec (S i) n), (Nat.leb_spec i n), (Nat.ltb_spec n (S i + length bs)), (Nat.ltb_spec n (i + S (length bs))), (Nat.eqb_spec i n); cbn [b2n andb]; lia.
Qed.

(* ---------- how each step changes a count ---------- *)
Lemma cnt_wake_one g ths ths' t f fs new : (forall nb, g (FWorker nb KSleep) = g (FWorker nb KWake)) ->
  nth_error ths t = Some (f :: fs) -> (forall nb, f <> FWorker nb KSleep) -> wake_one ths ths' ->
  cnt g (set_nth ths' t new) + sumf g (f :: fs) = cnt g ths + sumf g new.
Proof.
  intros e h nf w. rewrite <- (wake_one_cnt g _ _ e w). apply cnt_set.
  destruct (wake_one_nth _ _ t w) as [q | (nb & fs' & q & _)]; [congruence|]. rewrite h in q. exfalso. injection q as -> ->. exact (nf _ eq_refl).
Qed.
Lemma cnt_wake_all addr g ths k t f fs new : (forall f, g (wake_frame addr k f) = g f) ->
  nth_error ths t = Some (f :: fs) ->
  cnt g (set_nth (wake_all addr k ths) t new) + sumf g (f :: fs) = cnt g ths + sumf g new.
Proof.
  intros e h. rewrite <- (wake_all_cnt addr k g ths e).
  assert (q : sumf g (map (wake_frame addr k) (f :: fs)) = sumf g (f :: fs)) by (rewrite sumf_map; apply sumf_ext, e).
  rewrite <- q. apply cnt_set. rewrite wake_all_nth, h. reflexivity.
Qed.
Lemma mS_wake_le addr k j f : mS j (wake_frame addr k f) <= mS j f.
Proof. destruct f as [| | |i []|]; cbn; try lia. destruct (_ =? _); cbn; lia. Qed.
Lemma mS_wake_same addr j f : mS j (wake_frame addr (slot addr j) f) = 0.
Proof.
  destruct f as [| | |i []|]; cbn; try lia. destruct (Nat.eqb_spec (slot addr i) (slot addr j)) as [e|e]; cbn; [reflexivity|].
  apply eqn_ne. intros ->. apply e. reflexivity.
Qed.
Lemma mS_wake_other addr k j f : k <> slot addr j -> mS j (wake_frame addr k f) = mS j f.
Proof.
  intros ne. destruct f as [| | |i []|]; cbn; try lia. destruct (Nat.eqb_spec (slot addr i) k) as [e|e]; cbn; [|reflexivity].
  symmetry. apply eqn_ne. intros ->. apply ne. symmetry. exact e.
Qed.

Ltac wk := intros []; try reflexivity; match goal with p : waitpc |- _ => destruct p end; try reflexivity; cbn; destruct (_ =? _); reflexivity.
Lemma mW_wake addr k j : forall f, mW j (wake_frame addr k f) = mW j f. Proof. wk. Qed.
Lemma mP_wake addr k j : forall f, mP j (wake_frame addr k f) = mP j f. Proof. wk. Qed.
Lemma mR_wake addr k j b : forall f, mR j b (wake_frame addr k f) = mR j b f. Proof. wk. Qed.
Lemma mE_wake addr k j : forall f, mE j (wake_frame addr k f) = mE j f. Proof. wk. Qed.
Lemma mD_wake addr k j : forall f, mD j (wake_frame addr k f) = mD j f. Proof. wk. Qed.
Lemma mD3_wake addr k j : forall f, mD3 j (wake_frame addr k f) = mD3 j f. Proof. wk. Qed.
Lemma mI_wake addr k j : forall f, mI j (wake_frame addr k f) = mI j f. Proof. wk. Qed.
Lemma mT_wake addr k j : forall f, mT j (wake_frame addr k f) = mT j f. Proof. wk. Qed.
Global Hint Resolve mT_wake mW_wake mP_wake mR_wake mE_wake mD_wake mD3_wake mI_wake : wake.

(** One equation about each count in the goal after the step. *)
Ltac counts :=
  repeat match goal with
  | h : nth_error (threads ?s) ?t = Some (_ :: _) |- context [cnt ?g (set_nth (threads ?s) ?t ?new)] =>
      let q := fresh "q" in pose proof (cnt_set g (threads s) t _ new h) as q; cbn [sumf] in q;
      let c := fresh "c" in set (c := cnt g (set_nth (threads s) t new)) in *; clearbody c
  | h : nth_error (threads ?s) ?t = Some (_ :: _), w : wake_one (threads ?s) ?ths |- context [cnt ?g (set_nth ?ths ?t ?new)] =>
      let q := fresh "q" in pose proof (cnt_wake_one g (threads s) ths t _ _ new (fun nb => eq_refl) h ltac:(discriminate) w) as q; cbn [sumf] in q;
      let c := fresh "c" in set (c := cnt g (set_nth ths t new)) in *; clearbody c
  | h : nth_error (threads ?s) ?t = Some (_ :: _) |- context [cnt ?g (set_nth (wake_all ?addr ?k (threads ?s)) ?t ?new)] =>
      let q := fresh "q" in pose proof (cnt_wake_all addr g (threads s) k t _ _ new ltac:(auto with wake) h) as q; cbn [sumf] in q;
      let c := fresh "c" in set (c := cnt g (set_nth (wake_all addr k (threads s)) t new)) in *; clearbody c
  end.
Ltac prj := cbn [threads tasks jobs njobs mutex sizes ran goto upd_threads upd_mutex upd_jobs upd_tasks] in *.

Section Steps.
Context (addr : nat -> nat) (nm : nat).
Lemma step_iA s t s' : Inv addr nm s -> step addr s t s' -> forall j, njobs s' <= j -> jobs s' j = None /\ sizes s' j = 0.
Proof.
  intros I st j. pose proof (iA _ _ _ I j) as a. destruct st; prj; try exact a; intros le; unfold setf;
    try (destruct (Nat.eqb_spec j (njobs s)); [lia|apply a; lia]);
    destruct (a le) as [a1 a2]; split; try exact a2; destruct (Nat.eqb_spec j j0); subst; try congruence; auto.
Qed.
Lemma live_other s s' j : jobs s' j = jobs s j -> live s' j = live s j.
Proof. unfold live. intros ->. reflexivity. Qed.
Lemma new_dead s : Inv addr nm s -> jobs s (njobs s) = None.
Proof. intros I. apply (iA _ _ _ I). lia. Qed.

Ltac jcase j := match goal with
  | |- context [setf _ ?i _ _] => unfold setf in *; destruct (Nat.eqb_spec j i); subst
  | _ => idtac end.
Ltac eqs := repeat match goal with
  | h : context [eqn ?a ?a] |- _ => rewrite eqn_same in h
  | ne : ?j <> ?a, h : context [eqn ?a ?j] |- _ => rewrite (eqn_ne a j) in h by congruence
  end.

Lemma step_iB s t s' : Inv addr nm s -> step addr s t s' -> forall j, cnt (mW j) (threads s') = live s' j.
Proof.
  intros I st j. pose proof (iB _ _ _ I j) as b. pose proof (new_dead s I) as nd. destruct st; prj; counts; cbn [mW] in *; unfold live in *; prj; jcase j; eqs;
    repeat match goal with H : jobs s _ = _ |- _ => rewrite H in * end; try lia.
  all: destruct (jobs s _); lia.
Qed.


Lemma wret_zero s t j fs : Inv addr nm s -> nth_error (threads s) t = Some (FWait j WRet :: fs) -> jobs s j = Some 0.
Proof.
  intros I h. apply (iK _ _ _ I). pose proof (cnt_ge (mT j) _ _ _ _ h (or_introl eq_refl)) as ge. cbn [mT] in ge. rewrite eqn_same in ge. lia.
Qed.

Lemma step_iC s t s' : Inv addr nm s -> step addr s t s' -> forall j, pend s' j = ct j (tasks s') + cnt (mP j) (threads s').
Proof.
  intros I st j. pose proof (iC _ _ _ I j) as b. pose proof (new_dead s I) as nd. pose proof (wret_zero s t) as wr. destruct st; prj; counts; cbn [mP] in *; unfold pend in *; prj;
    rewrite ?ct_app, ?ct_tasks_of; try (pose proof (wr _ _ I H)); clear wr; jcase j; rewrite ?eqn_same in *; eqs;
    repeat match goal with H : jobs s _ = _ |- _ => rewrite H in * end;
    repeat match goal with H : tasks s = _ |- _ => rewrite H in * end; unfold ct in *; cbn [sumf] in *; try lia.
  all: try (match goal with ne : ?j <> ?a |- _ => rewrite (eqn_ne a j) in * by congruence end; lia).
Qed.

Lemma step_iD s t s' : Inv addr nm s -> step addr s t s' ->
  forall j b, ctb j b (tasks s') + cnt (mR j b) (threads s') + cr j b (ran s') = b2n (Nat.ltb b (sizes s' j)).
Proof.
  intros I st j b. pose proof (iD _ _ _ I j b) as d. pose proof (iA _ _ _ I (njobs s)) as nd. destruct st; prj; counts; cbn [mR] in *;
    rewrite ?ctb_app, ?ctb_tasks_of; jcase j; rewrite ?eqn_same in *; eqs;
    repeat match goal with H : tasks s = _ |- _ => rewrite H in * end; unfold ctb, cr in *; cbn [sumf fst snd] in *; try lia.
  - destruct nd as [_ nd]; [lia|]. rewrite nd in d. cbn [Nat.ltb Nat.leb b2n] in d.
    unfold eqn in *. cbn [Nat.leb andb Nat.add].
    destruct (Nat.ltb_spec b (length others)), (Nat.ltb_spec b (S (length others))), (Nat.eqb_spec (length others) b); cbn [b2n] in *; lia.
  - rewrite (eqn_ne (njobs s) j) by congruence. lia.
Qed.

Lemma step_iG s t s' : Inv addr nm s -> step addr s t s' -> forall j, 0 < cnt (mI j) (threads s') -> ct j (tasks s') = 0.
Proof.
  intros I st j. pose proof (iG _ _ _ I j) as g. pose proof (iB _ _ _ I j) as b. pose proof (new_dead s I) as nd.
  assert (le : cnt (mI j) (threads s) <= cnt (mW j) (threads s)) by (apply cnt_le; intros [| | |? []|]; cbn; lia).
  destruct st; prj; counts; cbn [mI] in *;
    rewrite ?ct_app, ?ct_tasks_of; rewrite ?eqn_same in *;
    repeat match goal with H : tasks s = _ |- _ => rewrite H in * end; unfold ct in *; cbn [sumf] in *; try lia.
  intros p. destruct (Nat.eq_dec (njobs s) j) as [<-|ne].
  - unfold live in b. rewrite nd in b. lia.
  - rewrite (eqn_ne _ _ ne). lia.
Qed.

Lemma step_iK s t s' : Inv addr nm s -> step addr s t s' -> forall j, 0 < cnt (mT j) (threads s') -> jobs s' j = Some 0.
Proof.
  intros I st j p. pose proof (iK _ _ _ I j) as g. pose proof (step_iB s t s' I st j) as b.
  assert (le : cnt (mT j) (threads s') <= cnt (mW j) (threads s')) by (apply cnt_le; intros [| | |? []|]; cbn; lia).
  assert (lv : jobs s' j <> None) by (intros e; unfold live in b; rewrite e in b; lia).
  pose proof (new_dead s I) as nd. clear b le.
  destruct st; prj; revert p; counts; cbn [mT] in *; intros p; try (apply g; lia); revert lv; jcase j; rewrite ?eqn_same in *; intros lv; try congruence; try (apply g; lia).
  - rewrite g in nd by lia. congruence.
  - rewrite g in H0 by lia. congruence.
  - destruct (Nat.eq_dec j0 j) as [->|ne]; [assumption|]. rewrite (eqn_ne _ _ ne) in *. apply g. lia.
Qed.

Lemma top_ge s t g f fs n : nth_error (threads s) t = Some (f :: fs) -> g f = n -> n <= cnt g (threads s).
Proof. intros h <-. exact (cnt_ge g _ _ _ _ h (or_introl eq_refl)). Qed.
(** While the mutex of its slot is free no one is about to wait. *)
Lemma no_enter s j : Inv addr nm s -> mutex s (slot addr j) = None -> cnt (mE j) (threads s) = 0.
Proof.
  intros I m. destruct (cnt (mE j) (threads s)) eqn:e; [reflexivity|exfalso].
  destruct (cnt_pos (mE j) (threads s)) as (u & fs & f & h & i & p); [lia|].
  destruct f as [| | |k []|]; cbn in p; try lia.
  destruct (Nat.eq_dec k j) as [->|ne]; [|rewrite (eqn_ne _ _ ne) in p; lia].
  destruct fs as [|g r]; [easy|]. destruct (iH _ _ _ I u _ h) as [[hr _] _].
  destruct i as [->|i].
  - pose proof (iJ _ _ _ I u _ _ _ h eq_refl). congruence.
  - rewrite Forall_forall in hr. exact (hr _ i).
Qed.

Lemma step_iE s t s' : Inv addr nm s -> step addr s t s' -> forall j, jobs s' j = Some 0 -> cnt (mE j) (threads s') <= cnt (mD j) (threads s').
Proof.
  intros I st j. pose proof (iE _ _ _ I j) as g. pose proof (iB _ _ _ I j) as b.
  assert (le : cnt (mE j) (threads s) <= cnt (mW j) (threads s)) by (apply cnt_le; intros [| | |? []|]; cbn; lia).
  assert (lv : live s j <= 1) by (unfold live; destruct (jobs s j); lia).
  pose proof (no_enter s j I) as ne.
  destruct st; prj; counts; cbn [mE mD] in *; jcase j; rewrite ?eqn_same in *; intros z; try (specialize (g z)); try lia; try congruence.
  - destruct (Nat.eq_dec j0 j) as [->|d]; [|rewrite (eqn_ne _ _ d) in *; lia]. specialize (ne H0). lia.
  - destruct (Nat.eq_dec j0 j) as [->|d]; [congruence|rewrite (eqn_ne _ _ d) in *; lia].
Qed.

Lemma step_iF s t s' : Inv addr nm s -> step addr s t s' -> forall j, jobs s' j = Some 0 -> cnt (mS j) (threads s') <= cnt (mD3 j) (threads s').
Proof.
  intros I st j. pose proof (iF _ _ _ I j) as g. pose proof (iE _ _ _ I j) as e. pose proof (iB _ _ _ I j) as b.
  assert (le : cnt (mS j) (threads s) <= cnt (mW j) (threads s)) by (apply cnt_le; intros [| | |? []|]; cbn; lia).
  assert (le2 : cnt (mD j) (threads s) <= cnt (mD3 j) (threads s)) by (apply cnt_le; intros [| |? []| |]; cbn; lia).
  assert (lv : live s j <= 1) by (unfold live; destruct (jobs s j); lia).
  destruct st; prj.
  10: {
    intros z. specialize (g z).
    pose proof (cnt_wake_all addr (mD3 j) (threads s) (slot addr j0) t _ _ fs (mD3_wake addr (slot addr j0) j) H) as q.
    cbn [sumf mD3] in q. cbn [mD3] in q.
    destruct (Nat.eq_dec (slot addr j0) (slot addr j)) as [sl|sl].
    - assert (z0 : cnt (mS j) (set_nth (wake_all addr (slot addr j0) (threads s)) t fs) = 0).
      { pose proof (cnt_set (mS j) (wake_all addr (slot addr j0) (threads s)) t (map (wake_frame addr (slot addr j0)) (FDec j0 DNotify :: fs)) fs) as q2.
        rewrite wake_all_nth, H in q2. specialize (q2 eq_refl).
        destruct (iH _ _ _ I t _ H) as [[hr _] _].
        cbn [map] in q2. rewrite (resting_wake _ _ _ hr) in q2. cbn [sumf wake_frame mS] in q2.
        assert (z1 : cnt (mS j) (wake_all addr (slot addr j0) (threads s)) = 0); [|lia].
        unfold cnt, wake_all. rewrite sumf_map. apply sumf_zero. intros x _. rewrite sumf_map. apply sumf_zero. intros f _.
        rewrite sl. apply mS_wake_same. }
      lia.
    - pose proof (cnt_wake_all addr (mS j) (threads s) (slot addr j0) t _ _ fs (fun f => mS_wake_other addr (slot addr j0) j f sl) H) as q2.
      cbn [sumf mS] in q2. rewrite (eqn_ne j0 j) in q by congruence. lia. }
  all: counts; cbn [mS mD3] in *; jcase j; rewrite ?eqn_same in *; intros z; try (specialize (g z); specialize (e z)); try lia; try congruence.
  destruct (Nat.eq_dec j0 j) as [->|d]; [|rewrite (eqn_ne _ _ d) in *; lia].
  pose proof (top_ge s t (mE j) _ _ 1 H) as ge. cbn [mE] in ge. rewrite eqn_same in *. specialize (ge eq_refl).
  assert (le3 : cnt (mS j) (threads s) + cnt (mE j) (threads s) <= cnt (mW j) (threads s)).
  { assert (ad : forall l, sumf (mS j) l + sumf (mE j) l <= sumf (mW j) l).
    { induction l as [|[| | |? []|] l IH]; cbn; lia. }
    unfold cnt. clear - ad. induction (threads s) as [|x l IH]; cbn; [lia|]. specialize (ad x). lia. }
  lia.
Qed.

Definition running f := match f with FRun (Some k) _ _ | FStart k _ _ | FDec k DFetch | FWait k _ => Some k
  | FWorker _ (KNotify tk) => Some (tk_job tk) | _ => None end.
Lemma frame_live s t fs f j : Inv addr nm s -> nth_error (threads s) t = Some fs -> In f fs -> running f = Some j -> jobs s j <> None.
Proof.
  intros I h i r e. pose proof (iC _ _ _ I j) as c. pose proof (iB _ _ _ I j) as b.
  unfold pend in c. unfold live in b. rewrite e in *.
  pose proof (cnt_ge (mP j) _ _ _ _ h i) as g1. pose proof (cnt_ge (mW j) _ _ _ _ h i) as g2.
  destruct f as [[k|] | |k []| |nb []]; cbn in r; try discriminate; injection r as <-; cbn in g1, g2; rewrite eqn_same in *; lia.
Qed.
Lemma frame_small s t fs f j : Inv addr nm s -> nth_error (threads s) t = Some fs -> In f fs -> running f = Some j -> j < njobs s.
Proof.
  intros I h i r. destruct (Nat.lt_ge_cases j (njobs s)) as [l|l]; [exact l|].
  exfalso. apply (frame_live _ _ _ _ _ I h i r). apply (iA _ _ _ I _ l).
Qed.
Lemma task_live s tk : Inv addr nm s -> In tk (tasks s) -> jobs s (tk_job tk) <> None.
Proof.
  intros I i e. pose proof (iC _ _ _ I (tk_job tk)) as c. unfold pend in c. rewrite e in c.
  pose proof (sumf_in (fun x => eqn (tk_job x) (tk_job tk)) _ _ i) as q. cbn beta in q. rewrite eqn_same in q. unfold ct in c. lia.
Qed.

Lemma lowid_all s t fs : Inv addr nm s -> nth_error (threads s) t = Some fs -> Forall (lowid (njobs s)) fs.
Proof.
  intros I h. apply Forall_forall. intros f i. pose proof (fun j => frame_small _ _ _ _ j I h i) as sm.
  destruct f as [[k|] | | | |]; cbn in *; auto.
Qed.

Ltac fo := repeat match goal with
  | h : Forall _ (_ :: _) |- _ => inversion_clear h
  | h : _ /\ _ |- _ => destruct h
  | h : wf _ |- _ => unfold wf in h; cbn [ordered] in h
  | |- wf _ => unfold wf; cbn [ordered]
  end.

Lemma step_iH s t s' : Inv addr nm s -> step addr s t s' ->
  forall u fs, nth_error (threads s') u = Some fs -> wf fs /\ Forall (kind (Nat.ltb u nm)) fs.
Proof.
  intros I st u fs' h'.
  (* other threads *)
  assert (old : forall fs, nth_error (threads s) u = Some fs -> wf fs /\ Forall (kind (Nat.ltb u nm)) fs) by (intros fs h; exact (iH _ _ _ I u fs h)).
  assert (wk1 : forall ths fs, wake_one (threads s) ths -> nth_error ths u = Some fs -> wf fs /\ Forall (kind (Nat.ltb u nm)) fs).
  { intros ths fs w h. destruct (wake_one_nth _ _ u w) as [e | (nb & fs2 & e1 & e2)]; [apply old; congruence|].
    rewrite e2 in h. injection h as <-. destruct (old _ e1) as [w1 k1]. fo. split; [fo; auto|]. constructor; auto. }
  assert (wka : forall k fs, nth_error (wake_all addr k (threads s)) u = Some fs -> wf fs /\ Forall (kind (Nat.ltb u nm)) fs).
  { intros k fs h. rewrite wake_all_nth in h. destruct (nth_error (threads s) u) as [[|f r]|] eqn:e; cbn in h; try discriminate; injection h as <-; [apply old; reflexivity|].
    destruct (old _ eq_refl) as [w1 k1]. fo. rewrite resting_wake by assumption.
    split; [fo|]; [split; [assumption|split; [|assumption]]|constructor; [|assumption]].
    - destruct f as [| | |i []|]; cbn; auto. destruct (_ =? _); auto.
    - destruct f as [| | |i []|]; cbn; auto. destruct (_ =? _); cbn; auto. }
  pose proof (lowid_all s t) as low.
  destruct st; prj; apply set_nth_nth in h'; destruct h' as [[-> ->]|[ne h']]; eauto; destruct (old _ H) as [w1 k1]; clear wk1 wka; fo.
  all: try (split; [fo|]; [split; [|split]|repeat constructor]; auto; fail).
  all: try (split; [fo|]; [split; [|split]|repeat constructor]; cbn; auto; fail).
  all: try (subst; split; [fo|]; [repeat split; repeat constructor|repeat constructor]; auto; fail).
  1: {
    split; [fo|].
    + split; [repeat constructor; auto|]. split; [exact Logic.I|]. split; [split|].
      * pose proof (low _ I H) as lo. inversion_clear lo. constructor; auto.
      * eauto 6.
      * split; auto.
    + repeat constructor; auto. }
  all: split; [|assumption]; (split; [|assumption]); destruct fs as [|f r]; [exact Logic.I|];
    match goal with h : Forall resting (_ :: _) |- _ => inversion_clear h; assumption end.
Qed.

(** The mutexes. *)
Lemma held_by s t k f r : Inv addr nm s -> nth_error (threads s) t = Some (f :: r) -> holds addr f = None -> mutex s k <> Some t.
Proof. intros I h n e. destruct (iI _ _ _ I _ _ e) as (f' & r' & h' & q). congruence. Qed.

Lemma resting_holds r f : Forall resting r -> In f r -> holds addr f = None.
Proof. rewrite Forall_forall. intros h i. specialize (h _ i). destruct f as [| | |? []|? []]; cbn in *; easy. Qed.

(** The state of the mutexes only depends on the tops. *)
Definition mutex_ok (m : nat -> option nat) (ths : list (list frame)) : Prop :=
  (forall k t, m k = Some t -> exists f r, nth_error ths t = Some (f :: r) /\ holds addr f = Some k) /\
  (forall t f r k, nth_error ths t = Some (f :: r) -> holds addr f = Some k -> m k = Some t).
Definition top_holds (fs : list frame) := match fs with [] => None | f :: _ => holds addr f end.
Lemma mutex_ok_same m ths ths' : (forall u, option_map top_holds (nth_error ths' u) = option_map top_holds (nth_error ths u)) ->
  mutex_ok m ths -> mutex_ok m ths'.
Proof.
  intros e [a b]. split.
  - intros k t h. destruct (a _ _ h) as (f & r & q1 & q2). specialize (e t). rewrite q1 in e. cbn in e.
    destruct (nth_error ths' t) as [[|f' r']|] eqn:q; cbn in e; try congruence.
    exists f', r'. split; [reflexivity|]. congruence.
  - intros t f r k h q. specialize (e t). rewrite h in e. cbn in e.
    destruct (nth_error ths t) as [[|f' r']|] eqn:q3; cbn in e; try congruence. apply (b _ _ _ _ q3). congruence.
Qed.
Lemma mutex_ok_keep m ths t old new : nth_error ths t = Some old -> top_holds new = top_holds old -> mutex_ok m ths -> mutex_ok m (set_nth ths t new).
Proof.
  intros h e. apply mutex_ok_same. intros u. destruct (Nat.eq_dec t u) as [<-|ne].
  - rewrite (set_nth_same _ _ _ _ h), h. cbn. congruence.
  - rewrite set_nth_other by exact ne. reflexivity.
Qed.
Lemma mutex_ok_take m ths t old new k : nth_error ths t = Some old -> top_holds old = None -> top_holds new = Some k -> m k = None ->
  mutex_ok m ths -> mutex_ok (setf m k (Some t)) (set_nth ths t new).
Proof.
  intros h e1 e2 mk [a b]. destruct new as [|f r]; [easy|]. cbn in e2. split.
  - intros k' t'. unfold setf. destruct (Nat.eqb_spec k' k) as [->|ne].
    + intros q. injection q as <-. exists f, r. split; [apply (set_nth_same _ _ _ _ h)|exact e2].
    + intros q. destruct (a _ _ q) as (f' & r' & q1 & q2). exists f', r'. split; [|exact q2].
      rewrite set_nth_other; [exact q1|]. intros <-. rewrite h in q1. injection q1 as ->. cbn in e1. congruence.
  - intros t' f' r' k' q1 q2. apply set_nth_nth in q1. unfold setf. destruct q1 as [[-> q1]|[ne q1]].
    + injection q1 as -> ->. rewrite e2 in q2. injection q2 as ->. rewrite Nat.eqb_refl. reflexivity.
    + pose proof (b _ _ _ _ q1 q2) as q3. destruct (Nat.eqb_spec k' k) as [->|]; congruence.
Qed.
Lemma mutex_ok_drop m ths t old new k : nth_error ths t = Some old -> top_holds old = Some k -> top_holds new = None ->
  mutex_ok m ths -> mutex_ok (setf m k None) (set_nth ths t new).
Proof.
  intros h e1 e2 [a b]. destruct old as [|f r]; [easy|]. cbn in e1. pose proof (b _ _ _ _ h e1) as mk. split.
  - intros k' t'. unfold setf. destruct (Nat.eqb_spec k' k) as [->|ne]; [discriminate|].
    intros q. destruct (a _ _ q) as (f' & r' & q1 & q2). exists f', r'. split; [|exact q2].
    rewrite set_nth_other; [exact q1|]. intros <-. rewrite h in q1. injection q1 as -> ->. congruence.
  - intros t' f' r' k' q1 q2. apply set_nth_nth in q1. unfold setf. destruct q1 as [[-> q1]|[ne q1]].
    + rewrite <- q1 in e2. cbn in e2. congruence.
    + pose proof (b _ _ _ _ q1 q2) as q3. destruct (Nat.eqb_spec k' k) as [->|]; congruence.
Qed.
Lemma resting_top fs : Forall resting fs -> top_holds fs = None.
Proof. intros h. destruct fs as [|f r]; [reflexivity|]. apply (resting_holds (f :: r)); cbn; auto. Qed.

Lemma step_mutex s t s' : Inv addr nm s -> step addr s t s' -> mutex_ok (mutex s') (threads s').
Proof.
  intros I st.
  assert (ok : mutex_ok (mutex s) (threads s)) by (split; [exact (iI _ _ _ I)|exact (iJ _ _ _ I)]).
  assert (rest_fs : forall f fs, nth_error (threads s) t = Some (f :: fs) -> top_holds fs = None).
  { intros f fs h. destruct (iH _ _ _ I _ _ h) as [[r _] _]. exact (resting_top _ r). }
  assert (w1 : forall ths f fs new, nth_error (threads s) t = Some (f :: fs) -> (forall nb, f <> FWorker nb KSleep) -> top_holds new = holds addr f ->
    wake_one (threads s) ths -> mutex_ok (mutex s) (set_nth ths t new)).
  { intros ths f fs new h nf e w. assert (ok' : mutex_ok (mutex s) ths).
    { revert ok. apply mutex_ok_same. intros u. destruct (wake_one_nth _ _ u w) as [q | (nb & r & q1 & q2)]; [congruence|]. rewrite q1, q2. reflexivity. }
    apply (mutex_ok_keep _ _ _ (f :: fs)); auto.
    destruct (wake_one_nth _ _ t w) as [q | (nb & r & q1 & q2)]; [congruence|]. rewrite h in q1. injection q1 as -> ->. exfalso. exact (nf _ eq_refl). }
  destruct st; prj; try (eapply mutex_ok_keep; eauto; fail); try (eapply mutex_ok_take; eauto; fail); try (eapply mutex_ok_drop; eauto; fail).
  - eapply w1; eauto; discriminate.
  - eapply (mutex_ok_keep _ _ _ (map (wake_frame addr (slot addr j)) (FDec j DNotify :: fs))).
    + rewrite wake_all_nth, H. reflexivity.
    + cbn. eauto.
    + revert ok. apply mutex_ok_same. intros u. rewrite wake_all_nth. destruct (nth_error (threads s) u) as [[|f r]|]; cbn; try reflexivity.
      destruct f as [| | |i []|]; cbn; try reflexivity. destruct (_ =? _); reflexivity.
  - eapply w1; eauto; discriminate.
Qed.

Lemma step_inv s t s' : Inv addr nm s -> step addr s t s' -> Inv addr nm s'.
Proof.
  intros I st. destruct (step_mutex s t s' I st) as [mi mj].
  constructor; eauto using step_iA, step_iB, step_iC, step_iD, step_iE, step_iF, step_iG, step_iH, step_iK.
Qed.

Lemma spurious_inv s t s' : Inv addr nm s -> spurious s t s' -> Inv addr nm s'.
Proof.
  intros I st.
  assert (ok : mutex_ok (mutex s) (threads s)) by (split; [exact (iI _ _ _ I)|exact (iJ _ _ _ I)]).
  assert (ok' : mutex_ok (mutex s') (threads s')).
  { destruct st; prj; eapply mutex_ok_keep; eauto. }
  destruct ok' as [mi mj].
  constructor; auto.
  - intros j. destruct st; apply (iA _ _ _ I).
  - intros j. pose proof (iB _ _ _ I j). destruct st; unfold live in *; prj; counts; cbn [mW] in *; lia.
  - intros j. pose proof (iC _ _ _ I j). destruct st; unfold pend in *; prj; counts; cbn [mP] in *; lia.
  - intros j b. pose proof (iD _ _ _ I j b). destruct st; prj; counts; cbn [mR] in *; lia.
  - intros j. pose proof (iE _ _ _ I j). destruct st; prj; counts; cbn [mE mD] in *; intros z; specialize (H z); lia.
  - intros j. pose proof (iF _ _ _ I j). destruct st; prj; counts; cbn [mS mD3] in *; intros z; specialize (H z); lia.
  - intros j. pose proof (iG _ _ _ I j). destruct st; prj; counts; cbn [mI] in *; intros z; apply H; lia.
  - intros u fs h. destruct st; prj; apply set_nth_nth in h; destruct h as [[-> ->]|[ne h]]; try exact (iH _ _ _ I _ _ h);
      destruct (iH _ _ _ I _ _ H) as [w k]; fo; (split; [fo; auto|constructor; auto]).
  - intros j. pose proof (iK _ _ _ I j). destruct st; prj; counts; cbn [mT] in *; intros z; apply H; lia.
Qed.
End Steps.

Lemma initial_inv addr mains workers : Inv addr (length mains) (initial mains workers).
Proof.
  assert (fr : forall t fs, nth_error (threads (initial mains workers)) t = Some fs ->
    (t < length mains /\ exists b, fs = [FRun None 0 (calls_of b)]) \/ (length mains <= t /\ fs = [FWorker false KTry])).
  { intros t fs h. cbn in h. destruct (Nat.lt_ge_cases t (length mains)) as [l|l].
    - left. split; [exact l|]. rewrite nth_error_app1 in h by (rewrite map_length; exact l).
      rewrite nth_error_map in h. destruct (nth_error mains t) as [b|]; cbn in h; [|discriminate]. exists b. congruence.
    - right. split; [exact l|]. rewrite nth_error_app2 in h by (rewrite map_length; exact l). apply nth_error_In, repeat_spec in h. exact h. }
  assert (z : forall g, (forall b, g (FRun None 0 b) = 0) -> g (FWorker false KTry) = 0 -> cnt g (threads (initial mains workers)) = 0).
  { intros g g1 g2. destruct (cnt g (threads (initial mains workers))) eqn:e; [reflexivity|exfalso].
    destruct (cnt_pos g (threads (initial mains workers))) as (t & fs & f & h & i & p); [lia|].
    destruct (fr _ _ h) as [(_ & b & ->)|(_ & ->)]; destruct i as [<-|[]]; rewrite ?g1, ?g2 in p; lia. }
  constructor.
  - intros j _. split; reflexivity.
  - intros j. apply z; reflexivity.
  - intros j. rewrite z by reflexivity. reflexivity.
  - intros j b. rewrite z by reflexivity. reflexivity.
  - intros j. discriminate.
  - intros j. discriminate.
  - intros j. rewrite z by reflexivity. lia.
  - intros t fs h. destruct (fr _ _ h) as [(l & b & ->)|(l & ->)]; split; cbn; auto; constructor; cbn; auto.
    + apply Nat.ltb_lt. exact l.
    + apply Nat.ltb_ge. exact l.
  - intros k t. discriminate.
  - intros t f r k h q. destruct (fr _ _ h) as [(l & b & e)|(l & e)]; injection e as -> ->; cbn in q; discriminate.
  - intros j. rewrite z by reflexivity. lia.
Qed.

Lemma reach_inv addr mains workers s : reachable addr (initial mains workers) s -> Inv addr (length mains) s.
Proof. induction 1; [apply initial_inv|eapply step_inv; eauto|eapply spurious_inv; eauto]. Qed.
