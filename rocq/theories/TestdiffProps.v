(** C42 - test-diff serialisation de-duplicates stably. *)
From Coq Require Import Permutation Sorted.
From Verif Require Import CommonLemmas TestdiffModel TestdiffSpec TestdiffProofs.

(** For every lawful string comparison and every correct sorting routine, the
    serialised parts are the input with later duplicates dropped, in order. *)
Theorem testdiff_dedupes_stably :
  forall (Str : Type) (scmp : Str -> Str -> Z)
         (sort : forall A : Type, (A -> A -> bool) -> list A -> list A)
         (eq_dec : forall a b : Str, {a = b} + {a <> b}),
    cmp_lawful scmp -> sort_ok sort ->
    forall l : list Str, td_serialize_parts scmp sort l = Some (keep_first eq_dec [] l).
Proof. exact (fun Str scmp sort eq_dec L SO l => td_serialize_spec scmp L sort SO eq_dec l). Qed.
Print Assumptions testdiff_dedupes_stably.

(** Non-vacuity: a correct sorting routine exists (insertion sort) and a
    concrete input with repeated items goes through. *)
Fixpoint ins {A} (less : A -> A -> bool) (x : A) (l : list A) : list A :=
  match l with [] => [x] | y :: r => if less y x then y :: ins less x r else x :: l end.
Definition isort (A : Type) (less : A -> A -> bool) (l : list A) : list A := fold_right (ins less) [] l.

Lemma ins_perm {A} less (x : A) l : Permutation (x :: l) (ins less x l).
Proof.
  induction l as [|y l IH]; cbn; auto. destruct (less y x); auto.
  rewrite perm_swap. auto.
Qed.
Lemma isort_perm A less l : Permutation l (isort A less l).
Proof. induction l as [|x l IH]; cbn; auto. rewrite <- ins_perm. auto. Qed.

Lemma ins_In {A} less (x y : A) l : In y (ins less x l) <-> y = x \/ In y l.
Proof.
  split.
  - intros H. apply (Permutation_in _ (Permutation_sym (ins_perm less x l))) in H. destruct H; auto.
  - intros H. apply (Permutation_in _ (ins_perm less x l)). destruct H; [left|right]; auto.
Qed.

Example isort_ok : sort_ok isort.
Proof.
  intros A less Ir Tr l Tot. split; [apply isort_perm|].
  assert (NT : forall x y z, In x l -> In y l -> In z l ->
             less y x = false -> less z y = false -> less z x = false).
  { intros x y z Hx Hy Hz H1 H2. destruct (less z x) eqn:E; auto. exfalso.
    assert (Hne : y <> z) by congruence.
    destruct (Tot y z Hy Hz Hne) as [H|H]; [|congruence]. rewrite (Tr _ _ _ H E) in H1. discriminate. }
  assert (AS : forall x y, less x y = true -> less y x = false).
  { intros x y H. destruct (less y x) eqn:E; auto. rewrite <- (Ir x). symmetry. eapply Tr; eauto. }
  clear Tot.
  assert (H : forall m, incl m l -> StronglySorted (fun x y => less y x = false) (isort A less m)).
  2:{ apply H. intros x Hx; exact Hx. }
  induction m as [|x m IH]; intros Hm; [constructor|].
  change (isort A less (x :: m)) with (ins less x (isort A less m)).
  assert (Hin : incl (isort A less m) l).
  { intros y Hy. apply Hm. right. revert Hy. apply Permutation_in, Permutation_sym, isort_perm. }
  assert (Hx : In x l) by (apply Hm; left; reflexivity).
  assert (Hs : StronglySorted (fun x y => less y x = false) (isort A less m)).
  { apply IH. intros y Hy; apply Hm; right; auto. }
  revert Hin Hs. generalize (isort A less m) as s. clear IH Hm m.
  induction s as [|y s IH]; intros Hin Hs; cbn; [repeat constructor|].
  apply StronglySorted_inv in Hs as [Hs HF]. rewrite Forall_forall in HF.
  destruct (less y x) eqn:E.
  - constructor.
    + apply IH; auto. intros z Hz; apply Hin; right; auto.
    + apply Forall_forall. intros z Hz. apply ins_In in Hz as [->|Hz]; auto.
  - constructor; [constructor; auto; apply Forall_forall; auto|].
    apply Forall_forall. intros z [<-|Hz]; auto.
    apply (NT x y z); auto; apply Hin; [left|right]; auto.
Qed.

Example testdiff_case :
  td_serialize_parts (fun a b : nat => (Z.of_nat a - Z.of_nat b)%Z) isort [3; 1; 3; 2; 1; 5] = Some [3; 1; 2; 5].
Proof. vm_compute. reflexivity. Qed.
