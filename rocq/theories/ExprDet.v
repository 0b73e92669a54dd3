(** * C71: C++'s expression grammar reads a text in at most one way. *)

From Coq Require Import String List ZArith Bool Lia.
From Verif Require Import ExprSpec ExprModel ExprProof.
Import ListNotations.
Open Scope string_scope.
Open Scope list_scope.

Scheme prim_m := Minimality for prim Sort Prop
  with args_m := Minimality for args Sort Prop
  with args1_m := Minimality for args1 Sort Prop
  with post_m := Minimality for post Sort Prop
  with ptail_m := Minimality for ptail Sort Prop
  with un_m := Minimality for un Sort Prop
  with bin_m := Minimality for bin Sort Prop
  with btail_m := Minimality for btail Sort Prop
  with asg_m := Minimality for asg Sort Prop
  with atail_m := Minimality for atail Sort Prop
  with expr_m := Minimality for expr Sort Prop
  with etail_m := Minimality for etail Sort Prop.
Combined Scheme cpp_m from prim_m, args_m, args1_m, post_m, ptail_m, un_m, bin_m, btail_m,
  asg_m, atail_m, expr_m, etail_m.

Lemma at_binary_op k q op r : prec op = Some q -> k <= q -> at_binary k (TP op :: r) = true.
Proof. intros H L. cbn. rewrite H. apply Nat.leb_le. exact L. Qed.

Lemma grammar_det :
  (forall ts e r, prim ts e r -> forall e2 r2, prim ts e2 r2 -> e = e2 /\ r = r2) /\
  (forall ts e r, args ts e r -> forall e2 r2, args ts e2 r2 -> e = e2 /\ r = r2) /\
  (forall ts e r, args1 ts e r -> forall e2 r2, args1 ts e2 r2 -> e = e2 /\ r = r2) /\
  (forall ts e r, post ts e r -> forall e2 r2, post ts e2 r2 -> e = e2 /\ r = r2) /\
  (forall a ts e r, ptail a ts e r -> forall e2 r2, ptail a ts e2 r2 -> e = e2 /\ r = r2) /\
  (forall ts e r, un ts e r -> forall e2 r2, un ts e2 r2 -> e = e2 /\ r = r2) /\
  (forall k ts e r, bin k ts e r -> forall e2 r2, bin k ts e2 r2 -> e = e2 /\ r = r2) /\
  (forall k a ts e r, btail k a ts e r -> forall e2 r2, btail k a ts e2 r2 -> e = e2 /\ r = r2) /\
  (forall ts e r, asg ts e r -> forall e2 r2, asg ts e2 r2 -> e = e2 /\ r = r2) /\
  (forall a ts e r, atail a ts e r -> forall e2 r2, atail a ts e2 r2 -> e = e2 /\ r = r2) /\
  (forall ts e r, expr ts e r -> forall e2 r2, expr ts e2 r2 -> e = e2 /\ r = r2) /\
  (forall a ts e r, etail a ts e r -> forall e2 r2, etail a ts e2 r2 -> e = e2 /\ r = r2).
Proof.
  apply cpp_m.
  - intros s r e2 r2 H. inversion H; subst; auto.
  - intros x r A e2 r2 H. inversion H; subst; auto; discriminate.
  - intros f r a r' A IH e2 r2 H. inversion H; subst; [discriminate|].
    match goal with H : args _ _ _ |- _ => destruct (IH _ _ H) as [-> ->] end. auto.
  - intros r e r' A IH e2 r2 H. inversion H; subst.
    match goal with H : expr _ _ _ |- _ => destruct (IH _ _ H) as [-> E] end. injection E as ->. auto.
  - intros r e2 r2 H. inversion H; subst; auto. discriminate.
  - intros r a r' A Ha IH e2 r2 H. inversion H; subst; [discriminate|]. apply IH. assumption.
  - intros r e r' A IH e2 r2 H. inversion H; subst.
    + match goal with H : asg _ _ _ |- _ => destruct (IH _ _ H) as [-> E] end. injection E as ->. auto.
    + match goal with H : asg _ _ _ |- _ => destruct (IH _ _ H) as [-> E] end. discriminate E.
  - intros r e r1 a r' A IH A1 IH1 e2 r2 H. inversion H; subst.
    + match goal with H : asg _ _ _ |- _ => destruct (IH _ _ H) as [-> E] end. discriminate E.
    + match goal with H : asg _ _ _ |- _ => destruct (IH _ _ H) as [-> E] end. injection E as ->.
      match goal with H : args1 _ _ _ |- _ => destruct (IH1 _ _ H) as [-> ->] end. auto.
  - intros ts e r e' r' P IH Q IH2 e2 r2 H. inversion H; subst.
    match goal with H : prim _ _ _ |- _ => destruct (IH _ _ H) as [-> ->] end.
    apply IH2. assumption.
  - intros e f r e' r' P IH e2 r2 H. inversion H; subst; try discriminate.
    + apply IH. assumption.
    + match goal with H : _ \/ _ |- _ => destruct H; discriminate end.
  - intros e r i r1 e' r' P IH Q IH2 e2 r2 H. inversion H; subst; try discriminate.
    + match goal with H : expr _ _ _ |- _ => destruct (IH _ _ H) as [-> E] end. injection E as ->.
      apply IH2. assumption.
    + match goal with H : _ \/ _ |- _ => destruct H; discriminate end.
  - intros e op r e' r' P Q IH e2 r2 H. inversion H; subst; try (destruct P; discriminate).
    + apply IH. assumption.
    + destruct P as [-> | ->]; discriminate.
  - intros e r A e2 r2 H. inversion H; subst; auto; try discriminate.
    match goal with H : _ \/ _ |- _ => destruct H as [-> | ->]; discriminate end.
  - intros op r e r' I U IH e2 r2 H. inversion H; subst.
    + match goal with H : un _ _ _ |- _ => destruct (IH _ _ H) as [-> ->] end. auto.
    + match goal with H : at_prefix _ = false |- _ => cbn [at_prefix] in H; rewrite I in H; discriminate end.
  - intros r e r' A P IH e2 r2 H. inversion H; subst.
    + match goal with I : is_in _ _ = true |- _ => cbn [at_prefix] in A; rewrite I in A; discriminate end.
    + apply IH. assumption.
  - intros k ts e r e' r' P IH Q IH2 e2 r2 H. inversion H; subst.
    match goal with H : un _ _ _ |- _ => destruct (IH _ _ H) as [-> ->] end.
    apply IH2. assumption.
  - intros k q e op r e3 r1 e' r' Hq Hk P IH Q IH2 e2 r2 H. inversion H; subst.
    + match goal with H : prec op = Some ?q0 |- _ => assert (q0 = q) as -> by congruence end.
      match goal with H : bin _ _ _ _ |- _ => destruct (IH _ _ H) as [-> ->] end.
      apply IH2. assumption.
    + match goal with H : at_binary _ _ = false |- _ => rewrite (at_binary_op k q op r Hq Hk) in H; discriminate end.
  - intros k e r A e2 r2 H. inversion H; subst; auto.
    match goal with H : prec ?op = Some ?q, L : _ <= ?q |- _ => rewrite (at_binary_op _ _ _ _ H L) in A; discriminate end.
  - intros ts e r e' r' P IH Q IH2 e2 r2 H. inversion H; subst.
    match goal with H : bin _ _ _ _ |- _ => destruct (IH _ _ H) as [-> ->] end.
    apply IH2. assumption.
  - intros e r a r1 b r' P IH Q IH2 e2 r2 H. inversion H; subst; try discriminate.
    match goal with H : expr _ _ _ |- _ => destruct (IH _ _ H) as [-> E] end. injection E as ->.
    match goal with H : asg _ _ _ |- _ => destruct (IH2 _ _ H) as [-> ->] end. auto.
  - intros e op r b r' I P IH e2 r2 H. inversion H; subst.
    + discriminate I.
    + match goal with H : asg _ _ _ |- _ => destruct (IH _ _ H) as [-> ->] end. auto.
    + match goal with H : at_asg _ = false |- _ => unfold at_asg in H end.
      unfold is_in in *. cbn [existsb] in *.
      match goal with H : (_ || _)%bool = false |- _ => apply orb_false_iff in H; destruct H; congruence end.
  - intros e r A e2 r2 H. inversion H; subst; auto; [discriminate|].
    unfold at_asg, is_in in *. cbn [existsb] in *. apply orb_false_iff in A. destruct A. congruence.
  - intros ts e r e' r' P IH Q IH2 e2 r2 H. inversion H; subst.
    match goal with H : asg _ _ _ |- _ => destruct (IH _ _ H) as [-> ->] end.
    apply IH2. assumption.
  - intros e r b r1 e' r' P IH Q IH2 e2 r2 H. inversion H; subst; try discriminate.
    match goal with H : asg _ _ _ |- _ => destruct (IH _ _ H) as [-> ->] end.
    apply IH2. assumption.
  - intros e r A e2 r2 H. inversion H; subst; auto. discriminate.
Qed.

Lemma expr_det ts e r e2 r2 : expr ts e r -> expr ts e2 r2 -> e = e2 /\ r = r2.
Proof. intros H. revert e2 r2. apply (proj1 (proj2 (proj2 (proj2 (proj2 (proj2 (proj2 (proj2 (proj2 (proj2 (proj2 grammar_det))))))))))) with (1 := H). Qed.
