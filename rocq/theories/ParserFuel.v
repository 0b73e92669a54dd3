(** More fuel changes nothing, once there is enough. *)
From Coq Require Import String Ascii.
From Verif Require Export ParserTotal.
From Coq Require Import List Lia ZArith Bool.
Import ListNotations.
Open Scope Z_scope.
Open Scope list_scope.
Notation length := List.length.

Definition less {A} (r r' : pres A) : Prop := r = PTrap \/ r = r'.
Lemma less_refl {A} (r : pres A) : less r r. Proof. right; reflexivity. Qed.
Lemma less_bind {A B} (r r' : pres A) (k k' : A -> pres B) : less r r' -> (forall a, less (k a) (k' a)) -> less (pbind r k) (pbind r' k').
Proof. intros [->| ->] H; [left; reflexivity|]. destruct r' as [a| | | |]; try (right; reflexivity). apply H. Qed.
Lemma less_warn {A} ok w (k k' : nat -> pres A) : (forall w, less (k w) (k' w)) -> less (warn_unless ok w k) (warn_unless ok w k').
Proof. intros H. unfold warn_unless. destruct ok; [apply H|]. destruct w; [apply less_refl|apply H]. Qed.
Section fuel.
Variable ts : list token.
Notation parse := (parseExpression ts). Notation tails := (tails ts). Notation tok := (tok ts).
Definition lessp (p p' : parser) : Prop := forall col mode P i w, less (p col mode P i w) (p' col mode P i w).
Ltac step := first
  [ apply less_refl | apply less_bind; [|intros ?] | apply less_warn; intros ?
  | match goal with
    | H : lessp ?p ?p' |- less (?p _ _ _ _ _) (?p' _ _ _ _ _) => apply H
    | a : (_ * _)%type |- _ => destruct a
    | |- less (if ?c then _ else _) (if ?c then _ else _) => destruct c
    | |- less (match ?c with _ => _ end) (match ?c with _ => _ end) => destruct c
    end ].
Lemma args_less p p' endop slice col : lessp p p' -> forall f f', (f <= f')%nat -> forall used acc nm i w,
  less (parseCallArgs ts f p endop slice col used acc nm i w) (parseCallArgs ts f' p' endop slice col used acc nm i w).
Proof.
  intros Hp. induction f as [|f IH]; intros [|f'] Hf used acc nm i w; try (left; reflexivity); [lia|]. rewrite !parseCallArgs_S. cbn zeta.
  repeat step. apply IH. lia.
Qed.
Lemma head_less p p' f f' col i w : lessp p p' -> (f <= f')%nat -> less (parseExpressionHead ts f p col i w) (parseExpressionHead ts f' p' col i w).
Proof.
  intros Hp Hf. unfold parseExpressionHead, parseParens, parseArrayLiteral, parsePrefix. cbn zeta. repeat step. apply args_less; assumption.
Qed.
Lemma tail_less p p' f f' col mode P n i w : lessp p p' -> (f <= f')%nat -> less (tryParseExpressionTail ts f p col mode P n i w) (tryParseExpressionTail ts f' p' col mode P n i w).
Proof.
  intros Hp Hf. unfold tryParseExpressionTail, parseCallExpression, parseIndexExpression, tryParseBinary, parseTypeAnnot. cbn zeta. repeat step; apply args_less; assumption.
Qed.
Lemma fuel_less f : forall f', (f <= f')%nat -> lessp (parse f) (parse f') /\ forall col mode P n i w, less (tails f col mode P n i w) (tails f' col mode P n i w).
Proof.
  induction f as [|f IH]; intros f' Hf; [split; repeat intro; left; reflexivity|]. destruct f' as [|f']; [lia|]. destruct (IH f' ltac:(lia)) as [H1 H2]. split.
  - intros col mode P i w. rewrite !parse_S. apply less_bind; [apply less_refl|]. intros t. apply less_warn. intros w0. apply less_bind; [apply head_less; [exact H1|lia]|]. intros [[n j] w1]. apply H2.
  - intros col mode P n i w. rewrite !tails_S. apply less_bind; [apply tail_less; [exact H1|lia]|]. intros [[[n1|] j] w1]; [|apply less_refl]. apply less_bind; [apply less_refl|]. intros t. apply less_warn. intros w0. apply H2.
Qed.
End fuel.
