(** * C73: statements keep their nesting

    The statements the code generator writes — with braces only where it thinks
    they are needed — are read by a C++ compiler with the nesting they had. *)

From Coq Require Import List ZArith Bool Lia.
From Verif Require Import StmtSpec StmtModel StmtProof.
Import ListNotations.

(** Reading C++ statements leaves no choice. *)
Theorem C73_one_reading : forall ts cs cs',
  reads_all ts cs [] -> reads_all ts cs' [] -> cs = cs'.
Proof. intros ts cs cs'. apply reads_all_det. Qed.
Print Assumptions C73_one_reading.

(** The generated text is a list of C++ statements, and with braces, empty
    statements and declarations of temporaries left out they are the ones that
    were to be written: every statement is under the condition or in the loop it
    was in, every else goes with its if, every label is at the end of the block
    or loop it names.

    Missing: see [tame]; without it the claim is false (below). *)
Theorem C73_nesting_partial : forall ss,
  forallb tame ss = true ->
  exists cs, reads_all (strip (cg_statements ss)) cs [] /\
    flat_map cpp_nf cs = flat_map src_nf ss.
Proof. exact program_ok. Qed.
Print Assumptions C73_nesting_partial.

(** The same for what follows an if or a loop: exactly one statement, whatever
    comes after it, or no text at all for an empty one. *)
Theorem C73_substatement_partial : forall s,
  tame s = true ->
  (snd (gen s) = [] <-> blank s = true) /\
  (snd (gen s) <> [] -> exists c, cpp_nf c = src_nf s /\
     forall r, reads (strip (snd (gen s)) ++ r) c r).
Proof. intros s T. apply (statement_ok s T). Qed.
Print Assumptions C73_substatement_partial.

(** ** Where it fails *)

Definition t (n : Z) : text := {| tid := n; tbrace := false; tif := false; ttemps := 0 |}.

(** [if (1) while (2) while (3) 4; else 5;] — the second loop's line ends with a
    line break, so a second semicolon is put after it, and the else has no if. *)
Definition ex_loops : list st :=
  [SIf (t 1) (SWhile (t 2) (SWhile (t 3) (SExpr (t 4)) 0) 1) (SExpr (t 5))].

Theorem C73_nested_loops_refuted : forall cs, ~ reads_all (strip (cg_statements ex_loops)) cs [].
Proof.
  intros cs R. vm_compute in R. fold (t 1) (t 2) (t 3) (t 4) (t 5) in R.
  repeat match goal with
  | H : reads [] _ _ |- _ => solve [inversion H]
  | H : no_else (TElse :: _) |- _ => exfalso; eapply H; reflexivity
  | H : reads (_ :: _) _ _ |- _ => inversion H; subst; clear H
  | H : reads_all (_ :: _) _ _ |- _ => inversion H; subst; clear H
  end.
Qed.
Print Assumptions C73_nested_loops_refuted.

(** A do-loop left by name: [do { … goto L; … } while (c) L:;] has no semicolon
    after the condition. *)
Definition ex_do : list st :=
  [SDo (SBlock 2 [SExpr (t 1); SWhile (t 2) (SGoto 1) 3]) (t 4) 1].

Theorem C73_do_label_refuted : forall cs, ~ reads_all (strip (cg_statements ex_do)) cs [].
Proof.
  intros cs R. vm_compute in R. fold (t 1) (t 2) (t 4) in R.
  repeat match goal with
  | H : reads [] _ _ |- _ => solve [inversion H]
  | H : no_else (TElse :: _) |- _ => exfalso; eapply H; reflexivity
  | H : reads (_ :: _) _ _ |- _ => inversion H; subst; clear H
  | H : reads_all (_ :: _) _ _ |- _ => inversion H; subst; clear H
  end.
Qed.
Print Assumptions C73_do_label_refuted.

(** [while (1) L: while (2) while (3) break L;] — no braces are put around the
    body of the first loop, so the label ends up after it: leaving the second
    loop leaves the first as well. *)
Definition ex_label : list st :=
  [SWhile (t 1) (SWhile (t 2) (SWhile (t 3) (SGoto 1) 0) 1) 2].

Theorem C73_loop_label_refuted :
  (exists cs, reads_all (strip (cg_statements ex_label)) cs []) /\
  forall cs, reads_all (strip (cg_statements ex_label)) cs [] ->
    flat_map cpp_nf cs =
      [NWhile (t 1) [NWhile (t 2) [NWhile (t 3) [NGoto 1]]]; NLabel 1] /\
    flat_map src_nf ex_label =
      [NWhile (t 1) [NWhile (t 2) [NWhile (t 3) [NGoto 1]]; NLabel 1]].
Proof.
  assert (R : exists cs, reads_all (strip (cg_statements ex_label)) cs [] /\
    flat_map cpp_nf cs = [NWhile (t 1) [NWhile (t 2) [NWhile (t 3) [NGoto 1]]]; NLabel 1]).
  { eexists. split.
    - vm_compute. repeat econstructor.
    - reflexivity. }
  destruct R as (cs & R & E). split; [eauto|]. intros cs' R'.
  rewrite (C73_one_reading _ _ _ R' R). split; [exact E|reflexivity].
Qed.
Print Assumptions C73_loop_label_refuted.

(** ** A case that meets the hypotheses *)

(** An else-if chain with an if under the first branch, a loop left by name, a
    temporary, and letters that look like an if. *)
Definition notify : text := {| tid := 9; tbrace := false; tif := true; ttemps := 0 |}.
Definition with_temp : text := {| tid := 8; tbrace := false; tif := false; ttemps := 1 |}.

Definition ex_tame : list st :=
  [SIf (t 1) (SIf (t 2) (SExpr (t 3)) SEmpty)
     (SAnd [t 4; t 5] (SExpr notify));
   SWhile (t 6) (SBlock 4 [SFor (t 7) (SOr [t 10] (SGoto 1)) 3; SExpr with_temp]) 1;
   SIf (t 11) (SExpr with_temp) (SWhile (t 12) (SExpr (t 13)) 5);
   STry (SDo (SExpr (t 14)) (t 15) 6) (SBlock 7 [])].

Example C73_ex_tame : forallb tame ex_tame = true.
Proof. reflexivity. Qed.

Example C73_ex_text : strip (cg_statements [SIf (t 1) (SIf (t 2) (SExpr (t 3)) SEmpty) (SExpr (t 4))])
  = [TIf (One (t 1)); TOpen; TIf (One (t 2)); TText (t 3); TSemi; TClose; TElse; TText (t 4); TSemi].
Proof. reflexivity. Qed.

Example C73_ex_nf : flat_map src_nf (firstn 1 ex_tame) =
  [NIf (One (t 1)) [NIf (One (t 2)) [NText (t 3)] []] [NIf (All [t 4; t 5]) [NText notify] []]].
Proof. reflexivity. Qed.
