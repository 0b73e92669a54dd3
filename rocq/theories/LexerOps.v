(** Operators, and a step of the lexer. *)
From Coq Require Import String.
From Verif Require Import LexerModel LexerSpec Utf8Spec Utf8Props AsciiProofs CommonLemmas WordsLemmas LexerProofs LexerStrings LexerPieces.
Open Scope Z_scope.
Open Scope list_scope.

Lemma ops_eq : OPTOKENS = single_ops. Proof. reflexivity. Qed.
Lemma mbops_eq : MBOPS = long_ops. Proof. reflexivity. Qed.
Lemma op_b c : is_op c = true <-> In c single_ops.
Proof. unfold is_op. rewrite ops_eq, existsb_exists. split; [intros (x & Hx & E); apply Z.eqb_eq in E; subst; exact Hx|intros H; exists c; split; [exact H|apply Z.eqb_refl]]. Qed.
Lemma mbop_b s : is_mbop s = true <-> In s long_ops.
Proof.
  unfold is_mbop. rewrite mbops_eq, existsb_exists. split.
  - intros (x & Hx & E). destruct (list_eq_dec Z.eq_dec s x); [subst; exact Hx|discriminate].
  - intros H. exists s. split; [exact H|]. destruct (list_eq_dec Z.eq_dec s s); congruence.
Qed.
Lemma long_ops_shape op : In op long_ops -> (2 <= length op <= 4)%nat /\ Forall (fun c => is_op c = true) op.
Proof.
  assert (H : forallb (fun op => ((2 <=? length op) && (length op <=? 4))%nat && forallb is_op op) long_ops = true) by (vm_compute; reflexivity).
  intros Hi. rewrite forallb_forall in H. specialize (H op Hi). rewrite !andb_true_iff, !Nat.leb_le, forallb_forall in H. destruct H as [H1 H2]. split; [exact H1|]. rewrite Forall_forall. exact H2.
Qed.
Lemma op_run_ok : forall fuel m rest pre, (m < fuel)%nat -> (m <= length rest)%nat -> exists w g, firstn m rest = w ++ g /\
  op_run fuel (pre ++ rest) (length pre) (length pre + m) = Ok (length pre + length w)%nat /\ Forall (fun c => is_op c = true) w /\ ~ starts (fun c => is_op c = true) g.
Proof.
  induction fuel as [|fuel IH]; intros m rest pre L Lr; [lia|]. cbn [op_run]. destruct m as [|m].
  { rewrite Nat.add_0_r, Nat.ltb_irrefl. exists [], []. cbn. rewrite Nat.add_0_r. auto. }
  destruct rest as [|c rest]; [cbn in Lr; lia|]. cbn [length] in Lr. replace (length pre <? length pre + S m)%nat with true by (symmetry; apply Nat.ltb_lt; lia). rewrite get_mid. cbn [bindr firstn]. destruct (is_op c) eqn:Ec.
  - destruct (IH m rest (pre ++ [c]) ltac:(lia) ltac:(lia)) as (w & g & E & R & Fw & Ng). exists (c :: w), g. rewrite (snoc pre c), (snoc_len pre c), E.
    replace (length pre + S m)%nat with (length (pre ++ [c]) + m)%nat by (rewrite app_length; cbn [length]; lia). rewrite R. split; [reflexivity|]. split; [rewrite app_length; cbn [length]; f_equal; lia|]. auto.
  - exists [], (c :: firstn m rest). cbn [length app starts]. rewrite Nat.add_0_r. split; [reflexivity|]. split; [reflexivity|]. split; [constructor|]. congruence.
Qed.
Lemma op_shorten_ok : forall fuel a pre f, (1 <= length a <= fuel)%nat -> exists raw a', a = raw ++ a' /\ op_shorten fuel (pre ++ a ++ f) (length pre) (length pre + length a) = Ok (raw, (length pre + length raw)%nat) /\
  (length raw = 1%nat \/ In raw long_ops) /\ (forall op b, In op long_ops -> a = op ++ b -> (length op <= length raw)%nat).
Proof.
  induction fuel as [|fuel IH]; intros a pre f L; [lia|]. cbn [op_shorten]. rewrite slice_mid. cbn [bindr].
  destruct ((length a =? 1)%nat || is_mbop a) eqn:E.
  - exists a, []. rewrite app_nil_r. split; [reflexivity|]. split; [reflexivity|]. split; [apply orb_true_iff in E; rewrite Nat.eqb_eq, mbop_b in E; exact E|].
    intros op b Ho ->. rewrite app_length. lia.
  - apply orb_false_iff in E as [E1 E2]. apply Nat.eqb_neq in E1. assert (Na : a <> []) by (intros ->; cbn in L; lia). destruct (@exists_last _ a Na) as (a1 & x & ->). rewrite app_length in *. cbn [length] in *.
    replace (length pre + (length a1 + 1) - 1)%nat with (length pre + length a1)%nat by lia. rewrite <- app_assoc. cbn [app].
    destruct (IH a1 pre (x :: f) ltac:(lia)) as (raw & a' & -> & R & Hr & Hl). exists raw, (a' ++ [x]). rewrite R. split; [rewrite app_assoc; reflexivity|]. split; [reflexivity|]. split; [exact Hr|].
    intros op b Ho Eb. destruct b as [|y b] using rev_ind.
    + rewrite app_nil_r in Eb. rewrite Eb in E2. apply mbop_b in Ho. congruence.
    + rewrite app_assoc in Eb. apply app_inj_tail in Eb as [Eb _]. eauto.
Qed.
Lemma operator_ok pre c rest line lidx : at_ pre line lidx -> is_op c = true -> exists raw f, c :: rest = raw ++ f /\
  operator (pre ++ c :: rest) (length pre) (S (length pre)) line lidx = Ok (Tok Op raw (line_of pre) (col_of pre) (length raw), (length pre + length raw)%nat) /\
  (length raw = 1%nat \/ In raw long_ops) /\ (forall op b, In op long_ops -> c :: rest = op ++ b -> (length op <= length raw)%nat).
Proof.
  intros A Hc. unfold operator. set (m := Nat.min 3 (length rest)).
  replace (Nat.min (length pre + MBOPS_maxLen) (length (pre ++ c :: rest))) with (length (pre ++ [c]) + m)%nat by (unfold MBOPS_maxLen, m; rewrite !app_length; cbn [length]; lia).
  rewrite (snoc_len pre c). rewrite (snoc pre c rest).
  destruct (op_run_ok 5 m rest (pre ++ [c]) ltac:(unfold m; lia) ltac:(unfold m; lia)) as (w & g & E & R & Fw & Ng). rewrite R. cbn [bindr].
  assert (Er : rest = w ++ g ++ skipn m rest) by (rewrite app_assoc, <- E; symmetry; apply firstn_skipn).
  assert (Lw : (length w <= 3)%nat). { assert (length (firstn m rest) <= 3)%nat by (rewrite firstn_length; unfold m; lia). rewrite E, app_length in H. lia. }
  rewrite <- (snoc pre c rest). replace (length (pre ++ [c]) + length w)%nat with (length pre + length (c :: w))%nat by (rewrite app_length; cbn [length]; lia).
  replace (pre ++ c :: rest) with (pre ++ (c :: w) ++ (g ++ skipn m rest)) by (cbn [app]; rewrite <- Er; reflexivity).
  destruct (op_shorten_ok 5 (c :: w) pre (g ++ skipn m rest)) as (raw & a' & Ea & S1 & Hr & Hl); [cbn [length]; lia|]. rewrite S1. cbn [bindr]. rewrite token_ok by auto. cbn [bindr].
  exists raw, (a' ++ g ++ skipn m rest). split; [rewrite app_assoc, <- Ea; cbn [app]; rewrite <- Er; reflexivity|]. split; [reflexivity|]. split; [exact Hr|].
  intros op b Ho Eb. destruct (long_ops_shape op Ho) as [Lo Fo]. destruct op as [|c' op]; [cbn in Lo; lia|]. cbn [app] in Eb. injection Eb as <- Eb. inversion_clear Fo as [|? ? _ Fo'].
  assert (Pre : firstn (length op) rest = op) by (rewrite Eb, firstn_app, firstn_all, Nat.sub_diag; cbn; apply app_nil_r).
  assert (Lop : (length op <= m)%nat). { unfold m. cbn [length] in Lo. assert (length op <= length rest)%nat by (rewrite Eb, app_length; lia). lia. }
  assert (Pre2 : firstn (length op) (w ++ g) = op) by (rewrite <- E, firstn_firstn, Nat.min_l by lia; exact Pre).
  destruct (Nat.le_gt_cases (length op) (length w)) as [Hle|Hgt].
  - apply (Hl (c :: op) (skipn (length op) w) Ho). cbn [app]. f_equal. rewrite firstn_app in Pre2. replace (length op - length w)%nat with 0%nat in Pre2 by lia. cbn [firstn] in Pre2. rewrite app_nil_r in Pre2. rewrite <- Pre2 at 1. symmetry. apply firstn_skipn.
  - exfalso. apply Ng. rewrite firstn_app, firstn_all2 in Pre2 by lia. destruct g as [|y g].
    + rewrite firstn_nil, app_nil_r in Pre2. rewrite Pre2 in Hgt. lia.
    + destruct (length op - length w)%nat as [|k] eqn:Ek; [lia|]. cbn [firstn] in Pre2. rewrite <- Pre2 in Fo'. apply Forall_app in Fo' as [_ Fo']. inversion_clear Fo'. assumption.
Qed.
Lemma op_plain raw : (exists c, raw = [c] /\ In c single_ops) \/ In raw long_ops -> ~ In 10 raw /\ raw <> [] /\ is_op (hd 0 raw) = true.
Proof.
  assert (N10 : is_op 10 = false) by reflexivity. intros [(c & -> & Hc)|H].
  - apply op_b in Hc. split; [intros [->|H]; [congruence|exact H]|]. split; [discriminate|exact Hc].
  - destruct (long_ops_shape raw H) as [L F]. split; [intros H10; rewrite Forall_forall in F; rewrite (F _ H10) in N10; discriminate|]. destruct raw as [|c raw]; [cbn in L; lia|]. split; [discriminate|]. inversion_clear F. assumption.
Qed.
