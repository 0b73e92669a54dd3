(** A step of the lexer. *)
From Coq Require Import String.
From Verif Require Import LexerModel LexerSpec Utf8Spec Utf8Props AsciiProofs CommonLemmas WordsLemmas LexerProofs LexerStrings LexerPieces LexerOps.
Open Scope Z_scope.
Open Scope list_scope.

Section dispatch.
Variables (pre : list Z) (rest : list Z) (line : nat) (lidx : Z).
Let src (c : Z) := pre ++ c :: rest.
Let step (c : Z) := lex_step (src c) (length pre) line lidx.
Lemma step_space c : c <= 32 -> step c = if c =? 10 then Ok (None, S (length pre), S line, Z.of_nat (S (length pre)) - 1) else Ok (None, S (length pre), line, lidx).
Proof. intros H. unfold step, lex_step, src. rewrite get_mid. cbn [bindr]. replace (c <=? 32) with true by lia. reflexivity. Qed.
Lemma step_id c : letter c -> step c = let* idx := id_end (S (length (src c))) (src c) (S (length pre)) in let* v := slice (src c) (length pre) idx in
  let* t := token_at Id v (length pre) idx line lidx in Ok (Some t, idx, line, lidx).
Proof. intros H. unfold step, lex_step, src. rewrite get_mid. cbn [bindr]. replace (c <=? 32) with false by (unfold letter in H; lia). apply letter_b in H. rewrite H. reflexivity. Qed.
Lemma digit_not c : digit c -> c <=? 32 = false /\ is_alpha c || (c =? 95) = false.
Proof. intros H. unfold digit in H. split; [lia|]. apply not_true. rewrite letter_b. unfold letter. lia. Qed.
Lemma step_num c : digit c -> step c = let* (t, idx) := number (src c) (length pre) (S (length pre)) c line lidx in Ok (Some t, idx, line, lidx).
Proof. intros H. unfold step, lex_step, src. rewrite get_mid. cbn [bindr]. destruct (digit_not c H) as [-> ->]. apply digit_b in H. rewrite H. reflexivity. Qed.
Lemma step_str c : quote c -> step c = let* (t, idx, line, lidx) := string_lit (src c) (length pre) (S (length pre)) c line lidx in Ok (Some t, idx, line, lidx).
Proof. intros H. unfold step, lex_step, src. rewrite get_mid. destruct H as [->|[->| ->]]; reflexivity. Qed.
Lemma step_lc : hd 0 rest = 47 -> step 47 = let* (idx, line, lidx) := line_comment (S (length (src 47))) (src 47) (S (S (length pre))) line lidx in Ok (None, idx, line, lidx).
Proof. intros H. unfold step, lex_step, src. rewrite get_mid. cbn [bindr]. rewrite (snoc_len pre 47), peek_next, H. reflexivity. Qed.
Lemma step_bc : hd 0 rest = 42 -> step 47 = let* (idx, line, lidx) := block_comment (S (length (src 47))) (src 47) (S (S (length pre))) line lidx in Ok (None, idx, line, lidx).
Proof. intros H. unfold step, lex_step, src. rewrite get_mid. cbn [bindr]. rewrite (snoc_len pre 47), peek_next, H. reflexivity. Qed.
Lemma op_class c : is_op c = true -> c <=? 32 = false /\ is_alpha c || (c =? 95) = false /\ is_digit c = false /\ (c =? 39) || (c =? 34) || (c =? 96) = false.
Proof.
  intros H. apply op_b in H. assert (F : forallb (fun c => negb (c <=? 32) && negb (is_alpha c || (c =? 95)) && negb (is_digit c) && negb ((c =? 39) || (c =? 34) || (c =? 96))) single_ops = true) by (vm_compute; reflexivity).
  rewrite forallb_forall in F. specialize (F c H). rewrite !andb_true_iff, !negb_true_iff in F. tauto.
Qed.
Lemma step_op c : is_op c = true -> ~ (c = 47 /\ (hd 0 rest = 47 \/ hd 0 rest = 42)) -> step c = let* (t, idx) := operator (src c) (length pre) (S (length pre)) line lidx in Ok (Some t, idx, line, lidx).
Proof.
  intros H N. unfold step, lex_step, src. rewrite get_mid. cbn [bindr]. destruct (op_class c H) as (-> & -> & -> & ->). rewrite (snoc_len pre c), peek_next.
  replace ((c =? 47) && (hd 0 rest =? 47)) with false by lia. replace ((c =? 47) && (hd 0 rest =? 42)) with false by lia. rewrite H. reflexivity.
Qed.
Lemma step_bad c : 32 < c -> ~ letter c -> ~ digit c -> ~ quote c -> is_op c = false -> step c = Fail BadChar (length pre).
Proof.
  intros H1 H2 H3 H4 H5. unfold step, lex_step, src. rewrite get_mid. cbn [bindr]. replace (c <=? 32) with false by lia.
  replace (is_alpha c || (c =? 95)) with false by (symmetry; apply not_true; rewrite letter_b; exact H2). replace (is_digit c) with false by (symmetry; apply not_true; rewrite digit_b; exact H3).
  replace ((c =? 39) || (c =? 34) || (c =? 96)) with false by (unfold quote in H4; lia). assert (c <> 47) by (intros ->; discriminate). replace (c =? 47) with false by lia. rewrite H5. reflexivity.
Qed.
End dispatch.

Definition as_token (pre raw : list Z) (k : option (kind * list Z)) : option token :=
  match k with Some (k, v) => Some (Tok k v (line_of pre) (col_of pre) (length raw)) | None => None end.
Lemma step_sound pre c rest line lidx : at_ pre line lidx ->
  match lex_step (pre ++ c :: rest) (length pre) line lidx with
  | Ok (t, idx, line', lidx') => exists raw f k, c :: rest = raw ++ f /\ raw <> [] /\ piece raw f k /\ t = as_token pre raw k /\ idx = length (pre ++ raw) /\ at_ (pre ++ raw) line' lidx'
  | Fail _ i => (length pre <= i < length (pre ++ c :: rest))%nat
  | Trap => False
  end.
Proof.
  intros A. assert (Here : (length pre <= length pre < length (pre ++ c :: rest))%nat) by (rewrite app_length; cbn [length]; lia).
  destruct (Z.le_gt_cases c 32) as [Hs|Hs].
  { rewrite step_space by exact Hs. destruct (Z.eqb_spec c 10) as [->|N].
    - exists [10], rest, None. split; [reflexivity|]. split; [discriminate|]. split; [constructor; lia|]. split; [reflexivity|]. split; [apply snoc_len|eapply at_newline; eauto].
    - exists [c], rest, None. split; [reflexivity|]. split; [discriminate|]. split; [constructor; lia|]. split; [reflexivity|]. split; [apply snoc_len|apply at_char; auto]. }
  destruct (is_alpha c || (c =? 95)) eqn:El.
  { apply letter_b in El. rewrite step_id by exact El. rewrite (snoc pre c), (snoc_len pre c).
    destruct (id_end_ok rest (S (length ((pre ++ [c]) ++ rest))) (pre ++ [c])) as (w & f & -> & E & Fw & Nf); [rewrite app_length; lia|]. rewrite E. cbn [bindr].
    replace (length (pre ++ [c]) + length w)%nat with (length pre + length (c :: w))%nat by (rewrite app_length; cbn [length]; lia). rewrite <- snoc. change (c :: w ++ f) with ((c :: w) ++ f). rewrite slice_mid. cbn [bindr].
    rewrite token_ok by auto. cbn [bindr]. exists (c :: w), f, (Some (Id, c :: w)). split; [reflexivity|]. split; [discriminate|]. split; [apply p_id; auto|]. split; [reflexivity|]. split; [symmetry; apply app_length|].
    apply at_chars; [|exact A]. intros [->|H]; [lia|]. rewrite Forall_forall in Fw. specialize (Fw _ H). unfold letter, digit in Fw. lia. }
  destruct (is_digit c) eqn:Ed.
  { apply digit_b in Ed. rewrite step_num by exact Ed. pose proof (number_sound pre c rest line lidx Ed A) as N. destruct (number _ _ _ _ _ _) as [[t idx]|e i|]; cbn [bindr]; [|subst i; exact Here|exact N].
    destruct N as (raw & f & -> & Nr & N10 & k & v & P & E). injection E as -> ->. exists raw, f, (Some (k, v)). split; [reflexivity|]. split; [exact Nr|]. split; [exact P|]. split; [reflexivity|]. split; [symmetry; apply app_length|].
    apply at_chars; auto. }
  destruct ((c =? 39) || (c =? 34) || (c =? 96)) eqn:Eq.
  { assert (Q : quote c) by (unfold quote; lia). rewrite step_str by exact Q. pose proof (string_ok c pre rest line lidx Q A) as H. destruct (string_lit _ _ _ _ _ _) as [[[[t idx] l'] x']|e i|]; cbn [bindr]; [|apply H|exact H].
    destruct H as (w & v & f & -> & Hv & Hl & -> & A' & ->). exists (c :: w ++ [c]), f. exists (Some (if c =? 39 then Char else Str, v)).
    split; [cbn [app]; rewrite <- app_assoc; reflexivity|]. split; [discriminate|]. split; [|split; [reflexivity|split; [reflexivity|exact A']]].
    destruct (Z.eqb_spec c 39) as [->|N39]; [|apply p_string; [unfold quote in Q; lia|exact Hv]]. specialize (Hl eq_refl). destruct v as [|b [|? ?]]; try discriminate Hl. apply p_char. exact Hv. }
  destruct (Z.eqb_spec c 47) as [->|N47]; [destruct (Z.eqb_spec (hd 0 rest) 47) as [E47|N1]; [|destruct (Z.eqb_spec (hd 0 rest) 42) as [E42|N2]]|].
  - rewrite step_lc by exact E47. destruct rest as [|x rest]; [discriminate|]. cbn [hd] in E47. subst x. rewrite (snoc pre 47), (snoc (pre ++ [47]) 47), (snoc_len pre 47), (snoc_len (pre ++ [47]) 47).
    destruct (line_comment_ok rest (S (length (((pre ++ [47]) ++ [47]) ++ rest))) ((pre ++ [47]) ++ [47]) line lidx) as (w & nl & f & l' & x' & -> & Nw & Hn & E & A'); [rewrite app_length; lia|apply at_char; [lia|apply at_char; [lia|exact A]]|].
    rewrite E. cbn [bindr]. exists (47 :: 47 :: w ++ nl), f, None. split; [cbn [app]; rewrite <- app_assoc; reflexivity|]. split; [discriminate|]. split.
    { destruct Hn as [->|[-> ->]]; [apply p_line_comment; exact Nw|]. rewrite app_nil_r. apply p_line_comment_end. exact Nw. }
    split; [reflexivity|]. rewrite <- !app_assoc in A' |- *. cbn [app] in *. split; [reflexivity|exact A'].
  - rewrite step_bc by exact E42. destruct rest as [|x rest]; [discriminate|]. cbn [hd] in E42. subst x. rewrite (snoc pre 47), (snoc (pre ++ [47]) 42), (snoc_len pre 47), (snoc_len (pre ++ [47]) 42).
    destruct (block_comment_ok rest (S (length (((pre ++ [47]) ++ [42]) ++ rest))) ((pre ++ [47]) ++ [42]) line lidx) as (w & nl & f & l' & x' & -> & Hn & E & A'); [rewrite app_length; lia|apply at_char; [lia|apply at_char; [lia|exact A]]|].
    rewrite E. cbn [bindr]. exists (47 :: 42 :: w ++ nl), f, None. split; [cbn [app]; rewrite <- app_assoc; reflexivity|]. split; [discriminate|]. split.
    { destruct Hn as [[-> Nw]|(-> & -> & Nw)]; [apply p_block_comment; exact Nw|]. rewrite app_nil_r. apply p_block_comment_open. exact Nw. }
    split; [reflexivity|]. rewrite <- !app_assoc in A' |- *. cbn [app] in *. split; [reflexivity|exact A'].
  - assert (Ho : is_op 47 = true) by reflexivity. rewrite step_op by (exact Ho || tauto). destruct (operator_ok pre 47 rest line lidx A Ho) as (raw & f & Er & E & Hr & Hl). rewrite E. cbn [bindr].
    assert (Hr' : (exists c, raw = [c] /\ In c single_ops) \/ In raw long_ops).
    { destruct Hr as [Hr|Hr]; [left|right; exact Hr]. destruct raw as [|y [|? ?]]; try discriminate Hr. exists y. split; [reflexivity|]. injection Er as <- _. apply op_b. exact Ho. }
    exists raw, f, (Some (Op, raw)). split; [exact Er|]. destruct (op_plain raw Hr') as (N10 & Nr & _). split; [exact Nr|]. split; [|split; [reflexivity|split; [symmetry; apply app_length|apply at_chars; auto]]].
    apply p_op; [exact Hr'|intros op b Ho' Eb; apply (Hl op b Ho'); rewrite Er; exact Eb|]. intros r. rewrite <- Er. destruct rest as [|y rest]; [split; discriminate|]. cbn [hd] in *. split; congruence.
  - destruct (is_op c) eqn:Ho.
    + rewrite step_op by (exact Ho || tauto). destruct (operator_ok pre c rest line lidx A Ho) as (raw & f & Er & E & Hr & Hl). rewrite E. cbn [bindr].
      assert (Hr' : (exists c, raw = [c] /\ In c single_ops) \/ In raw long_ops).
      { destruct Hr as [Hr|Hr]; [left|right; exact Hr]. destruct raw as [|y [|? ?]]; try discriminate Hr. exists y. split; [reflexivity|]. injection Er as <- _. apply op_b. exact Ho. }
      exists raw, f, (Some (Op, raw)). split; [exact Er|]. destruct (op_plain raw Hr') as (N10 & Nr & _). split; [exact Nr|]. split; [|split; [reflexivity|split; [symmetry; apply app_length|apply at_chars; auto]]].
      apply p_op; [exact Hr'|intros op b Ho' Eb; apply (Hl op b Ho'); rewrite Er; exact Eb|]. intros r. rewrite <- Er. split; congruence.
    + rewrite step_bad; [exact Here|lia| | | |exact Ho]. 1: rewrite <- letter_b, El; discriminate. 1: rewrite <- digit_b, Ed; discriminate. unfold quote. lia.
Qed.
Lemma same_prefix : forall (a b x y : list Z), length a = length b -> a ++ x = b ++ y -> a = b.
Proof. induction a as [|c a IH]; intros [|d b] x y L E; try discriminate; [reflexivity|]. injection E as -> E. f_equal. eapply IH; eauto. Qed.
Lemma step_complete pre raw f k line lidx : at_ pre line lidx -> piece raw f k -> raw <> [] /\
  exists line' lidx', lex_step (pre ++ raw ++ f) (length pre) line lidx = Ok (as_token pre raw k, length (pre ++ raw), line', lidx') /\ at_ (pre ++ raw) line' lidx'.
Proof.
  intros A P. destruct P as [c f Hc|w f Nw|w Nw|w f Nw|w Nw|c w f Hc Fw Nf|x max w f Hx Nw Fw Nf|x w f dot exp Hx T Hl De Ef|c w f dot exp Hc Z0 T Hl Ef|q w v f Hq Hv|w b f Hv|raw f Hr Hl Nc].
  - split; [discriminate|]. cbn [app]. rewrite step_space by exact Hc. rewrite <- (snoc_len pre c). destruct (Z.eqb_spec c 10) as [->|N]; eexists; eexists; (split; [reflexivity|]); [eapply at_newline; eauto|apply at_char; auto].
  - split; [discriminate|]. cbn [app]. rewrite <- app_assoc. rewrite step_lc by reflexivity. rewrite (snoc pre 47 (47 :: w ++ _)), (snoc (pre ++ [47]) 47 (w ++ _)), (snoc_len pre 47), (snoc_len (pre ++ [47]) 47).
    destruct (line_comment_ok (w ++ [10] ++ f) (S (length (((pre ++ [47]) ++ [47]) ++ w ++ [10] ++ f))) ((pre ++ [47]) ++ [47]) line lidx) as (w1 & nl1 & f1 & l' & x' & Ew & Nw1 & Hn & E & A'); [rewrite (app_length ((pre ++ [47]) ++ [47])); lia|apply at_char; [lia|apply at_char; [lia|exact A]]|].
    destruct (line_comment_unique w w1 [10] nl1 f f1 Nw Nw1 ltac:(auto) Hn Ew) as (<- & <- & <-). rewrite E. cbn [bindr]. rewrite <- !app_assoc in A' |- *. exists l', x'. split; [reflexivity|exact A'].
  - split; [discriminate|]. rewrite app_nil_r. rewrite step_lc by reflexivity. rewrite (snoc pre 47 (47 :: w)), (snoc (pre ++ [47]) 47 w), (snoc_len pre 47), (snoc_len (pre ++ [47]) 47).
    destruct (line_comment_ok w (S (length (((pre ++ [47]) ++ [47]) ++ w))) ((pre ++ [47]) ++ [47]) line lidx) as (w1 & nl1 & f1 & l' & x' & Ew & Nw1 & Hn & E & A'); [rewrite (app_length ((pre ++ [47]) ++ [47])); lia|apply at_char; [lia|apply at_char; [lia|exact A]]|].
    destruct (line_comment_unique w w1 [] nl1 [] f1 Nw Nw1 ltac:(auto) Hn) as (<- & <- & <-); [cbn [app]; rewrite app_nil_r; exact Ew|]. rewrite E. cbn [bindr]. rewrite app_nil_r in A' |- *. exists l', x'. split; [reflexivity|exact A'].
  - split; [discriminate|]. cbn [app]. rewrite <- app_assoc. rewrite step_bc by reflexivity. rewrite (snoc pre 47 (42 :: w ++ _)), (snoc (pre ++ [47]) 42 (w ++ _)), (snoc_len pre 47), (snoc_len (pre ++ [47]) 42).
    destruct (block_comment_ok (w ++ [42; 47] ++ f) (S (length (((pre ++ [47]) ++ [42]) ++ w ++ [42; 47] ++ f))) ((pre ++ [47]) ++ [42]) line lidx) as (w1 & nl1 & f1 & l' & x' & Ew & Hn & E & A'); [rewrite (app_length ((pre ++ [47]) ++ [42])); lia|apply at_char; [lia|apply at_char; [lia|exact A]]|].
    destruct (block_comment_unique w w1 [42; 47] nl1 f f1 ltac:(left; split; [reflexivity|exact Nw]) Hn Ew) as (<- & <- & <-). rewrite E. cbn [bindr]. rewrite <- !app_assoc in A' |- *. exists l', x'. split; [reflexivity|exact A'].
  - split; [discriminate|]. rewrite app_nil_r. rewrite step_bc by reflexivity. rewrite (snoc pre 47 (42 :: w)), (snoc (pre ++ [47]) 42 w), (snoc_len pre 47), (snoc_len (pre ++ [47]) 42).
    destruct (block_comment_ok w (S (length (((pre ++ [47]) ++ [42]) ++ w))) ((pre ++ [47]) ++ [42]) line lidx) as (w1 & nl1 & f1 & l' & x' & Ew & Hn & E & A'); [rewrite (app_length ((pre ++ [47]) ++ [42])); lia|apply at_char; [lia|apply at_char; [lia|exact A]]|].
    destruct (block_comment_unique w w1 [] nl1 [] f1 ltac:(right; split; [reflexivity|split; [reflexivity|exact Nw]]) Hn) as (<- & <- & <-); [cbn [app]; rewrite app_nil_r; exact Ew|]. rewrite E. cbn [bindr]. rewrite app_nil_r in A' |- *. exists l', x'. split; [reflexivity|exact A'].
  - split; [discriminate|]. cbn [app]. rewrite step_id by exact Hc. rewrite (snoc pre c (w ++ f)), (snoc_len pre c).
    destruct (id_end_ok (w ++ f) (S (length ((pre ++ [c]) ++ w ++ f))) (pre ++ [c])) as (w1 & f1 & Ew & E & Fw1 & Nf1); [rewrite (app_length (pre ++ [c])); lia|]. destruct (span_unique _ _ _ _ _ Fw Fw1 Nf Nf1 Ew) as [<- <-]. rewrite E. cbn [bindr].
    replace (length (pre ++ [c]) + length w)%nat with (length pre + length (c :: w))%nat by (rewrite app_length; cbn [length]; lia). rewrite <- snoc. change (c :: w ++ f) with ((c :: w) ++ f). rewrite slice_mid. cbn [bindr].
    rewrite token_ok by auto. cbn [bindr]. exists line, lidx. rewrite app_length. split; [reflexivity|]. apply at_chars; [|exact A]. intros [->|H]; [unfold letter in Hc; lia|]. rewrite Forall_forall in Fw. specialize (Fw _ H). unfold letter, digit in Fw. lia.
  - split; [discriminate|]. cbn [app]. rewrite step_num by (unfold digit; lia). rewrite (number_complete_radix pre x max w f line lidx Hx Nw Fw Nf A). cbn [bindr]. exists line, lidx. rewrite app_length. split; [reflexivity|].
    apply at_chars; [|exact A]. intros [H|[H|H]]; [discriminate|lia|]. rewrite Forall_forall in Fw. specialize (Fw _ H). cbv beta in Fw. lia.
  - split; [discriminate|]. cbn [app]. rewrite step_num by (unfold digit; lia). rewrite (number_complete_hex pre x w f dot exp line lidx Hx T Hl De Ef A). cbn [bindr]. exists line, lidx. rewrite app_length. split; [reflexivity|].
    apply at_chars; [|exact A]. intros [H|[H|H]]; [discriminate|lia|exact (num_tail_plain _ _ _ _ _ _ T H)].
  - split; [discriminate|]. cbn [app]. rewrite step_num by exact Hc. rewrite (number_complete_dec pre c w f dot exp line lidx Hc Z0 T Hl Ef A). cbn [bindr]. exists line, lidx. rewrite app_length. split; [reflexivity|].
    apply at_chars; [|exact A]. intros [H|H]; [unfold digit in Hc; lia|exact (num_tail_plain _ _ _ _ _ _ T H)].
  - split; [discriminate|]. assert (Q : quote q) by (unfold quote; lia). cbn [app]. rewrite <- app_assoc. cbn [app]. rewrite step_str by exact Q. pose proof (string_ok q pre (w ++ q :: f) line lidx Q A) as H.
    destruct (string_lit _ _ _ _ _ _) as [[[[t idx] l'] x']|e i|]; cbn [bindr]; [|destruct H as [_ H]; exfalso; apply (H w v f eq_refl Hv); lia|destruct H].
    destruct H as (w1 & v1 & f1 & Ew & Hv1 & _ & -> & A' & ->). destruct (scanned_unique q Q false w (literal_scanned _ _ _ Q Hv) false w1 f f1 (literal_scanned _ _ _ Q Hv1) Ew) as [<- <-].
    rewrite <- (literal_fun _ _ _ Q Hv _ Hv1). replace (q =? 39) with false by lia. exists l', x'. split; [reflexivity|exact A'].
  - split; [discriminate|]. assert (Q : quote 39) by (unfold quote; lia). cbn [app]. rewrite <- app_assoc. cbn [app]. rewrite step_str by exact Q. pose proof (string_ok 39 pre (w ++ 39 :: f) line lidx Q A) as H.
    destruct (string_lit _ _ _ _ _ _) as [[[[t idx] l'] x']|e i|]; cbn [bindr]; [|destruct H as [_ H]; exfalso; apply (H w [b] f eq_refl Hv); reflexivity|destruct H].
    destruct H as (w1 & v1 & f1 & Ew & Hv1 & _ & -> & A' & ->). destruct (scanned_unique 39 Q false w (literal_scanned _ _ _ Q Hv) false w1 f f1 (literal_scanned _ _ _ Q Hv1) Ew) as [<- <-].
    rewrite <- (literal_fun _ _ _ Q Hv _ Hv1). exists l', x'. split; [reflexivity|exact A'].
  - destruct (op_plain raw Hr) as (N10 & Nr & Ho). split; [exact Nr|]. destruct raw as [|c raw]; [tauto|]. cbn [hd app] in *. rewrite step_op; [|exact Ho|].
    2: { intros [-> H]. destruct (raw ++ f) as [|y r]; cbn [hd] in H; [lia|]. destruct (Nc r) as [N1 N2]. destruct H as [->| ->]; tauto. }
    destruct (operator_ok pre c (raw ++ f) line lidx A Ho) as (raw1 & f1 & Er & E & Hr1 & Hl1). rewrite E. cbn [bindr].
    assert (El : length raw1 = length (c :: raw)).
    { apply Nat.le_antisymm.
      - destruct Hr1 as [->|Hr1]; [cbn [length]; lia|]. apply (Hl raw1 f1 Hr1). exact Er.
      - destruct Hr as [(c' & Ec & _)|Hr]; [injection Ec as -> ->; destruct Hr1 as [->|Hr1]; [reflexivity|destruct (long_ops_shape _ Hr1); cbn [length]; lia]|]. apply (Hl1 (c :: raw) f Hr). reflexivity. }
    assert (Eq : raw1 = c :: raw) by (apply (same_prefix raw1 (c :: raw) f1 f El); symmetry; exact Er).
    rewrite Eq. exists line, lidx. rewrite app_length. split; [reflexivity|]. apply at_chars; auto.
Qed.
