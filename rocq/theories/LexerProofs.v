(** The lexer's loops, one at a time. *)
From Verif Require Import LexerModel LexerSpec Utf8Spec Utf8Props AsciiProofs CommonLemmas WordsLemmas.
Open Scope Z_scope.
Open Scope list_scope.


(** ** Positions *)
Lemma get_mid pre c r : get (pre ++ c :: r) (length pre) = Ok c.
Proof. unfold get. rewrite nth_error_mid. reflexivity. Qed.
Lemma get_at pre a c r : get (pre ++ a ++ c :: r) (length pre + length a) = Ok c.
Proof. rewrite app_assoc, <- app_length. apply get_mid. Qed.
Lemma peek_mid pre r : peek (pre ++ r) (length pre) = hd 0 r.
Proof. unfold peek. rewrite app_nth2, Nat.sub_diag by lia. destruct r; reflexivity. Qed.
Lemma slice_mid pre a b : slice (pre ++ a ++ b) (length pre) (length pre + length a) = Ok a.
Proof.
  unfold slice. rewrite !app_length. replace ((length pre <=? length pre + length a)%nat && (length pre + length a <=? length pre + (length a + length b))%nat) with true
    by (symmetry; apply andb_true_intro; split; apply Nat.leb_le; lia).
  f_equal. rewrite skipn_app, skipn_all, Nat.sub_diag. cbn [skipn app]. replace (length pre + length a - length pre)%nat with (length a) by lia. rewrite firstn_app, firstn_all, Nat.sub_diag. cbn [firstn]. apply app_nil_r.
Qed.
Lemma lt_len (pre : list Z) c r : (length pre <? length (pre ++ c :: r))%nat = true.
Proof. rewrite app_length. cbn [length]. apply Nat.ltb_lt. lia. Qed.
Lemma ge_len (pre : list Z) : (length pre <? length (pre ++ []))%nat = false.
Proof. rewrite app_nil_r. apply Nat.ltb_irrefl. Qed.
Lemma snoc (pre : list Z) c r : pre ++ c :: r = (pre ++ [c]) ++ r. Proof. rewrite <- app_assoc. reflexivity. Qed.
Lemma snoc_len (pre : list Z) c : S (length pre) = length (pre ++ [c]). Proof. rewrite app_length. cbn. lia. Qed.

(** ** Lines and columns *)
Definition at_ (pre : list Z) (line : nat) (lidx : Z) : Prop := line = line_of pre /\ lidx = Z.of_nat (length pre) - col_of pre.
Lemma column_app a : forall b k, column (a ++ b) k = column b (column a k).
Proof. induction a as [|c a IH]; intros b k; cbn [app column]; auto. Qed.
Lemma column_pos pre : forall k, 1 <= k -> 1 <= column pre k.
Proof. induction pre as [|c pre IH]; intros k H; cbn [column]; auto. apply IH. destruct (c =? 10); lia. Qed.
Lemma col_pos pre : 1 <= col_of pre. Proof. apply column_pos. lia. Qed.
Lemma at_char pre line lidx c : c <> 10 -> at_ pre line lidx -> at_ (pre ++ [c]) line lidx.
Proof.
  intros N [L X]. unfold at_, line_of, col_of in *. rewrite count_occ_app, column_app, app_length. cbn [count_occ column length]. destruct (Z.eq_dec c 10); [contradiction|].
  destruct (Z.eqb_spec c 10); [contradiction|]. split; lia.
Qed.
Lemma at_newline pre line lidx : at_ pre line lidx -> at_ (pre ++ [10]) (S line) (Z.of_nat (S (length pre)) - 1).
Proof. intros [L X]. unfold at_, line_of, col_of in *. rewrite count_occ_app, column_app, app_length. cbn [count_occ column length]. destruct (Z.eq_dec 10 10); [|congruence]. change (10 =? 10) with true. cbv iota. split; lia. Qed.
Lemma at_chars : forall w pre line lidx, ~ In 10 w -> at_ pre line lidx -> at_ (pre ++ w) line lidx.
Proof.
  induction w as [|c w IH]; intros pre line lidx N A; [rewrite app_nil_r; exact A|]. rewrite snoc. apply IH; [intros H; apply N; right; exact H|]. apply at_char; auto. intros ->. apply N. left. reflexivity.
Qed.
Lemma at_start : at_ [] 1 (-1). Proof. split; reflexivity. Qed.
Lemma token_ok k v pre (raw : list Z) line lidx : at_ pre line lidx -> (length v <= length raw)%nat ->
  token_at k v (length pre) (length pre + length raw) line lidx = Ok (Tok k v (line_of pre) (col_of pre) (length raw)).
Proof.
  intros [L X] H. unfold token_at, token_lc. pose proof (col_pos pre). replace (Z.of_nat (length pre) - lidx) with (col_of pre) by lia.
  replace ((0 <=? col_of pre) && (length pre <=? length pre + length raw)%nat && (length v <=? length pre + length raw - length pre)%nat) with true
    by (symmetry; rewrite !andb_true_iff, Z.leb_le, !Nat.leb_le; repeat split; lia).
  f_equal. subst line. f_equal. lia.
Qed.

(** ** Characters *)
Lemma digit_b c : is_digit c = true <-> digit c.
Proof. unfold is_digit, in_range, digit. rewrite andb_true_iff, !Z.leb_le. tauto. Qed.
Lemma letter_b c : is_alpha c || (c =? 95) = true <-> letter c.
Proof. unfold is_alpha, in_range, letter. rewrite !orb_true_iff, !andb_true_iff, !Z.leb_le, Z.eqb_eq. tauto. Qed.
Lemma idc_b c : is_alpha c || (c =? 95) || is_digit c = true <-> letter c \/ digit c.
Proof. rewrite orb_true_iff, letter_b, digit_b. reflexivity. Qed.
Lemma numd_b hex c : is_digit c || hex && is_hexletter c = true <-> num_digit hex c.
Proof. unfold num_digit. rewrite orb_true_iff, andb_true_iff, digit_b. unfold is_hexletter, in_range. rewrite orb_true_iff, !andb_true_iff, !Z.leb_le. tauto. Qed.
Lemma exp_b (hex : bool) c : (if hex then (c =? 112) || (c =? 80) else (c =? 101) || (c =? 69)) = true <-> exp_mark hex c.
Proof. unfold exp_mark. destruct hex; rewrite orb_true_iff, !Z.eqb_eq; reflexivity. Qed.
Lemma not_true b : b = false <-> ~ b = true. Proof. destruct b; split; congruence. Qed.

(** ** Runs of characters *)
Lemma span_unique (P : Z -> Prop) : forall a b f g, Forall P a -> Forall P b -> ~ starts P f -> ~ starts P g -> a ++ f = b ++ g -> a = b /\ f = g.
Proof.
  induction a as [|x a IH]; intros b f g Fa Fb Nf Ng E.
  - destruct b as [|y b]; [auto|]. cbn in E. subst f. inversion_clear Fb. exfalso. apply Nf. exact H.
  - destruct b as [|y b]; [cbn in E; subst g; inversion_clear Fa; exfalso; apply Ng; exact H|]. cbn in E. injection E as -> E. inversion_clear Fa. inversion_clear Fb. destruct (IH b f g) as [-> ->]; auto.
Qed.
Lemma id_end_ok : forall rest fuel pre, (length rest < fuel)%nat -> exists w f, rest = w ++ f /\ id_end fuel (pre ++ rest) (length pre) = Ok (length pre + length w)%nat /\
  Forall (fun c => letter c \/ digit c) w /\ ~ starts (fun c => letter c \/ digit c) f.
Proof.
  induction rest as [|c rest IH]; intros fuel pre L; (destruct fuel as [|fuel]; [lia|]); cbn [id_end].
  - rewrite ge_len. exists [], []. cbn. rewrite Nat.add_0_r. repeat split; auto.
  - rewrite lt_len, get_mid. cbn [bindr]. destruct (is_alpha c || (c =? 95) || is_digit c) eqn:Ec.
    + apply idc_b in Ec. destruct (IH fuel (pre ++ [c])) as (w & f & -> & E & Fw & Nf); [cbn in L; lia|]. exists (c :: w), f. rewrite snoc, (snoc_len pre c), E. split; [reflexivity|].
      split; [rewrite app_length; cbn [length]; f_equal; lia|]. split; [constructor; auto|exact Nf].
    + exists [], (c :: rest). cbn [length]. rewrite Nat.add_0_r. split; [reflexivity|]. split; [reflexivity|]. split; [constructor|]. cbn. rewrite <- idc_b, Ec. discriminate.
Qed.
(** 0o and 0b *)
Lemma radix_end_ok max idx0 dot exp : 48 <= max -> forall rest fuel pre, (length rest < fuel)%nat -> exists w f, rest = w ++ f /\
  num_end fuel (pre ++ rest) idx0 (length pre) false true max dot exp = Ok ((length pre + length w)%nat, dot, exp) /\ Forall (fun c => 48 <= c <= max) w /\ ~ starts (fun c => 48 <= c <= max) f.
Proof.
  intros Hm. induction rest as [|c rest IH]; intros fuel pre L; (destruct fuel as [|fuel]; [lia|]); cbn [num_end].
  - rewrite ge_len. exists [], []. cbn. rewrite Nat.add_0_r. repeat split; auto.
  - rewrite lt_len, get_mid. cbn [bindr andb]. rewrite orb_false_r. destruct (in_range 48 c max) eqn:Ec.
    + unfold in_range in Ec. apply andb_true_iff in Ec. rewrite !Z.leb_le in Ec. destruct (IH fuel (pre ++ [c])) as (w & f & -> & E & Fw & Nf); [cbn in L; lia|]. exists (c :: w), f. rewrite snoc, (snoc_len pre c), E. split; [reflexivity|].
      split; [rewrite app_length; cbn [length]; do 3 f_equal; lia|]. split; [constructor; auto|exact Nf].
    + exists [], (c :: rest). cbn [length]. rewrite Nat.add_0_r. split; [reflexivity|]. split; [do 3 f_equal; lia|]. split; [constructor|]. cbn. unfold in_range in Ec. lia.
Qed.
(** the others *)
Lemma starts_b hex r : is_digit (hd 0 r) || hex && is_hexletter (hd 0 r) = true <-> starts (num_digit hex) r.
Proof. rewrite numd_b. destruct r; cbn [hd starts]; [|reflexivity]. split; [|tauto]. unfold num_digit, digit. lia. Qed.
Lemma num_end_ok hex idx0 : forall fuel rest pre dot exp, (length rest < fuel)%nat ->
  match num_end fuel (pre ++ rest) idx0 (length pre) hex false 57 dot exp with
  | Ok (idx, d, e) => exists w f, rest = w ++ f /\ idx = (length pre + length w)%nat /\ num_tail hex dot exp w d e /\ number_ends hex f
  | Fail _ i => i = idx0
  | Trap => False
  end.
Proof.
  induction fuel as [|fuel IH]; intros rest pre dot exp L; [lia|]. cbn [num_end]. destruct rest as [|c rest].
  { rewrite ge_len. exists [], []. cbn. rewrite Nat.add_0_r. repeat split; auto. constructor. }
  cbn [length] in L. rewrite lt_len, get_mid. cbn [bindr]. rewrite snoc, (snoc_len pre c), peek_mid. change (in_range 48 c 57) with (is_digit c).
  assert (Stop : ~ num_digit hex c -> ~ exp_mark hex c -> (c = 46 \/ c = 95 -> ~ starts (num_digit hex) rest) ->
    exists w f, c :: rest = w ++ f /\ (length (pre ++ [c]) - 1)%nat = (length pre + length w)%nat /\ num_tail hex dot exp w dot exp /\ number_ends hex f).
  { intros N1 N2 N3. exists [], (c :: rest). split; [reflexivity|]. split; [rewrite app_length; cbn; lia|]. split; [constructor|]. cbn. auto. }
  assert (Go : forall dot' exp' s r, rest = s ++ r -> (forall w d e f, num_tail hex dot' exp' w d e -> r = w ++ f -> number_ends hex f -> num_tail hex dot exp (c :: s ++ w) d e) ->
    match num_end fuel ((pre ++ [c]) ++ rest) idx0 (length (pre ++ [c]) + length s) hex false 57 dot' exp' with
    | Ok (idx, d, e) => exists w f, c :: rest = w ++ f /\ idx = (length pre + length w)%nat /\ num_tail hex dot exp w d e /\ number_ends hex f
    | Fail _ i => i = idx0 | Trap => False end).
  { intros dot' exp' s r -> T. specialize (IH r ((pre ++ [c]) ++ s) dot' exp'). rewrite <- (app_assoc (pre ++ [c])) in IH. rewrite (app_length (pre ++ [c]) s) in IH.
    rewrite app_length in L. specialize (IH ltac:(lia)). destruct (num_end _ _ _ _ _ _ _ _ _) as [[[idx d] e]|er i|]; auto.
    destruct IH as (w & f & -> & -> & Tw & Ef). exists (c :: s ++ w), f. split; [rewrite <- app_comm_cons, <- app_assoc; reflexivity|]. split; [rewrite !app_length; cbn [length]; rewrite !app_length; lia|].
    split; [eapply T; eauto|exact Ef]. }
  assert (Head : forall w f, starts (num_digit hex) (w ++ f) -> number_ends hex f -> starts (num_digit hex) w).
  { intros w f S1 Ef. destruct w as [|x w]; [|exact S1]. cbn [app] in S1. destruct f; [exact S1|]. exfalso. apply (proj1 Ef). exact S1. }
  pose proof (fun d e => Go d e [] rest eq_refl) as Go1. cbn [length app] in Go1. rewrite Nat.add_0_r in Go1.
  destruct (is_digit c || hex && is_hexletter c) eqn:Ed.
  { apply numd_b in Ed. apply Go1. intros w d e f T E Ef. constructor; auto. }
  assert (Nd : ~ num_digit hex c) by (rewrite <- numd_b, Ed; discriminate).
  destruct (Z.eqb_spec c 46) as [->|N46].
  { assert (Ne : ~ exp_mark hex 46) by (unfold exp_mark; destruct hex; lia). destruct (is_digit (hd 0 rest) || _) eqn:En; cbn [negb].
    - apply starts_b in En. destruct (dot || exp) eqn:Ee; [reflexivity|]. apply orb_false_iff in Ee as [-> ->]. apply Go1.
      intros w d e f T E Ef. apply nt_dot; [|exact T]. subst rest. eapply Head; eauto.
    - apply Stop; auto. intros _. rewrite <- starts_b, En. discriminate. }
  destruct (if hex then _ else _) eqn:Ex.
  { apply exp_b in Ex. destruct exp; [reflexivity|]. destruct ((hd 0 rest =? 45) || (hd 0 rest =? 43)) eqn:Es.
    - destruct rest as [|x rest]; [discriminate|]. cbn [hd] in Es. specialize (Go dot true [x] rest eq_refl). cbn [length] in Go. rewrite Nat.add_1_r in Go. apply Go.
      intros w d e f T E Ef. apply nt_exp; auto. apply orb_true_iff in Es. rewrite !Z.eqb_eq in Es. destruct Es as [->| ->]; auto.
    - apply Go1. intros w d e f T E Ef. apply (nt_exp hex dot c []); auto. }
  assert (Ne : ~ exp_mark hex c) by (rewrite <- exp_b, Ex; discriminate).
  destruct (Z.eqb_spec c 95) as [->|N95].
  { destruct (is_digit (hd 0 rest) || _) eqn:En; cbn [negb].
    - apply starts_b in En. apply Go1. intros w d e f T E Ef. apply nt_under; [|exact T]. subst rest. eapply Head; eauto.
    - apply Stop; auto. intros _. rewrite <- starts_b, En. discriminate. }
  apply Stop; auto. lia.
Qed.
Lemma num_end_complete hex idx0 : forall w dot exp d e, num_tail hex dot exp w d e -> forall fuel pre f, (length w < fuel)%nat -> w = [] \/ num_digit hex (last w 0) -> number_ends hex f ->
  num_end fuel (pre ++ w ++ f) idx0 (length pre) hex false 57 dot exp = Ok ((length pre + length w)%nat, d, e).
Proof.
  assert (L1 : forall (c : Z) w x, w <> [] -> last (c :: w) x = last w x) by (intros c w x N; destruct w; [tauto|reflexivity]).
  induction 1 as [d e|d e c w d' e' Hc T IH|d e w d' e' Hs T IH|w d' e' Hs T IH|d c s w d' e' Hx Hs T IH]; intros fuel pre f L Hl Ef; (destruct fuel as [|fuel]; [lia|]); cbn [num_end length app] in *.
  - rewrite Nat.add_0_r. destruct f as [|c f]; [rewrite ge_len; reflexivity|]. rewrite lt_len, get_mid. cbn [bindr]. destruct Ef as (N1 & N2 & N3). rewrite snoc, (snoc_len pre c), peek_mid.
    change (in_range 48 c 57) with (is_digit c). replace (is_digit c || hex && is_hexletter c) with false by (symmetry; apply not_true; rewrite numd_b; exact N1).
    assert (Ei : (length (pre ++ [c]) - 1)%nat = length pre) by (rewrite app_length; cbn; lia).
    replace (if hex then (c =? 112) || (c =? 80) else (c =? 101) || (c =? 69)) with false by (symmetry; apply not_true; rewrite exp_b; exact N2).
    rewrite Ei. destruct (Z.eqb_spec c 46); [|destruct (Z.eqb_spec c 95); [|reflexivity]].
    all: replace (is_digit (hd 0 f) || hex && is_hexletter (hd 0 f)) with false by (symmetry; apply not_true; rewrite starts_b; apply N3; auto); reflexivity.
  - rewrite lt_len, get_mid. cbn [bindr]. change (in_range 48 c 57) with (is_digit c). replace (is_digit c || hex && is_hexletter c) with true by (symmetry; apply numd_b; exact Hc).
    rewrite snoc, (snoc_len pre c), IH; auto; [rewrite app_length; cbn; do 3 f_equal; lia|lia|]. destruct w as [|x w]; [auto|]. destruct Hl as [Hl|Hl]; [discriminate|]. right. rewrite L1 in Hl by discriminate. exact Hl.
  - rewrite lt_len, get_mid. cbn [bindr]. rewrite snoc, (snoc_len pre 95), peek_mid. change (in_range 48 95 57) with false. replace (false || hex && is_hexletter 95) with false by (destruct hex; reflexivity).
    change (95 =? 46) with false. replace (if hex then (95 =? 112) || (95 =? 80) else (95 =? 101) || (95 =? 69)) with false by (destruct hex; reflexivity). change (95 =? 95) with true. cbv iota.
    destruct w as [|x w]; [destruct Hs|]. cbn [starts] in Hs. cbn [app hd]. replace (is_digit x || hex && is_hexletter x) with true by (symmetry; apply numd_b; exact Hs). cbn [negb].
    rewrite app_comm_cons, IH; auto; [rewrite app_length; cbn [length]; do 3 f_equal; lia|cbn [length] in *; lia|]. destruct Hl as [Hl|Hl]; [discriminate|]. right. rewrite L1 in Hl by discriminate. exact Hl.
  - rewrite lt_len, get_mid. cbn [bindr]. rewrite snoc, (snoc_len pre 46), peek_mid. change (in_range 48 46 57) with false. replace (false || hex && is_hexletter 46) with false by (destruct hex; reflexivity).
    change (46 =? 46) with true. cbv iota.
    destruct w as [|x w]; [destruct Hs|]. cbn [starts] in Hs. cbn [app hd]. replace (is_digit x || hex && is_hexletter x) with true by (symmetry; apply numd_b; exact Hs). cbn [negb orb].
    rewrite app_comm_cons, IH; auto; [rewrite app_length; cbn [length]; do 3 f_equal; lia|cbn [length] in *; lia|]. destruct Hl as [Hl|Hl]; [discriminate|]. right. rewrite L1 in Hl by discriminate. exact Hl.
  - rewrite lt_len, get_mid. cbn [bindr]. rewrite snoc, (snoc_len pre c), peek_mid. destruct Hl as [Hl|Hl]; [discriminate|].
    assert (Nd : ~ num_digit hex c) by (unfold num_digit, exp_mark, digit in *; destruct hex; lia). assert (N46 : c <> 46) by (unfold exp_mark in Hx; destruct hex; lia).
    change (in_range 48 c 57) with (is_digit c). replace (is_digit c || hex && is_hexletter c) with false by (symmetry; apply not_true; rewrite numd_b; exact Nd).
    destruct (Z.eqb_spec c 46); [contradiction|]. replace (if hex then (c =? 112) || (c =? 80) else (c =? 101) || (c =? 69)) with true by (symmetry; apply exp_b; exact Hx).
    assert (Nsw : s ++ w <> []) by (intros X; rewrite X in Hl; cbn in Hl; tauto). rewrite L1 in Hl by exact Nsw.
    assert (Nw : w <> []). { intros ->. rewrite app_nil_r in *. destruct Hs as [->|[->| ->]]; [tauto| |]; cbn in Hl; unfold num_digit, digit in Hl; lia. }
    assert (Hw : num_digit hex (last w 0)). { destruct Hs as [->|[->| ->]]; [exact Hl| |]; (cbn [app] in Hl; rewrite L1 in Hl by exact Nw; exact Hl). }
    assert (Hh : hd 0 w <> 45 /\ hd 0 w <> 43). { inversion T; subst; cbn [hd]; try tauto; try (unfold num_digit, digit in *; lia). }
    assert (Eq : forall pre', num_end fuel (pre' ++ w ++ f) idx0 (length pre') hex false 57 d true = Ok ((length pre' + length w)%nat, d', e')) by (intros pre'; apply IH; auto; rewrite app_length in L; lia).
    destruct Hs as [->|[->| ->]]; cbn [app].
    + assert (Hd0 : hd 0 (w ++ f) = hd 0 w) by (destruct w; [tauto|reflexivity]). rewrite Hd0. destruct (Z.eqb_spec (hd 0 w) 45); [tauto|]. destruct (Z.eqb_spec (hd 0 w) 43); [tauto|]. cbn [orb]. rewrite Eq, app_length. cbn [length]. do 3 f_equal. lia.
    + cbn [hd]. change ((43 =? 45) || (43 =? 43)) with true. cbv iota. rewrite (snoc_len (pre ++ [c]) 43), (snoc (pre ++ [c]) 43), Eq, !app_length. cbn [length]. do 3 f_equal. lia.
    + cbn [hd]. change ((45 =? 45) || (45 =? 43)) with true. cbv iota. rewrite (snoc_len (pre ++ [c]) 45), (snoc (pre ++ [c]) 45), Eq, !app_length. cbn [length]. do 3 f_equal. lia.
Qed.
