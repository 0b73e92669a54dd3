From Verif Require Import PathModel PathSpec CommonLemmas PreludeProofs PreludeProps.
Open Scope nat_scope.

Lemma zeqb_ok : forall x y : Z, Z.eqb x y = true <-> x = y. Proof. exact Z.eqb_eq. Qed.
Lemma str_eqb_ok a : forall b, str_eqb a b = true <-> a = b.
Proof.
  unfold str_eqb. induction a as [|x a IH]; intros [|y b]; cbn; try (split; congruence).
  rewrite andb_true_iff, Z.eqb_eq, IH. split; [intros [-> ->]; reflexivity|intros E; injection E; auto].
Qed.
Lemma str_eqb_spec a b : reflect (a = b) (str_eqb a b).
Proof. apply iff_reflect. symmetry. apply str_eqb_ok. Qed.

(** ** split and join *)
Lemma settled_map {A} (l : list A) : settled (map Some l) = Some l.
Proof. induction l as [|x l IH]; cbn; [reflexivity|]. rewrite IH. reflexivity. Qed.
Lemma join_settled ps : (do r <- join ps (SepItem c_slash); settled r) = Some (joined [slash] ps).
Proof. rewrite join_spec. cbn [obind]. apply settled_map. Qed.

Definition flat (c : comp) : Prop := ~ In slash c.
Lemma occurs_slash c k : occurs_at c [slash] k -> nth_error c k = Some slash.
Proof. intros (pre & suf & -> & <-). apply nth_error_mid. Qed.
Lemma flat_no_occ c : flat c <-> forall k, ~ occurs_at c [slash] k.
Proof.
  split.
  - intros F k O. apply occurs_slash in O. apply F. eapply nth_error_In; eauto.
  - intros H I. apply in_split in I. destruct I as (l1 & l2 & ->). apply (H (length l1)). exists l1, l2. auto.
Qed.
Lemma splits_joined : forall ps, ps <> [] -> Forall flat ps -> splits [slash] (joined [slash] ps) ps.
Proof.
  induction ps as [|p ps IH]; [congruence|]. intros _ F. inversion F; subst. destruct ps as [|p2 ps].
  - cbn. apply splits_last. apply flat_no_occ; auto.
  - cbn [joined]. change (joined [slash] (p2 :: ps)) with (joined [slash] (p2 :: ps)). apply splits_more; [|apply IH; [discriminate|auto]].
    intros k O. apply occurs_slash in O. destruct (Nat.le_gt_cases (length p) k) as [L|L]; [exact L|].
    rewrite nth_error_app1 in O by lia. exfalso. apply H1. eapply nth_error_In; eauto.
Qed.
Lemma splits_fun s ps : splits [slash] s ps -> forall ps', splits [slash] s ps' -> ps = ps'.
Proof.
  induction 1 as [s N|p rest ps M _ IH]; intros ps' H'.
  - inversion H' as [|p rest ps0 M0 H0 E0]; subst; auto. exfalso. apply (N (length p)). exists p, rest. auto.
  - inversion H' as [s N E0|p0 rest0 ps0 M0 H0 E0]; subst.
    + exfalso. apply (N (length p)). exists p, rest. auto.
    + assert (L : length p0 = length p).
      { apply Nat.le_antisymm.
        - apply M0. exists p, rest. split; [exact E0|reflexivity].
        - apply M. exists p0, rest0. split; [symmetry; exact E0|reflexivity]. }
      assert (E : p0 = p /\ rest0 = rest).
      { assert (Q : firstn (length p) (p0 ++ [slash] ++ rest0) = firstn (length p) (p ++ [slash] ++ rest)) by (f_equal; exact E0).
        rewrite <- L in Q at 1. rewrite !firstn_app, !firstn_all, !Nat.sub_diag in Q. cbn in Q. rewrite !app_nil_r in Q. subst.
        split; [reflexivity|]. apply app_inv_head in E0. injection E0; auto. }
      destruct E as [-> ->]. f_equal. apply IH. exact H0.
Qed.
Lemma splits_joins s ps : splits [slash] s ps -> s = joined [slash] ps /\ ps <> [] /\ Forall flat ps.
Proof.
  induction 1 as [s N|p rest ps M _ (IH & NE & F)].
  - split; [reflexivity|]. split; [discriminate|]. constructor; [apply flat_no_occ; exact N|constructor].
  - split; [|split; [discriminate|]].
    + destruct ps; [congruence|]. cbn [joined]. rewrite IH. reflexivity.
    + constructor; auto. intros I. apply in_split in I. destruct I as (l1 & l2 & ->).
      assert (length (l1 ++ slash :: l2) <= length l1). { apply M. exists l1, (l2 ++ [slash] ++ rest). rewrite <- app_assoc. auto. }
      rewrite app_length in H. cbn in H. lia.
Qed.
Lemma split_path p : (Z.of_nat (length p) < 2 ^ 31)%Z -> exists ps, split_on Z.eqb p [c_slash] = Some ps /\ splits [slash] p ps.
Proof.
  intros L. destruct (split_cuts_at_every_separator Z Z.eqb p [c_slash] zeqb_ok) as (ps & E & S & _); [discriminate|cbn [length]; lia|].
  exists ps. auto.
Qed.

(** ** The first loop *)
Definition nondot (c : comp) : bool := negb (str_eqb c dot).
Definition real (c : comp) : bool := nondot c && negb (is_nil c).
(** The last component that is not ".", if any, is empty. *)
Definition trailing (cs : list comp) : bool := match rev (filter nondot cs) with [] :: _ => true | _ => false end.
Definition tidy_rest (cs : list comp) : list comp := filter real cs ++ (if trailing cs then [[]] else []).
Definition tidy (cs : list comp) : list comp :=
  match cs with [] => [] | c :: cs => (if nondot c then [c] else []) ++ tidy_rest cs end.

Lemma tidy_rest_nil cs : tidy_rest cs = [] <-> filter nondot cs = [].
Proof.
  unfold tidy_rest, trailing. split.
  - intros E. apply app_eq_nil in E. destruct E as [E1 E2].
    destruct (rev (filter nondot cs)) as [|c r] eqn:R.
    + rewrite <- (rev_involutive (filter nondot cs)), R. reflexivity.
    + exfalso. assert (I : In c (filter nondot cs)) by (apply in_rev; rewrite R; left; auto).
      destruct c as [|x c]; [discriminate|]. apply filter_In in I. destruct I as [I1 I2].
      assert (I : In (x :: c) (filter real cs)). { apply filter_In. split; [auto|]. unfold real. rewrite I2. reflexivity. }
      rewrite E1 in I. destruct I.
  - intros E. rewrite E. cbn. rewrite app_nil_r.
    induction cs as [|c cs IH]; [reflexivity|]. cbn in *. unfold real. destruct (nondot c); [discriminate|]. cbn. auto.
Qed.

Lemma drop_loop_spec i : forall ps, i <= length ps -> forall R, R = tidy_rest (skipn i ps) ->
  drop_loop i (firstn i ps ++ R) =
    match i with O => Some R | S _ => Some (match ps with [] => [] | c :: _ => (if nondot c then [c] else []) end ++ tidy_rest (tl ps)) end.
Proof.
  induction i as [|i IH]; intros ps Hi R HR.
  - cbn. reflexivity.
  - destruct (nth_error_ex ps i ltac:(lia)) as (c & Ec).
    assert (Ef : firstn (S i) ps = firstn i ps ++ [c]).
    { rewrite (skipn_nth_error_cons ps i c Ec) || idtac. clear - Ec. revert i Ec. induction ps as [|x ps IH]; intros [|i] Ec; cbn in *; try discriminate.
      - injection Ec as ->. reflexivity.
      - f_equal. apply IH. exact Ec. }
    assert (Lf : length (firstn i ps) = i) by (apply firstn_length_le; lia).
    assert (Es : skipn i ps = c :: skipn (S i) ps) by (apply skipn_nth_error_cons; exact Ec).
    cbn [drop_loop]. rewrite Ef, <- app_assoc. cbn [app].
    replace (nth_error (firstn i ps ++ c :: R) i) with (Some c) by (symmetry; rewrite <- Lf at 2; apply nth_error_mid). cbn [obind].
    rewrite app_length, Lf. cbn [length].
    assert (Esp : splice_out i 1 (firstn i ps ++ c :: R) = Some (firstn i ps ++ R)).
    { unfold splice_out. rewrite app_length, Lf. cbn [length]. destruct (Nat.leb_spec (i + 1) (i + S (length R))); [|lia].
      f_equal. rewrite firstn_app, Lf, Nat.sub_diag, firstn_O, app_nil_r, firstn_firstn, Nat.min_id. f_equal.
      rewrite skipn_app, Lf. rewrite skipn_all2 by lia. replace (i + 1 - i) with 1 by lia. reflexivity. }
    assert (En : str_eqb c [c_dot] = negb (nondot c)) by (unfold nondot; rewrite negb_involutive; reflexivity).
    rewrite En, Esp. cbn [obind].
    destruct i as [|i].
    + (* the first component is only dropped when it is "." *)
      cbn [Nat.ltb Nat.leb]. rewrite andb_false_r. cbn [andb orb]. rewrite orb_false_r.
      destruct ps as [|c' ps]; [discriminate|]. cbn in Ec. injection Ec as ->. cbn [firstn app tl]. cbn [skipn] in HR. subst R.
      unfold negb. destruct (nondot c) eqn:N; cbn [drop_loop app]; reflexivity.
    + assert (G : forall R', R' = tidy_rest (skipn (S i) ps) ->
        drop_loop (S i) (firstn (S i) ps ++ R') = Some (match ps with [] => [] | c :: _ => (if nondot c then [c] else []) end ++ tidy_rest (tl ps))).
      { intros R' H'. apply (IH ps ltac:(lia) R' H'). }
      assert (T : tidy_rest (c :: skipn (S (S i)) ps) =
        if negb (nondot c) || (is_nil c && negb (is_nil R)) then R else c :: R).
      { rewrite HR. set (t := skipn (S (S i)) ps). clearbody t. unfold tidy_rest, trailing. cbn [filter].
        destruct (nondot c) eqn:N.
        - cbn [negb orb]. unfold real at 1. rewrite N. cbn [andb].
          assert (Ht : rev (c :: filter nondot t) = rev (filter nondot t) ++ [c]) by reflexivity. rewrite Ht.
          pose proof (tidy_rest_nil t) as TN. unfold tidy_rest, trailing in TN.
          destruct (is_nil c) eqn:Nc; cbn [negb andb].
          + destruct c; [|discriminate]. destruct (rev (filter nondot t)) as [|x r] eqn:R0.
            * assert (F0 : filter nondot t = []) by (rewrite <- (rev_involutive (filter nondot t)), R0; reflexivity).
              apply TN in F0. rewrite app_nil_r in *. rewrite F0. reflexivity.
            * cbn [app] in *.
              match goal with |- ?l = _ => assert (NE : l <> []) by (intros Q; apply TN in Q; rewrite Q in R0; discriminate); destruct l; [congruence|reflexivity] end.
          + cbn [app]. f_equal. f_equal. destruct (rev (filter nondot t)) as [|x r] eqn:R0; [|reflexivity].
            cbn. destruct c; [discriminate|reflexivity].
        - cbn [negb orb]. unfold real at 1. rewrite N. reflexivity. }
      replace (S i <? S i + S (length R) - 1) with (negb (is_nil R)).
      2:{ destruct R; cbn [is_nil negb length]; symmetry; [apply Nat.ltb_ge|apply Nat.ltb_lt]; lia. }
      change (0 <? S i) with true. rewrite andb_true_r.
      rewrite Es in G.
      destruct (negb (nondot c) || is_nil c && negb (is_nil R)) eqn:B.
      * apply G. rewrite T. reflexivity.
      * change (c :: R) with ([c] ++ R). rewrite <- T in * || idtac.
        replace (firstn (S i) ps ++ c :: R) with (firstn (S i) ps ++ (c :: R)) by reflexivity. apply G. rewrite T. reflexivity.
Qed.

Lemma drop_spec ps : ps <> [] -> drop_loop (length ps) ps = Some (tidy ps).
Proof.
  intros N. pose proof (drop_loop_spec (length ps) ps (Nat.le_refl _) []) as H.
  rewrite skipn_all, firstn_all, app_nil_r in H. rewrite (H eq_refl). destruct ps; [congruence|]. reflexivity.
Qed.

(** ** The second loop: a stack, topmost first. *)
Definition go_step (st : list comp) (c : comp) : list comp :=
  match st with [] => [c] | _ :: t => if str_eqb c dotdot then t else c :: st end.
Definition go (cs : list comp) : list comp := rev (fold_left go_step cs []).

Lemma dots_loop_lift fuel :
  (forall y t rest, 2 * length rest + 2 <= fuel ->
     dots_loop fuel (length (y :: t)) (rev (y :: t) ++ rest) = Some (rev (fold_left go_step rest (y :: t)))) ->
  forall st rest, 2 * length rest + 2 <= fuel + (match st with [] => 1 | _ => 0 end) ->
  dots_loop fuel (Nat.max 1 (length st)) (rev st ++ rest) = Some (rev (fold_left go_step rest st)).
Proof.
  intros H [|y t] rest HF.
  - destruct rest as [|c rest]; [destruct fuel; [cbn in HF; lia|reflexivity]|].
    cbn [length] in HF. apply (H c [] rest). lia.
  - replace (Nat.max 1 (length (y :: t))) with (length (y :: t)) by (cbn [length]; lia). apply H. lia.
Qed.
Lemma dots_loop_nonempty : forall fuel y t rest, 2 * length rest + 2 <= fuel ->
     dots_loop fuel (length (y :: t)) (rev (y :: t) ++ rest) = Some (rev (fold_left go_step rest (y :: t))).
Proof.
  induction fuel as [|fuel IH]; intros y t rest HF; [lia|]. pose proof (dots_loop_lift fuel IH) as IH'. clear IH. set (st := y :: t).
  assert (Lr : length (rev st) = length st) by apply rev_length.
  cbn [dots_loop]. rewrite app_length, Lr. destruct rest as [|c rest].
  - destruct (Nat.ltb_spec (length st) (length st + length (@nil comp))); [cbn in *; lia|]. rewrite app_nil_r. reflexivity.
  - destruct (Nat.ltb_spec (length st) (length st + length (c :: rest))) as [_|]; [|cbn in *; lia].
    replace (nth_error (rev st ++ c :: rest) (length st)) with (Some c) by (symmetry; rewrite <- Lr; apply nth_error_mid). cbn [obind].
    replace (fold_left go_step (c :: rest) st) with (fold_left go_step rest (if str_eqb c dotdot then t else c :: st)) by reflexivity.
    change [c_dot; c_dot] with dotdot. destruct (str_eqb c dotdot) eqn:D.
    + assert (Esp : splice_out (length st - 1) 2 (rev st ++ c :: rest) = Some (rev t ++ rest)).
      { unfold splice_out. rewrite app_length, Lr. unfold st in *. cbn [length rev] in *. rewrite Nat.sub_succ, Nat.sub_0_r.
        destruct (Nat.leb_spec (length t + 2) (S (length t) + S (length rest))); [|lia]. f_equal.
        rewrite <- app_assoc. cbn [app]. rewrite firstn_app, rev_length, Nat.sub_diag, firstn_O, app_nil_r.
        rewrite <- (rev_length t) at 1. rewrite firstn_all. f_equal.
        rewrite skipn_app, rev_length. rewrite skipn_all2 by (rewrite rev_length; lia).
        replace (length t + 2 - length t) with 2 by lia. reflexivity. }
      rewrite Esp. cbn [obind].
      replace (S (if length st - 1 =? 0 then length st - 1 else length st - 1 - 1)) with (Nat.max 1 (length t)).
      2:{ unfold st. cbn [length]. rewrite Nat.sub_succ, Nat.sub_0_r. destruct (Nat.eqb_spec (length t) 0); lia. }
      apply IH'. cbn [length] in HF. destruct t; lia.
    + replace (rev st ++ c :: rest) with (rev (c :: st) ++ rest) by (cbn [rev]; rewrite <- app_assoc; reflexivity).
      replace (S (length st)) with (Nat.max 1 (length (c :: st))) by (cbn [length]; lia).
      apply IH'. cbn [length] in HF. lia.
Qed.
Lemma dots_spec ps : dots_loop (S (2 * length ps)) 1 ps = Some (go ps).
Proof.
  apply (dots_loop_lift _ (dots_loop_nonempty _) [] ps). lia.
Qed.

Lemma normalize_runs p ps : (Z.of_nat (length p) < 2 ^ 31)%Z -> splits [slash] p ps ->
  normalize p = Some (joined [slash] (go (tidy ps))).
Proof.
  intros L S. destruct (split_path p L) as (ps' & E & S'). rewrite (splits_fun _ _ S' _ S) in E.
  unfold normalize. rewrite E. cbn [obind]. destruct (splits_joins _ _ S) as (_ & NE & _).
  rewrite (drop_spec ps NE). cbn [obind]. rewrite dots_spec. cbn [obind]. apply join_settled.
Qed.

(** ** What the stack holds *)
Definition isname (c : comp) : Prop := c <> [] /\ c <> dot /\ c <> dotdot.
(** fold over real components *)
Lemma walk_real c ups names : real c = true -> c <> dotdot -> walk_step (ups, names) c = (ups, c :: names).
Proof.
  intros R D. unfold walk_step. unfold real, nondot in R. apply andb_true_iff in R. destruct R as [R1 R2].
  destruct (list_eq_dec Z.eq_dec c []) as [->|]; [discriminate|].
  destruct (list_eq_dec Z.eq_dec c dot) as [->|]; [discriminate|].
  destruct (list_eq_dec Z.eq_dec c dotdot); [congruence|]. reflexivity.
Qed.
Lemma walk_skip c st : real c = false -> walk_step st c = st.
Proof.
  unfold walk_step, real, nondot. intros R. destruct (list_eq_dec Z.eq_dec c []); [reflexivity|].
  destruct (list_eq_dec Z.eq_dec c dot); [reflexivity|]. exfalso.
  destruct (str_eqb_spec c dot); [congruence|]. destruct c; [congruence|]. discriminate.
Qed.
Lemma walk_filter cs : forall st, fold_left walk_step (filter real cs) st = fold_left walk_step cs st.
Proof.
  induction cs as [|c cs IH]; intros st; [reflexivity|]. cbn [filter fold_left]. destruct (real c) eqn:R.
  - cbn [fold_left]. apply IH.
  - rewrite (walk_skip c st R). apply IH.
Qed.
Lemma walk_dotdot ups names : walk_step (ups, names) dotdot = match names with [] => (S ups, []) | _ :: n => (ups, n) end.
Proof. reflexivity. Qed.

(** [base u] is what lies at the bottom of the stack. *)
Definition rel_base (u : nat) : list comp := if Nat.odd u then [dotdot] else [].
Definition abs_base (u : nat) : list comp := match u with O => [[]] | S u => rel_base u end.
Lemma go_names (base : nat -> list comp) :
  (forall u, go_step (base u) dotdot = base (S u)) ->
  forall cs, Forall (fun c => real c = true) cs -> forall ups names,
  let '(u, n) := fold_left walk_step cs (ups, names) in
  fold_left go_step cs (names ++ base ups) = n ++ base u.
Proof.
  intros HB. induction 1 as [|c cs R _ IH]; intros ups names; [reflexivity|]. cbn [fold_left].
  destruct (str_eqb_spec c dotdot) as [->|D].
  - rewrite walk_dotdot. destruct names as [|x names].
    + cbn [app]. rewrite HB. apply (IH (S ups) []).
    + cbn [app go_step]. apply (IH ups names).
  - rewrite (walk_real c ups names R D).
    replace (go_step (names ++ base ups) c) with ((c :: names) ++ base ups); [apply IH|].
    destruct (names ++ base ups) as [|x t] eqn:Q; cbn [app go_step].
    + rewrite Q. reflexivity.
    + rewrite Q. destruct (str_eqb_spec c dotdot); [congruence|reflexivity].
Qed.
Lemma rel_base_step u : go_step (rel_base u) dotdot = rel_base (S u).
Proof. unfold rel_base. rewrite Nat.odd_succ, <- Nat.negb_odd. destruct (Nat.odd u); reflexivity. Qed.
Lemma abs_base_step u : go_step (abs_base u) dotdot = abs_base (S u).
Proof. destruct u; [reflexivity|]. apply rel_base_step. Qed.

(** ** The shape of the tidied list *)
Definition tr (t : bool) : list comp := if t then [[]] else [].
Lemma joined_cons c d cs : joined [slash] (c :: d :: cs) = c ++ slash :: joined [slash] (d :: cs).
Proof. reflexivity. Qed.
Lemma absolute_comps cs : Forall flat cs -> (absolute (joined [slash] cs) <-> exists d r, cs = [] :: d :: r).
Proof.
  intros F. split.
  - intros (rest & E). destruct cs as [|c [|d cs]]; [discriminate| |].
    + cbn in E. subst. exfalso. inversion F; subst. apply H1. left. reflexivity.
    + rewrite joined_cons in E. destruct c as [|x c]; [eauto|]. injection E as -> _. inversion F; subst. exfalso. apply H1. left. reflexivity.
  - intros (d & r & ->). rewrite joined_cons. cbn. eexists. reflexivity.
Qed.
Lemma last_slash cs : joined [slash] cs <> [] -> forall x, joined [slash] cs = x ++ [slash] -> Forall flat cs -> exists cs', cs = cs' ++ [[]] /\ cs' <> [].
Proof.
  induction cs as [|c cs IH]; intros N x E F; [contradiction N; reflexivity|]. inversion F; subst. destruct cs as [|d cs].
  - cbn in E. subst. exfalso. apply H1. apply in_or_app. right. left. reflexivity.
  - rewrite joined_cons in E. destruct (joined [slash] (d :: cs)) as [|y j] eqn:J.
    + destruct cs; [|rewrite joined_cons in J; destruct d; discriminate]. cbn in J. subst. exists [c]. split; [reflexivity|discriminate].
    + destruct (IH ltac:(discriminate) (skipn (length c + 1) x)) as (cs' & -> & N').
      * assert (E' : skipn (length c + 1) (c ++ slash :: y :: j) = skipn (length c + 1) (x ++ [slash])) by (rewrite E; reflexivity).
        rewrite skipn_app, skipn_all2 in E' by lia. replace (length c + 1 - length c) with 1 in E' by lia. cbn [skipn app] in E'.
        rewrite E'. rewrite skipn_app. f_equal.
        assert (length (c ++ slash :: y :: j) = length (x ++ [slash])) by (rewrite E; reflexivity).
        rewrite !app_length in H. cbn in H. replace (length c + 1 - length x) with 0 by lia. reflexivity.
      * auto.
      * exists (c :: cs'). split; [reflexivity|discriminate].
Qed.
Lemma trailing_last cs : trailing (cs ++ [[]]) = true.
Proof. unfold trailing. rewrite filter_app. cbn. rewrite rev_app_distr. reflexivity. Qed.

Lemma trailing_snoc x t : forall cs c, x :: t = cs ++ [c] -> cs <> [] -> nondot c = true -> trailing t = is_nil c.
Proof.
  intros cs c E N D. destruct cs as [|y cs]; [congruence|]. injection E as _ ->.
  unfold trailing. rewrite filter_app. cbn [filter]. rewrite D, rev_app_distr. destruct c; reflexivity.
Qed.
Lemma tidy_shape p ps : splits [slash] p ps -> exists t,
  (~ absolute p -> tidy ps = filter real ps ++ tr t) /\
  (absolute p -> tidy ps = [] :: filter real ps ++ tr t) /\
  (absolute p -> forall x, p = x ++ [slash] -> t = true) /\
  (forall cs c, ps = cs ++ [c] -> cs <> [] -> nondot c = true -> t = is_nil c).
Proof.
  intros S. destruct (splits_joins _ _ S) as (-> & NE & F). pose proof (absolute_comps ps F) as A.
  destruct ps as [|c cs]; [congruence|]. destruct c as [|x c].
  - destruct cs as [|d cs].
    + exists true. split; [reflexivity|]. split; [intros AB; destruct (proj1 A AB) as (d & r & E); discriminate|]. split; [reflexivity|].
      intros cs c E N. destruct cs as [|y [|z cs]]; [congruence|discriminate|discriminate].
    + assert (AB : absolute (joined [slash] ([] :: d :: cs))) by (apply A; eauto).
      exists (trailing (d :: cs)). split; [contradiction|]. split; [reflexivity|]. split; [|apply trailing_snoc]. intros _ x E.
      destruct (last_slash _ ltac:(rewrite E; destruct x; discriminate) x E F) as (cs' & E' & N').
      destruct cs' as [|y cs']; [congruence|]. injection E' as _ E'. rewrite E'. apply trailing_last.
  - assert (NA : ~ absolute (joined [slash] ((x :: c) :: cs))) by (rewrite A; intros (d & r & E); discriminate).
    exists (trailing cs). split; [|split; [intros; contradiction|split; [intros; contradiction|apply trailing_snoc]]]. intros _.
    unfold tidy, tidy_rest. cbn [filter]. unfold real at 2. cbn [is_nil negb]. rewrite andb_true_r.
    destruct (nondot (x :: c)); reflexivity.
Qed.

(** ** The names the walk collects *)
Lemma walk_names cs : Forall flat cs -> forall st, Forall name (snd st) -> Forall name (snd (fold_left walk_step cs st)).
Proof.
  induction 1 as [|c cs F _ IH]; intros [u n] H; [exact H|]. cbn [fold_left]. apply IH. unfold walk_step.
  destruct (list_eq_dec Z.eq_dec c []); [exact H|]. destruct (list_eq_dec Z.eq_dec c dot); [exact H|].
  destruct (list_eq_dec Z.eq_dec c dotdot).
  - destruct n; [exact H|]. inversion H; subst. assumption.
  - cbn. constructor; [|exact H]. unfold name. auto.
Qed.
Lemma name_real c : name c -> real c = true /\ c <> dotdot /\ flat c.
Proof.
  intros (N1 & N2 & N3 & N4). split; [|auto]. unfold real, nondot. destruct (str_eqb_spec c dot); [congruence|]. destruct c; [congruence|reflexivity].
Qed.
Lemma walk_push ns : Forall name ns -> forall u n, fold_left walk_step ns (u, n) = (u, rev ns ++ n).
Proof.
  induction 1 as [|c ns N _ IH]; intros u n; [reflexivity|]. cbn [fold_left]. apply name_real in N. destruct N as (R & D & _).
  rewrite (walk_real c u n R D), IH. cbn [rev]. rewrite <- app_assoc. reflexivity.
Qed.

(** ** Lists the loops leave alone *)
Inductive settled_form : list comp -> Prop :=
| sf_nil : settled_form []
| sf_cons x l t : x <> dot -> flat x -> Forall name l -> settled_form (x :: l ++ tr t).
Lemma go_push ns : Forall (fun c => c <> dotdot) ns -> forall x t, fold_left go_step ns (x :: t) = rev ns ++ x :: t.
Proof.
  induction 1 as [|c ns N _ IH]; intros x t; [reflexivity|]. cbn [fold_left go_step]. destruct (str_eqb_spec c dotdot); [congruence|].
  rewrite IH. cbn [rev]. rewrite <- app_assoc. reflexivity.
Qed.
Lemma filter_all {A} (f : A -> bool) l : Forall (fun x => f x = true) l -> filter f l = l.
Proof. induction 1 as [|x l H _ IH]; cbn; [reflexivity|]. rewrite H, IH. reflexivity. Qed.
Lemma settled_fixed cs : settled_form cs -> go (tidy cs) = cs /\ Forall flat cs.
Proof.
  intros [|x l t Hx Fx Nl]; [split; [reflexivity|constructor]|].
  assert (R : Forall (fun c => real c = true) l) by (eapply Forall_impl; [|exact Nl]; intros c N; apply name_real; exact N).
  assert (ND : Forall (fun c => nondot c = true) l) by (eapply Forall_impl; [|exact R]; intros c N; unfold real in N; apply andb_true_iff in N; tauto).
  split.
  - assert (T : tidy_rest (l ++ tr t) = l ++ tr t).
    { unfold tidy_rest. rewrite filter_app, (filter_all _ _ R).
      assert (filter real (tr t) = []) by (destruct t; reflexivity). rewrite H, app_nil_r. f_equal.
      destruct t; [change (tr true) with [@nil Z]; rewrite trailing_last; reflexivity|]. cbn [tr]. rewrite app_nil_r.
      unfold trailing. rewrite (filter_all _ _ ND). destruct (rev l) as [|c r] eqn:E; [reflexivity|].
      assert (I : In c l) by (apply in_rev; rewrite E; left; auto). destruct c; [|reflexivity].
      pose proof (proj1 (Forall_forall _ _) Nl [] I) as (C & _). congruence. }
    unfold tidy. rewrite T. replace (nondot x) with true.
    2:{ unfold nondot. destruct (str_eqb_spec x dot); [congruence|reflexivity]. }
    unfold go. cbn [app fold_left go_step]. rewrite go_push.
    + rewrite rev_app_distr, rev_involutive. reflexivity.
    + apply Forall_app. split; [eapply Forall_impl; [|exact Nl]; intros c N; apply N|]. destruct t; [constructor; [discriminate|constructor]|constructor].
  - constructor; [exact Fx|]. apply Forall_app. split; [eapply Forall_impl; [|exact Nl]; intros c N; apply N|]. destruct t; [constructor; [intros []|constructor]|constructor].
Qed.
Lemma settled_normal cs q : settled_form cs -> splits [slash] q cs -> normal q.
Proof.
  intros SF S. exists cs. split; [exact S|]. destruct SF as [|x l t Hx Fx Nl]; [destruct (splits_joins _ _ S) as (_ & C & _); congruence|].
  intros [|i] c E; cbn in E.
  - injection E as <-. auto.
  - destruct (Nat.lt_ge_cases i (length l)) as [L|L].
    + rewrite nth_error_app1 in E by auto. apply nth_error_In in E. pose proof (proj1 (Forall_forall _ _) Nl c E) as (N1 & N2 & N3 & _). intuition congruence.
    + rewrite nth_error_app2 in E by auto. destruct t; cbn [tr] in E; [|destruct (i - length l); discriminate].
      destruct (i - length l) as [|k] eqn:Q; [|destruct k; discriminate]. injection E as <-.
      split; [discriminate|]. split; [|discriminate]. intros _. right. cbn [length]. rewrite app_length. cbn [tr length]. lia.
Qed.

(** The components of the result, given the walk of the input. *)
Definition result (base : list comp) (names : list comp) (t : bool) : list comp := rev (names ++ base) ++ tr t.
Lemma result_settled base names t : (base = [] \/ base = [dotdot] \/ base = [[]]) -> Forall name names -> settled_form (result base names t).
Proof.
  intros HB N. unfold result. rewrite rev_app_distr. assert (N' : Forall name (rev names)) by (apply Forall_rev; exact N).
  destruct HB as [->|[->| ->]].
  - cbn [rev app]. destruct (rev names) as [|x l]; [destruct t; cbn; [apply (sf_cons [] [] false); [discriminate|intros []|constructor]|constructor]|].
    inversion N'; subst. cbn [app]. apply sf_cons; auto; apply H1.
  - cbn [rev app]. apply sf_cons; auto; [discriminate|]. intros [E|[E|[]]]; discriminate.
  - cbn [rev app]. apply sf_cons; auto; [discriminate|]. intros [].
Qed.
(** The components of a text given as joined components. *)
Definition comps_of (cs : list comp) : list comp := match cs with [] => [[]] | _ => cs end.
Lemma comps_of_splits cs : Forall flat cs -> splits [slash] (joined [slash] cs) (comps_of cs).
Proof.
  intros F. destruct cs as [|c cs]; [|apply splits_joined; [discriminate|exact F]].
  apply splits_last. intros k O. apply occurs_slash in O. destruct k; discriminate.
Qed.
Lemma walk_comps_of cs : walk (comps_of cs) = walk cs.
Proof. destruct cs; reflexivity. Qed.
Lemma walk_result_rel u names t : Forall name names -> walk (result (rel_base u) names t) = (u mod 2, names).
Proof.
  intros N. unfold walk, result. rewrite rev_app_distr, !fold_left_app.
  assert (E : fold_left walk_step (rev (rel_base u)) (0, []) = (u mod 2, [])).
  { unfold rel_base. rewrite <- Nat.bit0_mod, Nat.bit0_odd. destruct (Nat.odd u); reflexivity. }
  rewrite E, walk_push by (apply Forall_rev; exact N). rewrite rev_involutive, app_nil_r. destruct t; reflexivity.
Qed.
Lemma walk_result_root names t : Forall name names -> walk (result [[]] names t) = (0, names).
Proof.
  intros N. unfold walk, result. rewrite rev_app_distr, !fold_left_app.
  change (fold_left walk_step (rev [[]]) (0, [])) with (0, @nil comp).
  rewrite walk_push by (apply Forall_rev; exact N). rewrite rev_involutive, app_nil_r. destruct t; reflexivity.
Qed.
Lemma real_filter cs : Forall (fun c => real c = true) (filter real cs).
Proof. apply Forall_forall. intros c I. apply filter_In in I. tauto. Qed.
Lemma go_trail st t : fold_left go_step (tr t) st = rev (tr t) ++ st.
Proof. destruct t; [|reflexivity]. destruct st; reflexivity. Qed.

Lemma normalize_shape p ps u names : (Z.of_nat (length p) < 2 ^ 31)%Z -> splits [slash] p ps -> walk ps = (u, names) ->
  exists t, (~ absolute p -> normalize p = Some (joined [slash] (result (rel_base u) names t))) /\
            (absolute p -> normalize p = Some (joined [slash] (result (abs_base u) names t))) /\
            (absolute p -> forall x, p = x ++ [slash] -> t = true) /\ Forall name names /\
            (forall cs c, ps = cs ++ [c] -> cs <> [] -> nondot c = true -> t = is_nil c).
Proof.
  intros L S W. destruct (tidy_shape p ps S) as (t & T1 & T2 & T3 & T4). exists t.
  assert (N : Forall name names).
  { pose proof (walk_names ps (proj2 (proj2 (splits_joins _ _ S))) (0, []) (Forall_nil _)) as H. unfold walk in W. rewrite W in H. exact H. }
  assert (W' : fold_left walk_step (filter real ps) (0, []) = (u, names)) by (rewrite walk_filter; exact W).
  rewrite (normalize_runs p ps L S). split; [|split; [|auto]].
  - intros NA. rewrite (T1 NA). unfold go, result. rewrite fold_left_app.
    pose proof (go_names rel_base rel_base_step (filter real ps) (real_filter ps) 0 []) as G. rewrite W' in G. cbn [app] in G.
    change (rel_base 0) with (@nil comp) in G. rewrite G, go_trail, rev_app_distr, rev_involutive. reflexivity.
  - intros AB. rewrite (T2 AB). unfold go, result. cbn [fold_left go_step]. rewrite fold_left_app.
    pose proof (go_names abs_base abs_base_step (filter real ps) (real_filter ps) 0 []) as G. rewrite W' in G. cbn [app] in G.
    change (abs_base 0) with [@nil Z] in G. rewrite G, go_trail, rev_app_distr, rev_involutive. reflexivity.
Qed.
Lemma base_cases u : (rel_base u = [] \/ rel_base u = [dotdot] \/ rel_base u = [[]]) /\ (abs_base u = [] \/ abs_base u = [dotdot] \/ abs_base u = [[]]).
Proof.
  assert (R : forall u, rel_base u = [] \/ rel_base u = [dotdot] \/ rel_base u = [[]]) by (intros v; unfold rel_base; destruct (Nat.odd v); auto).
  split; [apply R|]. destruct u; cbn; auto.
Qed.
Lemma goes_total p : (Z.of_nat (length p) < 2 ^ 31)%Z -> exists ps u names, splits [slash] p ps /\ walk ps = (u, names).
Proof. intros L. destruct (split_path p L) as (ps & _ & S). destruct (walk ps) as [u n] eqn:W. eauto. Qed.

(** ** The result is never longer *)
Fixpoint weight (cs : list comp) : nat := match cs with [] => 0 | c :: cs => S (length c) + weight cs end.
Lemma weight_app a b : weight (a ++ b) = weight a + weight b.
Proof. induction a as [|c a IH]; cbn; [reflexivity|]. rewrite IH. lia. Qed.
Lemma weight_rev a : weight (rev a) = weight a.
Proof. induction a as [|c a IH]; cbn; [reflexivity|]. rewrite weight_app, IH. cbn. lia. Qed.
Lemma joined_weight cs : cs <> [] -> S (length (joined [slash] cs)) = weight cs.
Proof.
  induction cs as [|c [|d cs] IH]; intros N; [congruence|cbn; lia|].
  rewrite joined_cons, app_length. cbn [length]. specialize (IH ltac:(discriminate)). cbn [weight] in *. lia.
Qed.
Lemma weight_filter f cs : weight (filter f cs) <= weight cs.
Proof. induction cs as [|c cs IH]; cbn; [lia|]. destruct (f c); cbn; lia. Qed.
Lemma tidy_rest_weight cs : weight (tidy_rest cs) <= weight cs.
Proof.
  unfold tidy_rest. rewrite weight_app. destruct (trailing cs) eqn:T; [|cbn; rewrite Nat.add_0_r; apply weight_filter].
  unfold trailing in T. destruct (rev (filter nondot cs)) as [|[|] r] eqn:R; try discriminate.
  assert (I : In [] cs). { assert (I : In [] (filter nondot cs)) by (apply in_rev; rewrite R; left; auto). apply filter_In in I. tauto. }
  apply in_split in I. destruct I as (a & b & ->). rewrite filter_app. cbn [filter]. change (real []) with false. cbn iota.
  rewrite !weight_app. cbn. pose proof (weight_filter real a). pose proof (weight_filter real b). lia.
Qed.
Lemma go_weight cs : forall st, weight (fold_left go_step cs st) <= weight st + weight cs.
Proof.
  induction cs as [|c cs IH]; intros st; cbn [fold_left]; [cbn; lia|]. rewrite IH.
  change (weight (c :: cs)) with (S (length c) + weight cs). unfold go_step. destruct st as [|x t]; [cbn; lia|].
  change (weight (x :: t)) with (S (length x) + weight t). destruct (str_eqb c dotdot); [lia|]. change (weight (c :: x :: t)) with (S (length c) + (S (length x) + weight t)). lia.
Qed.
Lemma go_tidy_shorter ps : length (joined [slash] (go (tidy ps))) <= length (joined [slash] ps).
Proof.
  destruct (go (tidy ps)) as [|c r] eqn:G; [cbn; lia|]. rewrite <- G.
  destruct ps as [|x ps]; [discriminate|].
  assert (W : weight (go (tidy (x :: ps))) <= weight (x :: ps)).
  { unfold go. rewrite weight_rev. etransitivity; [apply go_weight|]. change (weight []) with 0. cbn [plus]. unfold tidy. rewrite weight_app.
    pose proof (tidy_rest_weight ps). change (weight (x :: ps)) with (S (length x) + weight ps).
    destruct (nondot x); [change (weight [x]) with (S (length x) + 0)|change (weight []) with 0]; lia. }
  rewrite <- (joined_weight (x :: ps)) in W by discriminate. rewrite <- joined_weight in W by (rewrite G; discriminate). lia.
Qed.

(** ** relative *)
Lemma Forall_firstn {A} (P : A -> Prop) n l : Forall P l -> Forall P (firstn n l).
Proof. intros F. revert n. induction F; intros [|n]; cbn; constructor; auto. Qed.
Lemma Forall_skipn {A} (P : A -> Prop) n l : Forall P l -> Forall P (skipn n l).
Proof. intros F. revert n. induction F; intros [|n]; cbn; auto. Qed.
Fixpoint slashes (cs : list comp) : list Z := match cs with [] => [] | c :: cs => c ++ slash :: slashes cs end.
Lemma slashes_app a b : slashes (a ++ b) = slashes a ++ slashes b.
Proof. induction a as [|c a IH]; cbn; [reflexivity|]. rewrite IH, <- app_assoc. reflexivity. Qed.
Lemma joined_snoc cs c : joined [slash] (cs ++ [c]) = slashes cs ++ c.
Proof.
  induction cs as [|d cs IH]; [reflexivity|]. cbn [slashes]. rewrite <- app_assoc. cbn [app]. rewrite <- IH.
  change ((d :: cs) ++ [c]) with (d :: (cs ++ [c])). destruct (cs ++ [c]) as [|e r] eqn:E; [destruct cs; discriminate|]. apply joined_cons.
Qed.
Definition cut (x : list Z) : Prop := x = [] \/ exists x', x = x' ++ [slash].
Lemma prefix_slash cs : Forall flat cs -> forall z x y, flat z -> x ++ y = slashes cs ++ z -> cut x ->
  exists k, k <= length cs /\ x = slashes (firstn k cs) /\ y = slashes (skipn k cs) ++ z.
Proof.
  induction 1 as [|c cs F _ IH]; intros z x y Fz E C.
  - exists 0. split; [lia|]. destruct C as [->|(x' & ->)]; [cbn in *; auto|].
    exfalso. apply Fz. cbn in E. rewrite <- E. apply in_or_app. left. apply in_or_app. right. left. reflexivity.
  - destruct x as [|x0 x1] eqn:X; [exists 0; cbn [app] in E; subst; split; [lia|auto]|]. rewrite <- X in *. assert (NX : x <> []) by (rewrite X; discriminate). clear X x0 x1.
    cbn [slashes] in E. rewrite <- app_assoc in E. cbn [app] in E.
    assert (G : length c < length x).
    { destruct C as [->|(x' & ->)]; [congruence|]. destruct (Nat.lt_ge_cases (length c) (length (x' ++ [slash]))) as [H|H]; [exact H|].
      exfalso. apply F. rewrite <- app_assoc in E. cbn [app] in E.
      assert (N : nth_error (x' ++ slash :: y) (length x') = Some slash) by apply nth_error_mid.
      rewrite E in N. rewrite app_length in H. cbn in H. rewrite nth_error_app1 in N by lia. eapply nth_error_In; eauto. }
    assert (X : x = c ++ slash :: skipn (S (length c)) x).
    { rewrite <- (firstn_skipn (S (length c)) x) at 1.
      assert (firstn (S (length c)) (x ++ y) = c ++ [slash]).
      { rewrite E. replace (c ++ slash :: slashes cs ++ z) with ((c ++ [slash]) ++ slashes cs ++ z) by (rewrite <- app_assoc; reflexivity).
        rewrite firstn_app. replace (S (length c) - length (c ++ [slash])) with 0 by (rewrite app_length; cbn [length]; lia). rewrite firstn_O, app_nil_r. apply firstn_all2. rewrite app_length. cbn [length]. lia. }
      rewrite firstn_app in H. replace (S (length c) - length x) with 0 in H by lia. rewrite firstn_O, app_nil_r in H. rewrite H, <- app_assoc. reflexivity. }
    set (x2 := skipn (S (length c)) x) in *. clearbody x2. subst x.
    rewrite <- app_assoc in E. apply app_inv_head in E. cbn [app] in E. injection E as E.
    assert (C2 : cut x2).
    { destruct C as [C|(x' & C)]; [destruct c; discriminate|]. destruct x2 as [|q x2 _] using rev_ind; [left; auto|]. right.
      change (c ++ slash :: x2 ++ [q]) with (c ++ (slash :: x2) ++ [q]) in C. rewrite app_assoc in C. apply app_inj_tail in C. destruct C as [_ ->]. eauto. }
    destruct (IH z x2 y Fz E C2) as (k & Hk & -> & ->). exists (S k). split; [cbn; lia|]. split; reflexivity.
Qed.
Lemma slashes_inj a b : Forall flat a -> Forall flat b -> slashes a = slashes b -> a = b.
Proof.
  intros Fa Fb E. assert (P : forall l, Forall flat l -> splits [slash] (slashes l) (l ++ [[]])).
  { intros l F. rewrite <- (app_nil_r (slashes l)), <- joined_snoc. apply splits_joined; [destruct l; discriminate|].
    apply Forall_app. split; [exact F|]. constructor; [intros []|constructor]. }
  pose proof (splits_fun _ _ (P a Fa) (b ++ [[]])) as Q. rewrite E in Q. specialize (Q (P b Fb)). apply app_inv_tail in Q. exact Q.
Qed.

(** The common part: the longest common prefix that is empty or ends in a slash. *)
Lemma same_loop_spec : forall fuel i from to same,
  i + fuel <= length from -> i + fuel <= length to ->
  firstn i from = firstn i to -> same <= i -> cut (firstn same from) -> (forall m, m <= i -> cut (firstn m from) -> m <= same) ->
  exists m, same_loop fuel i from to same = Some m /\ m <= i + fuel /\ firstn m from = firstn m to /\ cut (firstn m from) /\
    forall n, n <= i + fuel -> firstn n from = firstn n to -> cut (firstn n from) -> n <= m.
Proof.
  induction fuel as [|fuel IH]; intros i from to same Hf Ht E Hs C M.
  - exists same. split; [reflexivity|]. split; [lia|]. split; [|split; [exact C|]].
    + rewrite <- (Nat.min_l same i), <- !firstn_firstn by lia. rewrite E. reflexivity.
    + intros n Hn _ Cn. apply M; [lia|exact Cn].
  - cbn [same_loop]. destruct (nth_error_ex from i ltac:(lia)) as (a & Ea). destruct (nth_error_ex to i ltac:(lia)) as (b & Eb).
    rewrite Ea, Eb. cbn [obind].
    assert (SN : forall (l : list Z) x, nth_error l i = Some x -> firstn (S i) l = firstn i l ++ [x]).
    { clear. intros l x H. revert i H. induction l as [|y l IHl]; intros [|i] H; cbn in *; try discriminate; [injection H as ->; reflexivity|].
      f_equal. apply IHl. exact H. }
    destruct (Z.eqb_spec b a) as [->|Nab]; cbn [negb].
    + assert (E' : firstn (S i) from = firstn (S i) to) by (rewrite (SN _ _ Ea), (SN _ _ Eb), E; reflexivity).
      destruct (IH (S i) from to (if Z.eqb a c_slash then i + 1 else same)) as (m & R & H1 & H2 & H3 & H4); [lia|lia|exact E'| | | |].
      * destruct (Z.eqb a c_slash); lia.
      * destruct (Z.eqb_spec a c_slash) as [->|]; [|exact C]. right. exists (firstn i from). rewrite Nat.add_1_r. apply SN. exact Ea.
      * intros m Hm Cm. destruct (Nat.eq_dec m (S i)) as [->|].
        -- destruct (Z.eqb_spec a c_slash); [lia|]. exfalso. rewrite (SN _ _ Ea) in Cm. destruct Cm as [Cm|(x & Cm)]; [destruct (firstn i from); discriminate|].
           apply app_inj_tail in Cm. destruct Cm as [_ Cm]. apply n. exact Cm.
        -- assert (m <= same) by (apply M; [lia|exact Cm]). destruct (Z.eqb a c_slash); lia.
      * exists m. split; [exact R|]. split; [lia|]. split; [exact H2|]. split; [exact H3|]. intros n Hn. apply H4. lia.
    + exists same. split; [reflexivity|]. split; [lia|]. split; [|split; [exact C|]].
      * rewrite <- (Nat.min_l same i), <- !firstn_firstn by lia. rewrite E. reflexivity.
      * intros n Hn En Cn. destruct (Nat.le_gt_cases n i) as [Q|Q]; [apply M; auto|]. exfalso. apply Nab.
        assert (nth_error (firstn n from) i = nth_error (firstn n to) i) by (rewrite En; reflexivity).
        rewrite !nth_error_firstn in H by lia. rewrite Ea, Eb in H. injection H. congruence.
Qed.

Lemma ups_loop_spec rest : forall res, flat [] -> ups_loop rest res = res ++ slashes (repeat dotdot (length (filter (Z.eqb slash) rest))).
Proof.
  induction rest as [|c rest IH]; intros res F; cbn [ups_loop filter]; [cbn; rewrite app_nil_r; reflexivity|].
  rewrite IH by exact F. change c_slash with slash. rewrite Z.eqb_sym. destruct (Z.eqb slash c); [|reflexivity].
  cbn [length repeat slashes]. rewrite <- app_assoc. reflexivity.
Qed.
Lemma count_slashes cs : Forall flat cs -> length (filter (Z.eqb slash) (slashes cs)) = length cs.
Proof.
  induction 1 as [|c cs F _ IH]; [reflexivity|]. cbn [slashes]. rewrite filter_app. cbn [filter]. rewrite Z.eqb_refl.
  replace (filter (Z.eqb slash) c) with (@nil Z); [cbn; rewrite IH; reflexivity|].
  symmetry. clear IH. unfold flat in F. induction c as [|x c IHc]; [reflexivity|]. cbn [filter]. destruct (Z.eqb_spec slash x) as [<-|]; [exfalso; apply F; left; auto|].
  apply IHc. intros I. apply F. right. exact I.
Qed.

(** relative between a directory and a path, by components. *)
Lemma relative_comps A Bi bl : Forall flat A -> Forall flat Bi -> flat bl ->
  exists k, k <= length A /\ k <= length Bi /\ firstn k A = firstn k Bi /\
    relative (slashes A) (slashes Bi ++ bl) = Some (slashes (repeat dotdot (length A - k) ++ skipn k Bi) ++ bl) /\
    (forall A' Bi', A = [] :: A' -> Bi = [] :: Bi' -> 1 <= k).
Proof.
  intros FA FB Fb. unfold relative. set (a := slashes A). set (b := slashes Bi ++ bl).
  set (mn := if length a <? length b then length a else length b).
  assert (Hmn : mn <= length a /\ mn <= length b /\ (mn = length a \/ mn = length b)) by (unfold mn; destruct (Nat.ltb_spec (length a) (length b)); lia).
  destruct Hmn as (M1 & M2 & M3). clearbody mn.
  destruct (same_loop_spec mn 0 a b 0) as (m & R & H1 & H2 & H3 & H4); [lia|lia|reflexivity|lia|left; reflexivity|intros; lia|].
  rewrite R. cbn [obind].
  destruct (prefix_slash A FA [] (firstn m a) (skipn m a)) as (k & K1 & K2 & K3); [intros []|rewrite firstn_skipn, app_nil_r; reflexivity|exact H3|].
  destruct (prefix_slash Bi FB bl (firstn m b) (skipn m b)) as (k' & L1 & L2 & L3); [exact Fb|rewrite firstn_skipn; reflexivity|rewrite <- H2; exact H3|].
  assert (EK : firstn k A = firstn k' Bi).
  { apply slashes_inj; [apply Forall_firstn; exact FA|apply Forall_firstn; exact FB|]. rewrite <- K2, <- L2. exact H2. }
  assert (k' = k). { assert (length (firstn k A) = length (firstn k' Bi)) by (rewrite EK; reflexivity). rewrite !firstn_length_le in H by auto. auto. }
  subst k'. exists k. split; [exact K1|]. split; [exact L1|]. split; [exact EK|]. split.
  - rewrite K3, L3, app_nil_r, ups_loop_spec by intros []. cbn [app].
    rewrite count_slashes by (apply Forall_skipn; exact FA). rewrite skipn_length, slashes_app, <- app_assoc. reflexivity.
  - intros A' Bi' EA EB. destruct k as [|k]; [|lia]. exfalso. cbn in K2.
    assert (Q : 1 <= m).
    { apply H4.
      - unfold a, b in *. rewrite EA, EB in *. cbn [slashes app length] in M3. lia.
      - unfold a, b. rewrite EA, EB. reflexivity.
      - right. exists []. unfold a. rewrite EA. reflexivity. }
    destruct m; [lia|]. unfold a in K2. rewrite EA in K2. cbn in K2. discriminate.
Qed.

Lemma walk_ups n : forall u names, n <= length names -> fold_left walk_step (repeat dotdot n) (u, names) = (u, skipn n names).
Proof.
  induction n as [|n IH]; intros u names H; [reflexivity|]. cbn [repeat fold_left]. rewrite walk_dotdot. destruct names as [|x names]; [cbn in H; lia|].
  cbn in H. rewrite IH by lia. reflexivity.
Qed.
