(** C18, C19, C20: lib/path.fu. *)
From Verif Require Import PathSpec PathModel CommonLemmas PathProofs.
Open Scope nat_scope.

(** ** C18.  Exactly where normalize leads.  u: levels the path climbs above its start;
    names: what it then descends, innermost first. *)
Theorem normalize_exactly : forall p, (Z.of_nat (length p) < 2 ^ 31)%Z ->
  exists q, normalize p = Some q /\
  forall u names, goes p u names ->
    (~ absolute p -> ~ absolute q /\ goes q (u mod 2) names) /\
    (absolute p -> u = 0 -> goes q 0 names /\ (names <> [] \/ (exists x, p = x ++ [slash]) -> absolute q)) /\
    (absolute p -> forall k, u = S k -> ~ absolute q /\ goes q (k mod 2) names).
Proof.
  intros p L. destruct (goes_total p L) as (ps & u0 & n0 & S & W0).
  destruct (normalize_shape p ps u0 n0 L S W0) as (t & R & A & T & N & _).
  assert (D : absolute p \/ ~ absolute p).
  { destruct p as [|c r]; [right; intros (x & E); discriminate|]. destruct (Z.eq_dec c slash) as [->|Hc]; [left; eexists; reflexivity|].
    right. intros (x & E). injection E as E _. congruence. }
  assert (G : forall u names, goes p u names -> u = u0 /\ names = n0).
  { intros u names (cs & Sc & Wc). rewrite (splits_fun _ _ Sc _ S) in Wc. rewrite W0 in Wc. injection Wc as -> ->. auto. }
  destruct (base_cases u0) as [BR BA].
  assert (NR : forall v, ~ absolute (joined [slash] (result (rel_base v) n0 t))).
  { intros v. rewrite absolute_comps by (apply settled_fixed, result_settled; [apply base_cases|exact N]).
    intros (d & r & E). unfold result in E. rewrite rev_app_distr in E. unfold rel_base in E. destruct (Nat.odd v).
    - discriminate.
    - cbn [rev app] in E. destruct (rev n0) as [|x l] eqn:Q; [destruct t; discriminate|]. cbn in E. injection E as -> _.
      assert (I : In [] n0) by (apply in_rev; rewrite Q; left; auto). pose proof (proj1 (Forall_forall _ _) N [] I) as (C & _). congruence. }
  assert (GR : forall v, goes (joined [slash] (result (rel_base v) n0 t)) (v mod 2) n0).
  { intros v. exists (comps_of (result (rel_base v) n0 t)). split.
    - apply comps_of_splits. apply settled_fixed, result_settled; [apply base_cases|exact N].
    - rewrite walk_comps_of. apply walk_result_rel. exact N. }
  destruct D as [D|D].
  - exists (joined [slash] (result (abs_base u0) n0 t)). split; [auto|]. intros u names H. apply G in H. destruct H as [-> ->].
    split; [contradiction|]. split.
    + intros _ ->. cbn [abs_base]. split.
      * exists (comps_of (result [[]] n0 t)). split; [apply comps_of_splits; apply settled_fixed, result_settled; auto|].
        rewrite walk_comps_of. apply walk_result_root. exact N.
      * intros H. apply absolute_comps; [apply settled_fixed, result_settled; auto|]. unfold result. rewrite rev_app_distr. cbn [rev app].
        destruct (rev n0) as [|x l] eqn:Q; [|cbn; eauto].
        destruct H as [H|(x & E)]; [exfalso; apply H; rewrite <- (rev_involutive n0), Q; reflexivity|].
        rewrite (T D x E). cbn. eauto.
    + intros _ k ->. cbn [abs_base]. auto.
  - exists (joined [slash] (result (rel_base u0) n0 t)). split; [auto|]. intros u names H. apply G in H. destruct H as [-> ->].
    split; [auto|]. split; contradiction.
Qed.
Print Assumptions normalize_exactly.

(** The property, wherever the code keeps it: relative paths that climb at most one level and absolute ones
    that never try to leave the root and do not denote the root without a final slash. *)
Theorem normalize_keeps_the_location_partial : forall p u names, (Z.of_nat (length p) < 2 ^ 31)%Z -> goes p u names ->
  (~ absolute p /\ u <= 1) \/ (absolute p /\ u = 0 /\ (names <> [] \/ exists x, p = x ++ [slash])) ->
  exists q, normalize p = Some q /\ same_location p q.
Proof.
  intros p u names L G H. destruct (normalize_exactly p L) as (q & E & X). exists q. split; [exact E|].
  destruct (X u names G) as (X1 & X2 & X3). destruct H as [[NA U]|(AB & U & T)].
  - destruct (X1 NA) as [NQ GQ]. split; [tauto|]. exists u, (u mod 2), names. split; [exact G|]. split; [exact GQ|]. intros _.
    symmetry. apply Nat.mod_small. lia.
  - destruct (X2 AB U) as [GQ AQ]. split; [split; auto|]. exists u, 0, names. auto.
Qed.
Print Assumptions normalize_keeps_the_location_partial.

(** Where it does not: "../../a", "/../a" and "/a/.." lose the climb or the root. *)
Definition s_up_up_a : list Z := [46; 46; 47; 46; 46; 47; 97]%Z.
Definition s_root_up_a : list Z := [47; 46; 46; 47; 97]%Z.
Definition s_root_a_up : list Z := [47; 97; 47; 46; 46]%Z.
Theorem normalize_keeps_the_location_refuted :
  normalize s_up_up_a = Some [97]%Z /\ ~ same_location s_up_up_a [97]%Z /\
  normalize s_root_up_a = Some [97]%Z /\ ~ same_location s_root_up_a [97]%Z /\
  normalize s_root_a_up = Some [] /\ ~ same_location s_root_a_up [].
Proof.
  assert (NA : ~ absolute [97]%Z) by (intros (x & E); discriminate).
  assert (NE : ~ absolute []) by (intros (x & E); discriminate).
  split; [reflexivity|]. split; [|split; [reflexivity|split; [|split; [reflexivity|]]]].
  - intros (_ & u & v & n & (cs & S1 & W1) & (cs2 & S2 & W2) & H).
    assert (E1 : cs = [dotdot; dotdot; [97%Z]]).
    { eapply splits_fun; [exact S1|]. apply (splits_joined [dotdot; dotdot; [97%Z]]); [discriminate|].
      repeat constructor; intros I; cbn in I; intuition discriminate. }
    assert (E2 : cs2 = [[97%Z]]).
    { eapply splits_fun; [exact S2|]. apply (splits_joined [[97%Z]]); [discriminate|]. repeat constructor; intros I; cbn in I; intuition discriminate. }
    subst. cbn in W1, W2. injection W1 as <- <-. injection W2 as <-.
    assert (2 = 0); [|discriminate]. apply H. intros (x & E). discriminate.
  - intros (H & _). apply NA, H. eexists. reflexivity.
  - intros (H & _). apply NE, H. eexists. reflexivity.
Qed.
Print Assumptions normalize_keeps_the_location_refuted.

(** The result is in normal form and normalizing again changes nothing. *)
Theorem normalize_is_normal : forall p, (Z.of_nat (length p) < 2 ^ 31)%Z -> exists q, normalize p = Some q /\ normal q /\ length q <= length p.
Proof.
  intros p L. destruct (goes_total p L) as (ps & u & names & S & W).
  destruct (normalize_shape p ps u names L S W) as (t & R & A & _ & N & _).
  assert (D : absolute p \/ ~ absolute p).
  { destruct p as [|c r]; [right; intros (x & E); discriminate|]. destruct (Z.eq_dec c slash) as [->|Hc]; [left; eexists; reflexivity|].
    right. intros (x & E). injection E as E _. congruence. }
  assert (Nm : forall base, (base = [] \/ base = [dotdot] \/ base = [[]]) -> normal (joined [slash] (result base names t))).
  { intros base HB. pose proof (result_settled base names t HB N) as SF. destruct (settled_fixed _ SF) as [_ FL].
    pose proof (comps_of_splits _ FL) as SP. destruct (result base names t) as [|c r] eqn:Q.
    - apply (settled_normal [[]]); [|exact SP]. apply (sf_cons [] [] false); [discriminate|intros []|constructor].
    - apply (settled_normal (c :: r)); [exact SF|exact SP]. }
  assert (Len : forall q, normalize p = Some q -> length q <= length p).
  { intros q E. rewrite (normalize_runs p ps L S) in E. injection E as <-.
    destruct (splits_joins _ _ S) as (-> & _ & _). apply go_tidy_shorter. }
  destruct D as [D|D]; eexists; (split; [auto|]); (split; [apply Nm, base_cases|]); apply Len; auto.
Qed.
Print Assumptions normalize_is_normal.

Theorem normalize_is_idempotent : forall p q, (Z.of_nat (length p) < 2 ^ 31)%Z -> normalize p = Some q -> normalize q = Some q.
Proof.
  intros p q L E. destruct (normalize_is_normal p L) as (q' & E' & _ & Lq). rewrite E in E'. injection E' as <-.
  destruct (goes_total p L) as (ps & u & names & S & W).
  destruct (normalize_shape p ps u names L S W) as (t & R & A & _ & N & _).
  assert (G : exists cs, settled_form cs /\ q = joined [slash] cs).
  { assert (D : absolute p \/ ~ absolute p).
    { destruct p as [|c r]; [right; intros (x & Q); discriminate|]. destruct (Z.eq_dec c slash) as [->|Hc]; [left; eexists; reflexivity|].
      right. intros (x & Q). injection Q as Q _. congruence. }
    destruct D as [D|D].
    - rewrite (A D) in E. injection E as <-. exists (result (abs_base u) names t). split; [apply result_settled; [apply (base_cases u)|exact N]|reflexivity].
    - rewrite (R D) in E. injection E as <-. exists (result (rel_base u) names t). split; [apply result_settled; [apply (base_cases u)|exact N]|reflexivity]. }
  destruct G as (cs & SF & ->). destruct (settled_fixed cs SF) as [Fx FL].
  rewrite (normalize_runs _ (comps_of cs)) by (first [lia | apply comps_of_splits; exact FL]).
  destruct cs as [|c cs]; [reflexivity|]. cbn [comps_of]. rewrite Fx. reflexivity.
Qed.
Print Assumptions normalize_is_idempotent.

(** ** C19.  The parts of a path. *)
(** ext and noext meet at the last dot of the last component; without one both are empty. *)
Theorem ext_splits_at_the_last_dot : forall p,
  (forall a b, p = a ++ c_dot :: b -> ~ In c_dot b -> ~ In c_slash b -> ext p = Some (c_dot :: b) /\ noext p = Some a) /\
  ((forall a b, p = a ++ c_dot :: b -> In c_slash b) -> ext p = Some [] /\ noext p = Some []).
Proof.
  assert (L : forall b a, 
    (forall x y, a = x ++ c_dot :: y -> ~ In c_dot (y ++ b) -> ~ In c_slash (y ++ b) ->
       ext_loop (length a) (a ++ b) = Some (c_dot :: y ++ b) /\ noext_loop (length a) (a ++ b) = Some x) /\
    ((forall x y, a = x ++ c_dot :: y -> In c_slash y) -> ext_loop (length a) (a ++ b) = Some [] /\ noext_loop (length a) (a ++ b) = Some [])).
  { intros b a. revert b. induction a as [|c a IH] using rev_ind; intros b.
    - split; [intros x y E; destruct x; discriminate|auto].
    - rewrite app_length. cbn [length]. rewrite Nat.add_1_r. cbn [ext_loop noext_loop]. rewrite <- app_assoc. cbn [app].
      rewrite nth_error_mid. cbn [obind]. destruct (IH (c :: b)) as [I1 I2].
      assert (F : firstn (length a) (a ++ c :: b) = a) by (rewrite firstn_app, firstn_all, Nat.sub_diag, firstn_O; apply app_nil_r).
      assert (K : skipn (length a) (a ++ c :: b) = c :: b) by (rewrite skipn_app, skipn_all, Nat.sub_diag; reflexivity).
      rewrite F, K. destruct (Z.eqb_spec c c_dot) as [->|Nd].
      + split.
        * intros x y E N1 N2. destruct y as [|z y _] using rev_ind.
          -- apply app_inj_tail in E. destruct E as [-> _]. auto.
          -- exfalso. change (x ++ c_dot :: y ++ [z]) with (x ++ (c_dot :: y) ++ [z]) in E. rewrite app_assoc in E.
             apply app_inj_tail in E. destruct E as [_ <-]. apply N1. apply in_or_app. left. apply in_or_app. right. left. reflexivity.
        * intros H. exfalso. destruct (H a [] eq_refl).
      + destruct (Z.eqb_spec c c_slash) as [->|Ns].
        * split; [|auto]. intros x y E N1 N2. exfalso. destruct y as [|z y _] using rev_ind.
          -- apply app_inj_tail in E. destruct E; congruence.
          -- change (x ++ c_dot :: y ++ [z]) with (x ++ (c_dot :: y) ++ [z]) in E. rewrite app_assoc in E.
             apply app_inj_tail in E. destruct E as [_ <-]. apply N2. apply in_or_app. left. apply in_or_app. right. left. reflexivity.
        * split.
          -- intros x y E N1 N2. destruct y as [|z y _] using rev_ind.
             ++ apply app_inj_tail in E. destruct E; congruence.
             ++ change (x ++ c_dot :: y ++ [z]) with (x ++ (c_dot :: y) ++ [z]) in E. rewrite app_assoc in E.
                apply app_inj_tail in E. destruct E as [E <-]. rewrite <- app_assoc in *. cbn [app] in *. apply I1; auto.
          -- intros H. apply I2. intros x y E. specialize (H x (y ++ [c])). rewrite E, <- app_assoc in H. specialize (H eq_refl).
             apply in_app_or in H. destruct H as [H|[H|[]]]; [exact H|congruence]. }
  intros p. unfold ext, noext. destruct (L [] p) as [L1 L2]. rewrite app_nil_r in *. split.
  - intros a b E N1 N2. specialize (L1 a b E). rewrite app_nil_r in L1. auto.
  - exact L2.
Qed.
Print Assumptions ext_splits_at_the_last_dot.

(** filename is what follows the last slash. *)
Theorem filename_is_the_last_component : forall p,
  exists d f, p = d ++ f /\ filename p = Some f /\ ~ In c_slash f /\ (d = [] \/ exists x, d = x ++ [c_slash]).
Proof.
  assert (L : forall a b, ~ In c_slash b -> exists d f, a ++ b = d ++ f /\ filename_loop (length a) (a ++ b) = Some f /\ ~ In c_slash f /\ (d = [] \/ exists x, d = x ++ [c_slash])).
  { induction a as [|c a IH] using rev_ind; intros b N.
    - exists [], b. cbn. auto.
    - rewrite app_length. cbn [length]. rewrite Nat.add_1_r. cbn [filename_loop]. rewrite <- app_assoc. cbn [app].
      rewrite nth_error_mid. cbn [obind]. destruct (Z.eqb_spec c c_slash) as [->|Nc].
      + exists (a ++ [c_slash]), b. rewrite <- app_assoc. split; [reflexivity|]. split; [|split; [exact N|right; eauto]].
        f_equal. rewrite skipn_app, skipn_all2 by lia. replace (length a + 1 - length a) with 1 by lia. reflexivity.
      + apply IH. intros [H|H]; [congruence|auto]. }
  intros p. destruct (L p [] (fun x => x)) as (d & f & E & H). rewrite app_nil_r in *. exists d, f. auto.
Qed.
Print Assumptions filename_is_the_last_component.

(** dirname ~ filename is the path, unless the path ends in a slash. *)
Theorem dirname_then_filename : forall p, ~ (exists x, p = x ++ [c_slash]) ->
  exists d f, dirname p = Some d /\ filename p = Some f /\ d ++ f = p /\ ~ In c_slash f /\ (d = [] \/ exists x, d = x ++ [c_slash]).
Proof.
  intros p H. destruct (filename_is_the_last_component p) as (d & f & E & F & N & D). exists d, f. split; [|auto].
  assert (G : forall a b, ~ In c_slash b -> dirname_loop (length (a ++ b)) (a ++ b ++ skipn 0 []) = dirname_loop (length a) (a ++ b)).
  { intros a b. revert a. induction b as [|c b IH] using rev_ind; intros a Nb; [rewrite !app_nil_r; reflexivity|].
    assert (Nc : c <> c_slash) by (intros ->; apply Nb, in_or_app; right; left; auto).
    assert (Gen : forall k t, k <= length (a ++ b) -> dirname_loop k ((a ++ b) ++ t) = dirname_loop k (a ++ b)).
    { induction k as [|k IHk]; intros t Hk; [reflexivity|]. cbn [dirname_loop]. rewrite nth_error_app1 by lia.
      destruct (nth_error (a ++ b) k); [|reflexivity]. cbn [obind]. destruct (Z.eqb z c_slash); [|apply IHk; lia].
      f_equal. rewrite firstn_app. replace (k + 1 - length (a ++ b)) with 0 by lia. rewrite firstn_O. apply app_nil_r. }
    cbn [skipn]. rewrite app_nil_r. rewrite (app_assoc a b [c]). rewrite app_length. cbn [length]. rewrite Nat.add_1_r. cbn [dirname_loop].
    rewrite nth_error_mid. cbn [obind]. destruct (Z.eqb_spec c c_slash); [congruence|].
    rewrite Gen by lia. specialize (IH a ltac:(intros I; apply Nb, in_or_app; auto)). cbn [skipn] in IH. rewrite app_nil_r in IH. rewrite IH.
    rewrite <- (Gen (length a) [c]) by (rewrite app_length; lia). reflexivity. }
  destruct f as [|c f _] using rev_ind.
  - rewrite app_nil_r in E. subst d. destruct D as [->|X]; [reflexivity|contradiction].
  - unfold dirname. rewrite E, app_assoc, app_length. cbn [length]. rewrite Nat.add_sub.
    assert (Nc : c <> c_slash) by (intros ->; apply N, in_or_app; right; left; auto).
    assert (Nf : ~ In c_slash f) by (intros I; apply N, in_or_app; auto).
    assert (Gen : forall l k t, k <= length l -> dirname_loop k (l ++ t) = dirname_loop k l).
    { intros l. induction k as [|k IHk]; intros t Hk; [reflexivity|]. cbn [dirname_loop]. rewrite nth_error_app1 by lia.
      destruct (nth_error l k); [|reflexivity]. cbn [obind]. destruct (Z.eqb z c_slash); [|apply IHk; lia].
      f_equal. rewrite firstn_app. replace (k + 1 - length l) with 0 by lia. rewrite firstn_O. apply app_nil_r. }
    rewrite Gen by lia. specialize (G d f Nf). cbn [skipn] in G. rewrite app_nil_r in G. rewrite G. rewrite Gen by lia.
    destruct D as [->|(x & ->)]; [reflexivity|]. rewrite app_length. cbn [length]. rewrite Nat.add_1_r. cbn [dirname_loop].
    rewrite nth_error_mid. cbn [obind]. rewrite Z.eqb_refl. f_equal. rewrite firstn_all2; [reflexivity|]. rewrite app_length. cbn. lia.
Qed.
Print Assumptions dirname_then_filename.

(** Where the parts do not add up: "a/" has dirname "" and filename ""; "a" has neither ext nor noext. *)
Theorem path_parts_refuted :
  dirname [97; 47]%Z = Some [] /\ filename [97; 47]%Z = Some [] /\ noext [97]%Z = Some [] /\ ext [97]%Z = Some [].
Proof. repeat split. Qed.
Print Assumptions path_parts_refuted.

(** ** C20.  For a directory a (written with its final slash) and a path b, both from the root or both
    relative, joining a with the relative path from a to b gives back exactly b. *)
Theorem relative_then_join : forall root A B trail, Forall name A -> Forall name B ->
  (root = false -> A <> []) -> (root = true -> B = [] -> trail = true) ->
  let a := path_text root A true in let b := path_text root B trail in
  (2 * Z.of_nat (length a) * 3 + Z.of_nat (length b) < 2 ^ 31)%Z ->
  exists r, relative a b = Some r /\ join_path a r = Some b.
Proof.
  intros root A B trail NA NB HA HB a b Lim.
  assert (flats : forall l, Forall name l -> Forall flat l) by (intros l N; eapply Forall_impl; [|exact N]; intros c X; apply X).
  set (RA := (if root then [[]] else []) ++ A). set (RB := (if root then [[]] else []) ++ B).
  assert (FRA : Forall flat RA) by (apply Forall_app; split; [destruct root; [constructor; [intros []|constructor]|constructor]|auto]).
  assert (FRB : Forall flat RB) by (apply Forall_app; split; [destruct root; [constructor; [intros []|constructor]|constructor]|auto]).
  assert (Ea : a = slashes RA).
  { unfold a, path_text. rewrite app_assoc. fold RA. rewrite joined_snoc. apply app_nil_r. }
  (* b as inner components and a last one *)
  assert (EB : exists Bi bl, b = slashes Bi ++ bl /\ Forall flat Bi /\ flat bl /\ nondot bl = true /\
     Bi ++ [bl] = comps_of (RB ++ tr trail) /\ (root = true -> exists Bi', Bi = [] :: Bi') /\
     (B <> [] -> is_nil bl = trail)).
  { destruct trail.
    - exists RB, []. unfold b, path_text. rewrite app_assoc. fold RB. change (if true then [[]] else []) with [@nil Z]. rewrite joined_snoc.
      split; [reflexivity|]. split; [exact FRB|]. split; [intros []|]. split; [reflexivity|]. split; [|split; [intros ->; unfold RB; eexists; reflexivity|reflexivity]].
      cbn [tr]. destruct (RB ++ [[]]) eqn:Q; [destruct RB; discriminate|reflexivity].
    - destruct B as [|bl B' _] using rev_ind.
      + destruct root; [specialize (HB eq_refl eq_refl); discriminate|]. exists [], []. repeat split; try constructor; try congruence. intros [].
      + exists ((if root then [[]] else []) ++ B'), bl. apply Forall_app in NB. destruct NB as [NB Nbl]. inversion Nbl; subst.
        unfold b, path_text. rewrite app_nil_r, app_assoc, joined_snoc.
        split; [reflexivity|]. unfold RB in FRB. rewrite app_assoc in FRB. apply Forall_app in FRB. destruct FRB as [F1 F2]. inversion F2; subst.
        split; [exact F1|]. split; [assumption|]. destruct (name_real _ H1) as (Rl & _ & _). unfold real in Rl. apply andb_true_iff in Rl. destruct Rl as [R1 R2].
        split; [exact R1|]. split; [|split].
        * unfold RB. rewrite app_nil_r, app_assoc. destruct (((if root then [[]] else []) ++ B') ++ [bl]) eqn:Q; [destruct ((if root then [[]] else []) ++ B'); discriminate|reflexivity].
        * intros ->. eexists. reflexivity.
        * intros _. apply negb_true_iff in R2. exact R2. }
  destruct EB as (Bi & bl & Eb & FBi & Fbl & Dbl & EBi & RBi & Tbl).
  destruct (relative_comps RA Bi bl FRA FBi Fbl) as (k & K1 & K2 & K3 & Rel & K4). rewrite Ea, Eb, Rel.
  eexists. split; [reflexivity|].
  set (cs := RA ++ repeat dotdot (length RA - k) ++ skipn k Bi).
  assert (RAne : RA <> []) by (unfold RA; destruct root; [discriminate|apply HA; reflexivity]).
  assert (Fcs : Forall flat (cs ++ [bl])).
  { apply Forall_app. split; [|constructor; auto]. unfold cs. apply Forall_app. split; [exact FRA|]. apply Forall_app. split; [|apply Forall_skipn; exact FBi].
    apply Forall_forall. intros x I. apply repeat_spec in I. subst. intros [I|[I|[]]]; discriminate. }
  assert (Ej : slashes RA ++ slashes (repeat dotdot (length RA - k) ++ skipn k Bi) ++ bl = joined [slash] (cs ++ [bl])).
  { rewrite joined_snoc. unfold cs. rewrite !slashes_app, <- !app_assoc. reflexivity. }
  (* join takes the "a ends in a slash" branch *)
  assert (Hjoin : join_path (slashes RA) (slashes (repeat dotdot (length RA - k) ++ skipn k Bi) ++ bl) = normalize (joined [slash] (cs ++ [bl]))).
  { unfold join_path. set (r := slashes (repeat dotdot (length RA - k) ++ skipn k Bi) ++ bl) in *.
    assert (S1 : starts_item Z.eqb r c_slash = Some false).
    { unfold starts_item. destruct r as [|x r'] eqn:Er; [reflexivity|]. cbn [length Nat.eqb nth_error obind]. f_equal. apply Z.eqb_neq. intros ->.
      unfold r in Er. destruct (length RA - k) as [|n] eqn:Ek; [|cbn in Er; discriminate]. cbn [repeat app] in Er.
      assert (Hk : 1 <= k) by (destruct RA; [congruence|]; cbn [length] in *; lia).
      destruct (skipn k Bi) as [|c cs'] eqn:Es.
      - cbn in Er. subst bl. apply Fbl. left. reflexivity.
      - assert (Ic : nth_error Bi k = Some c).
        { replace k with (k + 0) by lia. rewrite <- nth_error_skipn, Es. reflexivity. }
        cbn [slashes] in Er. rewrite <- app_assoc in Er. destruct c as [|c0 c].
        + (* an inner empty component past the first: impossible *)
          assert (In [] B).
          { assert (J : nth_error (Bi ++ [bl]) k = Some []) by (rewrite nth_error_app1 by (eapply nth_error_lt; eauto); exact Ic).
            assert (Kl : k < length Bi) by (eapply nth_error_lt; eauto).
            rewrite EBi in J. assert (Lc : length (Bi ++ [bl]) = length (comps_of (RB ++ tr trail))) by (rewrite EBi; reflexivity).
            rewrite app_length in Lc. cbn [length] in Lc.
            destruct (RB ++ tr trail) as [|y ys] eqn:Q; [cbn in Lc; lia|]. cbn [comps_of] in *. rewrite <- Q in *.
            rewrite app_length in Lc. assert (length (tr trail) <= 1) by (destruct trail; cbn; lia).
            assert (Kr : k < length RB) by lia. rewrite nth_error_app1 in J by exact Kr. unfold RB in J, Kr. destruct root.
            - cbn [app] in J. destruct k as [|k']; [lia|]. cbn in J. eapply nth_error_In; exact J.
            - cbn [app] in J. eapply nth_error_In; exact J. }
          pose proof (proj1 (Forall_forall _ _) NB [] H) as (C & _). congruence.
        + cbn in Er. injection Er as -> _. assert (In (c_slash :: c) Bi) by (eapply nth_error_In; exact Ic).
          pose proof (proj1 (Forall_forall _ _) FBi _ H) as C. apply C. left. reflexivity. }
    rewrite S1. cbn [obind].
    assert (S2 : ends_item Z.eqb (slashes RA) c_slash = Some true).
    { destruct RA as [|c0 RA0 _] using rev_ind; [congruence|]. rewrite slashes_app. cbn [slashes]. unfold ends_item.
      rewrite app_length, app_length. cbn [length]. rewrite app_assoc.
      destruct (Nat.eqb_spec (length (slashes RA0) + (length c0 + 1)) 0); [lia|].
      replace (length (slashes RA0) + (length c0 + 1) - 1) with (length (slashes RA0 ++ c0)) by (rewrite app_length; lia).
      rewrite nth_error_mid. reflexivity. }
    rewrite S2. cbn [obind]. rewrite Ej. reflexivity. }
  rewrite Hjoin.
  pose proof (splits_joined (cs ++ [bl]) ltac:(destruct cs; discriminate) Fcs) as Sp.
  (* the walk *)
  assert (SkA : forall l : list comp, k <= length l -> skipn (length l - k) (rev l) = rev (firstn k l)).
  { intros l Hl. rewrite <- (firstn_skipn k l) at 2. rewrite rev_app_distr, skipn_app, skipn_all2 by (rewrite rev_length, skipn_length; lia).
    rewrite rev_length, skipn_length. replace (length l - k - (length l - k)) with 0 by lia. reflexivity. }
  assert (Wk : walk (cs ++ [bl]) = (0, rev B)).
  { unfold cs. unfold walk. rewrite !fold_left_app.
    assert (W1 : fold_left walk_step RA (0, []) = (0, rev A)).
    { unfold RA. rewrite fold_left_app. replace (fold_left walk_step (if root then [[]] else []) (0, [])) with (0, @nil comp) by (destruct root; reflexivity).
      rewrite walk_push by exact NA. rewrite app_nil_r. reflexivity. }
    rewrite W1.
    (* k counts root when there is one *)
    set (kr := if root then 1 else 0).
    assert (Kr : kr <= k).
    { unfold kr. destruct root; [|lia]. destruct (RBi eq_refl) as (Bi' & ->). apply (K4 A Bi'); reflexivity. }
    assert (Ln : length RA - k = length A - (k - kr)) by (unfold RA, kr in *; destruct root; cbn [app length] in *; lia).
    rewrite Ln, walk_ups by (rewrite rev_length; lia).
    replace (skipn (length A - (k - kr)) (rev A)) with (rev (firstn (k - kr) A)).
    2:{ rewrite <- (firstn_skipn (k - kr) A) at 3. rewrite rev_app_distr, skipn_app, skipn_all2 by (rewrite rev_length, skipn_length; lia).
        rewrite rev_length, skipn_length. rewrite Nat.sub_diag. reflexivity. }
    assert (P : firstn k RA = (if root then [[]] else []) ++ firstn (k - kr) A).
    { unfold RA, kr in *. destruct root; [|cbn [app]; rewrite Nat.sub_0_r; reflexivity]. destruct k; [lia|]. cbn [app firstn]. rewrite Nat.sub_succ, Nat.sub_0_r. reflexivity. }
    assert (WB : walk (Bi ++ [bl]) = (0, rev B)).
    { rewrite EBi, walk_comps_of. unfold walk, RB. rewrite !fold_left_app.
      replace (fold_left walk_step (if root then [[]] else []) (0, [])) with (0, @nil comp) by (destruct root; reflexivity).
      rewrite walk_push by exact NB. rewrite app_nil_r. destruct trail; reflexivity. }
    unfold walk in WB. rewrite fold_left_app in WB. rewrite <- WB. f_equal.
    rewrite <- (firstn_skipn k Bi) at 2. rewrite fold_left_app, <- K3, P, fold_left_app.
    replace (fold_left walk_step (if root then [[]] else []) (0, [])) with (0, @nil comp) by (destruct root; reflexivity).
    rewrite (walk_push (firstn (k - kr) A)), app_nil_r by (apply Forall_firstn; exact NA). reflexivity. }
  assert (Lj : (Z.of_nat (length (joined [slash] (cs ++ [bl]))) < 2 ^ 31)%Z).
  { rewrite <- Ej, Ea, Eb in *. rewrite slashes_app, !app_length in *.
    assert (U : forall n, length (slashes (repeat dotdot n)) = 3 * n) by (induction n as [|n IHn]; [reflexivity|]; cbn [repeat slashes]; rewrite app_length; cbn [length]; rewrite IHn; cbn; lia).
    rewrite U. assert (U2 : forall l : list comp, length l <= length (slashes l)) by (induction l as [|c l IHl]; [cbn; lia|]; cbn [slashes]; rewrite app_length; cbn [length]; lia).
    assert (U3 : length (slashes (skipn k Bi)) <= length (slashes Bi)) by (rewrite <- (firstn_skipn k Bi) at 2; rewrite slashes_app, app_length; lia).
    specialize (U2 RA). clearbody cs. lia. }
  destruct (normalize_shape _ _ 0 (rev B) Lj Sp Wk) as (t & N1 & N2 & _ & _ & T).
  assert (Et : t = is_nil bl). { apply (T cs bl); [reflexivity|unfold cs; destruct RA; [congruence|discriminate]|exact Dbl]. }
  assert (Efin : forall base, (if root then [[]] else []) = rev base -> joined [slash] (result base (rev B) t) = slashes Bi ++ bl).
  { intros base Hbase. rewrite <- Eb. unfold b, path_text, result. rewrite rev_app_distr, rev_involutive, <- Hbase, <- app_assoc.
    destruct B as [|b0 B'] eqn:QB.
    - destruct root.
      + rewrite (HB eq_refl eq_refl) in *. destruct (RBi eq_refl) as (Bi' & ->).
        unfold RB in EBi. cbn in EBi. injection EBi as EBi. destruct Bi'; [|destruct Bi'; discriminate]. cbn in EBi. injection EBi as ->. rewrite Et. reflexivity.
      + destruct t, trail; reflexivity.
    - rewrite Et, Tbl by discriminate. reflexivity. }
  assert (Ab : absolute (joined [slash] (cs ++ [bl])) <-> root = true).
  { rewrite absolute_comps by exact Fcs. unfold cs, RA. destruct root.
    - split; [reflexivity|]. intros _. cbn [app]. destruct ((A ++ repeat dotdot (length ([] :: A) - k) ++ skipn k Bi) ++ [bl]) as [|d r] eqn:Q; [destruct (A ++ repeat dotdot (length ([] :: A) - k) ++ skipn k Bi); discriminate|]. exists d, r. rewrite <- Q. reflexivity.
    - split; [|discriminate]. intros (d & r & Q). specialize (HA eq_refl). destruct A as [|x A']; [congruence|]. cbn [app] in Q. injection Q as -> _.
      inversion NA; subst. destruct H1. congruence. }
  destruct root.
  - rewrite (N2 (proj2 Ab eq_refl)). f_equal. apply Efin. reflexivity.
  - rewrite N1 by (rewrite Ab; discriminate). f_equal. apply Efin. reflexivity.
Qed.
Print Assumptions relative_then_join.

(** A file's own name does not matter: relative measures from the directory the file is in. *)
Theorem relative_from_a_file : forall A file b, Forall name A -> ~ In slash file ->
  relative (flat_map (fun c => c ++ [slash]) A ++ file) b = relative (flat_map (fun c => c ++ [slash]) A) b.
Proof.
  intros A file b NA NF. assert (Ed : flat_map (fun c => c ++ [slash]) A = slashes A).
  { induction A as [|c A IH]; [reflexivity|]. inversion NA; subst. cbn [flat_map slashes]. rewrite IH by auto. rewrite <- app_assoc. reflexivity. }
  rewrite Ed. set (d := slashes A). unfold relative.
  assert (Cd : cut d).
  { unfold d. destruct A as [|c A' _] using rev_ind; [left; reflexivity|]. right. rewrite slashes_app. cbn [slashes]. eexists. rewrite app_assoc. reflexivity. }
  set (mn := if length (d ++ file) <? length b then length (d ++ file) else length b).
  set (mn' := if length d <? length b then length d else length b).
  assert (H : mn = Nat.min (length (d ++ file)) (length b)) by (unfold mn; destruct (Nat.ltb_spec (length (d ++ file)) (length b)); lia).
  assert (H' : mn' = Nat.min (length d) (length b)) by (unfold mn'; destruct (Nat.ltb_spec (length d) (length b)); lia).
  clearbody mn mn'. rewrite app_length in H.
  destruct (same_loop_spec mn 0 (d ++ file) b 0) as (m & R & M1 & M2 & M3 & M4); [rewrite app_length; lia|lia|reflexivity|lia|left; reflexivity|intros; lia|].
  destruct (same_loop_spec mn' 0 d b 0) as (m' & R' & M1' & M2' & M3' & M4'); [lia|lia|reflexivity|lia|left; reflexivity|intros; lia|].
  assert (Fi : forall n, n <= length d -> firstn n (d ++ file) = firstn n d).
  { intros n Hn. rewrite firstn_app. replace (n - length d) with 0 by lia. rewrite firstn_O. apply app_nil_r. }
  assert (Md : m <= length d).
  { destruct (Nat.le_gt_cases m (length d)) as [Q|Q]; [exact Q|]. exfalso. rewrite firstn_app, firstn_all2 in M3 by lia.
    destruct M3 as [M3|(x & M3)]; [apply app_eq_nil in M3; destruct M3 as [M3 M3q];
      assert (L0 : length (firstn (m - length d) file) = 0) by (rewrite M3q; reflexivity); rewrite firstn_length in L0; lia|].
    apply NF. rewrite <- (firstn_skipn (m - length d) file). apply in_or_app. left.
    destruct (firstn (m - length d) file) as [|z l _] eqn:Q2 using rev_ind.
    - assert (L0 : length (firstn (m - length d) file) = 0) by (rewrite Q2; reflexivity). rewrite firstn_length in L0. lia.
    - rewrite app_assoc in M3. apply app_inj_tail in M3. destruct M3 as [_ ->]. apply in_or_app. right. left. reflexivity. }
  assert (m = m').
  { apply Nat.le_antisymm.
    - apply M4'; [lia| |]; rewrite <- Fi by lia; auto.
    - apply M4; [lia| |]; rewrite Fi by lia; auto. }
  subst m'. rewrite R, R'. cbn [obind]. rewrite !ups_loop_spec by intros [].
  assert (Q : length (filter (Z.eqb slash) (skipn m (d ++ file))) = length (filter (Z.eqb slash) (skipn m d))).
  { rewrite skipn_app. replace (m - length d) with 0 by lia. cbn [skipn]. rewrite filter_app, app_length.
    replace (filter (Z.eqb slash) file) with (@nil Z); [cbn; lia|]. symmetry.
    clear - NF. induction file as [|x l IH]; [reflexivity|]. cbn [filter]. destruct (Z.eqb_spec slash x) as [<-|]; [exfalso; apply NF; left; auto|]. apply IH. intros I. apply NF. right. exact I. }
  rewrite Q. reflexivity.
Qed.
Print Assumptions relative_from_a_file.

(** join: an absolute second path stands alone; otherwise the two are put together with exactly one slash. *)
Theorem join_puts_together : forall a b,
  (absolute b -> join_path a b = normalize b) /\
  (~ absolute b -> forall x, a = x ++ [slash] -> join_path a b = normalize (a ++ b)) /\
  (~ absolute b -> (forall x, a <> x ++ [slash]) -> join_path a b = normalize (a ++ [slash] ++ b)).
Proof.
  intros a b.
  assert (Sb : starts_item Z.eqb b c_slash = Some true <-> absolute b).
  { unfold starts_item, absolute. destruct b as [|c b]; cbn [length Nat.eqb nth_error obind]; [split; [discriminate|intros (? & E); discriminate]|].
    split; [intros E; injection E as E; apply Z.eqb_eq in E; subst; eexists; reflexivity|]. intros (r & E). injection E as -> _. reflexivity. }
  assert (Sb' : ~ absolute b -> starts_item Z.eqb b c_slash = Some false).
  { intros N. unfold starts_item in *. destruct b as [|c b]; cbn [length Nat.eqb nth_error obind] in *; [reflexivity|].
    destruct (Z.eqb c c_slash); [exfalso; apply N; apply Sb; reflexivity|reflexivity]. }
  unfold join_path. split; [intros A; rewrite (proj2 Sb A); reflexivity|]. split; intros N; rewrite (Sb' N); cbn [obind].
  - intros x ->. unfold ends_item. rewrite app_length. cbn [length]. replace (length x + 1 =? 0) with false by (symmetry; apply Nat.eqb_neq; lia).
    replace (length x + 1 - 1) with (length x) by lia. rewrite nth_error_app2 by lia. rewrite Nat.sub_diag. reflexivity.
  - intros X. destruct a as [|z l _] using rev_ind; [reflexivity|]. unfold ends_item. rewrite app_length. cbn [length].
    replace (length l + 1 =? 0) with false by (symmetry; apply Nat.eqb_neq; lia).
    replace (length l + 1 - 1) with (length l) by lia. rewrite nth_error_app2 by lia. rewrite Nat.sub_diag. cbn [nth_error obind].
    destruct (Z.eqb_spec z c_slash) as [->|]; [exfalso; apply (X l); reflexivity|]. f_equal. rewrite <- app_assoc. reflexivity.
Qed.
Print Assumptions join_puts_together.

(** ** Non-vacuity *)
Example path_example : (* normalize "/a//b/./../c/" = "/a/c/" *)
  normalize [47; 97; 47; 47; 98; 47; 46; 47; 46; 46; 47; 99; 47]%Z = Some [47; 97; 47; 99; 47]%Z.
Proof. reflexivity. Qed.
Example relative_example : (* from "/a/b/" to "/a/c" *)
  Forall name [[97%Z]; [98%Z]] /\ Forall name [[97%Z]; [99%Z]] /\
  path_text true [[97%Z]; [98%Z]] true = [47; 97; 47; 98; 47]%Z /\
  relative [47; 97; 47; 98; 47]%Z [47; 97; 47; 99]%Z = Some [46; 46; 47; 99]%Z /\
  join_path [47; 97; 47; 98; 47]%Z [46; 46; 47; 99]%Z = Some [47; 97; 47; 99]%Z.
Proof.
  assert (N : forall c, (97 <= c <= 99)%Z -> name [c]).
  { intros c H. split; [discriminate|]. split; [intros E; injection E; lia|]. split; [discriminate|]. intros [E|[]]. unfold slash in E. lia. }
  split; [constructor; [apply N; lia|constructor; [apply N; lia|constructor]]|].
  split; [constructor; [apply N; lia|constructor; [apply N; lia|constructor]]|]. repeat split.
Qed.
