(** C45 and C54: type canons and their generic patterns (src/canon.fu), and how they are written. *)
From Verif Require Import CanonModel CanonSpec CanonProofs CanonMatch VarintProofs VarintProps CommonLemmas WordsLemmas LifetimeProofs.
Open Scope Z_scope.

(** ** C45: taking patterns apart *)
(** Every subpattern is visited, and every argument of one, in order, whatever is nested in them, until the visitor
    leaves: with its text, its template, whether anything is nested in it, and whether it is the first or the last. *)
Theorem canon_subpatterns_are_visited : forall R (visit : sub -> option (option R)) b ps, well_formed (Plain b ps) -> ps <> [] ->
  exists pattern, tryGetPattern (written (Plain b ps)) = Some pattern /\ trimPattern (written (Plain b ps)) = b /\
    eachSubPattern pattern visit = foldv visit (subs ps).
Proof.
  intros R visit b ps W N. pose proof (good_pats_wf _ _ W N) as G. assert (Gb : good_base b) by (inversion W; auto).
  rewrite written_as by auto. unfold tryGetPattern, trimPattern. rewrite with_pats_ends, with_pats_find, with_pats_cut by (apply base_good; auto).
  eexists. split; [reflexivity|]. split; [|apply each_sub_ok; auto].
  replace (0 <=? zlen b) with true by (symmetry; apply Z.leb_le; apply zlen_nonneg). rewrite nat_zlen. unfold with_pats.
  rewrite firstn_app, Nat.sub_diag, firstn_all. apply app_nil_r.
Qed.
Print Assumptions canon_subpatterns_are_visited.
Theorem canon_arguments_are_visited : forall R (visit : argspec -> option (option R)) args, good_args args ->
  eachArgSpecType (written_args args) visit = foldv visit (argspecs true args).
Proof. intros. apply each_arg_ok. auto. Qed.
Print Assumptions canon_arguments_are_visited.
Theorem canon_without_patterns_has_none : forall c, well_formed c -> (match c with Plain _ (_ :: _) => False | _ => True end) -> tryGetPattern (written c) = Some [].
Proof.
  intros c W H. unfold tryGetPattern. destruct c as [b [|p ps]|t c]; [|destruct H|].
  - cbn [written]. rewrite ends_plain; [reflexivity|]. apply base_good. inversion W; auto.
  - pose proof (array_ends t c []) as X. cbn [app] in X. rewrite X. reflexivity.
Qed.
Print Assumptions canon_without_patterns_has_none.

(** What is written says what it is. *)
Theorem canon_writing_is_injective : forall c d, well_formed c -> well_formed d -> written c = written d -> c = d.
Proof. apply written_inj. Qed.
Print Assumptions canon_writing_is_injective.

(** ** C45: what is accepted *)
Theorem canon_acceptance_is : forall h g, well_formed h -> well_formed g ->
  exists r, isCanonAssignable (written h) (written g) = Some r /\ (r = true <-> accepts h g).
Proof. apply assignable_ok. Qed.
Print Assumptions canon_acceptance_is.
Local Lemma says h g : well_formed h -> well_formed g -> (isCanonAssignable (written h) (written g) = Some true <-> accepts h g).
Proof. intros Wh Wg. destruct (canon_acceptance_is h g Wh Wg) as (r & E & H). rewrite E, <- H. split; [congruence|intros ->; reflexivity]. Qed.

Local Lemma inside_refl : forall n t c, (csize c < n)%nat -> well_formed c -> accepts_inside (t, c) (t, c).
Proof.
  induction n as [|n IH]; intros t c L W; [lia|]. destruct c as [b ps|t' c]; [|constructor]. destruct ps as [|p ps]; [constructor|].
  set (ps' := p :: ps) in *. assert (N : ps' <> []) by (subst ps'; discriminate). apply i_pats; auto. constructor. intros [[m g] args] I.
  exists (m, g, args). split; auto. split; auto. cbn [snd]. destruct (wf_args _ _ _ _ _ W I) as (_ & _ & Na & Wa).
  destruct (deep args) eqn:D; [|constructor; auto]. destruct args as [|[t0 c0] args]; [tauto|]. apply (g_any _ _ 0%nat (t0, c0) (t0, c0)); auto; [tauto|].
  apply IH; [|apply (Wa t0 c0 (or_introl eq_refl))]. pose proof (arg_size b ps' m g _ t0 c0 I (or_introl eq_refl)). lia.
Qed.
Theorem canon_accepts_itself : forall c, well_formed c -> isCanonAssignable (written c) (written c) = Some true.
Proof.
  intros c W. apply says; auto. destruct c as [b ps|t c].
  - destruct ps as [|p ps]; [constructor|]. pose proof (inside_refl _ 0 _ (Nat.lt_succ_diag_r _) W) as A. inversion A; subst.
    apply a_pats; auto.
  - inversion_clear W as [|? ? Ht Wc]. apply a_array. eapply inside_refl; eauto.
Qed.
Print Assumptions canon_accepts_itself.

(** Without patterns, only itself. *)
Local Lemma nongeneric_same h g : generic g = false -> accepts h g -> h = g.
Proof.
  intros D A. inversion A as [b ps|ht h' gt g' A'|hb hps gb gps N N' E A']; subst.
  - destruct ps; [reflexivity|discriminate].
  - cbn in D. inversion A' as [t b ps|t t' c|t hb hps gb gps N N' A'']; subst; auto.
    + destruct ps; [reflexivity|discriminate].
    + destruct gps; [tauto|discriminate].
  - destruct gps; [tauto|discriminate].
Qed.
Theorem canon_nongeneric_accepted_by_itself_only : forall h g, well_formed h -> well_formed g -> generic g = false ->
  isCanonAssignable (written h) (written g) = Some true -> h = g.
Proof. intros h g Wh Wg D A. apply says in A; auto. apply nongeneric_same; auto. Qed.
Print Assumptions canon_nongeneric_accepted_by_itself_only.

(** A generic one is accepted only by something which wants templates it has. *)
Theorem canon_accepted_has_every_template : forall hb hps gb gps, well_formed (Plain hb hps) -> well_formed (Plain gb gps) ->
  isCanonAssignable (written (Plain hb hps)) (written (Plain gb gps)) = Some true ->
  forall m g ha, In (m, g, ha) hps -> exists ga, In (m, g, ga) gps.
Proof.
  intros hb hps gb gps Wh Wg A m g ha I. apply says in A; auto. inversion A as [b ps|ht h' gt g' A'|? ? ? ? N N' E A']; subst; [destruct I|].
  inversion_clear A' as [? ? H]. destruct (H _ I) as ([[m' g'] ga] & J & E' & _). cbn in E'. injection E' as -> ->. eauto.
Qed.
Print Assumptions canon_accepted_has_every_template.

(** A pattern accepts a canon only when every argument of it does: for patterns of one argument each. *)
Local Lemma inside_matches : forall n t h u g, (csize h < n)%nat -> one_argument h -> one_argument g -> accepts_inside (t, h) (u, g) -> t = u /\ matches h g.
Proof.
  induction n as [|n IH]; intros t h u g L Oh Og A; [lia|]. inversion A as [t' b ps|t' t'' c|t' hb hps gb gps N N' A']; subst; split; auto.
  - constructor.
  - clear - Oh. revert Oh. assert (G : forall c, one_argument c -> matches c c); [|apply G].
    assert (G : forall n c, (csize c < n)%nat -> one_argument c -> matches c c); [|intros c0; eapply G; eauto].
    induction n as [|n IH]; intros d L O; [lia|]. destruct d as [b ps|t1 d].
    + destruct ps as [|p ps]; [constructor|]. set (ps' := p :: ps) in *. assert (N : ps' <> []) by (subst ps'; discriminate). apply m_pats; auto.
      intros m g ha I. inversion_clear O as [? ? H|]. destruct (H _ _ _ I) as (t2 & c2 & -> & O2). exists [(t2, c2)]. split; auto. constructor; [|constructor].
      split; auto. apply IH; auto. pose proof (arg_size b ps' m g _ t2 c2 I (or_introl eq_refl)). cbn [snd]. lia.
    + inversion_clear O as [|? ? O']. constructor. apply IH; auto. cbn in L. lia.
  - apply m_pats; auto. intros m g' ha I. inversion_clear A' as [? ? H]. destruct (H _ I) as ([[m1 g1] ga] & J & E & Ac). cbn in E. injection E as -> ->. exists ga. split; auto.
    inversion Oh as [? ? Ha|]; subst. inversion Og as [? ? Hg|]; subst. destruct (Ha _ _ _ I) as (t1 & c1 & -> & O1). destruct (Hg _ _ _ J) as (t2 & c2 & -> & O2).
    cbn [snd] in Ac. inversion Ac as [args D|? ? i h1 g1' D D' E1 E2 E3 Ai]; subst.
    + constructor; [|constructor]. split; auto. cbn [snd].
      destruct c2 as [b2 ps2|t3 c3]; [destruct ps2; [constructor|discriminate]|].
      assert (G : forall n c, (csize c < n)%nat -> generic c = false -> matches c c).
      { clear. induction n as [|n IH]; intros d L D; [lia|]. destruct d as [b [|p ps]|t1 d]; [constructor|discriminate|]. constructor. apply IH; auto. cbn in L. lia. }
      eapply G; eauto. cbn in D. rewrite orb_false_r in D. exact D.
    + destruct i as [|i]; [|destruct i; discriminate]. cbn in E1, E2. injection E1 as <-. injection E2 as <-. constructor; [|constructor]. cbn [fst snd].
      apply (IH t1 c1 t2 c2); auto. pose proof (arg_size hb hps m g' _ t1 c1 I (or_introl eq_refl)). lia.
Qed.
Theorem canon_accepts_only_what_matches_partial : forall h g, well_formed h -> well_formed g -> one_argument h -> one_argument g ->
  isCanonAssignable (written h) (written g) = Some true -> matches h g.
Proof.
  intros h g Wh Wg Oh Og A. apply says in A; auto. inversion A as [b ps|ht h' gt g' A'|hb hps gb gps N N' E A']; subst.
  - constructor.
  - inversion Oh; subst. inversion Og; subst. destruct (inside_matches _ ht h' gt g' (Nat.lt_succ_diag_r _)) as [-> M]; auto. constructor. exact M.
  - destruct (inside_matches _ 0 _ 0 _ (Nat.lt_succ_diag_r _) Oh Og (i_pats 0 hb hps gb gps N N' A')) as [_ M]. exact M.
Qed.
Print Assumptions canon_accepts_only_what_matches_partial.

(** In general it is not so: of two arguments one is enough, if both lists have something nested in them. *)
Definition s_base (i : Z) : list Z := 200 :: varint 1 ++ varint i.
Definition i32' : Z * canon := (2, Plain [105; 51; 50] []).
Definition f32' : Z * canon := (2, Plain [102; 51; 50] []).
Definition nested (a : Z * canon) : Z * canon := (2, Plain (s_base 7) [(1, 9, [a])]).
Local Lemma base_ok i : 0 <= i < 2 ^ 20 -> good_base (s_base i).
Proof.
  intros H. unfold s_base. split; [discriminate|]. split; [discriminate|]. constructor; [repeat split; discriminate|]. apply Forall_app. split.
  - eapply Forall_impl; [|apply (varint_plain 1); split; lia]. intros c X. apply X.
  - eapply Forall_impl; [|apply (varint_plain i), id_word; lia]. intros c X. apply X.
Qed.
Local Lemma wf_one b m g args : good_base b -> 0 <= m < 2 ^ 20 -> 0 < g < 2 ^ 20 -> good_args args -> well_formed (Plain b [(m, g, args)]).
Proof. intros B Hm Hg [N A]. constructor; auto. intros m' g' args' [E|[]]. injection E as <- <- <-. auto. Qed.
Local Lemma prim_ok c : well_formed (Plain [c; 51; 50] []) <-> (c <> LBRA /\ plain_byte c).
Proof.
  split.
  - intros W. inversion_clear W as [? ? (_ & N & F) _|]. inversion_clear F as [|? ? P _]. split; auto.
  - intros [N P]. constructor; [|intros ? ? ? []]. split; [discriminate|]. split; [exact N|]. constructor; [exact P|]. constructor; [repeat split; discriminate|]. constructor; [repeat split; discriminate|constructor].
Qed.
Local Lemma i32_ok : well_formed (Plain [105; 51; 50] []). Proof. apply prim_ok. repeat split; discriminate. Qed.
Local Lemma f32_ok : well_formed (Plain [102; 51; 50] []). Proof. apply prim_ok. repeat split; discriminate. Qed.
Local Lemma p20 : 2 ^ 20 = 1048576. Proof. reflexivity. Qed.
Local Lemma nested_ok a : fst a = 2 -> well_formed (snd a) -> well_formed (snd (nested a)).
Proof.
  destruct a as [t c]. cbn. intros -> W. pose proof p20. apply wf_one; [apply base_ok; lia|lia|lia|]. split; [discriminate|]. intros t c' [E|[]]. injection E as <- <-. split; [lia|auto].
Qed.
Local Lemma args2_ok a b : fst a = 2 -> fst b = 2 -> well_formed (snd a) -> well_formed (snd b) -> good_args [a; b].
Proof. destruct a, b. cbn. intros -> -> Wa Wb. split; [discriminate|]. intros t c' [E|[E|[]]]; injection E as <- <-; split; auto; lia. Qed.
(** Pair(S(i32), i32) accepts Pair(S(i32), f32) *)
Theorem canon_accepts_only_what_matches_refuted : exists h g, well_formed h /\ well_formed g /\
  isCanonAssignable (written h) (written g) = Some true /\ ~ matches h g.
Proof.
  exists (Plain (s_base 3) [(1, 5, [nested i32'; i32'])]), (Plain (s_base 4) [(1, 5, [nested i32'; f32'])]). pose proof p20.
  split; [apply wf_one; [apply base_ok; lia|lia|lia|apply args2_ok; auto using nested_ok, i32_ok]|].
  split; [apply wf_one; [apply base_ok; lia|lia|lia|apply args2_ok; auto using nested_ok, i32_ok, f32_ok]|].
  split; [vm_compute; reflexivity|]. intros M. inversion M as [| |? ? ? ? _ _ Hm]; subst.
  destruct (Hm 1 5 _ (or_introl eq_refl)) as (ga & [E|[]] & F). injection E as <-. inversion_clear F as [|? ? ? ? _ F2]. inversion_clear F2 as [|? ? ? ? [_ F3] _].
  cbn in F3. inversion F3; congruence.
Qed.
Print Assumptions canon_accepts_only_what_matches_refuted.
(** And not all that matches is accepted: an argument with patterns is not accepted by the same one without, S(T) by
    S(T(i32)), though T accepts T(i32) on its own. *)
Theorem canon_accepts_all_that_matches_refuted : exists h g, well_formed h /\ well_formed g /\
  matches h g /\ isCanonAssignable (written h) (written g) = Some false.
Proof.
  exists (Plain (s_base 3) [(1, 5, [(2, Plain (s_base 7) [])])]), (Plain (s_base 4) [(1, 5, [nested i32'])]). pose proof p20.
  assert (W7 : well_formed (Plain (s_base 7) [])) by (constructor; [apply base_ok; lia|intros ? ? ? []]).
  split; [apply wf_one; [apply base_ok; lia|lia|lia|split; [discriminate|intros t c [E|[]]; injection E as <- <-; split; [lia|exact W7]]]|].
  split; [apply wf_one; [apply base_ok; lia|lia|lia|split; [discriminate|intros t c [E|[]]; injection E as <- <-; split; [lia|apply nested_ok; auto using i32_ok]]]|].
  split; [|vm_compute; reflexivity]. apply m_pats; try discriminate. intros m g ha [E|[]]. injection E as <- <- <-. eexists. split; [left; reflexivity|].
  constructor; [|constructor]. split; [reflexivity|]. cbn [snd nested]. constructor.
Qed.
Print Assumptions canon_accepts_all_that_matches_refuted.

(** ** C45: transitivity, for patterns of one argument; not through a type without patterns *)
Local Lemma inside_trans : forall n t a u b v c, (csize a < n)%nat -> one_argument a -> one_argument b -> one_argument c ->
  (generic a = true \/ generic b = false) -> accepts_inside (t, a) (u, b) -> accepts_inside (u, b) (v, c) -> accepts_inside (t, a) (v, c).
Proof.
  induction n as [|n IH]; intros t a u b v c L Oa Ob Oc G A B; [lia|].
  inversion A as [t' ab ps|t' t'' c'|t' ab aps bb bps N N' A']; subst.
  - destruct ps; [exact B|]. destruct G; discriminate.
  - exact B.
  - inversion B as [| |t' ? ? cb cps M M' B']; subst; [exfalso; apply N'; reflexivity|].
    apply i_pats; auto. constructor. intros [[m g] aa] I. inversion_clear A' as [? ? HA]. inversion_clear B' as [? ? HB].
    destruct (HA _ I) as ([[m1 g1] ba] & J & E & Ac). cbn in E. injection E as -> ->. destruct (HB _ J) as ([[m2 g2] ca] & K & E & Bc). cbn in E. injection E as -> ->.
    exists (m, g, ca). split; auto. split; auto. cbn [snd] in *.
    inversion Oa as [? ? Ha|]; subst. inversion Ob as [? ? Hb|]; subst. inversion Oc as [? ? Hc|]; subst.
    destruct (Ha _ _ _ I) as (t1 & c1 & -> & O1). destruct (Hb _ _ _ J) as (t2 & c2 & -> & O2). destruct (Hc _ _ _ K) as (t3 & c3 & -> & O3).
    inversion Ac as [args D|? ? i h1 g1' D D' E1 E2 E3 Ai]; subst; [exact Bc|].
    inversion Bc as [args Dx|? ? j h2 g2' Dx Dx' E1' E2' E3' Bi]; subst; [congruence|].
    destruct i as [|i]; [|destruct i; discriminate]. destruct j as [|j]; [|destruct j; discriminate]. cbn in E1, E2, E1', E2'.
    injection E1 as <-. injection E2 as <-. injection E1' as <-. injection E2' as <-.
    apply (g_any _ _ 0%nat (t1, c1) (t3, c3)); auto. apply (IH t1 c1 t2 c2 t3 c3); auto.
    + pose proof (arg_size ab aps m g _ t1 c1 I (or_introl eq_refl)). lia.
    + left. cbn in D. rewrite orb_false_r in D. exact D.
Qed.
Theorem canon_acceptance_is_transitive_partial : forall a b c, well_formed a -> well_formed b -> well_formed c ->
  one_argument a -> one_argument b -> one_argument c -> (generic a = true \/ generic b = false) ->
  isCanonAssignable (written a) (written b) = Some true -> isCanonAssignable (written b) (written c) = Some true ->
  isCanonAssignable (written a) (written c) = Some true.
Proof.
  intros a b c Wa Wb Wc Oa Ob Oc G A B. apply says in A; auto. apply says in B; auto. apply says; auto.
  inversion A as [bb ps|ht h' gt g' A'|hb hps gb gps N N' E A']; subst.
  - destruct ps; [exact B|]. destruct G; discriminate.
  - inversion B as [|? ? vt v' B'|]; subst. apply a_array. inversion Oa; subst. inversion Ob; subst. inversion Oc; subst.
    cbn in G. apply (inside_trans _ ht h' gt g' vt v' (Nat.lt_succ_diag_r _)); auto.
  - inversion B as [|? ? vt v' B'|? ? cb cps M M' E' B']; subst; [exfalso; apply N'; reflexivity|].
    pose proof (inside_trans _ 0 _ 0 _ 0 _ (Nat.lt_succ_diag_r _) Oa Ob Oc G (i_pats 0 hb hps gb gps N N' A') (i_pats 0 gb gps cb cps M M' B')) as T.
    inversion T; subst; [tauto|]. apply a_pats; auto. congruence.
Qed.
Print Assumptions canon_acceptance_is_transitive_partial.
(** Three pairs, each of which shares one argument with the next. *)
Theorem canon_acceptance_is_transitive_refuted : exists a b c, well_formed a /\ well_formed b /\ well_formed c /\
  isCanonAssignable (written a) (written b) = Some true /\ isCanonAssignable (written b) (written c) = Some true /\
  isCanonAssignable (written a) (written c) = Some false.
Proof.
  exists (Plain (s_base 3) [(1, 5, [nested i32'; nested i32'])]), (Plain (s_base 4) [(1, 5, [nested i32'; nested f32'])]), (Plain (s_base 6) [(1, 5, [nested f32'; nested f32'])]).
  pose proof p20.
  split; [|split; [|split]]; [apply wf_one; [apply base_ok; lia|lia|lia|apply args2_ok; auto using nested_ok, i32_ok, f32_ok]..|].
  vm_compute. auto.
Qed.
Print Assumptions canon_acceptance_is_transitive_refuted.
(** One argument each, but through a type which is not generic: T accepts T(i32), that accepts U(i32), whose base only
    has the first byte in common. *)
Theorem canon_acceptance_is_transitive_one_argument_refuted : exists a b c, well_formed a /\ well_formed b /\ well_formed c /\
  one_argument a /\ one_argument b /\ one_argument c /\
  isCanonAssignable (written a) (written b) = Some true /\ isCanonAssignable (written b) (written c) = Some true /\
  isCanonAssignable (written a) (written c) = Some false.
Proof.
  exists (Plain (s_base 3) []), (Plain (s_base 3) [(1, 5, [i32'])]), (Plain (s_base 4) [(1, 5, [i32'])]). pose proof p20.
  assert (O : forall b, one_argument (Plain b [(1, 5, [i32'])])).
  { intros b. constructor. intros m g args [E|[]]. injection E as <- <- <-. eexists _, _. split; [reflexivity|]. constructor. intros ? ? ? []. }
  assert (W : forall i, 0 <= i < 2 ^ 20 -> well_formed (Plain (s_base i) [(1, 5, [i32'])])).
  { intros i Hi. apply wf_one; [apply base_ok; auto|lia|lia|]. split; [discriminate|]. intros t c [E|[]]. injection E as <- <-. split; [lia|apply i32_ok]. }
  split; [constructor; [apply base_ok; lia|intros ? ? ? []]|]. split; [apply W; lia|]. split; [apply W; lia|].
  split; [constructor; intros ? ? ? []|]. split; [apply O|]. split; [apply O|]. vm_compute. auto.
Qed.
Print Assumptions canon_acceptance_is_transitive_one_argument_refuted.

(** ** C45: unions and intersections *)
Theorem canon_super_accepts_both : forall a b s, well_formed a -> well_formed b -> canon_trySuper (written a) (written b) = Some s -> s <> [] ->
  (s = written a \/ s = written b) /\ isCanonAssignable s (written a) = Some true /\ isCanonAssignable s (written b) = Some true.
Proof.
  intros a b s Wa Wb E N. unfold canon_trySuper in E. pose proof (canon_accepts_itself a Wa) as Ra. pose proof (canon_accepts_itself b Wb) as Rb.
  destruct (zlen (written b) <? zlen (written a)).
  - destruct (isCanonAssignable (written b) (written a)) as [[|]|] eqn:A; cbn in E; injection E as <- || discriminate E; [|tauto]; (split; [first [left; reflexivity|right; reflexivity]|split; assumption]).
  - destruct (isCanonAssignable (written a) (written b)) as [[|]|] eqn:A; cbn in E; injection E as <- || discriminate E; [|tauto]; (split; [first [left; reflexivity|right; reflexivity]|split; assumption]).
Qed.
Print Assumptions canon_super_accepts_both.
(** It is found when there is one with the fewer letters. *)
Theorem canon_super_is_found : forall a b, well_formed a -> well_formed b -> zlen (written a) <= zlen (written b) -> accepts a b ->
  canon_trySuper (written a) (written b) = Some (written a).
Proof.
  intros a b Wa Wb L A. unfold canon_trySuper. destruct (Z.ltb_spec (zlen (written b)) (zlen (written a))); [lia|]. apply says in A; auto. rewrite A. reflexivity.
Qed.
Print Assumptions canon_super_is_found.
(** With one pattern of one argument, an intersection is accepted by both. *)
Local Lemma simple_sym : forall n t a u b, (csize a < n)%nat -> simple a -> simple b -> (generic a = true \/ generic b = false) ->
  accepts_inside (t, a) (u, b) -> accepts_inside (u, b) (t, a).
Proof.
  induction n as [|n IH]; intros t a u b L Sa Sb G A; [lia|]. inversion A as [t' ab ps|t' t'' c'|t' ab aps bb bps N N' A']; subst.
  - destruct ps; [constructor|]. destruct G; discriminate.
  - constructor.
  - inversion Sa as [|ab' m g t1 c1 S1|]; subst; [tauto|]. inversion Sb as [|bb' m2 g2 t2 c2 S2|]; subst; [tauto|].
    apply i_pats; auto. constructor. intros hp [<-|[]]. inversion_clear A' as [? ? H]. destruct (H _ (or_introl eq_refl)) as (gp & [<-|[]] & E & Ac). cbn in E, Ac.
    injection E as -> ->. eexists. split; [left; reflexivity|]. split; [reflexivity|]. cbn [snd].
    inversion Ac as [args D|? ? i h1 g1' D D' E1 E2 E3 Ai]; subst; [constructor; auto|].
    destruct i as [|i]; [|destruct i; discriminate]. cbn in E1, E2. injection E1 as <-. injection E2 as <-.
    apply (g_any _ _ 0%nat (t2, c2) (t1, c1)); auto. apply IH; auto.
    + pose proof (arg_size ab [(m, g, [(t1, c1)])] m g [(t1, c1)] t1 c1 (or_introl eq_refl) (or_introl eq_refl)). lia.
    + left. cbn in D. rewrite orb_false_r in D. exact D.
Qed.
Local Lemma longer_accepts a b : well_formed a -> well_formed b -> simple a -> simple b -> zlen (written b) <= zlen (written a) -> accepts a b -> accepts b a.
Proof.
  intros Wa Wb Sa Sb L A. inversion A as [bb ps|ht h' gt g' A'|hb hps gb gps N N' E A']; subst.
  - destruct ps as [|p ps]; [exact A|]. exfalso. rewrite (written_plain bb (p :: ps)) in L by discriminate. cbn [written] in L.
    rewrite zlen_app, zlen_cons, zlen_app in L. pose proof (zlen_nonneg (join PIPE (map written_pat (p :: ps)))). change (zlen [RPAR]) with 1 in L. lia.
  - apply a_array. inversion Sa as [| |? ? Sa']; subst. inversion Sb as [| |? ? Sb']; subst. eapply simple_sym; eauto.
    destruct (generic h') eqn:Gh; auto. destruct (generic g') eqn:Gg; auto. exfalso.
    inversion A' as [t' ab ps|t' t'' c'|t' ab aps bb bps N N' A'']; subst; [|congruence|destruct aps; [tauto|discriminate]].
    destruct ps as [|p ps]; [discriminate|]. cbn [written] in L. fold (written (Plain ab (p :: ps))) in L.
    change (zlen (LBRA :: varint gt ++ written (Plain ab (p :: ps)) ++ [RBRA]) <= zlen (LBRA :: varint gt ++ ab ++ [RBRA])) in L.
    rewrite (written_plain ab (p :: ps)) in L by discriminate. rewrite !zlen_cons, !zlen_app, !zlen_cons, !zlen_app in L.
    pose proof (zlen_nonneg (join PIPE (map written_pat (p :: ps)))). change (zlen [RPAR]) with 1 in L. lia.
  - assert (X : accepts_inside (0, Plain gb gps) (0, Plain hb hps)).
    { eapply simple_sym; eauto; [left; destruct hps; [tauto|reflexivity]|]. apply i_pats; auto. }
    inversion X; subst; [tauto|]. apply a_pats; auto.
Qed.
Theorem canon_intersection_is_accepted_by_both_partial : forall a b s, well_formed a -> well_formed b -> simple a -> simple b ->
  canon_tryIntersect (written a) (written b) = Some s -> s <> [] ->
  (s = written a \/ s = written b) /\ isCanonAssignable (written a) s = Some true /\ isCanonAssignable (written b) s = Some true.
Proof.
  intros a b s Wa Wb Sa Sb E N. unfold canon_tryIntersect in E. pose proof (canon_accepts_itself a Wa) as Ra. pose proof (canon_accepts_itself b Wb) as Rb.
  destruct (Z.ltb_spec (zlen (written a)) (zlen (written b))) as [H|H].
  - destruct (isCanonAssignable (written b) (written a)) as [[|]|] eqn:A; cbn in E; injection E as <- || discriminate E; [|tauto].
    split; [right; reflexivity|]. split; [|exact Rb]. apply says in A; [|exact Wb|exact Wa]. apply says; [exact Wa|exact Wb|]. apply longer_accepts; [assumption..|lia|exact A].
  - destruct (isCanonAssignable (written a) (written b)) as [[|]|] eqn:A; cbn in E; injection E as <- || discriminate E; [|tauto].
    split; [left; reflexivity|]. split; [exact Ra|]. apply says in A; [|exact Wa|exact Wb]. apply says; [exact Wb|exact Wa|]. apply longer_accepts; assumption.
Qed.
Print Assumptions canon_intersection_is_accepted_by_both_partial.
(** In general it is not: the check is made the wrong way round. *)
Definition two_pats (i : Z) : canon := Plain (s_base i) [(1, 5, [i32']); (1, 6, [i32'])].
Definition one_pat (i : Z) : canon := Plain (s_base i) [(1, 5, [i32'])].
Local Lemma two_ok i : 0 <= i < 2 ^ 20 -> well_formed (two_pats i) /\ well_formed (one_pat i).
Proof.
  intros Hi. pose proof p20. assert (G : forall t c, In (t, c) [i32'] -> 0 <= t < 8 /\ well_formed c).
  { intros t c [E|[]]. injection E as <- <-. split; [lia|apply i32_ok]. }
  split; constructor; try (apply base_ok; auto); intros m g args I; repeat (destruct I as [E|I]; [injection E as <- <- <-; split; [lia|split; [lia|split; [discriminate|exact G]]]|]); destruct I.
Qed.
Definition b8' : Z * canon := (2, Plain [98; 56] []).
Definition long_base : list Z := [109; 49; 50; 56; 200] ++ varint 1000000 ++ varint 1000000.
Definition short_base : list Z := [109; 56; 200] ++ varint 1 ++ varint 1.
Theorem canon_intersection_is_accepted_by_both_refuted : exists a b s, well_formed a /\ well_formed b /\
  canon_tryIntersect (written a) (written b) = Some s /\ s <> [] /\ isCanonAssignable (written b) s = Some false.
Proof.
  exists (Plain long_base [(1, 5, [b8'])]), (Plain short_base [(1, 5, [b8']); (1, 6, [b8'])]), (written (Plain long_base [(1, 5, [b8'])])). pose proof p20.
  assert (G : forall t c, In (t, c) [b8'] -> 0 <= t < 8 /\ well_formed c).
  { intros t c [E|[]]. injection E as <- <-. split; [lia|]. constructor; [|intros ? ? ? []]. split; [discriminate|]. split; [discriminate|].
    repeat (constructor; [repeat split; discriminate|]). constructor. }
  split; [|split].
  - apply wf_one; [|lia|lia|split; [discriminate|exact G]]. split; [discriminate|]. split; [discriminate|]. vm_compute. repeat (constructor; [repeat split; discriminate|]). constructor.
  - constructor; [split; [discriminate|]; split; [discriminate|]; vm_compute; repeat (constructor; [repeat split; discriminate|]); constructor|].
    intros m g args I. repeat (destruct I as [E|I]; [injection E as <- <- <-; split; [lia|split; [lia|split; [discriminate|exact G]]]|]); destruct I.
  - vm_compute. split; auto. split; [discriminate|auto].
Qed.
Print Assumptions canon_intersection_is_accepted_by_both_refuted.
Theorem canon_intersection_is_found_refuted : exists a b, well_formed a /\ well_formed b /\
  isCanonAssignable (written a) (written b) = Some true /\ canon_tryIntersect (written a) (written b) = Some [].
Proof.
  exists (one_pat 1), (two_pats 1). pose proof p20. split; [apply two_ok; lia|]. split; [apply two_ok; lia|]. vm_compute. auto.
Qed.
Print Assumptions canon_intersection_is_found_refuted.

(** ** Non-vacuity *)
(** S(i32 | T: [S(i32)], f32): accepted by S(i32) and by S without patterns, but not the other way round *)
Definition big : canon := Plain (s_base 3) [(1, 5, [i32']); (2, 9, [(4, Array 1 (one_pat 8)); f32'])].
Local Lemma big_ok : well_formed big.
Proof.
  pose proof p20. constructor; [apply base_ok; lia|]. intros m g args I. repeat (destruct I as [E|I]; [injection E as <- <- <-|]); [| |destruct I].
  - split; [lia|]. split; [lia|]. split; [discriminate|]. intros t c [E|[]]. injection E as <- <-. split; [lia|apply i32_ok].
  - split; [lia|]. split; [lia|]. split; [discriminate|]. intros t c [E|[E|[]]]; injection E as <- <-; split; try lia; [|apply f32_ok].
    constructor; [lia|]. apply (two_ok 8). lia.
Qed.
Example canon_acceptance_example :
  isCanonAssignable (written (one_pat 4)) (written big) = Some true /\ isCanonAssignable (written (Plain (s_base 3) [])) (written big) = Some true /\
  isCanonAssignable (written big) (written (one_pat 4)) = Some false /\ well_formed big /\ well_formed (one_pat 4).
Proof. split; [vm_compute; reflexivity|]. split; [vm_compute; reflexivity|]. split; [vm_compute; reflexivity|]. split; [apply big_ok|]. apply (two_ok 4). rewrite p20. lia. Qed.
Example canon_super_example : canon_trySuper (written (two_pats 4)) (written (one_pat 4)) = Some (written (one_pat 4)).
Proof. vm_compute. reflexivity. Qed.
