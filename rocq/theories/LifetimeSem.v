(** Proofs about lifetimes: paths as sets of places. *)
From Verif Require Import LifetimeSpec LifetimeProofs CommonLemmas WordsLemmas.
Open Scope Z_scope.

Definition covered (ps : list path) (x : place) : Prop := exists p, In p ps /\ covers p x.
Lemma covered_app ps qs x : covered (ps ++ qs) x <-> covered ps x \/ covered qs x.
Proof.
  unfold covered. split.
  - intros (p & i & c). apply in_app_or in i. destruct i; eauto.
  - intros [(p & i & c)|(p & i & c)]; exists p; split; auto; apply in_or_app; auto.
Qed.
Lemma covered_cons p ps x : covered (p :: ps) x <-> covers p x \/ covered ps x.
Proof.
  unfold covered. split.
  - intros (q & [->|i] & c); eauto.
  - intros [c|(q & i & c)]; [exists p; split; [left; auto|auto]|exists q; split; [right; auto|auto]].
Qed.
Lemma covered_nil x : ~ covered [] x.
Proof. intros (p & [] & _). Qed.

Lemma sr_eqb_true a b : sr_eqb a b = true <-> a = b.
Proof. destruct a as [a1 a2], b as [b1 b2]. unfold sr_eqb. cbn. split; [intros h; f_equal; lia|intros e; injection e as -> ->; lia]. Qed.
Lemma path_eqb_true : forall a b, path_eqb a b = true <-> a = b.
Proof.
  induction a as [|x a IH]; intros [|y b]; cbn; split; try discriminate; auto.
  - intros h. apply andb_true_iff in h. destruct h as [h1 h2]. apply sr_eqb_true in h1. apply IH in h2. congruence.
  - intros e. injection e as -> ->. apply andb_true_iff. split; [apply sr_eqb_true|apply IH]; reflexivity.
Qed.
Lemma path_ok_cons s p : path_ok (s :: p) -> sub_ok s /\ (p = [] \/ flatCount s = 1 /\ path_ok p).
Proof. destruct p as [|t p]; [cbn; auto|]. intros (a & b & c). auto. Qed.
Lemma path_ok_nonempty p : path_ok p -> p <> [].
Proof. intros h ->. exact h. Qed.

(** One path lies within another. *)
Definition range_in (a b : subregion) : Prop := flatOffset b <= flatOffset a /\ flatOffset a + flatCount a <= flatOffset b + flatCount b.
Fixpoint within (p h : path) : Prop :=
  match p, h with
  | s :: _, [g] => range_in s g
  | s :: p, g :: h => s = g /\ within p h
  | _, _ => False
  end.
Lemma within_cons s p g h : within (s :: p) (g :: h) <-> (h = [] /\ range_in s g) \/ (h <> [] /\ s = g /\ within p h).
Proof. destruct h as [|g2 h]; cbn; split; auto; try (intros [[a b]|[a b]]; auto; congruence); intros; right; split; [discriminate|assumption]. Qed.
Lemma within_covers : forall p h x, within p h -> covers p x -> covers h x.
Proof.
  induction p as [|s p IH]; intros h x w c; [destruct h; destruct w|]. destruct h as [|g h]; [destruct w|].
  apply within_cons in w. destruct x as [|y x]; [destruct c|]. destruct c as [c1 c2]. cbn [covers].
  destruct w as [[-> [r1 r2]]|(_ & -> & w)]; [split; [lia|destruct x; exact I]|]. split; [exact c1|]. exact (IH h x w c2).
Qed.
Lemma covers_witness : forall p, path_ok p -> exists x, covers p x.
Proof.
  induction p as [|s p IH]; intros ok; [destruct ok|]. apply path_ok_cons in ok. destruct ok as [[_ o] [->|[_ ok]]].
  - exists [flatOffset s]. cbn. lia.
  - destruct (IH ok) as [x c]. exists (flatOffset s :: x). cbn. split; [lia|exact c].
Qed.
Lemma covers_within : forall p h, path_ok p -> path_ok h -> (forall x, covers p x -> covers h x) -> within p h.
Proof.
  induction p as [|s p IH]; intros h okp okh c; [destruct okp|]. destruct h as [|g h]; [destruct okh|].
  apply within_cons. apply path_ok_cons in okp. destruct okp as [[os1 os2] okp]. apply path_ok_cons in okh. destruct okh as [[og1 og2] okh].
  assert (head : forall y, flatOffset s <= y < flatOffset s + flatCount s -> flatOffset g <= y < flatOffset g + flatCount g).
  { intros y hy. destruct okp as [->|[_ okp]].
    - specialize (c [y]). cbn in c. apply c. auto.
    - destruct (covers_witness p okp) as [x cx]. specialize (c (y :: x)). cbn in c. apply c. auto. }
  destruct h as [|g2 h2]; [left; split; [reflexivity|]|right].
  - pose proof (head (flatOffset s) ltac:(lia)). pose proof (head (flatOffset s + flatCount s - 1) ltac:(lia)). split; lia.
  - split; [discriminate|]. destruct okh as [?|[c1 okh]]; [discriminate|].
    destruct okp as [->|[c2 okp]].
    + exfalso. specialize (c [flatOffset s]). cbn in c. destruct c as [_ c]; [split; [lia|exact I]|]. exact c.
    + assert (s = g). { pose proof (head (flatOffset s) ltac:(lia)). destruct s as [sc so], g as [gc go]. cbn [flatOffset flatCount] in *. f_equal; lia. }
      split; [assumption|]. subst g. apply IH; [exact okp|exact okh|]. intros x cx.
      specialize (c (flatOffset s :: x)). destruct c as [_ c]; [split; [lia|exact cx]|]. exact c.
Qed.
Lemma within_iff p h : path_ok p -> path_ok h -> (within p h <-> forall x, covers p x -> covers h x).
Proof. intros a b. split; [intros w x; apply within_covers, w|apply covers_within; assumption]. Qed.

(** The two tests of Paths_union. *)
Lemma add_tests : forall p h, p <> [] -> h <> [] ->
  let minL := Nat.min (length p) (length h) in
  exists a b, nth_error h (minL - 1) = Some a /\ nth_error p (minL - 1) = Some b /\
    (path_eqb (firstn (minL - 1) p) (firstn (minL - 1) h) = true ->
       (range_in b a /\ (length h <= length p)%nat <-> within p h) /\ (range_in a b /\ (length p <= length h)%nat <-> within h p)) /\
    (path_eqb (firstn (minL - 1) p) (firstn (minL - 1) h) = false -> ~ within p h /\ ~ within h p).
Proof.
  induction p as [|s p IH]; intros h np nh; [congruence|]. destruct h as [|g h]; [congruence|].
  destruct p as [|s2 p2] eqn:ep.
  - exists g, s. cbn [length Nat.min Nat.sub nth_error firstn path_eqb]. refine (conj eq_refl (conj eq_refl (conj _ _))); [intros _|discriminate].
    rewrite !within_cons. destruct h as [|g2 h2]; cbn [length]; split; split; intros q.
    + left. tauto.
    + destruct q as [[_ q]|[q _]]; [split; [exact q|lia]|congruence].
    + left. tauto.
    + destruct q as [[_ q]|[q _]]; [split; [exact q|lia]|congruence].
    + exfalso. lia.
    + destruct q as [[q _]|(_ & _ & q)]; [discriminate|destruct q].
    + left. tauto.
    + destruct q as [[_ q]|[q _]]; [split; [exact q|lia]|congruence].
  - rewrite <- ep in *. assert (np2 : p <> []) by (rewrite ep; discriminate). clear ep s2 p2.
    destruct h as [|g2 h2] eqn:eh.
    + exists g, s. replace (Nat.min (length (s :: p)) (length [g])) with 1%nat by (destruct p; [congruence|cbn; lia]).
      cbn [Nat.sub nth_error firstn path_eqb]. refine (conj eq_refl (conj eq_refl (conj _ _))); [intros _|discriminate].
      rewrite !within_cons. split; split; intros q.
      * left. tauto.
      * destruct q as [[_ q]|[q _]]; [|congruence]. split; [exact q|cbn [length]; lia].
      * destruct q as [_ q]. destruct p; [congruence|cbn [length] in q; lia].
      * destruct q as [[q _]|(_ & _ & q)]; [congruence|destruct p; destruct q].
    + rewrite <- eh in *. assert (nh2 : h <> []) by (rewrite eh; discriminate). clear eh g2 h2.
      destruct (IH h np2 nh2) as (a & b & e1 & e2 & t & f). cbv zeta in *.
      assert (m : (Nat.min (length (s :: p)) (length (g :: h)) - 1 = S (Nat.min (length p) (length h) - 1))%nat) by (destruct p, h; try congruence; cbn; lia).
      rewrite m. cbn [nth_error firstn path_eqb]. exists a, b. refine (conj e1 (conj e2 (conj _ _))).
      * intros q. apply andb_true_iff in q. destruct q as [q1 q2]. apply sr_eqb_true in q1. subst g. destruct (t q2) as [t1 t2].
        rewrite !within_cons. cbn [length]. split; split; intros q.
        -- right. split; [exact nh2|]. split; [reflexivity|]. apply t1. split; [tauto|lia].
        -- destruct q as [[q _]|(_ & _ & q)]; [congruence|]. apply t1 in q. split; [tauto|lia].
        -- right. split; [exact np2|]. split; [reflexivity|]. apply t2. split; [tauto|lia].
        -- destruct q as [[q _]|(_ & _ & q)]; [congruence|]. apply t2 in q. split; [tauto|lia].
      * intros q. rewrite !within_cons. apply andb_false_iff in q. destruct q as [q|q].
        -- assert (s <> g) by (intros ->; rewrite (proj2 (sr_eqb_true g g) eq_refl) in q; discriminate).
           split; intros [[w _]|(_ & w & _)]; congruence.
        -- destruct (f q) as [f1 f2]. split; intros [[w _]|(_ & w & w2)]; try congruence; tauto.
Qed.

Definition irredundant (ps : list path) : Prop := ForallOrdPairs (fun p q => ~ within p q /\ ~ within q p) ps.
Lemma add_path_loop_spec p : path_ok p -> forall rest done, Forall path_ok (done ++ rest) ->
  exists result added, add_path_loop done rest p = Some (result, added) /\ Forall path_ok result /\ result <> [] /\
    (length result <= S (length (done ++ rest)))%nat /\
    (forall x, covered result x <-> covered (done ++ rest) x \/ covers p x) /\
    (forall q, In q result -> In q (done ++ rest) \/ q = p) /\
    (irredundant (done ++ rest) -> (forall h, In h done -> ~ within p h /\ ~ within h p) -> irredundant result).
Proof.
  intros okp. induction rest as [|host rest IH]; intros done ok; cbn [add_path_loop].
  - exists (done ++ [p]), true. rewrite app_nil_r in *. refine (conj eq_refl (conj _ (conj _ (conj _ (conj _ (conj _ _)))))).
    + apply Forall_app. auto.
    + destruct done; discriminate.
    + rewrite app_length. cbn. lia.
    + intros x. rewrite covered_app, covered_cons. pose proof (covered_nil x). tauto.
    + intros q i. apply in_app_or in i. destruct i as [i|[i|[]]]; auto.
    + intros ir hd. clear - ir hd. unfold irredundant in *. induction done as [|d done IH]; cbn; [repeat constructor|].
      inversion_clear ir as [|? ? h1 h2]. constructor.
      * apply Forall_app. split; [exact h1|]. constructor; [|constructor]. destruct (hd d (or_introl eq_refl)). tauto.
      * apply IH; [exact h2|]. intros h i. apply hd. right. exact i.
  - assert (okh : path_ok host) by (rewrite Forall_forall in ok; apply ok, in_or_app; right; left; reflexivity).
    assert (okdr : Forall path_ok (done ++ rest)) by (apply Forall_app in ok; destruct ok as [o1 o2]; inversion_clear o2; apply Forall_app; auto).
    pose proof (path_ok_nonempty _ okp) as np. pose proof (path_ok_nonempty _ okh) as nh.
    destruct (add_tests p host np nh) as (a & b & e1 & e2 & t & f). cbv zeta in *.
    set (minL := Nat.min (length p) (length host)) in *.
    assert (m0 : (minL =? 0)%nat = false) by (unfold minL; destruct p, host; try congruence; reflexivity).
    rewrite m0. cbn [negb check obind].
    assert (keep : ~ within p host -> ~ within host p -> exists result added, add_path_loop (done ++ [host]) rest p = Some (result, added) /\ Forall path_ok result /\ result <> [] /\
      (length result <= S (length (done ++ host :: rest)))%nat /\
      (forall x, covered result x <-> covered (done ++ host :: rest) x \/ covers p x) /\
      (forall q, In q result -> In q (done ++ host :: rest) \/ q = p) /\
      (irredundant (done ++ host :: rest) -> (forall h, In h done -> ~ within p h /\ ~ within h p) -> irredundant result)).
    { intros n1 n2. destruct (IH (done ++ [host])) as (result & added & e & o & ne & l & c & i & ir); [rewrite <- app_assoc; exact ok|].
      rewrite <- app_assoc in *. exists result, added. refine (conj e (conj o (conj ne (conj l (conj c (conj i _)))))).
      intros ir0 hd. apply ir; [exact ir0|]. intros h ih. apply in_app_or in ih. destruct ih as [ih|[<-|[]]]; [apply hd, ih|auto]. }
    destruct (path_eqb (firstn (minL - 1) p) (firstn (minL - 1) host)) eqn:eq.
    + rewrite e1, e2. cbn [obind]. destruct (t eq_refl) as [t1 t2]. clear t f.
      destruct ((flatOffset a <=? flatOffset b) && (flatOffset b + flatCount b <=? flatOffset a + flatCount a) && (length host <=? length p)%nat) eqn:w1.
      * (* p within host: nothing to add *)
        assert (w : within p host) by (apply t1; unfold range_in; lia).
        exists (done ++ host :: rest), false. refine (conj eq_refl (conj ok (conj _ (conj _ (conj _ (conj _ _)))))); [destruct done; discriminate|lia| |auto|auto].
        intros x. split; [auto|]. intros [h|h]; [exact h|]. exists host. split; [apply in_or_app; right; left; reflexivity|]. eapply within_covers; eassumption.
      * assert (nw : ~ within p host) by (intros w; apply t1 in w; unfold range_in in w; lia).
        destruct ((flatOffset b <=? flatOffset a) && (flatOffset a + flatCount a <=? flatOffset b + flatCount b) && (length p <=? length host)%nat) eqn:w2.
        -- assert (w : within host p) by (apply t2; unfold range_in; lia).
           destruct (IH done okdr) as (result & added & e & o & ne & l & c & i & ir).
           exists result, added. refine (conj e (conj o (conj ne (conj _ (conj _ (conj _ _)))))).
           ++ rewrite app_length in *. cbn [length]. lia.
           ++ intros x. rewrite c, !covered_app, covered_cons. pose proof (within_covers host p x w). tauto.
           ++ intros q iq. destruct (i q iq) as [k|k]; [|auto]. left. apply in_app_or in k. apply in_or_app. destruct k; [auto|right; right; assumption].
           ++ intros ir0 hd. apply ir; [|exact hd]. clear - ir0. unfold irredundant in *.
              induction done as [|d done IH]; cbn in *; inversion_clear ir0 as [|? ? h1 h2]; [exact h2|]. constructor; [|apply IH, h2].
              apply Forall_app in h1. destruct h1 as [h1 h3]. inversion_clear h3. apply Forall_app. auto.
        -- apply keep; [exact nw|]. intros w. apply t2 in w. unfold range_in in w. lia.
    + destruct (f eq_refl) as [f1 f2]. apply keep; assumption.
Qed.
Lemma add_path_spec p result : path_ok p -> Forall path_ok result ->
  exists r, add_path result p = Some r /\ Forall path_ok r /\ r <> [] /\ (length r <= S (length result))%nat /\
    (forall x, covered r x <-> covered result x \/ covers p x) /\ (forall q, In q r -> In q result \/ q = p) /\
    (irredundant result -> irredundant r).
Proof.
  intros okp ok. unfold add_path. destruct (add_path_loop_spec p okp result [] ok) as (r & added & e & o & ne & l & c & i & ir).
  rewrite e. cbn [obind fst]. exists r. refine (conj eq_refl (conj o (conj ne (conj l (conj c (conj i _)))))).
  intros h. apply ir; [exact h|]. intros ? [].
Qed.
Lemma add_paths_spec : forall ps result, Forall path_ok ps -> Forall path_ok result ->
  exists r, add_paths result ps = Some r /\ Forall path_ok r /\ (result <> [] -> r <> []) /\ (length r <= length result + length ps)%nat /\
    (forall x, covered r x <-> covered result x \/ covered ps x) /\ (forall q, In q r -> In q result \/ In q ps) /\
    (irredundant result -> irredundant r).
Proof.
  induction ps as [|p ps IH]; intros result okp ok; cbn [add_paths].
  - exists result. refine (conj eq_refl (conj ok (conj _ (conj _ (conj _ (conj _ _)))))); auto; [lia|]. intros x. pose proof (covered_nil x). tauto.
  - inversion_clear okp as [|? ? o1 o2]. destruct (add_path_spec p result o1 ok) as (r1 & e1 & ok1 & ne1 & l1 & c1 & i1 & ir1). rewrite e1. cbn [obind].
    destruct (IH r1 o2 ok1) as (r & e & okr & ne & l & c & i & ir). exists r. refine (conj e (conj okr (conj _ (conj _ (conj _ (conj _ _)))))).
    + intros _. exact (ne ne1).
    + cbn [length]. lia.
    + intros x. rewrite c, c1, covered_cons. tauto.
    + intros q iq. destruct (i q iq) as [k|k]; [|right; right; exact k]. destruct (i1 q k) as [k2| ->]; [auto|right; left; reflexivity].
    + auto.
Qed.

(* ---------- writing them down ---------- *)
Definition valid (ps : list path) (mismatchOK : bool) (minDepth : Z) : bool :=
  (Z.of_nat (length ps) <=? 64) && forallb (fun p => (Z.of_nat (length p) <=? 64) && (minDepth <=? Z.of_nat (length p))) ps
  && (mismatchOK || match ps with [] => true | p :: ps => forallb (fun q => last_count q =? last_count p) ps end).
Lemma assert_valid ps bs m d : Forall path_ok ps -> paths_bytes ps bs -> assertPathsValid bs m d = if valid ps m d then Some tt else None.
Proof.
  intros ok pb. unfold assertPathsValid. destruct (walk_paths_all ps bs ok pb) as (stss & -> & st). cbn [obind fst]. rewrite (all_steps_paths _ _ st).
  unfold valid, check. destruct (Z.of_nat (length ps) <=? 64); [|reflexivity]. cbn [obind andb]. destruct (forallb (fun p => (Z.of_nat (length p) <=? 64) && (d <=? Z.of_nat (length p))) ps); reflexivity.
Qed.
Lemma appendPaths_spec ps bs str e m : Forall path_ok ps -> paths_bytes ps bs -> appendPaths str ps e m = if valid ps m 1 then Some (str ++ bs) else None.
Proof.
  intros ok pb. unfold appendPaths. assert (np : ps <> []) by (intros ->; inversion pb).
  replace (e || match ps with [] => false | _ => true end) with true by (destruct ps; [congruence|destruct e; reflexivity]). cbn [check obind].
  rewrite (append_list_bytes _ str bs ok pb). cbn [obind].
  assert (nb : bs <> []) by (pose proof (paths_bytes_len _ _ pb) as l; intros ->; destruct ps; [congruence|cbn in l; lia]).
  destruct (str ++ bs) as [|z zs] eqn:eo; [destruct str; destruct bs; try discriminate; congruence|]. rewrite <- eo.
  rewrite skipn_len by reflexivity. rewrite (assert_valid _ _ m 1 ok pb). destruct (valid ps m 1); reflexivity.
Qed.
Lemma Paths_union_spec ps qs a b str m : Forall path_ok ps -> Forall path_ok qs -> paths_bytes ps a -> paths_bytes qs b -> ps <> [] ->
  exists rs bs, Forall path_ok rs /\ rs <> [] /\ paths_bytes rs bs /\ (length rs <= length ps + length qs)%nat /\
    Paths_union str a b m = (if valid rs m 1 then Some (str ++ bs) else None) /\
    (forall x, covered rs x <-> covered ps x \/ covered qs x) /\ (forall q, In q rs -> In q ps \/ In q qs) /\
    (irredundant ps -> irredundant rs).
Proof.
  intros okp okq pa pb np. unfold Paths_union. rewrite (parsePaths_ok _ _ okp pa), (parsePaths_ok _ _ okq pb). cbn [obind].
  destruct (add_paths_spec qs ps okq okp) as (rs & -> & okr & ne & l & c & i & ir). cbn [obind].
  destruct (paths_have_bytes rs (ne np) okr) as [bs pr]. exists rs, bs.
  refine (conj okr (conj (ne np) (conj pr (conj l (conj _ (conj c (conj i ir))))))). apply appendPaths_spec; assumption.
Qed.
