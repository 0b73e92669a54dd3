(** Proofs about lifetimes: places in common. *)
From Verif Require Import LifetimeSpec LifetimeProofs LifetimeSem LifetimeMerge UsageProps CommonLemmas WordsLemmas.
Open Scope Z_scope.

Definition meet (p q : path) : Prop := exists x, covers p x /\ covers q x.
Definition opt_ok (p : path) : Prop := p = [] \/ path_ok p.
Lemma opt_ok_cons s p : opt_ok (s :: p) -> sub_ok s /\ opt_ok p /\ (p <> [] -> flatCount s = 1).
Proof.
  intros [h|h]; [discriminate|]. apply path_ok_cons in h. destruct h as [h [->|[c k]]]; [split; [exact h|split; [left; reflexivity|congruence]]|].
  split; [exact h|]. split; [right; exact k|auto].
Qed.
Lemma path_ok_make s p : sub_ok s -> opt_ok p -> (p <> [] -> flatCount s = 1) -> path_ok (s :: p).
Proof. intros h [->|k] c; [exact h|]. destruct p; [destruct k|]. refine (conj h (conj _ k)). apply c. discriminate. Qed.

(* ---------- intersections ---------- *)
Lemma inter_path_spec : forall a b g q, opt_ok a -> opt_ok b -> inter_path g a b = Some q ->
  match q with
  | None => forall x, ~ (covers a x /\ covers b x)
  | Some r => exists m, r = g ++ m /\ opt_ok m /\ (m = [] -> a = [] /\ b = []) /\ length m = Nat.max (length a) (length b) /\ forall x, covers m x <-> covers a x /\ covers b x
  end.
Proof.
  induction a as [|s a IH]; intros b g q oa ob e.
  - cbn [inter_path] in e. assert (e' : (do _ <- check (match g with [] => false | _ => true end); Some (Some (g ++ [] ++ b))) = Some q) by (destruct b; exact e). clear e.
    destruct (check _); [|discriminate]. cbn [obind app] in e'. injection e' as <-. exists b. refine (conj eq_refl (conj ob (conj _ (conj eq_refl _)))); [auto|].
    intros x. cbn. tauto.
  - destruct b as [|t b].
    + cbn [inter_path] in e. destruct (check _); [|discriminate]. cbn [obind] in e. injection e as <-. exists (s :: a). rewrite app_nil_r.
      refine (conj eq_refl (conj oa (conj _ (conj eq_refl _)))); [discriminate|]. intros x. cbn [covers]. tauto.
    + cbn [inter_path] in e. apply opt_ok_cons in oa. destruct oa as ((s1 & s2) & oa & ca). apply opt_ok_cons in ob. destruct ob as ((t1 & t2) & ob & cb).
      unfold overlap in e. destruct (Z.leb_spec (Z.min (flatOffset t + flatCount t - flatOffset s) (flatOffset s + flatCount s - flatOffset t)) 0) as [h|h].
      * injection e as <-. intros [|y x] [h1 h2]; cbn [covers] in h1, h2; [exact h1|]. lia.
      * apply obindE in e. destruct e as (u & c & e). apply check_Some in c. cbn [flatCount] in c.
        specialize (IH b _ q oa ob e). destruct q as [r|].
        -- destruct IH as (m & -> & om & nm & lm & cm). exists (SR (Z.min (flatCount s) (flatCount t)) (Z.max (flatOffset s) (flatOffset t)) :: m).
           rewrite <- app_assoc. refine (conj eq_refl (conj _ (conj _ (conj _ _)))); [|discriminate|cbn [length Nat.max]; rewrite lm; reflexivity|].
           ++ right. apply path_ok_make; [unfold sub_ok; cbn [flatCount flatOffset]; lia|exact om|]. intros ne. cbn [flatCount].
              assert (a <> [] \/ b <> []) as [k|k] by (destruct a; [destruct b; [exfalso; destruct om as [->|om]; [congruence|]|right; discriminate]|left; discriminate]; destruct (covers_witness m om) as [x cx]; destruct m as [|u1 m1]; [congruence|]; specialize (cm []); cbn in cm; tauto).
              ** rewrite (ca k). lia.
              ** rewrite (cb k). lia.
           ++ intros [|y x]; cbn [covers flatCount flatOffset]; [tauto|]. rewrite cm. split; [intros (h1 & h2 & h3); split; (split; [lia|assumption])|].
              intros ((h1 & h2) & h3 & h4). split; [lia|auto].
        -- intros [|y x] [h1 h2]; cbn [covers] in h1, h2; [exact h1|]. apply (IH x). tauto.
Qed.
(** Where one lies within the other, or they are apart, there is an answer. *)
Lemma inter_path_total : forall a b g, opt_ok a -> opt_ok b -> (g <> [] \/ a <> [] /\ b <> []) ->
  (a = [] \/ b = [] \/ within a b \/ within b a \/ ~ meet a b) -> exists q, inter_path g a b = Some q.
Proof.
  induction a as [|s a IH]; intros b g oa ob ne h.
  - cbn [inter_path]. destruct g; [destruct ne as [ne|[ne _]]; congruence|]. destruct b; cbn [check obind]; eauto.
  - destruct b as [|t b]; [cbn [inter_path]; destruct g; [destruct ne as [ne|[_ ne]]; congruence|]; cbn [check obind]; eauto|].
    cbn [inter_path]. destruct (Z.leb_spec (overlap s t) 0) as [k|k]; [eauto|]. apply opt_ok_cons in oa. destruct oa as ((s1 & s2) & oa & ca). apply opt_ok_cons in ob. destruct ob as ((t1 & t2) & ob & cb).
    cbn [flatCount]. unfold overlap in k.
    assert (disj : Z.min (flatCount s) (flatCount t) <= overlap s t /\ (a = [] \/ b = [] \/ within a b \/ within b a \/ ~ meet a b)).
    { unfold overlap. destruct h as [h|[h|[h|[h|h]]]]; try discriminate.
      - apply within_cons in h. destruct h as [[-> [h1 h2]]|(_ & -> & h)]; [split; [lia|auto]|]. split; [lia|auto].
      - apply within_cons in h. destruct h as [[-> [h1 h2]]|(_ & -> & h)]; [split; [lia|auto]|]. split; [lia|auto].
      - destruct a as [|a1 a'] eqn:ea; [exfalso|rewrite <- ea in *; assert (na : a <> []) by (rewrite ea; discriminate); clear ea; destruct b as [|b1 b'] eqn:eb; [exfalso|rewrite <- eb in *; assert (nb : b <> []) by (rewrite eb; discriminate); clear eb]].
        + apply h. destruct ob as [->|ob]; [exists [Z.max (flatOffset s) (flatOffset t)]; cbn; lia|].
          destruct (covers_witness b ob) as [x cx]. exists (Z.max (flatOffset s) (flatOffset t) :: x). cbn. split; (split; [lia|]); [exact I|exact cx].
        + destruct oa as [->|oa]; [congruence|]. apply h. destruct (covers_witness a oa) as [x cx]. exists (Z.max (flatOffset s) (flatOffset t) :: x). cbn. split; (split; [lia|]); [exact cx|exact I].
        + rewrite (ca na) in *. rewrite (cb nb) in *. split; [lia|]. do 4 right. intros (x & c1 & c2). apply h. exists (flatOffset s :: x). cbn. split; (split; [lia|assumption]). }
    destruct disj as [d1 d2]. replace (Z.min (flatCount s) (flatCount t) <=? overlap s t) with true by lia. cbn [check obind].
    apply IH; [exact oa|exact ob| |exact d2]. left. destruct g; discriminate.
Qed.

(** Pairs of which no two in a row meet. *)
Definition meets (pq : path * path) : Prop := meet (fst pq) (snd pq).
Definition lonely (pairs : list (path * path)) : Prop := forall pre u v post, pairs = pre ++ u :: v :: post -> ~ (meets u /\ meets v).
Lemma lonely_tail u pairs : lonely (u :: pairs) -> lonely pairs.
Proof. intros h pre v w post e. apply (h (u :: pre) v w post). rewrite e. reflexivity. Qed.
Lemma inter_pairs_spec : forall pairs result g r, Forall (fun pq => path_ok (fst pq) /\ path_ok (snd pq)) pairs -> Forall path_ok result ->
  lonely pairs -> (g = [] \/ match pairs with u :: _ => ~ meets u | [] => True end) -> inter_pairs result g pairs = Some r ->
  Forall path_ok r /\ (length r <= length result + length pairs)%nat /\
  (forall q, In q r -> In q result \/ exists p p', In (p, p') pairs /\ length q = Nat.max (length p) (length p')) /\
  (forall x, covered r x <-> covered result x \/ exists p q, In (p, q) pairs /\ covers p x /\ covers q x).
Proof.
  induction pairs as [|[a b] pairs IH]; intros result g r ok okr lo hg e; cbn [inter_pairs] in e.
  - injection e as <-. refine (conj okr (conj _ (conj _ _))); [lia|auto|]. intros x. split; [auto|]. intros [h|(p & q & [] & _)]. exact h.
  - apply Forall_cons_iff in ok. destruct ok as [[oa ob] ok']. cbn [fst snd] in oa, ob. apply obindE in e. destruct e as (q & e1 & e2).
    pose proof (inter_path_spec a b g q (or_intror oa) (or_intror ob) e1) as sp.
    pose proof (lonely_tail _ _ lo) as lo'.
    destruct q as [m|].
    + destruct sp as (m' & -> & om & nm & lm & cm). destruct om as [->|om]; [destruct (nm eq_refl) as [-> _]; destruct oa|].
      assert (mt : meets (a, b)) by (destruct (covers_witness m' om) as [x cx]; exists x; apply cm, cx).
      destruct hg as [->|hg]; [|contradiction]. cbn [app] in *.
      apply obindE in e2. destruct e2 as (result' & e2 & e3).
      destruct (add_path_spec m' result om okr) as (r1 & f1 & f2 & f3 & f4 & f5 & f6 & _). rewrite e2 in f1. injection f1 as <-.
      destruct (IH result' m' r ok' f2 lo') as (i1 & i2 & il & i3).
      { right. destruct pairs as [|v pairs]; [exact I|]. intros k. apply (lo [] (a, b) v pairs eq_refl). auto. }
      { exact e3. }
      refine (conj i1 (conj _ (conj _ _))); [cbn [length]; lia| |]; [intros q iq; destruct (il q iq) as [k|(p & p' & k & lq)]; [destruct (f6 q k) as [k2| ->]; [auto|right; exists a, b; split; [left; reflexivity|exact lm]]|right; exists p, p'; split; [right; exact k|exact lq]]|]. intros x. rewrite i3, f5, cm. split.
      * intros [[h|h]|(p & q & i & h)]; [auto|right; exists a, b; split; [left; reflexivity|exact h]|right; exists p, q; split; [right; exact i|exact h]].
      * intros [h|(p & q & [i|i] & h)]; [auto|injection i as <- <-; auto|right; exists p, q; auto].
    + destruct (IH result [] r ok' okr lo' (or_introl eq_refl) e2) as (i1 & i2 & il & i3).
      refine (conj i1 (conj _ (conj _ _))); [cbn [length]; lia| |]; [intros q iq; destruct (il q iq) as [k|(p & p' & k & lq)]; [auto|right; exists p, p'; split; [right; exact k|exact lq]]|]. intros x. rewrite i3. split.
      * intros [h|(p & q & i & h)]; [auto|right; exists p, q; split; [right; exact i|exact h]].
      * intros [h|(p & q & [i|i] & h)]; [auto|injection i as <- <-; exfalso; exact (sp x h)|right; exists p, q; auto].
Qed.
Lemma prod_ok ps qs : Forall path_ok ps -> Forall path_ok qs -> Forall (fun pq => path_ok (fst pq) /\ path_ok (snd pq)) (list_prod ps qs).
Proof.
  rewrite !Forall_forall. intros a b [p q] i. apply in_prod_iff in i. cbn. destruct i. auto.
Qed.
Lemma prod_covered ps qs x : (exists p q, In (p, q) (list_prod ps qs) /\ covers p x /\ covers q x) <-> covered ps x /\ covered qs x.
Proof.
  unfold covered. split.
  - intros (p & q & i & c1 & c2). apply in_prod_iff in i. destruct i as [i j]. split; [exists p|exists q]; auto.
  - intros ((p & i & c) & q & j & d). exists p, q. rewrite in_prod_iff. auto.
Qed.
Lemma Paths_inter_spec ps qs a b out : Forall path_ok ps -> Forall path_ok qs -> paths_bytes ps a -> paths_bytes qs b ->
  lonely (list_prod ps qs) -> lonely (list_prod qs ps) -> Paths_inter [] a b = Some out ->
  exists rs, (out = [] /\ rs = [] \/ rs <> [] /\ paths_bytes rs out) /\ Forall path_ok rs /\ (forall x, covered rs x <-> covered ps x /\ covered qs x).
Proof.
  intros okp okq pa pb l1 l2 e. unfold Paths_inter in e.
  assert (go : forall ps qs a b, Forall path_ok ps -> Forall path_ok qs -> paths_bytes ps a -> paths_bytes qs b -> lonely (list_prod ps qs) ->
    (do a <- parsePaths a; do b <- parsePaths b; do result <- inter_pairs [] [] (list_prod a b); appendPaths [] result true true) = Some out ->
    exists rs, (out = [] /\ rs = [] \/ rs <> [] /\ paths_bytes rs out) /\ Forall path_ok rs /\ (forall x, covered rs x <-> covered ps x /\ covered qs x)).
  { clear. intros ps qs a b okp okq pa pb lo e. rewrite (parsePaths_ok _ _ okp pa), (parsePaths_ok _ _ okq pb) in e. cbn [obind] in e.
    apply obindE in e. destruct e as (rs & e1 & e2).
    destruct (inter_pairs_spec _ [] [] rs (prod_ok _ _ okp okq) (Forall_nil _) lo (or_introl eq_refl) e1) as (o & _ & _ & c).
    exists rs. refine (conj _ (conj o _)).
    - destruct rs as [|r1 rs']; [left; split; [|reflexivity]; cbn in e2; injection e2 as <-; reflexivity|right]. split; [discriminate|].
      destruct (paths_have_bytes (r1 :: rs') ltac:(discriminate) o) as [bs pr]. rewrite (appendPaths_spec _ bs [] true true o pr) in e2.
      destruct (valid _ _ _); [|discriminate]. injection e2 as <-. exact pr.
    - intros x. rewrite c, prod_covered. pose proof (covered_nil x). tauto. }
  destruct (zlen a <? zlen b).
  - destruct (go qs ps b a okq okp pb pa l2 e) as (rs & h1 & h2 & h3). exists rs. refine (conj h1 (conj h2 _)). intros x. rewrite h3. tauto.
  - apply (go ps qs a b); assumption.
Qed.
Lemma inter_pairs_total : forall pairs result g, Forall (fun pq => path_ok (fst pq) /\ path_ok (snd pq)) pairs -> Forall path_ok result ->
  lonely pairs -> (g = [] \/ match pairs with u :: _ => ~ meets u | [] => True end) ->
  Forall (fun pq => within (fst pq) (snd pq) \/ within (snd pq) (fst pq) \/ ~ meets pq) pairs -> exists r, inter_pairs result g pairs = Some r.
Proof.
  induction pairs as [|[a b] pairs IH]; intros result g ok okr lo hg nest; cbn [inter_pairs]; [eauto|].
  apply Forall_cons_iff in ok. destruct ok as [[oa ob] ok']. cbn [fst snd] in oa, ob. apply Forall_cons_iff in nest. destruct nest as [n1 n2]. cbn [fst snd] in n1. pose proof (lonely_tail _ _ lo) as lo'.
  destruct (inter_path_total a b g (or_intror oa) (or_intror ob)) as [q e].
  { right. split; apply path_ok_nonempty; assumption. }
  { do 2 right. exact n1. }
  rewrite e. cbn [obind]. pose proof (inter_path_spec a b g q (or_intror oa) (or_intror ob) e) as sp. destruct q as [m|]; [|apply IH; auto].
  destruct sp as (m' & -> & om & nm & lm & cm). destruct om as [->|om]; [destruct (nm eq_refl) as [-> _]; destruct oa|].
  assert (mt : meets (a, b)) by (destruct (covers_witness m' om) as [x cx]; exists x; apply cm, cx).
  destruct hg as [->|hg]; [|contradiction]. cbn [app] in *. destruct (add_path_spec m' result om okr) as (r1 & f1 & f2 & _). rewrite f1. cbn [obind].
  apply IH; auto. right. destruct pairs as [|v pairs]; [exact I|]. intros k. apply (lo [] (a, b) v pairs eq_refl). auto.
Qed.

Lemma Paths_inter_total ps qs a b : Forall path_ok ps -> Forall path_ok qs -> paths_bytes ps a -> paths_bytes qs b ->
  lonely (list_prod ps qs) -> lonely (list_prod qs ps) ->
  (forall p q, In p ps -> In q qs -> within p q \/ within q p \/ ~ meet p q) ->
  (length ps * length qs <= 64)%nat -> Forall (fun p => (length p <= 64)%nat) (ps ++ qs) -> exists out, Paths_inter [] a b = Some out.
Proof.
  intros okp okq pa pb l1 l2 nest len dep. unfold Paths_inter.
  assert (go : forall ps qs a b, Forall path_ok ps -> Forall path_ok qs -> paths_bytes ps a -> paths_bytes qs b -> lonely (list_prod ps qs) ->
    (forall p q, In p ps -> In q qs -> within p q \/ within q p \/ ~ meet p q) -> (length ps * length qs <= 64)%nat -> Forall (fun p => (length p <= 64)%nat) (ps ++ qs) ->
    exists out, (do a <- parsePaths a; do b <- parsePaths b; do result <- inter_pairs [] [] (list_prod a b); appendPaths [] result true true) = Some out).
  { clear. intros ps qs a b okp okq pa pb lo nest len dep. rewrite (parsePaths_ok _ _ okp pa), (parsePaths_ok _ _ okq pb). cbn [obind].
    destruct (inter_pairs_total (list_prod ps qs) [] [] (prod_ok _ _ okp okq) (Forall_nil _) lo (or_introl eq_refl)) as [r e].
    { apply Forall_forall. intros [p q] i. apply in_prod_iff in i. apply nest; apply i. }
    rewrite e. cbn [obind]. destruct (inter_pairs_spec _ [] [] r (prod_ok _ _ okp okq) (Forall_nil _) lo (or_introl eq_refl) e) as (o & l & i & _).
    destruct r as [|r1 rs]; [exists []; reflexivity|]. destruct (paths_have_bytes (r1 :: rs) ltac:(discriminate) o) as [bs pr]. rewrite (appendPaths_spec _ bs [] true true o pr).
    rewrite prod_length in l. unfold valid. replace (Z.of_nat (length (r1 :: rs)) <=? 64) with true by (symmetry; apply Z.leb_le; cbn [length] in l; cbn [length]; lia).
    cbn [andb orb]. rewrite andb_true_r. rewrite (proj2 (forallb_forall _ _)); [eauto|]. intros q iq. rewrite Forall_forall in o, dep.
    pose proof (path_ok_nonempty q (o q iq)) as ne. destruct (i q iq) as [[]|(p & p' & k & lq)]. apply in_prod_iff in k. destruct k as [k1 k2].
    pose proof (dep p (in_or_app _ _ _ (or_introl k1))). pose proof (dep p' (in_or_app _ _ _ (or_intror k2))). destruct q; [congruence|]. cbn [length] in *. lia. }
  destruct (zlen a <? zlen b).
  - apply (go qs ps b a); auto; [|lia|].
    + intros p q i1 i2. destruct (nest q p i2 i1) as [h|[h|h]]; [auto|auto|]. do 2 right. intros (x & c1 & c2). apply h. exists x. auto.
    + rewrite Forall_app in *. tauto.
  - apply (go ps qs a b); assumption.
Qed.

(* ---------- whether there is one ---------- *)
Lemma common_spec : forall a b x0 y0, opt_ok a -> opt_ok b -> match common a b x0 y0 with
  | None => ~ meet a b
  | Some (s, t) => meet a b /\ (a <> [] -> b <> [] -> nth_error a (Nat.min (length a) (length b) - 1) = Some s /\ nth_error b (Nat.min (length a) (length b) - 1) = Some t)
                   /\ (a = [] \/ b = [] -> s = x0 /\ t = y0)
  end.
Proof.
  induction a as [|s a IH]; intros b x0 y0 oa ob; cbn [common].
  - refine (conj _ (conj _ _)); [|congruence|auto]. destruct ob as [->|ob]; [exists []; cbn; auto|]. destruct (covers_witness b ob) as [x cx]. exists x. cbn. auto.
  - destruct b as [|t b].
    + refine (conj _ (conj _ _)); [|congruence|auto]. destruct oa as [oa|oa]; [discriminate|]. destruct (covers_witness _ oa) as [x cx]. exists x. cbn [covers]. auto.
    + apply opt_ok_cons in oa. destruct oa as ((s1 & s2) & oa & ca). apply opt_ok_cons in ob. destruct ob as ((t1 & t2) & ob & cb).
      unfold overlap. destruct (Z.leb_spec (Z.min (flatOffset t + flatCount t - flatOffset s) (flatOffset s + flatCount s - flatOffset t)) 0) as [h|h].
      * intros (x & h1 & h2). destruct x as [|y x]; cbn [covers] in h1, h2; [exact h1|]. lia.
      * specialize (IH b s t oa ob). destruct (common a b s t) as [[u v]|].
        -- destruct IH as ((x & c1 & c2) & i1 & i2). refine (conj _ (conj _ _)); [|intros _ _|intros [k|k]; discriminate].
           ++ exists (Z.max (flatOffset s) (flatOffset t) :: x). cbn. split; (split; [lia|assumption]).
           ++ destruct a as [|a1 a']; [destruct i2 as [-> ->]; auto|]. destruct b as [|b1 b']; [destruct i2 as [-> ->]; auto|].
              destruct i1 as [j1 j2]; try discriminate. cbn [length Nat.min Nat.sub nth_error] in *. rewrite Nat.sub_0_r in *. auto.
        -- intros (x & h1 & h2). destruct x as [|y x]; cbn [covers] in h1, h2; [exact h1|]. apply IH. exists x. tauto.
Qed.

Lemma touches_cons s p m y x : touches (s :: p) m (y :: x) <-> flatOffset s <= y < flatOffset s + flatCount s /\
  match p with [] => match m with None => True | Some m => Z.testbit m (3 + (y - flatOffset s) mod 29) = true end | _ => touches p m x end.
Proof. destruct p; cbn; tauto. Qed.
Lemma touches_covers : forall p m x, touches p m x -> covers p x.
Proof.
  induction p as [|s p IH]; intros m x h; [exact I|]. destruct x as [|y x]; [destruct p; exact h|]. apply touches_cons in h. destruct h as [h1 h2].
  split; [exact h1|]. destruct p; [exact I|]. exact (IH m x h2).
Qed.
Lemma touches_last : forall p m x, p <> [] -> touches p m x -> exists s y, nth_error p (length p - 1) = Some s /\ nth_error x (length p - 1) = Some y /\
  match m with None => True | Some m => Z.testbit m (3 + (y - flatOffset s) mod 29) = true end.
Proof.
  induction p as [|s p IH]; intros m x ne h; [congruence|]. destruct x as [|y x]; [destruct p; destruct h|]. apply touches_cons in h. destruct h as [h1 h2].
  destruct p as [|s2 p2] eqn:ep; [exists s, y; auto|]. rewrite <- ep in *. destruct (IH m x ltac:(rewrite ep; discriminate)) as (u & v & e1 & e2 & e3); [rewrite ep in *; exact h2|].
  exists u, v. replace (length (s :: p) - 1)%nat with (S (length p - 1)) by (rewrite ep; cbn [length]; lia). auto.
Qed.
Lemma covers_nth : forall p x i s, covers p x -> nth_error p i = Some s -> exists y, nth_error x i = Some y /\ flatOffset s <= y < flatOffset s + flatCount s.
Proof.
  induction p as [|t p IH]; intros x i s c e; [destruct i; discriminate|]. destruct x as [|y x]; [destruct c|]. destruct c as [c1 c2].
  destruct i as [|i]; [injection e as <-; exists y; auto|]. apply (IH x i s c2 e).
Qed.
Lemma path_ok_nth : forall p i s, path_ok p -> nth_error p i = Some s -> sub_ok s.
Proof.
  induction p as [|t p IH]; intros i s ok e; [destruct ok|]. apply path_ok_cons in ok. destruct ok as [o [->|[_ ok]]].
  - destruct i as [|[|i]]; [injection e as <-; exact o|discriminate|discriminate].
  - destruct i as [|i]; [injection e as <-; exact o|]. apply (IH i s ok e).
Qed.

Definition usage_of (rw : option rwquals) : option Z := option_map rw_usage rw.
Definition written_of (rw : option rwquals) : option Z := option_map rw_written rw.
Definition rw_ok (rw : option rwquals) : Prop := match rw with None => True | Some rw => word 32 (rw_usage rw) /\ word 32 (rw_written rw) end.
Lemma region_bit off n range y : 0 <= off -> 0 <= n -> getRegionUsage off n = Some range -> off <= y < off + n -> Z.testbit range (3 + y mod 29) = true.
Proof.
  intros h1 h2 e hy. destruct (region_usage_is_the_region off n h1 h2) as (r & e' & _ & _ & sl). rewrite e in e'. injection e' as <-.
  pose proof (Z.mod_pos_bound y 29 ltac:(lia)) as b. pose proof (sl (y mod 29) ltac:(lia)) as sl2. change (Z.testbit range (3 + y mod 29) = ((y mod 29 - off) mod 29 <? n)) in sl2. rewrite sl2.
  rewrite Zminus_mod_idemp_l. apply Z.ltb_lt. pose proof (Z.mod_le (y - off) 29 ltac:(lia) ltac:(lia)). lia.
Qed.
Lemma abs_bit q off a y : word 32 q -> 0 <= off -> structUsageFromFieldUsage q off = Some a ->
  Z.testbit q (3 + (y - off) mod 29) = true -> Z.testbit a (3 + y mod 29) = true.
Proof.
  intros w h e b. destruct (struct_usage_places_the_field q off w h) as (r & e' & _ & _ & sl). rewrite e in e'. injection e' as <-.
  pose proof (Z.mod_pos_bound y 29 ltac:(lia)). pose proof (sl (y mod 29) ltac:(lia)) as sl2. change (Z.testbit a (3 + y mod 29) = Z.testbit q (3 + (y mod 29 - off) mod 29)) in sl2.
  rewrite sl2, Zminus_mod_idemp_l. exact b.
Qed.
Lemma land_bit a b i : Z.land a b = 0 -> Z.testbit a i = true -> Z.testbit b i = true -> False.
Proof. intros e h1 h2. assert (Z.testbit (Z.land a b) i = true) by (rewrite Z.land_spec, h1, h2; reflexivity). rewrite e, Z.bits_0 in H. discriminate. Qed.
Lemma sub_bit a b i : Z.land a b = a -> Z.testbit a i = true -> Z.testbit b i = true.
Proof. intros e h. rewrite <- e, Z.land_spec in h. apply andb_true_iff in h. apply h. Qed.
(** One path's masks, put where they belong, against the range the other goes through. *)
Lemma one_side s t y l a rng (wr : bool) : word 32 (rw_usage l) -> word 32 (rw_written l) -> sub_ok s -> sub_ok t ->
  abs_usage l (flatOffset s) = Some a -> Z.land (rw_written a) (rw_usage a) = rw_written a ->
  getRegionUsage (flatOffset t) (flatCount t) = Some rng -> Z.land rng (if wr then rw_usage a else rw_written a) = 0 ->
  flatOffset t <= y < flatOffset t + flatCount t ->
  Z.testbit (rw_written l) (3 + (y - flatOffset s) mod 29) = true \/ (wr = true /\ Z.testbit (rw_usage l) (3 + (y - flatOffset s) mod 29) = true) -> False.
Proof.
  intros wu ww [so sc] [to tc] e sub er z hy h. unfold abs_usage in e. apply obindE in e. destruct e as (u & eu & e). apply obindE in e. destruct e as (w & ew & e). injection e as <-.
  cbn [rw_usage rw_written] in *. pose proof (region_bit (flatOffset t) (flatCount t) _ y (proj1 to) ltac:(lia) er hy) as rb.
  assert (k : Z.testbit (if wr then u else w) (3 + y mod 29) = true).
  { destruct h as [h|[-> h]].
    - pose proof (abs_bit _ _ _ _ ww (proj1 so) ew h) as k. destruct wr; [|exact k]. exact (sub_bit _ _ _ sub k).
    - exact (abs_bit _ _ _ _ wu (proj1 so) eu h). }
  exact (land_bit _ _ _ z rb k).
Qed.
Lemma verify_sub a rw u : verify_ranges a rw = Some u -> Z.land (rw_written rw) (rw_usage rw) = rw_written rw.
Proof. unfold verify_ranges. intros e. apply obindE in e. destruct e as (r & _ & e). apply check_Some in e. lia. Qed.
Lemma no_write_no_touch p rw x : p <> [] -> writes rw = false -> touches p (written_of rw) x -> False.
Proof.
  intros ne w h. destruct rw as [rw|]; [|discriminate]. cbn in w. assert (e : rw_written rw = 0) by lia. cbn [written_of option_map] in h. rewrite e in h.
  destruct (touches_last p (Some 0) x ne h) as (s & y & _ & _ & b). rewrite Z.bits_0 in b. discriminate.
Qed.
(** A place that both touch and one of them writes *)
Definition clash (p q : path) (l r : option rwquals) (x : place) : Prop :=
  touches p (written_of l) x /\ touches q (usage_of r) x \/ touches p (usage_of l) x /\ touches q (written_of r) x.
Lemma pair_sound p q l r x : path_ok p -> path_ok q -> rw_ok l -> rw_ok r -> pair_inter p q l r = Some false -> ~ clash p q l r x.
Proof.
  intros okp okq wl wr e cl. pose proof (path_ok_nonempty _ okp) as np. pose proof (path_ok_nonempty _ okq) as nq.
  assert (cv : covers p x /\ covers q x) by (destruct cl as [[a b]|[a b]]; split; eapply touches_covers; eassumption). destruct cv as [cp cq].
  unfold pair_inter in e. pose proof (common_spec p q (SR 0 0) (SR 0 0) (or_intror okp) (or_intror okq)) as cs.
  destruct (common p q (SR 0 0) (SR 0 0)) as [[s t]|]; [|apply cs; exists x; auto]. destruct cs as (_ & cs & _). destruct (cs np nq) as [es et]. clear cs.
  pose proof (path_ok_nth _ _ _ okp es) as os. pose proof (path_ok_nth _ _ _ okq et) as ot.
  destruct (covers_nth _ _ _ _ cp es) as (y & ey & ys). destruct (covers_nth _ _ _ _ cq et) as (y' & ey' & yt). assert (y' = y) by congruence. subst y'. clear ey'.
  apply obindE in e. destruct e as ([ok al] & el & e).
  (* what the masks say at y *)
  assert (tl : forall m, (length p <= length q)%nat -> touches p (Some m) x -> Z.testbit m (3 + (y - flatOffset s) mod 29) = true).
  { intros m le h. destruct (touches_last p _ x np h) as (s' & z & e1 & e2 & e3). replace (Nat.min (length p) (length q)) with (length p) in * by lia.
    rewrite es in e1. rewrite ey in e2. injection e1 as <-. injection e2 as <-. exact e3. }
  assert (tr : forall m, (length q <= length p)%nat -> touches q (Some m) x -> Z.testbit m (3 + (y - flatOffset t) mod 29) = true).
  { intros m le h. destruct (touches_last q _ x nq h) as (s' & z & e1 & e2 & e3). replace (Nat.min (length p) (length q)) with (length q) in * by lia.
    rewrite et in e1. rewrite ey in e2. injection e1 as <-. injection e2 as <-. exact e3. }
  (* left *)
  assert (okt : ok = true).
  { destruct l as [l|]; [|injection el as <- _; reflexivity]. destruct (Nat.leb_spec (length p) (length q)) as [le|]; [|injection el as <- _; reflexivity].
    apply obindE in el. destruct el as (a & ea & el). apply obindE in el. destruct el as (u & ev & el). apply obindE in el. destruct el as (k & ek & el). injection el as -> ->.
    destruct ok; [reflexivity|exfalso]. unfold check_usage in ek. apply obindE in ek. destruct ek as (rng & er & ek). injection ek as ek.
    destruct wl as [wu ww]. apply (one_side s t y l al rng (writes r) wu ww os ot ea (verify_sub _ _ _ ev) er); [destruct (writes r); lia|exact yt|].
    destruct cl as [[c1 c2]|[c1 c2]]; [left; apply tl; assumption|right]. split; [|apply tl; assumption].
    destruct (writes r) eqn:w; [reflexivity|]. exfalso. exact (no_write_no_touch _ _ _ nq w c2). }
  rewrite okt in e. cbn [negb] in e. destruct r as [r|]; [|discriminate]. destruct (Nat.leb_spec (length q) (length p)) as [le|]; [|discriminate].
  apply obindE in e. destruct e as (ar & ea & e). apply obindE in e. destruct e as (u & ev & e). apply obindE in e. destruct e as (k & ek & e).
  destruct k.
  - cbn [negb] in e. destruct l as [l|]; [|discriminate]. destruct (Nat.eqb_spec (length q) (length p)) as [eq|]; [|discriminate]. injection e as e.
    rewrite eq, Nat.leb_refl in el. apply obindE in el. destruct el as (a & ea' & el). apply obindE in el. destruct el as (u' & ev' & el). apply obindE in el. destruct el as (k' & ek' & el). injection el as _ ->.
    destruct wl as [wu ww], wr as [wu' ww']. destruct os as [[os _] _], ot as [[ot _] _].
    unfold abs_usage in ea, ea'. apply obindE in ea. destruct ea as (ru & e1 & ea). apply obindE in ea. destruct ea as (rw & e2 & ea). injection ea as <-.
    apply obindE in ea'. destruct ea' as (lu & e3 & ea'). apply obindE in ea'. destruct ea' as (lw & e4 & ea'). injection ea' as <-. cbn [rw_usage rw_written] in e.
    cbn [written_of usage_of option_map] in cl.
    destruct cl as [[c1 c2]|[c1 c2]]; apply tl in c1; try lia; apply tr in c2; try lia.
    + pose proof (abs_bit _ _ _ _ ww os e4 c1) as b1. pose proof (abs_bit _ _ _ _ wu' ot e1 c2) as b2. apply (land_bit lw ru (3 + y mod 29)); [lia|assumption|assumption].
    + pose proof (abs_bit _ _ _ _ wu os e3 c1) as b1. pose proof (abs_bit _ _ _ _ ww' ot e2 c2) as b2. apply (land_bit rw lu (3 + y mod 29)); [lia|assumption|assumption].
  - unfold check_usage in ek. apply obindE in ek. destruct ek as (rng & er & ek). injection ek as ek. destruct wr as [wu ww].
    apply (one_side t s y r ar rng (writes l) wu ww ot os ea (verify_sub _ _ _ ev) er); [destruct (writes l); lia|exact ys|].
    destruct cl as [[c1 c2]|[c1 c2]]; [right|left; apply tr; assumption]. split; [|apply tr; assumption].
    destruct (writes l) eqn:w; [reflexivity|]. exfalso. exact (no_write_no_touch _ _ _ np w c1).
Qed.
Lemma some_pair_sound l r x : rw_ok l -> rw_ok r -> forall pairs, Forall (fun pq => path_ok (fst pq) /\ path_ok (snd pq)) pairs -> some_pair pairs l r = Some false ->
  forall p q, In (p, q) pairs -> ~ clash p q l r x.
Proof.
  intros wl wr. induction pairs as [|[a b] pairs IH]; intros ok e p q i; [destruct i|]. apply Forall_cons_iff in ok. destruct ok as [[oa ob] ok]. cbn [some_pair] in e.
  apply obindE in e. destruct e as (k & e1 & e2). destruct k; [discriminate|]. destruct i as [i|i]; [injection i as <- <-; apply pair_sound; assumption|]. apply IH; assumption.
Qed.
(** Without masks *)
Lemma pair_plain p q : path_ok p -> path_ok q -> exists k, pair_inter p q None None = Some k /\ (k = true <-> meet p q).
Proof.
  intros okp okq. unfold pair_inter. pose proof (common_spec p q (SR 0 0) (SR 0 0) (or_intror okp) (or_intror okq)) as cs.
  destruct (common p q (SR 0 0) (SR 0 0)) as [[s t]|].
  - exists true. split; [reflexivity|]. split; [intros _; apply cs|reflexivity].
  - exists false. split; [reflexivity|]. split; [discriminate|contradiction].
Qed.
Lemma some_pair_plain : forall pairs, Forall (fun pq => path_ok (fst pq) /\ path_ok (snd pq)) pairs -> exists k, some_pair pairs None None = Some k /\ (k = true <-> exists pq, In pq pairs /\ meets pq).
Proof.
  induction pairs as [|[a b] pairs IH]; intros ok; cbn [some_pair]; [exists false; split; [reflexivity|]; split; [discriminate|intros (? & [] & _)]|].
  apply Forall_cons_iff in ok. destruct ok as [[oa ob] ok]. destruct (pair_plain a b oa ob) as (k & -> & h). cbn [obind]. destruct k.
  - exists true. split; [reflexivity|]. split; [|reflexivity]. intros _. exists (a, b). split; [left; reflexivity|apply h; reflexivity].
  - destruct (IH ok) as (k & -> & h2). exists k. split; [reflexivity|]. rewrite h2. split.
    + intros (pq & i & m). exists pq. split; [right; exact i|exact m].
    + intros (pq & [<-|i] & m); [apply h in m; discriminate|]. eauto.
Qed.
