(** The index of lib/hash.fu: slots as integers modulo its length, and what compact and make_fair do to it. *)
From Verif Require Import CommonLemmas HashModel.
From Coq Require Import Permutation.
Open Scope Z_scope.

Definition IE0 : ientry := IE 0 0.
Definition is_used (e : ientry) : Prop := ie_pos e <> 0%nat.
Definition usedb (e : ientry) : bool := negb (ie_pos e =? 0)%nat.
Definition used (ix : list ientry) : list ientry := filter usedb ix.
Definition pow2 (ix : list ientry) (k : Z) : Prop := 1 <= k <= 31 /\ lenz ix = 2 ^ k.
(** slot x, any integer *)
Definition at_ (ix : list ientry) (x : Z) : ientry := nth (Z.to_nat (x mod lenz ix)) ix IE0.
Definition dist (ix : list ientry) (x : Z) : Z := (x - ie_hash (at_ ix x)) mod lenz ix.
(** robin hood order: every used slot is close to its ideal one, and no further than one from its left neighbour's *)
Definition RH (ix : list ientry) (k : Z) : Prop :=
  forall x, is_used (at_ ix x) -> dist ix x < k /\
    (dist ix x = 0 \/ is_used (at_ ix (x - 1)) /\ dist ix x <= dist ix (x - 1) + 1).

Lemma usedb_true e : usedb e = true <-> is_used e.
Proof. unfold usedb, is_used. destruct (Nat.eqb_spec (ie_pos e) 0); cbn; split; congruence. Qed.
Lemma used_dec e : {is_used e} + {~ is_used e}.
Proof. unfold is_used. destruct (Nat.eq_dec (ie_pos e) 0); [right|left]; congruence. Qed.

Lemma pow2_pos ix k : pow2 ix k -> 2 <= lenz ix.
Proof. intros [a b]. rewrite b. change 2 with (2 ^ 1) at 1. apply Z.pow_le_mono_r; lia. Qed.
Lemma pow2_log ix k : pow2 ix k -> k < lenz ix.
Proof. intros [a b]. rewrite b. apply Z.pow_gt_lin_r; lia. Qed.
Lemma pow2_mask ix k x : pow2 ix k -> Z.land x (hash_mask ix) = x mod lenz ix.
Proof.
  intros p. pose proof (pow2_pos _ _ p). destruct p as [a b]. unfold hash_mask.
  destruct (Z.eqb_spec (lenz ix) 0); [lia|]. rewrite b. replace (2 ^ k - 1) with (Z.ones k).
  - apply Z.land_ones. lia.
  - rewrite Z.ones_equiv. lia.
Qed.
Lemma ctz_pow2 : forall fuel k i, 0 <= i <= k -> k < i + Z.of_nat fuel -> ctz_from fuel (2 ^ k) i = k.
Proof.
  induction fuel as [|f IH]; intros k i H1 H2; [lia|]. cbn [ctz_from].
  rewrite Z.pow2_bits_eqb by lia. destruct (Z.eqb_spec k i); [lia|]. apply IH; lia.
Qed.
Lemma pow2_probes ix k : pow2 ix k -> max_probes ix = k.
Proof.
  intros p. pose proof (pow2_pos _ _ p). destruct p as [a b]. unfold max_probes.
  destruct (Z.eqb_spec (lenz ix) 0); [lia|]. rewrite b. apply ctz_pow2; lia.
Qed.
Lemma pow2_len ix ix' k : length ix' = length ix -> pow2 ix k -> pow2 ix' k.
Proof. unfold pow2, lenz. intros ->. trivial. Qed.

(** ** Accesses *)
Lemma getz_at ix i : 0 <= i < lenz ix -> getz ix i = Some (at_ ix i).
Proof.
  intros H. unfold getz, at_. destruct (Z.ltb_spec i 0); [lia|]. rewrite Z.mod_small by lia.
  apply nth_error_nth'. unfold lenz in H. lia.
Qed.
Lemma at_mod ix x : lenz ix <> 0 -> at_ ix (x mod lenz ix) = at_ ix x.
Proof. intros H. unfold at_. rewrite Z.mod_mod; auto. Qed.
Lemma at_eqm ix x y : x mod lenz ix = y mod lenz ix -> at_ ix x = at_ ix y.
Proof. unfold at_. intros ->. trivial. Qed.
Lemma dist_mod ix x : lenz ix <> 0 -> dist ix (x mod lenz ix) = dist ix x.
Proof. intros H. unfold dist. rewrite at_mod by auto. apply Zminus_mod_idemp_l. Qed.
Lemma dist_eqm ix x y : lenz ix <> 0 -> x mod lenz ix = y mod lenz ix -> dist ix x = dist ix y.
Proof. intros n E. rewrite <- (dist_mod ix x), E by auto. apply dist_mod; auto. Qed.
Lemma dist_range ix x : 0 < lenz ix -> 0 <= dist ix x < lenz ix.
Proof. intros H. apply Z.mod_pos_bound. lia. Qed.

Lemma perm_filter {A} (f : A -> bool) l l' : Permutation l l' -> Permutation (filter f l) (filter f l').
Proof.
  induction 1; cbn; auto.
  - destruct (f x); auto.
  - destruct (f x), (f y); auto. apply perm_swap.
  - eapply perm_trans; eauto.
Qed.
Lemma set_ex ix i e : 0 <= i < lenz ix ->
  exists ix', setz ix i e = Some ix' /\ length ix' = length ix /\
    (forall x, at_ ix' x = if x mod lenz ix =? i then e else at_ ix x) /\
    Permutation (e :: ix) (at_ ix i :: ix').
Proof.
  intros H. unfold setz. destruct (Z.ltb_spec i 0); [lia|]. unfold lenz in H.
  destruct (upd_total ix (Z.to_nat i) e ltac:(lia)) as [ix' E]. exists ix'. split; auto.
  destruct (upd_Some _ _ _ _ E) as (H1 & H2 & H3 & H4). split; auto. split.
  - intros x. unfold at_, lenz. rewrite H2. fold (lenz ix).
    assert (0 <= x mod lenz ix < lenz ix) by (apply Z.mod_pos_bound; unfold lenz; lia).
    destruct (Z.eqb_spec (x mod lenz ix) i) as [->|N].
    + eapply nth_error_nth in H3. exact H3.
    + assert (Z.to_nat (x mod lenz ix) <> Z.to_nat i) by lia. specialize (H4 _ H6).
      destruct (nth_error_ex ix (Z.to_nat (x mod lenz ix))) as [y Y]; [unfold lenz in *; lia|].
      rewrite Y in H4. erewrite nth_error_nth by eauto. erewrite nth_error_nth by eauto. auto.
  - rewrite upd_spec in E by lia. injection E as <-.
    unfold at_. rewrite Z.mod_small by (unfold lenz; lia).
    set (m := Z.to_nat i) in *. assert (L : (m < length ix)%nat) by lia. clearbody m.
    rewrite <- (firstn_skipn m ix) at 1.
    destruct (nth_error_ex ix m L) as [y Y]. rewrite (skipn_nth_error_cons _ _ _ Y).
    rewrite (nth_error_nth _ _ IE0 Y).
    rewrite <- !Permutation_middle. apply perm_swap.
Qed.
Lemma swap_ex ix i j : 0 <= i < lenz ix -> 0 <= j < lenz ix ->
  exists ix', swapz i j ix = Some ix' /\ length ix' = length ix /\
    (forall x, at_ ix' x = if x mod lenz ix =? j then at_ ix i else if x mod lenz ix =? i then at_ ix j else at_ ix x) /\
    Permutation ix ix'.
Proof.
  intros Hi Hj. unfold swapz. rewrite !getz_at by auto. cbn [obind].
  destruct (set_ex ix i (at_ ix j) Hi) as (l1 & E1 & L1 & A1 & P1). rewrite E1. cbn [obind].
  assert (LL : lenz l1 = lenz ix) by (unfold lenz; lia).
  destruct (set_ex l1 j (at_ ix i)) as (l2 & E2 & L2 & A2 & P2); [lia|].
  exists l2. split; auto. split; [lia|]. split.
  - intros x. rewrite A2, LL, A1. reflexivity.
  - rewrite A1, Z.mod_small in P2 by lia.
    apply (Permutation_cons_inv (a := at_ ix i)).
    destruct (Z.eqb_spec j i) as [->|N].
    + apply Permutation_cons_inv in P1. apply (perm_trans (perm_skip _ P1)). exact P2.
    + apply (Permutation_cons_inv (a := at_ ix j)).
      apply (perm_trans (perm_swap _ _ _)), (perm_trans (perm_skip _ P1)), (perm_trans (perm_skip _ P2)), perm_swap.
Qed.
Lemma in_used ix e : lenz ix <> 0 -> In e (used ix) <-> is_used e /\ exists x, at_ ix x = e.
Proof.
  intros n. unfold used. rewrite filter_In, usedb_true. split.
  - intros [i u]. split; auto. destruct (In_nth ix e IE0 i) as (m & L & E).
    exists (Z.of_nat m). unfold at_. rewrite Z.mod_small by (unfold lenz; lia). rewrite Nat2Z.id. exact E.
  - intros [u [x E]]. split; auto. subst e. unfold at_. apply nth_In.
    assert (0 <= x mod lenz ix < lenz ix) by (apply Z.mod_pos_bound; unfold lenz in *; lia). unfold lenz in *; lia.
Qed.
(** Different slots hold different hashes *)
Lemma used_inj ix x y : lenz ix <> 0 -> NoDup (map ie_hash (used ix)) -> is_used (at_ ix x) -> is_used (at_ ix y) ->
  ie_hash (at_ ix x) = ie_hash (at_ ix y) -> x mod lenz ix = y mod lenz ix.
Proof.
  intros n nd ux uy E. unfold at_ in *.
  assert (B : forall z, (Z.to_nat (z mod lenz ix) < length ix)%nat).
  { intros z. assert (0 <= z mod lenz ix < lenz ix) by (apply Z.mod_pos_bound; unfold lenz in *; lia). unfold lenz in *; lia. }
  assert (G : forall (l : list ientry) a b, NoDup (map ie_hash (used l)) -> (a < length l)%nat -> (b < length l)%nat ->
    is_used (nth a l IE0) -> is_used (nth b l IE0) -> ie_hash (nth a l IE0) = ie_hash (nth b l IE0) -> a = b).
  { clear. induction l as [|e l IH]; intros a b nd La Lb ua ub E; [cbn in La; lia|].
    assert (In1 : forall c, (c < length l)%nat -> is_used (nth c l IE0) -> In (ie_hash (nth c l IE0)) (map ie_hash (used l))).
    { intros c Lc uc. apply in_map. unfold used. apply filter_In. split; [apply nth_In; auto|apply usedb_true; auto]. }
    unfold used in nd. cbn in nd.
    destruct a as [|a], b as [|b]; cbn in *; auto.
    - exfalso. apply usedb_true in ua. rewrite ua in nd. cbn in nd. inversion nd; subst. rewrite E in *.
      specialize (In1 b ltac:(lia) ub). auto.
    - exfalso. apply usedb_true in ub. rewrite ub in nd. cbn in nd. inversion nd; subst. rewrite <- E in *.
      specialize (In1 a ltac:(lia) ua). auto.
    - f_equal. apply IH; auto; try lia. destruct (usedb e); auto. cbn in nd. inversion nd; auto. }
  assert (Z.to_nat (x mod lenz ix) = Z.to_nat (y mod lenz ix)) by (eapply G; eauto).
  assert (0 <= x mod lenz ix) by (apply Z.mod_pos_bound; unfold lenz in *; lia).
  assert (0 <= y mod lenz ix) by (apply Z.mod_pos_bound; unfold lenz in *; lia). lia.
Qed.

(** ** Modular steps *)
Lemma mod_next n x : 2 <= n -> (x + 1) mod n = (if x mod n =? n - 1 then 0 else x mod n + 1).
Proof.
  intros H. assert (0 <= x mod n < n) by (apply Z.mod_pos_bound; lia).
  rewrite <- Zplus_mod_idemp_l. destruct (Z.eqb_spec (x mod n) (n - 1)) as [->|].
  - replace (n - 1 + 1) with n by lia. apply Z.mod_same. lia.
  - apply Z.mod_small. lia.
Qed.
Lemma mod_shift n a b t : 0 < n -> 0 <= (b - a) mod n + t < n -> (b + t - a) mod n = (b - a) mod n + t.
Proof.
  intros H1 H2. replace (b + t - a) with (b - a + t) by lia. rewrite <- Zplus_mod_idemp_l. apply Z.mod_small. auto.
Qed.
Lemma mod_neq n x t : 0 < t < n -> (x + t) mod n <> x mod n.
Proof.
  intros H E. assert (((x + t) - x) mod n = 0) by (rewrite Zminus_mod, E, Z.sub_diag; apply Z.mod_0_l; lia).
  replace (x + t - x) with t in H0 by lia. rewrite Z.mod_small in H0; lia.
Qed.
Lemma eqm_sub n x y t : x mod n = y mod n -> (x - t) mod n = (y - t) mod n.
Proof. intros E. rewrite (Zminus_mod x), (Zminus_mod y), E. trivial. Qed.
Lemma eqm_add n x y t : x mod n = y mod n -> (x + t) mod n = (y + t) mod n.
Proof. intros E. rewrite (Zplus_mod x), (Zplus_mod y), E. trivial. Qed.

(** ** compact *)
(** RH but for the hole f: the slot after it may be two from the one before it *)
Definition RHh (ix : list ientry) (k f : Z) : Prop :=
  ~ is_used (at_ ix f) /\
  forall x, is_used (at_ ix x) -> dist ix x < k /\
    (dist ix x = 0 \/
     (if x mod lenz ix =? (f + 1) mod lenz ix
      then dist ix x = 1 \/ is_used (at_ ix (x - 2)) /\ dist ix x <= dist ix (x - 2) + 2
      else is_used (at_ ix (x - 1)) /\ dist ix x <= dist ix (x - 1) + 1)).
Lemma RHh_start ix ix' k i e : pow2 ix k -> RH ix k -> is_used (at_ ix i) -> ~ is_used e -> length ix' = length ix ->
  (forall x, at_ ix' x = if x mod lenz ix =? i mod lenz ix then e else at_ ix x) -> RHh ix' k i.
Proof.
  intros P R ui ne L A. pose proof (pow2_pos _ _ P). pose proof (pow2_log _ _ P).
  assert (LL : lenz ix' = lenz ix) by (unfold lenz; lia).
  assert (D : forall x, x mod lenz ix <> i mod lenz ix -> dist ix' x = dist ix x).
  { intros x N. unfold dist. rewrite A, LL. destruct (Z.eqb_spec (x mod lenz ix) (i mod lenz ix)); congruence. }
  split. { rewrite A, Z.eqb_refl. auto. }
  intros x ux. rewrite A in ux. destruct (Z.eqb_spec (x mod lenz ix) (i mod lenz ix)) as [E|N]; [tauto|].
  rewrite (D _ N), LL. destruct (R x ux) as [r1 r2]. split; auto.
  destruct (Z.eq_dec (dist ix x) 0) as [|n0]; [auto|right]. destruct r2 as [r2|[r2 r3]]; [lia|].
  destruct (Z.eqb_spec (x mod lenz ix) ((i + 1) mod lenz ix)) as [E|N'].
  - assert (E1 : (x - 1) mod lenz ix = i mod lenz ix).
    { replace i with (i + 1 - 1) by lia. apply eqm_sub. auto. }
    assert (E2 : (x - 2) mod lenz ix = (i - 1) mod lenz ix).
    { replace (x - 2) with (x - 1 - 1) by lia. apply eqm_sub. auto. }
    rewrite (dist_eqm ix (x - 1) i ltac:(lia) E1) in r3.
    destruct (R i ui) as [q1 [q2|[q2 q3]]].
    + pose proof (dist_range ix x ltac:(lia)).
      left. lia.
    + assert (N2 : (x - 2) mod lenz ix <> i mod lenz ix).
      { rewrite E2. intros C. apply (mod_neq (lenz ix) (i - 1) 1); [lia|]. rewrite C. f_equal. lia. }
      right. rewrite (D _ N2). rewrite A. destruct (Z.eqb_spec ((x - 2) mod lenz ix) (i mod lenz ix)); [tauto|].
      rewrite (at_eqm _ _ _ E2), (dist_eqm ix (x - 2) (i - 1) ltac:(lia) E2). split; auto. clear - q3 r3. lia.
  - assert (N1 : (x - 1) mod lenz ix <> i mod lenz ix).
    { intros E. apply N'. replace x with (x - 1 + 1) by lia. apply eqm_add. auto. }
    rewrite (D _ N1). rewrite A. destruct (Z.eqb_spec ((x - 1) mod lenz ix) (i mod lenz ix)); tauto.
Qed.

Lemma RHh_done ix k f : pow2 ix k -> RHh ix k f -> ~ is_used (at_ ix (f + 1)) \/ dist ix (f + 1) = 0 -> RH ix k.
Proof.
  intros P [nf R] C x ux. pose proof (pow2_pos _ _ P). destruct (R x ux) as [r1 r2]. split; auto.
  destruct (Z.eqb_spec (x mod lenz ix) ((f + 1) mod lenz ix)) as [E|]; auto.
  rewrite (at_eqm _ _ _ E) in ux. rewrite (dist_eqm ix x (f + 1) ltac:(lia) E). tauto.
Qed.
Lemma dist_prev ix ix' x y : 0 < lenz ix -> lenz ix' = lenz ix -> at_ ix' x = at_ ix y -> (x + 1) mod lenz ix = y mod lenz ix ->
  dist ix y <> 0 -> dist ix' x = dist ix y - 1.
Proof.
  intros n L A E d. pose proof (dist_range ix y n). unfold dist in *. rewrite A, L.
  replace (x - ie_hash (at_ ix y)) with (x + 1 - ie_hash (at_ ix y) - 1) by lia.
  rewrite <- Zminus_mod_idemp_l. rewrite (eqm_sub _ _ _ (ie_hash (at_ ix y)) E). apply Z.mod_small. lia.
Qed.
Lemma RHh_step ix ix' k f : pow2 ix k -> RHh ix k f -> is_used (at_ ix (f + 1)) -> dist ix (f + 1) <> 0 ->
  length ix' = length ix ->
  (forall x, at_ ix' x = if x mod lenz ix =? f mod lenz ix then at_ ix (f + 1)
                         else if x mod lenz ix =? (f + 1) mod lenz ix then at_ ix f else at_ ix x) ->
  RHh ix' k (f + 1).
Proof.
  intros P [nf R] uf df L A. pose proof (pow2_pos _ _ P) as n2. pose proof (pow2_log _ _ P) as kn.
  assert (LL : lenz ix' = lenz ix) by (unfold lenz; lia).
  destruct (R _ uf) as [r1 r2]. rewrite Z.eqb_refl in r2. destruct r2 as [|r2]; [tauto|].
  pose proof (dist_range ix (f + 1) ltac:(lia)) as dr.
  assert (n4 : 4 <= lenz ix).
  { destruct P as [p1 p2]. rewrite p2. change 4 with (2 ^ 2). apply Z.pow_le_mono_r; lia. }
  assert (N01 : f mod lenz ix <> (f + 1) mod lenz ix) by (intros C; symmetry in C; revert C; apply mod_neq; lia).
  assert (D : forall x, x mod lenz ix <> f mod lenz ix -> x mod lenz ix <> (f + 1) mod lenz ix -> dist ix' x = dist ix x).
  { intros x N1 N2. unfold dist. rewrite A, LL. destruct (Z.eqb_spec (x mod lenz ix) (f mod lenz ix)); [tauto|].
    destruct (Z.eqb_spec (x mod lenz ix) ((f + 1) mod lenz ix)); tauto. }
  assert (Df : forall x, x mod lenz ix = f mod lenz ix -> dist ix' x = dist ix (f + 1) - 1).
  { intros x E. apply dist_prev; auto; try lia.
    - rewrite A, E, Z.eqb_refl. trivial.
    - apply eqm_add. auto. }
  split.
  { rewrite A. destruct (Z.eqb_spec ((f + 1) mod lenz ix) (f mod lenz ix)); [congruence|]. rewrite Z.eqb_refl. auto. }
  intros x ux. rewrite LL.
  destruct (Z.eqb_spec (x mod lenz ix) (f mod lenz ix)) as [E|N].
  - rewrite (Df x E). split; [lia|].
    destruct r2 as [r2|[r2 r3]]; [left; lia|].
    destruct (Z.eq_dec (dist ix (f + 1)) 1) as [|d2]; [left; lia|right].
    destruct (Z.eqb_spec (x mod lenz ix) ((f + 1 + 1) mod lenz ix)) as [C|_].
    { exfalso. rewrite E in C. symmetry in C. revert C. replace (f + 1 + 1) with (f + 2) by lia. apply mod_neq. lia. }
    replace (f + 1 - 2) with (f - 1) in * by lia.
    assert (E1 : (x - 1) mod lenz ix = (f - 1) mod lenz ix) by (apply eqm_sub; auto).
    assert (M1 : (x - 1) mod lenz ix <> f mod lenz ix).
    { rewrite E1. intros C. apply (mod_neq (lenz ix) (f - 1) 1); [lia|]. rewrite C. f_equal. lia. }
    assert (M2 : (x - 1) mod lenz ix <> (f + 1) mod lenz ix).
    { rewrite E1. intros C. apply (mod_neq (lenz ix) (f - 1) 2); [lia|]. rewrite C. f_equal. lia. }
    rewrite (D _ M1 M2), (dist_eqm ix (x - 1) (f - 1) ltac:(lia) E1). split; [|clear - r3; lia].
    rewrite A. destruct (Z.eqb_spec ((x - 1) mod lenz ix) (f mod lenz ix)); [tauto|].
    destruct (Z.eqb_spec ((x - 1) mod lenz ix) ((f + 1) mod lenz ix)); [tauto|]. rewrite (at_eqm _ _ _ E1). auto.
  - rewrite A in ux. destruct (Z.eqb_spec (x mod lenz ix) (f mod lenz ix)); [tauto|].
    destruct (Z.eqb_spec (x mod lenz ix) ((f + 1) mod lenz ix)) as [|N1]; [tauto|].
    rewrite (D x N N1). destruct (R x ux) as [q1 q2]. split; auto.
    destruct (Z.eq_dec (dist ix x) 0) as [|d0]; [auto|right]. destruct q2 as [|q2]; [tauto|].
    destruct (Z.eqb_spec (x mod lenz ix) ((f + 1) mod lenz ix)) as [|_]; [tauto|]. destruct q2 as [q2 q3].
    destruct (Z.eqb_spec (x mod lenz ix) ((f + 1 + 1) mod lenz ix)) as [E2|N2].
    + right.
      assert (E1 : (x - 1) mod lenz ix = (f + 1) mod lenz ix).
      { replace (f + 1) with (f + 1 + 1 - 1) by lia. apply eqm_sub. auto. }
      assert (E0 : (x - 2) mod lenz ix = f mod lenz ix).
      { replace f with (f + 1 + 1 - 2) at 1 by lia. apply eqm_sub. auto. }
      rewrite (Df _ E0). rewrite A, E0, Z.eqb_refl.
      rewrite (dist_eqm ix (x - 1) (f + 1) ltac:(lia) E1) in q3. split; auto. clear - q3. lia.
    + assert (M1 : (x - 1) mod lenz ix <> f mod lenz ix).
      { intros C. apply N1. replace x with (x - 1 + 1) by lia. apply eqm_add. auto. }
      assert (M2 : (x - 1) mod lenz ix <> (f + 1) mod lenz ix).
      { intros C. apply N2. replace x with (x - 1 + 1) at 1 by lia. apply eqm_add. auto. }
      rewrite (D _ M1 M2), A. destruct (Z.eqb_spec ((x - 1) mod lenz ix) (f mod lenz ix)); [tauto|].
      destruct (Z.eqb_spec ((x - 1) mod lenz ix) ((f + 1) mod lenz ix)); tauto.
Qed.

(** Every step of compact shortens one distance: it ends *)
Fixpoint sumto (g : Z -> Z) (m : nat) : Z := match m with O => 0 | S m => sumto g m + g (Z.of_nat m) end.
Lemma sumto_bound g m b : (forall i, 0 <= i < Z.of_nat m -> 0 <= g i <= b) -> 0 <= sumto g m <= Z.of_nat m * b.
Proof.
  induction m as [|m IH]; intros H; cbn [sumto]; [lia|].
  specialize (IH ltac:(intros; apply H; lia)). specialize (H (Z.of_nat m) ltac:(lia)). lia.
Qed.
Lemma sumto_change g g' m a : 0 <= a < Z.of_nat m -> (forall i, 0 <= i < Z.of_nat m -> i <> a -> g' i = g i) ->
  sumto g' m = sumto g m - g a + g' a.
Proof.
  assert (S0 : forall m, (forall i, 0 <= i < Z.of_nat m -> g' i = g i) -> sumto g' m = sumto g m).
  { induction m0 as [|m0 IH]; intros H; cbn [sumto]; [trivial|]. rewrite (H (Z.of_nat m0)) by lia. rewrite IH; [trivial|]. intros; apply H; lia. }
  induction m as [|m IH]; intros Ha H; [lia|]. cbn [sumto].
  destruct (Z.eq_dec a (Z.of_nat m)) as [->|N].
  - rewrite S0; [lia|]. intros. apply H; lia.
  - rewrite IH; [|lia|intros; apply H; lia]. rewrite (H (Z.of_nat m)) by lia. lia.
Qed.
Definition weight (ix : list ientry) (x : Z) : Z := if usedb (at_ ix x) then dist ix x else 0.
Lemma weight_range ix x : 0 < lenz ix -> 0 <= weight ix x <= lenz ix - 1.
Proof. intros H. unfold weight. pose proof (dist_range ix x H). destruct (usedb _); lia. Qed.
Definition total (ix : list ientry) : Z := sumto (weight ix) (length ix).

(** One swap into the hole *)
Lemma compact_swap ix f : 2 <= lenz ix -> 0 <= f < lenz ix -> ~ is_used (at_ ix f) ->
  is_used (at_ ix (f + 1)) -> dist ix (f + 1) <> 0 ->
  exists ix', swapz ((f + 1) mod lenz ix) f ix = Some ix' /\ length ix' = length ix /\
  (forall x, at_ ix' x = if x mod lenz ix =? f mod lenz ix then at_ ix (f + 1)
                         else if x mod lenz ix =? (f + 1) mod lenz ix then at_ ix f else at_ ix x) /\
  Permutation ix ix' /\ total ix' = total ix - 1.
Proof.
  intros n2 Hf nf uf df. assert (Hi : 0 <= (f + 1) mod lenz ix < lenz ix) by (apply Z.mod_pos_bound; lia).
  destruct (swap_ex ix _ f Hi Hf) as (ix' & E & L & A & P). exists ix'. split; auto. split; auto.
  assert (LL : lenz ix' = lenz ix) by (unfold lenz; lia).
  rewrite at_mod in A by lia.
  assert (A' : forall x, at_ ix' x = if x mod lenz ix =? f mod lenz ix then at_ ix (f + 1)
                         else if x mod lenz ix =? (f + 1) mod lenz ix then at_ ix f else at_ ix x).
  { intros x. rewrite A. rewrite (Z.mod_small f) by lia. trivial. }
  split; auto. split; auto.
  assert (N01 : (f + 1) mod lenz ix <> f) by (intros C; revert C; rewrite <- (Z.mod_small f (lenz ix)) at 2 by lia; apply mod_neq; lia).
  set (i := (f + 1) mod lenz ix) in *.
  set (g := fun x => if x =? f then dist ix (f + 1) - 1 else weight ix x).
  assert (G1 : sumto g (length ix) = total ix + (dist ix (f + 1) - 1)).
  { unfold total. rewrite (sumto_change (weight ix) g _ f); [|unfold lenz in Hf; lia|].
    - unfold g. rewrite Z.eqb_refl. unfold weight at 2. rewrite <- usedb_true in nf. destruct (usedb (at_ ix f)); [tauto|]. lia.
    - intros j _ N. unfold g. destruct (Z.eqb_spec j f); congruence. }
  assert (u1 : weight ix i = dist ix (f + 1)).
  { unfold weight. unfold i. rewrite at_mod by lia. rewrite <- usedb_true in uf. rewrite uf. apply dist_mod. lia. }
  unfold total at 1. rewrite L, (sumto_change g (weight ix') _ i).
  - unfold g at 2. destruct (Z.eqb_spec i f); [tauto|]. rewrite u1, G1.
    unfold weight. rewrite A. destruct (Z.eqb_spec (i mod lenz ix) f) as [C|_].
    { rewrite (Z.mod_small i) in C by (exact Hi). tauto. }
    rewrite (Z.mod_small i) by exact Hi. rewrite Z.eqb_refl. rewrite <- usedb_true in nf. destruct (usedb (at_ ix f)); [tauto|]. lia.
  - unfold lenz in Hi. exact Hi.
  - intros j Hj N. unfold g, weight. destruct (Z.eqb_spec j f) as [->|N'].
    + rewrite A'. rewrite Z.eqb_refl. rewrite <- usedb_true in uf. rewrite uf.
      apply dist_prev; auto; try lia. rewrite A', Z.eqb_refl. trivial.
    + unfold dist. rewrite A, LL. rewrite (Z.mod_small j) by (unfold lenz; lia).
      destruct (Z.eqb_spec j f); [tauto|]. destruct (Z.eqb_spec j i); tauto.
Qed.
Lemma compact_ok : forall fuel ix k f, pow2 ix k -> 0 <= f < lenz ix -> ~ is_used (at_ ix f) ->
  total ix < Z.of_nat fuel ->
  exists ix', compact fuel ix (hash_mask ix) f = Some ix' /\ length ix' = length ix /\ Permutation ix ix' /\
    (RHh ix k f -> RH ix' k).
Proof.
  induction fuel as [|fuel IH]; intros ix k f P Hf nf T.
  { exfalso. assert (0 <= total ix); [|lia]. apply (sumto_bound _ _ (lenz ix - 1)). intros. apply weight_range. lia. }
  pose proof (pow2_pos _ _ P) as n2.
  assert (Hi : 0 <= (f + 1) mod lenz ix < lenz ix) by (apply Z.mod_pos_bound; lia).
  cbn [compact]. rewrite (pow2_mask _ _ _ P), getz_at, at_mod by lia. cbn [obind].
  rewrite (pow2_mask _ _ _ P), Zminus_mod_idemp_l. fold (dist ix (f + 1)).
  destruct (Z.eqb_spec (dist ix (f + 1)) 0) as [d|d]; cbn [orb].
  { exists ix. split; auto. split; auto. split; auto. intros R. eapply RHh_done; eauto. }
  destruct (Nat.eqb_spec (ie_pos (at_ ix (f + 1))) 0) as [u|u].
  { exists ix. split; auto. split; auto. split; auto. intros R. apply (RHh_done ix k f); auto. }
  destruct (compact_swap ix f n2 Hf nf u d) as (ix1 & E & L & A & Pm & Tt). rewrite E. cbn [obind].
  assert (LL : lenz ix1 = lenz ix) by (unfold lenz; lia).
  assert (M : hash_mask ix = hash_mask ix1) by (unfold hash_mask; rewrite LL; trivial). rewrite M.
  destruct (IH ix1 k ((f + 1) mod lenz ix)) as (ix2 & E2 & L2 & Pm2 & R2).
  - eapply pow2_len; eauto.
  - lia.
  - rewrite <- LL, at_mod by lia. rewrite A. destruct (Z.eqb_spec ((f + 1) mod lenz ix) (f mod lenz ix)) as [C|_].
    { exfalso. revert C. apply mod_neq. lia. }
    rewrite Z.eqb_refl. auto.
  - lia.
  - exists ix2. split; auto. split; [lia|]. split; [eapply perm_trans; eauto|]. intros R. apply R2.
    assert (R1 : RHh ix1 k (f + 1)) by (eapply RHh_step; eauto).
    destruct R1 as [a b]. split. { rewrite <- LL, at_mod by lia. auto. }
    rewrite LL in *. rewrite Zplus_mod_idemp_l. auto.
Qed.
Lemma compact_fuel_ok ix : 2 <= lenz ix -> total ix < Z.of_nat (compact_fuel ix).
Proof.
  intros H. assert (0 <= total ix <= Z.of_nat (length ix) * (lenz ix - 1)).
  { apply sumto_bound. intros. apply weight_range. lia. }
  unfold compact_fuel, lenz in *. nia.
Qed.

(** ** make_fair *)
Lemma mask_len ix ix' : length ix' = length ix -> hash_mask ix' = hash_mask ix.
Proof. unfold hash_mask, lenz. intros ->. trivial. Qed.
Lemma shift_right_ok : forall m fuel ix k fair, pow2 ix k -> Z.of_nat (S m) < lenz ix -> (m < fuel)%nat ->
  let n := lenz ix in let i := fair + Z.of_nat (S m) in
  exists ix', shift_right fuel ix (hash_mask ix) (i mod n) (fair mod n) = Some ix' /\ length ix' = length ix /\
    (forall t, 0 <= t < Z.of_nat (S m) -> at_ ix' (fair + t + 1) = at_ ix (fair + t)) /\
    (forall x, (forall t, 0 <= t < Z.of_nat (S m) -> x mod n <> (fair + t + 1) mod n) -> at_ ix' x = at_ ix x) /\
    (forall e jx, setz ix' (fair mod n) e = Some jx -> Permutation (e :: ix) (at_ ix i :: jx)).
Proof.
  induction m as [|m IH]; intros fuel ix k fair P Hm Hf n i; (destruct fuel as [|fuel]; [lia|]); cbn [shift_right];
    pose proof (pow2_pos _ _ P) as n2; fold n in n2, Hm;
    assert (Hi : forall x, 0 <= x mod n < n) by (intros; apply Z.mod_pos_bound; lia);
    rewrite (pow2_mask _ _ _ P); fold n; rewrite Zminus_mod_idemp_l;
    rewrite getz_at by (apply Hi); unfold n at 1; rewrite at_mod by lia; cbn [obind];
    destruct (set_ex ix (i mod n) (at_ ix (i - 1)) (Hi i)) as (ix1 & E1 & L1 & A1 & P1); rewrite E1; cbn [obind];
    fold n in A1; assert (LL : lenz ix1 = n) by (unfold n, lenz; lia);
    assert (Ei : at_ ix (i mod n) = at_ ix i) by (apply at_mod; lia); rewrite Ei in P1;
    assert (PERM : forall e jx, Permutation (e :: ix1) (at_ ix (i - 1) :: jx) -> Permutation (e :: ix) (at_ ix i :: jx)).
  1, 3: intros e jx Q; apply (Permutation_cons_inv (a := at_ ix (i - 1)));
    apply (perm_trans (perm_swap _ _ _)), (perm_trans (perm_skip _ P1)), (perm_trans (perm_swap _ _ _)),
          (perm_trans (perm_skip _ Q)), perm_swap.
  - replace (i - 1) with fair in * by (unfold i; lia). rewrite Z.eqb_refl. exists ix1. split; auto. split; auto.
    split; [|split].
    + intros t Ht. replace t with 0 by lia. rewrite A1. replace (fair + 0 + 1) with i by (unfold i; lia).
      rewrite Z.eqb_refl. f_equal. lia.
    + intros x Hx. rewrite A1. destruct (Z.eqb_spec (x mod n) (i mod n)) as [C|]; auto.
      exfalso. apply (Hx 0); [lia|]. rewrite C. f_equal. unfold i. lia.
    + intros e jx Ej. apply PERM.
      destruct (set_ex ix1 (fair mod n) e) as (jx' & Ej' & _ & _ & Pj); [rewrite LL; auto|].
      rewrite Ej in Ej'. injection Ej' as <-. rewrite <- LL, at_mod in Pj by lia.
      rewrite A1 in Pj. destruct (Z.eqb_spec (fair mod n) (i mod n)) as [C|]; auto.
  - assert (Nf : (i - 1) mod n <> fair mod n).
    { replace (i - 1) with (fair + Z.of_nat (S m)) by (unfold i; lia). apply mod_neq. lia. }
    destruct (Z.eqb_spec ((i - 1) mod n) (fair mod n)); [tauto|].
    destruct (IH fuel ix1 k fair) as (ix2 & E2 & L2 & A2 & B2 & P2); [eapply pow2_len; eauto|rewrite LL; lia|lia|].
    rewrite LL in *. replace (fair + Z.of_nat (S m)) with (i - 1) in * by (unfold i; lia).
    rewrite (mask_len _ _ L1) in E2. rewrite E2. exists ix2. split; auto. split; [lia|]. split; [|split].
    + intros t Ht. destruct (Z.eq_dec t (Z.of_nat (S m))) as [->|Nt].
      * rewrite B2.
        -- rewrite A1. replace (fair + Z.of_nat (S m) + 1) with i by (unfold i; lia). rewrite Z.eqb_refl. f_equal. unfold i. lia.
        -- intros t Ht'. replace (fair + Z.of_nat (S m) + 1) with (fair + t + 1 + (Z.of_nat (S m) - t)) by lia.
           apply mod_neq. lia.
      * rewrite A2 by lia. rewrite A1. destruct (Z.eqb_spec ((fair + t) mod n) (i mod n)) as [C|]; auto.
        exfalso. revert C. replace i with (fair + t + (Z.of_nat (S (S m)) - t)) by (unfold i; lia). intros C. symmetry in C.
        revert C. apply mod_neq. lia.
    + intros x Hx. rewrite B2 by (intros; apply Hx; lia). rewrite A1.
      destruct (Z.eqb_spec (x mod n) (i mod n)) as [C|]; auto. exfalso. apply (Hx (Z.of_nat (S m))); [lia|].
      rewrite C. f_equal. unfold i. lia.
    + intros e jx Ej. apply PERM. specialize (P2 e jx Ej). rewrite A1 in P2.
      destruct (Z.eqb_spec ((i - 1) mod n) (i mod n)) as [C|]; auto.
Qed.

Lemma used_perm_set ix i e : 0 <= i < lenz ix -> ~ is_used (at_ ix i) -> is_used e ->
  forall jx, Permutation (e :: ix) (at_ ix i :: jx) -> Permutation (used jx) (e :: used ix).
Proof.
  intros Hi nu ue jx P. apply (perm_filter usedb) in P. cbn in P.
  rewrite <- usedb_true in nu, ue. rewrite ue in P. destruct (usedb (at_ ix i)); [tauto|]. symmetry. exact P.
Qed.
Lemma eqm_offset n a x : 0 < n -> x mod n = (a + (x - a) mod n) mod n.
Proof. intros H. rewrite Zplus_mod_idemp_r. f_equal. lia. Qed.
(** A new entry at its fair place *)
Lemma insert_RH ix jx k h F T e : pow2 ix k -> RH ix k -> 0 <= F <= T -> T < k -> ~ is_used (at_ ix (h + T)) ->
  (forall t, 0 <= t < T -> is_used (at_ ix (h + t))) ->
  (forall t, 0 <= t < F -> t <= dist ix (h + t)) -> (F < T -> dist ix (h + F) < F) ->
  is_used e -> ie_hash e = h -> length jx = length ix ->
  at_ jx (h + F) = e ->
  (forall t, F <= t < T -> at_ jx (h + t + 1) = at_ ix (h + t)) ->
  (forall x, (forall t, F <= t <= T -> x mod lenz ix <> (h + t) mod lenz ix) -> at_ jx x = at_ ix x) ->
  RH jx k.
Proof.
  intros P R HF HT nT U Fair1 Fair2 ue he L A0 A1 A2.
  pose proof (pow2_pos _ _ P) as n2. pose proof (pow2_log _ _ P) as kn. set (n := lenz ix) in *.
  assert (LL : lenz jx = n) by (unfold n, lenz; lia).
  (* the displaced ones *)
  assert (B : forall j, 0 <= j -> F + j < T -> dist ix (h + F + j) <= dist ix (h + F) + j).
  { intros j Hj. pattern j. apply natlike_ind; [|intros x Hx IH Hb|exact Hj].
    - rewrite !Z.add_0_r. lia.
    - unfold Z.succ in *. destruct (R (h + F + (x + 1))) as [_ [d|[_ d]]].
      + replace (h + F + (x + 1)) with (h + (F + x + 1)) by lia. apply U. lia.
      + rewrite d. pose proof (dist_range ix (h + F) ltac:(unfold n in n2; lia)). lia.
      + replace (h + F + (x + 1) - 1) with (h + F + x) in d by lia. specialize (IH ltac:(lia)). lia. }
  assert (B' : forall t, F <= t < T -> dist ix (h + t) < t).
  { intros t Ht. specialize (B (t - F) ltac:(lia) ltac:(lia)). replace (h + F + (t - F)) with (h + t) in B by lia.
    specialize (Fair2 ltac:(lia)). lia. }
  assert (D1 : forall t, F <= t < T -> dist jx (h + t + 1) = dist ix (h + t) + 1).
  { intros t Ht. specialize (B' t Ht). pose proof (dist_range ix (h + t) ltac:(unfold n in n2; lia)) as dr. fold n in dr.
    unfold dist at 1. rewrite A1, LL by lia. replace (h + t + 1 - ie_hash (at_ ix (h + t))) with (h + t + 1 - ie_hash (at_ ix (h + t))) by lia.
    rewrite mod_shift; [reflexivity|lia|]. unfold dist in dr, B'. fold n in dr, B'. lia. }
  assert (D0 : dist jx (h + F) = F).
  { unfold dist. rewrite A0, he, LL. replace (h + F - h) with F by lia. apply Z.mod_small. lia. }
  assert (D2 : forall x, (forall t, F <= t <= T -> x mod n <> (h + t) mod n) -> dist jx x = dist ix x).
  { intros x Hx. unfold dist. rewrite A2, LL by auto. trivial. }
  assert (OUT : forall o, T - F < o < n -> forall t, F <= t <= T -> (h + F + o) mod n <> (h + t) mod n).
  { intros o Ho t Ht. replace (h + F + o) with (h + t + (o - (t - F))) by lia. apply mod_neq. lia. }
  assert (W : forall o, 0 <= o < n -> is_used (at_ jx (h + F + o)) -> dist jx (h + F + o) < k /\
    (dist jx (h + F + o) = 0 \/ is_used (at_ jx (h + F + o - 1)) /\ dist jx (h + F + o) <= dist jx (h + F + o - 1) + 1)).
  { intros o Ho uo. destruct (Z.eq_dec o 0) as [->|O0].
    - rewrite !Z.add_0_r in *. rewrite D0. split; [lia|]. destruct (Z.eq_dec F 0); [auto|right].
      assert (X : (h + F - 1) mod n = (h + F + (n - 1)) mod n).
      { replace (h + F + (n - 1)) with (h + F - 1 + 1 * n) by lia. rewrite Z.mod_add by lia. trivial. }
      assert (Y : forall t, F <= t <= T -> (h + F - 1) mod n <> (h + t) mod n) by (rewrite X; intros; apply OUT; lia).
      rewrite A2, D2 by auto. replace (h + F - 1) with (h + (F - 1)) by lia. split; [apply U; lia|].
      specialize (Fair1 (F - 1) ltac:(lia)). lia.
    - destruct (Z.le_gt_cases o (T - F)) as [C|C].
      + replace (h + F + o) with (h + (F + o - 1) + 1) in * by lia. rewrite D1 by lia.
        pose proof (B' (F + o - 1) ltac:(lia)). split; [lia|]. right.
        replace (h + (F + o - 1) + 1 - 1) with (h + (F + o - 1)) by lia.
        destruct (Z.eq_dec o 1) as [->|O1].
        * replace (F + 1 - 1) with F in * by lia. rewrite A0, D0. split; auto. lia.
        * replace (h + (F + o - 1)) with (h + (F + o - 2) + 1) at 1 3 by lia. rewrite A1, D1 by lia. split; [apply U; lia|].
          destruct (R (h + (F + o - 1))) as [_ [d|[_ d]]].
          -- apply U. lia.
          -- rewrite d. pose proof (dist_range ix (h + (F + o - 2)) ltac:(unfold n in n2; lia)). lia.
          -- replace (h + (F + o - 1) - 1) with (h + (F + o - 2)) in d by lia. lia.
      + pose proof (OUT o ltac:(lia)) as Y. rewrite A2 in uo by auto. rewrite D2 by auto.
        destruct (R _ uo) as [r1 r2]. split; auto. destruct r2 as [|[r2 r3]]; auto.
        destruct (Z.eq_dec (o - 1) (T - F)) as [E|N].
        * exfalso. replace (h + F + o - 1) with (h + T) in r2 by lia. tauto.
        * right. replace (h + F + o - 1) with (h + F + (o - 1)) in * by lia.
          pose proof (OUT (o - 1) ltac:(lia)) as Y'. rewrite A2, D2 by auto. auto. }
  intros x ux. pose proof (eqm_offset n (h + F) x ltac:(lia)) as E. set (o := (x - (h + F)) mod n) in *.
  assert (0 <= o < n) by (apply Z.mod_pos_bound; lia). clearbody o. rewrite <- LL in E.
  assert (L0 : lenz jx <> 0) by (rewrite LL; intros C; rewrite C in n2; now apply n2).
  rewrite (at_eqm jx x (h + F + o) E) in ux. specialize (W o H ux).
  rewrite (dist_eqm jx x (h + F + o) L0 E). pose proof (eqm_sub (lenz jx) x (h + F + o) 1 E) as E'.
  rewrite (at_eqm jx _ _ E'), (dist_eqm jx _ _ L0 E'). exact W.
Qed.
Lemma insert_ok ix k h F T : pow2 ix k -> RH ix k -> 0 <= F <= T -> T < k -> ~ is_used (at_ ix (h + T)) ->
  (forall t, 0 <= t < T -> is_used (at_ ix (h + t))) ->
  (forall t, 0 <= t < F -> t <= dist ix (h + t)) -> (F < T -> dist ix (h + F) < F) ->
  exists ix1 e1, make_fair ix (hash_mask ix) ((h + T) mod lenz ix) ((h + F) mod lenz ix) = Some ix1 /\
    getz ix1 ((h + F) mod lenz ix) = Some e1 /\ ie_pos e1 = 0%nat /\
    forall e, is_used e -> ie_hash e = h ->
      exists ix2, setz ix1 ((h + F) mod lenz ix) e = Some ix2 /\ length ix2 = length ix /\ RH ix2 k /\
                  Permutation (used ix2) (e :: used ix).
Proof.
  intros P R HF HT nT U Fair1 Fair2. pose proof (pow2_pos _ _ P) as n2. pose proof (pow2_log _ _ P) as kn.
  set (n := lenz ix) in *. assert (Hi : forall x, 0 <= x mod n < n) by (intros; apply Z.mod_pos_bound; lia).
  unfold make_fair. destruct (Z.eq_dec F T) as [->|N].
  - rewrite Z.eqb_refl. exists ix, (at_ ix (h + T)). split; auto. rewrite getz_at by apply Hi. unfold n at 1. rewrite at_mod by (unfold n in n2; lia).
    split; auto. split; [unfold is_used in nT; lia|]. intros e ue he.
    destruct (set_ex ix ((h + T) mod n) e (Hi _)) as (ix2 & E & L & A & Pm). fold n in A. exists ix2. split; auto. split; auto. split.
    + apply (insert_RH ix ix2 k h T T e); auto; try lia.
      * rewrite A, Z.eqb_refl. trivial.
      * intros x Hx. rewrite A. destruct (Z.eqb_spec (x mod n) ((h + T) mod n)) as [C|]; auto. exfalso. apply (Hx T); auto. lia.
    + apply (used_perm_set ix ((h + T) mod n)); auto. unfold n. rewrite at_mod; [auto|unfold n in n2; lia].
  - destruct (Z.eqb_spec ((h + T) mod n) ((h + F) mod n)) as [C|_].
    { exfalso. revert C. replace (h + T) with (h + F + (T - F)) by lia. apply mod_neq. lia. }
    destruct (shift_right_ok (Z.to_nat (T - F - 1)) (S (length ix)) ix k (h + F) P) as (ix1 & E1 & L1 & A1 & B1 & P1).
    { fold n. lia. } { unfold n, lenz in *. lia. }
    fold n in E1, B1, P1. replace (h + F + Z.of_nat (S (Z.to_nat (T - F - 1)))) with (h + T) in * by lia.
    replace (Z.of_nat (S (Z.to_nat (T - F - 1)))) with (T - F) in * by lia.
    rewrite E1. cbn [obind]. assert (LL : lenz ix1 = n) by (unfold n, lenz; lia).
    destruct (set_ex ix1 ((h + F) mod n) IE0) as (ix2 & E2 & L2 & A2 & P2); [rewrite LL; apply Hi|].
    change (IE 0 0) with IE0. exists ix2, IE0. split; auto. assert (LL2 : lenz ix2 = n) by (unfold n, lenz; lia).
    rewrite LL in *. split; [|split; auto].
    { rewrite getz_at by (rewrite LL2; apply Hi). rewrite A2, Z.mod_mod by lia. rewrite Z.eqb_refl. trivial. }
    intros e ue he. destruct (set_ex ix2 ((h + F) mod n) e) as (ix3 & E3 & L3 & A3 & P3); [rewrite LL2; apply Hi|].
    rewrite LL2 in *. exists ix3. split; auto. split; [lia|].
    assert (A : forall x, at_ ix3 x = if x mod n =? (h + F) mod n then e else at_ ix1 x).
    { intros x. rewrite A3. destruct (Z.eqb_spec (x mod n) ((h + F) mod n)); auto. rewrite A2.
      destruct (Z.eqb_spec (x mod n) ((h + F) mod n)); tauto. }
    split.
    + apply (insert_RH ix ix3 k h F T e); auto; try lia.
      * rewrite A, Z.eqb_refl. trivial.
      * intros t Ht. rewrite A. destruct (Z.eqb_spec ((h + t + 1) mod n) ((h + F) mod n)) as [C|_].
        { exfalso. revert C. replace (h + t + 1) with (h + F + (t - F + 1)) by lia. apply mod_neq. lia. }
        specialize (A1 (t - F) ltac:(lia)). replace (h + F + (t - F)) with (h + t) in A1 by lia. exact A1.
      * intros x Hx. rewrite A. destruct (Z.eqb_spec (x mod n) ((h + F) mod n)) as [C|_]; [exfalso; apply (Hx F); auto; lia|].
        apply B1. intros t Ht. specialize (Hx (F + t + 1) ltac:(lia)). replace (h + F + t + 1) with (h + (F + t + 1)) by lia. exact Hx.
    + assert (E' : exists jx, setz ix1 ((h + F) mod n) e = Some jx /\ jx = ix3).
      { unfold setz in *. destruct (Z.ltb_spec ((h + F) mod n) 0); [specialize (Hi (h + F)); lia|].
        set (m := Z.to_nat ((h + F) mod n)) in *. assert ((m < length ix1)%nat) by (specialize (Hi (h + F)); unfold n, lenz, m in *; lia).
        destruct (upd_total ix1 m e H0) as [jx J]. exists jx. split; auto.
        destruct (upd_Some _ _ _ _ J) as (_ & J1 & J2 & J3). destruct (upd_Some _ _ _ _ E2) as (_ & K1 & K2 & K3).
        destruct (upd_Some _ _ _ _ E3) as (_ & M1 & M2 & M3).
        apply list_ext. intros q. destruct (Nat.eq_dec q m) as [->|Nq]; [congruence|].
        rewrite J3, M3, K3; auto. }
      destruct E' as (jx & Ej & ->). specialize (P1 _ _ Ej).
      eapply (used_perm_set ix ((h + T) mod n)); eauto.
      * unfold n. rewrite at_mod by (unfold n in n2; lia). auto.
      * unfold n. rewrite at_mod by (unfold n in n2; lia). fold n. auto.
Qed.

(** ** A slot changes what it points to *)
Lemma set_same ix k i e : pow2 ix k -> 0 <= i < lenz ix -> is_used (at_ ix i) -> is_used e -> ie_hash e = ie_hash (at_ ix i) ->
  exists ix', setz ix i e = Some ix' /\ length ix' = length ix /\ (RH ix k -> RH ix' k) /\
    Permutation (e :: used ix) (at_ ix i :: used ix').
Proof.
  intros P Hi u ue he. pose proof (pow2_pos _ _ P) as n2.
  destruct (set_ex ix i e Hi) as (ix' & E & L & A & Pm). exists ix'. split; auto. split; auto.
  assert (LL : lenz ix' = lenz ix) by (unfold lenz; lia). split.
  - intros R x ux.
    assert (U : forall y, is_used (at_ ix' y) <-> is_used (at_ ix y)).
    { intros y. rewrite A. destruct (Z.eqb_spec (y mod lenz ix) i) as [Ey|]; [|tauto].
      rewrite <- (at_mod ix y) by lia. rewrite Ey. tauto. }
    assert (D : forall y, dist ix' y = dist ix y).
    { intros y. unfold dist. rewrite A, LL. destruct (Z.eqb_spec (y mod lenz ix) i) as [Ey|]; [|trivial].
      rewrite he. rewrite <- (at_mod ix y) by lia. rewrite Ey. trivial. }
    rewrite !D, U. apply R. apply U. auto.
  - apply (perm_filter usedb) in Pm. cbn in Pm. rewrite <- usedb_true in u, ue. rewrite u, ue in Pm. exact Pm.
Qed.
(** A slot is emptied *)
Lemma set_hole ix k i e : pow2 ix k -> 0 <= i < lenz ix -> is_used (at_ ix i) -> ~ is_used e ->
  exists ix', setz ix i e = Some ix' /\ length ix' = length ix /\ ~ is_used (at_ ix' i) /\ (RH ix k -> RHh ix' k i) /\
    Permutation (used ix) (at_ ix i :: used ix').
Proof.
  intros P Hi u ne. pose proof (pow2_pos _ _ P) as n2.
  destruct (set_ex ix i e Hi) as (ix' & E & L & A & Pm). exists ix'. split; auto. split; auto.
  split. { rewrite A, Z.mod_small, Z.eqb_refl by lia. auto. } split.
  - intros R. apply (RHh_start ix ix' k i e); auto. intros x. rewrite A. rewrite (Z.mod_small i) by lia. trivial.
  - apply (perm_filter usedb) in Pm. cbn in Pm. rewrite <- usedb_true in u, ne. rewrite u in Pm. destruct (usedb e); [tauto|]. exact Pm.
Qed.

(** ** Probing *)
Lemma RH_run ix k x : pow2 ix k -> RH ix k -> is_used (at_ ix x) -> forall t, 0 <= t <= dist ix x -> is_used (at_ ix (x - t)) /\ dist ix x - t <= dist ix (x - t).
Proof.
  intros P R u t Ht. pose proof (pow2_pos _ _ P) as n2.
  destruct Ht as [H0 H1]. revert H1. pattern t. apply natlike_ind; [|intros y Hy IH H1|exact H0].
  - intros _. rewrite Z.sub_0_r. split; auto. lia.
  - unfold Z.succ in *. destruct (IH ltac:(lia)) as [a b]. destruct (R _ a) as [_ [d|[u' d]]].
    + exfalso. lia.
    + replace (x - (y + 1)) with (x - y - 1) by lia. split; auto. lia.
Qed.
(** the entry with hash h, if any, is the first with that hash among the probes *)
Lemma slot_of ix k e : pow2 ix k -> RH ix k -> In e (used ix) ->
  exists T, 0 <= T < k /\ at_ ix (ie_hash e + T) = e /\ forall t, 0 <= t < T -> is_used (at_ ix (ie_hash e + t)).
Proof.
  intros P R I. pose proof (pow2_pos _ _ P) as n2. apply in_used in I; [|lia]. destruct I as [u [x E]].
  exists (dist ix x). rewrite <- E in u. destruct (R _ u) as [r1 _]. pose proof (dist_range ix x ltac:(lia)) as dr.
  assert (X : (ie_hash e + dist ix x) mod lenz ix = x mod lenz ix).
  { unfold dist. rewrite E. rewrite Zplus_mod_idemp_r. f_equal. lia. }
  split; [lia|]. split; [rewrite (at_eqm _ _ _ X); auto|].
  intros t Ht. destruct (RH_run ix k x P R u (dist ix x - t) ltac:(lia)) as [a _].
  erewrite at_eqm; [exact a|]. replace (ie_hash e + t) with (ie_hash e + dist ix x - (dist ix x - t)) by lia.
  apply eqm_sub. auto.
Qed.
