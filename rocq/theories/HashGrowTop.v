(** Growing an index of lib/hash.fu that has a free slot ends, in order: what HashGrow.v needs about the index before. *)
From Verif Require Import CommonLemmas HashModel HashIndex HashSpec HashTop GrowLine HashGrow.
From Coq Require Import Permutation.
Open Scope Z_scope.

Section START.
Context (ix : list ientry) (k z0 : Z).
Hypothesis pw : pow2 ix k.
Hypothesis ord : RH ix k.
Hypothesis nd : NoDup (map ie_hash (used ix)).
Let n := lenz ix.
Hypothesis z0n : 0 <= z0 < n.
Hypothesis fr : ~ is_used (at_ ix z0).
Lemma n2 : 2 <= n.
Proof. exact (pow2_pos _ _ pw). Qed.
Lemma st_k1 : 1 <= k.
Proof. apply pw. Qed.
Lemma st_nk : 2 * k <= n.
Proof.
  unfold n. destruct pw as [a b]. rewrite b. clear b. replace k with (Z.succ (k - 1)) by lia. rewrite Z.pow_succ_r by lia.
  pose proof (Z.pow_gt_lin_r 2 (k - 1)). lia.
Qed.
Definition where_ (e : ientry) : Z :=
  match List.find (fun v => usedb (at_ ix v) && (ie_hash (at_ ix v) =? ie_hash e)) (zrange (z0 - n + 1) (Z.to_nat (n - 1))) with Some v => v | None => 0 end.
Definition real_ (e : ientry) : Prop := exists p, z0 - n < p < z0 /\ is_used (at_ ix p) /\ at_ ix p = e.
Definition X_ (e : ientry) : Z := where_ e - dist ix (where_ e).
Lemma at_n v : at_ ix (v + n) = at_ ix v.
Proof. apply at_eqm. fold n. rewrite <- (Z.mul_1_l n) at 1. apply Z.mod_add. pose proof n2. lia. Qed.
Lemma where_at p : z0 - n < p < z0 -> is_used (at_ ix p) -> where_ (at_ ix p) = p.
Proof.
  intros Hp u. pose proof n2. unfold where_. destruct (List.find _ _) as [v|] eqn:E.
  - apply find_some in E. destruct E as [I E]. apply in_zrange in I. apply andb_true_iff in E. destruct E as [E1 E2]. apply usedb_true in E1. apply Z.eqb_eq in E2.
    apply (used_inj ix) in E2; auto; [|fold n; lia]. fold n in E2. apply eqm_small in E2; lia.
  - exfalso. apply find_none with (x := p) in E; [|apply in_zrange; lia]. rewrite (proj2 (usedb_true _) u), Z.eqb_refl in E. discriminate.
Qed.
Lemma fr' : ~ is_used (at_ ix (z0 - n)).
Proof. intros u. apply fr. rewrite <- at_n in u. replace (z0 - n + n) with z0 in u by lia. auto. Qed.
Lemma run_in p : z0 - n < p < z0 -> is_used (at_ ix p) -> z0 - n < p - dist ix p /\ forall w, p - dist ix p <= w <= p -> is_used (at_ ix w) /\ p - dist ix p >= w - dist ix w.
Proof.
  intros Hp u. pose proof (RH_run ix k p pw ord u) as R. split.
  - destruct (Z_lt_dec (z0 - n) (p - dist ix p)); auto. exfalso. apply fr'. destruct (R (p - (z0 - n)) ltac:(lia)) as [a _].
    replace (p - (p - (z0 - n))) with (z0 - n) in a by lia. auto.
  - intros w Hw. destruct (R (p - w) ltac:(lia)) as [a b]. replace (p - (p - w)) with w in * by lia. split; auto. lia.
Qed.
Notation Y := (ideal n z0).
Lemma st_real_ok e : real_ e -> z0 - n < X_ e /\ X_ e <= where_ e /\ where_ e < z0 /\ where_ e < X_ e + k /\ (Y e = X_ e \/ Y e = X_ e + n).
Proof.
  intros (p & Hp & u & <-). pose proof n2. unfold X_. rewrite (where_at p Hp u). destruct (run_in p Hp u) as [a _]. pose proof (dist_range ix p ltac:(fold n; lia)) as d.
  destruct (ord p u) as [d' _]. split; [auto|]. split; [lia|]. split; [lia|]. split; [lia|].
  set (e := at_ ix p) in *. pose proof (Y_win n k z0 st_k1 st_nk z0n e) as w.
  assert (E : (Y e - (p - dist ix p)) mod n = 0).
  { assert (E1 : Y e mod n = ie_hash e mod n).
    { pose proof (Y_mod n z0 e) as E. pose proof (Z.div_mod (Y e) (2 * n) ltac:(lia)) as D1. pose proof (Z.div_mod (ie_hash e) (2 * n) ltac:(lia)) as D2.
      rewrite E in D1. replace (Y e) with (ie_hash e + (2 * (Y e / (2 * n) - ie_hash e / (2 * n))) * n) by lia. apply Z.mod_add. lia. }
    assert (E2 : (p - dist ix p) mod n = ie_hash e mod n).
    { unfold dist. fold n. fold e. rewrite Zminus_mod_idemp_r. f_equal. lia. }
    rewrite Zminus_mod, E1, E2, Z.sub_diag. apply Z.mod_0_l. lia. }
  apply Z.mod_divide in E; [|lia]. destruct E as [q E]. assert (q = 0 \/ q = 1) by nia. lia.
Qed.
Lemma st_sorted e e' : real_ e -> real_ e' -> where_ e < where_ e' -> X_ e <= X_ e'.
Proof.
  intros (p & Hp & u & <-) (p' & Hp' & u' & <-). pose proof n2. unfold X_. rewrite !where_at by auto. intros L.
  pose proof (dist_range ix p ltac:(fold n; lia)). destruct (run_in p' Hp' u') as [_ R]. destruct (Z_lt_dec p (p' - dist ix p')); [lia|].
  destruct (R p ltac:(lia)). lia.
Qed.
Let bx := grow ix (Z.max (lenz ix * 2) 2).
Lemma bx_len : lenz bx = 2 * n.
Proof. pose proof n2. unfold lenz at 1. unfold bx. rewrite grow_len. fold n. lia. Qed.
Lemma bx_pow2 : lenz ix < MAX_INDEX -> pow2 bx (k + 1).
Proof.
  intros M. destruct pw as [a b]. rewrite b in M. unfold MAX_INDEX in M. apply Z.pow_lt_mono_r_iff in M; [|lia..].
  split; [lia|]. rewrite bx_len. unfold n. rewrite b. rewrite Z.pow_add_r by lia. lia.
Qed.
Lemma bx_at v : 0 <= v < n -> at_ bx v = at_ ix v.
Proof.
  intros H. unfold at_. rewrite bx_len. fold n. rewrite !Z.mod_small by lia. unfold bx, grow. apply app_nth1. unfold n, lenz in H. lia.
Qed.
Lemma bx_free v : n <= v < 2 * n -> ~ is_used (at_ bx v).
Proof.
  intros H. unfold at_. rewrite bx_len. rewrite !Z.mod_small by lia. unfold bx, grow. rewrite app_nth2 by (unfold n, lenz in H; lia).
  change IE0 with (IE 0 0). rewrite nth_repeat. unfold is_used. cbn. auto.
Qed.
Lemma bx_mod v : at_ bx (v + 2 * n) = at_ bx v.
Proof. apply at_eqm. rewrite bx_len. rewrite <- (Z.mul_1_l (2 * n)) at 1. apply Z.mod_add. pose proof n2. lia. Qed.
Lemma bx_used v : z0 - n < v < z0 + n -> is_used (at_ bx v) -> 0 <= v < n /\ at_ bx v = at_ ix v /\ v <> z0.
Proof.
  intros H u. assert (Q : 0 <= v < n).
  { split.
    - destruct (Z_le_dec 0 v); auto. exfalso. rewrite <- bx_mod in u. apply (bx_free (v + 2 * n)); auto. lia.
    - destruct (Z_lt_dec v n); auto. exfalso. apply (bx_free v); auto. lia. }
  split; auto. rewrite bx_at in * by auto. split; auto. intros ->. auto.
Qed.
Definition was (v : Z) : Z := if v <? z0 then v else v - n.
Lemma was_at v : at_ ix (was v) = at_ ix v.
Proof. unfold was. destruct (v <? z0); auto. rewrite <- (at_n (v - n)). f_equal. lia. Qed.
Lemma was_in v : 0 <= v < n -> v <> z0 -> z0 - n < was v < z0.
Proof. unfold was. destruct (Z.ltb_spec v z0); lia. Qed.
Lemma where_bx v : z0 - n < v < z0 + n -> is_used (at_ bx v) -> where_ (at_ bx v) = was v.
Proof.
  intros H u. destruct (bx_used v H u) as (a & b & c). rewrite b in *. rewrite <- was_at in *. apply where_at; auto. apply was_in; auto.
Qed.
Lemma st_base : base n z0 where_ real_ (at_ bx).
Proof.
  constructor.
  - assert (Q : ~ is_used (at_ bx (z0 + n))) by (apply bx_free; lia). intros v [->|[->| ->]]; auto.
    + intros u. apply Q. rewrite <- bx_mod in u. replace (z0 - n + 2 * n) with (z0 + n) in u by lia. auto.
    + rewrite bx_at by auto. auto.
  - intros v Lv u. unfold inL in Lv. destruct (bx_used v Lv u) as (a & b & c). exists (was v). rewrite was_at, b in *. split; [apply was_in; auto|auto].
  - intros v w Lv Lw uv uw E. unfold inL in *. rewrite !where_bx in E by auto.
    destruct (bx_used v Lv uv) as (a & b & c). destruct (bx_used w Lw uw) as (a' & b' & c').
    unfold was in E. destruct (Z.ltb_spec v z0), (Z.ltb_spec w z0); lia.
Qed.
Lemma st_inv : inv1 n k z0 Y where_ real_ k (at_ bx).
Proof.
  apply (start n k z0 Y X_ where_ real_ st_k1 st_nk z0n st_real_ok st_sorted); [exact st_base|..].
  - intros v Lv u. unfold inL in Lv. rewrite where_bx by auto. destruct (bx_used v Lv u) as (a & b & c). split; auto. unfold was. destruct (Z.ltb_spec v z0); lia.
  - intros v w Lv u Hw Hz. unfold inL in Lv. unfold X_ in Hw. rewrite where_bx in Hw by auto. destruct (bx_used v Lv u) as (a & b & c).
    pose proof (was_in v a c) as wi. assert (u' : is_used (at_ ix (was v))) by (rewrite was_at, <- b; auto).
    destruct (run_in (was v) wi u') as [_ R]. destruct (R w Hw) as [uw _]. rewrite bx_at by (destruct (Z.ltb_spec w 0); lia).
    destruct (Z.ltb_spec w 0); [rewrite at_n|]; auto.
Qed.
Lemma st_grow : lenz ix < MAX_INDEX -> exists ix', increase_capacity ix = Some ix' /\ in_order ix'.
Proof.
  intros M. pose proof (bx_pow2 M) as pb.
  assert (G : good n (hash_mask bx) bx) by (split; [exact bx_len|intros x; apply (pow2_mask bx (k + 1)); auto]).
  assert (O : forall x, Z.land x (hash_mask ix) = x mod n) by (intros x; apply (pow2_mask ix k); auto).
  destruct (whole n k z0 st_k1 st_nk z0n (hash_mask bx) X_ where_ real_ (hash_mask ix) O st_real_ok st_sorted bx (rehash_fuel (length ix)) G st_inv) as (ix' & E & G' & I).
  { unfold rehash_fuel. assert (Q : Z.to_nat n = length ix) by (unfold n, lenz; lia). rewrite Q. clear.
    assert (length ix * length ix <= length ix * (2 * length ix) * (2 * length ix))%nat; [|lia]. destruct (length ix); [lia|]. nia. }
  exists ix'. split.
  - unfold increase_capacity. cbv zeta. fold bx. fold n. rewrite (pow2_probes ix k pw), (pow2_probes bx (k + 1) pb). exact E.
  - assert (L : lenz ix' = lenz bx) by (rewrite bx_len; apply G').
    assert (p' : pow2 ix' (k + 1)) by (destruct pb; split; [auto|congruence]).
    apply (in_order_RH ix' (k + 1) p'). exact (whole_RH n k z0 st_k1 st_nk z0n (hash_mask bx) X_ where_ real_ (hash_mask ix) O st_real_ok st_sorted ix' G' I).
Qed.
End START.
