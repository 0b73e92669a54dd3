From Verif Require Import ArcModel WordsLemmas.
Open Scope Z_scope.

(** [x] is [v] with every set bit smeared over the [n] positions below it. *)
Definition smeared (n v x : Z) : Prop :=
  0 <= x /\ forall i, 0 <= i ->
    (Z.testbit x i = true <-> exists k, 0 <= k < n /\ Z.testbit v (i + k) = true).

Lemma smear_step n v x : 0 < n -> smeared n v x -> smeared (2 * n) v (Z.lor x (wshr x n)).
Proof.
  intros Hn [H0 H]. split.
  - apply Z.lor_nonneg. split; [exact H0|]. apply Z.shiftr_nonneg; exact H0.
  - intros i Hi. rewrite Z.lor_spec, Bool.orb_true_iff, wshr_testbit by lia.
    rewrite H, H by lia. split.
    + intros [(k & Hk & E)|(k & Hk & E)].
      * exists k. split; [lia|exact E].
      * exists (n + k). split; [lia|]. rewrite <- E. f_equal. lia.
    + intros (k & Hk & E). destruct (Z.ltb_spec k n).
      * left. exists k. split; [lia|exact E].
      * right. exists (k - n). split; [lia|]. rewrite <- E. f_equal. lia.
Qed.

Lemma smear_init v : 0 <= v -> smeared 1 v v.
Proof.
  intros H. split; [exact H|]. intros i Hi. split.
  - intros E. exists 0. split; [lia|]. rewrite Z.add_0_r. exact E.
  - intros (k & Hk & E). replace (i + k) with i in E by lia. exact E.
Qed.

Definition smear (v : Z) : Z :=
  let v := Z.lor v (wshr v 1) in
  let v := Z.lor v (wshr v 2) in
  let v := Z.lor v (wshr v 4) in
  let v := Z.lor v (wshr v 8) in
  Z.lor v (wshr v 16).

Lemma smear_spec v : 0 < v < 2 ^ 32 -> smear v = 2 ^ (Z.log2 v + 1) - 1.
Proof.
  intros Hv.
  assert (S32 : smeared 32 v (smear v)).
  { unfold smear. change 32 with (2 * 16). apply smear_step; [lia|].
    change 16 with (2 * 8) at 1. apply smear_step; [lia|].
    change 8 with (2 * 4) at 1. apply smear_step; [lia|].
    change 4 with (2 * 2) at 1. apply smear_step; [lia|].
    change 2 with (2 * 1) at 1. apply smear_step; [lia|].
    apply smear_init. lia. }
  destruct S32 as [Hn H].
  assert (L0 : 0 <= Z.log2 v) by apply Z.log2_nonneg.
  assert (L1 : Z.log2 v < 32) by (apply Z.log2_lt_pow2; lia).
  replace (2 ^ (Z.log2 v + 1) - 1) with (Z.ones (Z.log2 v + 1)) by (rewrite Z.ones_equiv; lia).
  apply Z.bits_inj'. intros i Hi.
  destruct (Z.ltb_spec i (Z.log2 v + 1)) as [Hlt|Hge].
  - rewrite Z.ones_spec_low by lia. apply H; [lia|].
    exists (Z.log2 v - i). split; [lia|].
    replace (i + (Z.log2 v - i)) with (Z.log2 v) by lia. apply Z.bit_log2. lia.
  - rewrite Z.ones_spec_high by lia.
    destruct (Z.testbit (smear v) i) eqn:E; [|reflexivity].
    apply H in E; [|lia]. destruct E as (k & Hk & E).
    rewrite Z.bits_above_log2 in E by lia. discriminate.
Qed.

Lemma next_pow2_unfold v : next_pow2 v = wadd 32 (smear (wsub 32 v 1)) 1.
Proof. reflexivity. Qed.

Lemma next_pow2_0 : next_pow2 0 = 0.
Proof. reflexivity. Qed.

Lemma next_pow2_1 : next_pow2 1 = 1.
Proof. reflexivity. Qed.

Lemma wsub1 v : 1 <= v < 2 ^ 32 -> wsub 32 v 1 = v - 1.
Proof. intros. unfold wsub. apply wrap_small. unfold word. lia. Qed.

Lemma next_pow2_ok v : 1 <= v <= 2 ^ 31 ->
  exists k, 0 <= k <= 31 /\ next_pow2 v = 2 ^ k /\ v <= 2 ^ k /\ 2 ^ k < 2 * v.
Proof.
  intros Hv. destruct (Z.eq_dec v 1) as [->|Hn].
  - exists 0. rewrite next_pow2_1. cbn. lia.
  - rewrite next_pow2_unfold, wsub1 by lia.
    rewrite smear_spec by lia.
    set (w := v - 1) in *. assert (Hw : 0 < w < 2 ^ 31) by (unfold w; lia).
    destruct (Z.log2_spec w ltac:(lia)) as [L1 L2].
    assert (L0 : 0 <= Z.log2 w) by apply Z.log2_nonneg.
    assert (L3 : Z.log2 w < 31) by (apply Z.log2_lt_pow2; lia).
    exists (Z.log2 w + 1).
    assert (P : 2 ^ (Z.log2 w + 1) <= 2 ^ 31) by (apply Z.pow_le_mono_r; lia).
    assert (P0 : 0 < 2 ^ (Z.log2 w + 1)) by (apply Z.pow_pos_nonneg; lia).
    rewrite <- Z.add_1_r in L2.
    rewrite Z.pow_add_r in * by lia. change (2 ^ 1) with 2 in *.
    split; [lia|]. split; [|unfold w in *; lia].
    unfold wadd. rewrite wrap_small by (unfold word; change (2 ^ 32) with (2 * 2 ^ 31); lia). lia.
Qed.

Lemma next_pow2_big v : 2 ^ 31 < v < 2 ^ 32 -> next_pow2 v = 0.
Proof.
  intros Hv. rewrite next_pow2_unfold, wsub1 by lia. rewrite smear_spec by lia.
  assert (E : Z.log2 (v - 1) = 31).
  { apply Z.log2_unique; [lia|]. change (2 ^ Z.succ 31) with (2 ^ 32). lia. }
  rewrite E. reflexivity.
Qed.

Lemma next_pow2_le v : 0 <= v < 2 ^ 32 -> 0 <= next_pow2 v <= 2 ^ 31.
Proof.
  intros Hv. destruct (Z.eq_dec v 0) as [->|]; [rewrite next_pow2_0; lia|].
  destruct (Z.le_gt_cases v (2 ^ 31)).
  - destruct (next_pow2_ok v) as (k & Hk & E & _); [lia|]. rewrite E.
    assert (0 < 2 ^ k) by (apply Z.pow_pos_nonneg; lia).
    assert (2 ^ k <= 2 ^ 31) by (apply Z.pow_le_mono_r; lia). lia.
  - rewrite next_pow2_big by lia. lia.
Qed.

(** The three outcomes of rounding. *)
Lemma round_up_exit bytes : 2 ^ 31 < bytes -> round_up bytes = Exit.
Proof.
  intros H. unfold round_up.
  assert (W : 0 <= wrap 32 bytes < 2 ^ 32) by (apply wrap_word; lia).
  destruct (next_pow2_le _ W) as [L1 L2].
  destruct (Z.ltb_spec (next_pow2 (wrap 32 bytes)) bytes); [reflexivity|lia].
Qed.

Lemma round_up_ok bytes : 0 <= bytes <= 2 ^ 31 ->
  exists k, 7 <= k <= 31 /\ round_up bytes = Ok (2 ^ k) /\ bytes <= 2 ^ k /\
            (2 ^ k = 128 \/ 2 ^ k < 2 * bytes).
Proof.
  intros H. unfold round_up. rewrite wrap_small by (unfold word; change (2 ^ 32) with (2 * 2 ^ 31); lia).
  destruct (Z.eq_dec bytes 0) as [->|Hn].
  { exists 7. rewrite next_pow2_0. cbn. split; [lia|]. split; [reflexivity|]. lia. }
  destruct (next_pow2_ok bytes) as (k & Hk & E & L1 & L2); [lia|].
  rewrite E.
  assert (P : 2 ^ k <= 2 ^ 31) by (apply Z.pow_le_mono_r; lia).
  destruct (Z.ltb_spec (2 ^ k) bytes); [lia|].
  destruct (Z.ltb_spec 0x80000000 (2 ^ k)); [lia|]. cbn [orb].
  unfold MIN_ALLOC. destruct (Z.ltb_spec 128 (2 ^ k)) as [Hlt|Hge].
  - exists k. assert (7 < k). { apply (Z.pow_lt_mono_r_iff 2); cbn; lia. }
    split; [lia|]. split; [reflexivity|]. split; [lia|right; lia].
  - exists 7. split; [lia|]. split; [reflexivity|]. change (2 ^ 7) with 128. split; [lia|left; lia].
Qed.

Lemma arc_alloc_ok bytes : 0 <= bytes -> bytes + 16 <= 2 ^ 31 ->
  exists k, 7 <= k <= 31 /\ arc_alloc_bytes bytes = Ok (2 ^ k - 16) /\ bytes <= 2 ^ k - 16 /\
            (2 ^ k = 128 \/ 2 ^ k < 2 * (bytes + 16)).
Proof.
  intros H0 H1. unfold arc_alloc_bytes, ARC_HEADER, wadd.
  rewrite (wrap_small 64 (bytes + 16)) by (unfold word; change (2 ^ 64) with (2 ^ 33 * 2 ^ 31); lia).
  destruct (round_up_ok (bytes + 16)) as (k & Hk & E & L & T); [lia|].
  rewrite E. cbn [rbind].
  assert (P : 2 ^ k <= 2 ^ 31) by (apply Z.pow_le_mono_r; lia).
  assert (P7 : 2 ^ 7 <= 2 ^ k) by (apply Z.pow_le_mono_r; lia). change (2 ^ 7) with 128 in P7.
  unfold wsub. rewrite wrap_small by (unfold word; change (2 ^ 64) with (2 ^ 33 * 2 ^ 31); lia).
  destruct (Z.ltb_spec 0x7fffffff (2 ^ k - 16)); [lia|].
  exists k. repeat split; try (exfalso; lia); try lia.
Qed.

Lemma arc_alloc_exit bytes : 2 ^ 31 < bytes + 16 < 2 ^ 64 -> arc_alloc_bytes bytes = Exit.
Proof.
  intros H. unfold arc_alloc_bytes, ARC_HEADER, wadd. rewrite wrap_small by (unfold word; lia).
  rewrite round_up_exit by lia. reflexivity.
Qed.

Lemma uniq_alloc_ok bytes r : 0 <= bytes -> uniq_alloc_bytes bytes = Ok r ->
  bytes <= r /\ 128 <= r <= 0x7fffffff.
Proof.
  intros H0. unfold uniq_alloc_bytes.
  destruct (Z.le_gt_cases bytes (2 ^ 31)).
  - destruct (round_up_ok bytes) as (k & Hk & E & L & T); [lia|]. rewrite E. cbn [rbind].
    assert (P7 : 2 ^ 7 <= 2 ^ k) by (apply Z.pow_le_mono_r; lia). change (2 ^ 7) with 128 in P7.
    destruct (Z.ltb_spec 0x7fffffff (2 ^ k)); [discriminate|]. intros [= <-]. lia.
  - rewrite round_up_exit by lia. discriminate.
Qed.

Lemma uniq_alloc_noUB bytes : 0 <= bytes -> uniq_alloc_bytes bytes <> UB.
Proof.
  intros H0. unfold uniq_alloc_bytes. destruct (Z.le_gt_cases bytes (2 ^ 31)).
  - destruct (round_up_ok bytes) as (k & Hk & E & L & T); [lia|]. rewrite E. cbn [rbind].
    destruct (Z.ltb_spec 0x7fffffff (2 ^ k)); discriminate.
  - rewrite round_up_exit by lia. discriminate.
Qed.

Lemma arc_alloc_any bytes : 0 <= bytes < 2 ^ 64 - 16 ->
  arc_alloc_bytes bytes = Exit \/ exists r, arc_alloc_bytes bytes = Ok r /\ bytes <= r /\ 112 <= r <= 0x7fffffff.
Proof.
  intros H. destruct (Z.le_gt_cases (bytes + 16) (2 ^ 31)).
  - right. destruct (arc_alloc_ok bytes) as (k & Hk & E & L & T); [lia|lia|].
    assert (P7 : 2 ^ 7 <= 2 ^ k) by (apply Z.pow_le_mono_r; lia). change (2 ^ 7) with 128 in P7.
    assert (P : 2 ^ k <= 2 ^ 31) by (apply Z.pow_le_mono_r; lia).
    eexists; split; [exact E|]. lia.
  - left. apply arc_alloc_exit. lia.
Qed.

(** Element-count level, as used by [_Splice]. *)
Lemma alloc_count_any sh esz cnt : 0 < esz < 2 ^ 31 -> 0 < cnt < 2 ^ 31 ->
  alloc_count sh esz cnt = Exit \/
  exists n, alloc_count sh esz cnt = Ok n /\ cnt <= n < 2 ^ 31 /\ n * esz <= 0x7fffffff /\ 112 <= (n + 1) * esz.
Proof.
  intros He Hc. unfold alloc_count.
  replace (if 1 <? cnt then cnt else 1) with cnt by (destruct (Z.ltb_spec 1 cnt); lia).
  assert (B : 0 <= cnt * esz < 2 ^ 62).
  { split; [nia|]. change (2 ^ 62) with (2 ^ 31 * 2 ^ 31). nia. }
  assert (K : forall r, cnt * esz <= r -> 112 <= r <= 0x7fffffff ->
     cnt <= r / esz < 2 ^ 31 /\ r / esz * esz <= 0x7fffffff /\ 112 <= (r / esz + 1) * esz).
  { intros r L R. pose proof (Z.mul_div_le r esz ltac:(lia)).
    pose proof (Z.mul_succ_div_gt r esz ltac:(lia)).
    assert (cnt <= r / esz) by (apply Z.div_le_lower_bound; lia).
    assert (r / esz <= r) by (apply Z.div_le_upper_bound; nia).
    split; [lia|]. split; nia. }
  destruct sh.
  - destruct (arc_alloc_any (cnt * esz)) as [E|(r & E & L & R)].
    + change (2 ^ 64) with (4 * 2 ^ 62). lia.
    + left. rewrite E. reflexivity.
    + right. rewrite E. cbn [rbind]. exists (r / esz). split; [reflexivity|]. apply K; lia.
  - destruct (uniq_alloc_bytes (cnt * esz)) as [r| |] eqn:E.
    + right. apply uniq_alloc_ok in E; [|lia]. cbn [rbind]. exists (r / esz).
      split; [reflexivity|]. apply K; lia.
    + left. reflexivity.
    + exfalso. eapply uniq_alloc_noUB; [|exact E]. lia.
Qed.
