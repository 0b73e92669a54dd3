(** Range views: proofs. *)
From Verif Require Import RangeSpec VecPackProofs CommonLemmas VecInv VecApi VecApi2 VecProofs VecMore WordsLemmas.
Open Scope nat_scope.

Lemma firstn_pre {A} (pre mid suf : list A) a : a <= length mid ->
  firstn (length pre + a) (pre ++ mid ++ suf) = pre ++ firstn a mid.
Proof.
  intros H. rewrite firstn_app_2, firstn_app. replace (a - length mid) with 0 by lia.
  cbn. rewrite app_nil_r. reflexivity.
Qed.
Lemma skipn_pre {A} (pre mid suf : list A) a : a <= length mid ->
  skipn (length pre + a) (pre ++ mid ++ suf) = skipn a mid ++ suf.
Proof.
  intros H. rewrite skipn_app. rewrite skipn_all2 by lia. cbn.
  replace (length pre + a - length pre) with a by lia. rewrite skipn_app.
  replace (a - length mid) with 0 by lia. reflexivity.
Qed.

Lemma clamp1 x n : (0 <= x <= n)%Z -> (if (max0 x <? n)%Z then max0 x else n) = x.
Proof. intros H. unfold max0. destruct (Z.ltb_spec 0 x); [destruct (Z.ltb_spec x n)|destruct (Z.ltb_spec 0 n)]; lia. Qed.
Lemma clamp2 x n : (0 <= x <= n)%Z -> (if (n <? max0 x)%Z then n else max0 x) = x.
Proof. intros H. unfold max0. destruct (Z.ltb_spec 0 x); [destruct (Z.ltb_spec n x)|destruct (Z.ltb_spec n 0)]; lia. Qed.
Lemma inr_le x n : inr x n = true -> (0 <= x <= Z.of_nat n)%Z.
Proof. unfold inr. intros H. apply andb_prop in H as [H1 H2]. apply Z.leb_le in H1, H2. lia. Qed.

Section P.
Context {A : Type} (dflt : A).
Implicit Types (l pre mid suf w : list A) (s : vars A).

Lemma split_within r l : within r l ->
  exists pre suf, l = pre ++ denotes r l ++ suf /\ Left r = Z.of_nat (length pre) /\ Right r = Z.of_nat (length suf).
Proof.
  intros (_ & L0 & R0 & LR). unfold denotes. set (a := Z.to_nat (Left r)). set (b := Z.to_nat (Right r)).
  exists (firstn a l), (skipn (length l - b) l). split; [|split].
  - rewrite <- (firstn_skipn a l) at 1. f_equal.
    rewrite <- (firstn_skipn (length l - a - b) (skipn a l)) at 1. f_equal.
    rewrite skipn_skipn_add. f_equal. lia.
  - rewrite firstn_length. lia.
  - rewrite skipn_length. lia.
Qed.

Lemma sstep_upd copiable s i p l l' s' (f : list A -> option (list A)) :
  sstep copiable dflt p s = (do l <- var s i; do l' <- f l; require (fitsb (length l')) (Some (lset s i (Some l')))) ->
  var s i = Some l -> f l = Some l' -> fitsb (length l') = true -> s' = lset s i (Some l') ->
  sstep copiable dflt p s = Some s' /\ var s' i = Some l' /\ (False \/ s' = lset s i (Some l')).
Proof.
  intros E V F B ->. rewrite E, V. cbn [obind]. rewrite F. cbn [obind]. unfold require. rewrite B.
  split; [reflexivity|]. split; [|right; reflexivity].
  apply var_some, lset_eq. apply var_some in V. apply nth_error_lt in V. exact V.
Qed.

Lemma sstep_upd3 copiable s i p l l' s' (f : list A -> option (list A)) (P : Prop) :
  sstep copiable dflt p s = (do l <- var s i; do l' <- f l; require (fitsb (length l')) (Some (lset s i (Some l')))) ->
  var s i = Some l -> f l = Some l' -> fitsb (length l') = true -> s' = lset s i (Some l') ->
  sstep copiable dflt p s = Some s' /\ var s' i = Some l' /\ (P \/ s' = lset s i (Some l')).
Proof.
  intros E V F B H. destruct (sstep_upd _ _ _ _ _ _ _ _ E V F B H) as (H1 & H2 & [[]|H3]). auto.
Qed.

Lemma fitsb_le n m : fitsb m = true -> n <= m -> fitsb n = true.
Proof. unfold fitsb. rewrite !Z.ltb_lt. lia. Qed.

Lemma rspec_length copiable i s o mid mid' : rspec dflt copiable i s o mid = Some mid' ->
  length mid' <= length mid + radd s o mid.
Proof.
  unfold rspec, edit. destruct o; cbn [radd]; intros H;
  repeat match goal with
  | H : obind _ _ = Some _ |- _ => apply obind_inv in H as (? & ? & H)
  | H : require _ _ = Some _ |- _ => apply require_inv in H as (? & H)
  | H : Some _ = Some _ |- _ => injection H as <-
  | H : (_ && _)%bool = true |- _ => apply andb_prop in H as [? ?]
  | H : inr _ _ = true |- _ => apply inr_le in H
  | H : (_ <=? _) = true |- _ => apply Nat.leb_le in H
  | H : (_ <? _) = true |- _ => apply Nat.ltb_lt in H
  | H : var _ _ = Some _ |- _ => rewrite H
  end; rewrite ?app_length, ?firstn_length, ?skipn_length, ?repeat_length, ?app_length; cbn [length];
  rewrite ?app_length; cbn [length]; rewrite ?skipn_length; try lia.
  rewrite removelast_firstn_len, firstn_length. lia.
Qed.

Lemma removelast_firstn l : removelast l = firstn (length l - 1) l.
Proof. rewrite removelast_firstn_len. f_equal. lia. Qed.

Lemma compile_sstep copiable r o s pre mid suf mid' nw :
  let l := pre ++ mid ++ suf in
  Left r = Z.of_nat (length pre) -> Right r = Z.of_nat (length suf) ->
  var s (r_var r) = Some l -> rspec dflt copiable (r_var r) s o mid = Some mid' ->
  fitsb (length l + radd s o mid) = true -> trimmed_append o = true -> whole_prefix r o l = false ->
  (forall j w, src_var o = Some j -> var s j = Some w -> nw = Z.of_nat (length w)) ->
  (r_trim r = 0%Z -> pre = [] /\ suf = []) -> (pre = [] -> suf = [] -> r_trim r = 0%Z) ->
  exists p s', compile o (Z.of_nat (length l)) nw r = Some p /\ incl (writes p) (rwrites (r_var r) o) /\
    sstep copiable dflt p s = Some s' /\ var s' (r_var r) = Some (pre ++ mid' ++ suf) /\
    (moves o = true \/ s' = lset s (r_var r) (Some (pre ++ mid' ++ suf))).
Proof.
  intros l HL HR V E F TA WP NW T0 T1. set (i := r_var r) in *.
  assert (LL : length l = length pre + length mid + length suf) by (unfold l; rewrite !app_length; lia).
  assert (SZ : rsize (Z.of_nat (length l)) r = Z.of_nat (length mid)) by (unfold rsize; lia).
  pose proof (rspec_length _ _ _ _ _ _ E) as ML.
  assert (F' : fitsb (length (pre ++ mid' ++ suf)) = true).
  { eapply fitsb_le; [exact F|]. rewrite !app_length. lia. }
  assert (Fl : (Z.of_nat (length l) < 2 ^ 31)%Z) by (unfold fitsb in F; apply Z.ltb_lt in F; lia).
  unfold compile. rewrite SZ, HL, HR. fold i.
  assert (W32 : forall z, (0 <= z < 2 ^ 31)%Z -> wrap 32 z = z) by (intros z Hz; apply Z.mod_small; lia).
  destruct o; cbn [rspec radd trimmed_append whole_prefix src_var rwrites] in *;
  repeat match goal with
  | H : obind _ _ = Some _ |- _ => apply obind_inv in H as (? & ? & H)
  | H : require _ _ = Some _ |- _ => apply require_inv in H as (? & H)
  | H : Some _ = Some _ |- _ => injection H as <-
  | H : (_ && _)%bool = true |- _ => apply andb_prop in H as [? ?]
  | H : inr _ _ = true |- _ => apply inr_le in H
  | H : (_ <=? _) = true |- _ => apply Nat.leb_le in H
  | H : (_ <? _) = true |- _ => apply Nat.ltb_lt in H
  end.
  - (* set *) rewrite !W32 by lia. rewrite (proj2 (Z.ltb_lt _ _)) by lia.
    eexists _, _. split; [reflexivity|]. split; [apply incl_refl|].
    eapply sstep_upd3; [reflexivity|exact V| |exact F'|reflexivity]. cbn beta.
    replace (Z.to_nat (idx + Z.of_nat (length pre)) <? length l) with true
      by (symmetry; apply Nat.ltb_lt; lia).
    cbn [require]. f_equal. unfold edit, l.
    replace (Z.to_nat (idx + Z.of_nat (length pre))) with (length pre + Z.to_nat idx) by lia.
    replace (S (length pre + Z.to_nat idx)) with (length pre + (Z.to_nat idx + 1)) by lia.
    rewrite firstn_pre, skipn_pre by lia. rewrite <- !app_assoc. reflexivity.
  - (* push *) eexists _, _. split; [reflexivity|]. split; [apply incl_refl|].
    eapply sstep_upd3; [reflexivity|exact V| |exact F'|reflexivity]. cbn beta.
    replace (Z.to_nat (Z.of_nat (length l) - Z.of_nat (length suf))) with (length pre + length mid) by lia.
    rewrite (proj2 (Nat.leb_le _ _)) by lia. cbn [require]. f_equal. unfold l.
    rewrite firstn_pre, skipn_pre, firstn_all, skipn_all by lia. rewrite <- !app_assoc. reflexivity.
  - (* insert *) rewrite clamp1 by lia. eexists _, _. split; [reflexivity|]. split; [apply incl_refl|].
    eapply sstep_upd3; [reflexivity|exact V| |exact F'|reflexivity]. cbn beta.
    replace (Z.to_nat (_ + idx)) with (length pre + Z.to_nat idx) by lia.
    rewrite (proj2 (Nat.leb_le _ _)) by lia. cbn [require]. f_equal. unfold l, edit.
    rewrite firstn_pre, skipn_pre by lia. rewrite <- !app_assoc, Nat.add_0_r. reflexivity.
  - (* unshift *) eexists _, _. split; [reflexivity|]. split; [apply incl_refl|].
    eapply sstep_upd3; [reflexivity|exact V| |exact F'|reflexivity]. cbn beta.
    replace (Z.to_nat (Z.of_nat (length pre) + 0)) with (length pre + 0) by lia.
    rewrite (proj2 (Nat.leb_le _ _)) by lia. cbn [require]. f_equal. unfold l.
    rewrite firstn_pre, skipn_pre by lia. cbn [firstn skipn]. rewrite app_nil_r. reflexivity.
  - (* resize *) eexists _, _. split; [reflexivity|]. split; [apply incl_refl|].
    eapply sstep_upd3; [reflexivity|exact V| |exact F'|reflexivity]. cbn beta.
    set (k := Z.to_nat n) in *.
    assert (MX : max0 n = Z.of_nat k) by (unfold max0; destruct (Z.ltb_spec 0 n); lia). rewrite MX.
    destruct (Nat.le_gt_cases k (length mid)) as [C|C].
    + replace (if (0 <? _)%Z then 0%Z else _) with (Z.of_nat (length mid - k)).
      2:{ destruct (Z.ltb_spec 0 (Z.of_nat k - Z.of_nat (length mid))); lia. }
      replace (Z.to_nat (if (_ <? 0)%Z then 0%Z else _)) with 0.
      2:{ destruct (Z.ltb_spec (Z.of_nat k - Z.of_nat (length mid)) 0); lia. }
      replace (Z.to_nat (_ + _ - _)) with (length pre + k) by lia. rewrite Nat2Z.id.
      rewrite (proj2 (Nat.leb_le _ _)) by lia. rewrite (fitsb_le _ _ F) by lia. cbn [andb require repeat app]. f_equal.
      replace (length pre + k + (length mid - k)) with (length pre + length mid) by lia.
      unfold l. rewrite firstn_pre, skipn_pre, skipn_all by lia. replace (k - length mid) with 0 by lia.
      cbn. rewrite app_nil_r, <- app_assoc. reflexivity.
    + replace (if (0 <? _)%Z then 0%Z else _) with 0%Z.
      2:{ destruct (Z.ltb_spec 0 (Z.of_nat k - Z.of_nat (length mid))); lia. }
      replace (Z.to_nat (if (_ <? 0)%Z then 0%Z else _)) with (k - length mid).
      2:{ destruct (Z.ltb_spec (Z.of_nat k - Z.of_nat (length mid)) 0); lia. }
      replace (Z.to_nat (_ + _ - 0)) with (length pre + length mid) by lia. cbn [Z.to_nat].
      rewrite (proj2 (Nat.leb_le _ _)) by lia. rewrite (fitsb_le _ _ F) by lia. cbn [andb require]. f_equal.
      rewrite Nat.add_0_r. unfold l. rewrite firstn_pre, skipn_pre, skipn_all, firstn_all by lia.
      rewrite (firstn_all2 mid) by lia. cbn. rewrite <- !app_assoc. reflexivity.
  - (* grow *) apply Z.leb_le in H. eexists _, _. split; [reflexivity|]. split; [apply incl_refl|].
    eapply sstep_upd3; [reflexivity|exact V| |exact F'|reflexivity]. cbn beta.
    replace (Z.to_nat ((if (Z.of_nat (length mid) <? n)%Z then n else Z.of_nat (length mid)) - Z.of_nat (length mid))) with (Z.to_nat n - length mid).
    2:{ destruct (Z.ltb_spec (Z.of_nat (length mid)) n); lia. }
    replace (Z.to_nat (_ + _)) with (length pre + length mid) by lia.
    rewrite (proj2 (Nat.leb_le _ _)) by lia. rewrite (fitsb_le _ _ F) by lia. cbn [andb require]. f_equal.
    rewrite Nat.add_0_r. unfold l. rewrite firstn_pre, skipn_pre, skipn_all, firstn_all by lia.
    cbn. rewrite <- !app_assoc. reflexivity.
  - (* shrink *) eexists _, _. split; [reflexivity|]. split; [apply incl_refl|].
    eapply sstep_upd3; [reflexivity|exact V| |exact F'|reflexivity]. cbn beta. f_equal.
    rewrite clamp1 by lia.
    replace (Z.to_nat (_ + _ - (_ - n))) with (length pre + Z.to_nat n) by lia.
    replace (length pre + Z.to_nat n + Z.to_nat (Z.of_nat (length mid) - n)) with (length pre + length mid) by lia.
    unfold l. rewrite firstn_pre, skipn_pre, skipn_all by lia. cbn. rewrite <- app_assoc. reflexivity.
  - (* clear *) eexists _, _. split; [reflexivity|]. split; [apply incl_refl|].
    eapply sstep_upd3; [reflexivity|exact V| |exact F'|reflexivity]. cbn beta. f_equal.
    replace (Z.to_nat (_ + _ - _)) with (length pre + 0) by lia. rewrite Nat2Z.id.
    replace (length pre + 0 + length mid) with (length pre + length mid) by lia.
    unfold l. rewrite firstn_pre, skipn_pre, skipn_all by lia. cbn. rewrite app_nil_r. reflexivity.
  - (* pop *) destruct (Z.eqb_spec (Z.of_nat (length mid)) 0) as [C|C].
    + eexists _, _. split; [reflexivity|]. split; [apply incl_refl|].
      eapply sstep_upd3; [reflexivity|exact V| |exact F'|reflexivity]. cbn beta. f_equal.
      assert (mid = []) as -> by (destruct mid; [reflexivity|cbn in C; lia]).
      rewrite Nat.add_0_r, firstn_skipn. reflexivity.
    + eexists _, _. split; [reflexivity|]. split; [apply incl_refl|].
      eapply sstep_upd3; [reflexivity|exact V| |exact F'|reflexivity]. cbn beta. f_equal.
      replace (Z.to_nat (_ + _ - 1)) with (length pre + (length mid - 1)) by lia.
      replace (length pre + (length mid - 1) + 1) with (length pre + length mid) by lia.
      unfold l. rewrite firstn_pre, skipn_pre, skipn_all by lia. rewrite removelast_firstn. cbn.
      rewrite <- app_assoc. reflexivity.
  - (* splice *) eexists _, _. split; [reflexivity|]. split; [apply incl_refl|].
    eapply sstep_upd3; [reflexivity|exact V| |exact F'|reflexivity]. cbn beta. f_equal.
    rewrite clamp1 by lia.
    rewrite clamp1 by lia.
    replace (Z.to_nat (_ + idx)) with (length pre + Z.to_nat idx) by lia.
    rewrite <- Nat.add_assoc. unfold l, edit. rewrite firstn_pre, skipn_pre by lia. cbn. rewrite <- !app_assoc. reflexivity.
  - (* splice move *) rename x into w.
    assert (Nij : (i =? j) = false) by (apply negb_true_iff; assumption).
    rewrite H in F.
    eexists _, _. split; [reflexivity|]. split; [apply incl_refl|].
    cbn [sstep]. rewrite H, V. cbn [obind]. rewrite Nij. cbn [negb andb].
    rewrite (clamp2 idx) by lia.
    rewrite (clamp2 del) by lia.
    replace (Z.to_nat (_ + idx)) with (length pre + Z.to_nat idx) by lia.
    rewrite (proj2 (Nat.leb_le _ _)) by lia. rewrite F. cbn [andb require obind].
    assert (EQ : firstn (length pre + Z.to_nat idx) l ++ w ++ skipn (length pre + Z.to_nat idx + Z.to_nat del) l
      = pre ++ edit (Z.to_nat idx) (Z.to_nat del) w mid ++ suf).
    { rewrite <- Nat.add_assoc. unfold l, edit. rewrite firstn_pre, skipn_pre by lia. rewrite <- !app_assoc. reflexivity. }
    rewrite EQ, F'. cbn [require obind]. split; [reflexivity|]. split; [|left; reflexivity].
    apply Nat.eqb_neq in Nij. rewrite var_lset by auto. apply var_some, lset_eq. apply var_some in V. apply nth_error_lt in V. exact V.
  - (* splice copy *) rename x into w.
    eexists _, _. split; [reflexivity|]. split; [apply incl_refl|].
    rewrite (clamp2 idx) by lia.
    rewrite (clamp2 del) by lia.
    replace (Z.to_nat (_ + idx)) with (length pre + Z.to_nat idx) by lia.
    eapply sstep_upd3; [cbn [sstep]; rewrite H; reflexivity|exact V| |exact F'|reflexivity]. cbn beta.
    rewrite (proj2 (Nat.leb_le (length pre + _) _)) by lia. rewrite (proj2 (Nat.leb_le (off + n) _)) by lia.
    rewrite F. rewrite H0.
    replace (negb _) with true; [cbn [andb require]|].
    + f_equal. rewrite <- Nat.add_assoc. unfold l, edit. rewrite firstn_pre, skipn_pre by lia. rewrite <- !app_assoc. reflexivity.
    + symmetry. apply negb_true_iff. destruct (Nat.eqb_spec (length l) 0) as [E0|E0]; [reflexivity|].
      destruct (Nat.eqb_spec (length pre + Z.to_nat idx) 0) as [E1|]; [|reflexivity].
      destruct (Nat.eqb_spec (Z.to_nat del) (length l)) as [E2|]; [|reflexivity]. cbn [andb negb].
      assert (pre = []) by (destruct pre; [reflexivity|cbn in E1; lia]).
      assert (suf = []) by (destruct suf; [reflexivity|cbn in LL; lia]).
      rewrite (T1 H4 H5) in WP. assert (idx = 0%Z) by lia. subst idx. idtac. destruct (Nat.eqb_spec (length l) 0); [lia|]. destruct (Nat.eqb_spec (Z.to_nat del) (length l)); [|lia]. cbn in WP. exact WP.
  - (* append move *) rename x into w. apply Z.eqb_eq in TA. subst del.
    assert (Nij : (i =? j) = false) by (apply negb_true_iff; assumption).
    rewrite H in F.
    eexists _, _. split; [reflexivity|]. split; [apply incl_refl|].
    cbn [sstep]. rewrite H, V. cbn [obind]. rewrite Nij. cbn [negb andb].
    rewrite (clamp2 0) by lia.
    replace (Z.to_nat (_ + _)) with (length pre + length mid) by lia.
    rewrite (proj2 (Nat.leb_le _ _)) by lia. rewrite F. cbn [andb require obind Z.to_nat].
    assert (EQ : firstn (length pre + length mid) l ++ w ++ skipn (length pre + length mid + 0) l
      = pre ++ (firstn (length mid - Z.to_nat 0) mid ++ w) ++ suf).
    { rewrite Nat.add_0_r. unfold l. rewrite firstn_pre, skipn_pre, skipn_all by lia. cbn. rewrite Nat.sub_0_r.
      rewrite <- !app_assoc. reflexivity. }
    rewrite EQ, F'. cbn [require obind]. split; [reflexivity|]. split; [|left; reflexivity].
    apply Nat.eqb_neq in Nij. rewrite var_lset by auto. apply var_some, lset_eq. apply var_some in V. apply nth_error_lt in V. exact V.
  - (* append copy *) rename x into w. apply Z.eqb_eq in TA. subst del.
    eexists _, _. split; [reflexivity|]. split; [apply incl_refl|].
    rewrite (clamp2 0) by lia.
    replace (Z.to_nat (_ + _)) with (length pre + length mid) by lia. cbn [Z.to_nat].
    eapply sstep_upd3; [cbn [sstep]; rewrite H; reflexivity|exact V| |exact F'|reflexivity]. cbn beta.
    rewrite (proj2 (Nat.leb_le (length pre + _) _)) by lia. rewrite (proj2 (Nat.leb_le (off + n) _)) by lia.
    rewrite F. rewrite H0.
    replace (negb _) with true; [cbn [andb require]|].
    + f_equal. rewrite Nat.add_0_r. unfold l. rewrite firstn_pre, skipn_pre, skipn_all by lia. cbn. rewrite Nat.sub_0_r.
      rewrite <- !app_assoc. reflexivity.
    + symmetry. apply negb_true_iff. destruct (Nat.eqb_spec (length l) 0) as [E0|E0]; [reflexivity|].
      destruct (Nat.eqb_spec 0 (length l)) as [E2|]; [lia|]. rewrite ?andb_false_r. reflexivity.
  - (* assign move *) rename x into w.
    assert (Nij : (i =? j) = false) by (apply negb_true_iff; assumption).
    rewrite H in F.
    destruct (Z.eqb_spec (r_trim r) 0) as [C|C].
    + destruct (T0 C) as [-> ->]. eexists _, _. split; [reflexivity|]. split; [intros x Hx; exact Hx|].
      cbn [sstep]. rewrite V, H. cbn [obind]. rewrite Nij. cbn [negb require]. split; [reflexivity|]. split; [|left; reflexivity].
      apply Nat.eqb_neq in Nij. rewrite var_lset by auto. cbn [app]. rewrite app_nil_r.
      apply var_some, lset_eq. apply var_some in V. apply nth_error_lt in V. exact V.
    + eexists _, _. split; [reflexivity|]. split; [apply incl_refl|].
      cbn [sstep]. rewrite H, V. cbn [obind]. rewrite Nij. cbn [negb andb]. rewrite !Nat2Z.id.
      rewrite (proj2 (Nat.leb_le _ _)) by lia. rewrite F. cbn [andb require obind].
      assert (EQ : firstn (length pre) l ++ w ++ skipn (length pre + length mid) l = pre ++ w ++ suf).
      { unfold l. rewrite skipn_pre, skipn_all by lia. rewrite <- (Nat.add_0_r (length pre)), firstn_pre by lia.
        cbn [firstn]. rewrite app_nil_r. reflexivity. }
      rewrite EQ, F'. cbn [require obind]. split; [reflexivity|]. split; [|left; reflexivity].
      apply Nat.eqb_neq in Nij. rewrite var_lset by auto.
      apply var_some, lset_eq. apply var_some in V. apply nth_error_lt in V. exact V.
  - (* assign copy *) rename x into w.
    assert (Nij : (i =? j) = false) by (apply negb_true_iff; assumption).
    rewrite H in F.
    destruct (Z.eqb_spec (r_trim r) 0) as [C|C].
    + destruct (T0 C) as [-> ->]. eexists _, _. split; [reflexivity|]. split; [intros x Hx; exact Hx|].
      cbn [sstep]. rewrite V, H. cbn [obind]. rewrite Nij, H0. cbn [negb andb require]. split; [reflexivity|].
      cbn [app]. rewrite app_nil_r. split; [|right; reflexivity].
      apply var_some, lset_eq. apply var_some in V. apply nth_error_lt in V. exact V.
    + eexists _, _. split; [reflexivity|]. split; [apply incl_refl|].
      eapply sstep_upd3; [cbn [sstep]; rewrite H; reflexivity|exact V| |exact F'|reflexivity]. cbn beta.
      rewrite (NW j w eq_refl H), !Nat2Z.id. rewrite (proj2 (Nat.leb_le (length pre) _)) by lia.
      cbn [Nat.add]. rewrite Nat.leb_refl, F, H0.
      replace (negb _) with true; [cbn [andb require]|].
      * f_equal. unfold l. rewrite skipn_pre, skipn_all by lia. rewrite <- (Nat.add_0_r (length pre)), firstn_pre by lia.
        cbn [firstn skipn]. rewrite app_nil_r, firstn_all. reflexivity.
      * symmetry. apply negb_true_iff. destruct (Nat.eqb_spec (length l) 0) as [E0|E0]; [reflexivity|].
        destruct (Nat.eqb_spec (length pre) 0) as [E1|]; [|reflexivity].
        destruct (Nat.eqb_spec (length mid) (length l)) as [E2|]; [|reflexivity].
        exfalso. apply C, T1; apply length_zero_iff_nil; lia.
Qed.

(** ** One edit on a machine *)
Lemma trim_zero r : (0 <= r_trim r < 2 ^ 64)%Z -> (0 <= Left r)%Z -> (0 <= Right r)%Z ->
  r_trim r = (Left r + 2 ^ 32 * Right r)%Z /\ (Left r < 2 ^ 31)%Z /\ (Right r < 2 ^ 31)%Z.
Proof.
  unfold Left, Right, signed, wshr. intros W.
  change 4294967295%Z with (Z.ones 32). rewrite Z.land_ones, Z.shiftr_div_pow2 by lia.
  set (x := r_trim r) in *.
  pose proof (Z.div_mod x (2 ^ 32) ltac:(lia)).
  pose proof (Z.mod_pos_bound x (2 ^ 32) ltac:(lia)).
  assert (0 <= x / 2 ^ 32 < 2 ^ 32)%Z by (split; [apply Z.div_pos; lia|apply Z.div_lt_upper_bound; lia]).
  unfold wrap. rewrite (Z.mod_small (x mod 2 ^ 32)), (Z.mod_small (x / 2 ^ 32)) by lia.
  change (2 ^ (32 - 1))%Z with (2 ^ 31)%Z.
  destruct (Z.ltb_spec (x mod 2 ^ 32) (2 ^ 31)), (Z.ltb_spec (x / 2 ^ 32) (2 ^ 31)); lia.
Qed.
Context (e : elt) (He : (0 < esz e < 2 ^ 31)%Z).

Lemma rexec_ok m s r o pre mid suf mid' :
  let l := pre ++ mid ++ suf in
  R e m s -> (0 <= r_trim r < 2 ^ 64)%Z ->
  Left r = Z.of_nat (length pre) -> Right r = Z.of_nat (length suf) ->
  var s (r_var r) = Some l -> rspec dflt (SHAREABLE e) (r_var r) s o mid = Some mid' ->
  fitsb (length l + radd s o mid) = true -> trimmed_append o = true -> whole_prefix r o l = false ->
  runs (rexec dflt e o r m) (fun m' => exists s', R e m' s' /\ var s' (r_var r) = Some (pre ++ mid' ++ suf) /\
    (forall k lk, ~ In k (rwrites (r_var r) o) -> var s k = Some lk -> var s' k = Some lk) /\
    (moves o = true \/ s' = lset s (r_var r) (Some (pre ++ mid' ++ suf)))).
Proof.
  intros l HR W HL HRt V E F TA WP.
  destruct (trim_zero r W ltac:(lia) ltac:(lia)) as (TZ & _ & _).
  unfold rexec. destruct (R_get e _ _ _ _ HR V) as (v & Gv & _ & _ & _ & I). rewrite Gv. cbn [rbind].
  rewrite (Inv_size e He _ _ _ _ I).
  assert (NW : exists nw, match src_var o with
             | Some j => let! wv := getv m j in Ok (Z.of_nat (size e wv))
             | None => Ok 0%Z
             end = Ok nw /\ (forall j w, src_var o = Some j -> var s j = Some w -> nw = Z.of_nat (length w))).
  { destruct (src_var o) as [j|] eqn:SV.
    - assert (exists w, var s j = Some w) as (w & Vw).
      { destruct o; cbn in SV; try discriminate; injection SV as ->; cbn in E; apply obind_inv in E as (w & Ew & _); eauto. }
      destruct (R_get e _ _ _ _ HR Vw) as (vw & Gw & _ & _ & _ & Iw). rewrite Gw. cbn [rbind].
      rewrite (Inv_size e He _ _ _ _ Iw). eexists. split; [reflexivity|]. intros j' w' Ej Ew. injection Ej as <-. congruence.
    - exists 0%Z. split; [reflexivity|]. discriminate. }
  destruct NW as (nw & -> & NW). cbn [rbind].
  destruct (compile_sstep (SHAREABLE e) r o s pre mid suf mid' nw HL HRt V E F TA WP NW) as (p & s' & EC & INC & SS & V' & M').
  - intros T. split; apply length_zero_iff_nil; lia.
  - intros -> ->. cbn [length] in *. lia.
  - fold l in EC. rewrite EC. destruct (step_refines dflt e He _ _ _ _ HR SS) as [X|(m' & X & HR')].
    + left. exact X.
    + right. exists m'. split; [exact X|]. exists s'. split; [exact HR'|]. split; [exact V'|]. split; [|exact M'].
      intros k lk N Vk. eapply (sstep_frame dflt e He); [exact SS| |exact Vk]. intros H. apply N, INC, H.
Qed.

Lemma rrun_ok r pre suf : (0 <= r_trim r < 2 ^ 64)%Z ->
  Left r = Z.of_nat (length pre) -> Right r = Z.of_nat (length suf) ->
  forall os m s mid mid',
  R e m s -> var s (r_var r) = Some (pre ++ mid ++ suf) ->
  rspecs dflt (SHAREABLE e) r s os pre mid suf = Some mid' ->
  runs (rrun dflt e os r m) (fun m' => exists s', R e m' s' /\ var s' (r_var r) = Some (pre ++ mid' ++ suf) /\
    (forall k lk, k <> r_var r -> var s k = Some lk -> var s' k = Some lk)).
Proof.
  intros W HL HRt. induction os as [|o os IH]; intros m s mid mid' HR V E; cbn [rspecs rrun] in *.
  - injection E as <-. apply runs_ok. exists s. auto.
  - apply obind_inv in E as (mid1 & E1 & E). apply require_inv in E as (C & E).
    apply andb_prop in C as [C C4]. apply andb_prop in C as [C C3]. apply andb_prop in C as [C1 C2].
    apply negb_true_iff in C1, C4.
    eapply runs_bind; [apply (rexec_ok m s r o pre mid suf mid1 HR W HL HRt V E1 C2 C3 C4)|].
    intros m1 (s1 & HR1 & V1 & FR & [M|M]); [congruence|]. rewrite <- M in E.
    destruct (IH m1 s1 mid1 mid' HR1 V1 E) as [X|(m' & X & s' & HR' & V' & FR')]; [left; exact X|].
    right. exists m'. split; [exact X|]. exists s'. split; [exact HR'|]. split; [exact V'|].
    intros k lk N Vk. apply FR'; auto. apply FR; auto.
    destruct o; cbn in C1; try discriminate; cbn; intros [H|[]]; congruence.
Qed.
End P.

(** ** Taking ranges *)
Section Get.
Context {A : Type}.
Implicit Types (l : list A) (r : range).

Lemma mk_trim (L Rt : Z) : (0 <= L < 2 ^ 31)%Z -> (0 <= Rt < 2 ^ 31)%Z -> forall i,
  let r := {| r_var := i; r_trim := (L + 2 ^ 32 * Rt)%Z |} in
  (0 <= r_trim r < 2 ^ 64)%Z /\ Left r = L /\ Right r = Rt.
Proof.
  intros HL HR i r. unfold r, Left, Right, signed, wshr. cbn [r_trim].
  change 4294967295%Z with (Z.ones 32). rewrite Z.land_ones, Z.shiftr_div_pow2 by lia.
  rewrite (Z.mul_comm (2 ^ 32) Rt), Z.mod_add, Z.div_add by lia.
  rewrite (Z.mod_small L), (Z.div_small L) by lia. unfold wrap. rewrite !Z.mod_small by lia.
  change (2 ^ (32 - 1))%Z with (2 ^ 31)%Z.
  destruct (Z.ltb_spec L (2 ^ 31)), (Z.ltb_spec (0 + Rt) (2 ^ 31)); lia.
Qed.

Lemma trim_add (r : range) (l : list A) a b : within r l -> (Z.of_nat (length l) < 2 ^ 31)%Z ->
  (0 <= a)%Z -> (0 <= b)%Z -> (a + b <= rsize (Z.of_nat (length l)) r)%Z ->
  let r' := {| r_var := r_var r; r_trim := wadd 64 (r_trim r) (a + 2 ^ 32 * b) |} in
  (0 <= r_trim r' < 2 ^ 64)%Z /\ Left r' = (Left r + a)%Z /\ Right r' = (Right r + b)%Z.
Proof.
  intros (W & L0 & R0 & LR) F A0 B0 AB r'. unfold rsize in AB.
  destruct (trim_zero r W L0 R0) as (E & BL & BR). unfold r'. rewrite E.
  unfold wadd, wrap. rewrite Z.mod_small by lia.
  replace (Left r + 2 ^ 32 * Right r + (a + 2 ^ 32 * b))%Z with ((Left r + a) + 2 ^ 32 * (Right r + b))%Z by lia.
  apply mk_trim; lia.
Qed.

Lemma lor_shl a b : (0 <= a < 2 ^ 32)%Z -> (0 <= b < 2 ^ 32)%Z ->
  Z.lor (wrap 64 a) (wshl 64 (wrap 64 b) 32) = (a + 2 ^ 32 * b)%Z.
Proof.
  intros HA HB. unfold wshl, wrap. rewrite (Z.mod_small a), (Z.mod_small b) by lia.
  rewrite Z.shiftl_mul_pow2 by lia. rewrite Z.mod_small by lia.
  rewrite <- Z.lxor_lor, <- Z.add_nocarry_lxor; try lia.
  all: apply Z.bits_inj_0; intros i; rewrite Z.land_spec.
  all: destruct (Z.lt_ge_cases i 0); [rewrite Z.testbit_neg_r by lia; reflexivity|].
  all: destruct (Z.lt_ge_cases i 32);
    [rewrite Z.mul_pow2_bits_low by lia; apply andb_false_r|
     rewrite (word_testbit_high 32 a i); [reflexivity|exact HA|lia|lia]].
Qed.

(** A sub-range drops [a] elements on the left and [b] on the right. *)
Lemma denotes_sub r r' l a b : within r l -> (0 <= a)%Z -> (0 <= b)%Z ->
  (a + b <= rsize (Z.of_nat (length l)) r)%Z -> Left r' = (Left r + a)%Z -> Right r' = (Right r + b)%Z ->
  (0 <= r_trim r' < 2 ^ 64)%Z ->
  within r' l /\
  denotes r' l = firstn (length (denotes r l) - Z.to_nat a - Z.to_nat b) (skipn (Z.to_nat a) (denotes r l)).
Proof.
  intros (W & L0 & R0 & LR) A0 B0 AB EL ER W'. unfold rsize in AB. split.
  - unfold within. rewrite EL, ER. split; [exact W'|]. lia.
  - unfold denotes. rewrite EL, ER. rewrite firstn_length, skipn_length.
    rewrite skipn_firstn_comm, firstn_firstn, skipn_skipn_add.
    replace (Z.to_nat (Left r + a)) with (Z.to_nat (Left r) + Z.to_nat a) by lia.
    replace (Z.to_nat (Right r + b)) with (Z.to_nat (Right r) + Z.to_nat b) by lia.
    clear W W'. set (x := Z.to_nat (Left r)). set (y := Z.to_nat (Right r)).
    set (x' := Z.to_nat a). set (y' := Z.to_nat b).
    assert (x + y + x' + y' <= length l) by lia.
    clearbody x y x' y'. clear - H. f_equal; lia.
Qed.
End Get.
