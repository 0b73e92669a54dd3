From Verif Require Import CommonLemmas LevModel LevSpec.

Inductive align : list Z -> list Z -> nat -> Prop :=
| A_nil : align [] [] 0
| A_del a b x n : align a b n -> align (a ++ [x]) b (S n)
| A_ins a b y n : align a b n -> align a (b ++ [y]) (S n)
| A_sub a b x y n : align a b n -> align (a ++ [x]) (b ++ [y]) (S n)
| A_match a b x n : align a b n -> align (a ++ [x]) (b ++ [x]) n.

Lemma snoc_cases {A} (l : list A) : l = [] \/ exists l' x, l = l' ++ [x].
Proof.
  destruct l as [|x l] using rev_ind; [left; reflexivity|right; eauto].
Qed.

Lemma snoc_split {A} (p s : list A) (b : list A) y :
  p ++ s = b ++ [y] -> s = [] /\ p = b ++ [y] \/ exists s', s = s' ++ [y] /\ b = p ++ s'.
Proof.
  destruct (snoc_cases s) as [->|(s' & z & ->)]; intros H.
  - rewrite app_nil_r in H; auto.
  - rewrite app_assoc in H. apply app_inj_tail in H as [H1 H2]. subst. right; eauto.
Qed.

Lemma align_ins a b n : align a b n -> forall p s y, b = p ++ s ->
  exists m, m <= S n /\ align a (p ++ y :: s) m.
Proof.
  induction 1 as [|a b x n H IH|a b z n H IH|a b x z n H IH|a b x n H IH]; intros p s y E.
  - symmetry in E; apply app_eq_nil in E as [-> ->]. exists 1; split; auto. apply (A_ins [] []). constructor.
  - destruct (IH p s y E) as (m & Hm & Ha). exists (S m); split; [lia|]. apply A_del; auto.
  - symmetry in E. apply snoc_split in E as [[-> E]|(s' & -> & ->)].
    + subst p. exists (S (S n)); split; auto. change (align a ((b ++ [z]) ++ [y]) (S (S n))).
      apply A_ins, A_ins; auto.
    + destruct (IH p s' y eq_refl) as (m & Hm & Ha). exists (S m); split; [lia|].
      change (p ++ y :: s' ++ [z]) with (p ++ (y :: s') ++ [z]). rewrite app_assoc. apply A_ins; auto.
  - symmetry in E. apply snoc_split in E as [[-> E]|(s' & -> & ->)].
    + subst p. exists (S (S n)); split; auto. apply A_ins, A_sub; auto.
    + destruct (IH p s' y eq_refl) as (m & Hm & Ha). exists (S m); split; [lia|].
      change (p ++ y :: s' ++ [z]) with (p ++ (y :: s') ++ [z]). rewrite app_assoc. apply A_sub; auto.
  - symmetry in E. apply snoc_split in E as [[-> E]|(s' & -> & ->)].
    + subst p. exists (S n); split; auto. apply A_ins, A_match; auto.
    + destruct (IH p s' y eq_refl) as (m & Hm & Ha). exists m; split; [lia|].
      change (p ++ y :: s' ++ [x]) with (p ++ (y :: s') ++ [x]). rewrite app_assoc. apply A_match; auto.
Qed.

Lemma align_del a b n : align a b n -> forall p s y, b = p ++ y :: s ->
  exists m, m <= S n /\ align a (p ++ s) m.
Proof.
  induction 1 as [|a b x n H IH|a b z n H IH|a b x z n H IH|a b x n H IH]; intros p s y E.
  - destruct p; discriminate.
  - destruct (IH p s y E) as (m & Hm & Ha). exists (S m); split; [lia|]. apply A_del; auto.
  - change (y :: s) with ([y] ++ s) in E. rewrite app_assoc in E.
    symmetry in E. apply snoc_split in E as [[-> E]|(s' & -> & E)].
    + apply app_inj_tail in E as [-> ->]. exists n; split; auto. rewrite app_nil_r. auto.
    + rewrite <- app_assoc in E. destruct (IH p s' y E) as (m & Hm & Ha). exists (S m); split; [lia|].
      rewrite app_assoc. apply A_ins; auto.
  - change (y :: s) with ([y] ++ s) in E. rewrite app_assoc in E.
    symmetry in E. apply snoc_split in E as [[-> E]|(s' & -> & E)].
    + apply app_inj_tail in E as [-> ->]. exists (S n); split; auto. rewrite app_nil_r. apply A_del; auto.
    + rewrite <- app_assoc in E. destruct (IH p s' y E) as (m & Hm & Ha). exists (S m); split; [lia|].
      rewrite app_assoc. apply A_sub; auto.
  - change (y :: s) with ([y] ++ s) in E. rewrite app_assoc in E.
    symmetry in E. apply snoc_split in E as [[-> E]|(s' & -> & E)].
    + apply app_inj_tail in E as [-> ->]. exists (S n); split; auto. rewrite app_nil_r. apply A_del; auto.
    + rewrite <- app_assoc in E. destruct (IH p s' y E) as (m & Hm & Ha). exists m; split; [lia|].
      rewrite app_assoc. apply A_match; auto.
Qed.

Lemma align_sub a b n : align a b n -> forall p s y z, b = p ++ y :: s ->
  exists m, m <= S n /\ align a (p ++ z :: s) m.
Proof.
  induction 1 as [|a b x n H IH|a b w n H IH|a b x w n H IH|a b x n H IH]; intros p s y z E.
  - destruct p; discriminate.
  - destruct (IH p s y z E) as (m & Hm & Ha). exists (S m); split; [lia|]. apply A_del; auto.
  - change (y :: s) with ([y] ++ s) in E. rewrite app_assoc in E.
    symmetry in E. apply snoc_split in E as [[-> E]|(s' & -> & E)].
    + apply app_inj_tail in E as [-> ->]. exists (S n); split; auto. apply A_ins; auto.
    + rewrite <- app_assoc in E. destruct (IH p s' y z E) as (m & Hm & Ha). exists (S m); split; [lia|].
      change (p ++ z :: s' ++ [w]) with (p ++ (z :: s') ++ [w]). rewrite app_assoc. apply A_ins; auto.
  - change (y :: s) with ([y] ++ s) in E. rewrite app_assoc in E.
    symmetry in E. apply snoc_split in E as [[-> E]|(s' & -> & E)].
    + apply app_inj_tail in E as [-> ->]. exists (S n); split; auto. apply A_sub; auto.
    + rewrite <- app_assoc in E. destruct (IH p s' y z E) as (m & Hm & Ha). exists (S m); split; [lia|].
      change (p ++ z :: s' ++ [w]) with (p ++ (z :: s') ++ [w]). rewrite app_assoc. apply A_sub; auto.
  - change (y :: s) with ([y] ++ s) in E. rewrite app_assoc in E.
    symmetry in E. apply snoc_split in E as [[-> E]|(s' & -> & E)].
    + apply app_inj_tail in E as [-> ->]. exists (S n); split; auto. apply A_sub; auto.
    + rewrite <- app_assoc in E. destruct (IH p s' y z E) as (m & Hm & Ha). exists m; split; [lia|].
      change (p ++ z :: s' ++ [x]) with (p ++ (z :: s') ++ [x]). rewrite app_assoc. apply A_match; auto.
Qed.

Lemma align_refl a : align a a 0.
Proof. induction a as [|x a IH] using rev_ind; [apply A_nil|apply A_match; auto]. Qed.

Lemma align_sym a b n : align a b n -> align b a n.
Proof. induction 1; [apply A_nil|apply A_ins|apply A_del|apply A_sub|apply A_match]; auto. Qed.

Lemma edits_align n a b : edits n a b -> exists m, m <= n /\ align a b m.
Proof.
  induction 1 as [a|n a b c H (m & Hm & Ha) E].
  - exists 0; split; auto. apply align_refl.
  - inversion E; subst.
    + destruct (align_ins _ _ _ Ha _ _ x eq_refl) as (k & Hk & Hal). exists k; split; [lia|auto].
    + destruct (align_del _ _ _ Ha _ _ x eq_refl) as (k & Hk & Hal). exists k; split; [lia|auto].
    + destruct (align_sub _ _ _ Ha _ _ x y eq_refl) as (k & Hk & Hal). exists k; split; [lia|auto].
Qed.

Lemma edit1_snoc a b x : edit1 a b -> edit1 (a ++ [x]) (b ++ [x]).
Proof. intros E; inversion E; subst; rewrite <- !app_assoc; cbn; constructor. Qed.
Lemma edits_snoc n a b x : edits n a b -> edits n (a ++ [x]) (b ++ [x]).
Proof. induction 1; econstructor; eauto. apply edit1_snoc; auto. Qed.
Lemma edit1_last_del a x : edit1 (a ++ [x]) a.
Proof. pose proof (E_del a x []) as H. rewrite app_nil_r in H. exact H. Qed.
Lemma edit1_last_ins a x : edit1 a (a ++ [x]).
Proof. pose proof (E_ins a x []) as H. rewrite app_nil_r in H. exact H. Qed.

Lemma edits_cons_l n a b c : edit1 a b -> edits n b c -> edits (S n) a c.
Proof.
  intros E H. induction H as [b|n b c d H IH E'].
  - econstructor; [constructor|auto].
  - econstructor; [apply IH; auto|auto].
Qed.

Lemma align_edits a b n : align a b n -> edits n a b.
Proof.
  induction 1.
  - constructor.
  - eapply edits_cons_l; [apply edit1_last_del|auto].
  - econstructor; [eauto|apply edit1_last_ins].
  - econstructor; [apply edits_snoc; eauto|]. constructor.
  - apply edits_snoc; auto.
Qed.

Definition mind (a b : list Z) (n : nat) : Prop := align a b n /\ forall m, align a b m -> n <= m.

Lemma mind_iff a b n : is_edit_distance a b n <-> mind a b n.
Proof.
  unfold is_edit_distance, mind. split; intros [H1 H2]; split.
  - destruct (edits_align _ _ _ H1) as (m & Hm & Ha).
    assert (n = m) as ->; [|exact Ha]. apply align_edits in Ha. specialize (H2 _ Ha). lia.
  - intros m Ha. apply H2, align_edits; auto.
  - apply align_edits; auto.
  - intros m He. destruct (edits_align _ _ _ He) as (k & Hk & Ha). specialize (H2 _ Ha). lia.
Qed.

Lemma mind_nil_r a : mind a [] (length a).
Proof.
  split.
  - induction a as [|x a IH] using rev_ind; [constructor|]. rewrite app_length, Nat.add_1_r. apply A_del; auto.
  - assert (H : forall b m, align a b m -> b = [] -> length a <= m); [|eauto].
    induction 1; intros Eb; subst; cbn; try lia; try (destruct b; discriminate).
    rewrite app_length; cbn. specialize (IHalign eq_refl). lia.
Qed.

Lemma mind_sym a b n : mind a b n -> mind b a n.
Proof. intros [H1 H2]; split; [apply align_sym; auto|]. intros m Hm; apply H2, align_sym; auto. Qed.

Lemma mind_nil_l b : mind [] b (length b).
Proof. apply mind_sym, mind_nil_r. Qed.

Lemma mind_step a b x y d00 d01 d10 :
  mind a b d00 -> mind a (b ++ [y]) d01 -> mind (a ++ [x]) b d10 ->
  mind (a ++ [x]) (b ++ [y])
    (Nat.min (Nat.min (d10 + 1) (d01 + 1)) (if (y =? x)%Z then d00 else d00 + 1)).
Proof.
  intros [A1 M1] [A2 M2] [A3 M3]. split.
  - assert (B1 : align (a ++ [x]) (b ++ [y]) (d10 + 1)) by (rewrite Nat.add_1_r; apply A_ins; auto).
    assert (B2 : align (a ++ [x]) (b ++ [y]) (d01 + 1)) by (rewrite Nat.add_1_r; apply A_del; auto).
    assert (B3 : align (a ++ [x]) (b ++ [y]) (if (y =? x)%Z then d00 else d00 + 1)).
    { destruct (Z.eqb_spec y x) as [->|]; [apply A_match; auto|rewrite Nat.add_1_r; apply A_sub; auto]. }
    destruct (Nat.min_dec (d10 + 1) (d01 + 1)) as [->| ->];
    match goal with |- align _ _ (Nat.min ?u ?v) => destruct (Nat.min_dec u v) as [->| ->] end; auto.
  - intros m H. inversion H as [E1 E2|a' b' x' n Ha E1 E2 E3|a' b' y' n Ha E1 E2 E3|a' b' x' y' n Ha E1 E2 E3|a' b' x' n Ha E1 E2 E3]; subst.
    + exfalso; destruct a; discriminate.
    + apply app_inj_tail in E1 as [<- <-]. specialize (M2 _ Ha). lia.
    + apply app_inj_tail in E2 as [<- <-]. specialize (M3 _ Ha). lia.
    + apply app_inj_tail in E1 as [<- <-]. apply app_inj_tail in E2 as [<- <-]. specialize (M1 _ Ha).
      destruct (y' =? x')%Z; lia.
    + apply app_inj_tail in E1 as [<- <-]. apply app_inj_tail in E2 as [<- <-]. specialize (M1 _ Ha).
      rewrite Z.eqb_refl. lia.
Qed.

(** ** The DP *)
(** Row: [cache] holds the distances of the non-empty prefixes of a (after pa) to b. *)
Inductive row (b : list Z) : list Z -> list Z -> list nat -> Prop :=
| R_nil pa : row b pa [] []
| R_cons pa x a c cs : mind (pa ++ [x]) b c -> row b (pa ++ [x]) a cs -> row b pa (x :: a) (c :: cs).

Lemma lev_inner_spec code b a : forall pa cache d0 result,
  row b pa a cache -> mind pa b d0 -> mind pa (b ++ [code]) result ->
  exists cs r, lev_inner code a cache d0 result = Some (cs, r) /\
    row (b ++ [code]) pa a cs /\ mind (pa ++ a) (b ++ [code]) r.
Proof.
  induction a as [|x a IH]; intros pa cache d0 result Hr H0 H1; cbn [lev_inner].
  - exists [], result. repeat split; try constructor; rewrite app_nil_r; apply H1.
  - inversion Hr as [|? ? ? c cs' Hc Hr']; subst.
    destruct (IH (pa ++ [x]) cs' c
      (Nat.min (Nat.min (result + 1) (c + 1)) (if (code =? x)%Z then d0 else d0 + 1)) Hr' Hc) as (cs & r & E & Hrow & Hm).
    { rewrite (Nat.min_comm (result + 1)). apply mind_step; auto. }
    rewrite E. cbn [obind]. eexists _, r; split; [reflexivity|]. rewrite <- app_assoc in Hm. split; [|exact Hm].
    constructor; auto. rewrite (Nat.min_comm (result + 1)). apply mind_step; auto.
Qed.


(** The row starts from result = ib instead of ib + 1; harmless, because the
    diagonal candidate is at most ib + 1. *)
Lemma lev_inner_first code b x a c cs :
  row b [] (x :: a) (c :: cs) ->
  exists cs' r, lev_inner code (x :: a) (c :: cs) (length b) (length b) = Some (cs', r) /\
    row (b ++ [code]) [] (x :: a) cs' /\ mind (x :: a) (b ++ [code]) r.
Proof.
  intros Hr.
  destruct (lev_inner_spec code b (x :: a) [] (c :: cs) (length b) (S (length b)) Hr (mind_nil_l b))
    as (cs' & r & E & H1 & H2).
  { pose proof (mind_nil_l (b ++ [code])) as H. rewrite app_length, Nat.add_1_r in H. exact H. }
  exists cs', r. split; [|auto]. rewrite <- E. cbn [lev_inner].
  assert (Nat.min (Nat.min (length b + 1) (c + 1)) (if (code =? x)%Z then length b else length b + 1)
        = Nat.min (Nat.min (S (length b) + 1) (c + 1)) (if (code =? x)%Z then length b else length b + 1)) as ->.
  { destruct (code =? x)%Z; lia. }
  reflexivity.
Qed.

Lemma lev_outer_spec x a b : forall pb cache result,
  row pb [] (x :: a) cache -> (b = [] -> mind (x :: a) pb result) ->
  exists r, lev_outer (x :: a) b cache (length pb) result = Some r /\ mind (x :: a) (pb ++ b) r.
Proof.
  induction b as [|code b IH]; intros pb cache result Hr Hm; cbn [lev_outer].
  - exists result; split; [reflexivity|]. rewrite app_nil_r. auto.
  - inversion Hr as [|? ? ? c cs Hc Hr' E1 E2 E3]; subst.
    destruct (lev_inner_first code pb x a c cs Hr) as (cs' & r & E & Hrow & Hm').
    rewrite E. cbn [obind].
    destruct (IH (pb ++ [code]) cs' r Hrow (fun _ => Hm')) as (r' & E' & Hm2).
    exists r'. rewrite app_length, Nat.add_comm in E'. cbn [length Nat.add] in E'.
    rewrite Nat.add_1_r. split; [exact E'|]. rewrite <- app_assoc in Hm2. exact Hm2.
Qed.

Lemma row0 a : forall pa, row [] pa a (seq (S (length pa)) (length a)).
Proof.
  induction a as [|x a IH]; intros pa; cbn; constructor.
  - pose proof (mind_nil_r (pa ++ [x])) as H. rewrite app_length, Nat.add_1_r in H. exact H.
  - pose proof (IH (pa ++ [x])) as H. rewrite app_length, Nat.add_1_r in H. exact H.
Qed.

Lemma lev_NM_spec a b : exists n, lev_NM a b = Some n /\ mind a b n.
Proof.
  unfold lev_NM. destruct a as [|x a]; [eexists; split; [reflexivity|apply mind_nil_l]|].
  destruct b as [|y b]; [eexists; split; [reflexivity|apply mind_nil_r]|].
  destruct (lev_outer_spec x a (y :: b) [] (seq 1 (length (x :: a))) 0) as (r & E & H).
  - apply (row0 (x :: a) []).
  - discriminate.
  - exists r; auto.
Qed.

(** ** Trimming *)
Lemma mind_snoc a b x n : mind a b n -> mind (a ++ [x]) (b ++ [x]) n.
Proof.
  intros [H1 H2]. split; [apply A_match; auto|].
  intros m H. inversion H as [E1 E2|a' b' x' k Ha E1 E2 E3|a' b' y' k Ha E1 E2 E3|a' b' x' y' k Ha E1 E2 E3|a' b' x' k Ha E1 E2 E3]; subst.
  - exfalso; destruct a; discriminate.
  - apply app_inj_tail in E1 as [<- <-].
    destruct (align_del _ _ _ Ha b [] x' eq_refl) as (q & Hq & Hal). rewrite app_nil_r in Hal.
    specialize (H2 _ Hal). lia.
  - apply app_inj_tail in E2 as [<- <-]. apply align_sym in Ha.
    destruct (align_del _ _ _ Ha a [] y' eq_refl) as (q & Hq & Hal). rewrite app_nil_r in Hal.
    apply align_sym in Hal. specialize (H2 _ Hal). lia.
  - apply app_inj_tail in E1 as [<- ->]. apply app_inj_tail in E2 as [<- _]. specialize (H2 _ Ha). lia.
  - apply app_inj_tail in E1 as [<- ->]. apply app_inj_tail in E2 as [<- _]. auto.
Qed.

Lemma mind_suffix a b s n : mind a b n -> mind (a ++ s) (b ++ s) n.
Proof.
  revert a b; induction s as [|x s IH]; intros a b H; [rewrite !app_nil_r; auto|].
  change (x :: s) with ([x] ++ s). rewrite !app_assoc. apply IH, mind_snoc, H.
Qed.

Lemma edits_rev n a b : edits n a b -> edits n (rev a) (rev b).
Proof.
  induction 1; econstructor; eauto.
  match goal with E : edit1 _ _ |- _ => inversion E; subst end;
    rewrite !rev_app_distr; cbn; rewrite <- ?app_assoc; cbn; constructor.
Qed.

Lemma dist_rev a b n : is_edit_distance a b n -> is_edit_distance (rev a) (rev b) n.
Proof.
  intros [H1 H2]; split; [apply edits_rev; auto|].
  intros m H. apply H2. apply edits_rev in H. rewrite !rev_involutive in H. exact H.
Qed.

Lemma dist_prefix p a b n : is_edit_distance a b n -> is_edit_distance (p ++ a) (p ++ b) n.
Proof.
  intros H. apply dist_rev, mind_iff in H. apply (mind_suffix _ _ (rev p)), mind_iff, dist_rev in H.
  rewrite !rev_app_distr, !rev_involutive in H. exact H.
Qed.

Lemma common_prefix_spec a : forall b, firstn (common_prefix a b) a = firstn (common_prefix a b) b.
Proof.
  induction a as [|x a IH]; intros [|y b]; cbn; try reflexivity.
  destruct (Z.eqb_spec x y) as [->|]; cbn; [|reflexivity]. f_equal; apply IH.
Qed.

Lemma trim_suffix_spec fuel a b : forall ea eb,
  ea <= length a -> eb <= length b -> ea < fuel -> skipn ea a = skipn eb b ->
  exists ea' eb', trim_suffix fuel a b ea eb = Some (ea', eb') /\
    ea' <= length a /\ eb' <= length b /\ skipn ea' a = skipn eb' b.
Proof.
  induction fuel as [|f IH]; intros ea eb Ha Hb Hf Hs; [lia|]. cbn [trim_suffix].
  destruct (Nat.eqb_spec ea 0); destruct (Nat.eqb_spec eb 0); cbn [negb andb]; eauto 8.
  destruct (nth_error_ex a (ea - 1) ltac:(lia)) as [x Hx].
  destruct (nth_error_ex b (eb - 1) ltac:(lia)) as [y Hy].
  rewrite Hx, Hy. cbn [obind]. destruct (Z.eqb_spec x y) as [->|]; cbn [negb]; [|eauto 8].
  apply IH; try lia.
  rewrite (skipn_nth_error_cons _ _ _ Hx), (skipn_nth_error_cons _ _ _ Hy).
  replace (S (ea - 1)) with ea by lia. replace (S (eb - 1)) with eb by lia. congruence.
Qed.

Lemma levenshtein_spec a b : exists n, levenshtein a b = Some n /\ is_edit_distance a b n.
Proof.
  unfold levenshtein. set (p := common_prefix a b).
  destruct (trim_suffix_spec (S (length (skipn p a))) (skipn p a) (skipn p b)
      (length (skipn p a)) (length (skipn p b))) as (ea & eb & E & Ha & Hb & Hs); try lia.
  { rewrite !skipn_all. reflexivity. }
  rewrite E. cbn [obind].
  destruct (lev_NM_spec (firstn ea (skipn p a)) (firstn eb (skipn p b))) as (n & En & Hn).
  exists n; split; auto.
  apply (mind_suffix _ _ (skipn ea (skipn p a))) in Hn. rewrite Hs in Hn at 2.
  rewrite !firstn_skipn in Hn. apply mind_iff, (dist_prefix (firstn p a)) in Hn.
  unfold p in Hn at 3. rewrite common_prefix_spec in Hn. fold p in Hn. rewrite !firstn_skipn in Hn. exact Hn.
Qed.

Lemma edits_sym n a b : edits n a b -> edits n b a.
Proof.
  induction 1; [constructor|]. eapply edits_cons_l; eauto.
  match goal with E : edit1 _ _ |- _ => inversion E; subst end; constructor.
Qed.

Lemma levenshtein_laws_proof a b :
  levenshtein a b = levenshtein b a /\ (levenshtein a b = Some 0 <-> a = b).
Proof.
  destruct (levenshtein_spec a b) as (n & E & H1 & H2).
  destruct (levenshtein_spec b a) as (m & E' & H1' & H2').
  assert (n = m) as ->. { apply Nat.le_antisymm; [apply H2|apply H2']; apply edits_sym; auto. }
  split; [congruence|]. rewrite E. split.
  - intros [= ->]. inversion H1; auto.
  - intros ->. f_equal. pose proof (H2 0 (Es_nil b)). lia.
Qed.
