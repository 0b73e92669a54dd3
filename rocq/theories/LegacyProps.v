(** C44: legacy equality and ordering of vecs / views, and the legacy finders. *)
From Verif Require Import LegacySpec CommonLemmas.
Open Scope Z_scope.

Local Lemma bytes_length M a n : length (bytes M a n) = n.
Proof. revert a; induction n as [|n IH]; intros a; cbn; auto. Qed.
Local Lemma bytes_ext M a b n :
  bytes M a n = bytes M b n <-> forall i, (i < n)%nat -> M (a + Z.of_nat i) = M (b + Z.of_nat i).
Proof.
  revert a b; induction n as [|n IH]; intros a b; cbn [bytes].
  - split; [intros _ i Hi; lia|reflexivity].
  - split.
    + intros H i Hi. injection H as H0 H1. destruct i as [|i].
      * rewrite !Z.add_0_r. exact H0.
      * rewrite !Nat2Z.inj_succ, <- !Z.add_succ_comm. apply (proj1 (IH _ _) H1). lia.
    + intros H. f_equal.
      * specialize (H 0%nat ltac:(lia)). rewrite !Z.add_0_r in H. exact H.
      * apply IH. intros i Hi. specialize (H (S i) ltac:(lia)).
        rewrite !Nat2Z.inj_succ, <- !Z.add_succ_comm in H. exact H.
Qed.

(** Exactly what operator== decides, for every element width and any aliasing:
    same address, or same element count and equal FIRST [size] BYTES. *)
Theorem legacy_eq_decides :
  forall mc M a b, memcmp_ok mc ->
    legacy_eq mc M a b = true <->
    (lv_addr a = lv_addr b \/ (lv_size a = lv_size b /\ bytes M (lv_addr a) (lv_size a) = bytes M (lv_addr b) (lv_size a))).
Proof.
  intros mc M a b K. unfold legacy_eq. destruct (K M (lv_addr a) (lv_addr b) (lv_size a)) as (K0 & _).
  destruct (Z.eqb_spec (lv_addr a) (lv_addr b)) as [E|E]; cbn [orb].
  { split; [auto|reflexivity]. }
  destruct (Nat.eqb_spec (lv_size a) (lv_size b)) as [S|S]; cbn.
  - destruct (Nat.eqb_spec (lv_size a) 0) as [Z|Z]; cbn.
    + split; [|reflexivity]. intros _. right. split; [exact S|rewrite Z; reflexivity].
    + rewrite Z.eqb_eq, K0. tauto.
  - split; [discriminate|]. intros [H|[H _]]; contradiction.
Qed.
Print Assumptions legacy_eq_decides.

(** Equal contents always compare equal. *)
Theorem legacy_eq_complete :
  forall mc M esz a b, memcmp_ok mc -> (1 <= esz)%nat ->
    same_elements M esz a b -> legacy_eq mc M a b = true.
Proof.
  intros mc M esz a b K He (S & H). apply legacy_eq_decides; [exact K|]. right. split; [exact S|].
  apply bytes_ext. intros i Hi.
  set (q := (i / esz)%nat). set (r := (i mod esz)%nat).
  assert (E : i = (q * esz + r)%nat) by (unfold q, r; rewrite Nat.mul_comm; apply Nat.div_mod; lia).
  assert (Hr : (r < esz)%nat) by (apply Nat.mod_upper_bound; lia).
  assert (Hq : (q < lv_size a)%nat) by nia.
  specialize (H q Hq). unfold elem in H. apply bytes_ext with (i := r) in H; [|exact Hr].
  rewrite E, Nat2Z.inj_add, !Z.add_assoc. exact H.
Qed.
Print Assumptions legacy_eq_complete.

(** For byte elements, operator== is element-wise equality whenever the operands do
    not start at the same address with different lengths. *)
Theorem legacy_eq_bytes :
  forall mc M a b, memcmp_ok mc -> (lv_addr a <> lv_addr b \/ lv_size a = lv_size b) ->
    (legacy_eq mc M a b = true <-> same_elements M 1 a b) /\ (legacy_ne mc M a b = true <-> ~ same_elements M 1 a b).
Proof.
  intros mc M a b K D.
  assert (H : legacy_eq mc M a b = true <-> same_elements M 1 a b).
  { split; [|apply legacy_eq_complete; [exact K|lia]].
    rewrite legacy_eq_decides by exact K. intros H.
    assert (S : lv_size a = lv_size b) by tauto. split; [exact S|].
    intros i Hi. unfold elem. rewrite !Nat.mul_1_r. cbn [bytes]. f_equal.
    destruct H as [H|[_ H]]; [rewrite H; reflexivity|]. apply bytes_ext with (i := i) in H; auto. }
  split; [exact H|]. unfold legacy_ne. rewrite <- H. destruct (legacy_eq mc M a b); cbn; intuition congruence.
Qed.
Print Assumptions legacy_eq_bytes.

(** Findings: a view and a proper prefix of the same buffer compare equal, and so do
    two-byte elements that differ past the first half of the bytes - whatever memcmp. *)
Theorem legacy_eq_refuted :
  (forall mc M addr n k, memcmp_ok mc -> n <> k ->
     let a := {| lv_addr := addr; lv_size := n |} in let b := {| lv_addr := addr; lv_size := k |} in
     legacy_eq mc M a b = true /\ ~ same_elements M 1 a b) /\
  (exists M a b, (forall mc, memcmp_ok mc -> legacy_eq mc M a b = true) /\ ~ same_elements M 2 a b).
Proof.
  split.
  - intros mc M addr n k K N a b. split; [apply legacy_eq_decides; [exact K|left; reflexivity]|].
    intros (S & _). cbn in S. contradiction.
  - exists (fun x => if x =? 103 then 7 else 0), {| lv_addr := 100; lv_size := 2 |}, {| lv_addr := 200; lv_size := 2 |}.
    split.
    + intros mc K. apply legacy_eq_decides; [exact K|]. right. cbn. split; reflexivity.
    + intros (_ & H). specialize (H 1%nat ltac:(cbn; lia)). discriminate H.
Qed.
Print Assumptions legacy_eq_refuted.

(** ** Ordering *)
Local Lemma lex_irrefl a : ~ lex_lt a a.
Proof. induction a as [|x a IH]; intros H; inversion H; subst; [lia|auto]. Qed.
Local Lemma lex_asym a b : lex_lt a b -> lex_lt b a -> False.
Proof. induction 1; intros K; inversion K; subst; try lia; auto. Qed.
Local Lemma lex_total a b : lex_lt a b \/ a = b \/ lex_lt b a.
Proof.
  revert b; induction a as [|x a IH]; intros [|y b]; [auto|left; constructor|right; right; constructor|].
  destruct (Z.lt_trichotomy x y) as [L|[->|L]]; [left; constructor; auto| |right; right; constructor; auto].
  destruct (IH b) as [L|[->|L]]; [left; apply lex_tail; auto|auto|right; right; apply lex_tail; auto].
Qed.
Local Lemma lex_app_same p a b : lex_lt (p ++ a) (p ++ b) <-> lex_lt a b.
Proof.
  induction p as [|x p IH]; cbn; [tauto|]. rewrite <- IH. split; [|apply lex_tail].
  intros H. inversion H; subst; [lia|auto].
Qed.
Local Lemma lex_app_diff p q a b : length p = length q -> p <> q ->
  (lex_lt (p ++ a) (q ++ b) <-> lex_lt p q).
Proof.
  revert q; induction p as [|x p IH]; intros [|y q] L N; try discriminate; [congruence|].
  cbn in *. split; intros H; inversion H; subst; try (apply lex_head; assumption).
  - apply lex_tail. apply IH; [lia|congruence|auto].
  - apply lex_tail. apply IH; [lia|congruence|auto].
Qed.
Local Lemma bytes_app M a n k : bytes M a (n + k) = bytes M a n ++ bytes M (a + Z.of_nat n) k.
Proof.
  revert a; induction n as [|n IH]; intros a; cbn [bytes Nat.add app]; [rewrite Z.add_0_r; reflexivity|].
  f_equal. rewrite IH. f_equal. f_equal. lia.
Qed.

Local Lemma strcmp_sign mc M d0 s0 d1 s1 : memcmp_ok mc ->
  (legacy_strcmp mc M d0 s0 d1 s1 = 0 <-> bytes M d0 s0 = bytes M d1 s1) /\
  (legacy_strcmp mc M d0 s0 d1 s1 < 0 <-> lex_lt (bytes M d0 s0) (bytes M d1 s1)).
Proof.
  intros K. unfold legacy_strcmp.
  set (s := if (s0 <? s1)%nat then s0 else s1).
  assert (Hs : (s = Nat.min s0 s1)%nat) by (unfold s; destruct (Nat.ltb_spec s0 s1); lia).
  destruct (K M d0 d1 s) as (K0 & K1).
  assert (E0 : bytes M d0 s0 = bytes M d0 s ++ bytes M (d0 + Z.of_nat s) (s0 - s)) by (rewrite <- bytes_app; f_equal; lia).
  assert (E1 : bytes M d1 s1 = bytes M d1 s ++ bytes M (d1 + Z.of_nat s) (s1 - s)) by (rewrite <- bytes_app; f_equal; lia).
  rewrite E0, E1.
  destruct (Z.eqb_spec (mc M d0 d1 s) 0) as [C|C].
  - pose proof (proj1 K0 C) as E. rewrite E. rewrite lex_app_same. split.
    + split.
      * intros Z. assert (s0 - s = 0 /\ s1 - s = 0)%nat as [-> ->] by lia. reflexivity.
      * intros H. apply (f_equal (@length Z)) in H. rewrite !app_length, !bytes_length in H. lia.
    + destruct (Nat.lt_trichotomy s0 s1) as [L|[L|L]].
      * replace (s0 - s)%nat with 0%nat by lia. destruct (s1 - s)%nat eqn:X; [lia|]. cbn.
        split; [constructor|lia].
      * assert (s0 - s = 0 /\ s1 - s = 0)%nat as [-> ->] by lia. cbn. split; [lia|intros H; inversion H].
      * replace (s1 - s)%nat with 0%nat by lia. destruct (s0 - s)%nat eqn:X; [lia|]. cbn.
        split; [lia|intros H; inversion H].
  - assert (N : bytes M d0 s <> bytes M d1 s) by tauto. split.
    + split; [contradiction|]. intros H. exfalso. apply N.
      apply (f_equal (firstn s)) in H. rewrite !firstn_app, !bytes_length, Nat.sub_diag in H. cbn in H.
      rewrite !app_nil_r, !firstn_all2 in H by (rewrite bytes_length; lia). exact H.
    + rewrite lex_app_diff; [exact K1|rewrite !bytes_length; reflexivity|exact N].
Qed.

(** The four ordering operators are the lexicographic order on byte strings, for every
    memcmp the C standard allows and any aliasing. *)
Theorem legacy_order_is_lexicographic :
  forall mc M a b, memcmp_ok mc ->
    (legacy_lt mc M a b = true <-> lex_lt (str_of M a) (str_of M b)) /\
    (legacy_gt mc M a b = true <-> lex_lt (str_of M b) (str_of M a)) /\
    (legacy_le mc M a b = true <-> lex_lt (str_of M a) (str_of M b) \/ str_of M a = str_of M b) /\
    (legacy_ge mc M a b = true <-> lex_lt (str_of M b) (str_of M a) \/ str_of M a = str_of M b).
Proof.
  intros mc M a b K. unfold legacy_lt, legacy_gt, legacy_le, legacy_ge, str_of.
  destruct (strcmp_sign mc M (lv_addr a) (lv_size a) (lv_addr b) (lv_size b) K) as (Z0 & Z1).
  set (x := legacy_strcmp _ _ _ _ _ _) in *. clearbody x.
  pose proof (lex_total (bytes M (lv_addr a) (lv_size a)) (bytes M (lv_addr b) (lv_size b))) as T.
  pose proof (lex_asym (bytes M (lv_addr a) (lv_size a)) (bytes M (lv_addr b) (lv_size b))) as S.
  pose proof (lex_irrefl (bytes M (lv_addr b) (lv_size b))) as I.
  set (p := bytes M (lv_addr a) (lv_size a)) in *. set (q := bytes M (lv_addr b) (lv_size b)) in *.
  assert (P : 0 < x <-> lex_lt q p).
  { split.
    - intros L. destruct T as [T|[T|T]]; [apply Z1 in T; lia|apply Z0 in T; lia|exact T].
    - intros L. destruct (Z.lt_trichotomy x 0) as [C|[C|C]]; [apply Z1 in C; tauto| |exact C].
      apply Z0 in C. rewrite C in L. contradiction. }
  rewrite !Z.ltb_lt, !Z.leb_le. split; [exact Z1|]. split; [exact P|].
  split; [rewrite <- Z0, <- Z1; lia|rewrite <- Z0, <- P; lia].
Qed.
Print Assumptions legacy_order_is_lexicographic.

(** ... hence a total order: exactly one of <, equal contents, >. *)
Theorem legacy_order_total :
  forall mc M a b c, memcmp_ok mc ->
    (legacy_lt mc M a b = true \/ str_of M a = str_of M b \/ legacy_lt mc M b a = true) /\
    ~ (legacy_lt mc M a b = true /\ legacy_lt mc M b a = true) /\
    legacy_lt mc M a a = false /\
    (legacy_lt mc M a b = true -> legacy_lt mc M b c = true -> legacy_lt mc M a c = true).
Proof.
  intros mc M a b c K.
  assert (H : forall x y, legacy_lt mc M x y = true <-> lex_lt (str_of M x) (str_of M y))
    by (intros; apply legacy_order_is_lexicographic; exact K).
  rewrite !H. split; [apply lex_total|]. split; [intros [X Y]; exact (lex_asym _ _ X Y)|]. split.
  - destruct (legacy_lt mc M a a) eqn:E; [|reflexivity]. apply H in E. destruct (lex_irrefl _ E).
  - generalize (str_of M a) (str_of M b) (str_of M c). intros p q r L. revert r.
    induction L; intros r L2; inversion L2; subst; try (constructor; fail).
    + apply lex_head; lia.
    + apply lex_head; lia.
    + apply lex_head; lia.
    + apply lex_tail. auto.
Qed.
Print Assumptions legacy_order_total.

(** ** The finders *)
Local Lemma match_loop_spec h at_ n : (at_ + length n <= length h)%nat ->
  match_loop h at_ n = Some (if list_eq_dec Z.eq_dec (firstn (length n) (skipn at_ h)) n then true else false).
Proof.
  revert at_; induction n as [|c n IH]; intros at_ L; cbn [match_loop length firstn].
  - destruct (list_eq_dec _ _ _); [reflexivity|congruence].
  - cbn in L. destruct (nth_error_ex h at_ ltac:(lia)) as (d & D). rewrite D.
    rewrite (skipn_nth_error_cons _ _ _ D). cbn [firstn].
    destruct (Z.eqb_spec c d) as [->|N].
    + rewrite IH by lia. destruct (list_eq_dec Z.eq_dec (firstn (length n) (skipn (S at_) h)) n) as [E|E];
        destruct (list_eq_dec Z.eq_dec (d :: _) (d :: n)) as [E'|E']; congruence.
    + destruct (list_eq_dec _ _ _) as [E|E]; congruence.
Qed.

(** lmatch(h, n, start) tests whether n occurs at start, for every start (clamped into
    the haystack), and never reads outside the haystack. *)
Theorem lmatch_is_occurrence :
  forall h n start, exists b, lmatch h n start = Some b /\
    (b = true <-> occurs_at h n (Nat.min (Z.to_nat start) (length h))).
Proof.
  intros h n start. unfold lmatch.
  set (st := if 0 <=? start then start else 0).
  assert (H1 : st = Z.max 0 start) by (unfold st; destruct (Z.leb_spec 0 start); lia).
  set (st2 := if st <=? Z.of_nat (length h) then st else Z.of_nat (length h)).
  assert (H2 : st2 = Z.of_nat (Nat.min (Z.to_nat start) (length h)))
    by (unfold st2; destruct (Z.leb_spec st (Z.of_nat (length h))); lia).
  rewrite H2, Nat2Z.id. set (k := Nat.min (Z.to_nat start) (length h)).
  destruct (Z.ltb_spec (Z.of_nat (length h) - Z.of_nat k) (Z.of_nat (length n))) as [L|L].
  - exists false. split; [reflexivity|]. split; [discriminate|]. intros (_ & B). lia.
  - rewrite match_loop_spec by lia. eexists. split; [reflexivity|]. unfold occurs_at.
    destruct (list_eq_dec _ _ _) as [E|E]; split; try discriminate; try tauto. intros _. split; [exact E|lia].
Qed.
Print Assumptions lmatch_is_occurrence.

(** Finding: rmatch ("ends with") is broken: with the default start = 0 it starts
    comparing one past the end of the haystack, so every non-empty needle that is not
    longer than the haystack reads out of bounds. *)
Theorem rmatch_reads_past_the_end :
  forall h n, (1 <= length n <= length h)%nat -> rmatch h n 0 = None.
Proof.
  intros h n L. unfold rmatch. cbn [Z.leb]. destruct (Z.leb_spec 0 (Z.of_nat (length h))); [|lia].
  change (0 <=? 0) with true. cbv iota.
  destruct (Z.leb_spec 0 (Z.of_nat (length h))); [|lia].
  destruct (Z.ltb_spec (Z.of_nat (length h) - 0) (Z.of_nat (length n))); [lia|].
  destruct n as [|c n]; [cbn in L; lia|]. cbn [match_loop]. rewrite Z.sub_0_r, Nat2Z.id.
  destruct (nth_error h (length h)) eqn:E; [|reflexivity]. apply nth_error_lt in E. lia.
Qed.
Print Assumptions rmatch_reads_past_the_end.

(** lfind from a start inside the haystack: the least occurrence at or after start. *)
Theorem lfind_finds_the_first :
  forall mm h n start, memmem_ok mm -> 0 <= start <= Z.of_nat (length h) ->
    let r := lfind mm h n start in
    (r = -1 /\ forall j, (Z.to_nat start <= j)%nat -> ~ occurs_at h n j) \/
    (start <= r /\ occurs_at h n (Z.to_nat r) /\ forall j, (Z.to_nat start <= j < Z.to_nat r)%nat -> ~ occurs_at h n j).
Proof.
  intros mm h n start K Hs r. unfold r, lfind.
  assert (E : clamp0 start (Z.of_nat (length h)) = start)
    by (unfold clamp0; destruct (Z.ltb_spec 0 start); destruct (Z.ltb_spec start (Z.of_nat (length h))); destruct (Z.ltb_spec 0 (Z.of_nat (length h))); lia).
  rewrite E. set (a := Z.to_nat start). assert (Ea : start = Z.of_nat a) by lia.
  assert (Ha : (a <= length h)%nat) by lia. rewrite Ea.
  assert (OS : forall j, (a <= j)%nat -> occurs_at h n j -> occurs_at (skipn a h) n (j - a)).
  { intros j Hj (O1 & O2). split.
    - rewrite skipn_skipn_add. replace (a + (j - a))%nat with j by lia. exact O1.
    - rewrite skipn_length. lia. }
  specialize (K (skipn a h) n). destruct (mm (skipn a h) n) as [k|].
  - right. destruct K as ((K1 & K2) & K3). rewrite skipn_length in K2.
    split; [lia|]. replace (Z.to_nat (Z.of_nat a + Z.of_nat k)) with (a + k)%nat by lia. split.
    + split; [rewrite <- skipn_skipn_add; exact K1|lia].
    + intros j Hj O. apply (K3 (j - a)%nat); [lia|]. apply OS; [lia|exact O].
  - left. split; [reflexivity|]. intros j Hj O. apply (K (j - a)%nat), OS; [lia|exact O].
Qed.
Print Assumptions lfind_finds_the_first.

(** lfind between start and end: the least occurrence lying wholly inside [start, end).
    (end < start is outside the contract and runs off the haystack, [None].) *)
Theorem lfind_between_finds_the_first :
  forall mm h n start end_, memmem_ok mm -> 0 <= start <= end_ -> end_ <= Z.of_nat (length h) ->
    exists r, lfind_between mm h n start end_ = Some r /\
    ((r = -1 /\ forall j, (Z.to_nat start <= j)%nat -> (j + length n <= Z.to_nat end_)%nat -> ~ occurs_at h n j) \/
     (start <= r /\ r + Z.of_nat (length n) <= end_ /\ occurs_at h n (Z.to_nat r) /\
      forall j, (Z.to_nat start <= j < Z.to_nat r)%nat -> ~ occurs_at h n j)).
Proof.
  intros mm h n start end_ K Hs He. unfold lfind_between.
  assert (E : clamp0 start (Z.of_nat (length h)) = start)
    by (unfold clamp0; destruct (Z.ltb_spec 0 start); destruct (Z.ltb_spec start (Z.of_nat (length h))); destruct (Z.ltb_spec 0 (Z.of_nat (length h))); lia).
  rewrite E.
  assert (E2 : (let size := if Z.of_nat (length h) <? end_ then Z.of_nat (length h) else end_ in if 0 <? size then size else 0) = end_)
    by (cbv zeta; destruct (Z.ltb_spec (Z.of_nat (length h)) end_); destruct (Z.ltb_spec 0 end_); destruct (Z.ltb_spec 0 (Z.of_nat (length h))); lia).
  cbv zeta in E2 |- *. rewrite E2.
  destruct (Z.ltb_spec (end_ - start) 0); [lia|].
  set (a := Z.to_nat start). set (c := Z.to_nat (end_ - start)).
  assert (EN : forall j, occurs_at (firstn c (skipn a h)) n j <-> occurs_at h n (a + j) /\ (j + length n <= c)%nat).
  { intros j. unfold occurs_at. rewrite firstn_length, skipn_length.
    assert (F : (j + length n <= c)%nat -> firstn (length n) (skipn j (firstn c (skipn a h))) = firstn (length n) (skipn (a + j) h)).
    { intros L. rewrite skipn_firstn_comm, firstn_firstn, skipn_skipn_add. f_equal. lia. }
    split.
    - intros (O1 & O2). rewrite F in O1 by lia. repeat split; [exact O1|lia|lia].
    - intros ((O1 & O2) & O3). rewrite F by lia. split; [exact O1|lia]. }
  eexists. split; [reflexivity|].
  specialize (K (firstn c (skipn a h)) n). destruct (mm (firstn c (skipn a h)) n) as [k|].
  - right. destruct K as (K1 & K2). apply EN in K1 as (K1 & K3).
    replace (Z.to_nat (start + Z.of_nat k)) with (a + k)%nat by lia.
    split; [lia|]. split; [lia|]. split; [exact K1|].
    intros j Hj O. apply (K2 (j - a)%nat); [lia|]. apply EN.
    replace (a + (j - a))%nat with j by lia. split; [exact O|lia].
  - left. split; [reflexivity|]. intros j Hj Hb O. apply (K (j - a)%nat), EN.
    replace (a + (j - a))%nat with j by lia. split; [exact O|lia].
Qed.
Print Assumptions lfind_between_finds_the_first.

(** ** Non-vacuity: a memcmp and memory on which the theorems speak. *)
Definition ref_memcmp : memcmp_t := fun M a b n =>
  (fix go (p q : list Z) := match p, q with
     | x :: p, y :: q => if x =? y then go p q else x - y
     | _, _ => 0 end) (bytes M a n) (bytes M b n).
Example ref_memcmp_ok : memcmp_ok ref_memcmp.
Proof.
  intros M a b n. unfold ref_memcmp.
  assert (L : length (bytes M a n) = length (bytes M b n)) by (rewrite !bytes_length; reflexivity).
  revert L. generalize (bytes M a n) (bytes M b n). clear. intros p.
  induction p as [|x p IH]; intros [|y q] L; try discriminate.
  - split; [tauto|]. split; [lia|intros H; inversion H].
  - destruct (Z.eqb_spec x y) as [->|N].
    + destruct (IH q ltac:(cbn in L; lia)) as (I0 & I1). rewrite I0, I1. split.
      * split; [congruence|]. intros H. injection H. auto.
      * split; [apply lex_tail|]. intros H. inversion H; subst; [lia|auto].
    + split; [split; [lia|congruence]|]. split; [intros; apply lex_head; lia|].
      intros H. inversion H; subst; lia.
Qed.
Example legacy_case :
  let M := fun x => x mod 7 in
  let v a n := {| lv_addr := a; lv_size := n |} in
  legacy_eq ref_memcmp M (v 3 9%nat) (v 10 9%nat) = true /\
  legacy_eq ref_memcmp M (v 3 9%nat) (v 11 9%nat) = false /\
  legacy_lt ref_memcmp M (v 3 4%nat) (v 3 5%nat) = true /\
  lmatch [1; 2; 3; 2; 3] [2; 3] 3 = Some true /\ lmatch [1; 2; 3; 2; 3] [2; 3] 2 = Some false /\
  rmatch [1; 2; 3] [3] 0 = None.
Proof. vm_compute. repeat split. Qed.
