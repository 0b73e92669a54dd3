(** C16 and C17: lib/BitSet.fu is a finite set of non-negative ints, kept in one canonical form. *)
From Verif Require Import BitSetProofs.
Open Scope Z_scope.

(** ** C16: the operations are the set operations *)
Theorem add_inserts : forall d i, built d -> index i ->
  exists d' fresh, add d i = Some (d', fresh) /\ (fresh = true <-> ~ member d (Z.to_nat i)) /\
    forall j, member d' j <-> member d j \/ j = Z.to_nat i.
Proof.
  intros d i Hd Hi. destruct (built_inv d Hd) as [B L].
  destruct (add_in d i B L Hi) as (d' & E & _ & _ & M). exists d', (negb (mem d (Z.to_nat i))). split; [exact E|]. split.
  - rewrite member_mem. destruct (mem d (Z.to_nat i)); cbn; intuition congruence.
  - intros j. rewrite !member_mem, M, orb_true_iff, Nat.eqb_eq. reflexivity.
Qed.
Print Assumptions add_inserts.

Theorem remove_deletes : forall d i, built d -> index i ->
  exists d' was, remove d i = Some (d', was) /\ (was = true <-> member d (Z.to_nat i)) /\
    forall j, member d' j <-> member d j /\ j <> Z.to_nat i.
Proof.
  intros d i Hd Hi. destruct (built_inv d Hd) as [B L].
  destruct (remove_in d i B L Hi) as (d' & E & _ & _ & M). exists d', (mem d (Z.to_nat i)). split; [exact E|]. split.
  - rewrite member_mem. reflexivity.
  - intros j. rewrite !member_mem, M, andb_true_iff, negb_true_iff, Nat.eqb_neq. reflexivity.
Qed.
Print Assumptions remove_deletes.

Theorem has_is_membership : forall d i, index i ->
  exists r, has d i = Some r /\ (r = true <-> member d (Z.to_nat i)).
Proof. intros d i Hi. exists (mem d (Z.to_nat i)). rewrite has_in by auto. split; [reflexivity|]. rewrite member_mem. reflexivity. Qed.
Print Assumptions has_is_membership.

Theorem clear_empties : forall d d' i, built d -> index i ->
  (forall j, ~ member (clear d) j) /\
  (clear_from d i = Some d' -> forall j, member d' j <-> member d j /\ (j < Z.to_nat i)%nat) /\
  clear_from d i <> None.
Proof.
  intros d d' i Hd Hi. destruct (built_inv d Hd) as [B L]. split; [|split].
  - intros j (b & H & _). destruct (j / 8)%nat; discriminate.
  - intros E j. destruct (clear_from_in d i B Hi) as (d1 & E1 & _ & _ & M). rewrite E1 in E. injection E as <-.
    rewrite !member_mem, M, andb_true_iff, Nat.ltb_lt. reflexivity.
  - destruct (clear_from_in d i B Hi) as (d1 & -> & _). discriminate.
Qed.
Print Assumptions clear_empties.

Theorem union_and_difference : forall d o, built d -> built o ->
  (exists d', add_set d o = Some d' /\ forall j, member d' j <-> member d j \/ member o j) /\
  (exists d', remove_set d o = Some d' /\ forall j, member d' j <-> member d j /\ ~ member o j).
Proof.
  intros d o Hd Ho. destruct (built_inv d Hd) as [B L], (built_inv o Ho) as [B' L']. split.
  - destruct (add_set_in d o B L B' L') as (d' & E & _ & _ & M). exists d'. split; [exact E|].
    intros j. rewrite !member_mem, M, orb_true_iff. reflexivity.
  - destruct (remove_set_in d o B L B') as (d' & E & _ & _ & M). exists d'. split; [exact E|].
    intros j. rewrite !member_mem, M, andb_true_iff, negb_true_iff, not_true_iff_false. reflexivity.
Qed.
Print Assumptions union_and_difference.

Theorem negated_is_complement : forall d e, built d -> index e -> e + 7 < 2 ^ 31 ->
  exists d', negated d e = Some d' /\ forall j, member d' j <-> (j < Z.to_nat e)%nat /\ ~ member d j.
Proof.
  intros d e Hd He H7. destruct (built_inv d Hd) as [B L].
  destruct (negated_in d e B He H7) as (d' & E & _ & _ & M). exists d'. split; [exact E|].
  intros j. rewrite !member_mem, M, andb_true_iff, negb_true_iff, not_true_iff_false, Nat.ltb_lt. reflexivity.
Qed.
Print Assumptions negated_is_complement.

(** add_range(end) adds [0, end) to a set whose members are all below end; a set with a member in a
    later byte is rejected (grow cannot shrink). *)
Theorem add_range_fills : forall d e, built d -> index e -> e + 7 < 2 ^ 31 ->
  (forall j, member d j -> (j < Z.to_nat e)%nat) ->
  exists d', add_range d e = Some d' /\ forall j, member d' j <-> member d j \/ (j < Z.to_nat e)%nat.
Proof.
  intros d e Hd He H7 Hm. destruct (built_inv d Hd) as [B L].
  assert (Hl : len d <= Z.of_nat ((Z.to_nat e + 7) / 8)).
  { destruct L as [L|L]; [unfold len; lia|].
    destruct (Z.le_gt_cases (len d) (Z.of_nat ((Z.to_nat e + 7) / 8))) as [|Gt]; auto. exfalso.
    apply L. apply byte_ext; [apply B|split; lia|]. intros k Hk. rewrite Z.bits_0.
    destruct (Z.testbit (gb d (length d - 1)) k) eqn:T; [|reflexivity]. exfalso.
    specialize (Hm ((length d - 1) * 8 + Z.to_nat k)%nat).
    assert (Q : mem d ((length d - 1) * 8 + Z.to_nat k) = true).
    { unfold mem. destruct (byte_idx (length d - 1) (Z.to_nat k) ltac:(lia)) as [-> ->]. rewrite Z2Nat.id by lia. exact T. }
    rewrite <- member_mem in Q. apply Hm in Q.
    pose proof (Nat.div_mod (Z.to_nat e + 7) 8 ltac:(lia)). pose proof (Nat.mod_upper_bound (Z.to_nat e + 7) 8 ltac:(lia)).
    unfold len in Gt. lia. }
  destruct (add_range_in d e B L He H7 Hl) as (d' & E & _ & _ & M). exists d'. split; [exact E|].
  intros j. rewrite !member_mem, M, Nat.ltb_lt. rewrite <- member_mem. split; [tauto|]. intros [H|H]; auto.
Qed.
Print Assumptions add_range_fills.

(** Refuted in general: on a set with members at or above end, add_range traps, or drops those
    members when they share end's last byte. *)
Theorem add_range_refuted :
  (exists d, add_range d 9 = Some d /\ built d /\ exists d0, built d0 /\ member d0 15 /\ add_range d0 9 = Some d /\ ~ member d 15) /\
  (exists d0, built d0 /\ member d0 100 /\ add_range d0 9 = None).
Proof.
  assert (B1 : built [0; 128]) by (apply (b_add [] 15 [0; 128] true); [constructor|split; lia|reflexivity]).
  assert (B2 : built [255; 1]) by (apply (b_add_range [] 9 [255; 1]); [constructor|split; lia|reflexivity]).
  split.
  - exists [255; 1]. split; [reflexivity|]. split; [exact B2|]. exists [0; 128]. split; [exact B1|].
    split; [exists 128; split; reflexivity|]. split; [reflexivity|]. intros (b & H1 & H2). injection H1 as <-. discriminate.
  - destruct (add [] 100) as [[d r]|] eqn:E; [|discriminate]. exists d. split; [|split].
    + eapply b_add; [constructor| |exact E]. split; lia.
    + injection E as <- _. exists 16. split; reflexivity.
    + injection E as <- _. reflexivity.
Qed.
Print Assumptions add_range_refuted.

Theorem has_inter_is_intersection : forall a b, built a -> built b ->
  exists r, has_inter a b = Some r /\ (r = true <-> exists j, member a j /\ member b j).
Proof.
  intros a b Ha Hb. destruct (built_inv a Ha) as [B L]. destruct (has_inter_in a b B) as (r & E & H).
  exists r. split; [exact E|]. rewrite H. split; intros (j & H1 & H2); exists j; rewrite ?member_mem in *; auto.
Qed.
Print Assumptions has_inter_is_intersection.

(** has_missing(a, b): is a member of b missing from a?  Correct while a's bytes are no longer than
    b's, that is while a's largest member is in the same or an earlier byte than b's. *)
Theorem has_missing_finds : forall a b, built a -> built b ->
  (forall i, member a i -> exists j, member b j /\ (i / 8 <= j / 8)%nat) ->
  exists r, has_missing a b = Some r /\ (r = true <-> exists j, member b j /\ ~ member a j).
Proof.
  intros a b Ha Hb Hle. destruct (built_inv a Ha) as [B L], (built_inv b Hb) as [Bb Lb].
  assert (Hl : (length a <= length b)%nat).
  { destruct L as [L|L]; [lia|]. destruct (le_dec (length a) (length b)) as [|Gt]; auto. exfalso.
    apply L. apply byte_ext; [apply B|split; lia|]. intros k Hk. rewrite Z.bits_0.
    destruct (Z.testbit (gb a (length a - 1)) k) eqn:T; [|reflexivity]. exfalso.
    destruct (Hle ((length a - 1) * 8 + Z.to_nat k)%nat) as (j & Mj & Hj).
    { apply member_mem. unfold mem. destruct (byte_idx (length a - 1) (Z.to_nat k) ltac:(lia)) as [-> ->].
      rewrite Z2Nat.id by lia. exact T. }
    destruct (byte_idx (length a - 1) (Z.to_nat k) ltac:(lia)) as [E _]. rewrite E in Hj.
    destruct Mj as (x & Hx & _). assert (j / 8 < length b)%nat by (apply nth_error_Some; congruence). lia. }
  destruct (has_missing_in a b B Bb Lb Hl) as (r & E & H). exists r. split; [exact E|].
  rewrite H. split; intros (j & H1 & H2); exists j; rewrite ?member_mem in *; split; auto; try congruence.
  destruct (mem a j); [exfalso; auto|reflexivity].
Qed.
Print Assumptions has_missing_finds.

(** Refuted in general: with a larger member in a, and nothing missing, it reads past the end of b. *)
Theorem has_missing_refuted : exists a b, built a /\ built b /\ (forall j, member b j -> member a j) /\ has_missing a b = None.
Proof.
  exists [0; 1], []. split; [|split; [constructor|split; [|reflexivity]]].
  - apply (b_add [] 8 [0; 1] true); [constructor|split; lia|reflexivity].
  - intros j (x & H & _). destruct (j / 8)%nat; discriminate.
Qed.
Print Assumptions has_missing_refuted.

(** Negative indices never alias a member: they trap. *)
Theorem negative_indices_trap : forall d i, i < 0 ->
  has d i = None /\ add d i = None /\ remove d i = None /\ clear_from d i = None.
Proof. intros. auto using has_neg, add_neg, remove_neg, clear_from_neg. Qed.
Print Assumptions negative_indices_trap.

Theorem popcount_counts : forall d, built d ->
  NoDup (each d) /\ popcount d = Z.of_nat (length (each d)) /\
  forall i, In i (each d) <-> 0 <= i /\ member d (Z.to_nat i).
Proof.
  intros d Hd. destruct (built_inv d Hd) as [B L]. split; [|split].
  - assert (H : StronglySorted Z.lt (each d)) by (apply each_loop_sorted; lia).
    induction H; constructor; auto. intros I. rewrite Forall_forall in H0. specialize (H0 a I). lia.
  - unfold each. rewrite each_loop_len. apply popcount_sum. apply bytes_iff. exact B.
  - intros i. rewrite each_In, member_mem. reflexivity.
Qed.
Print Assumptions popcount_counts.

(** ** C17: one representation per set *)
Theorem built_is_canonical : forall d, built d -> canonical d.
Proof. intros d Hd. destruct (built_inv d Hd) as [B L]. apply canonical_iff. split; [apply bytes_iff; exact B|exact L]. Qed.
Print Assumptions built_is_canonical.

Theorem equal_iff_same_members : forall d d', built d -> built d' -> (d = d' <-> forall j, member d j <-> member d' j).
Proof.
  intros d d' Hd Hd'. split; [intros ->; reflexivity|]. intros H.
  apply canonical_eq; auto using built_is_canonical.
Qed.
Print Assumptions equal_iff_same_members.

(** [if (bitset)] is [_data.len != 0]. *)
Theorem empty_iff_no_members : forall d, built d -> (d = [] <-> forall j, ~ member d j).
Proof.
  intros d Hd. split.
  - intros -> j (b & H & _). destruct (j / 8)%nat; discriminate.
  - intros H. apply equal_iff_same_members; [auto|constructor|]. intros j. split; [intros M; destruct (H j M)|].
    intros (b & Hb & _). destruct (j / 8)%nat; discriminate.
Qed.
Print Assumptions empty_iff_no_members.

Theorem each_ascending : forall d, StronglySorted Z.lt (each d).
Proof. intros d. apply each_loop_sorted. lia. Qed.
Print Assumptions each_ascending.

(** ** Non-vacuity *)
Example bitset_example : exists d, built d /\ each d = [3; 9; 20] /\ popcount d = 3 /\ has d 9 = Some true /\ has d 10 = Some false.
Proof.
  assert (B1 : built [8]) by (apply (b_add [] 3 [8] true); [constructor|split; lia|reflexivity]).
  assert (B2 : built [8; 0; 16]) by (apply (b_add [8] 20 [8; 0; 16] true); [exact B1|split; lia|reflexivity]).
  exists [8; 2; 16]. split; [apply (b_add [8; 0; 16] 9 [8; 2; 16] true); [exact B2|split; lia|reflexivity]|]. repeat split.
Qed.
