(** Proofs about BitSetModel.v. *)
From Verif Require Import CommonLemmas WordsLemmas.
From Verif Require Export BitSetSpec.
Open Scope Z_scope.

(** ** Bytes and bits *)
Definition gb (d : list Z) (n : nat) : Z := nth n d 0.
Definition mem (d : list Z) (i : nat) : bool := Z.testbit (gb d (i / 8)) (Z.of_nat (i mod 8)).

Lemma gb_nth d n x : nth_error d n = Some x -> gb d n = x.
Proof. intros H. unfold gb. apply nth_error_nth with (d := 0) in H. exact H. Qed.
Lemma gb_out d n : (length d <= n)%nat -> gb d n = 0.
Proof. intros. apply nth_overflow. auto. Qed.
Lemma gb_in d n : (n < length d)%nat -> nth_error d n = Some (gb d n).
Proof. intros. unfold gb. apply nth_error_nth'. auto. Qed.

Lemma member_mem d i : member d i <-> mem d i = true.
Proof.
  unfold member, mem. split.
  - intros (b & H1 & H2). rewrite (gb_nth _ _ _ H1). exact H2.
  - intros H. destruct (lt_dec (i / 8) (length d)).
    + exists (gb d (i / 8)). split; [apply gb_in; auto|exact H].
    + rewrite gb_out in H by lia. rewrite Z.bits_0 in H. discriminate.
Qed.

Lemma gb_byte d n : Forall byte d -> byte (gb d n).
Proof.
  intros H. destruct (lt_dec n (length d)).
  - rewrite Forall_forall in H. apply H. apply nth_In. auto.
  - rewrite gb_out by lia. split; lia.
Qed.
Lemma byte_word x : byte x <-> word 8 x.
Proof. reflexivity. Qed.
Lemma bytes_gb d : (forall n, (n < length d)%nat -> byte (gb d n)) -> Forall byte d.
Proof.
  intros H. apply Forall_forall. intros x Hx. destruct (In_nth d x 0 Hx) as (n & Hn & <-). apply H. exact Hn.
Qed.

Lemma mask_testbit k i : 0 <= k < 8 -> 0 <= i -> Z.testbit (shl8 1 k) i = (i =? k).
Proof.
  intros Hk Hi. unfold shl8. rewrite wrap_testbit by lia. rewrite Z.shiftl_spec by lia.
  destruct (Z.eqb_spec i k).
  - subst. rewrite Z.sub_diag. destruct (Z.ltb_spec k 8); [reflexivity|lia].
  - destruct (Z.ltb_spec i 8); [|reflexivity].
    destruct (Z.ltb_spec i k); [rewrite Z.testbit_neg_r by lia; reflexivity|].
    cbn [andb]. replace 1 with (2 ^ 0) by reflexivity. rewrite Z.pow2_bits_false by lia. reflexivity.
Qed.
Lemma mask_byte k : byte (shl8 1 k).
Proof. apply byte_word. apply wrap_word. lia. Qed.
Lemma land_mask x k : 0 <= k < 8 -> (Z.land x (shl8 1 k) =? 0) = negb (Z.testbit x k).
Proof.
  intros Hk. destruct (Z.testbit x k) eqn:E; cbn.
  - apply Z.eqb_neq. intros H. assert (H1 : Z.testbit (Z.land x (shl8 1 k)) k = true).
    { rewrite Z.land_spec, mask_testbit by lia. rewrite E, Z.eqb_refl. reflexivity. }
    rewrite H, Z.bits_0 in H1. discriminate.
  - apply Z.eqb_eq. apply Z.bits_inj'. intros i Hi. rewrite Z.bits_0, Z.land_spec, mask_testbit by lia.
    destruct (Z.eqb_spec i k); [subst; rewrite E; reflexivity|apply andb_false_r].
Qed.
Lemma not8_testbit x i : 0 <= i < 8 -> Z.testbit (not8 x) i = negb (Z.testbit x i).
Proof.
  intros. unfold not8. rewrite Z.lxor_spec. replace 255 with (Z.ones 8) by reflexivity.
  rewrite Z.ones_spec_low by lia. apply xorb_true_r.
Qed.
Lemma not8_byte x : byte x -> byte (not8 x).
Proof. intros H. apply byte_word. apply lxor_word; [lia|exact H|]. unfold word. split; lia. Qed.

Lemma byte_ext a b : byte a -> byte b -> (forall i, 0 <= i < 8 -> Z.testbit a i = Z.testbit b i) -> a = b.
Proof. intros. apply (word_ext 8); auto; lia. Qed.

(** ** Indices *)
Lemma land_min idx : index idx -> Z.land idx (- 2 ^ 31) = 0.
Proof.
  intros [H1 H2]. replace (- 2 ^ 31) with (Z.lnot (Z.ones 31)) by reflexivity.
  rewrite <- Z.ldiff_land. rewrite Z.ldiff_ones_r by lia.
  rewrite Z.shiftr_div_pow2 by lia. rewrite Z.div_small by lia. reflexivity.
Qed.
Lemma bucket_index idx : index idx -> bucket_of idx = Z.of_nat (Z.to_nat idx / 8).
Proof.
  intros H. unfold bucket_of. rewrite land_min by auto. rewrite Z.lor_0_r.
  rewrite Z.shiftr_div_pow2 by lia. destruct H. rewrite Nat2Z.inj_div, Z2Nat.id by lia. reflexivity.
Qed.
Lemma bucket_neg idx : idx < 0 -> bucket_of idx < 0.
Proof.
  intros H. unfold bucket_of. apply Z.lor_neg. left. apply Z.shiftr_neg. auto.
Qed.
Lemma bit_index idx : index idx -> Z.land idx 7 = Z.of_nat (Z.to_nat idx mod 8).
Proof.
  intros [H1 H2]. replace 7 with (Z.ones 3) by reflexivity. rewrite Z.land_ones by lia.
  rewrite Nat2Z.inj_mod, Z2Nat.id by lia. reflexivity.
Qed.
Lemma bit_lt i : 0 <= Z.of_nat (i mod 8) < 8.
Proof. pose proof (Nat.mod_upper_bound i 8 ltac:(lia)). lia. Qed.

Lemma at_in d i : 0 <= i < len d -> at_ d i = Some (gb d (Z.to_nat i)).
Proof.
  intros H. unfold at_, len in *. destruct (Z.ltb_spec i 0); [lia|]. apply gb_in. lia.
Qed.
Lemma at_neg d i : i < 0 -> at_ d i = None.
Proof. intros. unfold at_. destruct (Z.ltb_spec i 0); [reflexivity|lia]. Qed.
Lemma put_in d i x : 0 <= i < len d ->
  exists d', put d i x = Some d' /\ length d' = length d /\
    forall n, gb d' n = if (n =? Z.to_nat i)%nat then x else gb d n.
Proof.
  intros H. unfold put, len in *. destruct (Z.ltb_spec i 0); [lia|].
  destruct (upd_total d (Z.to_nat i) x ltac:(lia)) as (d' & E). rewrite E. exists d'. split; [reflexivity|].
  destruct (upd_Some _ _ _ _ E) as (H1 & L1 & N1 & N2). split; [exact L1|]. intros n.
  destruct (Nat.eqb_spec n (Z.to_nat i)) as [->|Hn]; [apply gb_nth; exact N1|].
  destruct (lt_dec n (length d)).
  - apply gb_nth. rewrite N2 by auto. apply gb_in. auto.
  - rewrite !gb_out by lia. reflexivity.
Qed.

Lemma gb_app_zeros d k n : gb (d ++ repeat 0 k) n = gb d n.
Proof.
  unfold gb. destruct (lt_dec n (length d)); [apply app_nth1; auto|].
  rewrite app_nth2 by lia. rewrite nth_repeat. symmetry. apply nth_overflow. lia.
Qed.
Lemma gb_firstn d k n : gb (firstn k d) n = if (n <? k)%nat then gb d n else 0.
Proof.
  destruct (Nat.ltb_spec n k).
  - destruct (lt_dec n (length d)).
    + apply gb_nth. rewrite nth_error_firstn by lia. apply gb_in. auto.
    + rewrite !gb_out; auto; rewrite ?firstn_length; lia.
  - apply gb_out. rewrite firstn_length. lia.
Qed.
Lemma grow_in d n : len d <= n ->
  exists d', grow d n = Some d' /\ len d' = n /\ forall m, gb d' m = gb d m.
Proof.
  intros H. unfold grow. destruct (Z.ltb_spec n (len d)); [lia|].
  eexists. split; [reflexivity|]. split.
  - unfold len in *. rewrite app_length, repeat_length. lia.
  - intros. apply gb_app_zeros.
Qed.
Lemma resize_in d n : 0 <= n ->
  exists d', resize d n = Some d' /\ len d' = n /\ forall m, gb d' m = if (m <? Z.to_nat n)%nat then gb d m else 0.
Proof.
  intros H. unfold resize. destruct (Z.ltb_spec n 0); [lia|].
  eexists. split; [reflexivity|]. split.
  - unfold len. rewrite app_length, repeat_length, firstn_length. lia.
  - intros. rewrite gb_app_zeros. apply gb_firstn.
Qed.

(** Equality of the bytes of two sets is equality of their members. *)
Lemma gb_mem d d' : Forall byte d -> Forall byte d' -> (forall j, mem d j = mem d' j) -> forall n, gb d n = gb d' n.
Proof.
  intros B B' H n. apply byte_ext; try (apply gb_byte; auto). intros i Hi.
  specialize (H (n * 8 + Z.to_nat i)%nat). unfold mem in H.
  replace ((n * 8 + Z.to_nat i) / 8)%nat with n in H
    by (rewrite Nat.div_add_l by lia; rewrite Nat.div_small by lia; lia).
  replace ((n * 8 + Z.to_nat i) mod 8)%nat with (Z.to_nat i) in H
    by (rewrite Nat.add_comm, Nat.mod_add by lia; rewrite Nat.mod_small by lia; reflexivity).
  rewrite Z2Nat.id in H by lia. exact H.
Qed.

(** ** Canonical form *)
Definition last_nz (d : list Z) := length d = O \/ gb d (length d - 1) <> 0.
Lemma canonical_iff d : canonical d <-> Forall byte d /\ last_nz d.
Proof.
  unfold canonical, last_nz. split; intros [B H]; split; auto.
  - destruct H as [->|(d' & x & -> & Hx)]; [left; reflexivity|right].
    unfold gb. rewrite app_length. cbn [length]. rewrite app_nth2 by lia.
    replace (length d' + 1 - 1 - length d')%nat with O by lia. exact Hx.
  - destruct d as [|a d0 _] using rev_ind; [left; reflexivity|].
    right; exists d0, a; split; [reflexivity|].
    destruct H as [H|H]; [rewrite app_length in H; cbn in H; lia|].
    unfold gb in H; rewrite app_length in H; cbn [length] in H; rewrite app_nth2 in H by lia.
    replace (length d0 + 1 - 1 - length d0)%nat with O in H by lia; exact H.
Qed.

Lemma same_gb_len d d' : last_nz d -> (forall n, gb d n = gb d' n) -> (length d <= length d')%nat.
Proof.
  intros [L|L] H; [lia|]. destruct (le_dec (length d) (length d')); auto.
  exfalso. apply L. rewrite H. apply gb_out. lia.
Qed.
Lemma gb_ext d d' : length d = length d' -> (forall n, gb d n = gb d' n) -> d = d'.
Proof. intros L H. apply (nth_ext d d' 0 0 L). intros. apply H. Qed.

Lemma canonical_eq d d' : canonical d -> canonical d' -> (forall j, member d j <-> member d' j) -> d = d'.
Proof.
  intros C C' H. apply canonical_iff in C, C'. destruct C as [B L], C' as [B' L'].
  assert (G : forall n, gb d n = gb d' n).
  { apply gb_mem; auto. intros j. specialize (H j). rewrite !member_mem in H.
    destruct (mem d j), (mem d' j); intuition congruence. }
  apply gb_ext; auto. pose proof (same_gb_len d d' L G).
  pose proof (same_gb_len d' d L' (fun n => eq_sym (G n))). lia.
Qed.

(** ** shrink_to_fit *)
Lemma shrink_loop_in e d : (e <= length d)%nat -> (forall n, (e <= n)%nat -> gb d n = 0) ->
  exists d', shrink_loop e d = Some d' /\ last_nz d' /\ (forall n, gb d' n = gb d n) /\ (length d' <= e)%nat.
Proof.
  induction e; intros He Hz; cbn [shrink_loop].
  - exists []. split; [reflexivity|]. split; [left; reflexivity|]. split; [|cbn; lia].
    intros n. rewrite Hz by lia. apply gb_out. cbn. lia.
  - rewrite gb_in by lia. cbn [obind]. destruct (Z.eqb_spec (gb d e) 0).
    + destruct IHe as (d' & E & L & G & Le); [lia| |].
      * intros n Hn. destruct (Nat.eq_dec n e); [subst; auto|apply Hz; lia].
      * exists d'. refine (conj E (conj L (conj G _))). lia.
    + exists (firstn (S e) d). split; [reflexivity|].
      assert (Ln : length (firstn (S e) d) = S e) by (rewrite firstn_length; lia).
      split; [right; rewrite Ln, gb_firstn; replace (S e - 1)%nat with e by lia;
              destruct (Nat.ltb_spec e (S e)); [auto|lia]|].
      split; [|lia]. intros m. rewrite gb_firstn. destruct (Nat.ltb_spec m (S e)); [reflexivity|].
      symmetry. apply Hz. lia.
Qed.
Lemma shrink_in d : exists d', shrink_to_fit d = Some d' /\ last_nz d' /\ (forall n, gb d' n = gb d n) /\ (length d' <= length d)%nat.
Proof. apply shrink_loop_in; [lia|]. intros. apply gb_out. lia. Qed.

(** What every operation preserves: bytes below 256 everywhere. *)
Definition bytes (d : list Z) := forall n, byte (gb d n).
Lemma bytes_iff d : bytes d <-> Forall byte d.
Proof. split; intros H; [apply bytes_gb; intros; apply H|intro; apply gb_byte; auto]. Qed.
Lemma mem_gb d d' : (forall n, gb d n = gb d' n) -> forall j, mem d j = mem d' j.
Proof. intros H j. unfold mem. rewrite H. reflexivity. Qed.

(** ** add / has / remove *)
Lemma div_mod8_eq i j : (i / 8 = j / 8 -> i mod 8 = j mod 8 -> i = j)%nat.
Proof. intros. rewrite (Nat.div_mod i 8), (Nat.div_mod j 8) by lia. congruence. Qed.

Lemma mem_set_byte d d' b x (f : nat -> bool) :
  (forall n, gb d' n = if (n =? b)%nat then x else gb d n) ->
  (forall k, (k < 8)%nat -> Z.testbit x (Z.of_nat k) = f k) ->
  forall j, mem d' j = if (j / 8 =? b)%nat then f (j mod 8)%nat else mem d j.
Proof.
  intros G F j. unfold mem. rewrite G. destruct (Nat.eqb_spec (j / 8) b); [|reflexivity].
  apply F. apply Nat.mod_upper_bound. lia.
Qed.

Lemma has_in d idx : index idx -> has d idx = Some (mem d (Z.to_nat idx)).
Proof.
  intros H. unfold has. rewrite bucket_index by auto. unfold mask_of. rewrite bit_index by auto.
  destruct (Z.ltb_spec (Z.of_nat (Z.to_nat idx / 8)) (len d)).
  - rewrite at_in by (unfold len in *; lia). cbn [obind]. rewrite land_mask by apply bit_lt.
    rewrite negb_involutive, Nat2Z.id. reflexivity.
  - unfold mem. rewrite gb_out by (unfold len in *; lia). rewrite Z.bits_0. reflexivity.
Qed.

Lemma add_in d idx : bytes d -> last_nz d -> index idx ->
  exists d', add d idx = Some (d', negb (mem d (Z.to_nat idx))) /\ bytes d' /\ last_nz d' /\
    forall j, mem d' j = mem d j || (j =? Z.to_nat idx)%nat.
Proof.
  intros B L H. unfold add. rewrite bucket_index by auto. unfold mask_of. rewrite bit_index by auto.
  set (i := Z.to_nat idx). set (b := (i / 8)%nat).
  assert (G : exists d1, (if len d <=? Z.of_nat b then grow d (Z.of_nat b + 1) else Some d) = Some d1 /\
    (forall n, gb d1 n = gb d n) /\ Z.of_nat b < len d1 /\ (length d1 = S b \/ d1 = d)).
  { destruct (Z.leb_spec (len d) (Z.of_nat b)).
    - destruct (grow_in d (Z.of_nat b + 1) ltac:(lia)) as (d1 & E & L1 & G1). exists d1. repeat split; auto.
      lia. left. unfold len in L1. lia.
    - exists d. repeat split; auto. }
  destruct G as (d1 & -> & G1 & L1 & L2). cbn [obind].
  rewrite at_in by lia. cbn [obind].
  destruct (put_in d1 (Z.of_nat b) (Z.lor (gb d1 (Z.to_nat (Z.of_nat b))) (shl8 1 (Z.of_nat (i mod 8)))) ltac:(lia))
    as (d2 & -> & L3 & G3). cbn [obind]. rewrite Nat2Z.id in G3.
  exists d2. rewrite land_mask by apply bit_lt. rewrite Nat2Z.id, G1. split; [reflexivity|]. rewrite G1 in G3.
  assert (B2 : bytes d2).
  { intros n. rewrite G3. destruct (n =? b)%nat; [|rewrite G1; apply B].
    apply byte_word. apply lor_word; [lia|apply B|apply mask_byte]. }
  assert (M : forall j, mem d2 j = mem d j || (j =? i)%nat).
  { intros j. rewrite (mem_set_byte d1 d2 b _ (fun k => Z.testbit (gb d b) (Z.of_nat k) || (k =? i mod 8)%nat) G3).
    - unfold mem. rewrite G1. fold b. destruct (Nat.eqb_spec (j / 8) b) as [E|E].
      + rewrite E. f_equal. destruct (Nat.eqb_spec (j mod 8) (i mod 8)), (Nat.eqb_spec j i); try reflexivity.
        * exfalso. apply n. apply div_mod8_eq; auto.
        * subst j. congruence.
      + destruct (Nat.eqb_spec j i); [subst; exfalso; apply E; reflexivity|rewrite orb_false_r; reflexivity].
    - intros k Hk. rewrite Z.lor_spec, mask_testbit by (try apply bit_lt; lia).
      f_equal. destruct (Nat.eqb_spec k (i mod 8)); destruct (Z.eqb_spec (Z.of_nat k) (Z.of_nat (i mod 8))); lia. }
  split; [exact B2|]. split; [|exact M].
  right. rewrite L3. destruct L2 as [L2|L2].
  - rewrite L2. replace (S b - 1)%nat with b by lia. intros Z0.
    specialize (M i). unfold mem in M at 1. fold b in M. rewrite Z0, Z.bits_0, Nat.eqb_refl, orb_true_r in M. discriminate.
  - rewrite L2. rewrite G3. destruct (Nat.eqb_spec (length d - 1) b) as [E|E].
    + intros Z0. apply Z.lor_eq_0_iff in Z0. destruct Z0 as [_ Z0].
      pose proof (mask_testbit (Z.of_nat (i mod 8)) (Z.of_nat (i mod 8)) (bit_lt i) ltac:(lia)) as Q.
      rewrite Z0, Z.bits_0, Z.eqb_refl in Q. discriminate.
    + rewrite G1. subst d1. destruct L as [L|L]; [unfold len in L1; lia|exact L].
Qed.

Lemma remove_in d idx : bytes d -> last_nz d -> index idx ->
  exists d', remove d idx = Some (d', mem d (Z.to_nat idx)) /\ bytes d' /\ last_nz d' /\
    forall j, mem d' j = mem d j && negb (j =? Z.to_nat idx)%nat.
Proof.
  intros B L H. unfold remove. rewrite bucket_index by auto. unfold mask_of. rewrite bit_index by auto.
  set (i := Z.to_nat idx). set (b := (i / 8)%nat).
  destruct (Z.ltb_spec (Z.of_nat b) (len d)) as [Hb|Hb].
  2:{ exists d. assert (Q : mem d i = false) by (unfold mem; rewrite gb_out, Z.bits_0; [reflexivity|unfold len in Hb; fold b; lia]).
      rewrite Q. refine (conj eq_refl (conj B (conj L _))). intros j. destruct (Nat.eqb_spec j i); [subst; rewrite Q; reflexivity|].
      rewrite andb_true_r. reflexivity. }
  rewrite at_in by lia. cbn [obind]. rewrite Nat2Z.id. rewrite land_mask by apply bit_lt. rewrite negb_involutive.
  change (Z.testbit (gb d b) (Z.of_nat (i mod 8))) with (mem d i).
  destruct (mem d i) eqn:Q.
  2:{ exists d. refine (conj eq_refl (conj B (conj L _))). intros j. destruct (Nat.eqb_spec j i); [subst; rewrite Q; reflexivity|].
      rewrite andb_true_r. reflexivity. }
  destruct (put_in d (Z.of_nat b) (Z.land (gb d b) (not8 (shl8 1 (Z.of_nat (i mod 8))))) ltac:(lia)) as (d1 & -> & L1 & G1).
  cbn [obind]. rewrite Nat2Z.id in G1.
  assert (B1 : bytes d1).
  { intros n. rewrite G1. destruct (n =? b)%nat; [|apply B]. apply byte_word, land_word_l; [lia|apply B]. }
  assert (M1 : forall j, mem d1 j = mem d j && negb (j =? i)%nat).
  { intros j. rewrite (mem_set_byte d d1 b _ (fun k => Z.testbit (gb d b) (Z.of_nat k) && negb (k =? i mod 8)%nat) G1).
    - unfold mem. destruct (Nat.eqb_spec (j / 8) b) as [E|E].
      + rewrite E. f_equal. f_equal. destruct (Nat.eqb_spec (j mod 8) (i mod 8)), (Nat.eqb_spec j i); try reflexivity.
        * exfalso. apply n. apply div_mod8_eq; auto.
        * subst j. congruence.
      + destruct (Nat.eqb_spec j i); [subst; exfalso; apply E; reflexivity|rewrite andb_true_r; reflexivity].
    - intros k Hk. rewrite Z.land_spec, not8_testbit, mask_testbit by (try apply bit_lt; lia).
      f_equal. f_equal. destruct (Nat.eqb_spec k (i mod 8)); destruct (Z.eqb_spec (Z.of_nat k) (Z.of_nat (i mod 8))); lia. }
  destruct ((gb d b =? shl8 1 (Z.of_nat (i mod 8))) && (len d1 =? Z.of_nat b + 1)) eqn:T.
  - destruct (shrink_in d1) as (d2 & -> & L2 & G2 & _). cbn [obind]. exists d2. split; [reflexivity|].
    split; [intro n; rewrite G2; apply B1|]. split; [exact L2|].
    intros j. rewrite (mem_gb _ _ G2). apply M1.
  - cbn [obind]. exists d1. refine (conj eq_refl (conj B1 (conj _ M1))).
    destruct L as [L|L]; [left; lia|]. right. rewrite L1, G1.
    destruct (Nat.eqb_spec (length d - 1) b) as [E|E]; [|exact L].
    apply andb_false_iff in T. destruct T as [T|T].
    2:{ apply Z.eqb_neq in T. unfold len in T, Hb. lia. }
    apply Z.eqb_neq in T. intros Z0. apply T. apply byte_ext; [apply B|apply mask_byte|].
    intros k Hk. rewrite mask_testbit by (try apply bit_lt; lia).
    destruct (Z.eqb_spec k (Z.of_nat (i mod 8))) as [->|Nk]; [exact Q|].
    assert (W : Z.testbit (Z.land (gb d b) (not8 (shl8 1 (Z.of_nat (i mod 8))))) k = false) by (rewrite Z0; apply Z.bits_0).
    rewrite Z.land_spec, not8_testbit, mask_testbit in W by (try apply bit_lt; lia).
    destruct (Z.eqb_spec k (Z.of_nat (i mod 8))); [lia|]. cbn in W. rewrite andb_true_r in W. exact W.
Qed.

(** ** clear(start) *)
Lemma clear_from_in d idx : bytes d -> index idx ->
  exists d', clear_from d idx = Some d' /\ bytes d' /\ last_nz d' /\
    forall j, mem d' j = mem d j && (j <? Z.to_nat idx)%nat.
Proof.
  intros B H. unfold clear_from. rewrite bucket_index by auto.
  set (i := Z.to_nat idx). set (b := (i / 8)%nat).
  assert (Ei : idx = Z.of_nat i) by (unfold i; destruct H; lia).
  assert (Dm : i = (8 * b + i mod 8)%nat) by (apply Nat.div_mod; lia).
  pose proof (Nat.mod_upper_bound i 8 ltac:(lia)) as Hm.
  rewrite Z.shiftl_mul_pow2 by lia. change (2 ^ 3) with 8.
  set (sh := if Z.of_nat b * 8 <? idx then Z.of_nat b + 1 else Z.of_nat b).
  assert (Hsh : 0 <= sh) by (unfold sh; destruct (_ <? _); lia).
  assert (G : exists d1, (if sh <? len d then resize d sh else Some d) = Some d1 /\ len d1 <= sh /\
     (forall n, gb d1 n = if (n <? Z.to_nat sh)%nat then gb d n else 0)).
  { destruct (Z.ltb_spec sh (len d)).
    - destruct (resize_in d sh Hsh) as (d1 & E & L1 & G1). exists d1. repeat split; auto. lia.
    - exists d. split; [reflexivity|]. split; [lia|]. intros n. destruct (Nat.ltb_spec n (Z.to_nat sh)); [reflexivity|].
      apply gb_out. unfold len in *. lia. }
  destruct G as (d1 & -> & L1 & G1). cbn [obind].
  assert (G : exists d2, (if Z.of_nat b <? len d1 then
      let rem := idx - Z.of_nat b * 8 in do x <- at_ d1 (Z.of_nat b);
      put d1 (Z.of_nat b) (Z.land x (not8 (shl8 255 rem))) else Some d1) = Some d2 /\ bytes d2 /\
      forall j, mem d2 j = mem d j && (j <? i)%nat).
  { assert (Low : forall j, (j / 8 < b)%nat -> (j < i)%nat).
    { intros j Hj. pose proof (Nat.div_mod j 8 ltac:(lia)). pose proof (Nat.mod_upper_bound j 8 ltac:(lia)). lia. }
    assert (High : forall j, (b < j / 8)%nat -> (i < j)%nat).
    { intros j Hj. pose proof (Nat.div_mod j 8 ltac:(lia)). lia. }
    assert (Mid : forall j, (j / 8)%nat = b -> (j < i <-> j mod 8 < i mod 8)%nat).
    { intros j Hj. pose proof (Nat.div_mod j 8 ltac:(lia)). rewrite Hj in *. lia. }
    destruct (Z.ltb_spec (Z.of_nat b) (len d1)) as [Hb|Hb].
    - assert (Sh : sh = Z.of_nat b + 1 /\ (0 < i mod 8)%nat).
      { unfold sh in *. destruct (Z.ltb_spec (Z.of_nat b * 8) idx); lia. }
      destruct Sh as [Sh Pos].
      rewrite at_in by lia. cbn [obind]. rewrite Nat2Z.id.
      replace (idx - Z.of_nat b * 8) with (Z.of_nat (i mod 8)) by lia.
      destruct (put_in d1 (Z.of_nat b) (Z.land (gb d1 b) (not8 (shl8 255 (Z.of_nat (i mod 8))))) ltac:(lia)) as (d2 & E & L2 & G2).
      rewrite Nat2Z.id in G2. exists d2. split; [exact E|].
      assert (B1 : bytes d1). { intros n. rewrite G1. destruct (_ <? _)%nat; [apply B|split; lia]. }
      split. { intros n. rewrite G2. destruct (_ =? _)%nat; [|apply B1]. apply byte_word, land_word_l; [lia|apply B1]. }
      intros j. rewrite (mem_set_byte d1 d2 b _ (fun k => Z.testbit (gb d b) (Z.of_nat k) && (k <? i mod 8)%nat) G2).
      + unfold mem. destruct (Nat.eqb_spec (j / 8) b) as [E1|E1].
        * rewrite E1. f_equal. specialize (Mid j E1).
          destruct (Nat.ltb_spec (j mod 8) (i mod 8)), (Nat.ltb_spec j i); lia.
        * rewrite G1, Sh. destruct (Nat.ltb_spec (j / 8) (Z.to_nat (Z.of_nat b + 1))).
          -- pose proof (Low j ltac:(lia)). destruct (Nat.ltb_spec j i); [rewrite andb_true_r; reflexivity|lia].
          -- pose proof (High j ltac:(lia)). destruct (Nat.ltb_spec j i); [lia|]. rewrite Z.bits_0, andb_false_r. reflexivity.
      + intros k Hk. rewrite Z.land_spec, not8_testbit by lia. rewrite G1.
        destruct (Nat.ltb_spec b (Z.to_nat sh)); [|lia]. f_equal.
        unfold shl8. rewrite wrap_testbit by lia. rewrite Z.shiftl_spec by lia.
        destruct (Z.ltb_spec (Z.of_nat k) 8); [|lia]. cbn [andb]. change 255 with (Z.ones 8).
        destruct (Nat.ltb_spec k (i mod 8)).
        * rewrite Z.testbit_neg_r by lia. reflexivity.
        * rewrite Z.ones_spec_low by lia. reflexivity.
    - exists d1. split; [reflexivity|]. split. { intros n. rewrite G1. destruct (_ <? _)%nat; [apply B|split; lia]. }
      intros j. unfold mem. rewrite G1. destruct (Nat.ltb_spec (j / 8) (Z.to_nat sh)).
      + destruct (Nat.eq_dec (j / 8) b) as [E1|E1].
        * unfold mem. (* b is outside d1, but inside sh: d has no such byte *)
          assert (gb d b = 0). { rewrite <- (gb_out d1 b) by (unfold len in Hb; lia). rewrite G1.
            destruct (Nat.ltb_spec b (Z.to_nat sh)); [reflexivity|lia]. }
          rewrite E1, H1, Z.bits_0. reflexivity.
        * assert ((j / 8 < b)%nat) by (unfold sh in *; destruct (_ <? _); lia).
          pose proof (Low j H1). destruct (Nat.ltb_spec j i); [rewrite andb_true_r; reflexivity|lia].
      + assert (~ (j < i)%nat). { intros Hj. 
          assert ((j / 8 <= b)%nat) by (apply Nat.div_le_mono; lia).
          unfold sh in *. destruct (Z.ltb_spec (Z.of_nat b * 8) idx); [lia|].
          assert ((j / 8)%nat = b) by lia. apply Mid in Hj; lia. }
        destruct (Nat.ltb_spec j i); [lia|]. rewrite Z.bits_0, andb_false_r. reflexivity. }
  destruct G as (d2 & E2 & B2 & M2). cbv zeta in E2 |- *. rewrite E2. cbn [obind].
  destruct (shrink_in d2) as (d3 & -> & L3 & G3 & _). exists d3. split; [reflexivity|].
  split; [intro n; rewrite G3; apply B2|]. split; [exact L3|].
  intros j. rewrite (mem_gb _ _ G3). apply M2.
Qed.

(** ** Set operations *)
Lemma or_loop_in fuel : forall i d o, (i + fuel <= length d)%nat -> (i + fuel <= length o)%nat ->
  exists d', or_loop fuel (Z.of_nat i) d o = Some d' /\ length d' = length d /\
    forall n, gb d' n = if ((i <=? n) && (n <? i + fuel))%nat then Z.lor (gb d n) (gb o n) else gb d n.
Proof.
  induction fuel; intros i d o Hd Ho; cbn [or_loop].
  - exists d. repeat split. intros n. destruct ((i <=? n) && (n <? i + 0))%nat eqn:E; [|reflexivity].
    apply andb_true_iff in E. destruct E as [E1 E2]. apply Nat.leb_le in E1. apply Nat.ltb_lt in E2. lia.
  - rewrite !at_in by (unfold len; lia). cbn [obind]. rewrite Nat2Z.id.
    destruct (put_in d (Z.of_nat i) (Z.lor (gb d i) (gb o i)) ltac:(unfold len; lia)) as (d1 & -> & L1 & G1).
    cbn [obind]. rewrite Nat2Z.id in G1. replace (Z.of_nat i + 1) with (Z.of_nat (S i)) by lia.
    destruct (IHfuel (S i) d1 o ltac:(lia) ltac:(lia)) as (d2 & E2 & L2 & G2).
    exists d2. split; [exact E2|]. split; [lia|]. intros n. rewrite G2, !G1.
    destruct (Nat.eqb_spec n i).
    + subst. destruct (Nat.leb_spec (S i) i); [lia|]. cbn [andb].
      destruct (Nat.leb_spec i i); [|lia]. destruct (Nat.ltb_spec i (i + S fuel)); [reflexivity|lia].
    + destruct (Nat.leb_spec (S i) n), (Nat.leb_spec i n); try lia; cbn [andb]; auto.
      destruct (Nat.ltb_spec n (S i + fuel)), (Nat.ltb_spec n (i + S fuel)); try lia; reflexivity.
Qed.
Lemma andn_loop_in fuel : forall i d o, (i + fuel <= length d)%nat -> (i + fuel <= length o)%nat ->
  exists d', andn_loop fuel (Z.of_nat i) d o = Some d' /\ length d' = length d /\
    forall n, gb d' n = if ((i <=? n) && (n <? i + fuel))%nat then Z.land (gb d n) (not8 (gb o n)) else gb d n.
Proof.
  induction fuel; intros i d o Hd Ho; cbn [andn_loop].
  - exists d. repeat split. intros n. destruct ((i <=? n) && (n <? i + 0))%nat eqn:E; [|reflexivity].
    apply andb_true_iff in E. destruct E as [E1 E2]. apply Nat.leb_le in E1. apply Nat.ltb_lt in E2. lia.
  - rewrite !at_in by (unfold len; lia). cbn [obind]. rewrite Nat2Z.id.
    destruct (put_in d (Z.of_nat i) (Z.land (gb d i) (not8 (gb o i))) ltac:(unfold len; lia)) as (d1 & -> & L1 & G1).
    cbn [obind]. rewrite Nat2Z.id in G1. replace (Z.of_nat i + 1) with (Z.of_nat (S i)) by lia.
    destruct (IHfuel (S i) d1 o ltac:(lia) ltac:(lia)) as (d2 & E2 & L2 & G2).
    exists d2. split; [exact E2|]. split; [lia|]. intros n. rewrite G2, !G1.
    destruct (Nat.eqb_spec n i).
    + subst. destruct (Nat.leb_spec (S i) i); [lia|]. cbn [andb].
      destruct (Nat.leb_spec i i); [|lia]. destruct (Nat.ltb_spec i (i + S fuel)); [reflexivity|lia].
    + destruct (Nat.leb_spec (S i) n), (Nat.leb_spec i n); try lia; cbn [andb]; auto.
      destruct (Nat.ltb_spec n (S i + fuel)), (Nat.ltb_spec n (i + S fuel)); try lia; reflexivity.
Qed.

Lemma add_set_in d o : bytes d -> last_nz d -> bytes o -> last_nz o ->
  exists d', add_set d o = Some d' /\ bytes d' /\ last_nz d' /\ forall j, mem d' j = mem d j || mem o j.
Proof.
  intros B L B' L'. unfold add_set.
  assert (G : exists d1, (if len d <? len o then grow d (len o) else Some d) = Some d1 /\
    (forall n, gb d1 n = gb d n) /\ (length o <= length d1)%nat /\ (length d1 = length o \/ d1 = d)).
  { destruct (Z.ltb_spec (len d) (len o)).
    - destruct (grow_in d (len o) ltac:(lia)) as (d1 & E & L1 & G1). exists d1. unfold len in *. repeat split; auto; lia.
    - exists d. unfold len in *. repeat split; auto; lia. }
  destruct G as (d1 & -> & G1 & L1 & L2). cbn [obind].
  destruct (or_loop_in (Z.to_nat (len o)) 0 d1 o) as (d2 & E2 & Ln & G2); try (unfold len; lia).
  change (Z.of_nat 0) with 0 in E2. rewrite E2. exists d2. split; [reflexivity|].
  assert (G3 : forall n, gb d2 n = Z.lor (gb d n) (gb o n)).
  { intros n. rewrite G2, G1. cbn [Nat.leb andb Nat.add]. destruct (Nat.ltb_spec n (Z.to_nat (len o))); [reflexivity|].
    rewrite (gb_out o) by (unfold len in *; lia). rewrite Z.lor_0_r. reflexivity. }
  split; [|split].
  - intros n. rewrite G3. apply byte_word, lor_word; [lia|apply B|apply B'].
  - unfold last_nz. rewrite Ln. destruct L2 as [L2|L2].
    + rewrite L2. destruct L' as [L'|L']; [left; auto|right]. rewrite G3. intros Q. apply Z.lor_eq_0_iff in Q. tauto.
    + subst d1. destruct L as [L|L]; [left; auto|right]. rewrite G3. intros Q. apply Z.lor_eq_0_iff in Q. tauto.
  - intros j. unfold mem. rewrite G3, Z.lor_spec. reflexivity.
Qed.

Lemma remove_set_in d o : bytes d -> last_nz d -> bytes o ->
  exists d', remove_set d o = Some d' /\ bytes d' /\ last_nz d' /\ forall j, mem d' j = mem d j && negb (mem o j).
Proof.
  intros B L B'. unfold remove_set.
  destruct (andn_loop_in (Z.to_nat (Z.min (len d) (len o))) 0 d o) as (d2 & E2 & Ln & G2); try (unfold len; lia).
  change (Z.of_nat 0) with 0 in E2. rewrite E2. cbn [obind].
  assert (B2 : bytes d2). { intros n. rewrite G2. destruct (_ && _); [|apply B]. apply byte_word, land_word_l; [lia|apply B]. }
  assert (M : forall j, mem d2 j = mem d j && negb (mem o j)).
  { intros j. unfold mem. rewrite G2. cbn [Nat.leb andb Nat.add].
    destruct (Nat.ltb_spec (j / 8) (Z.to_nat (Z.min (len d) (len o)))).
    - rewrite Z.land_spec, not8_testbit by apply bit_lt. reflexivity.
    - destruct (le_dec (length d) (j / 8)).
      + rewrite (gb_out d) by auto. rewrite Z.bits_0. reflexivity.
      + rewrite (gb_out o) by (unfold len in *; lia). rewrite Z.bits_0, andb_true_r. reflexivity. }
  destruct (Z.eqb_spec (Z.min (len d) (len o)) (len d2)) as [E|E].
  - destruct (shrink_in d2) as (d3 & -> & L3 & G3 & _). exists d3. split; [reflexivity|].
    split; [intro n; rewrite G3; apply B2|]. split; [exact L3|]. intros j. rewrite (mem_gb _ _ G3). apply M.
  - exists d2. split; [reflexivity|]. split; [exact B2|]. split; [|exact M].
    unfold last_nz. rewrite Ln. destruct L as [L|L]; [left; auto|right]. rewrite G2. cbn [Nat.leb andb Nat.add].
    destruct (Nat.ltb_spec (length d - 1) (Z.to_nat (Z.min (len d) (len o)))); [|exact L].
    unfold len in *. exfalso. apply E. rewrite Ln. lia.
Qed.

(** ** add_range *)
Lemma fill_loop_in fuel : forall i d, (i + fuel <= length d)%nat ->
  exists d', fill_loop fuel (Z.of_nat i) d = Some d' /\ length d' = length d /\
    forall n, gb d' n = if ((i <=? n) && (n <? i + fuel))%nat then 255 else gb d n.
Proof.
  induction fuel; intros i d Hd; cbn [fill_loop].
  - exists d. repeat split. intros n. destruct ((i <=? n) && (n <? i + 0))%nat eqn:E; [|reflexivity].
    apply andb_true_iff in E. destruct E as [E1 E2]. apply Nat.leb_le in E1. apply Nat.ltb_lt in E2. lia.
  - destruct (put_in d (Z.of_nat i) 255 ltac:(unfold len; lia)) as (d1 & -> & L1 & G1).
    cbn [obind]. rewrite Nat2Z.id in G1. replace (Z.of_nat i + 1) with (Z.of_nat (S i)) by lia.
    destruct (IHfuel (S i) d1 ltac:(lia)) as (d2 & E2 & L2 & G2).
    exists d2. split; [exact E2|]. split; [lia|]. intros n. rewrite G2, !G1.
    destruct (Nat.eqb_spec n i).
    + subst. destruct (Nat.leb_spec (S i) i); [lia|]. cbn [andb].
      destruct (Nat.leb_spec i i); [|lia]. destruct (Nat.ltb_spec i (i + S fuel)); [reflexivity|lia].
    + destruct (Nat.leb_spec (S i) n), (Nat.leb_spec i n); try lia; cbn [andb]; auto.
      destruct (Nat.ltb_spec n (S i + fuel)), (Nat.ltb_spec n (i + S fuel)); try lia; reflexivity.
Qed.

Lemma tail_loop_testbit f b : forall k t, (k + f <= 8)%nat -> forall x, 0 <= x ->
  Z.testbit (tail_loop f (Z.of_nat (8 * b + k)) t) x =
    Z.testbit t x || ((Z.of_nat k <=? x) && (x <? Z.of_nat (k + f))).
Proof.
  induction f; intros k t Hk x Hx; cbn [tail_loop].
  - destruct (Z.leb_spec (Z.of_nat k) x), (Z.ltb_spec x (Z.of_nat (k + 0))); try lia; rewrite orb_false_r; reflexivity.
  - replace (Z.of_nat (8 * b + k) + 1) with (Z.of_nat (8 * b + S k)) by lia.
    rewrite IHf by lia. rewrite Z.lor_spec.
    replace (Z.land (Z.of_nat (8 * b + k)) 7) with (Z.of_nat k).
    2:{ change 7 with (Z.ones 3). rewrite Z.land_ones by lia. change (2 ^ 3) with 8.
        replace (Z.of_nat (8 * b + k)) with (Z.of_nat k + Z.of_nat b * 8) by lia.
        rewrite Z.mod_add by lia. rewrite Z.mod_small; lia. }
    rewrite mask_testbit by lia.
    destruct (Z.testbit t x); cbn [orb]; [reflexivity|].
    destruct (Z.eqb_spec x (Z.of_nat k)), (Z.leb_spec (Z.of_nat (S k)) x), (Z.ltb_spec x (Z.of_nat (S k + f))),
      (Z.leb_spec (Z.of_nat k) x), (Z.ltb_spec x (Z.of_nat (k + S f))); try lia; reflexivity.
Qed.

Lemma ceil_index e : index e -> e + 7 < 2 ^ 31 ->
  Z.lor (Z.shiftr (e + 7) 3) (Z.land e (- 2 ^ 31)) = Z.of_nat ((Z.to_nat e + 7) / 8).
Proof.
  intros H H7. rewrite land_min by auto. rewrite Z.lor_0_r, Z.shiftr_div_pow2 by lia. destruct H.
  rewrite Nat2Z.inj_div, Nat2Z.inj_add, Z2Nat.id by lia. reflexivity.
Qed.

(** add_range writes the bytes below floor(end/8) as full, replaces the byte at
    floor(end/8), and keeps the rest. *)
Lemma add_range_in d e : bytes d -> last_nz d -> index e -> e + 7 < 2 ^ 31 ->
  len d <= Z.of_nat ((Z.to_nat e + 7) / 8) ->
  exists d', add_range d e = Some d' /\ bytes d' /\ last_nz d' /\
    forall j, mem d' j = (j <? Z.to_nat e)%nat.
Proof.
  intros B L H H7 Hl. unfold add_range. destruct (Z.leb_spec (2 ^ 31) (e + 7)); [lia|].
  cbv zeta. rewrite ceil_index by auto. change (Z.lor (Z.shiftr e 3) (Z.land e (- 2 ^ 31))) with (bucket_of e).
  rewrite bucket_index by auto. set (i := Z.to_nat e) in *. set (fl := (i / 8)%nat). set (cl := ((i + 7) / 8)%nat) in *.
  assert (Dm : i = (8 * fl + i mod 8)%nat) by (apply Nat.div_mod; lia).
  pose proof (Nat.mod_upper_bound i 8 ltac:(lia)) as Hm.
  assert (Hc : cl = if (i mod 8 =? 0)%nat then fl else S fl).
  { unfold cl. destruct (Nat.eqb_spec (i mod 8) 0).
    - symmetry. apply (Nat.div_unique _ 8 _ 7); lia.
    - symmetry. apply (Nat.div_unique _ 8 _ (i mod 8 - 1)); lia. }
  destruct (grow_in d (Z.of_nat cl) ltac:(unfold len in *; lia)) as (d1 & -> & L1 & G1). cbn [obind].
  assert (Lc : length d1 = cl) by (unfold len in L1; lia).
  destruct (fill_loop_in (Z.to_nat (Z.of_nat fl)) 0 d1) as (d2 & E2 & L2 & G2).
  { rewrite Lc, Nat2Z.id, Hc. destruct (_ =? _)%nat; lia. }
  change (Z.of_nat 0) with 0 in E2. rewrite E2. cbn [obind]. rewrite Nat2Z.id in G2. cbn [Nat.leb andb Nat.add] in G2.
  assert (Low : forall j, (j / 8 < fl)%nat -> (j < i)%nat).
  { intros j Hj. pose proof (Nat.div_mod j 8 ltac:(lia)). pose proof (Nat.mod_upper_bound j 8 ltac:(lia)). lia. }
  assert (High : forall j, (fl < j / 8)%nat -> (i < j)%nat).
  { intros j Hj. pose proof (Nat.div_mod j 8 ltac:(lia)). lia. }
  assert (Mid : forall j, (j / 8)%nat = fl -> (j < i <-> j mod 8 < i mod 8)%nat).
  { intros j Hj. pose proof (Nat.div_mod j 8 ltac:(lia)). rewrite Hj in *. lia. }
  destruct (Z.ltb_spec (Z.of_nat fl) (Z.of_nat cl)) as [Hf|Hf].
  - assert (Pos : (0 < i mod 8)%nat) by (destruct (Nat.eqb_spec (i mod 8) 0); lia).
    assert (Ecl : cl = S fl) by (destruct (Nat.eqb_spec (i mod 8) 0); lia).
    rewrite Z.shiftl_mul_pow2 by lia. change (2 ^ 3) with 8.
    replace (Z.to_nat (e - Z.of_nat fl * 8)) with (i mod 8)%nat by (destruct H; unfold i in *; lia).
    replace (Z.of_nat fl * 8) with (Z.of_nat (8 * fl + 0)) by lia.
    set (tl := tail_loop _ _ _).
    assert (T : forall x, 0 <= x -> Z.testbit tl x = (x <? Z.of_nat (i mod 8))).
    { intros x Hx. unfold tl. rewrite tail_loop_testbit by lia. rewrite Z.bits_0. cbn [orb Nat.add].
      destruct (Z.leb_spec (Z.of_nat 0) x); [reflexivity|lia]. }
    destruct (put_in d2 (Z.of_nat fl) tl ltac:(unfold len; lia)) as (d3 & E3 & L3 & G3).
    rewrite E3. exists d3. rewrite Nat2Z.id in G3. split; [reflexivity|].
    assert (Btl : byte tl).
    { replace tl with (Z.ones (Z.of_nat (i mod 8))).
      - rewrite Z.ones_equiv. pose proof (Z.pow_le_mono_r 2 (Z.of_nat (i mod 8)) 7 ltac:(lia) ltac:(lia)).
        change (2 ^ 7) with 128 in *. pose proof (Z.pow_pos_nonneg 2 (Z.of_nat (i mod 8)) ltac:(lia) ltac:(lia)).
        unfold byte. lia.
      - apply Z.bits_inj'. intros x Hx. rewrite T by auto. rewrite Z.testbit_ones_nonneg by lia. reflexivity. }
    split; [|split].
    + intros n. rewrite G3. destruct (n =? fl)%nat; [exact Btl|]. rewrite G2. destruct (n <? fl)%nat; [split; lia|]. rewrite G1. apply B.
    + right. rewrite L3, L2, Lc, Ecl. replace (S fl - 1)%nat with fl by lia. rewrite G3, Nat.eqb_refl.
      intros Z0. specialize (T 0 ltac:(lia)). rewrite Z0, Z.bits_0 in T. symmetry in T. apply Z.ltb_ge in T. lia.
    + intros j. unfold mem. rewrite G3. destruct (Nat.eqb_spec (j / 8) fl) as [E|E].
      * rewrite T by apply bit_lt. specialize (Mid j E).
        destruct (Z.ltb_spec (Z.of_nat (j mod 8)) (Z.of_nat (i mod 8))), (Nat.ltb_spec j i); lia.
      * rewrite G2. destruct (Nat.ltb_spec (j / 8) fl).
        -- pose proof (Low j ltac:(lia)). destruct (Nat.ltb_spec j i); [|lia]. change 255 with (Z.ones 8).
           apply Z.ones_spec_low. apply bit_lt.
        -- pose proof (High j ltac:(lia)). destruct (Nat.ltb_spec j i); [lia|].
           rewrite G1, gb_out by (unfold len in *; lia). apply Z.bits_0.
  - assert (E0 : (i mod 8 = 0)%nat) by (destruct (Nat.eqb_spec (i mod 8) 0); lia).
    assert (Ecl : cl = fl) by (destruct (Nat.eqb_spec (i mod 8) 0); lia).
    exists d2. split; [reflexivity|]. split; [|split].
    + intros n. rewrite G2. destruct (n <? fl)%nat; [split; lia|]. rewrite G1. apply B.
    + unfold last_nz. rewrite L2, Lc, Ecl. destruct (Nat.eq_dec fl 0); [left; auto|right].
      rewrite G2. destruct (Nat.ltb_spec (fl - 1) fl); lia.
    + intros j. unfold mem. rewrite G2. destruct (Nat.ltb_spec (j / 8) fl).
      * pose proof (Low j ltac:(lia)). destruct (Nat.ltb_spec j i); [|lia]. change 255 with (Z.ones 8).
        apply Z.ones_spec_low. apply bit_lt.
      * assert (~ (j < i)%nat). { intros Hj. destruct (Nat.eq_dec (j / 8) fl) as [E|E]; [apply Mid in Hj; lia|].
          pose proof (High j ltac:(lia)). lia. }
        destruct (Nat.ltb_spec j i); [lia|]. rewrite G1, gb_out by (unfold len in *; lia). apply Z.bits_0.
Qed.
Lemma add_range_trap d e : index e -> e + 7 < 2 ^ 31 ->
  Z.of_nat ((Z.to_nat e + 7) / 8) < len d -> add_range d e = None.
Proof.
  intros H H7 Hl. unfold add_range. destruct (Z.leb_spec (2 ^ 31) (e + 7)); [lia|].
  cbv zeta. rewrite ceil_index by auto. unfold grow.
  match goal with |- context [?a <? ?b] => destruct (Z.ltb_spec a b) end; [reflexivity|lia].
Qed.

Lemma bytes_nil : bytes []. Proof. intros n. rewrite gb_out by (cbn; lia). split; lia. Qed.
Lemma last_nil : last_nz []. Proof. left. reflexivity. Qed.

Lemma negated_in d e : bytes d -> index e -> e + 7 < 2 ^ 31 ->
  exists d', negated d e = Some d' /\ bytes d' /\ last_nz d' /\
    forall j, mem d' j = (j <? Z.to_nat e)%nat && negb (mem d j).
Proof.
  intros B H H7. unfold negated.
  destruct (add_range_in [] e bytes_nil last_nil H H7) as (r & -> & Br & Lr & Mr). { cbn. lia. }
  cbn [obind]. destruct (remove_set_in r d Br Lr B) as (d' & E & B' & L' & M').
  exists d'. refine (conj E (conj B' (conj L' _))). intros j. rewrite M', Mr. reflexivity.
Qed.

(** ** built sets are canonical *)
Lemma built_inv d : built d -> bytes d /\ last_nz d.
Proof.
  induction 1.
  - split; [apply bytes_nil|apply last_nil].
  - split; [apply bytes_nil|apply last_nil].
  - destruct IHbuilt as [B L]. destruct (clear_from_in d i B H0) as (d1 & E & B1 & L1 & _). rewrite E in H1. injection H1 as <-. auto.
  - destruct IHbuilt as [B L]. destruct (add_in d i B L H0) as (d1 & E & B1 & L1 & _). rewrite E in H1. injection H1 as <- _. auto.
  - destruct IHbuilt as [B L]. destruct (remove_in d i B L H0) as (d1 & E & B1 & L1 & _). rewrite E in H1. injection H1 as <- _. auto.
  - destruct IHbuilt1 as [B L], IHbuilt2 as [B' L']. destruct (add_set_in d o B L B' L') as (d1 & E & B1 & L1 & _). rewrite E in H1. injection H1 as <-. auto.
  - destruct IHbuilt1 as [B L], IHbuilt2 as [B' L']. destruct (remove_set_in d o B L B') as (d1 & E & B1 & L1 & _). rewrite E in H1. injection H1 as <-. auto.
  - destruct IHbuilt as [B L]. assert (H7 : i + 7 < 2 ^ 31).
    { unfold add_range in H1. destruct (Z.leb_spec (2 ^ 31) (i + 7)); [discriminate|auto]. }
    destruct (Z.le_gt_cases (len d) (Z.of_nat ((Z.to_nat i + 7) / 8))).
    + destruct (add_range_in d i B L H0 H7 H2) as (d1 & E & B1 & L1 & _). rewrite E in H1. injection H1 as <-. auto.
    + rewrite add_range_trap in H1 by auto. discriminate.
  - destruct IHbuilt as [B L]. assert (H7 : i + 7 < 2 ^ 31).
    { unfold negated, add_range in H1. destruct (Z.leb_spec (2 ^ 31) (i + 7)); [discriminate|auto]. }
    destruct (negated_in d i B H0 H7) as (d1 & E & B1 & L1 & _). rewrite E in H1. injection H1 as <-. auto.
Qed.

(** ** Queries over two sets *)
Lemma land_zero_bits x y : byte x -> (Z.land x y =? 0) = true <-> (forall k, 0 <= k < 8 -> Z.testbit x k && Z.testbit y k = false).
Proof.
  intros Bx. rewrite Z.eqb_eq. split.
  - intros H k Hk. rewrite <- Z.land_spec, H. apply Z.bits_0.
  - intros H. apply Z.bits_inj'. intros k Hk. rewrite Z.bits_0, Z.land_spec.
    destruct (Z.ltb_spec k 8); [apply H; lia|]. rewrite (word_testbit_high 8 x) by (auto; lia). reflexivity.
Qed.
Lemma byte_idx n k : (k < 8)%nat -> ((n * 8 + k) / 8 = n /\ (n * 8 + k) mod 8 = k)%nat.
Proof.
  intros. split.
  - rewrite Nat.div_add_l by lia. rewrite Nat.div_small by lia. lia.
  - rewrite Nat.add_comm, Nat.mod_add by lia. apply Nat.mod_small. lia.
Qed.
Lemma inter_loop_in fuel : forall i a b, bytes a -> (i + fuel <= length a)%nat -> (i + fuel <= length b)%nat ->
  exists r, inter_loop fuel (Z.of_nat i) a b = Some r /\
    (r = true <-> exists j, (i <= j / 8 < i + fuel)%nat /\ mem a j = true /\ mem b j = true).
Proof.
  induction fuel; intros i a b B Ha Hb; cbn [inter_loop].
  - exists false. split; [reflexivity|]. split; [discriminate|]. intros (j & Hj & _). lia.
  - rewrite !at_in by (unfold len; lia). cbn [obind]. rewrite Nat2Z.id.
    destruct (Z.land (gb a i) (gb b i) =? 0) eqn:E.
    + replace (Z.of_nat i + 1) with (Z.of_nat (S i)) by lia.
      destruct (IHfuel (S i) a b B ltac:(lia) ltac:(lia)) as (r & Er & Hr). exists r. split; [exact Er|].
      rewrite Hr. pose proof (proj1 (land_zero_bits _ _ (B i)) E) as E'. clear E. rename E' into E.
      split; intros (j & Hj & M1 & M2); exists j; (split; [|auto]); [lia|].
      destruct (Nat.eq_dec (j / 8) i) as [Q|Q]; [|lia]. exfalso.
      specialize (E (Z.of_nat (j mod 8)) (bit_lt j)).
      unfold mem in M1, M2. rewrite Q in M1, M2. rewrite M1, M2 in E. discriminate.
    + exists true. split; [reflexivity|]. split; [intros _|reflexivity].
      assert (X : exists k, (k < 8)%nat /\ Z.testbit (gb a i) (Z.of_nat k) && Z.testbit (gb b i) (Z.of_nat k) = true).
      { assert (D : forall n, (forall k, (k < n)%nat -> Z.testbit (gb a i) (Z.of_nat k) && Z.testbit (gb b i) (Z.of_nat k) = false) \/
          exists k, (k < n)%nat /\ Z.testbit (gb a i) (Z.of_nat k) && Z.testbit (gb b i) (Z.of_nat k) = true).
        { induction n; [left; intros; lia|]. destruct IHn as [IH|(k & Hk & Q)]; [|right; exists k; split; [lia|auto]].
          destruct (Z.testbit (gb a i) (Z.of_nat n) && Z.testbit (gb b i) (Z.of_nat n)) eqn:Q.
          - right. exists n. split; [lia|auto].
          - left. intros k Hk. destruct (Nat.eq_dec k n); [subst; auto|apply IH; lia]. }
        destruct (D 8%nat) as [D1|D1]; [|exact D1]. exfalso.
        assert (T : (Z.land (gb a i) (gb b i) =? 0) = true).
        { apply land_zero_bits; [apply B|]. intros k Hk. specialize (D1 (Z.to_nat k) ltac:(lia)). rewrite Z2Nat.id in D1 by lia. exact D1. }
        congruence. }
      destruct X as (k & Hk & X). apply andb_true_iff in X. destruct X as [X1 X2].
      exists (i * 8 + k)%nat. unfold mem. destruct (byte_idx i k Hk) as [-> ->]. repeat split; auto; lia.
Qed.
Lemma has_inter_in a b : bytes a ->
  exists r, has_inter a b = Some r /\ (r = true <-> exists j, mem a j = true /\ mem b j = true).
Proof.
  intros B. unfold has_inter. destruct (inter_loop_in (Z.to_nat (Z.min (len a) (len b))) 0 a b B) as (r & E & H); try (unfold len; lia).
  exists r. split; [exact E|]. rewrite H. split; intros (j & Hj).
  - exists j. tauto.
  - exists j. split; [|exact Hj]. destruct Hj as [H1 H2]. unfold mem in H1, H2.
    destruct (lt_dec (j / 8) (Z.to_nat (Z.min (len a) (len b)))); [lia|]. exfalso.
    destruct (le_dec (length a) (j / 8)).
    + rewrite (gb_out a) in H1 by auto. rewrite Z.bits_0 in H1. discriminate.
    + rewrite (gb_out b) in H2 by (unfold len in *; lia). rewrite Z.bits_0 in H2. discriminate.
Qed.

Lemma missing_loop_in fuel : forall i a b, bytes a -> (i + fuel <= length a)%nat -> (i + fuel <= length b)%nat ->
  missing_loop fuel (Z.of_nat i) a b = inter_loop fuel (Z.of_nat i) (map not8 a) b.
Proof.
  induction fuel; intros i a b B Ha Hb; cbn [missing_loop inter_loop]; [reflexivity|].
  rewrite !at_in by (unfold len; rewrite ?map_length; lia). cbn [obind]. rewrite Nat2Z.id.
  replace (gb (map not8 a) i) with (not8 (gb a i)).
  2:{ unfold gb. rewrite (nth_indep (map not8 a) 0 (not8 0)) by (rewrite map_length; lia). symmetry. apply map_nth. }
  destruct (_ =? _); [|reflexivity]. replace (Z.of_nat i + 1) with (Z.of_nat (S i)) by lia. apply IHfuel; auto; lia.
Qed.
Lemma gb_map_not8 a n : (n < length a)%nat -> gb (map not8 a) n = not8 (gb a n).
Proof. intros. unfold gb. rewrite (nth_indep _ 0 (not8 0)) by (rewrite map_length; lia). apply map_nth. Qed.
Lemma bytes_map_not8 a : bytes a -> bytes (map not8 a).
Proof.
  intros B n. destruct (lt_dec n (length a)).
  - rewrite gb_map_not8 by auto. apply not8_byte, B.
  - rewrite gb_out by (rewrite map_length; lia). split; lia.
Qed.
Lemma has_missing_in a b : bytes a -> bytes b -> last_nz b -> (length a <= length b)%nat ->
  exists r, has_missing a b = Some r /\ (r = true <-> exists j, mem b j = true /\ mem a j = false).
Proof.
  intros B Bb Lb Hl. unfold has_missing. destruct (Z.ltb_spec (len a) (len b)) as [H|H].
  - exists true. split; [reflexivity|]. split; [intros _|reflexivity].
    destruct Lb as [Lb|Lb]; [unfold len in H; lia|].
    destruct (Z.eqb_spec (gb b (length b - 1)) 0) as [|_]; [contradiction|].
    assert (X : exists k, (k < 8)%nat /\ Z.testbit (gb b (length b - 1)) (Z.of_nat k) = true).
    { set (x := gb b (length b - 1)) in *.
      assert (D : forall n, (forall k, (k < n)%nat -> Z.testbit x (Z.of_nat k) = false) \/
          exists k, (k < n)%nat /\ Z.testbit x (Z.of_nat k) = true).
      { induction n; [left; intros; lia|]. destruct IHn as [IH|(k & Hk & Q)]; [|right; exists k; split; [lia|auto]].
        destruct (Z.testbit x (Z.of_nat n)) eqn:Q; [right; exists n; split; [lia|auto]|].
        left. intros k Hk. destruct (Nat.eq_dec k n); [subst; auto|apply IH; lia]. }
      destruct (D 8%nat) as [D1|D1]; [|exact D1]. exfalso. apply Lb.
      apply byte_ext; [apply Bb|split; lia|]. intros k Hk. rewrite Z.bits_0.
      specialize (D1 (Z.to_nat k) ltac:(lia)). rewrite Z2Nat.id in D1 by lia. exact D1. }
    destruct X as (k & Hk & X). exists ((length b - 1) * 8 + k)%nat. unfold mem.
    destruct (byte_idx (length b - 1) k Hk) as [-> ->]. split; [exact X|].
    rewrite gb_out by (unfold len in H; lia). apply Z.bits_0.
  - assert (length a = length b) by (unfold len in *; lia).
    pose proof (missing_loop_in (length a) 0 a b B ltac:(lia) ltac:(lia)) as E. change (Z.of_nat 0) with 0 in E. rewrite E.
    destruct (inter_loop_in (length a) 0 (map not8 a) b (bytes_map_not8 a B)) as (r & Er & Hr); try (rewrite ?map_length; lia).
    exists r. split; [exact Er|]. rewrite Hr. split; intros (j & Hj).
    + exists j. destruct Hj as (Hj & M1 & M2). split; [exact M2|]. unfold mem in M1 |- *.
      rewrite gb_map_not8, not8_testbit in M1 by (try apply bit_lt; lia). apply negb_true_iff. exact M1.
    + exists j. destruct Hj as (M2 & M1). assert (Hj : (j / 8 < length a)%nat).
      { destruct (le_dec (length b) (j / 8)); [|lia]. unfold mem in M2. rewrite gb_out, Z.bits_0 in M2 by auto. discriminate. }
      split; [lia|]. split; [|exact M2]. unfold mem in M1 |- *.
      rewrite gb_map_not8, not8_testbit by (try apply bit_lt; lia). rewrite M1. reflexivity.
Qed.

(** ** each *)
Lemma each_bit_In n : forall b item i x, 0 <= i -> (b + n <= 8)%nat ->
  In x (each_bit n (Z.of_nat b) item i) <->
  exists k, (b <= k < b + n)%nat /\ x = i * 8 + Z.of_nat k /\ Z.testbit item (Z.of_nat k) = true.
Proof.
  induction n; intros b item i x Hi Hb; cbn [each_bit].
  - split; [intros []|intros (k & Hk & _); lia].
  - rewrite in_app_iff. replace (Z.of_nat b + 1) with (Z.of_nat (S b)) by lia. rewrite IHn by lia.
    rewrite land_mask by lia.
    assert (E : Z.lor (Z.shiftl i 3) (Z.of_nat b) = i * 8 + Z.of_nat b).
    { assert (L0 : Z.land (Z.shiftl i 3) (Z.of_nat b) = 0).
      { apply Z.bits_inj'. intros k Hk. rewrite Z.bits_0, Z.land_spec, Z.shiftl_spec by lia.
        destruct (Z.ltb_spec k 3); [rewrite Z.testbit_neg_r by lia; reflexivity|].
        rewrite (word_testbit_high 3 (Z.of_nat b)) by (unfold word; change (2 ^ 3) with 8; lia). apply andb_false_r. }
      rewrite <- Z.lxor_lor, <- Z.add_nocarry_lxor by exact L0.
      rewrite Z.shiftl_mul_pow2 by lia. reflexivity. }
    rewrite E. split.
    + intros [H|(k & Hk & H)]; [|exists k; split; [lia|auto]].
      destruct (Z.testbit item (Z.of_nat b)) eqn:T; cbn in H; [|destruct H].
      destruct H as [<-|[]]. exists b. repeat split; auto; lia.
    + intros (k & Hk & -> & T). destruct (Nat.eq_dec k b) as [->|Nk].
      * left. rewrite T. left. reflexivity.
      * right. exists k. repeat split; auto; lia.
Qed.
Lemma each_bit_sorted n : forall b item i, 0 <= i -> (b + n <= 8)%nat -> StronglySorted Z.lt (each_bit n (Z.of_nat b) item i).
Proof.
  induction n; intros b item i Hi Hb; cbn [each_bit]; [constructor|].
  replace (Z.of_nat b + 1) with (Z.of_nat (S b)) by lia.
  specialize (IHn (S b) item i Hi ltac:(lia)).
  destruct (Z.land item (shl8 1 (Z.of_nat b)) =? 0) eqn:E; cbn [app]; [exact IHn|].
  constructor; [exact IHn|]. apply Forall_forall. intros x Hx.
  assert (I : In (Z.lor (Z.shiftl i 3) (Z.of_nat b)) (each_bit 1 (Z.of_nat b) item i)) by (cbn [each_bit]; rewrite E; left; reflexivity).
  apply each_bit_In in I; try lia. destruct I as (k & Hk & -> & _).
  apply each_bit_In in Hx; try lia. destruct Hx as (k' & Hk' & -> & _). lia.
Qed.
Lemma each_loop_In d : forall i x, 0 <= i ->
  In x (each_loop d i) <-> exists n k, (n < length d)%nat /\ (k < 8)%nat /\ x = (i + Z.of_nat n) * 8 + Z.of_nat k /\ Z.testbit (gb d n) (Z.of_nat k) = true.
Proof.
  induction d as [|a d IH]; intros i x Hi; cbn [each_loop].
  - split; [intros []|intros (n & k & Hn & _); cbn in Hn; lia].
  - rewrite in_app_iff, IH by lia. split.
    + intros [H|(n & k & Hn & Hk & -> & T)].
      * destruct (Z.eqb_spec a 0); [destruct H|]. apply (each_bit_In 8 0) in H; [|lia|lia].
        destruct H as (k & Hk & -> & T). exists O, k. repeat split; try (cbn; lia).
      * exists (S n), k. repeat split; auto; try (cbn [length]; lia).
    + intros (n & k & Hn & Hk & -> & T). destruct n.
      * left. cbn in T. destruct (Z.eqb_spec a 0); [subst; change (gb (0 :: d) 0) with 0 in T; rewrite Z.bits_0 in T; discriminate|].
        apply (each_bit_In 8 0); [lia|lia|]. exists k. repeat split; auto; lia.
      * right. exists n, k. repeat split; auto; try (cbn [length] in Hn; lia).
Qed.
Lemma each_loop_sorted d : forall i, 0 <= i -> StronglySorted Z.lt (each_loop d i).
Proof.
  induction d as [|a d IH]; intros i Hi; cbn [each_loop]; [constructor|].
  assert (Ap : forall l1 l2, StronglySorted Z.lt l1 -> StronglySorted Z.lt l2 -> (forall x y, In x l1 -> In y l2 -> x < y) -> StronglySorted Z.lt (l1 ++ l2)).
  { induction l1 as [|z l1 IH1]; intros l2 S1 S2 H; cbn; [exact S2|]. inversion S1; subst. constructor.
    - apply IH1; auto. intros; apply H; [right|]; auto.
    - apply Forall_app. split; auto. apply Forall_forall. intros y Hy. apply H; [left|]; auto. }
  apply Ap; [destruct (a =? 0); [constructor|apply (each_bit_sorted 8 0); lia]|apply IH; lia|].
  intros x y Hx Hy. destruct (a =? 0); [destruct Hx|].
  apply (each_bit_In 8 0) in Hx; [|lia|lia]. destruct Hx as (k & Hk & -> & _).
  apply each_loop_In in Hy; [|lia]. destruct Hy as (n & k' & Hn & Hk' & -> & _). lia.
Qed.
Lemma each_In d x : In x (each d) <-> 0 <= x /\ mem d (Z.to_nat x) = true.
Proof.
  unfold each. rewrite each_loop_In by lia. split.
  - intros (n & k & Hn & Hk & -> & T). split; [lia|]. unfold mem.
    replace (Z.to_nat ((0 + Z.of_nat n) * 8 + Z.of_nat k)) with (n * 8 + k)%nat by lia.
    destruct (byte_idx n k Hk) as [-> ->]. exact T.
  - intros [Hx M]. exists (Z.to_nat x / 8)%nat, (Z.to_nat x mod 8)%nat.
    pose proof (Nat.mod_upper_bound (Z.to_nat x) 8 ltac:(lia)). pose proof (Nat.div_mod (Z.to_nat x) 8 ltac:(lia)).
    split; [|split; [lia|split; [lia|exact M]]].
    destruct (le_dec (length d) (Z.to_nat x / 8)); [|lia]. unfold mem in M. rewrite gb_out, Z.bits_0 in M by auto. discriminate.
Qed.

(** ** popcount *)
Lemma ones_add a b x : ones (a + b) x = ones a x + ones b (Z.shiftr x (Z.of_nat a)).
Proof.
  induction b; cbn [ones]; [rewrite Nat.add_0_r; lia|].
  rewrite Nat.add_succ_r. cbn [ones]. rewrite IHb. rewrite Z.shiftr_spec by lia.
  rewrite Nat2Z.inj_add. replace (Z.of_nat b + Z.of_nat a) with (Z.of_nat a + Z.of_nat b) by lia. lia.
Qed.
Lemma ones_ext n x y : (forall k, (k < n)%nat -> Z.testbit x (Z.of_nat k) = Z.testbit y (Z.of_nat k)) -> ones n x = ones n y.
Proof. induction n; intros H; cbn [ones]; [reflexivity|]. rewrite IHn by (intros; apply H; lia). rewrite H by lia. reflexivity. Qed.
Lemma ones_zero n : ones n 0 = 0.
Proof. induction n; cbn [ones]; [reflexivity|]. rewrite Z.bits_0, IHn. reflexivity. Qed.
Lemma ones_high n m x : word (Z.of_nat n) x -> (n <= m)%nat -> ones m x = ones n x.
Proof.
  intros W H. replace m with (n + (m - n))%nat by lia. rewrite ones_add.
  replace (Z.shiftr x (Z.of_nat n)) with 0; [rewrite ones_zero; lia|].
  rewrite Z.shiftr_div_pow2 by lia. symmetry. apply Z.div_small. exact W.
Qed.
Fixpoint sum8 (d : list Z) : Z := match d with [] => 0 | x :: d' => ones 8 x + sum8 d' end.
Lemma sum8_app d e : sum8 (d ++ e) = sum8 d + sum8 e.
Proof. induction d; cbn; [reflexivity|]. rewrite IHd. lia. Qed.
Lemma le_word_nonneg l : Forall byte l -> 0 <= le_word l.
Proof.
  induction 1; cbn [le_word]; [lia|]. apply Z.lor_nonneg. split; [destruct H; auto|]. apply Z.shiftl_nonneg. auto.
Qed.
Lemma ones_le_word l : Forall byte l -> ones (8 * length l) (le_word l) = sum8 l.
Proof.
  induction 1 as [|x l Hx Hl IH]; [reflexivity|]. cbn [le_word sum8 length].
  replace (8 * S (length l))%nat with (8 + 8 * length l)%nat by lia. rewrite ones_add. f_equal.
  - apply ones_ext. intros k Hk. rewrite Z.lor_spec, Z.shiftl_spec by lia.
    rewrite (Z.testbit_neg_r (le_word l)) by lia. apply orb_false_r.
  - rewrite <- IH. f_equal. apply Z.bits_inj'. intros k Hk. rewrite Z.shiftr_spec, Z.lor_spec, Z.shiftl_spec by lia.
    rewrite (word_testbit_high 8 x) by (auto; lia). cbn [orb]. f_equal. lia.
Qed.
Lemma words_loop_in n : forall d s, Forall byte d -> (8 * n <= length d)%nat -> words_loop n d s = s + sum8 (firstn (8 * n) d).
Proof.
  induction n; intros d s B H; cbn [words_loop]; [cbn; lia|].
  rewrite IHn; [|apply Forall_forall; intros z Hz; rewrite Forall_forall in B; apply B; rewrite <- (firstn_skipn 8 d); apply in_or_app; right; exact Hz
                |rewrite skipn_length; lia].
  assert (Bf : Forall byte (firstn 8 d)). { apply Forall_forall; intros z Hz; rewrite Forall_forall in B; apply B. rewrite <- (firstn_skipn 8 d); apply in_or_app; left; exact Hz. }
  unfold popcount64. change 64%nat with (8 * 8)%nat.
  pose proof (ones_le_word (firstn 8 d) Bf) as E. rewrite firstn_length, Nat.min_l in E by lia. rewrite E.
  replace (8 * S n)%nat with (8 + 8 * n)%nat by lia.
  rewrite <- (firstn_skipn 8 d) at 3. rewrite firstn_app, firstn_firstn, firstn_length.
  replace (8 + 8 * n - Nat.min 8 (length d))%nat with (8 * n)%nat by lia.
  replace (Nat.min (8 + 8 * n) 8) with 8%nat by lia.
  rewrite sum8_app. lia.
Qed.
Lemma tail_word_in l : forall t, Forall byte l -> (length l <= 8)%nat -> word (64 - 8 * Z.of_nat (length l)) t ->
  ones 64 (tail_word l t) = ones 64 t + sum8 l.
Proof.
  induction l as [|x l IH]; intros t B Hl W; cbn [tail_word sum8]; [lia|]. cbn [length] in *.
  inversion B; subst.
  assert (T : forall k, 0 <= k -> Z.testbit (Z.lor (wshl 64 t 8) x) k = if k <? 8 then Z.testbit x k else Z.testbit t (k - 8)).
  { intros k Hk. rewrite Z.lor_spec, wshl_testbit by lia. destruct (Z.ltb_spec k 8).
    - destruct (Z.leb_spec 8 k); [lia|]. rewrite andb_false_r. reflexivity.
    - rewrite (word_testbit_high 8 x) by (auto; lia). rewrite orb_false_r.
      destruct (Z.leb_spec 8 k); [|lia]. destruct (Z.ltb_spec k 64); [reflexivity|].
      cbn [andb]. symmetry. apply (word_testbit_high (64 - 8 * Z.of_nat (S (length l)))); auto; lia. }
  rewrite IH; auto; [|lia|].
  - change 64%nat with (8 + 56)%nat at 1. rewrite ones_add.
    rewrite (ones_ext 8 _ x). 2:{ intros k Hk. rewrite T by lia. destruct (Z.ltb_spec (Z.of_nat k) 8); [reflexivity|lia]. }
    rewrite (ones_ext 56 _ t). 2:{ intros k Hk. rewrite Z.shiftr_spec, T by lia. destruct (Z.ltb_spec (Z.of_nat k + Z.of_nat 8) 8); [lia|]. f_equal. lia. }
    assert (ones 64 t = ones 56 t). { apply ones_high; [|lia]. destruct W as [W1 W2]. split; [auto|].
      eapply Z.lt_le_trans; [exact W2|]. apply Z.pow_le_mono_r; lia. }
    lia.
  - apply word_of_bits; [lia| |].
    + apply Z.lor_nonneg. split; [unfold wshl, wrap; apply Z.mod_pos_bound; lia|destruct H1; auto].
    + intros k Hk. rewrite T by lia. destruct (Z.ltb_spec k 8); [lia|].
      apply (word_testbit_high (64 - 8 * Z.of_nat (S (length l)))); auto; lia.
Qed.
Lemma popcount_sum d : Forall byte d -> popcount d = sum8 d.
Proof.
  intros B. unfold popcount. set (N := (length d / 8)%nat).
  pose proof (Nat.div_mod (length d) 8 ltac:(lia)) as Dm. pose proof (Nat.mod_upper_bound (length d) 8 ltac:(lia)).
  fold N in Dm. rewrite words_loop_in by (auto; lia).
  assert (Bs : Forall byte (skipn (8 * N) d)). { apply Forall_forall; intros z Hz; rewrite Forall_forall in B; apply B. rewrite <- (firstn_skipn (8 * N) d); apply in_or_app; right; exact Hz. }
  unfold popcount64. rewrite tail_word_in; auto.
  - rewrite ones_zero. rewrite <- (firstn_skipn (8 * N) d) at 3. rewrite sum8_app. lia.
  - rewrite skipn_length. lia.
  - rewrite skipn_length. split; [lia|]. apply Z.pow_pos_nonneg; lia.
Qed.
Lemma each_bit_len n : forall b item i, (b + n <= 8)%nat ->
  Z.of_nat (length (each_bit n (Z.of_nat b) item i)) = ones n (Z.shiftr item (Z.of_nat b)).
Proof.
  induction n; intros b item i H; cbn [each_bit]; [reflexivity|].
  rewrite app_length. replace (Z.of_nat b + 1) with (Z.of_nat (S b)) by lia. rewrite Nat2Z.inj_add, IHn by lia.
  change (S n) with (1 + n)%nat. rewrite ones_add, Z.shiftr_shiftr by lia.
  replace (Z.of_nat b + Z.of_nat 1) with (Z.of_nat (S b)) by lia. f_equal.
  cbn [ones]. rewrite Z.shiftr_spec by lia. change (Z.of_nat 0 + Z.of_nat b) with (Z.of_nat b).
  rewrite land_mask by lia. destruct (Z.testbit item (Z.of_nat b)); reflexivity.
Qed.
Lemma each_loop_len d : forall i, Z.of_nat (length (each_loop d i)) = sum8 d.
Proof.
  induction d as [|a d IH]; intros i; cbn [each_loop sum8]; [reflexivity|].
  rewrite app_length, Nat2Z.inj_add, IH. f_equal. destruct (Z.eqb_spec a 0); [subst; reflexivity|].
  rewrite (each_bit_len 8 0) by lia. rewrite Z.shiftr_0_r. reflexivity.
Qed.

(** ** Negative indices trap *)
Lemma has_neg d i : i < 0 -> has d i = None.
Proof.
  intros H. pose proof (bucket_neg i H). unfold has. destruct (Z.ltb_spec (bucket_of i) (len d)); [|unfold len in *; lia].
  rewrite at_neg by auto. reflexivity.
Qed.
Lemma add_neg d i : i < 0 -> add d i = None.
Proof.
  intros H. pose proof (bucket_neg i H). unfold add. destruct (Z.leb_spec (len d) (bucket_of i)); [unfold len in *; lia|].
  cbn [obind]. rewrite at_neg by auto. reflexivity.
Qed.
Lemma remove_neg d i : i < 0 -> remove d i = None.
Proof.
  intros H. pose proof (bucket_neg i H). unfold remove. destruct (Z.ltb_spec (bucket_of i) (len d)); [|unfold len in *; lia].
  rewrite at_neg by auto. reflexivity.
Qed.
Lemma clear_from_neg d i : i < 0 -> clear_from d i = None.
Proof.
  intros H. pose proof (bucket_neg i H). unfold clear_from. cbv zeta.
  set (sh := if Z.shiftl (bucket_of i) 3 <? i then bucket_of i + 1 else bucket_of i).
  destruct (if sh <? len d then resize d sh else Some d) as [d1|]; [|reflexivity]. cbn [obind].
  destruct (Z.ltb_spec (bucket_of i) (len d1)); [|unfold len in *; lia]. rewrite at_neg by auto. reflexivity.
Qed.
