(** C34: usage masks.  Slot i of a mask is bit 3 + i; the three low bits are tags. *)
From Verif Require Import UsageModel WordsLemmas.
Open Scope Z_scope.

Definition slot (q i : Z) : bool := Z.testbit q (3 + i).
Definition tag (q i : Z) : bool := Z.testbit q i.
(** q is the mask with these tags and these slots. *)
Definition mask (q : Z) (tags slots : Z -> bool) : Prop :=
  word 32 q /\ (forall i, 0 <= i < 3 -> tag q i = tags i) /\ (forall i, 0 <= i < 29 -> slot q i = slots i).

Local Lemma tags_bit i : 0 <= i -> Z.testbit q_TAGS i = (i <? 3).
Proof. intros H. change q_TAGS with (Z.ones 3). destruct (Z.ltb_spec i 3); [apply Z.ones_spec_low|apply Z.ones_spec_high]; lia. Qed.
Local Lemma ones32 : 2 ^ 32 - 1 = Z.ones 32. Proof. reflexivity. Qed.
Local Lemma ones32_bit i : 0 <= i -> Z.testbit (2 ^ 32 - 1) i = (i <? 32).
Proof. intros H. rewrite ones32. destruct (Z.ltb_spec i 32); [apply Z.ones_spec_low|apply Z.ones_spec_high]; lia. Qed.
Local Lemma usage_bit i : 0 <= i -> Z.testbit q_USAGE i = (3 <=? i) && (i <? 32).
Proof.
  intros H. unfold q_USAGE. rewrite Z.lxor_spec, tags_bit, ones32_bit by auto.
  destruct (Z.ltb_spec i 3), (Z.ltb_spec i 32), (Z.leb_spec 3 i); auto; lia.
Qed.
Local Lemma nusage_bit i : 0 <= i -> Z.testbit (Z.lxor q_USAGE (2 ^ 32 - 1)) i = (i <? 3).
Proof.
  intros H. rewrite Z.lxor_spec, usage_bit, ones32_bit by auto.
  destruct (Z.ltb_spec i 3), (Z.ltb_spec i 32), (Z.leb_spec 3 i); auto; lia.
Qed.
Local Lemma reduced_mod off : 0 <= off -> reduced off = off mod 29.
Proof.
  intros H. unfold reduced. change q_USAGE_bitsize with 29.
  assert (G : forall fuel off, 0 <= off <= Z.of_nat fuel -> reduce fuel off = off mod 29).
  { induction fuel as [|f IH]; intros o Ho; cbn [reduce]; [rewrite Z.mod_small; lia|].
    change q_USAGE_bitsize with 29. destruct (Z.leb_spec 29 o); [|rewrite Z.mod_small; lia].
    rewrite IH by lia. replace (o - 29) with (o + (-1) * 29) by lia. apply Z.mod_add. lia. }
  apply G. lia.
Qed.
Local Lemma shl_ok x k : 0 <= k < 32 -> shl32 x k = Some (wshl 32 x k).
Proof. intros H. unfold shl32. rewrite (wrap_small 32 k) by (unfold word; lia). destruct (Z.ltb_spec k 32); [reflexivity|lia]. Qed.
Local Lemma shr_ok x k : 0 <= k < 32 -> shr32 x k = Some (wshr x k).
Proof. intros H. unfold shr32. rewrite (wrap_small 32 k) by (unfold word; lia). destruct (Z.ltb_spec k 32); [reflexivity|lia]. Qed.
Local Lemma usage_word : word 32 q_USAGE. Proof. split; [discriminate|reflexivity]. Qed.
Local Lemma tags_word : word 32 q_TAGS. Proof. split; [discriminate|reflexivity]. Qed.
Local Lemma mod29 x : 0 <= x < 58 -> x mod 29 = if x <? 29 then x else x - 29.
Proof.
  intros H. destruct (Z.ltb_spec x 29); [apply Z.mod_small; lia|].
  symmetry. apply (Z.mod_unique_pos x 29 1); lia.
Qed.

(** ** A shift rotates the 29 slots and keeps the tags. *)
Theorem shift_left_rotates : forall q off, word 32 q -> 0 <= off ->
  exists r, shiftLeft q off = Some r /\ mask r (tag q) (fun i => slot q ((i - off) mod 29)).
Proof.
  intros q off Hq Ho. unfold shiftLeft. rewrite reduced_mod by auto. change q_USAGE_bitsize with 29.
  pose proof (Z.mod_pos_bound off 29 ltac:(lia)) as B.
  assert (Em : forall i, (i - off) mod 29 = (i - off mod 29) mod 29) by (intros; rewrite Zminus_mod_idemp_r; reflexivity).
  set (o := off mod 29) in *. clearbody o.
  rewrite shl_ok, shr_ok by lia. cbn [obind]. eexists. split; [reflexivity|].
  pose proof usage_word. pose proof tags_word. unfold mask, tag, slot. split; [|split].
  - apply lor_word; [lia|apply land_word_l; [lia|exact Hq]|apply land_comm_word; [lia|exact usage_word]].
  - intros i Hi. rewrite Z.lor_spec, !Z.land_spec, tags_bit, usage_bit by lia.
    destruct (Z.ltb_spec i 3), (Z.leb_spec 3 i); lia.
  - intros i Hi. rewrite Em. rewrite Z.lor_spec, !Z.land_spec, Z.lor_spec, tags_bit, usage_bit by lia.
    destruct (Z.ltb_spec (3 + i) 3), (Z.leb_spec 3 (3 + i)), (Z.ltb_spec (3 + i) 32); try lia. rewrite andb_false_r, andb_true_r. cbn [orb].
    rewrite wshl_testbit, wshr_testbit by lia.
    replace ((i - o) mod 29) with (if i <? o then i - o + 29 else i - o).
    2:{ destruct (Z.ltb_spec i o); [apply (Z.mod_unique_pos _ 29 (-1))|apply (Z.mod_unique_pos _ 29 0)]; lia. }
    destruct (Z.ltb_spec i o).
    + rewrite (Z.land_spec q q_USAGE (3 + i + (29 - o))), (usage_bit (3 + i + (29 - o))) by lia. destruct (Z.leb_spec 3 (3 + i + (29 - o))), (Z.ltb_spec (3 + i + (29 - o)) 32); try lia. 
      rewrite andb_true_r. replace (3 + i + (29 - o)) with (3 + (i - o + 29)) by lia.
      destruct (Z.ltb_spec (3 + i) 32), (Z.leb_spec o (3 + i)); cbn [andb]; try reflexivity; try lia.
      rewrite Z.land_spec, usage_bit by lia. destruct (Z.leb_spec 3 (3 + i - o)); [lia|]. rewrite !andb_false_r. reflexivity.
    + replace (Z.testbit (Z.land q q_USAGE) (3 + i + (29 - o))) with false.
      2:{ rewrite Z.land_spec, usage_bit by lia. destruct (Z.ltb_spec (3 + i + (29 - o)) 32); [lia|]. rewrite !andb_false_r. reflexivity. }
      rewrite orb_false_r. destruct (Z.ltb_spec (3 + i) 32), (Z.leb_spec o (3 + i)); cbn [andb]; try lia.
      rewrite Z.land_spec, usage_bit by lia. destruct (Z.leb_spec 3 (3 + i - o)), (Z.ltb_spec (3 + i - o) 32); try lia.
      rewrite andb_true_r. f_equal. lia.
Qed.
Print Assumptions shift_left_rotates.

Theorem shift_right_rotates : forall q off, word 32 q -> 0 <= off ->
  exists r, shiftRight q off = Some r /\ mask r (tag q) (fun i => slot q ((i + off) mod 29)).
Proof.
  intros q off Hq Ho. unfold shiftRight. rewrite reduced_mod by auto. change q_USAGE_bitsize with 29.
  pose proof (Z.mod_pos_bound off 29 ltac:(lia)) as B.
  assert (Em : forall i, (i + off) mod 29 = (i + off mod 29) mod 29) by (intros; rewrite Zplus_mod_idemp_r; reflexivity).
  set (o := off mod 29) in *. clearbody o.
  rewrite shl_ok, shr_ok by lia. cbn [obind]. eexists. split; [reflexivity|].
  pose proof usage_word. pose proof tags_word. unfold mask, tag, slot. split; [|split].
  - apply lor_word; [lia|apply land_word_l; [lia|exact Hq]|apply land_comm_word; [lia|exact usage_word]].
  - intros i Hi. rewrite Z.lor_spec, !Z.land_spec, tags_bit, usage_bit by lia.
    destruct (Z.ltb_spec i 3), (Z.leb_spec 3 i); lia.
  - intros i Hi. rewrite Em. rewrite Z.lor_spec, !Z.land_spec, Z.lor_spec, tags_bit, usage_bit by lia.
    destruct (Z.ltb_spec (3 + i) 3), (Z.leb_spec 3 (3 + i)), (Z.ltb_spec (3 + i) 32); try lia. rewrite andb_false_r, andb_true_r. cbn [orb].
    rewrite wshl_testbit, wshr_testbit by lia. rewrite mod29 by lia.
    assert (U : forall k, 0 <= k -> Z.testbit (Z.land q q_USAGE) k = Z.testbit q k && ((3 <=? k) && (k <? 32))) by (intros; rewrite Z.land_spec, usage_bit by auto; reflexivity).
    rewrite (U (3 + i + o)) by lia.
    destruct (Z.ltb_spec (i + o) 29).
    + replace ((3 <=? 3 + i + o) && (3 + i + o <? 32)) with true by lia. rewrite andb_true_r.
      replace (3 + i + o) with (3 + (i + o)) by lia.
      destruct (Z.leb_spec (29 - o) (3 + i)); [|rewrite andb_false_r; cbn [andb]; rewrite orb_false_r; reflexivity].
      rewrite U by lia. replace ((3 <=? 3 + i - (29 - o)) && (3 + i - (29 - o) <? 32)) with false by lia. rewrite !andb_false_r, orb_false_r. reflexivity.
    + replace ((3 <=? 3 + i + o) && (3 + i + o <? 32)) with false by lia. rewrite andb_false_r. cbn [orb].
      replace ((3 + i <? 32) && (29 - o <=? 3 + i)) with true by lia. cbn [andb].
      rewrite U by lia. replace ((3 <=? 3 + i - (29 - o)) && (3 + i - (29 - o) <? 32)) with true by lia. rewrite andb_true_r. f_equal. lia.
Qed.
Print Assumptions shift_right_rotates.

(** ** The full mask of n slots is exactly the first n slots. *)
Theorem max_usage_is_the_first_slots : forall n, 0 <= n ->
  exists r, getMaxUsage n = Some r /\ mask r (fun _ => false) (fun i => i <? n).
Proof.
  intros n Hn. unfold getMaxUsage. change q_USAGE_bitsize with 29. destruct (Z.leb_spec 29 n).
  - exists q_USAGE. split; [reflexivity|]. split; [exact usage_word|]. unfold tag, slot. split; intros i Hi; rewrite usage_bit by lia.
    + destruct (Z.leb_spec 3 i); [lia|reflexivity].
    + destruct (Z.leb_spec 3 (3 + i)), (Z.ltb_spec (3 + i) 32), (Z.ltb_spec i n); auto; lia.
  - rewrite shr_ok by lia. cbn [obind]. eexists. split; [reflexivity|]. split; [apply land_comm_word; [lia|exact usage_word]|].
    unfold tag, slot. split; intros i Hi; rewrite Z.land_spec, wshr_testbit, !usage_bit by lia.
    + destruct (Z.leb_spec 3 i); [lia|]. rewrite andb_false_r. reflexivity.
    + destruct (Z.leb_spec 3 (3 + i)), (Z.ltb_spec (3 + i) 32), (Z.ltb_spec i n), (Z.leb_spec 3 (3 + i + (29 - n))), (Z.ltb_spec (3 + i + (29 - n)) 32); auto; lia.
Qed.
Print Assumptions max_usage_is_the_first_slots.

(** ** The region mask is the slots off .. off + n. *)
Theorem region_usage_is_the_region : forall off n, 0 <= off -> 0 <= n ->
  exists r, getRegionUsage off n = Some r /\ mask r (fun _ => false) (fun i => (i - off) mod 29 <? n).
Proof.
  intros off n Ho Hn. unfold getRegionUsage. destruct (max_usage_is_the_first_slots n Hn) as (m & -> & Wm & Tm & Sm). cbn [obind].
  destruct (shift_left_rotates m off Wm Ho) as (r & -> & Wr & Tr & Sr). exists r. split; [reflexivity|]. split; [exact Wr|].
  split; intros i Hi; [rewrite Tr, Tm by auto; reflexivity|]. rewrite Sr by auto. apply Sm. apply Z.mod_pos_bound. lia.
Qed.
Print Assumptions region_usage_is_the_region.

(** ** A field's usage in its struct's mask.  Its tags are kept and its slots move by the offset. *)
Theorem struct_usage_places_the_field : forall q off, word 32 q -> 0 <= off ->
  exists r, structUsageFromFieldUsage q off = Some r /\ mask r (tag q) (fun i => slot q ((i - off) mod 29)).
Proof. exact shift_left_rotates. Qed.
Print Assumptions struct_usage_places_the_field.

(** Reading a field back gives the struct's slots from the offset on, cut at the field's size, and
    the tags of both arguments: callers pass a struct usage without tags. *)
Theorem field_usage_reads_the_slots : forall q su off n, word 32 q -> word 32 su -> 0 <= off -> 0 <= n ->
  exists r, fieldUsageFromStructUsage q su off n = Some r /\
    mask r (fun i => tag q i || tag su i) (fun i => (i <? n) && slot su ((i + off) mod 29)).
Proof.
  intros q su off n Hq Hs Ho Hn. unfold fieldUsageFromStructUsage.
  set (x := Z.lor (Z.land q (Z.lxor q_USAGE (2 ^ 32 - 1))) su).
  assert (Wx : word 32 x) by (apply lor_word; [lia|apply land_word_l; [lia|exact Hq]|exact Hs]).
  destruct (shift_right_rotates x off Wx Ho) as (r & -> & Wr & Tr & Sr). cbn [obind].
  destruct (max_usage_is_the_first_slots n Hn) as (m & -> & Wm & Tm & Sm). cbn [obind].
  eexists. split; [reflexivity|]. split; [apply land_word_l; [lia|exact Wr]|]. unfold tag, slot in *. split; intros i Hi.
  - rewrite Z.land_spec, Z.lor_spec, tags_bit, Tr by lia. unfold x. rewrite Z.lor_spec, Z.land_spec, nusage_bit by lia.
    destruct (Z.ltb_spec i 3); [|lia]. cbn. rewrite !andb_true_r. reflexivity.
  - rewrite Z.land_spec, Z.lor_spec, tags_bit, Sr, Sm by lia. unfold x.
    pose proof (Z.mod_pos_bound (i + off) 29 ltac:(lia)). rewrite Z.lor_spec, Z.land_spec, nusage_bit by lia.
    destruct (Z.ltb_spec (3 + i) 3), (Z.ltb_spec (3 + (i + off) mod 29) 3); lia.
Qed.
Print Assumptions field_usage_reads_the_slots.

(** ** Round trip: put any number of fields into one struct mask and read one back.
    fields: their (usage, offset, count); the struct mask is the union of what each contributes.
    When the struct has at most 29 slots each field comes back exactly. *)
Fixpoint struct_mask (fields : list (Z * Z * Z)) : option Z :=
  match fields with
  | [] => Some 0
  | (q, off, _) :: fs => do a <- structUsageFromFieldUsage q off; do b <- struct_mask fs; Some (Z.lor a b)
  end.
(** A field: its usage has no tags and no slot past its size. *)
Definition field_ok (f : Z * Z * Z) : Prop :=
  let '(q, off, n) := f in word 32 q /\ 0 <= off /\ 0 <= n /\
  (forall i, 0 <= i < 3 -> tag q i = false) /\ (forall i, n <= i < 29 -> slot q i = false).

Local Lemma struct_mask_spec fields : Forall field_ok fields ->
  exists m, struct_mask fields = Some m /\ mask m (fun _ => false)
    (fun i => existsb (fun f => let '(q, off, n) := f in slot q ((i - off) mod 29)) fields).
Proof.
  induction 1 as [|[[q off] n] fs (Hq & Ho & Hn & Ht & Hs) _ IH].
  - exists 0. split; [reflexivity|]. split; [split; [lia|reflexivity]|]. unfold tag, slot. split; intros; apply Z.testbit_0_l.
  - cbn [struct_mask existsb]. destruct (struct_usage_places_the_field q off Hq Ho) as (a & -> & Wa & Ta & Sa).
    destruct IH as (b & -> & Wb & Tb & Sb). cbn [obind]. eexists. split; [reflexivity|].
    split; [apply lor_word; [lia|exact Wa|exact Wb]|]. unfold tag, slot in *. split; intros i Hi; rewrite Z.lor_spec.
    + rewrite Ta, Tb, Ht by auto. reflexivity.
    + rewrite Sa, Sb by auto. reflexivity.
Qed.

Theorem fields_round_trip : forall pre q off n post t, let fields := pre ++ (q, off, n) :: post in
  Forall field_ok fields -> word 32 t ->
  (* the fields fit into one mask and do not overlap *)
  Forall (fun f => let '(_, o, c) := f in o + c <= 29) fields ->
  Forall (fun f => let '(_, o, c) := f in o + c <= off \/ off + n <= o) (pre ++ post) ->
  exists m r, struct_mask fields = Some m /\ fieldUsageFromStructUsage t m off n = Some r /\
    mask r (tag t) (slot q).
Proof.
  intros pre q off n post t fields Hf Ht Hfit Hdis.
  destruct (struct_mask_spec fields Hf) as (m & Em & Wm & Tm & Sm).
  assert (Hq : field_ok (q, off, n)) by (eapply Forall_forall; [exact Hf|apply in_elt]).
  assert (Hqf : off + n <= 29) by (apply (proj1 (Forall_forall _ _) Hfit (q, off, n)); apply in_elt).
  destruct Hq as (Hq & Ho & Hn & Hqt & Hqs).
  destruct (field_usage_reads_the_slots t m off n Ht Wm Ho Hn) as (r & Er & Wr & Tr & Sr).
  exists m, r. split; [exact Em|]. split; [exact Er|]. split; [exact Wr|]. split; intros i Hi.
  - rewrite Tr, Tm by auto. apply orb_false_r.
  - rewrite Sr by auto. destruct (Z.ltb_spec i n); cbn [andb]; [|symmetry; apply Hqs; lia].
    rewrite (Z.mod_small (i + off) 29) by lia. rewrite Sm by lia.
    unfold fields. rewrite existsb_app. cbn [existsb]. replace (i + off - off) with i by lia. rewrite (Z.mod_small i 29) by lia.
    assert (N : forall l, Forall field_ok l -> Forall (fun f => let '(_, o, c) := f in o + c <= 29) l ->
       Forall (fun f => let '(_, o, c) := f in o + c <= off \/ off + n <= o) l ->
       existsb (fun f => let '(q, o, _) := f in slot q ((i + off - o) mod 29)) l = false).
    { intros l L1 L2 L3. induction l as [|[[q' o'] c'] l IH]; [reflexivity|].
      inversion L1 as [|? ? K L1']; subst. destruct K as (K1 & K2 & K3 & K4 & K5). inversion L2; subst. inversion L3; subst. cbn [existsb].
      rewrite IH by auto. rewrite orb_false_r. apply K5.
      pose proof (Z.mod_pos_bound (i + off - o') 29 ltac:(lia)). split; [|lia].
      destruct (Z.leb_spec o' (i + off)); [rewrite Z.mod_small; lia|].
      replace (i + off - o') with (i + off - o' + 29 + (-1) * 29) by lia. rewrite Z.mod_add, Z.mod_small by lia. lia. }
    apply Forall_app in Hf. destruct Hf as [F1 F2]. inversion F2; subst.
    apply Forall_app in Hfit. destruct Hfit as [G1 G2]. inversion G2; subst.
    apply Forall_app in Hdis. destruct Hdis as [D1 D2].
    rewrite (N pre), (N post) by auto. rewrite orb_false_r. reflexivity.
Qed.
Print Assumptions fields_round_trip.

(** Past 29 slots masks are shared, but nothing used is ever lost. *)
Theorem fields_never_lost : forall pre q off n post t, let fields := pre ++ (q, off, n) :: post in
  Forall field_ok fields -> word 32 t ->
  exists m r, struct_mask fields = Some m /\ fieldUsageFromStructUsage t m off n = Some r /\
    forall i, 0 <= i < 29 -> slot q i = true -> slot r i = true.
Proof.
  intros pre q off n post t fields Hf Ht.
  destruct (struct_mask_spec fields Hf) as (m & Em & Wm & Tm & Sm).
  assert (Hq : field_ok (q, off, n)) by (eapply Forall_forall; [exact Hf|apply in_elt]).
  destruct Hq as (Hq & Ho & Hn & Hqt & Hqs).
  destruct (field_usage_reads_the_slots t m off n Ht Wm Ho Hn) as (r & Er & Wr & Tr & Sr).
  exists m, r. split; [exact Em|]. split; [exact Er|]. intros i Hi Hs. rewrite Sr by auto.
  destruct (Z.ltb_spec i n); [|rewrite Hqs in Hs by lia; discriminate]. cbn [andb].
  rewrite Sm by (apply Z.mod_pos_bound; lia). apply existsb_exists. exists (q, off, n). split; [apply in_elt|].
  rewrite Zminus_mod_idemp_l. replace (i + off - off) with i by lia. rewrite Z.mod_small by lia. exact Hs.
Qed.
Print Assumptions fields_never_lost.

(** ** A mask is turned into the least region that covers its slots. *)
Theorem mask_region_is_the_hull : forall q, word 32 q -> (exists i, 0 <= i < 29 /\ slot q i = true) ->
  exists off n, mask_region q = Some (off, n) /\ 0 <= off /\ 0 < n /\ off + n <= 29 /\
    (forall i, 0 <= i < 29 -> slot q i = true -> off <= i < off + n) /\
    slot q off = true /\ slot q (off + n - 1) = true.
Proof.
  intros q Hq (i0 & Hi0 & Hs0). unfold mask_region.
  set (u := Z.land q q_USAGE).
  assert (Ub : forall i, 0 <= i -> Z.testbit u i = Z.testbit q i && ((3 <=? i) && (i <? 32))) by (intros; unfold u; rewrite Z.land_spec, usage_bit by auto; reflexivity).
  assert (Wu : word 32 u) by (apply land_word_l; [lia|exact Hq]).
  assert (U0 : Z.testbit u (3 + i0) = true).
  { rewrite Ub by lia. unfold slot in Hs0. rewrite Hs0. destruct (Z.leb_spec 3 (3 + i0)), (Z.ltb_spec (3 + i0) 32); auto; lia. }
  assert (Nz : 0 < u). { destruct Wu. destruct (Z.eq_dec u 0) as [E|]; [rewrite E, Z.testbit_0_l in U0; discriminate|lia]. }
  unfold clz, ctz. destruct (Z.eqb_spec u 0); [lia|]. cbn [obind].
  assert (C : forall fuel k, 0 <= k -> (forall i, 0 <= i < k -> Z.testbit u i = false) -> 32 <= k + Z.of_nat fuel ->
     let t := ctz_loop fuel u k in 0 <= t /\ Z.testbit u t = true /\ forall i, 0 <= i < t -> Z.testbit u i = false).
  { induction fuel as [|f IH]; intros k Hk Hlow Hf; cbn [ctz_loop].
    - exfalso. rewrite Hlow in U0 by lia. discriminate.
    - destruct (Z.testbit u k) eqn:E; [cbv zeta; auto|]. apply IH; [lia| |lia]. intros i Hi. destruct (Z.eq_dec i k) as [->|]; [exact E|]. apply Hlow. lia. }
  destruct (C 32%nat 0 ltac:(lia) ltac:(lia) ltac:(lia)) as (T0 & T1 & T2). set (t := ctz_loop 32 u 0) in *. clearbody t.
  assert (L1 : Z.testbit u (Z.log2 u) = true) by (apply Z.bit_log2; lia).
  pose proof (Z.log2_nonneg u) as L0.
  assert (L2 : forall i, Z.log2 u < i -> Z.testbit u i = false) by (intros; apply Z.bits_above_log2; lia).
  set (l := Z.log2 u) in *. clearbody l.
  assert (R : forall i, 0 <= i -> Z.testbit u i = true -> 3 <= i < 32 /\ Z.testbit q i = true).
  { intros i Hi E. rewrite Ub in E by lia. apply andb_true_iff in E. destruct E as [E1 E2]. apply andb_true_iff in E2. destruct E2 as [E2 E3].
    apply Z.leb_le in E2. apply Z.ltb_lt in E3. auto. }
  destruct (R t T0 T1) as [Rt Qt]. destruct (R l L0 L1) as [Rl Ql].
  exists (t - 3), (29 - (t - 3) - (31 - l)). change q_USAGE_offset with 3. change q_USAGE_bitsize with 29.
  assert (Hrange : forall i, 0 <= i < 29 -> slot q i = true -> t <= 3 + i <= l).
  { intros i Hi Hs. assert (E : Z.testbit u (3 + i) = true).
    { rewrite Ub by lia. unfold slot in Hs. rewrite Hs. destruct (Z.leb_spec 3 (3 + i)), (Z.ltb_spec (3 + i) 32); auto; lia. }
    split.
    - destruct (Z.lt_ge_cases (3 + i) t) as [H|H]; [rewrite T2 in E by lia; discriminate|lia].
    - destruct (Z.lt_ge_cases l (3 + i)) as [H|H]; [rewrite L2 in E by lia; discriminate|lia]. }
  assert (t <= l). { specialize (Hrange (t - 3) ltac:(lia)). unfold slot in Hrange. replace (3 + (t - 3)) with t in Hrange by lia. specialize (Hrange Qt). lia. }
  split; [reflexivity|]. split; [lia|]. split; [lia|]. split; [lia|]. split.
  - intros i Hi Hs. specialize (Hrange i Hi Hs). lia.
  - unfold slot. replace (3 + (t - 3)) with t by lia. replace (3 + (t - 3 + (29 - (t - 3) - (31 - l)) - 1)) with l by lia. auto.
Qed.
Print Assumptions mask_region_is_the_hull.

(** An empty mask has no region: clz and ctz of 0 are undefined. *)
Theorem mask_region_refuted : mask_region 0 = None.
Proof. reflexivity. Qed.
Print Assumptions mask_region_refuted.

(** ** Non-vacuity: two fields, slots 0-1 of 2 at offset 3 and slot 1 of 4 at offset 5. *)
Example usage_example : Forall field_ok [(24, 3, 2); (16, 5, 4)] /\
  struct_mask [(24, 3, 2); (16, 5, 4)] = Some (wshl 32 24 3 + wshl 32 16 5) /\
  fieldUsageFromStructUsage 1 (wshl 32 24 3 + wshl 32 16 5) 5 4 = Some 17.
Proof.
  split; [|split; reflexivity]. constructor; [|constructor; [|constructor]];
  (refine (conj _ (conj _ (conj _ (conj _ _)))); [split; [lia|reflexivity]|lia|lia| |]).
  - intros i Hi. assert (H : i = 0 \/ i = 1 \/ i = 2) by lia. destruct H as [->|[->| ->]]; reflexivity.
  - intros i Hi. apply (word_testbit_high 5); [split; [lia|reflexivity]|lia|lia].
  - intros i Hi. assert (H : i = 0 \/ i = 1 \/ i = 2) by lia. destruct H as [->|[->| ->]]; reflexivity.
  - intros i Hi. apply (word_testbit_high 5); [split; [lia|reflexivity]|lia|lia].
Qed.
