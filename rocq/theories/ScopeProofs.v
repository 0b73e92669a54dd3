(** Proofs about ScopeModel. *)
From Verif Require Import CommonLemmas ScopeModel ScopeSpec.
Open Scope Z_scope.

(** ** Bits of a scope item *)
Lemma land_bit p n : 0 <= n -> negb (Z.land p (2 ^ n) =? 0) = Z.testbit p n.
Proof.
  intros Hn. destruct (Z.testbit p n) eqn:E.
  - destruct (Z.eqb_spec (Z.land p (2 ^ n)) 0) as [X|X]; auto.
    assert (Y : Z.testbit (Z.land p (2 ^ n)) n = true) by (rewrite Z.land_spec, E, Z.pow2_bits_true; auto).
    rewrite X, Z.bits_0 in Y. discriminate.
  - replace (Z.land p (2 ^ n)) with 0; [reflexivity|]. apply Z.bits_inj'. intros i Hi.
    rewrite Z.bits_0, Z.land_spec. destruct (Z.eq_dec n i) as [<-|D]; [rewrite E; auto|].
    rewrite Z.pow2_bits_false by congruence. apply eq_sym, andb_false_r.
Qed.
Lemma shadows_bit si : si_shadows si = Z.testbit (si_packed si) 63.
Proof. unfold si_shadows. change BIT63 with (2 ^ 63). apply land_bit. lia. Qed.
Lemma skip_bit si : si_canSkipRest si = Z.testbit (si_packed si) 62.
Proof. unfold si_canSkipRest. change BIT62 with (2 ^ 62). apply land_bit. lia. Qed.
Lemma target_bits si i : 0 <= i -> Z.testbit (si_target si) i = if i <? 62 then Z.testbit (si_packed si) i else false.
Proof.
  intros Hi. unfold si_target. change LOW62 with (Z.ones 62). rewrite Z.land_spec.
  destruct (Z.ltb_spec i 62); [rewrite Z.ones_spec_low by lia; apply andb_true_r|rewrite Z.ones_spec_high by lia; apply andb_false_r].
Qed.
Lemma target_ext a b : (forall i, 0 <= i < 62 -> Z.testbit (si_packed a) i = Z.testbit (si_packed b) i) -> si_target a = si_target b.
Proof. intros H. apply Z.bits_inj'. intros i Hi. rewrite !target_bits by auto. destruct (Z.ltb_spec i 62); auto. Qed.
Lemma target_low p : si_target p = si_packed p mod 2 ^ 62.
Proof. unfold si_target. change LOW62 with (Z.ones 62). apply Z.land_ones. lia. Qed.

Lemma new_target id t sh : 0 <= t < 2 ^ 62 -> si_target (ScopeItem id t sh) = t.
Proof.
  intros Ht. transitivity (si_target (Item id t)).
  - apply target_ext. intros i Hi. cbn [ScopeItem si_packed]. change LOW62 with (Z.ones 62).
    rewrite Z.lor_spec, Z.land_spec, Z.ones_spec_low, andb_true_r by lia.
    destruct sh; [|rewrite Z.bits_0; apply orb_false_r].
    change BIT63 with (2 ^ 63). rewrite Z.pow2_bits_false by lia. apply orb_false_r.
  - rewrite target_low. apply Z.mod_small. exact Ht.
Qed.
Lemma new_shadows id t sh : si_shadows (ScopeItem id t sh) = sh.
Proof.
  rewrite shadows_bit. cbn [ScopeItem si_packed]. change LOW62 with (Z.ones 62).
  rewrite Z.lor_spec, Z.land_spec, Z.ones_spec_high, andb_false_r by lia. destruct sh; reflexivity.
Qed.
Lemma new_skip id t sh : si_canSkipRest (ScopeItem id t sh) = false.
Proof.
  rewrite skip_bit. cbn [ScopeItem si_packed]. change LOW62 with (Z.ones 62).
  rewrite Z.lor_spec, Z.land_spec, Z.ones_spec_high, andb_false_r by lia. destruct sh; reflexivity.
Qed.
Lemma set_bits si i : 0 <= i -> Z.testbit (si_packed (canSkipRest_set si)) i = (i =? 62) || Z.testbit (si_packed si) i.
Proof.
  intros Hi. cbn [canSkipRest_set si_packed]. rewrite Z.lor_spec. change BIT62 with (2 ^ 62). rewrite Z.pow2_bits_eqb by lia.
  rewrite (Z.eqb_sym 62 i). apply orb_comm.
Qed.
Lemma clear_bits si i : 0 <= i < 64 -> Z.testbit (si_packed (canSkipRest_clear si)) i = negb (i =? 62) && Z.testbit (si_packed si) i.
Proof.
  intros Hi. cbn [canSkipRest_clear si_packed]. rewrite Z.land_spec.
  replace (2 ^ 64 - 1 - BIT62) with (Z.lxor (Z.ones 64) (2 ^ 62)) by reflexivity.
  rewrite Z.lxor_spec, Z.ones_spec_low, Z.pow2_bits_eqb by lia. rewrite (Z.eqb_sym 62 i).
  destruct (i =? 62); cbn; [apply andb_false_r|apply andb_true_r].
Qed.

Definition strip (si : scope_item) : binding := Bind (si_id si) (si_target si) (si_shadows si).
Lemma strip_new id t sh : 0 <= t < 2 ^ 62 -> strip (ScopeItem id t sh) = Bind id t sh.
Proof. intros H. unfold strip. rewrite new_target, new_shadows by auto. reflexivity. Qed.
Lemma strip_set si : strip (canSkipRest_set si) = strip si.
Proof.
  unfold strip. rewrite !shadows_bit, set_bits by lia. cbn [orb]. f_equal. apply target_ext. intros i Hi. rewrite set_bits by lia.
  destruct (Z.eqb_spec i 62); [lia|reflexivity].
Qed.
Lemma set_skip si : si_canSkipRest (canSkipRest_set si) = true.
Proof. rewrite skip_bit, set_bits by lia. reflexivity. Qed.
Lemma strip_clear si : strip (canSkipRest_clear si) = strip si.
Proof.
  unfold strip. rewrite !shadows_bit, clear_bits by lia. cbn [andb negb Z.eqb]. f_equal. apply target_ext. intros i Hi.
  rewrite clear_bits by lia. destruct (Z.eqb_spec i 62); [lia|reflexivity].
Qed.
Lemma clear_skip si : si_canSkipRest (canSkipRest_clear si) = false.
Proof. rewrite skip_bit, clear_bits by lia. reflexivity. Qed.

Lemma str_eqb_eq a b : str_eqb a b = true <-> a = b.
Proof.
  revert b. induction a as [|x a IH]; intros [|y b]; cbn; split; try discriminate; auto.
  - intros H. apply andb_true_iff in H. destruct H as [H G]. apply Z.eqb_eq in H. apply IH in G. congruence.
  - intros [= -> ->]. rewrite Z.eqb_refl. apply IH. reflexivity.
Qed.

(** ** Skips *)
Definition hid (skips : list scope_skip) (k : nat) : bool :=
  existsb (fun s => (sk_start s <=? Z.of_nat k) && (Z.of_nat k <? sk_end s)) skips.
Lemma hid_spec skips k : hid skips k = true <-> hidden skips (Z.of_nat k).
Proof.
  unfold hid, hidden. rewrite existsb_exists. split; intros (s & i & H); exists s; split; auto.
  - apply andb_true_iff in H. destruct H as [H G]. apply Z.leb_le in H. apply Z.ltb_lt in G. lia.
  - apply andb_true_iff. split; [apply Z.leb_le|apply Z.ltb_lt]; lia.
Qed.
Lemma hid_false skips k : hid skips k = false <-> ~ hidden skips (Z.of_nat k).
Proof. rewrite <- hid_spec. destruct (hid skips k); split; congruence. Qed.

Lemma tidy_le skips : forall lo hi, tidy_skips lo skips hi -> lo <= hi.
Proof. induction skips as [|s r IH]; cbn; intros lo hi H; auto. destruct H as (a & b & c). apply IH in c. lia. Qed.
Lemma tidy_in skips : forall lo hi, tidy_skips lo skips hi -> forall s, In s skips -> lo <= sk_start s /\ sk_start s < sk_end s /\ sk_end s <= hi.
Proof.
  induction skips as [|s r IH]; cbn; intros lo hi H x i; [tauto|]. destruct H as (a & b & c). destruct i as [<-|i].
  - apply tidy_le in c. lia.
  - destruct (IH _ _ c x i) as (d & e & f). lia.
Qed.
Lemma tidy_weaken skips : forall lo hi hi', tidy_skips lo skips hi -> hi <= hi' -> tidy_skips lo skips hi'.
Proof. induction skips as [|s r IH]; cbn; intros lo hi hi' H L; [lia|]. destruct H as (a & b & c). repeat split; auto. eapply IH; eauto. Qed.
Lemma tidy_lower skips lo lo' hi : tidy_skips lo skips hi -> lo' <= lo -> tidy_skips lo' skips hi.
Proof. destruct skips as [|s r]; cbn; intros H L; [lia|]. destruct H as (a & b & c). repeat split; auto. lia. Qed.
Lemma tidy_snoc skips : forall lo s hi, tidy_skips lo (skips ++ [s]) hi <->
  tidy_skips lo skips (sk_start s) /\ sk_start s < sk_end s /\ sk_end s <= hi.
Proof.
  induction skips as [|x r IH]; cbn; intros lo s hi; [tauto|]. rewrite IH. tauto.
Qed.
Lemma hidden_bound lo skips hi k : tidy_skips lo skips hi -> hidden skips k -> lo <= k < hi.
Proof. intros T (s & i & r). destruct (tidy_in _ _ _ T s i) as (a & b & c). lia. Qed.

Lemma push_ok skips lo start end_ : tidy_skips lo skips start -> 0 <= lo -> start <= end_ ->
  exists skips', ScopeSkip_push skips start end_ = Some skips' /\ tidy_skips lo skips' end_ /\
    forall k, hidden skips' k <-> hidden skips k \/ start <= k < end_.
Proof.
  intros T Hlo L. unfold ScopeSkip_push. rewrite (proj2 (Z.leb_le _ _) L). cbn [negb].
  destruct (Z.eqb_spec end_ start) as [->|D].
  { exists skips. split; auto. split; auto. intros k. split; [auto|]. intros [H|H]; [auto|lia]. }
  destruct skips as [|s0 r] eqn:E.
  { cbn [if_last last sk_end]. pose proof (tidy_le _ _ _ T). rewrite (proj2 (Z.leb_le 0 start)) by lia. cbn [negb].
    exists [Skip start end_]. split; auto. split; [cbn in *; lia|]. intros k. unfold hidden. cbn. split.
    - intros (s & [<-|[]] & X). auto.
    - intros [(s & [] & _)|X]. exists (Skip start end_). auto. }
  assert (Ne : skips <> []) by (rewrite E; discriminate). rewrite <- E in *. clear s0 r E.
  destruct (exists_last Ne) as (r & s & ->). unfold if_last. rewrite last_last, removelast_last.
  apply tidy_snoc in T. destruct T as (a & b & c). rewrite (proj2 (Z.leb_le _ _) c). cbn [negb].
  destruct (Z.eqb_spec (sk_end s) start) as [e|D'].
  - eexists. split; [reflexivity|]. split; [apply tidy_snoc; cbn; repeat split; auto; lia|].
    intros k. unfold hidden. split.
    + intros (x & i & H). apply in_app_or in i. destruct i as [i|[<-|[]]]; [left; exists x; split; auto; apply in_or_app; auto|].
      cbn in H. destruct (Z.ltb_spec k (sk_end s)); [left; exists s; split; [apply in_or_app; cbn; auto|lia]|right; lia].
    + intros [(x & i & H)|H].
      * apply in_app_or in i. destruct i as [i|[<-|[]]]; [exists x; split; auto; apply in_or_app; auto|].
        exists (Skip (sk_start s) end_). split; [apply in_or_app; cbn; auto|cbn; lia].
      * exists (Skip (sk_start s) end_). split; [apply in_or_app; cbn; auto|cbn; lia].
  - eexists. split; [reflexivity|]. split.
    { apply tidy_snoc. cbn. split; [apply tidy_snoc; auto|lia]. }
    intros k. unfold hidden. split.
    + intros (x & i & H). apply in_app_or in i. destruct i as [i|[<-|[]]]; [left; exists x; auto|right; exact H].
    + intros [(x & i & H)|H]; [exists x; split; auto; apply in_or_app; auto|].
      exists (Skip start end_). split; [apply in_or_app; cbn; auto|exact H].
Qed.

(** ** nextSkip *)
Fixpoint desc (rskips : list scope_skip) : Prop :=
  match rskips with
  | [] => True
  | s :: r => 0 <= sk_start s < sk_end s /\ (forall x, In x r -> sk_end x <= sk_start s) /\ desc r
  end.
Lemma tidy_desc skips : forall lo hi, 0 <= lo -> tidy_skips lo skips hi -> desc (rev skips).
Proof.
  induction skips as [|s r IH] using rev_ind; intros lo hi L T; [exact I|]. apply tidy_snoc in T. destruct T as (a & b & c).
  rewrite rev_app_distr. cbn. split; [pose proof (tidy_le _ _ _ a); lia|]. split.
  - intros x i. apply in_rev in i. destruct (tidy_in _ _ _ a x i). lia.
  - eapply IH; eauto.
Qed.
Lemma nextSkip_loop_ok r : desc r -> forall it trap it' trap', nextSkip_loop r it trap = (it', trap') -> -1 <= it ->
  -1 <= it' <= it /\ (forall q, it' < q <= it -> hidden r q) /\
  (forall s, In s r -> it' < sk_start s \/ sk_end s - 1 <= trap' /\ trap' < it') /\
  (trap' = trap \/ trap' < it' /\ exists s, In s r /\ trap' = sk_end s - 1).
Proof.
  induction r as [|s r IH]; cbn [nextSkip_loop desc]; intros D it trap it' trap' E L.
  { injection E as <- <-. repeat split; auto; try lia. intros s []. }
  destruct D as (A & B & C). destruct (Z.ltb_spec (sk_end s - 1) it) as [X|X].
  - injection E as <- <-. repeat split; try lia.
    + intros x [<-|i]; right; [lia|]. specialize (B x i). lia.
    + right. split; auto. exists s. cbn. auto.
  - apply IH in E; auto; [|destruct (Z.ltb_spec (sk_start s - 1) it); lia].
    destruct E as (a & b & c & d). assert (M : it' < sk_start s) by (destruct (Z.ltb_spec (sk_start s - 1) it); lia).
    repeat split; try (destruct (Z.ltb_spec (sk_start s - 1) it); lia).
    + intros q Hq. destruct (Z_lt_le_dec q (sk_start s)) as [Y|Y].
      * destruct (b q) as (x & i & H); [destruct (Z.ltb_spec (sk_start s - 1) it); lia|]. exists x. cbn. auto.
      * exists s. cbn. split; auto. lia.
    + intros x [<-|i]; [auto|]. destruct (c x i); auto.
    + destruct d as [d|(d & x & i & e)]; [auto|]. right. split; auto. exists x. cbn. auto.
Qed.

(** the state of the loop: no skip starts at or below [p] unless the trap stands at or above its end *)
Definition armed (skips : list scope_skip) (p trap : Z) : Prop :=
  (forall s, In s skips -> p < sk_start s \/ sk_end s - 1 <= trap /\ trap <= p) /\
  (trap = -1 \/ exists s, In s skips /\ trap = sk_end s - 1).
Lemma nextSkip_ok skips hi len it trap : tidy_skips 0 skips hi -> -1 <= it < len -> (trap = -1 \/ exists s, In s skips /\ trap = sk_end s - 1) ->
  trap < len -> 0 <= len ->
  exists it' trap', nextSkip skips len it trap = Some (it', trap') /\ -1 <= it' <= it /\
    (forall q, it' < q <= it -> hidden skips q) /\ ~ hidden skips it' /\ armed skips it' trap' /\ trap' < len.
Proof.
  intros T L Tr Tl Ln. unfold nextSkip. destruct (nextSkip_loop (rev skips) it trap) as [it' trap'] eqn:E.
  apply nextSkip_loop_ok in E; [|apply (tidy_desc skips 0 hi); [lia|exact T]|lia]. destruct E as (a & b & c & d). cbn [snd].
  assert (Hl : trap' < len) by (destruct d as [->|(d & _)]; lia).
  rewrite (proj2 (Z.leb_gt _ _)) by lia. exists it', trap'. split; auto. split; auto. split; [|split; [|split; [split|exact Hl]]].
  - intros q Hq. destruct (b q Hq) as (s & i & H). exists s. split; auto. apply in_rev; auto.
  - intros (s & i & H). apply in_rev in i. destruct (c s i); lia.
  - intros s i. apply in_rev in i. destruct (c s i); lia.
  - destruct d as [->|(d & s & i & e)]; auto. right. exists s. split; auto. apply in_rev; auto.
Qed.

(** ** The loop over the items *)
Lemma at_lt {A} (l : list A) i : 0 <= i < slen l -> exists x, at_ l i = Some x.
Proof.
  intros H. unfold at_, slen in *. destruct (Z.ltb_spec i 0); [lia|]. apply nth_error_ex. lia.
Qed.
Lemma at_Some {A} (l : list A) i x : at_ l i = Some x -> 0 <= i < slen l /\ nth_error l (Z.to_nat i) = Some x.
Proof.
  unfold at_, slen. destruct (Z.ltb_spec i 0); [discriminate|]. intros H'. pose proof (nth_error_lt _ _ _ H'). split; auto. lia.
Qed.
Lemma at_nat {A} (l : list A) i : at_ l (Z.of_nat i) = nth_error l i.
Proof. unfold at_. destruct (Z.ltb_spec (Z.of_nat i) 0); [lia|]. rewrite Nat2Z.id. reflexivity. Qed.

Definition misses (items : list scope_item) (id : list Z) (skips : list scope_skip) (q : Z) : Prop :=
  hidden skips q \/ forall item, at_ items q = Some item -> si_id item <> id.

Lemma scan_ok items id skips hi : tidy_skips 0 skips hi -> forall turns p trap,
  -1 <= p < slen items -> armed skips p trap -> trap < slen items -> p + 1 < Z.of_nat turns ->
  exists r, scan turns items id skips (p + 1) trap = Some r /\
    match r with
    | Some (k, item) => 0 <= k <= p /\ at_ items k = Some item /\ si_id item = id /\ ~ hidden skips k /\
                        forall q, k < q <= p -> misses items id skips q
    | None => forall q, 0 <= q <= p -> misses items id skips q
    end.
Proof.
  intros T. induction turns as [|turns IH]; intros p trap P A Tl F; [lia|]. cbn [scan].
  destruct (Z.leb_spec (p + 1) 0) as [X|X].
  { exists None. split; auto. intros q Q. lia. }
  replace (p + 1 - 1) with p by lia. destruct (Z.eqb_spec p trap) as [<-|D].
  - destruct A as [A1 A2].
    assert (Hh : hidden skips p).
    { destruct A2 as [A2|(s & i & e)]; [lia|]. exists s. split; auto. pose proof (tidy_in _ _ _ T s i). lia. }
    destruct (nextSkip_ok skips hi (slen items) p p T) as (p' & t' & E & a & b & c & d & e); [lia|exact A2|lia|lia|].
    rewrite E. cbn [obind fst snd].
    assert (p' < p) by (destruct (Z.eq_dec p' p) as [->|]; [contradiction|lia]).
    destruct (IH p' t') as (r & R & K); [lia|exact d|exact e|lia|]. exists r. split; [exact R|].
    destruct r as [[k item]|].
    + destruct K as (k1 & k2 & k3 & k4 & k5). repeat split; auto; try lia. intros q Q.
      destruct (Z_le_gt_dec q p'); [apply k5; lia|left; apply b; lia].
    + intros q Q. destruct (Z_le_gt_dec q p'); [apply K; lia|left; apply b; lia].
  - destruct (at_lt items p) as (item & I); [lia|]. rewrite I. cbn [obind].
    assert (Nh : ~ hidden skips p). { intros (s & i & H). destruct A as [A _]. destruct (A s i); lia. }
    destruct (str_eqb (si_id item) id) eqn:Eid.
    + exists (Some (p, item)). split; auto. apply str_eqb_eq in Eid. repeat split; auto; try lia.
    + assert (M : misses items id skips p).
      { right. intros it' I'. rewrite I in I'. injection I' as <-. intros C. rewrite (proj2 (str_eqb_eq _ _) C) in Eid. discriminate. }
      destruct (IH (p - 1) trap) as (r & R & K); [lia| |lia|lia|].
      { destruct A as [A1 A2]. split; auto. intros s i. destruct (A1 s i); lia. }
      replace (p - 1 + 1) with p in R by lia. exists r. split; [exact R|]. destruct r as [[k it']|].
      * destruct K as (k1 & k2 & k3 & k4 & k5). repeat split; auto; try lia. intros q Q.
        destruct (Z.eq_dec q p) as [->|]; [exact M|apply k5; lia].
      * intros q Q. destruct (Z.eq_dec q p) as [->|]; [exact M|apply K; lia].
Qed.

(** ** What is visible, as a list *)
Fixpoint vis_from {A} (h : nat -> bool) (k : nat) (l : list A) : list A :=
  match l with [] => [] | x :: l => if h k then vis_from h (S k) l else x :: vis_from h (S k) l end.
Lemma vis_app {A} h (l l' : list A) : forall k, vis_from h k (l ++ l') = vis_from h k l ++ vis_from h (k + length l) l'.
Proof.
  induction l as [|x l IH]; cbn; intros k; [rewrite Nat.add_0_r; reflexivity|]. rewrite IH.
  replace (S k + length l)%nat with (k + S (length l))%nat by lia. destruct (h k); reflexivity.
Qed.
Lemma vis_ext {A} h h' (l : list A) : forall k, (forall j, (k <= j < k + length l)%nat -> h j = h' j) -> vis_from h k l = vis_from h' k l.
Proof.
  induction l as [|x l IH]; cbn; intros k H; auto. rewrite (H k) by lia. rewrite (IH (S k)); [reflexivity|]. intros j J. apply H. lia.
Qed.
Lemma vis_none {A} h (l : list A) : forall k, (forall j, (k <= j < k + length l)%nat -> h j = true) -> vis_from h k l = [].
Proof. induction l as [|x l IH]; cbn; intros k H; auto. rewrite (H k) by lia. apply IH. intros j J. apply H. lia. Qed.

Definition named (id : list Z) (b : binding) : bool := str_eqb (b_id b) id.
(** the bindings of a name at visible positions below [p], nearest first *)
Definition below (skips : list scope_skip) (core : list binding) (id : list Z) (p : nat) : list binding :=
  rev (filter (named id) (vis_from (hid skips) 0 (firstn p core))).
Lemma below_S skips core id p b : nth_error core p = Some b ->
  below skips core id (S p) = (if negb (hid skips p) && named id b then [b] else []) ++ below skips core id p.
Proof.
  intros H. unfold below. rewrite (firstn_S_nth_error _ _ _ H), vis_app. cbn [Nat.add vis_from].
  rewrite firstn_length, Nat.min_l by (apply nth_error_lt in H; lia).
  rewrite filter_app, rev_app_distr. destruct (hid skips p); cbn; [reflexivity|]. destruct (named id b); reflexivity.
Qed.
Lemma below_miss skips items id p p' : (p' <= p)%nat -> (p <= length items)%nat ->
  (forall q, (p' <= q < p)%nat -> misses items id skips (Z.of_nat q)) ->
  below skips (map strip items) id p = below skips (map strip items) id p'.
Proof.
  intros L Lp. induction L as [|p L IH]; intros M; auto.
  destruct (nth_error_ex items p) as (it & I); [lia|].
  rewrite (below_S _ _ _ _ (strip it)) by (rewrite nth_error_map, I; reflexivity).
  rewrite IH; [|lia|intros q Q; apply M; lia].
  destruct (M p) as [H|H]; [lia| |].
  - apply hid_spec in H. rewrite H. reflexivity.
  - rewrite at_nat in H. specialize (H it I). unfold named. cbn [strip b_id].
    destruct (str_eqb (si_id it) id) eqn:E; [apply str_eqb_eq in E; contradiction|]. rewrite andb_false_r. reflexivity.
Qed.
Lemma below_found skips items id p k item : (k < p)%nat -> (p <= length items)%nat -> nth_error items k = Some item -> si_id item = id ->
  ~ hidden skips (Z.of_nat k) -> (forall q, (k < q < p)%nat -> misses items id skips (Z.of_nat q)) ->
  below skips (map strip items) id p = strip item :: below skips (map strip items) id k.
Proof.
  intros L Lp I E H M. rewrite (below_miss skips items id p (S k)); [|lia|lia|intros q Q; apply M; lia].
  rewrite (below_S _ _ _ _ (strip item)) by (rewrite nth_error_map, I; reflexivity).
  apply hid_false in H. rewrite H. unfold named. cbn [strip b_id]. rewrite (proj2 (str_eqb_eq _ _) E). reflexivity.
Qed.

(** ** search *)
Definition outs (l : list binding) : list (Z * bool) := map (fun b => (b_target b, b_shadows b)) l.
Definition fields_rest (fields : list scope_item) (id : list Z) (n : nat) : list (Z * bool) :=
  map (fun f => (si_target f, false)) (rev (filter (fun f => str_eqb (si_id f) id) (firstn n fields))).
Definition extra_rest (extra : list Z) (n : nat) : list (Z * bool) := map (fun t => (t, false)) (rev (firstn n extra)).

Inductive iter_ok (skips : list scope_skip) (core : list binding) (id : list Z) (extra : list Z) (fields : list scope_item)
  : Z -> list (Z * bool) -> Prop :=
| it_start : iter_ok skips core id extra fields 0
    (outs (below skips core id (length core)) ++ fields_rest fields id (length fields) ++ extra_rest extra (length extra))
| it_items k : (k < length core)%nat ->
    (forall b, (0 < k)%nat -> nth_error core k = Some b -> b_id b = id /\ hid skips k = false) ->
    iter_ok skips core id extra fields (BAND_ITEMS + Z.of_nat k)
      (outs (below skips core id k) ++ fields_rest fields id (length fields) ++ extra_rest extra (length extra))
| it_fields k : (k <= length fields)%nat ->
    iter_ok skips core id extra fields (BAND_FIELDS + Z.of_nat k) (fields_rest fields id k ++ extra_rest extra (length extra))
| it_extra k : (k <= length extra)%nat ->
    iter_ok skips core id extra fields (BAND_EXTRA + Z.of_nat k) (extra_rest extra k).

Definition answers skips core id extra fields (items : list scope_item) (rest : list (Z * bool)) (a : answer) : Prop :=
  an_items a = items /\
  match rest with
  | [] => an_target a = 0 /\ an_shadows a = false /\ iter_ok skips core id extra fields (an_iter a) []
  | x :: rest => (an_target a, an_shadows a) = x /\ iter_ok skips core id extra fields (an_iter a) rest
  end.

Lemma extra_S extra k x : nth_error extra k = Some x -> extra_rest extra (S k) = (x, false) :: extra_rest extra k.
Proof. intros H. unfold extra_rest. rewrite (firstn_S_nth_error _ _ _ H), rev_app_distr. reflexivity. Qed.
Lemma extra_0 extra : extra_rest extra 0 = [].
Proof. reflexivity. Qed.
Lemma fields_S fields id k x : nth_error fields k = Some x ->
  fields_rest fields id (S k) = (if str_eqb (si_id x) id then [(si_target x, false)] else []) ++ fields_rest fields id k.
Proof.
  intros H. unfold fields_rest. rewrite (firstn_S_nth_error _ _ _ H), filter_app, rev_app_distr. cbn [filter].
  destruct (str_eqb (si_id x) id); reflexivity.
Qed.

Ltac bands := unfold BAND_ITEMS, BAND_ITEMS_END, BAND_FIELDS, BAND_FIELDS_END, BAND_EXTRA, BAND_EXTRA_END, LIMIT, slen in *.

Lemma search_extra_ok skips core id extra fields items it k : slen extra < LIMIT ->
  (it < BAND_EXTRA /\ k = length extra \/ it = BAND_EXTRA + Z.of_nat k /\ (k <= length extra)%nat) ->
  exists a, search_extra items extra it = Some a /\ answers skips core id extra fields items (extra_rest extra k) a.
Proof.
  intros Hs Hk. unfold search_extra. set (it1 := if it <? BAND_EXTRA then _ else _).
  assert (E : it1 = BAND_EXTRA + Z.of_nat k /\ (k <= length extra)%nat).
  { subst it1. bands. destruct Hk as [[A ->]|[-> B]].
    - rewrite (proj2 (Z.ltb_lt _ _) A). split; [reflexivity|lia].
    - rewrite (proj2 (Z.ltb_ge _ _)) by lia. auto. }
  destruct E as [-> L]. destruct k as [|k].
  - rewrite (proj2 (Z.ltb_ge BAND_EXTRA _)) by lia. cbn [andb]. eexists. split; [reflexivity|]. split; [reflexivity|].
    cbn [extra_rest]. cbn. repeat split. apply (it_extra _ _ _ _ _ 0). lia.
  - rewrite (proj2 (Z.ltb_lt BAND_EXTRA _)), (proj2 (Z.ltb_lt _ BAND_EXTRA_END)) by (bands; lia). cbn [andb].
    replace (BAND_EXTRA + Z.of_nat (S k) - BAND_EXTRA - 1) with (Z.of_nat k) by lia. rewrite at_nat.
    destruct (nth_error_ex extra k) as (x & X); [lia|]. rewrite X. cbn [obind]. eexists. split; [reflexivity|].
    split; [reflexivity|]. rewrite (extra_S _ _ _ X). cbn [an_target an_shadows an_iter]. split; auto.
    replace (Z.of_nat k + BAND_EXTRA) with (BAND_EXTRA + Z.of_nat k) by lia. apply it_extra. lia.
Qed.

Lemma scan_fields_ok fields id : forall n, (n <= length fields)%nat ->
  exists r, scan_fields n fields id = Some r /\
    match r with
    | Some (i, item) => exists k, i = Z.of_nat k /\ (k < n)%nat /\ fields_rest fields id n = (si_target item, false) :: fields_rest fields id k
    | None => fields_rest fields id n = []
    end.
Proof.
  induction n as [|n IH]; intros L; cbn [scan_fields]; [exists None; auto|].
  destruct (nth_error_ex fields n) as (x & X); [lia|]. rewrite X. cbn [obind]. rewrite (fields_S _ _ _ _ X).
  destruct (str_eqb (si_id x) id); [exists (Some (Z.of_nat n, x)); split; auto; exists n; repeat split; lia|].
  destruct IH as (r & R & K); [lia|]. exists r. split; auto. destruct r as [[i item]|]; auto.
  destruct K as (k & a & b & c). exists k. repeat split; auto; lia.
Qed.

Lemma search_fields_ok skips core id extra fields items it k : slen extra < LIMIT -> slen fields < LIMIT ->
  (it < BAND_FIELDS /\ k = length fields \/ it = BAND_FIELDS + Z.of_nat k /\ (k <= length fields)%nat) ->
  exists a, search_fields items id extra fields it = Some a /\
    answers skips core id extra fields items (fields_rest fields id k ++ extra_rest extra (length extra)) a.
Proof.
  intros Hs Hf Hk. unfold search_fields. set (it1 := if it <? BAND_FIELDS then _ else _).
  assert (E : it1 = BAND_FIELDS + Z.of_nat k /\ (k <= length fields)%nat).
  { subst it1. bands. destruct Hk as [[A ->]|[-> B]].
    - rewrite (proj2 (Z.ltb_lt _ _) A). split; [reflexivity|lia].
    - rewrite (proj2 (Z.ltb_ge _ _)) by lia. auto. }
  destruct E as [-> L]. destruct k as [|k].
  - rewrite (proj2 (Z.ltb_ge BAND_FIELDS _)) by lia. cbn [andb].
    apply search_extra_ok; auto. left. split; [bands; lia|reflexivity].
  - rewrite (proj2 (Z.ltb_lt BAND_FIELDS _)), (proj2 (Z.ltb_lt _ BAND_FIELDS_END)) by (bands; lia). cbn [andb].
    replace (Z.to_nat (BAND_FIELDS + Z.of_nat (S k) - BAND_FIELDS)) with (S k) by lia.
    destruct (scan_fields_ok fields id (S k) L) as (r & R & K). rewrite R. cbn [obind]. destruct r as [[i item]|].
    + destruct K as (k' & -> & B & ->). eexists. split; [reflexivity|]. split; [reflexivity|]. cbn [app an_target an_shadows an_iter].
      split; auto. replace (Z.of_nat k' + BAND_FIELDS) with (BAND_FIELDS + Z.of_nat k') by lia. apply it_fields. lia.
    + rewrite K. apply search_extra_ok; auto. left. split; [bands; lia|reflexivity].
Qed.

(** the view from a position: which positions below it were hidden when it was declared *)
Definition views := nat -> nat -> bool.
Definition coherent (V : views) (skips : list scope_skip) (len : nat) : Prop :=
  forall k, (k < len)%nat -> hid skips k = false -> forall j, (j < k)%nat -> hid skips j = V k j.
Definition honest (V : views) (items : list scope_item) : Prop :=
  forall k item, nth_error items k = Some item -> si_canSkipRest item = true ->
  forall j item', (j < k)%nat -> V k j = false -> nth_error items j = Some item' -> si_id item' <> si_id item.

Lemma honest_none V items skips k item id : honest V items -> coherent V skips (length items) -> nth_error items k = Some item ->
  si_canSkipRest item = true -> si_id item = id -> hid skips k = false -> below skips (map strip items) id k = [].
Proof.
  intros H C I F E Hk. pose proof (nth_error_lt _ _ _ I) as Lk.
  rewrite (below_miss skips items id k 0); [reflexivity|lia|lia|]. intros q Q.
  destruct (hid skips q) eqn:Eq; [left; apply hid_spec; auto|]. right. intros it' I'. rewrite at_nat in I'. rewrite <- E.
  apply (H k item I F q it'); auto; [lia|]. rewrite <- (C k Lk Hk q) by lia. exact Eq.
Qed.

Lemma below_nil skips items id : forall p, (p <= length items)%nat -> below skips (map strip items) id p = [] ->
  forall j item, (j < p)%nat -> nth_error items j = Some item -> hid skips j = false -> si_id item <> id.
Proof.
  induction p as [|p IH]; intros L B j item Lj I Hj E; [lia|].
  destruct (nth_error_ex items p) as (x & X); [lia|].
  rewrite (below_S _ _ _ _ (strip x)) in B by (rewrite nth_error_map, X; reflexivity).
  apply app_eq_nil in B. destruct B as [B1 B2]. destruct (Nat.eq_dec j p) as [->|D].
  - rewrite X in I. injection I as ->. rewrite Hj in B1. unfold named in B1. cbn [strip b_id negb andb] in B1.
    rewrite (proj2 (str_eqb_eq _ _) E) in B1. discriminate.
  - apply (IH ltac:(lia) B2 j item); auto. lia.
Qed.
Lemma flag_ok V items skips id k item items' : honest V items -> coherent V skips (length items) -> nth_error items k = Some item ->
  si_id item = id -> hid skips k = false -> below skips (map strip items) id k = [] ->
  upd items k (canSkipRest_set item) = Some items' -> map strip items' = map strip items /\ honest V items'.
Proof.
  intros H C I E Hk B U. pose proof (nth_error_lt _ _ _ I) as Lk. destruct (upd_Some _ _ _ _ U) as (U1 & U2 & U3 & U4).
  assert (Nth : forall j x', nth_error items' j = Some x' -> exists x, nth_error items j = Some x /\ si_id x' = si_id x).
  { intros j x' X. destruct (Nat.eq_dec j k) as [->|D].
    - rewrite U3 in X. injection X as <-. exists item. auto.
    - rewrite U4 in X by auto. exists x'. auto. }
  split.
  - apply list_ext. intros j. rewrite !nth_error_map. destruct (Nat.eq_dec j k) as [->|D].
    + rewrite U3, I. cbn. f_equal. apply strip_set.
    + rewrite U4 by auto. reflexivity.
  - intros k' x' X F j y' Lj Vj Y. destruct (Nth _ _ X) as (x & X1 & ->). destruct (Nth _ _ Y) as (y & Y1 & ->).
    destruct (Nat.eq_dec k' k) as [->|D].
    + rewrite I in X1. injection X1 as <-. rewrite E. apply (below_nil skips items id k ltac:(lia) B j y Lj Y1).
      rewrite (C k Lk Hk j Lj). exact Vj.
    + rewrite U4 in X by auto. rewrite X in X1. injection X1 as <-. eapply H; eauto.
Qed.

Lemma search_ok V items id it skips extra fields rest : tidy_skips 0 skips (slen items) -> coherent V skips (length items) ->
  honest V items -> slen items < LIMIT -> slen extra < LIMIT -> slen fields < LIMIT ->
  iter_ok skips (map strip items) id extra fields it rest ->
  exists a, search items id it skips extra fields = Some a /\ map strip (an_items a) = map strip items /\ honest V (an_items a) /\
    match rest with
    | [] => an_target a = 0 /\ an_shadows a = false /\ iter_ok skips (map strip items) id extra fields (an_iter a) []
    | x :: rest => (an_target a, an_shadows a) = x /\ iter_ok skips (map strip items) id extra fields (an_iter a) rest
    end.
Proof.
  intros T C H Li Le Lf I. unfold search.
  assert (N0 : 0 <= it) by (inversion I; bands; lia). rewrite (proj2 (Z.ltb_ge _ _) N0).
  assert (Pass : forall (it1 : Z) (items' : list scope_item) k, map strip items' = map strip items -> honest V items' ->
    (it1 < BAND_FIELDS /\ k = length fields \/ it1 = BAND_FIELDS + Z.of_nat k /\ (k <= length fields)%nat) ->
    rest = fields_rest fields id k ++ extra_rest extra (length extra) ->
    exists a, search_fields items' id extra fields it1 = Some a /\ map strip (an_items a) = map strip items /\ honest V (an_items a) /\
    match rest with
    | [] => an_target a = 0 /\ an_shadows a = false /\ iter_ok skips (map strip items) id extra fields (an_iter a) []
    | x :: rest => (an_target a, an_shadows a) = x /\ iter_ok skips (map strip items) id extra fields (an_iter a) rest
    end).
  { intros it1 items' k M Hn Hk ->.
    destruct (search_fields_ok skips (map strip items) id extra fields items' it1 k Le Lf Hk) as (a & A & B & K).
    exists a. rewrite B. auto. }
  set (it1 := if it <? BAND_ITEMS then _ else _).
  (* in the band of items, at k *)
  assert (Main : forall k, it1 = BAND_ITEMS + Z.of_nat k -> (k <= length items)%nat ->
    (forall item, (0 < k)%nat -> nth_error items k = Some item -> si_id item = id /\ hid skips k = false) ->
    rest = outs (below skips (map strip items) id k) ++ fields_rest fields id (length fields) ++ extra_rest extra (length extra) ->
    exists a, (if (BAND_ITEMS <? it1) && (it1 <? BAND_ITEMS_END) then
      let it0 := it1 - BAND_ITEMS in
      do r <- nextSkip skips (slen items) (it0 - 1) (-1);
      do f <- scan (S (length items)) items id skips (fst r + 1) (snd r);
      match f with
      | Some (i, item) =>
        let i := if si_canSkipRest item then 0 else i in
        Some (Answer (si_target item) (si_shadows item) (i + BAND_ITEMS) items)
      | None =>
        if it0 <? slen items then
          do item <- at_ items it0;
          if str_eqb (si_id item) id then
            do items' <- upd items (Z.to_nat it0) (canSkipRest_set item);
            search_fields items' id extra fields (-1)
          else None
        else search_fields items id extra fields (-1)
      end
    else search_fields items id extra fields it1) = Some a /\ map strip (an_items a) = map strip items /\ honest V (an_items a) /\
    match rest with
    | [] => an_target a = 0 /\ an_shadows a = false /\ iter_ok skips (map strip items) id extra fields (an_iter a) []
    | x :: rest => (an_target a, an_shadows a) = x /\ iter_ok skips (map strip items) id extra fields (an_iter a) rest
    end).
  { clear I N0. clearbody it1. intros k -> Lk Hk ->. destruct k as [|k].
    { rewrite (proj2 (Z.ltb_ge BAND_ITEMS _)) by lia. cbn [andb]. apply (Pass _ items (length fields)); auto. left. split; [bands; lia|reflexivity]. }
    rewrite (proj2 (Z.ltb_lt BAND_ITEMS _)), (proj2 (Z.ltb_lt _ BAND_ITEMS_END)) by (bands; lia). cbn [andb].
    replace (BAND_ITEMS + Z.of_nat (S k) - BAND_ITEMS) with (Z.of_nat k + 1) by lia. cbv zeta.
    replace (Z.of_nat k + 1 - 1) with (Z.of_nat k) by lia.
    destruct (nextSkip_ok skips (slen items) (slen items) (Z.of_nat k) (-1) T) as (p & tr & E & a & b & c & d & e); [bands; lia|auto|bands; lia|bands; lia|].
    rewrite E. cbn [obind fst snd].
    destruct (scan_ok items id skips (slen items) T (S (length items)) p tr) as (f & F & K); [bands; lia|exact d|exact e|bands; lia|].
    rewrite F. cbn [obind]. destruct f as [[i item]|].
    - destruct K as (k1 & k2 & k3 & k4 & k5). apply at_Some in k2. destruct k2 as [k2 k6].
      assert (Ei : exists n, i = Z.of_nat n) by (exists (Z.to_nat i); lia). destruct Ei as (n & ->). rewrite Nat2Z.id in k6.
      assert (Bl : below skips (map strip items) id (S k) = strip item :: below skips (map strip items) id n).
      { apply below_found; auto; [lia|]. intros q Q. destruct (Z_le_gt_dec (Z.of_nat q) p); [apply k5; lia|left; apply b; lia]. }
      assert (Hn : hid skips n = false) by (apply hid_false; exact k4).
      assert (Go : exists m, (if si_canSkipRest item then 0 else Z.of_nat n) + BAND_ITEMS = BAND_ITEMS + Z.of_nat m /\ (m <= n)%nat /\
        (0 < m -> m = n)%nat /\ below skips (map strip items) id m = below skips (map strip items) id n).
      { destruct (si_canSkipRest item) eqn:Fl; [exists O|exists n]; repeat split; try lia.
        rewrite (honest_none V items skips n item id); auto. }
      destruct Go as (m & -> & m1 & m2 & m3). eexists. split; [reflexivity|]. cbn [an_items an_target an_shadows an_iter].
      split; auto. split; auto. rewrite Bl. cbn [outs map app strip b_target b_shadows]. split; auto.
      fold (outs (below skips (map strip items) id n)). rewrite <- m3. apply it_items; [rewrite map_length; lia|].
      intros bd Hm Nm. rewrite (m2 Hm) in *. rewrite nth_error_map, k6 in Nm. injection Nm as <-. cbn [strip b_id]. auto.
    - assert (Bl : below skips (map strip items) id (S k) = []).
      { rewrite (below_miss skips items id (S k) 0); [reflexivity|lia|lia|]. intros q Q.
        destruct (Z_le_gt_dec (Z.of_nat q) p); [apply K; lia|left; apply b; lia]. }
      rewrite Bl in *. cbn [outs map app] in *.
      destruct (Z.ltb_spec (Z.of_nat k + 1) (slen items)) as [X|X].
      + replace (Z.of_nat k + 1) with (Z.of_nat (S k)) by lia. rewrite at_nat, Nat2Z.id.
        destruct (nth_error_ex items (S k)) as (item & I); [bands; lia|]. rewrite I. cbn [obind].
        destruct (Hk item) as [G1 G2]; [lia|exact I|]. rewrite (proj2 (str_eqb_eq _ _) G1).
        destruct (upd_total items (S k) (canSkipRest_set item)) as (items' & U); [bands; lia|]. rewrite U. cbn [obind].
        destruct (flag_ok V items skips id (S k) item items' H C I G1 G2 Bl U) as [M Hn].
        apply (Pass (-1) items' (length fields)); auto. left. split; [bands; lia|reflexivity].
      + apply (Pass (-1) items (length fields)); auto. left. split; [bands; lia|reflexivity]. }
  destruct I as [|k Lk Hk|k Lk|k Lk]; subst it1.
  - rewrite map_length in *. apply (Main (length items)); auto. intros item _ X. apply nth_error_lt in X. lia.
  - rewrite map_length in *. apply (Main k); auto; [rewrite (proj2 (Z.ltb_ge _ _)) by lia; reflexivity|lia|].
    intros item P X. apply (Hk (strip item) P). rewrite nth_error_map, X. reflexivity.
  - rewrite (proj2 (Z.ltb_ge _ BAND_ITEMS)) by (bands; lia).
    rewrite (proj2 (Z.ltb_ge _ BAND_ITEMS_END)) by (bands; lia). rewrite andb_false_r.
    apply (Pass _ items k); auto.
  - rewrite (proj2 (Z.ltb_ge _ BAND_ITEMS)) by (bands; lia).
    rewrite (proj2 (Z.ltb_ge _ BAND_ITEMS_END)) by (bands; lia). rewrite andb_false_r.
    unfold search_fields. rewrite (proj2 (Z.ltb_ge _ BAND_FIELDS)) by (bands; lia).
    rewrite (proj2 (Z.ltb_ge _ BAND_FIELDS_END)) by (bands; lia). rewrite andb_false_r.
    destruct (search_extra_ok skips (map strip items) id extra fields items (BAND_EXTRA + Z.of_nat k) k Le) as (a & A & B & K); [auto|].
    exists a. rewrite B. auto.
Qed.
