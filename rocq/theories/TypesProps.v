(** C46: what types can be assigned to what (src/types.fu). *)
From Verif Require Import CanonModel CanonSpec CanonProofs CanonMatch CanonProps CanonCodecProps TypesModel TypesSpec LifetimeSpec LifetimeProofs LifetimeProps LifetimeProofs LifetimeMerge CommonLemmas WordsLemmas.
Open Scope Z_scope.
Local Notation canon := TypesModel.canon.

(** ** Bits *)
Local Lemma within_land a b : Z.land a b = a <-> within a b.
Proof.
  split.
  - intros E i H. rewrite <- E, Z.land_spec in H. apply andb_true_iff in H. apply H.
  - intros W. apply Z.bits_inj'. intros i Hi. rewrite Z.land_spec. destruct (Z.testbit a i) eqn:E; [rewrite (W i E)|]; reflexivity.
Qed.
Local Lemma within_refl a : within a a. Proof. intros i H. exact H. Qed.
Local Lemma within_trans a b c : within a b -> within b c -> within a c. Proof. intros A B i H. auto. Qed.
Local Lemma andnot_spec a b i : word 32 a -> Z.testbit (andnot a b) i = Z.testbit a i && negb (Z.testbit b i).
Proof.
  intros W. unfold andnot. rewrite Z.land_spec. destruct (Z.lt_ge_cases i 0) as [N|N]; [rewrite !(Z.testbit_neg_r _ i) by lia; reflexivity|].
  rewrite Z.lxor_spec. change 4294967295 with (Z.ones 32). destruct (Z.lt_ge_cases i 32).
  - rewrite Z.ones_spec_low by lia. destruct (Z.testbit b i), (Z.testbit a i); reflexivity.
  - rewrite (word_testbit_high 32 a i) by (auto; lia). reflexivity.
Qed.
Local Lemma andnot_word a b : word 32 a -> word 32 (andnot a b).
Proof. intros W. unfold andnot. apply land_word_l; auto. lia. Qed.
Local Lemma land_word a b : word 32 a -> word 32 (Z.land a b). Proof. intros W. apply land_word_l; auto. lia. Qed.
Local Lemma nth_bit k i : 0 <= k -> Z.testbit (2 ^ k) i = (i =? k).
Proof. intros H. destruct (Z.lt_ge_cases i 0); [rewrite Z.testbit_neg_r by lia; symmetry; apply Z.eqb_neq; lia|]. rewrite Z.pow2_bits_eqb by lia. apply Z.eqb_sym. Qed.
Local Lemma no_mutref q : (Z.land q q_mutref =? 0) = negb (Z.testbit q 0).
Proof.
  change q_mutref with 1. destruct (Z.testbit q 0) eqn:E; cbn [negb].
  - apply Z.eqb_neq. intros X. assert (Y : Z.testbit (Z.land q 1) 0 = false) by (rewrite X; reflexivity). rewrite Z.land_spec, E in Y. discriminate.
  - apply Z.eqb_eq. apply Z.bits_inj'. intros i Hi. rewrite Z.land_spec, Z.bits_0. change 1 with (2 ^ 0). rewrite nth_bit by lia.
    destruct (Z.eqb_spec i 0) as [->|]; [rewrite E|rewrite andb_false_r]; reflexivity.
Qed.
Local Lemma facts_check h g : word 32 (vfacts h) -> word 32 (vfacts g) ->
  (Z.land (andnot (vfacts h) Typename) (andnot (vfacts g) Typename) =? andnot (vfacts h) Typename) = true <-> facts_ok h g.
Proof.
  intros Wh Wg. rewrite Z.eqb_eq, within_land. unfold within, facts_ok. change Typename with (2 ^ 2). split; intros H i.
  - intros N E. specialize (H i). rewrite !andnot_spec, !nth_bit in H by (auto; lia). apply Z.eqb_neq in N. rewrite N in H. cbn [negb] in H. rewrite !andb_true_r in H. auto.
  - rewrite !andnot_spec, !nth_bit by (auto; lia). destruct (Z.eqb_spec i 2) as [->|N]; cbn [negb]; [rewrite !andb_false_r; auto|]. rewrite !andb_true_r. auto.
Qed.
Local Lemma within_facts h g : within (vfacts h) (vfacts g) -> facts_ok h g. Proof. intros W i _. apply W. Qed.
Local Lemma truthy_typed t c : typed t c -> truthy t = true.
Proof. intros (E & W & _). unfold truthy. rewrite E. pose proof (written_nonempty c W). destruct (written c); tauto. Qed.
Local Lemma nonempty_iff l : nonempty l = true <-> l <> []. Proof. destruct l; split; congruence || discriminate || auto. Qed.

(** ** What is assignable *)
Theorem type_assignability_is : forall h hc g gc nz arg, typed h hc -> typed g gc -> facts_ok h g ->
  exists r, isAssignable h g nz arg = Some r /\ (r = true <-> can_assign (negb nz) arg h g hc gc).
Proof.
  intros h hc g gc nz arg Th Tg F. unfold isAssignable, isAssignableAsArgument. rewrite (truthy_typed h hc Th), (truthy_typed g gc Tg). cbn [andb check obind].
  destruct Th as (Eh & Wh & Qh & Vh). destruct Tg as (Eg & Wg & Qg & Vg). unfold areVFactsAssignable. rewrite (proj2 (facts_check h g Vh Vg) F). cbn [check obind].
  unfold can_assign, can_pass. destruct (Z.eqb_spec (Z.land (vfacts h) (vfacts g)) (vfacts h)) as [V|V]; cbn [negb].
  2:{ exists false. cbn. split; auto. split; [discriminate|]. intros ((X & _) & _). apply within_land in X. contradiction. }
  apply within_land in V. unfold areQualsAssignable.
  assert (C : exists c, (if Z.land (quals h) (quals g) =? quals h then isCanonAssignable (canon h) (canon g) else Some false) = Some c /\
    (c = true <-> within (quals h) (quals g) /\ accepts hc gc)).
  { destruct (Z.eqb_spec (Z.land (quals h) (quals g)) (quals h)) as [Q|Q].
    - apply within_land in Q. rewrite Eh, Eg. destruct (canon_acceptance_is hc gc Wh Wg) as (c & Ec & Hc). exists c. split; auto. rewrite Hc. tauto.
    - exists false. split; auto. split; [discriminate|]. intros [X _]. apply within_land in X. contradiction. }
  destruct C as (c & Ec & Hc). rewrite Ec. cbn [obind]. eexists. split; [reflexivity|].
  rewrite andb_true_iff, !orb_true_iff, !andb_true_iff, Hc, no_mutref, !negb_true_iff. unfold is_zeroes, is_never, isLifetimeAssignable. rewrite beq_true.
  assert (Nv : beq (canon h) c_never = false <-> canon h <> c_never).
  { rewrite <- (beq_true (canon h) c_never). destruct (beq _ _); split; congruence. }
  rewrite Nv. assert (Mr : Z.testbit (quals h) 0 = false <-> ~ mutref h) by (unfold mutref; destruct (Z.testbit (quals h) 0); split; congruence).
  rewrite Mr. assert (Lr : negb (nonempty (lifetime h)) || nonempty (lifetime g) = true <-> (isref h -> isref g)).
  { unfold isref. destruct (lifetime h), (lifetime g); cbn; split; intros; auto; try discriminate; try (exfalso; apply H; auto; discriminate). }
  rewrite Lr. tauto.
Qed.
Print Assumptions type_assignability_is.
(** Where the facts are not, it stops. *)
Theorem type_assignability_needs_facts : forall h hc g gc nz arg, typed h hc -> typed g gc -> (isAssignable h g nz arg = None <-> ~ facts_ok h g).
Proof.
  intros h hc g gc nz arg Th Tg. split.
  - intros E F. destruct (type_assignability_is h hc g gc nz arg Th Tg F) as (r & X & _). congruence.
  - intros F. unfold isAssignable, isAssignableAsArgument. rewrite (truthy_typed h hc Th), (truthy_typed g gc Tg). cbn [andb check obind].
    unfold areVFactsAssignable. destruct Th as (_ & _ & _ & Vh). destruct Tg as (_ & _ & _ & Vg). pose proof (facts_check h g Vh Vg) as X.
    destruct (_ =? _); [exfalso; apply F, X; reflexivity|reflexivity].
Qed.
Print Assumptions type_assignability_needs_facts.
Local Lemma assignable_iff h hc g gc nz arg : typed h hc -> typed g gc -> (isAssignable h g nz arg = Some true <-> can_assign (negb nz) arg h g hc gc).
Proof.
  intros Th Tg. split.
  - intros E. assert (F : facts_ok h g).
    { intros i Hi Ti. destruct (Z.testbit (vfacts g) i) eqn:X; auto. exfalso.
      assert (N : isAssignable h g nz arg = None) by (apply (type_assignability_needs_facts h hc g gc nz arg Th Tg); intros F; rewrite (F i Hi Ti) in X; discriminate). congruence. }
    destruct (type_assignability_is h hc g gc nz arg Th Tg F) as (r & X & H). apply H. congruence.
  - intros C. destruct (type_assignability_is h hc g gc nz arg Th Tg (within_facts h g (proj1 (proj1 C)))) as (r & X & H). rewrite X. f_equal. apply H. exact C.
Qed.

(** ** A type is assignable to itself *)
Theorem type_assignable_to_itself : forall t c nz arg, typed t c -> isAssignable t t nz arg = Some true.
Proof.
  intros t c nz arg Tt. apply (assignable_iff t c t c); auto. pose proof Tt as (E & W & _). split; [|right; auto]. split; [apply within_refl|]. left. split; [apply within_refl|].
  pose proof (canon_accepts_itself c W) as X. destruct (canon_acceptance_is c c W W) as (r & Y & H). apply H. congruence.
Qed.
Print Assumptions type_assignable_to_itself.

(** ** Assignability composes: when the last canon is not generic; the empty value included *)
Theorem type_assignability_is_transitive_partial : forall a ac b bc c cc nz arg, typed a ac -> typed b bc -> typed c cc -> generic cc = false ->
  (canon a <> c_never \/ generic bc = false) ->
  isAssignable a b nz arg = Some true -> isAssignable b c nz arg = Some true -> isAssignable a c nz arg = Some true.
Proof.
  intros a ac b bc c cc nz arg Ta Tb Tc G Nv A B. apply (assignable_iff a ac b bc) in A; auto. apply (assignable_iff b bc c cc) in B; auto. apply (assignable_iff a ac c cc); auto.
  destruct A as ((V1 & A) & L1). destruct B as ((V2 & B) & L2). split; [|tauto]. split; [eapply within_trans; eauto|].
  destruct Ta as (Ea & Wa & Qa & _). destruct Tb as (Eb & Wb & Qb & _). destruct Tc as (Ec & Wc & Qc & _).
  assert (Same : forall x y, well_formed x -> well_formed y -> generic y = false -> accepts x y -> x = y).
  { intros x y Wx Wy Gy Ax. apply canon_nongeneric_accepted_by_itself_only; auto. destruct (canon_acceptance_is x y Wx Wy) as (r & -> & H). f_equal. apply H. exact Ax. }
  destruct B as [[Q2 B]|(Z2 & B1 & B2 & B3)].
  - apply Same in B; auto. subst cc. destruct A as [[Q1 A]|(Z1 & A1 & A2 & A3)].
    + left. split; auto. eapply within_trans; eauto.
    + right. split; auto. split; [congruence|auto].
  - right. split; auto. split; auto. destruct A as [[Q1 A]|(Z1 & A1 & A2 & A3)]; auto. split.
    + intros M. apply B2. apply Q1. exact M.
    + intros E. destruct Nv as [Nv|Nv]; [exact (Nv E)|]. apply Same in A; auto. apply B3. congruence.
Qed.
Print Assumptions type_assignability_is_transitive_partial.
(** With generic canons, whenever the canons' acceptance composes: patterns of one argument each, of a type which is
    itself generic, leaving aside the empty value *)
Theorem type_assignability_is_transitive_generic_partial : forall a ac b bc c cc arg, typed a ac -> typed b bc -> typed c cc ->
  one_argument ac -> one_argument bc -> one_argument cc -> (generic ac = true \/ generic bc = false) ->
  isAssignable a b true arg = Some true -> isAssignable b c true arg = Some true -> isAssignable a c true arg = Some true.
Proof.
  intros a ac b bc c cc arg Ta Tb Tc Oa Ob Oc G A B. apply (assignable_iff a ac b bc) in A; auto. apply (assignable_iff b bc c cc) in B; auto. apply (assignable_iff a ac c cc); auto.
  destruct A as ((V1 & A) & L1). destruct B as ((V2 & B) & L2). split; [|tauto]. split; [eapply within_trans; eauto|].
  destruct A as [[Q1 A]|(Z1 & _)]; [|discriminate]. destruct B as [[Q2 B]|(Z2 & _)]; [|discriminate]. left. split; [eapply within_trans; eauto|].
  destruct Ta as (_ & Wa & _). destruct Tb as (_ & Wb & _). destruct Tc as (_ & Wc & _).
  assert (Iff : forall x y, well_formed x -> well_formed y -> (isCanonAssignable (written x) (written y) = Some true <-> accepts x y)).
  { intros x y Wx Wy. destruct (canon_acceptance_is x y Wx Wy) as (r & -> & H). rewrite <- H. split; congruence. }
  apply Iff; auto. apply (canon_acceptance_is_transitive_partial ac bc cc); auto; apply Iff; auto.
Qed.
Print Assumptions type_assignability_is_transitive_generic_partial.
Theorem type_assignability_is_transitive_refuted : exists a ac b bc c cc, typed a ac /\ typed b bc /\ typed c cc /\
  isAssignable a b true false = Some true /\ isAssignable b c true false = Some true /\ isAssignable a c true false = Some false.
Proof.
  destruct canon_acceptance_is_transitive_refuted as (ac & bc & cc & Wa & Wb & Wc & A & B & C).
  exists (T 2 0 (written ac) []), ac, (T 2 0 (written bc) []), bc, (T 2 0 (written cc) []), cc.
  assert (Ty : forall x, well_formed x -> typed (T 2 0 (written x) []) x) by (intros x W; split; [reflexivity|]; split; [exact W|]; split; split; cbn; lia).
  split; [apply Ty; auto|]. split; [apply Ty; auto|]. split; [apply Ty; auto|].
  assert (Run : forall x y r, well_formed x -> well_formed y -> isCanonAssignable (written x) (written y) = Some r -> isAssignable (T 2 0 (written x) []) (T 2 0 (written y) []) true false = Some r).
  { intros x y r Wx Wy E. unfold isAssignable, isAssignableAsArgument. rewrite (truthy_typed _ x), (truthy_typed _ y) by (apply Ty; auto). cbn [check andb obind vfacts quals TypesModel.canon].
    rewrite E. cbn. rewrite orb_false_r, andb_true_r. reflexivity. }
  split; [apply Run; auto|]. split; apply Run; auto.
Qed.
Print Assumptions type_assignability_is_transitive_refuted.

(** ** Relaxing *)
(** Relaxing drops the quals the slot does not ask for, of those it may drop, and no other; says which; adds none. *)
Theorem relaxing_drops_what_is_not_wanted : forall t c slot mask t' dropped, typed t c -> try_relax t slot mask = (t', dropped) ->
  (forall i, Z.testbit dropped i = true <-> Z.testbit (quals t) i = true /\ Z.testbit (quals slot) i = false /\ Z.testbit mask i = true) /\
  (forall i, Z.testbit (quals t') i = true <-> Z.testbit (quals t) i = true /\ Z.testbit dropped i = false) /\
  typed t' c /\ vfacts t' = vfacts t /\ lifetime t' = lifetime t.
Proof.
  intros t c slot mask t' dropped (E & W & Q & V) R. unfold try_relax in R. apply pair_equal_spec in R as [<- <-]. cbn [quals vfacts lifetime with_quals].
  split; [|split; [|split; [|auto]]].
  - intros i. unfold will_relax. rewrite Z.land_spec, andnot_spec by auto. rewrite !andb_true_iff, negb_true_iff. tauto.
  - intros i. rewrite andnot_spec by auto. rewrite andb_true_iff, negb_true_iff. tauto.
  - split; [exact E|]. split; [exact W|]. split; [apply andnot_word; auto|exact V].
Qed.
Print Assumptions relaxing_drops_what_is_not_wanted.
(** The relaxed type takes the original, and still goes where the slot is. *)
Theorem relaxed_type_accepts_the_original : forall t c slot mask nz arg, typed t c -> isAssignable (fst (try_relax t slot mask)) t nz arg = Some true.
Proof.
  intros t c slot mask nz arg Tt. destruct (try_relax t slot mask) as [t' d] eqn:R. destruct (relaxing_drops_what_is_not_wanted t c slot mask t' d Tt R) as (_ & Q & Tt' & V & L).
  cbn [fst]. apply (assignable_iff t' c t c); auto. split; [|right; unfold isref; rewrite L; auto]. split; [rewrite V; apply within_refl|]. left. split; [intros i H; apply Q in H; apply H|].
  destruct Tt as (_ & W & _). pose proof (canon_accepts_itself c W) as X. destruct (canon_acceptance_is c c W W) as (r & Y & H). apply H. congruence.
Qed.
Print Assumptions relaxed_type_accepts_the_original.
Theorem relaxed_type_still_fits_the_slot : forall t c slot sc mask nz arg, typed t c -> typed slot sc -> isAssignable slot t nz arg = Some true ->
  isAssignable slot (fst (try_relax t slot mask)) nz arg = Some true.
Proof.
  intros t c slot sc mask nz arg Tt Ts A. destruct (try_relax t slot mask) as [t' d] eqn:R. destruct (relaxing_drops_what_is_not_wanted t c slot mask t' d Tt R) as (D & Q & Tt' & V & L).
  cbn [fst]. apply (assignable_iff slot sc t c) in A; auto. apply (assignable_iff slot sc t' c); auto. destruct A as ((F & A) & Lt). unfold can_assign, can_pass, isref in *. rewrite V, L.
  split; auto. split; auto. assert (E : canon t' = canon t) by (destruct Tt as (E & _); destruct Tt' as (E' & _); congruence). rewrite E. destruct A as [[W A]|A]; auto. left. split; auto.
  intros i H. apply Q. split; auto. destruct (Z.testbit d i) eqn:X; auto. apply D in X. destruct X as (_ & X & _). congruence.
Qed.
Print Assumptions relaxed_type_still_fits_the_slot.
(** Relaxing again for the same slot does nothing; with all quals relaxable, no more is left than what is wanted. *)
Theorem relaxing_again_drops_nothing : forall t c slot mask, typed t c ->
  try_relax (fst (try_relax t slot mask)) slot mask = (fst (try_relax t slot mask), 0).
Proof.
  intros t c slot mask Tt. destruct (try_relax t slot mask) as [t' d] eqn:R. destruct (relaxing_drops_what_is_not_wanted t c slot mask t' d Tt R) as (D & Q & Tt' & V & L). cbn [fst].
  destruct (try_relax t' slot mask) as [t2 d2] eqn:R2. destruct (relaxing_drops_what_is_not_wanted t' c slot mask t2 d2 Tt' R2) as (D2 & Q2 & Tt2 & V2 & L2).
  assert (d2 = 0) as ->.
  { apply Z.bits_inj'. intros i _. rewrite Z.bits_0. destruct (Z.testbit d2 i) eqn:X; auto. apply D2 in X as (X1 & X2 & X3). apply Q in X1 as (Y1 & Y2).
    assert (Z : Z.testbit d i = true) by (apply D; auto). congruence. }
  f_equal. destruct t2 as [q2 v2 c2 l2], t' as [q1 v1 c1 l1]. cbn in *. f_equal; auto; [|destruct Tt2 as (E2 & _); destruct Tt' as (E1 & _); cbn in *; congruence].
  apply Z.bits_inj'. intros i Hi. specialize (Q2 i). rewrite Z.bits_0 in Q2. destruct (Z.testbit q2 i), (Z.testbit q1 i); auto; [symmetry; apply Q2; auto|apply Q2; auto].
Qed.
Print Assumptions relaxing_again_drops_nothing.
Theorem forced_relaxing_accepts_the_original : forall t c mask nz arg, typed t c ->
  isAssignable (force_relax t mask) t nz arg = Some true /\ forall i, Z.testbit (quals (force_relax t mask)) i = true <-> Z.testbit (quals t) i = true /\ Z.testbit mask i = false.
Proof.
  intros t c mask nz arg Tt. pose proof Tt as (E & W & Q & V).
  assert (B : forall i, Z.testbit (quals (force_relax t mask)) i = true <-> Z.testbit (quals t) i = true /\ Z.testbit mask i = false).
  { intros i. unfold force_relax. cbn [quals with_quals]. rewrite andnot_spec by auto. rewrite andb_true_iff, negb_true_iff. tauto. }
  split; [|exact B]. apply (assignable_iff _ c t c); auto.
  - split; [exact E|]. split; [exact W|]. split; [apply andnot_word; auto|exact V].
  - split; [|right; unfold isref; auto]. split; [apply within_refl|]. left. split; [intros i H; apply B in H; apply H|].
    pose proof (canon_accepts_itself c W) as X. destruct (canon_acceptance_is c c W W) as (r & Y & H). apply H. congruence.
Qed.
Print Assumptions forced_relaxing_accepts_the_original.

(** ** Common super- and subtypes *)
Local Lemma says h g : well_formed h -> well_formed g -> (isCanonAssignable (written h) (written g) = Some true <-> accepts h g).
Proof. intros Wh Wg. destruct (canon_acceptance_is h g Wh Wg) as (r & E & H). rewrite E, <- H. split; [congruence|intros ->; reflexivity]. Qed.
Local Lemma has_place s L : is_lifetime s L -> (s <> [] <-> exists r x, inside L r x).
Proof.
  intros [B (F & _)]. destruct B as [|r c L br bc bs Nr Cb Lb].
  - split; [tauto|]. intros (r & x & c & [] & _).
  - split; [|intros _; destruct Nr; discriminate]. intros _. inversion_clear F as [|? ? (_ & H) _]. cbn in H. destruct c as [ps|].
    + destruct H as (N & Fp). destruct ps as [|p ps]; [tauto|]. exists r. assert (X : exists x, covers p x).
      { inversion_clear Fp as [|? ? Hp _]. clear - Hp. induction p as [|s p IH]; [exists []; exact I|]. destruct p as [|s' p].
        - destruct Hp as (H1 & H2). exists [flatOffset s]. cbn. split; [lia|exact I].
        - destruct Hp as (H1 & H2 & H3). destruct (IH H3) as (x & Hx). exists (flatOffset s :: x). cbn in *. split; [lia|exact Hx]. }
      destruct X as (x & Hx). exists x. exists (Some (p :: ps)). split; [left; reflexivity|]. exists p. split; [left; reflexivity|exact Hx].
    + exists r, [], None. split; [left; reflexivity|exact I].
Qed.
(** The common supertype of two types with canons which accept one another: it takes both, and refers to whatever they
    both refer to when both are references. *)
Theorem super_type_accepts_both : forall fuel a ac b bc la lb s nz' nz arg, typed a ac -> typed b bc -> is_lifetime (lifetime a) la -> is_lifetime (lifetime b) lb ->
  canon_trySuper (canon a) (canon b) <> Some [] -> type_trySuper fuel a b nz' = Some s -> canon s <> [] /\
  isAssignable s a nz arg = Some true /\ isAssignable s b nz arg = Some true /\
  (isref s <-> isref a /\ isref b) /\ (isref s -> exists ls, is_lifetime (lifetime s) ls /\ forall r x, inside ls r x <-> inside la r x \/ inside lb r x).
Proof.
  intros fuel a ac b bc la lb s nz' nz arg Ta Tb La Lb Nc E. destruct fuel as [|fuel]; [discriminate|]. cbn [type_trySuper] in E.
  destruct (canon_trySuper (canon a) (canon b)) as [c|] eqn:Ec; [|discriminate]. cbn [obind] in E. destruct c as [|x c']; [tauto|]. set (c := x :: c') in *.
  pose proof Ta as (Ea & Wa & Qa & Va). pose proof Tb as (Eb & Wb & Qb & Vb). rewrite Ea, Eb in Ec.
  destruct (canon_super_accepts_both ac bc c Wa Wb Ec ltac:(discriminate)) as (Cc & Ca & Cb).
  assert (exists sc, c = written sc /\ well_formed sc) as (sc & Es & Ws) by (destruct Cc as [->| ->]; eauto).
  apply obind_Some in E as (l & El & E). injection E as <-. cbn [TypesModel.canon]. split; [discriminate|].
  assert (Lr : (l <> [] <-> isref a /\ isref b) /\ (l <> [] -> exists ls, is_lifetime l ls /\ forall r x, inside ls r x <-> inside la r x \/ inside lb r x)).
  { unfold isref. destruct (nonempty (lifetime a)) eqn:Na; [destruct (nonempty (lifetime b)) eqn:Nb|]; cbn [andb] in El.
    - apply nonempty_iff in Na, Nb. destruct (lifetime_union_is_union _ _ _ _ _ _ La Lb El) as (C & HC & IC & _).
      assert (l <> []). { apply (has_place l C HC). destruct (proj1 (has_place _ _ La) Na) as (r & x' & I). exists r, x'. apply IC. auto. }
      split; [tauto|]. intros _. exists C. auto.
    - injection El as <-. split; [split; [tauto|]|tauto]. intros [_ H]. apply nonempty_iff in H. congruence.
    - injection El as <-. split; [split; [tauto|]|tauto]. intros [H _]. apply nonempty_iff in H. congruence. }
  assert (Ts : typed (T (Z.land (quals a) (quals b)) (Z.land (vfacts a) (vfacts b)) c l) sc).
  { split; [exact Es|]. split; [exact Ws|]. split; apply land_word; auto. }
  assert (One : forall t tc, typed t tc -> within (Z.land (quals a) (quals b)) (quals t) -> within (Z.land (vfacts a) (vfacts b)) (vfacts t) -> accepts sc tc -> (l <> [] -> isref t) ->
    isAssignable (T (Z.land (quals a) (quals b)) (Z.land (vfacts a) (vfacts b)) c l) t nz arg = Some true).
  { intros t tc Tt Wq Wv Ac Lt. apply (assignable_iff _ sc t tc); auto. split; [|right; exact Lt]. split; [exact Wv|]. left. split; [exact Wq|exact Ac]. }
  rewrite Es in Ca, Cb. apply says in Ca; auto. apply says in Cb; auto. split; [|split; [|split]].
  - apply (One a ac); auto; try (intros i H; rewrite Z.land_spec, andb_true_iff in H; tauto). tauto.
  - apply (One b bc); auto; try (intros i H; rewrite Z.land_spec, andb_true_iff in H; tauto). tauto.
  - apply Lr.
  - apply Lr.
Qed.
Print Assumptions super_type_accepts_both.
(** The empty value: with a type other than never, it is that type, less the mutable reference; which takes that type,
    and, as an argument, the empty value when what is left of the facts holds of it. *)
Local Lemma definit_is b bc : typed b bc -> canon b <> c_never -> exists d, definitType b true = Some d /\ canon d = canon b /\
  quals d = andnot (quals b) q_mutref /\ word 32 (vfacts d) /\ (lifetime d <> [] <-> lifetime b <> []).
Proof.
  intros Tb Nv. pose proof (truthy_typed b bc Tb) as Tr. unfold definitType. rewrite Tr. cbn [negb orb].
  assert (X : beq (canon b) c_never = false) by (destruct (beq (canon b) c_never) eqn:Y; auto; apply beq_true in Y; contradiction). assert (X' : is_never b = false) by exact X. rewrite X'.
  assert (Y : forall t, canon t = canon b -> is_never t = false) by (intros t E; unfold is_never; rewrite E; exact X).
  set (t2 := if is_ref (clear_mutref b) then _ else _). assert (C : canon t2 = canon b) by (unfold t2; destruct (is_ref (clear_mutref b)); reflexivity).
  rewrite (Y t2 C). cbn [negb check obind]. eexists. split; [reflexivity|]. cbn [with_vfacts TypesModel.canon quals vfacts lifetime]. split; [exact C|]. split; [|split].
  - unfold t2. destruct (is_ref (clear_mutref b)); reflexivity.
  - destruct (is_sliceable t2); vm_compute; split; congruence.
  - unfold t2, is_ref. change (lifetime (clear_mutref b)) with (lifetime b). destruct (lifetime b) eqn:El; cbn [nonempty]; [change (lifetime (clear_mutref b)) with (lifetime b); rewrite El; tauto|]. split; intros _; discriminate.
Qed.
Local Lemma super_self c : well_formed c -> canon_trySuper (written c) (written c) = Some (written c).
Proof.
  intros W. unfold canon_trySuper. destruct (_ <? _); rewrite (canon_accepts_itself c W); reflexivity.
Qed.
Local Lemma zeroes_super f b bc d s : typed b bc -> definitType b true = Some d -> canon d = canon b -> type_trySuper (S f) b d false = Some s ->
  canon s = canon b /\ quals s = Z.land (quals b) (quals d) /\ vfacts s = Z.land (vfacts b) (vfacts d) /\
  (do l <- (if nonempty (lifetime b) && nonempty (lifetime d) then Lifetime_union (lifetime b) (lifetime d) false else Some []); Some l) = Some (lifetime s).
Proof.
  intros (Eb & Wb & _) _ Ed E. cbn [type_trySuper] in E. rewrite Ed, Eb, super_self in E by auto. cbn [obind] in E. pose proof (written_nonempty bc Wb) as N.
  destruct (written bc) as [|z w] eqn:Ew; [tauto|]. apply obind_Some in E as (l & El & E). injection E as <-. cbn [TypesModel.canon quals vfacts lifetime]. rewrite El, Eb. auto.
Qed.
Theorem super_type_of_the_empty_value : forall fuel a ac b bc lb s nz arg, typed a ac -> typed b bc -> is_lifetime (lifetime b) lb ->
  canon a = c_zeroes -> canon b <> c_never -> canon_trySuper (canon a) (canon b) = Some [] -> type_trySuper fuel a b false = Some s ->
  canon s = canon b /\ (forall i, Z.testbit (quals s) i = true <-> Z.testbit (quals b) i = true /\ i <> 0) /\ (isref s <-> isref b) /\
  isAssignable s b nz arg = Some true /\ (within (vfacts s) (vfacts a) -> isAssignable s a false true = Some true).
Proof.
  intros fuel a ac b bc lb s nz arg Ta Tb Lb Za Nb Ec E. destruct fuel as [|fuel]; [discriminate|]. cbn [type_trySuper] in E. rewrite Ec in E. cbn [obind] in E.
  unfold is_zeroes at 1 in E. rewrite Za, (proj2 (beq_true c_zeroes c_zeroes) eq_refl) in E. cbn [andb negb] in E.
  destruct (definit_is b bc Tb Nb) as (d & Ed & Cd & Qd & Vd & Ld). rewrite Ed in E. cbn [obind] in E. destruct fuel as [|fuel]; [discriminate|].
  destruct (zeroes_super fuel b bc d s Tb Ed Cd E) as (Cs & Qs & Vs & Ls). pose proof Tb as (Eb & Wb & Qb & Vb).
  assert (Q : forall i, Z.testbit (quals s) i = true <-> Z.testbit (quals b) i = true /\ i <> 0).
  { intros i. rewrite Qs, Z.land_spec, Qd, andnot_spec by auto. change q_mutref with (2 ^ 0). rewrite nth_bit by lia. rewrite !andb_true_iff, negb_true_iff, Z.eqb_neq. tauto. }
  assert (R : isref s <-> isref b).
  { unfold isref. destruct (nonempty (lifetime b)) eqn:Nn; cbn [andb] in Ls.
    - apply nonempty_iff in Nn. assert (Nd : lifetime d <> []) by tauto. apply nonempty_iff in Nd. rewrite Nd in Ls.
      apply obind_Some in Ls as (l & El & Ls). injection Ls as ->. split; [tauto|]. intros _.
      assert (Dl : lifetime d = Region_ZEROES).
      { unfold definitType in Ed. rewrite (truthy_typed b bc Tb) in Ed. cbn [negb orb] in Ed. assert (X : is_never b = false) by (unfold is_never; destruct (beq (canon b) c_never) eqn:Y; auto; apply beq_true in Y; contradiction).
        rewrite X in Ed. assert (Y : is_ref (clear_mutref b) = true) by (unfold is_ref; apply nonempty_iff; exact Nn). rewrite Y in Ed. apply obind_Some in Ed as (u & _ & Ed). injection Ed as <-. reflexivity. }
      rewrite Dl in El. assert (Zl : is_lifetime Region_ZEROES [(5, None)]).
      { split; [apply (lb_cons 5 None [] [5] SR_empty []); [constructor; lia|reflexivity|constructor]|]. split; [constructor; [split; [split; cbn; lia|exact I]|constructor]|]. constructor; [constructor|constructor]. }
      destruct (lifetime_union_is_union _ _ _ _ _ _ Lb Zl El) as (C & HC & IC & _). apply (has_place _ C HC). destruct (proj1 (has_place _ _ Lb) Nn) as (r & x & I). exists r, x. apply IC. auto.
    - cbn in Ls. injection Ls as <-. split; [tauto|]. intros H. apply nonempty_iff in H. congruence. }
  assert (Ts : typed s bc) by (split; [congruence|]; split; [exact Wb|]; rewrite Qs, Vs; split; apply land_word; auto).
  split; [exact Cs|]. split; [exact Q|]. split; [exact R|]. split.
  - apply (assignable_iff s bc b bc); auto. split; [|right; tauto]. split; [rewrite Vs; intros i H; rewrite Z.land_spec, andb_true_iff in H; tauto|]. left.
    split; [intros i H; apply Q in H; tauto|]. apply says; auto. apply canon_accepts_itself. auto.
  - intros Wf. apply (assignable_iff s bc a ac); auto. split; [|left; reflexivity]. split; [exact Wf|]. right. split; [reflexivity|]. split; [exact Za|]. split; [|congruence].
    intros M. apply Q in M. tauto.
Qed.
Print Assumptions super_type_of_the_empty_value.
(** It ends, but for the empty value with never. *)
Theorem super_type_ends : forall n a ac b bc nz, typed a ac -> typed b bc ->
  ~ (canon a = c_zeroes /\ canon b = c_never) -> ~ (canon a = c_never /\ canon b = c_zeroes) ->
  type_trySuper (S (S n)) a b nz = type_trySuper 2 a b nz.
Proof.
  assert (Core : forall n b bc, typed b bc -> canon b <> c_never ->
    (do d <- definitType b true; type_trySuper (S n) b d false) = (do d <- definitType b true; type_trySuper 1 b d false)).
  { intros n b bc Tb Nb. destruct (definit_is b bc Tb Nb) as (d & Ed & Cd & _). rewrite Ed. cbn [obind]. pose proof Tb as (Eb & Wb & _). cbn [type_trySuper]. rewrite Cd, Eb, super_self by auto. cbn [obind].
    pose proof (written_nonempty bc Wb). destruct (written bc); [tauto|reflexivity]. }
  intros n a ac b bc nz Ta Tb N1 N2.
  change (type_trySuper (S (S n)) a b nz) with (do c <- canon_trySuper (canon a) (canon b);
      match c with
      | [] => if is_zeroes a && negb nz then do d <- definitType b true; type_trySuper (S n) b d false
              else if is_zeroes b && negb nz then do d <- definitType a true; type_trySuper (S n) a d false
              else Some no_type
      | _ =>
          do l <- (if nonempty (lifetime a) && nonempty (lifetime b) then Lifetime_union (lifetime a) (lifetime b) false else Some []);
          Some (T (Z.land (quals a) (quals b)) (Z.land (vfacts a) (vfacts b)) c l)
      end).
  change (type_trySuper 2 a b nz) with (do c <- canon_trySuper (canon a) (canon b);
      match c with
      | [] => if is_zeroes a && negb nz then do d <- definitType b true; type_trySuper 1 b d false
              else if is_zeroes b && negb nz then do d <- definitType a true; type_trySuper 1 a d false
              else Some no_type
      | _ =>
          do l <- (if nonempty (lifetime a) && nonempty (lifetime b) then Lifetime_union (lifetime a) (lifetime b) false else Some []);
          Some (T (Z.land (quals a) (quals b)) (Z.land (vfacts a) (vfacts b)) c l)
      end).
  destruct (canon_trySuper (canon a) (canon b)) as [[|x c]|]; [|reflexivity|reflexivity]. cbn [obind]. unfold is_zeroes.
  destruct (beq (canon a) c_zeroes) eqn:Za; [destruct nz; cbn [andb negb]|cbn [andb]].
  - destruct (beq (canon b) c_zeroes); reflexivity.
  - apply beq_true in Za. apply (Core n b bc Tb). tauto.
  - destruct (beq (canon b) c_zeroes) eqn:Zb; destruct nz; cbn [andb negb]; try reflexivity. apply beq_true in Zb. apply (Core n a ac Ta). tauto.
Qed.
Print Assumptions super_type_ends.
Theorem super_type_ends_refuted : exists a ac b bc, typed a ac /\ typed b bc /\ forall fuel, type_trySuper fuel a b false = None.
Proof.
  assert (G : forall x, (x = c_zeroes \/ x = c_never) -> typed (T 0 0 x []) (Plain x [])).
  { intros x Hx. split; [reflexivity|]. split; [|split; split; cbn; lia]. constructor; [|intros ? ? ? []]. destruct Hx as [->| ->]; (split; [discriminate|]; split; [discriminate|]);
      repeat (constructor; [repeat split; discriminate|]); constructor. }
  exists t_zeroes, (Plain c_zeroes []), t_never, (Plain c_never []). split; [apply G; auto|]. split; [apply G; auto|].
  set (z := T 0 6 c_zeroes []).
  assert (D : definitType t_never true = Some z) by reflexivity.
  assert (X : forall fuel, type_trySuper fuel t_never z false = None /\ (forall v, type_trySuper fuel (T 0 v c_zeroes []) t_never false = None)).
  { induction fuel as [|fuel [I1 I2]]; [split; reflexivity|]. split.
    - cbn [type_trySuper]. assert (Cx : canon_trySuper (canon t_never) (canon z) = Some []) by reflexivity. rewrite Cx. cbn [obind].
      change (is_zeroes t_never && negb false) with false. change (is_zeroes z && negb false) with true. cbv iota. rewrite D. cbn [obind]. exact I1.
    - intros v. cbn [type_trySuper]. cbn [TypesModel.canon]. assert (Cx : canon_trySuper c_zeroes (canon t_never) = Some []) by reflexivity. rewrite Cx. cbn [obind].
      change (is_zeroes (T 0 v c_zeroes []) && negb false) with true. cbv iota. rewrite D. cbn [obind]. exact I1. }
  intros fuel. apply X.
Qed.
Print Assumptions super_type_ends_refuted.
(** The common subtype, of canons with one pattern and one argument at most: goes where either goes; it is a reference
    if either is. *)
Theorem intersection_type_goes_to_both_partial : forall a ac b bc s nz arg, typed a ac -> typed b bc -> simple ac -> simple bc ->
  type_tryIntersect a b = Some s -> canon s <> [] ->
  isAssignable a s nz arg = Some true /\ isAssignable b s nz arg = Some true /\ (isref a \/ isref b -> isref s) /\
  (forall i, Z.testbit (quals s) i = true <-> Z.testbit (quals a) i = true \/ Z.testbit (quals b) i = true) /\
  (forall i, Z.testbit (vfacts s) i = true <-> Z.testbit (vfacts a) i = true \/ Z.testbit (vfacts b) i = true).
Proof.
  intros a ac b bc s nz arg Ta Tb Sa Sb E N. unfold type_tryIntersect in E. apply obind_Some in E as (c & Ec & E). destruct c as [|x c']; [injection E as <-; exfalso; apply N; reflexivity|].
  set (c := x :: c') in *. apply obind_Some in E as (l & El & E). destruct (negb (nonempty l) && _) eqn:Eg; [injection E as <-; exfalso; apply N; reflexivity|]. injection E as <-. clear N.
  pose proof Ta as (Ea & Wa & Qa & Va). pose proof Tb as (Eb & Wb & Qb & Vb). rewrite Ea, Eb in Ec.
  destruct (canon_intersection_is_accepted_by_both_partial ac bc c Wa Wb Sa Sb Ec ltac:(discriminate)) as (Cc & Ca & Cb).
  assert (exists sc, c = written sc /\ well_formed sc) as (sc & Es & Ws) by (destruct Cc as [->| ->]; eauto).
  assert (R : isref a \/ isref b -> l <> []).
  { intros H. destruct l; [|discriminate]. cbn [nonempty negb andb] in Eg. apply orb_false_iff in Eg as [G1 G2]. unfold isref in H. rewrite <- !nonempty_iff in H. destruct H; congruence. }
  set (s := T _ _ c l). assert (Ts : typed s sc) by (split; [exact Es|]; split; [exact Ws|]; split; apply lor_word; auto; lia).
  rewrite Es in Ca, Cb. apply says in Ca; auto. apply says in Cb; auto.
  assert (Bq : forall i, Z.testbit (quals s) i = true <-> Z.testbit (quals a) i = true \/ Z.testbit (quals b) i = true) by (intros i; cbn [quals s]; rewrite Z.lor_spec, orb_true_iff; reflexivity).
  assert (Bv : forall i, Z.testbit (vfacts s) i = true <-> Z.testbit (vfacts a) i = true \/ Z.testbit (vfacts b) i = true) by (intros i; cbn [vfacts s]; rewrite Z.lor_spec, orb_true_iff; reflexivity).
  split; [|split; [|split; [exact R|split; [exact Bq|exact Bv]]]].
  - apply (assignable_iff a ac s sc); auto. split; [|right; intros H; apply R; left; exact H]. split; [intros i H; apply Bv; auto|]. left. split; [intros i H; apply Bq; auto|exact Ca].
  - apply (assignable_iff b bc s sc); auto. split; [|right; intros H; apply R; right; exact H]. split; [intros i H; apply Bv; auto|]. left. split; [intros i H; apply Bq; auto|exact Cb].
Qed.
Print Assumptions intersection_type_goes_to_both_partial.
Theorem intersection_type_goes_to_both_refuted : exists a ac b bc s, typed a ac /\ typed b bc /\
  type_tryIntersect a b = Some s /\ canon s <> [] /\ isAssignable b s true false = Some false.
Proof.
  destruct canon_intersection_is_accepted_by_both_refuted as (ac & bc & s & Wa & Wb & E & N & F).
  assert (Ty : forall x, well_formed x -> typed (T 0 0 (written x) []) x) by (intros x W; split; [reflexivity|]; split; [exact W|]; split; split; cbn; lia).
  exists (T 0 0 (written ac) []), ac, (T 0 0 (written bc) []), bc, (T 0 0 s []). split; [apply Ty, Wa|]. split; [apply Ty, Wb|]. split; [|split; [exact N|]].
  - unfold type_tryIntersect. cbn [TypesModel.canon lifetime quals vfacts]. rewrite E. cbn [obind]. destruct s; [tauto|reflexivity].
  - unfold isAssignable, isAssignableAsArgument, truthy. cbn [TypesModel.canon quals vfacts lifetime]. pose proof (written_nonempty bc Wb). destruct (written bc) eqn:X; [tauto|]. rewrite <- X in F |- *.
    destruct s; [tauto|]. cbn [andb check obind]. rewrite F. reflexivity.
Qed.
Print Assumptions intersection_type_goes_to_both_refuted.

(** ** The empty value's type *)
Theorem empty_value_type : forall t c asTypename d, typed t c -> definitType t asTypename = Some d ->
  canon d = (if beq (canon t) c_never then c_zeroes else canon t) /\ canon d <> c_never /\ ~ mutref d /\ (isref t -> canon t <> c_never -> lifetime d = Region_ZEROES) /\
  Z.testbit (vfacts d) 1 = true /\ Z.testbit (vfacts d) 0 = false /\ (Z.testbit (vfacts d) 2 = true <-> asTypename = true) /\
  (Z.testbit (vfacts d) 3 = true <-> exists tags item, canon t <> c_never /\ c = Array tags item).
Proof.
  intros t c asT d Tt E. pose proof (truthy_typed t c Tt) as Tr. pose proof Tt as (Et & Wt & Qt & Vt). unfold definitType in E. rewrite Tr in E. cbn [negb orb] in E.
  assert (Sl : is_sliceable t = true <-> exists tags item, c = Array tags item).
  { unfold is_sliceable, starts_with. rewrite Et. destruct c as [b ps|tg it]; [|split; [eauto|intros _; cbn [written]; apply Z.eqb_refl]]. split; [|intros (? & ? & X); discriminate].
    intros H. exfalso. inversion Wt as [? ? (Nb & Hb & _) _ X|]. subst. destruct b as [|z b]; [tauto|]. assert (Hd : exists r, written (Plain (z :: b) ps) = z :: r) by (destruct ps; cbn [written app]; eauto).
    destruct Hd as (r & Hr). rewrite Hr in H. apply Z.eqb_eq in H. apply Hb. cbn. exact H. }
  apply obind_Some in E as (u & Eu & E). apply check_Some in Eu. apply negb_true_iff in Eu. injection E as <-. cbn [with_vfacts TypesModel.canon quals vfacts lifetime].
  change (is_never t) with (beq (canon t) c_never) in *. destruct (beq (canon t) c_never) eqn:Nv.
  - apply beq_true in Nv. cbn. split; [reflexivity|]. split; [discriminate|]. split; [discriminate|]. split; [tauto|]. split; [destruct asT; reflexivity|]. split; [destruct asT; reflexivity|]. split.
    + destruct asT; cbn; split; congruence || discriminate || auto.
    + destruct asT; cbn; (split; [discriminate|intros (? & ? & X & _); tauto]).
  - set (d := if is_ref (clear_mutref t) then _ else _) in *. assert (C : canon d = canon t) by (unfold d; destruct (is_ref (clear_mutref t)); reflexivity).
    assert (Q : quals d = andnot (quals t) q_mutref) by (unfold d; destruct (is_ref (clear_mutref t)); reflexivity).
    assert (X : is_sliceable d = is_sliceable t) by (unfold is_sliceable; rewrite C; reflexivity).
    assert (Nc : canon t <> c_never) by (intros Y; apply beq_true in Y; congruence).
    split; [exact C|]. split; [rewrite C; exact Nc|]. split; [|split; [|rewrite X; split; [|split; [|split]]]].
    + unfold mutref. cbn [quals with_vfacts]. rewrite Q. rewrite andnot_spec by auto. change q_mutref with 1. cbn. rewrite andb_false_r. discriminate.
    + intros R _. unfold d. assert (Y : is_ref (clear_mutref t) = true) by (apply nonempty_iff; exact R). rewrite Y. reflexivity.
    + destruct asT, (is_sliceable t); reflexivity.
    + destruct asT, (is_sliceable t); reflexivity.
    + destruct asT, (is_sliceable t); vm_compute; split; congruence || discriminate || auto.
    + rewrite <- C in Nc. transitivity (is_sliceable t = true); [destruct asT, (is_sliceable t); vm_compute; split; congruence || discriminate || auto|]. rewrite Sl.
      split; [intros (tg & it & Y); exists tg, it; split; [rewrite <- C; exact Nc|exact Y]|intros (tg & it & _ & Y); eauto].
Qed.
Print Assumptions empty_value_type.

(** ** Arrays and slices *)
(** An array's canon is that of an array of the item, with its tags; it is not a mutable reference, can be resized, can be
    copied when the item can (or is void); refers to what the item refers to; and gives back the item. *)
Local Lemma tags_small q : 0 <= Z.land q q_TAGS < 8.
Proof. change q_TAGS with (Z.ones 3). rewrite Z.land_ones by lia. change 8 with (2 ^ 3). apply Z.mod_pos_bound. lia. Qed.
Local Lemma tags_word q : word 32 (Z.land q q_TAGS). Proof. pose proof (tags_small q). split; [lia|]. change (2 ^ 32) with 4294967296. lia. Qed.
Theorem array_of_items : forall item c, typed item c -> exists arr, createArray item = Some arr /\ typed arr (Array (Z.land (quals item) 7) c) /\
  ~ mutref arr /\ Z.testbit (quals arr) 2 = true /\ (Z.testbit (quals arr) 1 = true <-> Z.testbit (quals item) 1 = true \/ canon item = c_void) /\
  vfacts arr = 0 /\ lifetime arr = lifetime item /\ tryClear_sliceable arr = Some (Z.land (quals item) 7, canon item).
Proof.
  intros item c Tt. pose proof (truthy_typed item c Tt) as Tr. pose proof Tt as (Et & Wt & Qt & Vt). pose proof (written_nonempty c Wt) as Nw.
  assert (Sr : serializeType (quals item) (canon item) = Some (varint (Z.land (quals item) q_TAGS) ++ canon item)).
  { unfold serializeType. rewrite append_varint_is by apply tags_word. cbn [app obind]. rewrite Et. destruct (written c); [tauto|reflexivity]. }
  unfold createArray. rewrite Tr, Sr. cbn [obind]. eexists. split; [reflexivity|]. set (q := Z.lor _ _).
  assert (Bq : forall i, Z.testbit q i = (Z.testbit (quals item) i && (i =? 1)) || (i =? 2) || (i =? 3) || (beq (canon item) c_void && (i =? 1))).
  { intros i. unfold q. rewrite !Z.lor_spec, Z.land_spec. change q_rx_copy with (2 ^ 1). change q_rx_resize with (2 ^ 2). change q_non_compund with (2 ^ 3). unfold is_void. rewrite !nth_bit by lia.
    destruct (beq (canon item) c_void); [rewrite nth_bit by lia|rewrite Z.bits_0]; reflexivity. }
  assert (Wq : word 32 q).
  { unfold q. apply lor_word; [lia| |destruct (is_void item); split; vm_compute; congruence]. apply lor_word; [lia| |split; vm_compute; congruence]. apply lor_word; [lia| |split; vm_compute; congruence].
    apply land_word_l; auto. lia. }
  split; [|split; [|split; [|split; [|split; [reflexivity|split; [reflexivity|]]]]]].
  - split; [cbn [TypesModel.canon written]; change 7 with q_TAGS; rewrite Et, <- app_assoc; reflexivity|]. split; [constructor; [apply tags_small|exact Wt]|]. split; [exact Wq|split; vm_compute; congruence].
  - unfold mutref. cbn [quals]. rewrite Bq. cbn. rewrite !andb_false_r. discriminate.
  - cbn [quals]. rewrite Bq. cbn. rewrite !andb_false_r. reflexivity.
  - cbn [quals]. rewrite Bq. cbn. rewrite !andb_true_r, !orb_false_r, orb_true_iff, beq_true. reflexivity.
  - unfold tryClear_sliceable, is_sliceable, starts_with. cbn [TypesModel.canon]. rewrite Z.eqb_refl. set (v := varint _).
    assert (Cu : cut (LBRA :: (v ++ canon item) ++ [RBRA]) 1 (zlen (LBRA :: (v ++ canon item) ++ [RBRA]) - 1) = Some (v ++ canon item)).
    { replace (LBRA :: (v ++ canon item) ++ [RBRA]) with ([LBRA] ++ (v ++ canon item) ++ [RBRA]) by reflexivity. change 1 with (zlen [LBRA]) at 1.
      replace (zlen ([LBRA] ++ (v ++ canon item) ++ [RBRA]) - 1) with (zlen ([LBRA] ++ (v ++ canon item))); [apply cut_mid|]. rewrite !CanonProofs.zlen_app. change (zlen [LBRA]) with 1. change (zlen [RBRA]) with 1. lia. }
    rewrite Cu. cbn [obind]. destruct (serialized_type_round_trip (quals item) (canon item)) as (str & E1 & E2); [rewrite Et; exact Nw|].
    rewrite Sr in E1. apply (f_equal (fun o => match o with Some x => x | None => [] end)) in E1. cbv beta iota in E1. rewrite <- E1 in E2. exact E2.
Qed.
Print Assumptions array_of_items.
(** A slice of items: a reference which cannot be resized, copied or written through whole; to what is given and what the
    item refers to; an array of the items can be passed for it, but not it for an array. *)
Theorem slice_of_items : forall item c li l L s, typed item c -> is_lifetime (lifetime item) li -> is_lifetime l L -> createSlice item l = Some s ->
  typed s (Array (Z.land (quals item) 7) c) /\ isref s /\ ~ mutref s /\ Z.testbit (quals s) 1 = false /\ Z.testbit (quals s) 2 = false /\ vfacts s = 0 /\
  (exists ls, is_lifetime (lifetime s) ls /\ forall r x, inside ls r x <-> inside li r x \/ inside L r x) /\
  forall arr, createArray item = Some arr -> isAssignable s arr true true = Some true /\ isAssignable arr s true true = Some false.
Proof.
  intros item c li l L s Tt Li Ll E. destruct (array_of_items item c Tt) as (arr & Ea & Ta & Ma & Ra & _ & Va & La & _). unfold createSlice in E. rewrite Ea in E. cbn [obind] in E.
  unfold add_ref in E. apply obind_Some in E as (l' & El & E). apply obind_Some in E as (u & Eu & E). apply check_Some in Eu. apply nonempty_iff in Eu. injection E as <-.
  cbn [with_lifetime with_quals lifetime quals vfacts] in *. pose proof Ta as (Ca & Wa & Qa & Vva). set (q := andnot _ _).
  assert (Bq : forall i, Z.testbit q i = Z.testbit (quals arr) i && negb ((i =? 1) || (i =? 2))).
  { intros i. unfold q. rewrite andnot_spec by auto.
    change 6 with (Z.lor (2 ^ 1) (2 ^ 2)). rewrite Z.lor_spec, !nth_bit by lia. reflexivity. }
  assert (Ts : typed (T q (vfacts arr) (canon arr) l') (Array (Z.land (quals item) 7) c)) by (split; [exact Ca|]; split; [exact Wa|]; split; [apply andnot_word; exact Qa|exact Vva]).
  split; [exact Ts|]. split; [exact Eu|]. split; [|split; [|split; [|split; [exact Va|split]]]].
  - unfold mutref in *. cbn [quals]. rewrite Bq. cbn. rewrite andb_true_r. exact Ma.
  - rewrite Bq. cbn. apply andb_false_r.
  - rewrite Bq. cbn. apply andb_false_r.
  - rewrite La in El. destruct (lifetime_add_is_union _ _ _ _ _ _ Li Ll El) as (_ & C & HC & IC). exists C. auto.
  - intros arr' Ea'. rewrite Ea in Ea'. injection Ea' as <-. split.
    + apply (assignable_iff _ _ _ _ true true Ts Ta). split; [|left; reflexivity]. split; [apply within_refl|]. left. split; [intros i H; cbn [quals] in H; rewrite Bq, andb_true_iff in H; apply H|].
      apply says; auto. apply canon_accepts_itself. exact Wa.
    + destruct (type_assignability_is _ _ _ _ true true Ta Ts (within_facts _ _ (within_refl _))) as (r & Er & Hr). change (with_lifetime _ _) with (T q (vfacts arr) (canon arr) l'). rewrite Er. f_equal.
      destruct r; [|reflexivity]. destruct (proj1 Hr eq_refl) as ((_ & [[Wq _]|(X & _)]) & _); [|discriminate]. specialize (Wq 2 Ra). cbn [quals] in Wq. rewrite Bq in Wq. cbn in Wq. rewrite andb_false_r in Wq. discriminate.
Qed.
Print Assumptions slice_of_items.

(** ** What of a returned value's type may be relaxed *)
(** Nothing, when it comes from no argument.  Else the mutable reference, if it was to be relaxed; and, when it comes from
    an argument without following a reference, copying and resizing - both of what it has, or neither. *)
Local Lemma arg_is r : isArgIdx r = true <-> r mod 4 = 3.
Proof. unfold isArgIdx. change 3 with (Z.ones 2) at 1. rewrite Z.land_ones by lia. change (2 ^ 2) with 4. apply Z.eqb_eq. Qed.
Local Lemma last_first lp : forall first mid p sts, steps lp first mid p sts ->
  exists st, last_step sts = Some st /\ (s_first st = true <-> first = true /\ length p = 1%nat).
Proof.
  induction 1 as [first mid s|first mid s p bo sts Hn Hs IH].
  - eexists. split; [reflexivity|]. cbn. tauto.
  - destruct IH as (st & E & H). exists st. unfold last_step in *. cbn [rev]. assert (X : hd_error (rev sts ++ [{| s_sub := s; s_first := first; s_last := false; s_lastPath := false; s_prefix := mid |}]) = hd_error (rev sts)).
    { destruct (rev sts); [discriminate|reflexivity]. } rewrite X. split; [exact E|]. rewrite H. inversion Hs; subst; cbn; split; intros [A B]; discriminate || lia.
Qed.
Local Lemma any_direct ps stss : all_steps ps stss ->
  (existsb (fun sts => match last_step sts with Some st => s_first st | None => false end) stss = true <-> exists p, In p ps /\ length p = 1%nat).
Proof.
  induction 1 as [p sts Hs|p ps sts stss Hs Ha IH]; cbn [existsb]; destruct (last_first _ _ _ _ _ Hs) as (st & E & H); rewrite E, orb_true_iff, H.
  - split; [intros [[_ X]|X]; [exists p; split; [left; reflexivity|exact X]|discriminate]|]. intros (p' & [<-|[]] & X). auto.
  - rewrite IH. split; [intros [[_ X]|(p' & I & X)]; [exists p; split; [left; reflexivity|exact X]|exists p'; split; [right; exact I|exact X]]|].
    intros (p' & [<-|I] & X); [left; auto|right; eauto].
Qed.
Local Lemma first_direct_is lt : forall es L is fa, Forall2 (fun e i => e_r e = fst (i_g i) /\ e_paths lt e = i_bc i) es is -> Forall item_ok is -> L = map i_g is ->
  exists q, first_direct lt es fa = Some q /\ (fst q = true <-> fa = true \/ from_argument L) /\ (snd q = true <-> from_argument_itself L).
Proof.
  induction es as [|e es IH]; intros L is fa F Ok ->; inversion F as [|? i ? is' [Hr Hp] F']; subst; cbn [first_direct map].
  - eexists. split; [reflexivity|]. cbn [fst snd]. split; [split; [auto|intros [H|(? & ? & [] & _)]; exact H]|]. split; [discriminate|intros (? & ? & [] & _)].
  - inversion_clear Ok as [|? ? ((Wd & Oc) & Nb & Cb) Ok']. specialize (IH (map i_g is') is').
    assert (Skip : forall g L, isArgIdx (fst g) = false -> (from_argument (g :: L) <-> from_argument L) /\ (from_argument_itself (g :: L) <-> from_argument_itself L)).
    { intros g L H. assert (Hn : fst g mod 4 <> 3) by (intros X; apply arg_is in X; congruence). split; split.
      - intros (r & c & [->|I] & X); [exfalso; exact (Hn X)|exists r, c; auto].
      - intros (r & c & I & X). exists r, c. split; [right; exact I|exact X].
      - intros (r & c & [->|I] & X & Y); [exfalso; exact (Hn X)|exists r, c; auto].
      - intros (r & c & I & X). exists r, c. split; [right; exact I|exact X]. }
    rewrite Hr. destruct (isArgIdx (fst (i_g i))) eqn:Ea.
    2:{ destruct (IH fa F' Ok' eq_refl) as (q & Eq & H1 & H2). exists q. split; [exact Eq|]. destruct (Skip (i_g i) (map i_g is') Ea) as [S1 S2]. rewrite S1, S2. auto. }
    apply arg_is in Ea. rewrite Hp. destruct (i_g i) as [r c] eqn:Eg. cbn [fst snd] in *.
    assert (Here : from_argument ((r, c) :: map i_g is')) by (exists r, c; split; [left; reflexivity|exact Ea]).
    assert (W : exists stss, walk_loop (S (length (i_bc i))) (i_bc i) 0 = Some (stss, zlen (i_bc i)) /\
      (existsb (fun sts => match last_step sts with Some st => s_first st | None => false end) stss = true <-> match c with None => True | Some ps => exists p, In p ps /\ length p = 1%nat end)).
    { destruct c as [ps|]; cbn [content_bytes] in Cb.
      - destruct Oc as [_ Op]. pose proof (walk_loop_ok ps (i_bc i) Op Cb (S (length (i_bc i))) [] []) as X. cbn [app] in X. rewrite app_nil_r in X. change (zlen []) with 0 in X.
        destruct X as (stss & E & As); [|exists stss; split; [exact E|apply any_direct; exact As]].
        clear - Cb. revert Cb. generalize (i_bc i). intros bs Cb. induction Cb as [p bs h|p ps bs cs h k IH]; cbn [length]; [lia|]. rewrite app_length.
        assert (Np : p <> []) by (intros ->; inversion h). apply path_bytes_len in h. destruct p as [|sr p]; [tauto|]. cbn [length] in h. lia.
      - rewrite Cb. eexists. split; [vm_compute; reflexivity|]. cbn. tauto. }
    destruct W as (stss & Ew & Hw). rewrite Ew. cbn [obind fst snd]. destruct (existsb _ stss) eqn:Ex.
    + eexists. split; [reflexivity|]. cbn [fst snd]. split; [tauto|]. split; [|auto]. intros _. exists r, c. split; [left; reflexivity|]. split; [exact Ea|]. apply Hw. reflexivity.
    + rewrite Z.eqb_refl. cbn [check obind]. destruct (IH true F' Ok' eq_refl) as (q & Eq & H1 & H2). exists q. split; [exact Eq|]. split; [tauto|]. rewrite H2. split.
      * intros (r' & c' & I & X). exists r', c'. split; [right; exact I|exact X].
      * intros (r' & c' & [Y|I] & X & D); [|exists r', c'; auto]. injection Y as <- <-. apply Hw in D. discriminate.
Qed.
Theorem relaxable_in_a_return_type : forall t c L relaxed, typed t c -> is_lifetime (lifetime t) L -> exists m, mask_retval_relaxable t relaxed = Some m /\
  within m relaxed /\ (from_argument L -> Z.testbit m 0 = Z.testbit relaxed 0) /\ (~ from_argument L -> m = 0) /\ (forall i, i <> 0 -> i <> 1 -> i <> 2 -> Z.testbit m i = false) /\
  (from_argument_itself L -> (forall i, i = 1 \/ i = 2 -> Z.testbit (quals t) i = true -> Z.testbit relaxed i = true) -> forall i, i = 1 \/ i = 2 -> Z.testbit m i = Z.testbit (quals t) i) /\
  (forall i, i = 1 \/ i = 2 -> Z.testbit m i = true -> from_argument_itself L /\ forall j, j = 1 \/ j = 2 -> Z.testbit m j = Z.testbit (quals t) j).
Proof.
  intros t c L relaxed Tt (Lb & Ok & So). unfold mask_retval_relaxable. destruct (items_of L (lifetime t) Ok Lb) as (is & El & Ei & Oki). rewrite <- Ei.
  destruct (LifetimeProps.each_spec is Oki) as (es & Ee & F). rewrite Ee. cbn [obind].
  assert (F' : Forall2 (fun e i => e_r e = fst (i_g i) /\ e_paths (ibytes is) e = i_bc i) es is).
  { clear - F. revert F. generalize (ibytes is) as chars. intros chars F. induction F as [|e i es is' (h1 & h2 & h3) F IH]; constructor; auto. }
  destruct (first_direct_is (ibytes is) es L is false F' Oki (eq_sym El)) as ((fa & dir) & Eq & H1 & H2). rewrite Eq. cbn [obind fst snd] in *.
  assert (Dir : from_argument_itself L -> from_argument L) by (intros (r & x & I & M & _); exists r, x; auto).
  destruct fa; cbn [negb].
  2:{ assert (Nf : ~ from_argument L) by (intros X; assert (false = true) by (apply H1; auto); discriminate). exists 0. split; [reflexivity|]. split; [intros i X; rewrite Z.bits_0 in X; discriminate|].
      split; [tauto|]. split; [reflexivity|]. split; [intros; apply Z.bits_0|]. split; [intros X; tauto|]. intros i _ X. rewrite Z.bits_0 in X. discriminate. }
  eexists. split; [reflexivity|]. set (decay := if dir then _ else 0).
  assert (Bd : forall i, Z.testbit decay i = dir && Z.testbit (quals t) i && ((i =? 1) || (i =? 2))).
  { intros i. unfold decay. destruct dir; [|apply Z.bits_0]. rewrite Z.land_spec, Z.lor_spec. change q_rx_copy with (2 ^ 1). change q_rx_resize with (2 ^ 2). rewrite !nth_bit by lia. reflexivity. }
  set (m := Z.lor _ _).
  assert (Bm : forall i, Z.testbit m i = Z.testbit relaxed i && (i =? 0) || (Z.land relaxed decay =? decay) && Z.testbit decay i).
  { intros i. unfold m. rewrite Z.lor_spec, Z.land_spec. change q_mutref with (2 ^ 0). rewrite nth_bit by lia. destruct (Z.land relaxed decay =? decay); [|rewrite Z.bits_0]; reflexivity. }
  assert (Wd : (Z.land relaxed decay =? decay) = true <-> within decay relaxed) by (rewrite Z.eqb_eq, Z.land_comm; apply within_land).
  split; [|split; [|split; [|split; [|split]]]].
  - intros i H. rewrite Bm, orb_true_iff, !andb_true_iff in H. destruct H as [[H _]|[H1' H2']]; [exact H|]. apply Wd in H1'. exact (H1' i H2').
  - intros _. rewrite Bm, Bd. cbn. rewrite !andb_false_r, andb_true_r, orb_false_r. reflexivity.
  - intros X. exfalso. apply X. destruct (proj1 H1 eq_refl) as [Y|Y]; [discriminate|exact Y].
  - intros i N0 N1 N2. rewrite Bm, Bd. apply Z.eqb_neq in N0, N1, N2. rewrite N0, N1, N2. cbn. rewrite !andb_false_r. reflexivity.
  - intros X A i Hi. assert (Dt : dir = true) by (apply H2; exact X). assert (W : within decay relaxed).
    { intros j Hj. rewrite Bd, Dt, !andb_true_iff, orb_true_iff, !Z.eqb_eq in Hj. apply A; tauto. }
    apply Wd in W. rewrite Bm, W, Bd, Dt. destruct Hi as [->| ->]; cbn; rewrite andb_false_r, andb_true_r; reflexivity.
  - intros i Hi Hm. rewrite Bm in Hm. assert (N0 : (i =? 0) = false) by (apply Z.eqb_neq; lia). rewrite N0, andb_false_r in Hm. cbn [orb] in Hm. apply andb_true_iff in Hm as [W D]. rewrite Bd in D.
    destruct dir; [|discriminate]. split; [apply H2; reflexivity|]. intros j Hj. rewrite Bm, W, Bd. destruct Hj as [->| ->]; cbn; rewrite andb_false_r, andb_true_r; reflexivity.
Qed.
Print Assumptions relaxable_in_a_return_type.

(** ** Non-vacuity: [i32], taken by reference from the first argument, against a slice of i32 and the empty value *)
Example types_example :
  let i32 := [105; 51; 50] in let item := T 2 0 i32 [] in let l := [3; 0; 0] in
  exists arr sl, createArray item = Some arr /\ createSlice item l = Some sl /\ typed arr (Array 2 (Plain i32 [])) /\ typed sl (Array 2 (Plain i32 [])) /\ is_lifetime l [(3, None)] /\
    isAssignable sl arr false true = Some true /\ isAssignable sl arr false false = Some false /\ isAssignable arr sl false true = Some false /\
    isAssignable sl t_zeroes false true = Some true /\ type_trySuper 2 t_zeroes arr false = Some arr /\ canon_trySuper (canon t_zeroes) (canon arr) = Some [] /\
    type_trySuper 1 arr sl false = Some (T 8 0 (canon arr) []) /\ type_tryIntersect arr arr = Some arr /\
    quals (fst (try_relax arr sl 7)) = quals sl /\ snd (try_relax arr sl 7) = 6 /\
    mask_retval_relaxable (T 15 0 (canon arr) l) 7 = Some 7 /\ mask_retval_relaxable (T 15 0 (canon arr) l) 3 = Some 1 /\ from_argument_itself [(3, None)].
Proof.
  cbv zeta. assert (Wi : well_formed (Plain [105; 51; 50] [])).
  { constructor; [|intros ? ? ? []]. split; [discriminate|]. split; [discriminate|]. repeat (constructor; [repeat split; discriminate|]). constructor. }
  exists (T 14 0 [91; 50; 105; 51; 50; 93] []), (T 8 0 [91; 50; 105; 51; 50; 93] [3; 0; 0]).
  assert (Ty : forall q l, word 32 q -> typed (T q 0 [91; 50; 105; 51; 50; 93] l) (Array 2 (Plain [105; 51; 50] []))).
  { intros q l W. split; [reflexivity|]. split; [constructor; [lia|exact Wi]|]. split; [exact W|split; vm_compute; congruence]. }
  split; [reflexivity|]. split; [reflexivity|]. split; [apply Ty; split; vm_compute; congruence|]. split; [apply Ty; split; vm_compute; congruence|]. split.
  { split; [apply (lb_cons 3 None [] [3] SR_empty []); [constructor; lia|reflexivity|constructor]|]. split; [constructor; [split; [split; vm_compute; congruence|exact I]|constructor]|]. constructor; constructor. }
  repeat (split; [vm_compute; reflexivity|]). exists 3, None. split; [left; reflexivity|]. split; [reflexivity|exact I].
Qed.
