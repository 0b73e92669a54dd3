(** C54: targets, user type canons, serialized types and addresses of functions are read back as they were written. *)
From Verif Require Import CanonModel CanonSpec CanonProofs CanonMatch VarintProofs VarintProps CommonLemmas WordsLemmas LifetimeProofs.
Open Scope Z_scope.

(** ** Arithmetic *)
Local Lemma p19 : 2 ^ 19 = 524288. Proof. reflexivity. Qed.
Local Lemma p20 : 2 ^ 20 = 1048576. Proof. reflexivity. Qed.
Local Lemma p31 : 2 ^ 31 = 2147483648. Proof. reflexivity. Qed.
Local Lemma p32 : 2 ^ 32 = 4294967296. Proof. reflexivity. Qed.
Local Lemma p40 : 2 ^ 40 = 1099511627776. Proof. reflexivity. Qed.
Local Lemma p64 : 2 ^ 64 = 18446744073709551616. Proof. reflexivity. Qed.
Ltac pows := pose proof p19; pose proof p20; pose proof p31; pose proof p32; pose proof p40; pose proof p64.
Local Lemma lor_disjoint k a b : 0 <= k -> 0 <= b < 2 ^ k -> Z.lor (a * 2 ^ k) b = a * 2 ^ k + b.
Proof.
  intros Hk Hb.
  assert (D : Z.land (a * 2 ^ k) b = 0).
  { apply Z.bits_inj'. intros j Hj. rewrite Z.land_spec, Z.bits_0, Z.mul_pow2_bits by lia. destruct (Z.lt_ge_cases j k).
    - rewrite (Z.testbit_neg_r a) by lia. reflexivity.
    - rewrite (word_testbit_high k b) by (auto; split; lia). apply andb_false_r. }
  rewrite (Z.add_nocarry_lxor _ _ D). apply Z.bits_inj'. intros j Hj. rewrite Z.lor_spec, Z.lxor_spec.
  pose proof (f_equal (fun x => Z.testbit x j) D) as Dj. cbv beta in Dj. rewrite Z.land_spec, Z.bits_0 in Dj.
  destruct (Z.testbit (a * 2 ^ k) j), (Z.testbit b j); auto; discriminate.
Qed.
Local Lemma flip32 x : word 32 x -> Z.lxor x 4294967295 = 4294967295 - x.
Proof.
  intros W.
  assert (D : Z.land x (Z.lxor x 4294967295) = 0).
  { apply Z.bits_inj'. intros j Hj. rewrite Z.land_spec, Z.lxor_spec, Z.bits_0. change 4294967295 with (Z.ones 32). destruct (Z.lt_ge_cases j 32).
    - rewrite Z.ones_spec_low by lia. destruct (Z.testbit x j); reflexivity.
    - rewrite (word_testbit_high 32 x) by (auto; lia). reflexivity. }
  pose proof (Z.add_nocarry_lxor _ _ D) as E. rewrite <- Z.lxor_assoc, Z.lxor_nilpotent, Z.lxor_0_l in E. lia.
Qed.
Local Lemma rotate_value l : -2 ^ 31 <= l < 2 ^ 31 -> sign_rotate l = if l <? 0 then -2 * l - 1 else 2 * l.
Proof.
  intros H. pows. unfold sign_rotate, wshl. rewrite Z.shiftl_mul_pow2 by lia. change (2 ^ 1) with 2. destruct (Z.ltb_spec l 0) as [N|N].
  - assert (wrap 32 l = l + 2 ^ 32) as -> by (unfold wrap; symmetry; apply (Z.mod_unique_pos _ _ (-1)); lia).
    assert (wrap 32 ((l + 2 ^ 32) * 2) = 2 * l + 2 ^ 32) as -> by (unfold wrap; symmetry; apply (Z.mod_unique_pos _ _ 1); lia).
    rewrite flip32 by (split; lia). lia.
  - rewrite Z.lxor_0_r, (wrap_small 32 l), wrap_small by (split; lia). lia.
Qed.
Local Lemma unrotate_rotate l : -2 ^ 31 <= l < 2 ^ 31 -> sign_unrotate (sign_rotate l) = l.
Proof.
  intros H. pows. rewrite rotate_value by auto. unfold sign_unrotate, wshr. rewrite Z.shiftr_div_pow2 by lia. change (2 ^ 1) with 2. destruct (Z.ltb_spec l 0) as [N|N].
  - replace (-2 * l - 1) with (2 * (- l - 1) + 1) by lia. rewrite Z.testbit_odd_0. rewrite Z.mul_comm, Z.div_add_l by lia. change (1 / 2) with 0. rewrite Z.add_0_r.
    rewrite flip32 by (split; lia). unfold signed32. destruct (Z.ltb_spec (4294967295 - (- l - 1)) (2 ^ 31)); lia.
  - rewrite Z.testbit_even_0, Z.lxor_0_r. rewrite Z.mul_comm, Z.div_mul by lia. unfold signed32. destruct (Z.ltb_spec l (2 ^ 31)); lia.
Qed.
Definition local_range (l : Z) : Prop := -2 ^ 19 <= l < 2 ^ 19.
Local Lemma rotate_range l : local_range l -> 0 <= sign_rotate l < 2 ^ 20.
Proof. intros H. unfold local_range in H. pows. rewrite rotate_value by lia. destruct (Z.ltb_spec l 0); lia. Qed.
Local Lemma target_is m g l : 0 <= m < 2 ^ 20 -> 0 < g < 2 ^ 20 -> local_range l -> Target m g l = Some ((m * 2 ^ 20 + g) * 2 ^ 20 + sign_rotate l).
Proof.
  intros Hm Hg Hl. pose proof (rotate_range l Hl) as R. pows. unfold Target.
  replace ((0 <=? m) && (0 <? g)) with true by (symmetry; apply andb_true_iff; rewrite Z.leb_le, Z.ltb_lt; lia).
  unfold wshl. rewrite !Z.shiftl_mul_pow2 by lia. rewrite (wrap_small 64 m), (wrap_small 64 g) by (split; lia). rewrite !wrap_small by (split; lia). f_equal.
  replace (m * 2 ^ 40) with (m * 2 ^ 20 * 2 ^ 20) by (rewrite p40, p20; lia).
  assert (Z.lor (m * 2 ^ 20 * 2 ^ 20) (g * 2 ^ 20) = (m * 2 ^ 20 + g) * 2 ^ 20) as ->.
  { rewrite <- !Z.shiftl_mul_pow2 with (n := 20) by lia. rewrite <- Z.shiftl_lor. f_equal. rewrite Z.shiftl_mul_pow2 by lia. apply lor_disjoint; lia. }
  apply lor_disjoint; lia.
Qed.
Local Lemma mask20 x : Z.land x 1048575 = x mod 2 ^ 20. Proof. change 1048575 with (Z.ones 20). apply Z.land_ones. lia. Qed.
Local Lemma signed32_small v : 0 <= v < 2 ^ 20 -> signed32 (wrap 32 v) = v.
Proof. intros H. pows. rewrite wrap_small by (split; lia). apply signed_small. exact H. Qed.

(** ** Targets: a module, a global and a local number in 60 bits *)
Theorem target_fields : forall m g l, 0 <= m < 2 ^ 20 -> 0 < g < 2 ^ 20 -> local_range l ->
  exists t, Target m g l = Some t /\ word 64 t /\ t_modid t = m /\ t_globid t = g /\ t_locid t = l.
Proof.
  intros m g l Hm Hg Hl. rewrite target_is by auto. pose proof (rotate_range l Hl) as R. set (r := sign_rotate l) in *. pows. eexists. split; [reflexivity|]. split; [split; nia|].
  unfold t_modid, t_globid, t_locid, wshr. rewrite !Z.shiftr_div_pow2, !mask20 by lia.
  assert (E1 : ((m * 2 ^ 20 + g) * 2 ^ 20 + r) / 2 ^ 20 = m * 2 ^ 20 + g) by (symmetry; apply (Z.div_unique_pos _ _ _ r); lia).
  assert (E2 : ((m * 2 ^ 20 + g) * 2 ^ 20 + r) / 2 ^ 40 = m) by (symmetry; apply (Z.div_unique_pos _ _ _ (g * 2 ^ 20 + r)); lia).
  assert (E3 : ((m * 2 ^ 20 + g) * 2 ^ 20 + r) mod 2 ^ 20 = r) by (symmetry; apply (Z.mod_unique_pos _ _ (m * 2 ^ 20 + g)); lia).
  assert (E4 : (m * 2 ^ 20 + g) mod 2 ^ 20 = g) by (symmetry; apply (Z.mod_unique_pos _ _ m); lia).
  rewrite E1, E2, E3, E4, (Z.mod_small m) by lia. rewrite !signed32_small by lia. rewrite wrap_small by (split; lia). split; auto. split; auto.
  subst r. apply unrotate_rotate. unfold local_range in Hl. lia.
Qed.
Print Assumptions target_fields.
Theorem targets_are_distinct : forall m g l m' g' l', 0 <= m < 2 ^ 20 -> 0 < g < 2 ^ 20 -> local_range l -> 0 <= m' < 2 ^ 20 -> 0 < g' < 2 ^ 20 -> local_range l' ->
  Target m g l = Target m' g' l' -> m = m' /\ g = g' /\ l = l'.
Proof.
  intros m g l m' g' l' ? ? ? ? ? ? E. destruct (target_fields m g l) as (t & T & _ & <- & <- & <-); auto. destruct (target_fields m' g' l') as (t' & T' & _ & <- & <- & <-); auto.
  assert (t = t') as -> by congruence. auto.
Qed.
Print Assumptions targets_are_distinct.
(** Beyond a million of anything they are not. *)
Theorem targets_are_distinct_refuted : exists m g l m' g' l', 0 <= m < 2 ^ 31 /\ 0 < g < 2 ^ 31 /\ 0 <= m' < 2 ^ 31 /\ 0 < g' < 2 ^ 31 /\
  (exists t, Target m g l = Some t /\ Target m' g' l' = Some t) /\ (m, g, l) <> (m', g', l').
Proof.
  exists 0, (2 ^ 20 + 1), 0, 1, 1, 0. split; [lia|]. split; [rewrite p20, p31; lia|]. split; [rewrite p31; lia|]. split; [rewrite p31; lia|].
  split; [eexists; split; vm_compute; reflexivity|discriminate].
Qed.
Print Assumptions targets_are_distinct_refuted.
Theorem target_refuses_bad_numbers : forall m g l, Target m g l = None <-> m < 0 \/ g <= 0.
Proof.
  intros m g l. unfold Target. destruct (Z.leb_spec 0 m), (Z.ltb_spec 0 g); cbn [andb]; split; intros X; try discriminate; try lia; auto.
Qed.
Print Assumptions target_refuses_bad_numbers.

(** ** Targets in strings *)
Definition is_target (t : Z) : Prop := exists m g l, 0 <= m < 2 ^ 20 /\ 0 < g < 2 ^ 20 /\ local_range l /\ Target m g l = Some t.
Local Lemma is_target_fields t : is_target t -> 0 <= t_modid t < 2 ^ 20 /\ 0 < t_globid t < 2 ^ 20 /\ local_range (t_locid t) /\ Target (t_modid t) (t_globid t) (t_locid t) = Some t.
Proof. intros (m & g & l & Hm & Hg & Hl & E). destruct (target_fields m g l Hm Hg Hl) as (t' & E' & _ & A & B & C). assert (t' = t) as -> by congruence. rewrite A, B, C. auto. Qed.
Local Lemma append_log t pre : is_target t ->
  appendLocalOrGlobal pre t = Some (pre ++ varint (t_modid t) ++ varint (t_globid t) ++ varint (sign_rotate (t_locid t))).
Proof.
  intros T. destruct (is_target_fields t T) as (Hm & Hg & Hl & E). pose proof (rotate_range _ Hl). pows. unfold appendLocalOrGlobal.
  replace ((0 <=? t_modid t) && (0 <? t_globid t)) with true by (symmetry; apply andb_true_iff; rewrite Z.leb_le, Z.ltb_lt; lia).
  rewrite !wrap_small by (split; lia). rewrite append_varint_is by (apply id_word; lia). cbn [obind]. rewrite append_varint_is by (apply id_word; lia). cbn [obind].
  rewrite append_varint_is by (apply id_word; lia). rewrite <- !app_assoc. reflexivity.
Qed.
Theorem target_round_trip : forall t pre rest, is_target t -> exists written,
  appendLocalOrGlobal pre t = Some (pre ++ written) /\ parseLocalOrGlobal (pre ++ written ++ rest) (zlen pre) = Some (t, zlen (pre ++ written)).
Proof.
  intros t pre rest T. destruct (is_target_fields t T) as (Hm & Hg & Hl & E). pose proof (rotate_range _ Hl). pows. eexists. split; [apply append_log; auto|].
  unfold parseLocalOrGlobal. rewrite <- !app_assoc. rewrite parse_varint_at by (apply id_word; lia). cbn [obind fst snd]. rewrite <- zlen_app.
  rewrite (app_assoc pre). rewrite parse_varint_at by (apply id_word; lia). cbn [obind fst snd]. rewrite <- zlen_app.
  rewrite (app_assoc (pre ++ _)). rewrite parse_varint_at by (apply id_word; lia). cbn [obind fst snd]. rewrite <- zlen_app.
  rewrite unrotate_rotate by (unfold local_range in Hl; lia). rewrite !signed_small by lia. rewrite E. cbn [obind]. rewrite <- !app_assoc. reflexivity.
Qed.
Print Assumptions target_round_trip.
Theorem global_target_round_trip : forall t pre rest, is_target t -> t_locid t = 0 -> exists written,
  appendGlobal pre t = Some (pre ++ written) /\ parseGlobal (pre ++ written ++ rest) (zlen pre) = Some (t, zlen (pre ++ written)).
Proof.
  intros t pre rest T Z0. destruct (is_target_fields t T) as (Hm & Hg & Hl & E). pows. exists (varint (t_modid t) ++ varint (t_globid t)). split.
  - unfold appendGlobal. rewrite Z0. replace ((0 <=? t_modid t) && (0 <? t_globid t) && (0 =? 0)) with true
      by (symmetry; rewrite !andb_true_iff, Z.leb_le, Z.ltb_lt; repeat split; lia).
    rewrite !wrap_small by (split; lia). rewrite append_varint_is by (apply id_word; lia). cbn [obind]. rewrite append_varint_is by (apply id_word; lia). rewrite <- app_assoc. reflexivity.
  - rewrite <- app_assoc. rewrite parse_global_at by auto. f_equal. f_equal. rewrite Z0 in E. rewrite target_value in E by auto. congruence.
Qed.
Print Assumptions global_target_round_trip.

(** ** Addresses of functions *)
Definition log_bytes (t : Z) : list Z := varint (t_modid t) ++ varint (t_globid t) ++ varint (sign_rotate (t_locid t)).
Local Lemma append_all : forall ts res, Forall is_target ts -> append_targets res ts = Some (res ++ concat (map log_bytes ts)).
Proof.
  induction ts as [|t ts IH]; intros res F; cbn [append_targets map concat]; [rewrite app_nil_r; reflexivity|].
  inversion_clear F as [|? ? T F']. rewrite append_log by auto. cbn [obind]. rewrite IH by auto. unfold log_bytes. rewrite <- !app_assoc. reflexivity.
Qed.
Local Lemma log_nonempty t : is_target t -> (0 < length (log_bytes t))%nat.
Proof.
  intros T. destruct (is_target_fields t T) as (Hm & _). unfold log_bytes. rewrite app_length. pose proof (varint_nonempty (t_modid t) (id_word _ Hm)).
  destruct (varint (t_modid t)); [tauto|cbn; lia].
Qed.
Local Lemma unpack_all : forall ts fuel pre, Forall is_target ts -> (length (concat (map log_bytes ts)) < fuel)%nat ->
  unpack_loop fuel (pre ++ concat (map log_bytes ts)) (zlen pre) = Some ts.
Proof.
  induction ts as [|t ts IH]; intros fuel pre F L; (destruct fuel as [|fuel]; [lia|]); cbn [unpack_loop map concat].
  - rewrite app_nil_r, Z.ltb_irrefl. reflexivity.
  - inversion_clear F as [|? ? T F']. cbn [map concat] in L. rewrite app_length in L. pose proof (log_nonempty t T) as N.
    replace (zlen pre <? zlen (pre ++ log_bytes t ++ concat (map log_bytes ts))) with true by (symmetry; apply Z.ltb_lt; rewrite !zlen_app; unfold zlen; lia).
    destruct (target_round_trip t pre (concat (map log_bytes ts)) T) as (w & A & P). rewrite append_log in A by auto. apply (f_equal (fun o => match o with Some x => x | None => [] end)) in A. cbv iota beta in A.
    apply app_inv_head in A. fold (log_bytes t) in A. subst w.
    rewrite P. cbn [obind fst snd]. rewrite (app_assoc pre). rewrite IH by (auto; lia). reflexivity.
Qed.
Theorem function_addresses_round_trip : forall ts, Forall is_target ts -> exists canon, packAddrOfFn ts = Some canon /\ unpackAddrOfFn canon = Some ts.
Proof.
  intros ts F. unfold packAddrOfFn. rewrite append_all by auto. eexists. split; [reflexivity|]. unfold unpackAddrOfFn. change (starts_with ([AT] ++ concat (map log_bytes ts)) AT) with true. cbv iota.
  change 1 with (zlen [AT]). apply unpack_all; auto. all: rewrite ?app_length; cbn [length]; lia.
Qed.
Print Assumptions function_addresses_round_trip.

(** ** User types *)
(** a primitive type's name: a letter, then digits *)
Definition prim_name (p : list Z) : Prop := match p with [] => True | c :: ds => is_cat c = true /\ c <> 101 /\ c <> 109 /\ Forall (fun d => 48 <= d <= 57) ds end.
Local Lemma digits_all : forall ds pre x rest fuel, Forall (fun d => 48 <= d <= 57) ds -> (x < 48 \/ 57 < x) -> (length ds < fuel)%nat ->
  digits_end fuel (pre ++ ds ++ x :: rest) (zlen pre) = zlen (pre ++ ds).
Proof.
  induction ds as [|d ds IH]; intros pre x rest fuel F X L; (destruct fuel as [|fuel]; [cbn in L; lia|]); cbn [digits_end]; rewrite nat_zlen, app_nth2, Nat.sub_diag by lia; cbn [app nth].
  - replace ((x <? 48) || (57 <? x)) with true; [rewrite app_nil_r; reflexivity|]. symmetry. apply orb_true_iff. rewrite !Z.ltb_lt. exact X.
  - inversion_clear F as [|? ? H F']. replace ((d <? 48) || (57 <? d)) with false by (symmetry; apply orb_false_iff; rewrite !Z.ltb_ge; lia).
    replace (pre ++ d :: ds ++ x :: rest) with ((pre ++ [d]) ++ ds ++ x :: rest) by (rewrite <- app_assoc; reflexivity).
    replace (zlen pre + 1) with (zlen (pre ++ [d])) by (rewrite zlen_app; reflexivity). rewrite IH by (auto; cbn in L; lia). rewrite <- app_assoc. reflexivity.
Qed.
Local Lemma sigil_high h : 128 <= sigil_of h < 256.
Proof.
  unfold sigil_of. set (x := Z.lxor _ (wshr (Z.lxor _ (wshr (Z.lxor h (wshr h 32)) 16)) 8)). clearbody x. pose proof (wrap_word 8 (Z.lor x 128)) as W. destruct W as [W1 W2]; [lia|]. change (2 ^ 8) with 256 in W2.
  split; [|exact W2]. assert (T : Z.testbit (wrap 8 (Z.lor x 128)) 7 = true). { rewrite wrap_testbit by lia. rewrite Z.lor_spec. change (Z.testbit 128 7) with true. rewrite orb_true_r. reflexivity. }
  set (y := wrap 8 (Z.lor x 128)) in *. destruct (Z.lt_ge_cases y 128) as [L|L]; [|exact L]. exfalso. rewrite (word_testbit_high 7 y) in T; [discriminate|split; [exact W1|exact L]|lia|lia].
Qed.
Definition fits31 (v : Z) : Prop := 0 <= v < 2 ^ 31.
Local Lemma signed_31 v : fits31 v -> signed32 v = v.
Proof. intros H. unfold signed32. unfold fits31 in H. destruct (Z.ltb_spec v (2 ^ 31)); lia. Qed.
(** what comes before the numbers, with the kind's letter *)
Definition prim_letter (kind : ukind) (p : list Z) : list Z :=
  match p with [] => [] | c :: ds => match kind with KEnum => 101 | KFlags => 109 | KOther => c end :: ds end.
Theorem user_type_canon_round_trip : forall kind prim modid index pat hash, prim_name prim -> fits31 modid -> 0 <= index < 2 ^ 31 - 1 -> (pat = [] \/ exists p, pat = LPAR :: p) ->
  exists canon, createUserTypeCanon kind prim modid index pat hash = Some canon /\ parseUserTypeCanon canon = Some (modid, index) /\
    canon = prim_letter kind prim ++ sigil_of hash :: varint modid ++ varint (index + 1) ++ pat.
Proof.
  intros kind prim modid index pat hash P Hm Hi Hp. unfold fits31 in Hm. pows.
  assert (Wm : word 32 modid) by (split; lia). assert (Wi : word 32 (index + 1)) by (split; lia).
  set (canon := prim_letter kind prim ++ sigil_of hash :: varint modid ++ varint (index + 1) ++ pat). exists canon. split; [|split; [|reflexivity]].
  - unfold createUserTypeCanon. replace (negb ((0 <=? modid) && (0 <=? index))) with false by (symmetry; apply negb_false_iff, andb_true_iff; rewrite !Z.leb_le; lia).
    rewrite !wrap_small by auto. rewrite append_varint_is by auto. cbn [obind]. rewrite append_varint_is by auto. cbn [obind].
    destruct prim as [|c ds].
    + cbn [obind]. subst canon. cbn [prim_letter app]. rewrite <- ?app_assoc. cbn [app]. reflexivity.
    + destruct P as (_ & Ne & Nm & _). cbn [app]. apply Z.eqb_neq in Ne, Nm. rewrite Ne, Nm. cbn [orb obind]. subst canon. cbn [prim_letter].
      destruct kind; cbn [app]; rewrite <- ?app_assoc; cbn [app]; rewrite <- ?app_assoc; reflexivity.
  - assert (N : forall pre, canon = pre ++ varint modid ++ varint (index + 1) ++ pat ->
      (do q <- parse_varint (zlen pre) canon; do r <- parse_varint (snd q) canon;
       if (snd r =? zlen canon) || (nth (Z.to_nat (snd r)) canon 0 =? LPAR) then Some (signed32 (fst q), signed32 (fst r) - 1) else None) = Some (modid, index)).
    { intros pre E. rewrite E. rewrite parse_varint_at by auto. cbn [obind fst snd]. rewrite <- zlen_app. rewrite (app_assoc pre). rewrite parse_varint_at by auto. cbn [obind fst snd]. rewrite <- zlen_app.
      rewrite (app_assoc (pre ++ varint modid)). replace (_ || _) with true.
      - rewrite !signed_31 by (unfold fits31; lia). f_equal. f_equal. lia.
      - symmetry. apply orb_true_iff. destruct Hp as [->|(p & ->)].
        + left. rewrite app_nil_r. apply Z.eqb_refl.
        + right. rewrite nat_zlen, app_nth2, Nat.sub_diag by lia. reflexivity. }
    pose proof (sigil_high hash) as Sg. unfold parseUserTypeCanon.
    destruct prim as [|c ds].
    + assert (Ec : canon = [sigil_of hash] ++ varint modid ++ varint (index + 1) ++ pat) by reflexivity.
      assert (exists rest, canon = sigil_of hash :: rest) as (rest & Er) by (eexists; exact Ec). rewrite Er at 1. cbn match.
      replace (sigil_of hash <? 128) with false by (symmetry; apply Z.ltb_ge; lia). cbn [obind]. change 1 with (zlen [sigil_of hash]). apply N. exact Ec.
    + destruct P as (Cat & Ne & Nm & Fd). set (c' := match kind with KEnum => 101 | KFlags => 109 | KOther => c end).
      assert (Ec : canon = ((c' :: ds) ++ [sigil_of hash]) ++ varint modid ++ varint (index + 1) ++ pat) by (subst canon; cbn [prim_letter]; rewrite <- app_assoc; reflexivity).
      assert (exists rest, canon = c' :: rest) as (rest & Er) by (eexists; exact Ec). rewrite Er at 1. cbn match.
      assert (Cat' : is_cat c' = true /\ c' < 128).
      { subst c'. destruct kind; [split; [reflexivity|lia]..|]. split; auto. unfold is_cat in Cat. rewrite !orb_true_iff, !Z.eqb_eq in Cat. lia. }
      destruct Cat' as [Cat' Lt]. replace (c' <? 128) with true by (symmetry; apply Z.ltb_lt; lia).
      assert (basePrimPrefixLen canon = Some (zlen (c' :: ds))) as ->.
      { unfold basePrimPrefixLen. rewrite Er at 1. cbn match. rewrite Cat'. f_equal.
        rewrite Ec. replace (((c' :: ds) ++ [sigil_of hash]) ++ varint modid ++ varint (index + 1) ++ pat) with ([c'] ++ ds ++ sigil_of hash :: varint modid ++ varint (index + 1) ++ pat)
          by (cbn [app]; rewrite <- app_assoc; reflexivity).
        change 1 with (zlen [c']). rewrite digits_all; auto; [lia|]. rewrite !app_length. cbn [length]. lia. }
      cbn [option_map obind]. replace (zlen (c' :: ds) + 1) with (zlen ((c' :: ds) ++ [sigil_of hash])) by (rewrite zlen_app; reflexivity). apply N. exact Ec.
Qed.
Print Assumptions user_type_canon_round_trip.
(** so different user types have different canons *)
Theorem user_type_canons_are_distinct : forall k p m i s h k' p' m' i' s' h', prim_name p -> prim_name p' -> fits31 m -> fits31 m' -> 0 <= i < 2 ^ 31 - 1 -> 0 <= i' < 2 ^ 31 - 1 ->
  (s = [] \/ exists x, s = LPAR :: x) -> (s' = [] \/ exists x, s' = LPAR :: x) ->
  createUserTypeCanon k p m i s h = createUserTypeCanon k' p' m' i' s' h' -> m = m' /\ i = i'.
Proof.
  intros k p m i s h k' p' m' i' s' h' P P' M M' I I' S S' E. destruct (user_type_canon_round_trip k p m i s h) as (c & C & R & _); auto.
  destruct (user_type_canon_round_trip k' p' m' i' s' h') as (c' & C' & R' & _); auto. assert (c = c') as -> by congruence. rewrite R in R'. injection R' as -> ->. auto.
Qed.
Print Assumptions user_type_canons_are_distinct.

(** ** Serialized types: the tags and the canon; the usage is dropped *)
Theorem serialized_type_round_trip : forall quals canon, canon <> [] -> exists str, serializeType quals canon = Some str /\ parseType str = Some (Z.land quals q_TAGS, canon).
Proof.
  intros quals canon N. assert (W : word 32 (Z.land quals q_TAGS)).
  { change q_TAGS with (Z.ones 3). rewrite Z.land_ones by lia. pose proof (Z.mod_pos_bound quals (2 ^ 3) ltac:(lia)). pows. change (2 ^ 3) with 8 in *. split; lia. }
  exists (varint (Z.land quals q_TAGS) ++ canon). unfold serializeType. rewrite append_varint_is by auto. cbn [app obind]. split; [destruct canon; [tauto|reflexivity]|].
  unfold parseType. pose proof (parse_varint_at [] _ canon W) as P. cbn [app] in P. change (zlen []) with 0 in P. rewrite P. cbn [obind fst snd]. f_equal. f_equal.
  unfold slice_from. rewrite Z.add_0_l, nat_zlen. rewrite skipn_app, Nat.sub_diag, skipn_all. reflexivity.
Qed.
Print Assumptions serialized_type_round_trip.

(** ** Examples *)
Example target_example : exists t, Target 12 345 (-7) = Some t /\ is_target t /\ appendLocalOrGlobal [64] t = Some [64; 67; 217; 50; 68].
Proof. eexists. split; [vm_compute; reflexivity|]. split; [exists 12, 345, (-7); unfold local_range; rewrite p19, p20; repeat split; lia || reflexivity|vm_compute; reflexivity]. Qed.
Example user_type_example : createUserTypeCanon KEnum [117; 56] 3 9 [] 77 = Some [101; 56; 205; 51; 65] /\ parseUserTypeCanon [101; 56; 205; 51; 65] = Some (3, 9) /\ prim_name [117; 56].
Proof. split; [vm_compute; reflexivity|]. split; [vm_compute; reflexivity|]. cbn. repeat split; try lia. repeat constructor; lia. Qed.
