(** C52, C53: masks over lifetimes, and what a lifetime is asked (src/lifetime.fu). *)
From Verif Require Import LifetimeSpec LifetimeProofs LifetimeSem LifetimeMerge LifetimeInter LifetimeOps LifetimeProps LifetimeInterProps LifetimeOpsProps UsageProps CommonLemmas WordsLemmas.
Open Scope Z_scope.

(** ** A join is done whenever every path of the list lies inside what every path refers to, and the result is valid. *)
Theorem lifetime_join_is_total : forall s L qs child, is_lifetime s L -> Forall path_ok qs -> paths_bytes qs child ->
  every_path (fun p => forall q, In q qs -> flatOffset (hd (SR 0 0) q) + flatCount (hd (SR 0 0) q) <= flatCount (tip p)) L ->
  fits (map_paths (flat_map (fun p => map (descend p) qs)) L) -> same_size qs ->
  exists t, Lifetime_op_join s child = Some t.
Proof.
  intros s L qs child h okq pq hp ft [n sz]. unfold Lifetime_op_join.
  eapply LifetimeOpsProps.op_total; [exact h|apply (join_writes qs child okq pq)|apply (join_can qs child okq pq)| |].
  - apply Forall_forall. intros [r [ps|]] i; [|exact I]. cbn [snd fst].
    assert (i' : In (r, Some (flat_map (fun p => map (descend p) qs) ps)) (map_paths (flat_map (fun p => map (descend p) qs)) L)) by (apply in_map_iff; exists (r, Some ps); auto).
    destruct (ft r _ i') as (f1 & f2 & f3). split; [exact f1|]. apply LifetimeProps.valid_true; [exact f2| |].
    + apply Forall_forall. intros q iq. rewrite Forall_forall in f3. split; [auto|]. apply in_flat_map in iq. destruct iq as (p & ip & iq). apply in_map_iff in iq. destruct iq as (q' & <- & iq).
      rewrite Forall_forall in okq. pose proof (okq q' iq) as o. destruct q' as [|u q']; [destruct o|]. cbn [descend]. rewrite app_length. cbn [length]. lia.
    + right. exists n. apply Forall_forall. intros q iq. apply in_flat_map in iq. destruct iq as (p & ip & iq). apply in_map_iff in iq. destruct iq as (q' & <- & iq).
      rewrite Forall_forall in sz, okq. pose proof (sz q' iq) as e. cbn beta in e. pose proof (okq q' iq) as o. destruct q' as [|u q']; [destruct o|]. cbn [descend]. unfold last_count in *. rewrite rev_app_distr. cbn [rev] in *.
      destruct (rev q') as [|z zs]; cbn [app] in *; [cbn [flatCount]; exact e|exact e].
  - intros r ps p i ip. apply Forall_forall. intros q iq. exact (hp r ps p i ip q iq).
Qed.
Print Assumptions lifetime_join_is_total.

(** ** A mask: what is left covers all that is touched through it. *)
Local Lemma touches_slot : forall p m x, p <> [] -> touches p (Some m) x ->
  covers p x /\ exists y, nth_error x (length p - 1) = Some y /\ flatOffset (tip p) <= y < flatOffset (tip p) + flatCount (tip p) /\ slot m ((y - flatOffset (tip p)) mod 29) = true.
Proof.
  induction p as [|s p IH]; intros m x np h; [congruence|]. destruct x as [|y x]; [destruct p; destruct h|]. destruct p as [|s2 p].
  - cbn [touches] in h. destruct h as [h1 h2]. split; [split; [exact h1|exact I]|]. exists y. cbn. auto.
  - change (touches (s :: s2 :: p) (Some m) (y :: x)) with (flatOffset s <= y < flatOffset s + flatCount s /\ touches (s2 :: p) (Some m) x) in h. destruct h as [h1 h2].
    destruct (IH m x ltac:(discriminate) h2) as (c & z & e & k). split; [split; assumption|]. exists z. change (tip (s :: s2 :: p)) with (tip (s2 :: p)). cbn [length] in *. split; [|exact k].
    replace (S (S (length p)) - 1)%nat with (S (S (length p) - 1)) by lia. exact e.
Qed.
Theorem lifetime_mask : forall s L quals n t, is_lifetime s L -> word 32 quals -> (exists i, 0 <= i < 29 /\ slot quals i = true) ->
  every_path (fun p => flatCount (tip p) = n) L -> Lifetime_op_mask s quals = Some t ->
  exists T, is_lifetime t T /\ (forall r x, inside T r x -> inside L r x) /\
    (forall r x, In (r, None) L -> inside T r x) /\
    (forall r ps p x, In (r, Some ps) L -> In p ps -> touches p (Some quals) x -> inside T r x).
Proof.
  intros s L quals n t h wq some hn e. unfold Lifetime_op_mask in e. destruct (mask_region_is_the_hull quals wq some) as (fo & fc & em & o1 & o2 & o3 & hull & _). rewrite em in e. cbn [obind] in e.
  apply obindE in e. destruct e as ([] & _ & e). apply obindE in e. destruct e as (es0 & ee & e).
  pose proof h as (lb & ok & so). destruct (items_of L s ok lb) as (is0 & <- & <- & oki). destruct (LifetimeProps.each_spec is0 oki) as (es' & ee' & f2). rewrite ee in ee'. injection ee' as <-.
  inversion f2 as [q1 q2|e0 i es is (h1 & h2 & h3) f2' q1 q2]; subst es0; [discriminate|]. subst is0. clear f2. rename f2' into f2. cbn [map] in *. rewrite h3 in e. apply Forall_cons_iff in oki. destruct oki as [((w & oc) & n7 & cb) oki]. destruct (i_g i) as [r c] eqn:eg. cbn [snd fst] in *.
  destruct c as [ps|].
  2:{ exfalso. cbn [content_bytes] in cb. rewrite cb in e. replace (walk_paths SR_empty 0 false) with (Some ([[{| s_sub := SR 0 0; s_first := true; s_last := true; s_lastPath := true; s_prefix := [] |}]], 2)) in e by (vm_compute; reflexivity).
      cbn [obind fst last_step rev app s_sub flatCount] in e. apply obindE in e. destruct e as (st & e1 & e). injection e1 as <-. cbn [s_sub flatCount] in e. change (q_USAGE_bitsize <? 0) with false in e. apply obindE in e. destruct e as ([] & e1 & _). apply check_Some in e1. lia. }
  cbn [content_bytes] in cb. destruct oc as [np okp]. destruct (walk_paths_all ps (i_bc i) okp cb) as (stss & ew & as_). rewrite ew in e. cbn [obind fst] in e.
  assert (hp : exists p sts stss' lp, In p ps /\ stss = sts :: stss' /\ steps lp true [] p sts).
  { inversion as_; subst; eexists _, _, _, _; (split; [left; reflexivity|split; [reflexivity|eassumption]]). }
  destruct hp as (p & sts & stss' & lp & ip & -> & hs). apply obindE in e. destruct e as (st & el & e). destruct (steps_last_step lp p true [] sts hs) as (st' & pb & e1 & e2 & _). rewrite el in e1. injection e1 as <-.
  assert (en : flatCount (s_sub st) = n) by (rewrite e2; apply (hn r ps p); [left; reflexivity|exact ip]). rewrite en in e. clear em. change q_USAGE_bitsize with 29 in e.
  set (LL := (r, Some ps) :: map i_g is) in *. destruct (Z.ltb_spec 29 n) as [big|small].
  - injection e as <-. exists LL. split; [exact h|]. split; [auto|]. split; [intros r' x i'; exists None; auto|].
    intros r' ps' p' x i' ip' tx. exists (Some ps'). split; [exact i'|]. exists p'. split; [exact ip'|].
    apply (touches_slot p' quals x); [|exact tx]. apply path_ok_nonempty. exact (LifetimeOpsProps.lifetime_paths_ok _ LL r' ps' p' h i' ip').
  - apply obindE in e. destruct e as ([] & _ & e). destruct (lifetime_field _ LL fc fo t h o1 e) as [h' hf]. exists (map_paths (map (narrow fc fo)) LL). split; [exact h'|]. split; [|split].
    + intros r' x (c & i' & d). apply in_map_iff in i'. destruct i' as ([r2 [ps2|]] & eq & i'); injection eq as -> <-; [|exists None; auto].
      destruct d as (q & iq & cq). apply in_map_iff in iq. destruct iq as (p2 & <- & ip2). exists (Some ps2). split; [exact i'|]. exists p2. split; [exact ip2|].
      apply field_places in cq; [apply cq| |exact o1|apply (hf r' ps2 p2 i' ip2)]. apply path_ok_nonempty. exact (LifetimeOpsProps.lifetime_paths_ok _ LL r' ps2 p2 h i' ip2).
    + intros r' x i'. exists None. split; [|exact I]. apply in_map_iff. exists (r', None). auto.
    + intros r' ps' p' x i' ip' tx. assert (np' : p' <> []) by (apply path_ok_nonempty; exact (LifetimeOpsProps.lifetime_paths_ok _ LL r' ps' p' h i' ip')).
      destruct (touches_slot p' quals x np' tx) as (cv & y & ey & ry & sy). rewrite (hn r' ps' p' i' ip') in ry. rewrite Z.mod_small in sy by lia. specialize (hull (y - flatOffset (tip p')) ltac:(lia) sy).
      exists (Some (map (narrow fc fo) ps')). split; [apply in_map_iff; exists (r', Some ps'); auto|]. exists (narrow fc fo p'). split; [apply in_map, ip'|].
      apply field_places; [exact np'|exact o1|apply (hf r' ps' p' i' ip')|]. split; [exact cv|]. exists y. split; [exact ey|lia].
Qed.
Print Assumptions lifetime_mask.

(** ** A usage shifted along paths: the slot of the root that a touched place goes through is used. *)
Local Lemma shift_loop_keeps : forall firsts usage acc m, word 32 usage -> word 32 acc -> Forall (fun st => 0 <= flatOffset (s_sub st) /\ 0 <= flatCount (s_sub st)) firsts ->
  shift_usage_loop firsts usage acc = Some m -> word 32 m /\ (forall i, 0 <= i < 29 -> slot acc i = true -> slot m i = true) /\
    Forall (fun st => forall y, flatOffset (s_sub st) <= y < flatOffset (s_sub st) + flatCount (s_sub st) ->
      (s_last st = true -> slot usage ((y - flatOffset (s_sub st)) mod 29) = true) -> slot m (y mod 29) = true) firsts.
Proof.
  induction firsts as [|st firsts IH]; intros usage acc m wu wa f e; cbn [shift_usage_loop] in e.
  - injection e as <-. auto.
  - apply Forall_cons_iff in f. destruct f as [[f1 f2] f]. apply obindE in e. destruct e as (u & eu & e).
    assert (hu : word 32 u /\ forall y, flatOffset (s_sub st) <= y < flatOffset (s_sub st) + flatCount (s_sub st) ->
      (s_last st = true -> slot usage ((y - flatOffset (s_sub st)) mod 29) = true) -> slot u (y mod 29) = true).
    { destruct (s_last st).
      - apply obindE in eu. destruct eu as (lz & _ & eu). apply obindE in eu. destruct eu as ([] & _ & eu).
        destruct (struct_usage_places_the_field usage (flatOffset (s_sub st)) wu f1) as (r & er & w & _ & sl). rewrite eu in er. injection er as <-. split; [exact w|]. intros y hy hs.
        rewrite sl by (apply Z.mod_pos_bound; lia). rewrite Zminus_mod_idemp_l. auto.
      - destruct (region_usage_is_the_region (flatOffset (s_sub st)) (flatCount (s_sub st)) f1 f2) as (r & er & w & _ & sl). rewrite eu in er. injection er as <-. split; [exact w|]. intros y hy _.
        rewrite sl by (apply Z.mod_pos_bound; lia). rewrite Zminus_mod_idemp_l. apply Z.ltb_lt. pose proof (Z.mod_le (y - flatOffset (s_sub st)) 29). lia. }
    destruct hu as [wu' hu]. destruct (IH usage (Z.lor acc u) m wu ltac:(apply lor_word; [lia|assumption|assumption]) f e) as (wm & k1 & k2).
    assert (lo : forall i, slot (Z.lor acc u) i = slot acc i || slot u i) by (intros; apply Z.lor_spec).
    refine (conj wm (conj _ _)); [intros i hi ha; apply k1; [exact hi|rewrite lo, ha; reflexivity]|]. constructor; [|exact k2].
    intros y hy hs. apply k1; [apply Z.mod_pos_bound; lia|]. rewrite lo, (hu y hy hs). apply orb_true_r.
Qed.
Theorem lifetime_shift_usage : forall ps bs usage m, Forall path_ok ps -> paths_bytes ps bs -> word 32 usage -> Lifetime_shiftUsage bs usage = Some m ->
  word 32 m /\ forall p y x, In p ps -> touches p (Some usage) (y :: x) -> slot m (y mod 29) = true.
Proof.
  intros ps bs usage m ok pb wu e. unfold Lifetime_shiftUsage in e. destruct (walk_paths_all ps bs ok pb) as (stss & ew & as_). rewrite ew in e. cbn [obind fst] in e. clear ew pb.
  assert (fs : Forall2 (fun p st => exists s p', p = s :: p' /\ s_sub st = s /\ s_last st = match p' with [] => true | _ => false end) ps (concat (map (firstn 1) stss))).
  { assert (one : forall lp p sts, steps lp true [] p sts -> exists st sts' s p', sts = st :: sts' /\ p = s :: p' /\ s_sub st = s /\ s_last st = match p' with [] => true | _ => false end).
    { intros lp p sts h. inversion h; subst; eexists _, _, _, _; (split; [reflexivity|split; [reflexivity|split; [reflexivity|]]]); [reflexivity|].
      match goal with H : steps _ _ _ _ _ |- _ => inversion H; subst; reflexivity end. }
    clear - as_ one. induction as_ as [p sts s1|p ps sts stss s1 k IH]; destruct (one _ _ _ s1) as (st & sts' & s & p' & -> & -> & e1 & e2); cbn [map firstn concat app]; (constructor; [exists s, p'; auto|]); [constructor|exact IH]. }
  destruct (shift_loop_keeps (concat (map (firstn 1) stss)) usage 0 m wu) as (wm & _ & k); [unfold word; lia| |exact e|].
  { clear - fs ok. induction fs as [|p st ps sts (s & p' & -> & e1 & _) f IH]; [constructor|]. apply Forall_cons_iff in ok. destruct ok as [o ok]. constructor; [|auto]. rewrite e1. apply path_ok_cons in o. destruct o as [[o1 o2] _]. lia. }
  split; [exact wm|]. clear - fs k. induction fs as [|p st ps sts (s & p' & -> & e1 & e2) f IH]; intros q y x i t; [destruct i|]. apply Forall_cons_iff in k. destruct k as [k ks].
  destruct i as [<-|i]; [|eapply IH; eassumption]. rewrite e1, e2 in k. destruct p' as [|s2 p'].
  - cbn [touches] in t. destruct t as [t1 t2]. apply k; [exact t1|auto].
  - change (flatOffset s <= y < flatOffset s + flatCount s /\ touches (s2 :: p') (Some usage) x) in t. destruct t as [t1 _]. apply k; [exact t1|discriminate].
Qed.
Print Assumptions lifetime_shift_usage.

(** ** Locids and argument indexes, and asking for them *)
Local Lemma ones_comp x : word 32 x -> Z.lxor x (2 ^ 32 - 1) = 2 ^ 32 - 1 - x.
Proof.
  intros h. assert (e : Z.lxor x (2 ^ 32 - 1) = Z.land (Z.lnot x) (Z.ones 32)).
  { apply Z.bits_inj'. intros i hi. rewrite Z.lxor_spec, Z.land_spec, Z.lnot_spec by lia. change (2 ^ 32 - 1) with (Z.ones 32). destruct (Z.ltb_spec i 32).
    - rewrite Z.ones_spec_low by lia. destruct (Z.testbit x i); reflexivity.
    - rewrite Z.ones_spec_high by lia. rewrite (word_testbit_high 32 x i h) by lia. reflexivity. }
  rewrite e, Z.land_ones by lia. unfold Z.lnot, word in *. rewrite <- (Z.mod_small (2 ^ 32 - 1 - x) (2 ^ 32)) by lia.
  replace (Z.pred (- x)) with (2 ^ 32 - 1 - x + (-1) * 2 ^ 32) by lia. apply Z_mod_plus_full.
Qed.
Definition region_of_locid (l : Z) : Z := if l <? 0 then - 4 * l - 2 else 4 * l.
Local Lemma pack_locid l : - 2 ^ 30 <= l < 2 ^ 30 -> wshl 32 (sign_rotate l) 1 = region_of_locid l.
Proof.
  intros h. unfold sign_rotate, region_of_locid, wshl. rewrite !Z.shiftl_mul_pow2 by lia. change (2 ^ 1) with 2. change (2 ^ 30) with 1073741824 in *. destruct (Z.ltb_spec l 0).
  - replace (wrap 32 l) with (4294967296 + l). 2:{ unfold wrap. rewrite <- (Z.mod_small (4294967296 + l) (2 ^ 32)) by (change (2 ^ 32) with 4294967296; lia). replace (4294967296 + l) with (l + 1 * 2 ^ 32) by (change (2 ^ 32) with 4294967296; lia). apply Z_mod_plus_full. }
    replace (wrap 32 ((4294967296 + l) * 2)) with (4294967296 + 2 * l). 2:{ unfold wrap. rewrite <- (Z.mod_small (4294967296 + 2 * l) (2 ^ 32)) by (change (2 ^ 32) with 4294967296; lia). replace ((4294967296 + l) * 2) with (4294967296 + 2 * l + 1 * 2 ^ 32) by (change (2 ^ 32) with 4294967296; lia). symmetry. apply Z_mod_plus_full. }
    rewrite ones_comp by (unfold word; change (2 ^ 32) with 4294967296; lia). change (2 ^ 32) with 4294967296. rewrite wrap_small by (unfold word; change (2 ^ 32) with 4294967296; lia). lia.
  - rewrite Z.lxor_0_r. rewrite (wrap_small 32 l) by (unfold word; change (2 ^ 32) with 4294967296; lia). rewrite (wrap_small 32 (l * 2)) by (unfold word; change (2 ^ 32) with 4294967296; lia). rewrite wrap_small by (unfold word; change (2 ^ 32) with 4294967296; lia). lia.
Qed.
Local Lemma land1 v : Z.land v 1 = v mod 2.
Proof. change 1 with (Z.ones 1) at 1. rewrite Z.land_ones by lia. reflexivity. Qed.
Local Lemma land3 v : Z.land v 3 = v mod 4.
Proof. change 3 with (Z.ones 2) at 1. rewrite Z.land_ones by lia. reflexivity. Qed.
Local Lemma unpack_pack l : - 2 ^ 30 <= l < 2 ^ 30 -> unpackLocid (region_of_locid l) = l.
Proof.
  intros h. unfold unpackLocid, region_of_locid, sign_unrotate, wshr. rewrite !land1, !Z.shiftr_div_pow2 by lia. change (2 ^ 1) with 2. change (2 ^ 30) with 1073741824 in *. destruct (Z.ltb_spec l 0).
  - replace (- 4 * l - 2) with ((- 2 * l - 1) * 2) by lia. rewrite Z_mod_mult, Z_div_mult by lia. cbn [Z.eqb].
    replace (- 2 * l - 1) with (1 + (- l - 1) * 2) by lia. rewrite Z_mod_plus_full, Z_div_plus by lia. change (1 mod 2 =? 0) with false. cbn iota. change (1 / 2) with 0. rewrite Z.add_0_l.
    rewrite ones_comp by (unfold word; change (2 ^ 32) with 4294967296; lia). unfold signed. rewrite wrap_small by (unfold word; change (2 ^ 32) with 4294967296; lia).
    change (2 ^ (32 - 1)) with 2147483648. change (2 ^ 32) with 4294967296. replace (4294967296 - 1 - (- l - 1) <? 2147483648) with false by lia. lia.
  - replace (4 * l) with (2 * l * 2) by lia. rewrite Z_mod_mult, Z_div_mult by lia. cbn [Z.eqb]. replace (2 * l) with (l * 2) by lia. rewrite Z_mod_mult, Z_div_mult by lia. cbn [Z.eqb]. rewrite Z.lxor_0_r.
    unfold signed. rewrite wrap_small by (unfold word; change (2 ^ 32) with 4294967296; lia). change (2 ^ (32 - 1)) with 2147483648. replace (l <? 2147483648) with true by lia. reflexivity.
Qed.
(** A variable's lifetime names it and covers what it says; it is found again by its locid. *)
Theorem lifetime_of_a_variable : forall l fc, l <> 0 -> - 2 ^ 30 <= l < 2 ^ 30 -> 0 < fc < 2 ^ 31 ->
  exists s r, Lifetime_from_locid l fc = Some s /\ is_lifetime s [(r, Some [[SR fc 0]])] /\ unpackLocid r = l /\
    (forall r' x, inside [(r, Some [[SR fc 0]])] r' x <-> r' = r /\ exists y x', x = y :: x' /\ 0 <= y < fc).
Proof.
  intros l fc nz hl hf. unfold Lifetime_from_locid, appendLocid. replace (l =? 0) with false by lia. cbn [negb check obind]. rewrite (pack_locid l hl). set (r := region_of_locid l).
  assert (wr : word 32 r) by (unfold r, region_of_locid, word; change (2 ^ 32) with 4294967296; change (2 ^ 30) with 1073741824 in *; destruct (l <? 0) eqn:e; lia).
  destruct (append7_num [] r wr) as (bs & -> & nb). cbn [obind app].
  assert (os : sub_ok (SR fc 0)) by (unfold sub_ok; cbn [flatOffset flatCount]; lia).
  destruct (path_has_bytes true [SR fc 0] os) as [pb hp]. inversion hp as [? bo bc n1 n2|? ? ? ? ? k]; [|inversion k]. subst.
  rewrite (num_appendSub bs (SR fc 0) true bo bc os n1 n2). eexists _, r. split; [reflexivity|]. split; [|split].
  - split.
    + assert (e : bs ++ bo ++ bc = bs ++ (bo ++ bc) ++ []) by (rewrite app_nil_r; reflexivity). rewrite e. constructor; [exact nb| |constructor]. cbn [content_bytes]. constructor. exact hp.
    + split; [|constructor; constructor]. constructor; [|constructor]. split; [exact wr|]. cbn [snd]. split; [discriminate|]. constructor; [exact os|constructor].
  - apply unpack_pack, hl.
  - intros r' x. rewrite inside_cons. cbn [fst snd denote]. pose proof (inside_nil r' x) as nn. split.
    + intros [[-> (p & [<-|[]] & c)]|i]; [|destruct (nn i)]. split; [reflexivity|]. destruct x as [|y x]; [destruct c|]. cbn [covers flatOffset flatCount] in c. exists y, x. split; [reflexivity|lia].
    + intros (-> & y & x' & -> & hy). left. split; [reflexivity|]. exists [SR fc 0]. split; [left; reflexivity|]. cbn [covers flatOffset flatCount]. split; [lia|exact I].
Qed.
Print Assumptions lifetime_of_a_variable.
(** An argument's lifetime, with paths *)
Theorem lifetime_of_an_argument : forall i ps bs, 0 <= i < 2 ^ 30 -> ps <> [] -> Forall path_ok ps -> paths_bytes ps bs ->
  exists s r, Lifetime_from_argidx i bs = Some s /\ is_lifetime s [(r, Some ps)] /\ isArgIdx r = true /\ argidx_of r = i.
Proof.
  intros i ps bs hi np ok pb. change (2 ^ 30) with 1073741824 in *. unfold Lifetime_from_argidx. replace (0 <=? i) with true by lia. cbn [check obind].
  assert (e : Z.lor (wshl 32 i 2) 3 = 4 * i + 3).
  { unfold wshl. rewrite Z.shiftl_mul_pow2 by lia. rewrite wrap_small by (unfold word; change (2 ^ 32) with 4294967296; lia).
    change 3 with (Z.ones 2) at 1. rewrite <- Z.shiftl_mul_pow2 by lia. replace (4 * i + 3) with (Z.shiftl i 2 + Z.ones 2) by (rewrite Z.shiftl_mul_pow2 by lia; change (Z.ones 2) with 3; lia).
    symmetry. rewrite Z.add_nocarry_lxor; [|rewrite Z.land_ones by lia; rewrite Z.shiftl_mul_pow2 by lia; apply Z_mod_mult].
    apply Z.bits_inj'. intros k hk. rewrite Z.lxor_spec, Z.lor_spec. destruct (Z.ltb_spec k 2).
    - rewrite Z.shiftl_spec_low by lia. destruct (Z.testbit (Z.ones 2) k); reflexivity.
    - rewrite Z.ones_spec_high by lia. destruct (Z.testbit _ _); reflexivity. }
  rewrite e. assert (wr : word 32 (4 * i + 3)) by (unfold word; change (2 ^ 32) with 4294967296; lia). destruct (append7_num [] _ wr) as (br & -> & nb). cbn [obind app].
  exists (br ++ bs), (4 * i + 3). split; [reflexivity|]. split; [|split].
  - split; [|split; [constructor; [split; [exact wr|split; assumption]|constructor]|constructor; constructor]].
    assert (e2 : br ++ bs = br ++ bs ++ []) by (rewrite app_nil_r; reflexivity). rewrite e2. constructor; [exact nb|exact pb|constructor].
  - unfold isArgIdx. rewrite land3. replace (4 * i + 3) with (3 + i * 4) by lia. rewrite Z_mod_plus_full. reflexivity.
  - unfold argidx_of, wshr. rewrite land1. replace ((4 * i + 3) mod 2) with 1. 2:{ replace (4 * i + 3) with (1 + (2 * i + 1) * 2) by lia. rewrite Z_mod_plus_full. reflexivity. }
    cbn [Z.eqb]. rewrite Z.shiftr_div_pow2 by lia. change (2 ^ 2) with 4. replace (4 * i + 3) with (3 + i * 4) by lia. rewrite Z_div_plus by lia. reflexivity.
Qed.
Print Assumptions lifetime_of_an_argument.
Local Lemma asked s L (P : Z -> bool) : is_lifetime s L -> exists b, (do es <- Lifetime_each s; Some (existsb (fun e => P (e_r e)) es)) = Some b /\ (b = true <-> exists r c, In (r, c) L /\ P r = true).
Proof.
  intros h. destruct (lifetime_each_visits_the_regions s L h) as (es & -> & f). cbn [obind]. eexists. split; [reflexivity|]. clear h. rewrite existsb_exists.
  induction f as [|e g es L [e1 _] f IH]; [split; [intros (x & [] & _)|intros (r & c & [] & _)]|]. split.
  - intros (x & [<-|i] & p); [exists (fst g), (snd g); split; [left; destruct g; reflexivity|rewrite <- e1; exact p]|]. destruct IH as [IH _]. destruct IH as (r & c & j & q); [eauto|]. exists r, c. split; [right; exact j|exact q].
  - intros (r & c & [->|i] & p); [exists e; split; [left; reflexivity|rewrite e1; exact p]|]. destruct IH as [_ IH]. destruct IH as (x & j & q); [eauto|]. exists x. split; [right; exact j|exact q].
Qed.
Theorem lifetime_has_a_variable : forall s L l, is_lifetime s L -> exists b, Lifetime_has_locid s l = Some b /\ (b = true <-> exists r c, In (r, c) L /\ unpackLocid r = l).
Proof.
  intros s L l h. destruct (asked s L (fun r => unpackLocid r =? l) h) as (b & e & k). exists b. split; [exact e|]. rewrite k. split; intros (r & c & i & p); exists r, c; (split; [exact i|]); lia.
Qed.
Print Assumptions lifetime_has_a_variable.
Theorem lifetime_has_an_argument : forall s L a, is_lifetime s L -> 0 <= a < 2 ^ 30 ->
  exists b, Lifetime_has_argidx s a = Some b /\ (b = true <-> exists c, In (4 * a + 3, c) L).
Proof.
  intros s L a h ha. destruct (asked s L (fun r => isArgIdx r && (argidx_of r =? a)) h) as (b & e & k). exists b. split; [exact e|]. rewrite k. unfold isArgIdx, argidx_of, wshr. split.
  - intros (r & c & i & p). exists c. apply andb_true_iff in p. destruct p as [p1 p2]. rewrite land3 in p1. rewrite land1 in p2. pose proof (Z.div_mod r 4 ltac:(lia)) as dm.
    replace (r mod 2) with 1 in p2 by (replace r with (1 + (2 * (r / 4) + 1) * 2) by lia; rewrite Z_mod_plus_full; reflexivity). cbn [Z.eqb] in p2. rewrite Z.shiftr_div_pow2 in p2 by lia. change (2 ^ 2) with 4 in p2.
    replace (4 * a + 3) with r by lia. exact i.
  - intros (c & i). exists (4 * a + 3), c. split; [exact i|]. rewrite land3, land1. replace ((4 * a + 3) mod 4) with 3 by (replace (4 * a + 3) with (3 + a * 4) by lia; rewrite Z_mod_plus_full; reflexivity).
    replace ((4 * a + 3) mod 2) with 1 by (replace (4 * a + 3) with (1 + (2 * a + 1) * 2) by lia; rewrite Z_mod_plus_full; reflexivity). cbn [Z.eqb andb]. rewrite Z.shiftr_div_pow2 by lia. change (2 ^ 2) with 4.
    replace (4 * a + 3) with (3 + a * 4) by lia. rewrite Z_div_plus by lia. change (3 / 4) with 0. cbn. lia.
Qed.
Print Assumptions lifetime_has_an_argument.
(** ** The temporary and statics *)
Local Lemma num7_zero v b bs : num7 v (b :: bs) -> b = 0 -> v = 0 /\ bs = [].
Proof.
  intros n -> . remember (0 :: bs) as l eqn:el. destruct n as [v h|v cs h n]; [injection el as -> <-; auto|]. exfalso. assert (z := f_equal (@hd Z 0) el). change (128 + v mod 128 = 0) in z. pose proof (Z.mod_pos_bound v 128). lia.
Qed.
Local Lemma num7_end v bs : num7 v bs -> 0 < v -> exists cs c, bs = cs ++ [c] /\ 0 < c < 128.
Proof.
  induction 1 as [v h|v bs h n IH]; intros hv; [exists [], v; split; [reflexivity|lia]|].
  destruct IH as (cs & c & -> & hc); [apply Z.div_str_pos; lia|]. exists (128 + v mod 128 :: cs), c. auto.
Qed.
Local Lemma path_start lp p bs : path_ok p -> path_bytes lp p bs -> forall rest, firstn 2 (bs ++ rest) <> [0; 0].
Proof.
  intros ok h rest e. destruct h as [s bo bc n1 n2|s p bo bs n1 h].
  - destruct ok as [o1 o2]. destruct bo as [|b bo]; [inversion n1|]. cbn [app firstn] in e. assert (b = 0) by (injection e as e' _; exact e'). destruct (num7_zero _ _ _ n1 H) as [_ ->]. cbn [app] in e.
    destruct bc as [|c bc]; [inversion n2|]. cbn [app firstn] in e. assert (c = 0) by (injection e as _ e'; exact e'). destruct (num7_zero _ _ _ n2 H0) as [z _]. destruct lp; lia.
  - destruct bo as [|b bo]; [inversion n1|]. cbn [app firstn] in e. assert (b = 0) by (injection e as e' _; exact e'). destruct (num7_zero _ _ _ n1 H) as [z _]. apply path_ok_cons in ok. destruct ok as [[o1 _] _]. lia.
Qed.
Local Lemma path_end p bs : path_ok p -> path_bytes true p bs -> exists cs c, bs = cs ++ [c] /\ 0 < c < 128.
Proof.
  intros ok h. induction h as [s bo bc n1 n2|s p bo bs n1 h IH].
  - destruct ok as [o1 o2]. destruct (num7_end _ _ n2) as (cs & c & -> & hc); [lia|]. exists (bo ++ cs), c. rewrite app_assoc. auto.
  - apply path_ok_cons in ok. destruct ok as [_ [->|[_ ok]]]; [inversion h|]. destruct (IH ok) as (cs & c & -> & hc). exists (bo ++ cs), c. rewrite app_assoc. auto.
Qed.
Local Lemma paths_end ps bs : Forall path_ok ps -> paths_bytes ps bs -> exists cs c, bs = cs ++ [c] /\ 0 < c < 128.
Proof.
  intros ok h. induction h as [p bs h|p ps bs cs h k IH]; apply Forall_cons_iff in ok; destruct ok as [o ok]; [eapply path_end; eassumption|].
  destruct (IH ok) as (ds & c & -> & hc). exists (bs ++ ds), c. rewrite app_assoc. auto.
Qed.
Local Lemma before_class a b : before a b -> class a <= class b.
Proof. intros [h|[h _]]; lia. Qed.
Theorem lifetime_has_temporary : forall s L, is_lifetime s L -> (hasTemporary s = true <-> In (9, None) L).
Proof.
  intros s L (lb & ok & so). unfold hasTemporary. change (length Region_TEMP) with 3%nat. destruct lb as [|r c L br bc bs nr cb lb]; [split; [discriminate|intros []]|].
  apply Forall_cons_iff in ok. destruct ok as [[wr oc] ok]. split.
  - intros e. apply beq_true in e. inversion nr; subst; [|assert (z := f_equal (@hd Z 0) e); change (128 + r mod 128 = 9) in z; pose proof (Z.mod_pos_bound r 128); lia].
    change (firstn 3 ([r] ++ bc ++ bs)) with (r :: firstn 2 (bc ++ bs)) in e. assert (r = 9) by (injection e as e' _; exact e'). assert (e2 : firstn 2 (bc ++ bs) = [0; 0]) by (injection e as _ e'; exact e'). subst r.
    left. f_equal. destruct c as [ps|]; [|reflexivity]. exfalso. cbn [content_bytes snd] in *. destruct oc as [np okp]. destruct cb as [p b h|p ps b b2 h k]; apply Forall_cons_iff in okp; destruct okp as [o okp].
    + exact (path_start _ _ _ o h _ e2).
    + rewrite <- app_assoc in e2. exact (path_start _ _ _ o h _ e2).
  - intros [e|i].
    + injection e as -> ->. assert (e1 : br = [9]) by (eapply num7_fun; [exact nr|n1]). subst br. cbn in cb. subst bc. reflexivity.
    + exfalso. inversion so as [|? ? _ f]; subst. rewrite Forall_forall in f. specialize (f _ i). cbn [fst] in f. unfold before in f. change (class 9) with 0 in f. destruct f as [f|[f g]].
      * unfold class in f. destruct (r =? 9); [lia|]. destruct (_ =? 1); [lia|]. destruct (_ =? 2); lia.
      * unfold class in f, g. destruct (Z.eqb_spec r 9) as [->|]; [cbn in g; lia|]. clear g. destruct (Z.land r 11 =? 1); [lia|]. destruct (r mod 4 =? 2); lia.
Qed.
Print Assumptions lifetime_has_temporary.
(** Statics: the two regions there are, each without paths. *)
Definition plain_statics (L : list region) : Prop := forall r c, In (r, c) L -> class r = 3 -> (r = 1 \/ r = 5) /\ c = None.
Local Lemma last_region s L r c : is_lifetime s (L ++ [(r, c)]) -> exists pre br bc, s = pre ++ br ++ bc /\ num7 r br /\ content_bytes c bc /\ region_ok (r, c).
Proof.
  intros (lb & ok & _). apply Forall_app in ok. destruct ok as [_ ok]. apply Forall_cons_iff in ok. destruct ok as [o _]. revert s lb. induction L as [|[r1 c1] L IH]; intros s lb; inversion lb; subst.
  - match goal with H : lifetime_bytes [] _ |- _ => inversion H; subst end. eexists [], _, _. rewrite app_nil_r. cbn [app]. auto.
  - match goal with H : lifetime_bytes (_ ++ _) _ |- _ => destruct (IH _ H) as (pre & b1 & b2 & -> & k) end. match goal with H1 : num7 r1 ?x, H2 : content_bytes c1 ?y |- _ => exists (x ++ y ++ pre), b1, b2 end. rewrite <- !app_assoc. split; [reflexivity|exact k].
Qed.
Local Lemma static_end pre br c : hasStatic (pre ++ (br ++ [c]) ++ SR_empty) = isStaticOrZeroes c.
Proof.
  unfold hasStatic. rewrite <- app_assoc. change ([c] ++ SR_empty) with [c; 0; 0]. replace (pre ++ br ++ [c; 0; 0]) with ((pre ++ br) ++ [c; 0; 0]) by (rewrite <- app_assoc; reflexivity). set (q := pre ++ br).
  rewrite app_length. cbn [length]. replace (3 <=? length q + 3)%nat with true by (symmetry; apply Nat.leb_le; lia). replace (length q + 3 - 2)%nat with (length q + 1)%nat by lia. replace (length q + 3 - 3)%nat with (length q + 0)%nat by lia.
  rewrite skipn_app. rewrite (skipn_all2 q) by lia. replace (length q + 1 - length q)%nat with 1%nat by lia. cbn [skipn app]. rewrite app_nth2_plus. reflexivity.
Qed.
Theorem lifetime_has_static : forall s L, is_lifetime s L -> plain_statics L ->
  (In (1, None) L \/ In (5, None) L -> hasStatic s = true) /\
  (hasStatic s = true -> In (1, None) L \/ In (5, None) L \/ exists r, 128 <= r /\ In (r, None) L).
Proof.
  intros s L h pl. destruct L as [|g0 L0] eqn:eL.
  { destruct h as [lb _]. inversion lb; subst. split; [intros [[]|[]]|discriminate]. }
  destruct (@exists_last _ L) as (M & [r c] & eM); [rewrite eL; discriminate|]. rewrite <- eL in *. clear eL g0 L0. subst L.
  destruct (last_region s M r c h) as (pre & br & bc & -> & nr & cb & wr & oc). split.
  - intros hs. assert (cr : class r = 3).
    { assert (le : forall q, In q (M ++ [(r, c)]) -> class (fst q) <= class r).
      { intros q iq. apply in_app_or in iq. destruct iq as [iq|[<-|[]]]; [|cbn [fst]; lia]. destruct h as (_ & _ & so). clear - so iq. induction M as [|g M IH]; [destruct iq|]. inversion so as [|? ? so' f]; subst.
        destruct iq as [->|iq]; [|apply IH; assumption]. rewrite Forall_forall in f. apply before_class. apply (f (r, c)). apply in_or_app. right. left. reflexivity. }
      assert (up : class r <= 3) by (unfold class; destruct (r =? 9); [lia|]; destruct (_ =? 1); [lia|]; destruct (_ =? 2); lia).
      destruct hs as [i|i]; specialize (le _ i); cbn [fst] in le; [change (class 1) with 3 in le|change (class 5) with 3 in le]; lia. }
    destruct (pl r c) as [hr ->]; [apply in_or_app; right; left; reflexivity|exact cr|]. cbn [content_bytes] in cb. subst bc.
    assert (e : br = [r]) by (eapply num7_fun; [exact nr|apply num7_last; lia]). rewrite e. change [r] with ([] ++ [r]). rewrite static_end. destruct hr as [->| ->]; reflexivity.
  - intros e. assert (ir : In (r, c) (M ++ [(r, c)])) by (apply in_or_app; right; left; reflexivity). destruct c as [ps|].
    + exfalso. cbn [content_bytes snd] in *. destruct oc as [_ okp]. destruct (paths_end ps bc okp cb) as (cs & z & -> & hz). unfold hasStatic in e. apply andb_true_iff in e. destruct e as [e _]. apply andb_true_iff in e. destruct e as [l e]. apply Nat.leb_le in l. apply beq_true in e.
      replace (pre ++ br ++ cs ++ [z]) with ((pre ++ br ++ cs) ++ [z]) in * by (rewrite <- !app_assoc; reflexivity). set (q := pre ++ br ++ cs) in *. rewrite app_length in *. cbn [length] in *.
      assert (z0 : nth 1 (skipn (length q + 1 - 2) (q ++ [z])) 7 = z).
      { rewrite skipn_app. replace (length q + 1 - 2 - length q)%nat with 0%nat by lia. cbn [skipn]. rewrite app_nth2; rewrite skipn_length; [|lia]. replace (1 - (length q - (length q + 1 - 2)))%nat with 0%nat by lia. reflexivity. }
      rewrite e in z0. cbn in z0. lia.
    + cbn [content_bytes] in cb. subst bc. destruct (Z.ltb_spec r 128) as [lt|ge]; [|right; right; eauto].
      assert (e1 : br = [r]) by (eapply num7_fun; [exact nr|apply num7_last; unfold word in wr; cbn [fst] in wr; lia]). rewrite e1 in e. change [r] with ([] ++ [r]) in e. rewrite static_end in e.
      assert (n9 : r <> 9) by (intros ->; discriminate).
      destruct (pl r None ir) as [[->| ->] _]; [|left; exact ir|right; left; exact ir]. unfold class. unfold isStaticOrZeroes in e. rewrite e. replace (r =? 9) with false by lia. reflexivity.
Qed.
Print Assumptions lifetime_has_static.
(** The last disjunct is there: the lifetime of the variable of locid -33, passed as a whole, is taken for a static. *)
Theorem lifetime_has_static_refuted : exists s, Lifetime_AAR (-33) = Some s /\ is_lifetime s [(130, None)] /\ unpackLocid 130 = -33 /\ hasStatic s = true.
Proof.
  exists [130; 1; 0; 0]. split; [vm_compute; reflexivity|]. split; [|split; vm_compute; reflexivity]. split.
  - apply (lb_cons 130 None [] [130; 1] [0; 0] []); [|exact eq_refl|constructor]. apply (num7_more 130); [lia|]. apply (num7_last (130 / 128)). vm_compute. split; [discriminate|reflexivity].
  - split; [constructor; [|constructor]|constructor; constructor]. split; [unfold word; cbn [fst]; lia|exact I].
Qed.
Print Assumptions lifetime_has_static_refuted.

(** ** The hypotheses are met *)
Definition ex_M : list region := [(8, Some [[SR 1 3; SR 4 0]; [SR 4 100]]); (4, Some [[SR 4 2]]); (1, None)].
Definition ex_m : list Z := [8; 7; 0; 9; 200; 1; 8;  4; 4; 8;  1; 0; 0].
Example ex_ops_lifetime : is_lifetime ex_m ex_M.
Proof.
  assert (c200 : num7 (2 * 100) [200; 1]) by (apply (num7_more 200); [lia|apply (num7_last (200 / 128)); vm_compute; split; [discriminate|reflexivity]]).
  split.
  - apply (lb_cons 8 _ _ [8] [7; 0; 9; 200; 1; 8] [4; 4; 8; 1; 0; 0]); [n1| |].
    + apply (psb_more _ _ [7; 0; 9] [200; 1; 8]).
      * apply (pb_more false (SR 1 3) [SR 4 0] [7] [0; 9]); [n1|]. apply (pb_last false (SR 4 0) [0] [9]); n1.
      * constructor. apply (pb_last true (SR 4 100) [200; 1] [8]); [exact c200|n1].
    + apply (lb_cons 4 _ _ [4] [4; 8] [1; 0; 0]); [n1| |].
      * constructor. apply (pb_last true (SR 4 2) [4] [8]); n1.
      * apply (lb_cons 1 None [] [1] [0; 0] []); [n1|exact eq_refl|constructor].
  - split; [repeat (constructor; [ok_r|]); constructor|]. unfold ex_M. repeat first [apply SSorted_cons|apply SSorted_nil|apply Forall_cons|apply Forall_nil]; cbn [fst];
      first [left; reflexivity|right; split; reflexivity].
Qed.
(** the field at slots 1 and 2; that field followed; slots 1 and 3 used (the mask is widened to 1 to 3); the paths of a
    lifetime inside another; shared *)
Example ex_field : Lifetime_op_field ex_m 2 1 = Some [8; 7; 2; 5; 202; 1; 4;  4; 6; 4;  1; 0; 0].
Proof. vm_compute. reflexivity. Qed.
Example ex_deref : (do f <- Lifetime_op_field ex_m 1 3; Lifetime_op_deref f 5) = Some [8; 7; 7; 0; 11; 207; 1; 0; 10;  4; 11; 0; 10;  1; 0; 0].
Proof. vm_compute. reflexivity. Qed.
Example ex_mask : Lifetime_op_mask ex_m (8 * (2 + 8)) = Some [8; 7; 2; 7; 202; 1; 6;  4; 6; 6;  1; 0; 0].
Proof. vm_compute. reflexivity. Qed.
Example ex_join : Lifetime_op_join ex_m [3; 0; 5; 5; 6; 4] = Some [8; 7; 3; 0; 5; 7; 5; 6; 5;  203; 1; 0; 5; 205; 1; 6; 4;  4; 7; 0; 5; 9; 6; 4;  1; 0; 0].
Proof. vm_compute. reflexivity. Qed.
Example ex_shift : Lifetime_shiftUsage [7; 0; 9; 200; 1; 8] (8 * 5) = Some (8 * (2 ^ 3 + 2 ^ 13 + 2 ^ 15)).
Proof. vm_compute. reflexivity. Qed.
Example ex_asked : Lifetime_has_locid ex_m 2 = Some true /\ Lifetime_has_locid ex_m 3 = Some false /\ hasStatic ex_m = true /\ hasTemporary ex_m = false /\ plain_statics ex_M.
Proof.
  split; [vm_compute; reflexivity|]. split; [vm_compute; reflexivity|]. split; [vm_compute; reflexivity|]. split; [vm_compute; reflexivity|].
  intros r c [e|[e|[e|[]]]]; injection e as <- <-; intros h; [discriminate|discriminate|auto].
Qed.
