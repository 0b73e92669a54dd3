(** src/canon.fu: scanning written canons. *)
From Verif Require Import CanonModel CanonSpec VarintProofs VarintProps CommonLemmas WordsLemmas LifetimeProofs.
Open Scope Z_scope.

(** ** Varints *)
Lemma varint_is v : word 32 v -> append_varint [] v = Some (varint v).
Proof. intros W. unfold varint. destruct (varint_round_trip [] v [] W) as (bs & E & _). rewrite E. reflexivity. Qed.
Lemma append_varint_pre pre v : append_varint pre v = option_map (fun b => pre ++ b) (append_varint [] v).
Proof. unfold append_varint. destruct (append_varint_loop 6 v); reflexivity. Qed.
Lemma append_varint_is pre v : word 32 v -> append_varint pre v = Some (pre ++ varint v).
Proof. intros W. rewrite append_varint_pre, varint_is by auto. reflexivity. Qed.
Lemma parse_varint_at pre v rest : word 32 v ->
  parse_varint (zlen pre) (pre ++ varint v ++ rest) = Some (v, zlen pre + zlen (varint v)).
Proof.
  intros W. destruct (varint_round_trip pre v rest W) as (bs & E & _ & P). rewrite append_varint_is in E by auto.
  injection E as E. apply app_inv_head in E. subst bs. rewrite app_assoc. unfold zlen. rewrite P. f_equal. f_equal. lia.
Qed.
Lemma varint_nonempty v : word 32 v -> varint v <> [].
Proof. intros W E. destruct (varint_round_trip [] v [] W) as (bs & X & L & _). rewrite varint_is in X by auto. injection X as X. cbn in X. rewrite <- X, E in L. cbn in L. lia. Qed.
Definition plain_byte (c : Z) : Prop := c <> LPAR /\ c <> RPAR /\ c <> COLON /\ c <> PIPE.
Lemma varint_plain v : word 32 v -> Forall (fun c => plain_byte c /\ c <> LBRA /\ c <> RBRA) (varint v).
Proof.
  intros W. pose proof (varint_alphabet v _ W (varint_is v W)) as A. eapply Forall_impl; [|exact A]. intros c H. cbv beta in H.
  unfold plain_byte, LPAR, RPAR, COLON, PIPE, LBRA, RBRA. repeat split; lia.
Qed.
Lemma varint_inj v w a b : word 32 v -> word 32 w -> varint v ++ a = varint w ++ b -> v = w /\ a = b.
Proof.
  intros W W' E. pose proof (parse_varint_at [] v a W) as P. pose proof (parse_varint_at [] w b W') as Q. cbn [app] in *. rewrite E, Q in P.
  injection P as <- _. split; auto. apply app_inv_head in E. exact E.
Qed.

(** ** scan *)
Fixpoint walk (sep : Z) (s : list Z) (d : Z) : option Z :=
  match s with
  | [] => Some d
  | c :: s => if c =? LPAR then walk sep s (d + 1) else if c =? RPAR then walk sep s (d - 1)
              else if (c =? sep) && (d =? 0) then None else walk sep s d
  end.
Definition has_par (s : list Z) : bool := existsb (fun c => c =? LPAR) s.
Lemma walk_app sep s t d : walk sep (s ++ t) d = match walk sep s d with Some d => walk sep t d | None => None end.
Proof. revert d. induction s as [|c s IH]; intros d; cbn [app walk]; auto. destruct (c =? LPAR); auto. destruct (c =? RPAR); auto. destruct (_ && _); auto. Qed.
Lemma walk_plain sep s d : (sep = PIPE \/ sep = COLON) -> Forall plain_byte s -> walk sep s d = Some d.
Proof.
  intros Hs F. induction F as [|c s (a & b & e & f) F IH]; auto. cbn [walk]. apply Z.eqb_neq in a, b. rewrite a, b.
  destruct (Z.eqb_spec c sep) as [X|X]; [exfalso; destruct Hs; congruence|exact IH].
Qed.
Lemma has_par_app a b : has_par (a ++ b) = has_par a || has_par b.
Proof. apply existsb_app. Qed.
Lemma has_par_plain s : Forall plain_byte s -> has_par s = false.
Proof. intros F. induction F as [|c s (a & _) F IH]; auto. cbn. apply Z.eqb_neq in a. rewrite a. exact IH. Qed.
Lemma zlen_app a b : zlen (a ++ b) = zlen a + zlen b. Proof. unfold zlen. rewrite app_length. lia. Qed.
Lemma zlen_cons x b : zlen (x :: b) = zlen b + 1. Proof. unfold zlen. cbn [length]. lia. Qed.
Lemma nat_zlen (a : list Z) : Z.to_nat (zlen a) = length a. Proof. unfold zlen. apply Nat2Z.id. Qed.
Lemma zlen_nonneg a : 0 <= zlen a. Proof. unfold zlen. lia. Qed.
Lemma scan_walk sep : forall s pre rest fuel d l dp d', walk sep s d = Some d' ->
  scan_from (length s + fuel) (pre ++ s ++ rest) sep (zlen pre) d l dp =
  scan_from fuel (pre ++ s ++ rest) sep (zlen (pre ++ s)) d' l (dp || has_par s).
Proof.
  induction s as [|c s IH]; intros pre rest fuel d l dp d' W.
  - cbn in *. injection W as <-. rewrite app_nil_r, orb_false_r. reflexivity.
  - cbn [length Nat.add scan_from]. rewrite !zlen_app, zlen_cons. pose proof (zlen_nonneg s). pose proof (zlen_nonneg rest). pose proof (zlen_nonneg pre).
    replace (zlen pre <? zlen pre + (zlen s + 1 + zlen rest)) with true by (symmetry; apply Z.ltb_lt; lia).
    replace (zlen pre <? 0) with false by (symmetry; apply Z.ltb_ge; lia).
    rewrite nat_zlen, nth_error_app2, Nat.sub_diag by lia. cbn [app nth_error obind].
    assert (E : pre ++ c :: s ++ rest = (pre ++ [c]) ++ s ++ rest) by (rewrite <- app_assoc; reflexivity).
    assert (L : zlen (pre ++ [c]) = zlen pre + 1) by (rewrite zlen_app; reflexivity).
    assert (L2 : zlen pre + (zlen s + 1) = zlen ((pre ++ [c]) ++ s)) by (rewrite !zlen_app; unfold zlen; cbn; lia).
    cbn [walk] in W. cbn [has_par existsb]. fold (has_par s). rewrite E, L2, <- L.
    destruct (c =? LPAR) eqn:E1; [rewrite (IH _ _ _ _ _ _ _ W); cbn; rewrite orb_true_r; reflexivity|].
    destruct (c =? RPAR) eqn:E2; [rewrite (IH _ _ _ _ _ _ _ W); reflexivity|].
    destruct ((c =? sep) && (d =? 0)); [discriminate|]. rewrite (IH _ _ _ _ _ _ _ W). reflexivity.
Qed.
(** up to a separator, or to the end *)
Lemma scan_to_sep sep s pre rest l : (sep = PIPE \/ sep = COLON) -> walk sep s 0 = Some 0 ->
  scan_sep (pre ++ s ++ sep :: rest) sep (zlen pre) l = Some (zlen (pre ++ s), l, has_par s).
Proof.
  intros Hs W. unfold scan_sep. rewrite !app_length. cbn [length].
  replace (S (length pre + (length s + S (length rest))))%nat with (length s + S (S (length pre + length rest)))%nat by lia.
  rewrite (scan_walk sep s pre (sep :: rest) _ 0 l false 0 W). rewrite orb_false_l. cbn [scan_from].
  replace (zlen (pre ++ s) <? zlen (pre ++ s ++ sep :: rest)) with true
    by (symmetry; apply Z.ltb_lt; rewrite !zlen_app, zlen_cons; pose proof (zlen_nonneg rest); lia).
  replace (zlen (pre ++ s) <? 0) with false by (symmetry; apply Z.ltb_ge; apply zlen_nonneg).
  rewrite nat_zlen, app_assoc, nth_error_app2, Nat.sub_diag by lia. cbn [nth_error obind].
  rewrite Z.eqb_refl. destruct Hs as [->| ->]; reflexivity.
Qed.
Lemma scan_to_end sep s pre l : walk sep s 0 = Some 0 -> scan_sep (pre ++ s) sep (zlen pre) l = Some (zlen (pre ++ s), true, has_par s).
Proof.
  intros W. unfold scan_sep. rewrite app_length. replace (S (length pre + length s))%nat with (length s + S (length pre))%nat by lia.
  pose proof (scan_walk sep s pre [] (S (length pre)) 0 l false 0 W) as X. rewrite app_nil_r in X. rewrite X, orb_false_l. cbn [scan_from].
  rewrite Z.ltb_irrefl. reflexivity.
Qed.
Lemma cut_mid a s b : cut (a ++ s ++ b) (zlen a) (zlen (a ++ s)) = Some s.
Proof.
  unfold cut. rewrite !zlen_app. pose proof (zlen_nonneg a). pose proof (zlen_nonneg s). pose proof (zlen_nonneg b).
  replace ((0 <=? zlen a) && (zlen a <=? zlen a + zlen s) && (zlen a + zlen s <=? zlen a + (zlen s + zlen b))) with true
    by (symmetry; rewrite !andb_true_iff, !Z.leb_le; lia).
  unfold slice. replace (Z.to_nat (zlen a + zlen s - zlen a)) with (length s) by (unfold zlen; lia).
  unfold zlen. rewrite Nat2Z.id. f_equal. rewrite skipn_app, Nat.sub_diag, skipn_all. cbn. rewrite firstn_app, Nat.sub_diag, firstn_all. cbn. apply app_nil_r.
Qed.
Lemma cut_end a s : cut (a ++ s) (zlen a) (zlen (a ++ s)) = Some s.
Proof. pose proof (cut_mid a s []) as X. rewrite app_nil_r in X. exact X. Qed.

(** ** What is written *)
Lemma join_cons sep x l : l <> [] -> join sep (x :: l) = x ++ sep :: join sep l.
Proof. destruct l; [tauto|reflexivity]. Qed.
Lemma written_plain b ps : ps <> [] -> written (Plain b ps) = b ++ LPAR :: join PIPE (map written_pat ps) ++ [RPAR].
Proof. destruct ps as [|p ps]; [tauto|reflexivity]. Qed.

(** size, for induction *)
Fixpoint csize (c : canon) : nat :=
  match c with
  | Plain _ ps => S (list_sum (map (fun p => match p with (_, _, args) => S (list_sum (map (fun a => S (csize (snd a))) args)) end) ps))
  | Array _ c => S (csize c)
  end.
Lemma in_sum (l : list nat) x : In x l -> (x <= list_sum l)%nat.
Proof. induction l as [|y l IH]; intros I; [destruct I|]. cbn. destruct I as [->|I]; [lia|specialize (IH I); unfold list_sum in *; lia]. Qed.
Lemma arg_size b ps m g args t c : In (m, g, args) ps -> In (t, c) args -> (csize c < csize (Plain b ps))%nat.
Proof.
  intros I J. cbn [csize].
  assert (A : (S (csize c) <= list_sum (map (fun a => S (csize (snd a))) args))%nat) by (apply in_sum; apply (in_map (fun a => S (csize (snd a)))) in J; exact J).
  assert (B : (S (list_sum (map (fun a => S (csize (snd a))) args)) <= list_sum (map (fun p : pat => match p with (_, _, args) => S (list_sum (map (fun a => S (csize (snd a))) args)) end) ps))%nat).
  { apply in_sum. apply (in_map (fun p : pat => match p with (_, _, args) => S (list_sum (map (fun a => S (csize (snd a))) args)) end)) in I. exact I. }
  unfold pat in *. lia.
Qed.
Lemma wf_args b ps m g args : well_formed (Plain b ps) -> In (m, g, args) ps ->
  0 <= m < 2 ^ 20 /\ 0 < g < 2 ^ 20 /\ args <> [] /\ forall t c, In (t, c) args -> 0 <= t < 8 /\ well_formed c.
Proof. intros W. inversion_clear W as [? ? _ H|]. apply H. Qed.
Lemma small_word v n : 0 <= v < n -> n <= 2 ^ 32 -> word 32 v.
Proof. intros. split; lia. Qed.
Lemma tag_word t : 0 <= t < 8 -> word 32 t. Proof. intros. apply (small_word t 8); lia. Qed.
Lemma id_word t : 0 <= t < 2 ^ 20 -> word 32 t. Proof. intros. apply (small_word t (2 ^ 20)); [lia|]. reflexivity || (cbn; lia). Qed.
Lemma varint_walk sep v d : (sep = PIPE \/ sep = COLON) -> word 32 v -> walk sep (varint v) d = Some d.
Proof. intros S W. apply walk_plain; auto. eapply Forall_impl; [|apply varint_plain; auto]. intros c H. apply H. Qed.
Lemma walk_join sep s2 l d : (sep = PIPE \/ sep = COLON) -> (s2 = PIPE \/ s2 = COLON) -> Forall (fun x => walk sep x d = Some d) l -> (sep <> s2 \/ d <> 0) ->
  walk sep (join s2 l) d = Some d.
Proof.
  intros S1 S2 F Nd. induction F as [|x l Hx F IH]; auto. destruct l as [|y l]; auto. rewrite join_cons by discriminate.
  rewrite walk_app, Hx. cbn [walk].
  assert ((s2 =? LPAR) = false) as -> by (destruct S2 as [->| ->]; reflexivity). assert ((s2 =? RPAR) = false) as -> by (destruct S2 as [->| ->]; reflexivity).
  destruct (Z.eqb_spec s2 sep) as [E|E]; cbn [andb]; [|exact IH]. destruct (Z.eqb_spec d 0); [exfalso; destruct Nd; auto|exact IH].
Qed.
Lemma written_walk sep : (sep = PIPE \/ sep = COLON) -> forall n c d, (csize c < n)%nat -> well_formed c -> 0 <= d -> walk sep (written c) d = Some d.
Proof.
  intros S. induction n as [|n IH]; intros c d L W Hd; [lia|]. destruct c as [b ps|t c].
  - assert (Wb : walk sep b d = Some d).
    { inversion_clear W as [? ? (_ & _ & F) _|]. apply walk_plain; auto. }
    destruct ps as [|p0 ps0] eqn:Ep; [exact Wb|]. rewrite <- Ep in *. rewrite written_plain by (subst; discriminate).
    rewrite walk_app, Wb. cbn [walk]. change (LPAR =? LPAR) with true. cbn match. rewrite walk_app, (walk_join sep PIPE); auto.
    + cbn. f_equal. lia.
    + apply Forall_map, Forall_forall. intros [[m g] args] I. destruct (wf_args _ _ _ _ _ W I) as (Hm & Hg & Na & Ha). cbn [written_pat].
      rewrite walk_app, varint_walk, walk_app, varint_walk by (auto; apply id_word; lia). unfold written_args. apply walk_join; auto; [|right; lia].
      apply Forall_map, Forall_forall. intros [t c] J. destruct (Ha t c J) as [Ht Wc]. unfold written_type. cbn [fst snd].
      rewrite walk_app, varint_walk by (auto; apply tag_word; auto). apply IH; auto; [|lia]. pose proof (arg_size b ps m g args t c I J). lia.
    + right. lia.
  - cbn [written]. inversion_clear W as [|? ? Ht Wc]. cbn [walk]. change (LBRA =? LPAR) with false. change (LBRA =? RPAR) with false. cbn match.
    assert ((LBRA =? sep) = false) as -> by (destruct S as [->| ->]; reflexivity). cbn [andb]. rewrite walk_app, varint_walk by (auto; apply tag_word; auto).
    rewrite walk_app, IH; auto; [|cbn in L; lia]. cbn [walk]. change (RBRA =? LPAR) with false. change (RBRA =? RPAR) with false. cbn match.
    assert ((RBRA =? sep) = false) as -> by (destruct S as [->| ->]; reflexivity). reflexivity.
Qed.
Lemma written_type_walk sep t c : (sep = PIPE \/ sep = COLON) -> 0 <= t < 8 -> well_formed c -> walk sep (written_type (t, c)) 0 = Some 0.
Proof.
  intros S Ht W. unfold written_type. cbn [fst snd]. rewrite walk_app, varint_walk by (auto; apply tag_word; auto).
  eapply written_walk; eauto; lia.
Qed.
Lemma args_walk_pipe args : good_args args -> walk PIPE (written_args args) 0 = Some 0.
Proof.
  intros [_ H]. unfold written_args. apply walk_join; auto; [|left; discriminate]. apply Forall_map, Forall_forall.
  intros [t c] J. destruct (H t c J). apply written_type_walk; auto.
Qed.

(** where a '(' is *)
Lemma varint_no_par v : word 32 v -> has_par (varint v) = false.
Proof. intros W. apply has_par_plain. eapply Forall_impl; [|apply varint_plain; auto]. intros c H. apply H. Qed.
Lemma has_par_join sep l : (sep = PIPE \/ sep = COLON) -> has_par (join sep l) = existsb has_par l.
Proof.
  intros S. induction l as [|x l IH]; auto. destruct l as [|y l]; [cbn; rewrite orb_false_r; reflexivity|].
  rewrite join_cons by discriminate. rewrite has_par_app. cbn [has_par existsb]. fold (has_par (join sep (y :: l))). rewrite IH.
  assert ((sep =? LPAR) = false) as -> by (destruct S as [->| ->]; reflexivity). reflexivity.
Qed.
Lemma written_par c : well_formed c -> has_par (written c) = generic c.
Proof.
  induction c as [b ps|t c IH]; intros W.
  - assert (B : has_par b = false) by (inversion_clear W as [? ? (_ & _ & F) _|]; apply has_par_plain; auto).
    destruct ps as [|p0 ps0] eqn:Ep; [exact B|]. rewrite <- Ep. rewrite written_plain by (subst; discriminate). rewrite has_par_app, B. subst. reflexivity.
  - inversion_clear W as [|? ? Ht Wc]. cbn [written generic]. cbn [has_par existsb]. fold (has_par (varint t ++ written c ++ [RBRA])).
    rewrite !has_par_app, varint_no_par, IH by (auto; apply tag_word; auto). cbn. rewrite orb_false_r. reflexivity.
Qed.
Lemma args_par args : good_args args -> has_par (written_args args) = deep args.
Proof.
  intros [_ H]. unfold written_args, deep. rewrite has_par_join by auto. induction args as [|[t c] args IH]; auto. cbn [map existsb]. f_equal.
  - unfold written_type. cbn [fst snd]. destruct (H t c (or_introl eq_refl)). rewrite has_par_app, varint_no_par, written_par by (auto; apply tag_word; auto). reflexivity.
  - apply IH. intros. apply H. right. auto.
Qed.

(** ** Targets *)
Lemma target_value m g : 0 <= m < 2 ^ 20 -> 0 < g < 2 ^ 20 -> Target m g 0 = Some (m * 2 ^ 40 + g * 2 ^ 20).
Proof.
  intros Hm Hg. unfold Target. replace ((0 <=? m) && (0 <? g)) with true by (symmetry; apply andb_true_iff; rewrite Z.leb_le, Z.ltb_lt; lia).
  assert (2 ^ 20 = 1048576) by reflexivity. assert (2 ^ 40 = 1099511627776) by reflexivity. assert (2 ^ 64 = 18446744073709551616) by reflexivity.
  change (sign_rotate 0) with 0. rewrite Z.lor_0_r. unfold wshl. rewrite !Z.shiftl_mul_pow2 by lia.
  rewrite (wrap_small 64 m), (wrap_small 64 g) by (split; lia). rewrite !wrap_small by (split; lia). f_equal.
  apply Z.bits_inj'. intros i Hi. rewrite Z.lor_spec.
  rewrite <- Z.add_nocarry_lxor || idtac.
  assert (Dj : Z.land (m * 2 ^ 40) (g * 2 ^ 20) = 0).
  { apply Z.bits_inj'. intros j Hj. rewrite Z.land_spec, Z.bits_0, !Z.mul_pow2_bits by lia.
    destruct (Z.lt_ge_cases j 40); [rewrite (Z.testbit_neg_r m) by lia; reflexivity|].
    assert (Z.testbit g (j - 20) = false) as ->; [|apply andb_false_r]. apply (word_testbit_high 20); [split; lia|lia|lia]. }
  rewrite (Z.add_nocarry_lxor _ _ Dj). rewrite Z.lxor_spec. pose proof (f_equal (fun x => Z.testbit x i) Dj) as Di. cbv beta in Di. rewrite Z.land_spec, Z.bits_0 in Di.
  destruct (Z.testbit (m * 2 ^ 40) i), (Z.testbit (g * 2 ^ 20) i); auto; discriminate.
Qed.
Lemma target_inj m g m' g' : 0 <= g < 2 ^ 20 -> 0 <= g' < 2 ^ 20 -> m * 2 ^ 40 + g * 2 ^ 20 = m' * 2 ^ 40 + g' * 2 ^ 20 -> m = m' /\ g = g'.
Proof. intros. assert (2 ^ 20 = 1048576) by reflexivity. assert (2 ^ 40 = 1099511627776) by reflexivity. lia. Qed.
Lemma signed_small v : 0 <= v < 2 ^ 20 -> signed32 v = v.
Proof. intros H. unfold signed32. assert (2 ^ 20 = 1048576) by reflexivity. assert (2 ^ 31 = 2147483648) by reflexivity. destruct (Z.ltb_spec v (2 ^ 31)); lia. Qed.
Lemma parse_global_at pre m g rest : 0 <= m < 2 ^ 20 -> 0 < g < 2 ^ 20 ->
  parseGlobal (pre ++ varint m ++ varint g ++ rest) (zlen pre) = Some (m * 2 ^ 40 + g * 2 ^ 20, zlen (pre ++ varint m ++ varint g)).
Proof.
  intros Hm Hg. unfold parseGlobal. rewrite parse_varint_at by (apply id_word; lia). cbn [obind fst snd].
  rewrite <- zlen_app. rewrite app_assoc. rewrite parse_varint_at by (apply id_word; lia). cbn [obind fst snd].
  rewrite !signed_small by lia. rewrite target_value by auto. cbn [obind]. rewrite <- zlen_app, <- app_assoc. reflexivity.
Qed.

(** ** The loops visit what is written *)
Lemma good_pats_wf b ps : well_formed (Plain b ps) -> ps <> [] -> good_pats ps.
Proof. intros W N. split; auto. intros m g args I. destruct (wf_args _ _ _ _ _ W I) as (a & b' & c & d). unfold good_args. auto. Qed.
Lemma sub_loop_ok {R} (visit : sub -> option (option R)) : forall ps pre fuel, good_pats ps -> (length ps <= fuel)%nat ->
  sub_loop fuel (pre ++ join PIPE (map written_pat ps)) (zlen pre) visit = foldv visit (subs ps).
Proof.
  induction ps as [|[[m g] args] ps IH]; intros pre fuel [N G] L; [tauto|]. destruct fuel as [|fuel]; [cbn in L; lia|].
  destruct (G m g args (or_introl eq_refl)) as (Hm & Hg & Ga). pose proof (args_walk_pipe args Ga) as Wk.
  cbn [map subs foldv snd target_of]. set (v := visit _).
  destruct ps as [|p ps].
  - cbn [join map]. cbn [sub_loop]. cbn [written_pat]. rewrite parse_global_at by auto. cbn [obind].
    replace (pre ++ varint m ++ varint g ++ written_args args) with ((pre ++ varint m ++ varint g) ++ written_args args) by (rewrite <- !app_assoc; reflexivity).
    rewrite scan_to_end by auto. cbn [obind]. rewrite cut_end. cbn [obind]. rewrite args_par by auto. fold v. destruct v as [[r|]|]; reflexivity.
  - set (ps' := p :: ps) in *. rewrite join_cons by (subst ps'; discriminate). cbn [sub_loop]. cbn [written_pat].
    replace (pre ++ (varint m ++ varint g ++ written_args args) ++ PIPE :: join PIPE (map written_pat ps'))
      with (pre ++ varint m ++ varint g ++ written_args args ++ PIPE :: join PIPE (map written_pat ps')) by (rewrite <- !app_assoc; reflexivity).
    rewrite parse_global_at by auto. cbn [obind].
    replace (pre ++ varint m ++ varint g ++ written_args args ++ PIPE :: join PIPE (map written_pat ps'))
      with ((pre ++ varint m ++ varint g) ++ written_args args ++ PIPE :: join PIPE (map written_pat ps')) by (rewrite <- !app_assoc; reflexivity).
    rewrite scan_to_sep by auto. cbn [obind]. rewrite cut_mid. cbn [obind]. rewrite args_par by auto. fold v. destruct v as [[r|]|]; try reflexivity.
    set (q := (pre ++ varint m ++ varint g) ++ written_args args).
    replace ((pre ++ varint m ++ varint g) ++ written_args args ++ PIPE :: join PIPE (map written_pat ps'))
      with ((q ++ [PIPE]) ++ join PIPE (map written_pat ps')) by (subst q; rewrite <- !app_assoc; reflexivity).
    replace (zlen q + 1) with (zlen (q ++ [PIPE])) by (rewrite zlen_app; reflexivity).
    apply IH; [|cbn in *; lia]. split; [subst ps'; discriminate|]. intros. apply G. right. auto.
Qed.
Lemma arg_loop_ok {R} (visit : argspec -> option (option R)) : forall args pre fuel, good_args args -> (length args <= fuel)%nat ->
  arg_loop fuel (pre ++ written_args args) (zlen pre) visit = foldv visit (argspecs (zlen pre =? 0) args).
Proof.
  induction args as [|[t c] args IH]; intros pre fuel [N G] L; [tauto|]. destruct fuel as [|fuel]; [cbn in L; lia|].
  destruct (G t c (or_introl eq_refl)) as (Ht & Wc). pose proof (written_type_walk COLON t c (or_intror eq_refl) Ht Wc) as Wk.
  assert (Dp : has_par (written_type (t, c)) = generic c).
  { unfold written_type. cbn [fst snd]. rewrite has_par_app, varint_no_par, written_par by (auto; apply tag_word; auto). reflexivity. }
  unfold written_args. cbn [map argspecs foldv snd]. set (v := visit _). cbn [arg_loop].
  destruct args as [|a args].
  - cbn [map join]. rewrite scan_to_end by auto. cbn [obind]. rewrite cut_end. cbn [obind]. rewrite Dp. fold v. destruct v as [[r|]|]; reflexivity.
  - set (args' := a :: args) in *. rewrite join_cons by (subst args'; discriminate). fold (written_args args').
    rewrite scan_to_sep by auto. cbn [obind]. rewrite cut_mid. cbn [obind]. rewrite Dp. fold v. destruct v as [[r|]|]; try reflexivity.
    replace (pre ++ written_type (t, c) ++ COLON :: written_args args') with ((pre ++ written_type (t, c) ++ [COLON]) ++ written_args args')
      by (rewrite <- !app_assoc; reflexivity).
    replace (zlen (pre ++ written_type (t, c)) + 1) with (zlen (pre ++ written_type (t, c) ++ [COLON])) by (rewrite !zlen_app; cbn; lia).
    rewrite IH; [|split; [subst args'; discriminate|intros; apply G; right; auto]|cbn in *; lia].
    replace (zlen (pre ++ written_type (t, c) ++ [COLON]) =? 0) with false; [reflexivity|].
    symmetry. apply Z.eqb_neq. rewrite !zlen_app. pose proof (zlen_nonneg pre). pose proof (zlen_nonneg (written_type (t, c))). cbn. lia.
Qed.
(** the two argument lists, zipped *)
Fixpoint zipv (rec : list Z -> list Z -> option bool) (ha ga : list (Z * canon)) : option bool :=
  match ha, ga with
  | h :: ha, g :: ga =>
      if negb (Bool.eqb (match ha with [] => true | _ => false end) (match ga with [] => true | _ => false end)) then Some false else
      do r <- rec (written_type h) (written_type g);
      if (r : bool) then Some true else match ha with [] => Some false | _ => zipv rec ha ga end
  | _, _ => Some false
  end.
Lemma scan_arg args pre t c : good_args ((t, c) :: args) ->
  scan_sep (pre ++ written_args ((t, c) :: args)) COLON (zlen pre) false =
    Some (zlen (pre ++ written_type (t, c)), match args with [] => true | _ => false end, has_par (written_type (t, c))) /\
  cut (pre ++ written_args ((t, c) :: args)) (zlen pre) (zlen (pre ++ written_type (t, c))) = Some (written_type (t, c)) /\
  (args <> [] -> exists pre', pre ++ written_args ((t, c) :: args) = pre' ++ written_args args /\ zlen pre' = zlen (pre ++ written_type (t, c)) + 1).
Proof.
  intros [_ G]. destruct (G t c (or_introl eq_refl)) as (Ht & Wc). pose proof (written_type_walk COLON t c (or_intror eq_refl) Ht Wc) as Wk.
  unfold written_args. cbn [map]. destruct args as [|a args].
  - cbn [map join]. rewrite scan_to_end, cut_end by auto. tauto.
  - set (args' := a :: args) in *. rewrite join_cons by (subst args'; discriminate). rewrite scan_to_sep, cut_mid by auto. split; auto. split; auto.
    intros _. exists (pre ++ written_type (t, c) ++ [COLON]). split; [rewrite <- !app_assoc; reflexivity|]. rewrite !zlen_app. cbn. lia.
Qed.
Lemma zip_ok rec : forall ha ga pre pre' fuel, good_args ha -> good_args ga -> (length ha <= fuel)%nat ->
  zip_args fuel rec (pre ++ written_args ha) (pre' ++ written_args ga) (zlen pre) (zlen pre') false false = zipv rec ha ga.
Proof.
  induction ha as [|[t c] ha IH]; intros ga pre pre' fuel Gh Gg L; [destruct Gh; tauto|]. destruct fuel as [|fuel]; [cbn in L; lia|].
  destruct ga as [|[t' c'] ga]; [destruct Gg; tauto|]. cbn [zip_args zipv].
  destruct (scan_arg ha pre t c Gh) as (S1 & C1 & N1). destruct (scan_arg ga pre' t' c' Gg) as (S2 & C2 & N2).
  rewrite S1, S2. cbn [obind]. destruct (negb _) eqn:E; [reflexivity|]. rewrite C1, C2. cbn [obind].
  destruct (rec (written_type (t, c)) (written_type (t', c'))) as [[|]|]; try reflexivity. cbn [obind].
  destruct ha as [|h ha]; [reflexivity|]. destruct ga as [|g ga]; [discriminate E|].
  destruct (N1 ltac:(discriminate)) as (p1 & E1 & L1). destruct (N2 ltac:(discriminate)) as (p2 & E2 & L2). rewrite E1, E2, <- L1, <- L2.
  apply IH; [| |cbn in *; lia]; split; try discriminate; intros; [apply (proj2 Gh)|apply (proj2 Gg)]; right; auto.
Qed.
