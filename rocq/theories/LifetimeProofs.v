(** Proofs about lifetimes: the encoding. *)
From Verif Require Import LifetimeSpec VarintProofs CommonLemmas WordsLemmas.
Open Scope Z_scope.

Lemma obindE {A B} (o : option A) (f : A -> option B) r : obind o f = Some r -> exists a, o = Some a /\ f a = Some r.
Proof. destruct o as [a|]; [|discriminate]. intros e. exists a. auto. Qed.
Lemma check_Some b u : check b = Some u -> b = true.
Proof. destruct b; [reflexivity|discriminate]. Qed.
Lemma beq_true a b : beq a b = true <-> a = b.
Proof. unfold beq. destruct (list_eq_dec Z.eq_dec a b); split; auto; discriminate. Qed.
Lemma beq_refl a : beq a a = true.
Proof. apply beq_true. reflexivity. Qed.
Lemma zlen_app a b : zlen (a ++ b) = zlen a + zlen b.
Proof. unfold zlen. rewrite app_length. lia. Qed.
Lemma zlen_nonneg a : 0 <= zlen a.
Proof. unfold zlen. lia. Qed.
Lemma firstn_len {T} (a b : list T) n : n = length a -> firstn n (a ++ b) = a.
Proof. intros ->. apply firstn_mid. Qed.
Lemma skipn_len {T} (a b : list T) n : n = length a -> skipn n (a ++ b) = b.
Proof. intros ->. rewrite skipn_app, skipn_all, Nat.sub_diag. reflexivity. Qed.
Lemma slice_mid pre x post : slice (pre ++ x ++ post) (zlen pre) (zlen pre + zlen x) = x.
Proof. unfold slice, zlen. rewrite skipn_len by lia. apply firstn_len. lia. Qed.
Lemma slice_from_mid pre x : slice_from (pre ++ x) (zlen pre) = x.
Proof. unfold slice_from, zlen. apply skipn_len. lia. Qed.

(* ---------- numbers ---------- *)
Lemma num7_nonneg v bs : num7 v bs -> 0 <= v.
Proof. induction 1; lia. Qed.
Lemma num7_nonempty v bs : num7 v bs -> bs <> [].
Proof. destruct 1; discriminate. Qed.
Lemma num7_fun v bs cs : num7 v bs -> num7 v cs -> bs = cs.
Proof.
  intros h. revert cs. induction h as [v hv|v bs hv h IH]; intros cs k; inversion k; subst; try lia; [reflexivity|].
  f_equal. apply IH. assumption.
Qed.
Lemma cont_byte_num v : 0 <= v -> cont_byte v = 128 + v mod 128.
Proof.
  intros h. pose proof (cont_low v h) as e. pose proof (cont_ge v h) as g.
  change 127 with (Z.ones 7) in e. rewrite Z.land_ones in e by lia. change (2 ^ 7) with 128 in e.
  rewrite <- e. pose proof (Z.div_mod (cont_byte v) 128 ltac:(lia)) as d.
  assert (cont_byte v / 128 = 1). { symmetry. apply Z.div_unique with (r := cont_byte v - 128); lia. } lia.
Qed.
Lemma append7_loop_num fuel : forall v bs, 0 <= v -> append7_loop fuel v = Some bs -> num7 v bs.
Proof.
  induction fuel as [|f IH]; intros v bs hv e; cbn [append7_loop] in e; [discriminate|].
  destruct (Z.leb_spec 128 v) as [g|g].
  - apply obindE in e. destruct e as (r & e & q). injection q as <-. rewrite cont_byte_num by exact hv. constructor; [exact g|].
    unfold wshr in e. rewrite Z.shiftr_div_pow2 in e by lia. apply IH; [|exact e]. apply Z.div_pos; lia.
  - injection e as <-. rewrite wrap_small by (unfold word; lia). constructor. lia.
Qed.
Lemma append7_num str v : word 32 v -> exists bs, append7bit str v = Some (str ++ bs) /\ num7 v bs.
Proof.
  intros hv. unfold append7bit. destruct (append7_loop_enc v 6) as (bs & E & _); [|lia|].
  { unfold word in hv. assert (2 ^ 32 < 2 ^ (7 * Z.of_nat 6)) by reflexivity. lia. }
  rewrite E. cbn [obind]. exists bs. split; [reflexivity|]. eapply append7_loop_num; [|exact E]. apply hv.
Qed.
Lemma num7_append str v bs : word 32 v -> num7 v bs -> append7bit str v = Some (str ++ bs).
Proof. intros hv n. destruct (append7_num str v hv) as (cs & e & m). rewrite (num7_fun _ _ _ n m). exact e. Qed.
Lemma parse7_num pre v bs rest : word 32 v -> num7 v bs -> parse7bit (pre ++ bs ++ rest) (zlen pre) = Some (v, zlen pre + zlen bs).
Proof.
  intros hv n. destruct (round_trip7 pre v rest hv) as (cs & e & _ & p).
  rewrite (num7_append pre v bs hv n) in e. injection e as e. apply app_inv_head in e. subst cs.
  rewrite <- app_assoc in p. unfold zlen. rewrite p. rewrite Nat2Z.inj_add. reflexivity.
Qed.

(* ---------- appending paths ---------- *)
Lemma shl1 x : 0 <= x < 2 ^ 31 -> wshl 32 x 1 = 2 * x.
Proof. intros h. rewrite wshl_small; lia. Qed.
Lemma lor_low x b : 0 <= x -> Z.lor (2 * x) (if b : bool then 0 else 1) = 2 * x + (if b then 0 else 1).
Proof.
  intros h. rewrite Z.lor_comm. replace (2 * x) with (x * 2 ^ 1) by lia.
  rewrite lor_shl; [lia|lia|]. destruct b; cbn; lia.
Qed.
Lemma appendSub_num str s isLast lp out : flatOffset s + flatCount s < 2 ^ 31 -> appendSubRegion str s isLast lp = Some out ->
  sub_ok s /\ (isLast = false -> flatCount s = 1) /\
  exists bo, num7 (2 * flatOffset s + if isLast then 0 else 1) bo /\
    if isLast then exists bc, num7 (2 * flatCount s + if lp then 0 else 1) bc /\ out = str ++ bo ++ bc else out = str ++ bo.
Proof.
  intros h1 e. unfold appendSubRegion in e. apply obindE in e. destruct e as ([] & c & e). apply check_Some in c.
  assert (a : 0 <= flatOffset s /\ 0 < flatCount s /\ (isLast = false -> flatCount s = 1)).
  { destruct isLast; cbn in c; split; try lia; split; try lia; try discriminate; intros; lia. }
  destruct a as (a1 & a2 & a3). split; [split; lia|]. split; [exact a3|].
  rewrite shl1 in e by lia. rewrite lor_low in e by lia.
  destruct (append7_num str (2 * flatOffset s + (if isLast then 0 else 1))) as (bo & eo & no).
  { unfold word. change (2 ^ 32) with (2 ^ 31 * 2). destruct isLast; lia. }
  rewrite eo in e. cbn [obind] in e. exists bo. split; [exact no|]. destruct isLast.
  - rewrite shl1 in e by lia. rewrite lor_low in e by lia.
    destruct (append7_num (str ++ bo) (2 * flatCount s + (if lp then 0 else 1))) as (bc & ec & nc).
    { unfold word. change (2 ^ 32) with (2 ^ 31 * 2). destruct lp; lia. }
    rewrite ec in e. injection e as <-. exists bc. split; [exact nc|]. rewrite app_assoc. reflexivity.
  - injection e as <-. reflexivity.
Qed.
Lemma num_appendSub str s (lp : bool) bo bc : sub_ok s -> num7 (2 * flatOffset s) bo -> num7 (2 * flatCount s + if lp then 0 else 1) bc ->
  appendSubRegion str s true lp = Some (str ++ bo ++ bc).
Proof.
  intros [h1 h2] no nc. unfold appendSubRegion. replace (_ && _) with true by (cbn; lia). cbn [check obind].
  rewrite !shl1 by lia. change (Z.lor (2 * flatOffset s) 0) with (Z.lor (2 * flatOffset s) (if true then 0 else 1)).
  rewrite !lor_low by lia. rewrite (num7_append str (2 * flatOffset s + 0) bo); [|unfold word; change (2 ^ 32) with (2 ^ 31 * 2); lia|rewrite Z.add_0_r; exact no].
  cbn [obind]. rewrite (num7_append _ _ bc); [rewrite app_assoc; reflexivity| |exact nc].
  unfold word; change (2 ^ 32) with (2 ^ 31 * 2); destruct lp; lia.
Qed.
Lemma num_appendSub_more str s lp bo : sub_ok s -> flatCount s = 1 -> num7 (2 * flatOffset s + 1) bo -> appendSubRegion str s false lp = Some (str ++ bo).
Proof.
  intros [h1 h2] c1 no. unfold appendSubRegion. replace (_ && _) with true by (cbn; lia). cbn [check obind].
  rewrite shl1 by lia. change (Z.lor (2 * flatOffset s) 1) with (Z.lor (2 * flatOffset s) (if false then 0 else 1)). rewrite lor_low by lia.
  rewrite (num7_append str _ bo); [reflexivity|unfold word; change (2 ^ 32) with (2 ^ 31 * 2); lia|exact no].
Qed.
Lemma append_path_bytes lp : forall p str bs, path_ok p -> path_bytes lp p bs -> append_path str p lp = Some (str ++ bs).
Proof.
  induction p as [|s p IH]; intros str bs ok pb; [destruct ok|]. inversion pb as [s' bo bc n1 n2|s' p' bo bs' n1 n2]; subst.
  - cbn [append_path]. rewrite (num_appendSub str s lp bo bc) by assumption. reflexivity.
  - destruct p as [|s2 p2]; [inversion n2|]. destruct ok as (ok1 & ok2 & ok3). cbn [append_path] in *.
    rewrite (num_appendSub_more str s lp bo) by assumption. cbn [obind]. specialize (IH (str ++ bo) bs' ok3 n2). cbn [append_path] in IH.
    rewrite IH. rewrite app_assoc. reflexivity.
Qed.
Lemma path_has_bytes lp : forall p, path_ok p -> exists bs, path_bytes lp p bs.
Proof.
  assert (num : forall v, word 32 v -> exists bs, num7 v bs) by (intros v h; destruct (append7_num [] v h) as (bs & _ & n); eauto).
  induction p as [|s p IH]; intros ok; [destruct ok|]. destruct p as [|s2 p2].
  - destruct ok as [h1 h2]. destruct (num (2 * flatOffset s)) as [bo no]; [unfold word; change (2 ^ 32) with (2 ^ 31 * 2); lia|].
    destruct (num (2 * flatCount s + if lp then 0 else 1)) as [bc nc]; [unfold word; change (2 ^ 32) with (2 ^ 31 * 2); destruct lp; lia|].
    exists (bo ++ bc). constructor; assumption.
  - destruct ok as ([h1 h2] & c1 & ok). destruct (IH ok) as [bs n]. destruct (num (2 * flatOffset s + 1)) as [bo no]; [unfold word; change (2 ^ 32) with (2 ^ 31 * 2); lia|].
    exists (bo ++ bs). constructor; assumption.
Qed.
Lemma paths_have_bytes : forall ps, ps <> [] -> Forall path_ok ps -> exists bs, paths_bytes ps bs.
Proof.
  induction ps as [|p ps IH]; intros ne f; [congruence|]. inversion_clear f as [|? ? o f'].
  destruct ps as [|p2 ps2].
  - destruct (path_has_bytes true p o) as [bs h]. exists bs. constructor. exact h.
  - destruct (path_has_bytes false p o) as [bs h]. destruct IH as [cs k]; [discriminate|exact f'|]. exists (bs ++ cs). constructor; assumption.
Qed.
Lemma append_list_bytes : forall ps str bs, Forall path_ok ps -> paths_bytes ps bs -> append_path_list str ps = Some (str ++ bs).
Proof.
  induction ps as [|p ps IH]; intros str bs f pb; [inversion pb|]. inversion_clear f as [|? ? o f']. cbn [append_path_list].
  destruct p as [|s p0] eqn:ep; [destruct o|]. cbn [check obind]. rewrite <- ep in *.
  inversion pb as [p' bs' h|p' ps' bs' cs h k]; subst p'.
  - subst. rewrite (append_path_bytes true _ _ bs o h). reflexivity.
  - subst ps'. destruct ps as [|p2 ps2]; [inversion k|]. rewrite (append_path_bytes false _ _ bs' o h). cbn [obind].
    rewrite (IH _ cs f' k), app_assoc. reflexivity.
Qed.
Lemma path_bytes_fun lp : forall p bs cs, path_bytes lp p bs -> path_bytes lp p cs -> bs = cs.
Proof.
  intros p bs cs h. revert cs. induction h as [s bo bc n1 n2|s p bo bs n1 n2 IH]; intros cs k; inversion k as [? bo' bc' m1 m2|? ? bo' bs' m1 m2]; subst.
  - rewrite (num7_fun _ _ _ n1 m1), (num7_fun _ _ _ n2 m2). reflexivity.
  - inversion m2.
  - inversion n2.
  - rewrite (num7_fun _ _ _ n1 m1). f_equal. apply IH. assumption.
Qed.
Lemma paths_bytes_fun : forall ps bs cs, paths_bytes ps bs -> paths_bytes ps cs -> bs = cs.
Proof.
  intros ps bs cs h. revert cs. induction h as [p bs n|p ps bs ds n1 n2 IH]; intros cs k; inversion k; subst.
  - eapply path_bytes_fun; eassumption.
  - match goal with H : paths_bytes [] _ |- _ => inversion H end.
  - inversion n2.
  - f_equal; [eapply path_bytes_fun; eassumption|]. apply IH. assumption.
Qed.

(* ---------- walking ---------- *)
(** What the walk over one path reports. *)
Inductive steps (lp : bool) : bool -> list Z -> path -> list step -> Prop :=
| st_last first mid s : steps lp first mid [s] [{| s_sub := s; s_first := first; s_last := true; s_lastPath := lp; s_prefix := mid |}]
| st_more first mid s p bo sts : num7 (2 * flatOffset s + 1) bo -> steps lp false (mid ++ bo) p sts ->
    steps lp first mid (s :: p) ({| s_sub := s; s_first := first; s_last := false; s_lastPath := false; s_prefix := mid |} :: sts).
Lemma land1_even x : Z.land (2 * x) 1 = 0.
Proof. change 1 with (Z.ones 1). rewrite Z.land_ones by lia. change (2 ^ 1) with 2. rewrite Z.mul_comm. apply Z.mod_mul. lia. Qed.
Lemma land1_odd x : Z.land (2 * x + 1) 1 = 1.
Proof. change 1 with (Z.ones 1) at 2. rewrite Z.land_ones by lia. change (2 ^ 1) with 2. rewrite Z.add_comm, Z.mul_comm, Z.mod_add by lia. reflexivity. Qed.
Lemma shr1_even x : wshr (2 * x) 1 = x.
Proof. unfold wshr. rewrite Z.shiftr_div_pow2 by lia. change (2 ^ 1) with 2. rewrite Z.mul_comm. apply Z.div_mul. lia. Qed.
Lemma shr1_odd x : wshr (2 * x + 1) 1 = x.
Proof. unfold wshr. rewrite Z.shiftr_div_pow2 by lia. change (2 ^ 1) with 2. symmetry. apply Z.div_unique with (r := 1); lia. Qed.
Lemma walk_path_ok lp : forall p bs, path_ok p -> path_bytes lp p bs -> forall fuel pre mid rest first, (length p <= fuel)%nat ->
  exists sts, walk_path fuel (pre ++ mid ++ bs ++ rest) (zlen pre) (zlen pre + zlen mid) first = Some (sts, zlen pre + zlen mid + zlen bs) /\
    steps lp first mid p sts.
Proof.
  intros p bs ok pb. revert ok. induction pb as [s bo bc n1 n2|s p bo bs n1 n2 IH]; intros ok fuel pre mid rest first lf.
  - destruct fuel as [|f]; [cbn in lf; lia|]. destruct ok as [h1 h2]. cbn [walk_path].
    rewrite <- (zlen_app pre mid). rewrite (app_assoc pre mid), <- (app_assoc bo bc rest).
    rewrite (parse7_num (pre ++ mid) (2 * flatOffset s) bo) by (first [exact n1|unfold word; change (2 ^ 32) with (2 ^ 31 * 2); lia]). cbn [obind].
    rewrite land1_even. cbn [Z.eqb]. rewrite <- (zlen_app (pre ++ mid) bo), (app_assoc (pre ++ mid) bo).
    rewrite (parse7_num ((pre ++ mid) ++ bo) (2 * flatCount s + (if lp then 0 else 1)) bc) by (first [exact n2|unfold word; change (2 ^ 32) with (2 ^ 31 * 2); destruct lp; lia]). cbn [obind].
    rewrite <- (zlen_app ((pre ++ mid) ++ bo)). rewrite <- !app_assoc.
    eexists. split; [f_equal; f_equal; rewrite !zlen_app; lia|].
    rewrite zlen_app, slice_mid. rewrite shr1_even.
    assert (e : wshr (2 * flatCount s + (if lp then 0 else 1)) 1 = flatCount s) by (destruct lp; [rewrite Z.add_0_r; apply shr1_even|apply shr1_odd]).
    assert (e2 : (Z.land (2 * flatCount s + (if lp then 0 else 1)) 1 =? 0) = lp) by (destruct lp; [rewrite Z.add_0_r, land1_even|rewrite land1_odd]; reflexivity).
    rewrite e, e2. destruct s as [c o]. constructor.
  - destruct p as [|s2 p2] eqn:ep; [inversion n2|]. rewrite <- ep in *. destruct fuel as [|f]; [cbn in lf; lia|].
    assert (ok' : sub_ok s /\ flatCount s = 1 /\ path_ok p) by (rewrite ep in ok |- *; exact ok). destruct ok' as ([h1 h2] & c1 & ok').
    cbn [walk_path]. rewrite <- (zlen_app pre mid). rewrite (app_assoc pre mid), <- (app_assoc bo bs rest).
    rewrite (parse7_num (pre ++ mid) (2 * flatOffset s + 1) bo) by (first [exact n1|unfold word; change (2 ^ 32) with (2 ^ 31 * 2); lia]). cbn [obind].
    rewrite land1_odd. cbn [Z.eqb obind]. rewrite shr1_odd. change (wshr 3 1) with 1.
    specialize (IH ok' f pre (mid ++ bo) rest false). destruct IH as (sts & e & st); [cbn [length] in lf; lia|].
    rewrite <- (app_assoc mid bo) in e. rewrite <- (app_assoc pre mid). rewrite zlen_app in e.
    rewrite zlen_app. rewrite <- Z.add_assoc. rewrite e. cbn [obind fst snd].
    eexists. split; [f_equal; f_equal; rewrite !zlen_app; lia|]. rewrite slice_mid.
    destruct s as [c o]. cbn [flatCount flatOffset] in *. subst c. econstructor; eassumption.
Qed.
Lemma steps_path lp first mid p sts : steps lp first mid p sts -> path_of sts = p.
Proof. induction 1; cbn; [reflexivity|]. f_equal. assumption. Qed.
Lemma steps_last lp first mid p sts : steps lp first mid p sts -> path_is_last sts = lp.
Proof.
  induction 1 as [|first mid s p bo sts n st IH]; [reflexivity|]. unfold path_is_last in *. cbn [rev].
  destruct (rev sts) as [|x l] eqn:e; [|exact IH]. destruct sts; [inversion st|]. cbn in e. destruct (rev sts); discriminate.
Qed.
(** What the walk over paths reports, one path after the other. *)
Inductive all_steps : list path -> list (list step) -> Prop :=
| as_last p sts : steps true true [] p sts -> all_steps [p] [sts]
| as_more p ps sts stss : steps false true [] p sts -> all_steps ps stss -> all_steps (p :: ps) (sts :: stss).
Lemma path_bytes_len lp p bs : path_bytes lp p bs -> (length p <= length bs)%nat.
Proof.
  induction 1 as [s bo bc n1 n2|s p bo bs n1 n2 IH]; cbn [length]; rewrite app_length.
  - apply num7_nonempty in n1. destruct bo; [congruence|cbn; lia].
  - apply num7_nonempty in n1. destruct bo; [congruence|cbn; lia].
Qed.
Lemma walk_loop_ok : forall ps bs, Forall path_ok ps -> paths_bytes ps bs -> forall fuel pre rest, (length ps <= fuel)%nat ->
  exists stss, walk_loop fuel (pre ++ bs ++ rest) (zlen pre) = Some (stss, zlen pre + zlen bs) /\ all_steps ps stss.
Proof.
  intros ps bs f pb. revert f. induction pb as [p bs h|p ps bs cs h k IH]; intros f fuel pre rest lf; (destruct fuel as [|n]; [cbn in lf; lia|]); inversion_clear f as [|? ? o f']; cbn [walk_loop].
  - destruct (walk_path_ok true p bs o h (S (length (pre ++ bs ++ rest))) pre [] rest true) as (sts & e & st).
    { apply path_bytes_len in h. rewrite !app_length. lia. }
    cbn [app] in e. replace (zlen pre + zlen []) with (zlen pre) in e by (unfold zlen; cbn; lia). rewrite e. cbn [obind].
    rewrite (steps_last _ _ _ _ _ st). eexists. split; [reflexivity|]. constructor. exact st.
  - destruct (walk_path_ok false p bs o h (S (length (pre ++ (bs ++ cs) ++ rest))) pre [] (cs ++ rest) true) as (sts & e & st).
    { apply path_bytes_len in h. rewrite !app_length. lia. }
    cbn [app] in e. replace (zlen pre + zlen []) with (zlen pre) in e by (unfold zlen; cbn; lia).
    rewrite <- (app_assoc bs cs rest) in *. rewrite e. cbn [obind].
    rewrite (steps_last _ _ _ _ _ st). destruct (IH f' n (pre ++ bs) rest) as (stss & e2 & as2); [cbn in lf; lia|].
    rewrite <- (app_assoc pre bs) in e2. rewrite zlen_app in e2. rewrite e2. cbn [obind fst snd].
    eexists. split; [f_equal; f_equal; rewrite zlen_app; lia|]. constructor; assumption.
Qed.
Lemma all_steps_paths ps stss : all_steps ps stss -> map path_of stss = ps.
Proof. induction 1 as [p sts h|p ps sts stss h k IH]; cbn; rewrite (steps_path _ _ _ _ _ h); [reflexivity|]. f_equal. exact IH. Qed.
Lemma paths_bytes_len ps bs : paths_bytes ps bs -> (length ps <= length bs)%nat.
Proof.
  induction 1 as [p bs h|p ps bs cs h k IH].
  - pose proof (path_bytes_len _ _ _ h). destruct p; [inversion h|cbn in *; lia].
  - rewrite app_length. pose proof (path_bytes_len _ _ _ h). destruct p; [inversion h|cbn [length] in *; lia].
Qed.
Lemma walk_paths_at ps bs pre rest : Forall path_ok ps -> paths_bytes ps bs ->
  exists stss, walk_paths (pre ++ bs ++ rest) (zlen pre) true = Some (stss, zlen pre + zlen bs) /\ all_steps ps stss.
Proof.
  intros f pb. unfold walk_paths. destruct (walk_loop_ok ps bs f pb (S (length (pre ++ bs ++ rest))) pre rest) as (stss & e & st).
  { apply paths_bytes_len in pb. rewrite !app_length. lia. }
  rewrite e. cbn [obind check orb snd]. eauto.
Qed.
Lemma walk_paths_all ps bs : Forall path_ok ps -> paths_bytes ps bs ->
  exists stss, walk_paths bs 0 false = Some (stss, zlen bs) /\ all_steps ps stss.
Proof.
  intros f pb. unfold walk_paths. destruct (walk_loop_ok ps bs f pb (S (length bs)) [] []) as (stss & e & st).
  { apply paths_bytes_len in pb. lia. }
  cbn [app] in e. rewrite app_nil_r in e. change (zlen []) with 0 in e. rewrite e. cbn [obind snd]. rewrite Z.add_0_l, Z.eqb_refl. cbn. eauto.
Qed.
Lemma parsePaths_ok ps bs : Forall path_ok ps -> paths_bytes ps bs -> parsePaths bs = Some ps.
Proof.
  intros f pb. unfold parsePaths. destruct (walk_paths_all ps bs f pb) as (stss & -> & st). cbn [obind fst].
  rewrite (all_steps_paths _ _ st). reflexivity.
Qed.
Lemma paths_bytes_inj ps qs bs : Forall path_ok ps -> Forall path_ok qs -> paths_bytes ps bs -> paths_bytes qs bs -> ps = qs.
Proof. intros f g h k. pose proof (parsePaths_ok _ _ f h) as a. rewrite (parsePaths_ok _ _ g k) in a. congruence. Qed.
Lemma paths_not_empty ps bs : Forall path_ok ps -> paths_bytes ps bs -> bs <> SR_empty.
Proof.
  intros f h ->. pose proof (parsePaths_ok _ _ f h) as a. assert (b : parsePaths SR_empty = Some [[SR 0 0]]) by (vm_compute; reflexivity).
  rewrite b in a. injection a as <-. inversion_clear f as [|? ? o _]. destruct o as [_ o]. cbn in o. lia.
Qed.
Lemma walk_empty_at pre rest : exists stss, walk_paths (pre ++ SR_empty ++ rest) (zlen pre) true = Some (stss, zlen pre + 2).
Proof.
  assert (n0 : num7 0 [0]) by (constructor; lia).
  assert (p1 : forall a b, parse7bit (a ++ [0] ++ b) (zlen a) = Some (0, zlen a + 1)) by (intros a b; apply (parse7_num a 0 [0] b); [unfold word; lia|exact n0]).
  unfold walk_paths. cbn [walk_loop walk_path]. rewrite (p1 pre ([0] ++ rest) : parse7bit (pre ++ SR_empty ++ rest) (zlen pre) = _). cbn [obind Z.land Z.eqb].
  assert (p2 : parse7bit (pre ++ SR_empty ++ rest) (zlen pre + 1) = Some (0, zlen pre + 1 + 1)).
  { pose proof (p1 (pre ++ [0]) rest) as q. rewrite <- app_assoc, zlen_app in q. exact q. }
  rewrite p2. cbn [obind Z.land Z.eqb]. cbn [path_is_last rev app s_lastPath obind snd orb check]. eexists. f_equal. f_equal. lia.
Qed.
