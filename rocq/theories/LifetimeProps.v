(** C32, C33: lifetimes (src/lifetime.fu). *)
From Verif Require Import LifetimeSpec LifetimeProofs LifetimeSem LifetimeMerge CommonLemmas WordsLemmas.
Open Scope Z_scope.

(** ** C32: the encoding *)
Definition small_path (p : path) : Prop := Forall (fun s => flatOffset s + flatCount s < 2 ^ 31) p.
Local Lemma append_path_ok lp : forall p str out, p <> [] -> small_path p -> append_path str p lp = Some out -> path_ok p.
Proof.
  induction p as [|s p IH]; intros str out np ip e; [congruence|]. inversion_clear ip as [|? ? h1 ip']. cbn [append_path] in e.
  apply obindE in e. destruct e as (str' & e1 & e2). destruct (appendSub_num _ _ _ _ _ h1 e1) as (ok & c1 & _).
  destruct p as [|s2 p2]; [exact ok|]. split; [exact ok|]. split; [apply c1; reflexivity|]. apply (IH str' out); [discriminate|exact ip'|exact e2].
Qed.
Local Lemma append_list_ok : forall ps str out, Forall small_path ps -> append_path_list str ps = Some out -> Forall path_ok ps.
Proof.
  induction ps as [|p ps IH]; intros str out ip e; [constructor|]. inversion_clear ip as [|? ? h ip']. cbn [append_path_list] in e.
  apply obindE in e. destruct e as ([] & c & e). apply check_Some in c. apply obindE in e. destruct e as (str' & e1 & e2).
  constructor; [|apply (IH str' out); assumption]. apply (append_path_ok (match ps with [] => true | _ => false end) p str str'); [destruct p; [discriminate|discriminate]|exact h|exact e1].
Qed.
(** Whatever paths are written (below 2^31 slots), what is written is in the format, and reading it back yields exactly
    these paths, in order; nothing else is touched. *)
Theorem lifetime_paths_round_trip : forall pre ps emptyOK mismatchOK out, ps <> [] -> Forall small_path ps ->
  appendPaths pre ps emptyOK mismatchOK = Some out ->
  Forall path_ok ps /\ exists bs, out = pre ++ bs /\ paths_bytes ps bs /\ parsePaths bs = Some ps.
Proof.
  intros pre ps e m out np ip h.
  assert (ok : Forall path_ok ps).
  { unfold appendPaths in h. apply obindE in h. destruct h as ([] & _ & h). apply obindE in h. destruct h as (o & h & _). eapply append_list_ok; eassumption. }
  split; [exact ok|]. destruct (paths_have_bytes ps np ok) as [bs pb]. rewrite (appendPaths_spec ps bs pre e m ok pb) in h.
  destruct (valid ps m 1); [|discriminate]. injection h as <-. exists bs. refine (conj eq_refl (conj pb _)). apply parsePaths_ok; assumption.
Qed.
Print Assumptions lifetime_paths_round_trip.
(** Paths that go through one slot per level are accepted, up to 64 of them and 64 levels deep, of one size. *)
Definition same_size (ps : list path) : Prop := exists n, Forall (fun p => last_count p = n) ps.
Local Lemma valid_true (ps : list path) m d : (length ps <= 64)%nat -> Forall (fun p => (length p <= 64)%nat /\ d <= Z.of_nat (length p)) ps -> (m = true \/ same_size ps) -> valid ps m d = true.
Proof.
  intros l f s. unfold valid. assert (l1 : (Z.of_nat (length ps) <=? 64) = true) by (apply Z.leb_le; lia). rewrite l1. cbn [andb]. apply andb_true_iff. split.
  - apply forallb_forall. intros p i. rewrite Forall_forall in f. specialize (f p i). lia.
  - destruct s as [->|[n s]]; [reflexivity|]. apply orb_true_iff. right. destruct ps as [|p ps]; [reflexivity|].
    inversion_clear s as [|? ? e s']. apply forallb_forall. intros q i. rewrite Forall_forall in s'. specialize (s' q i). apply Z.eqb_eq. congruence.
Qed.
Local Lemma path_depth p : path_ok p -> 1 <= Z.of_nat (length p).
Proof. destruct p; [intros []|cbn [length]; lia]. Qed.
Theorem lifetime_paths_are_accepted : forall pre ps emptyOK mismatchOK, ps <> [] -> Forall path_ok ps ->
  (length ps <= 64)%nat -> Forall (fun p => (length p <= 64)%nat) ps -> (mismatchOK = true \/ same_size ps) ->
  exists bs, appendPaths pre ps emptyOK mismatchOK = Some (pre ++ bs) /\ paths_bytes ps bs.
Proof.
  intros pre ps e m np ok l d s. destruct (paths_have_bytes ps np ok) as [bs pb]. exists bs. split; [|exact pb].
  rewrite (appendPaths_spec ps bs pre e m ok pb), valid_true; [reflexivity|exact l| |exact s].
  rewrite Forall_forall in *. intros p i. split; [apply d, i|apply path_depth, ok, i].
Qed.
Print Assumptions lifetime_paths_are_accepted.
(** The format is unambiguous: a string stands for at most one list of paths, and no such string is the mark for
    "all of the region". *)
Theorem lifetime_paths_unambiguous : forall ps qs bs, Forall path_ok ps -> Forall path_ok qs -> paths_bytes ps bs -> paths_bytes qs bs ->
  ps = qs /\ bs <> SR_empty.
Proof. intros ps qs bs o o' h h'. split; [eapply paths_bytes_inj; eassumption|eapply paths_not_empty; eassumption]. Qed.
Print Assumptions lifetime_paths_unambiguous.
(** Walking over a lifetime visits its regions, each with its paths. *)
Local Lemma each_items : forall L chars pre fuel, Forall item_ok L -> chars = pre ++ ibytes L -> (length L < fuel)%nat ->
  exists es, each_loop fuel chars (zlen pre) = Some es /\
    Forall2 (fun e i => e_r e = i_r i /\ e_raw chars e = i_br i /\ e_paths chars e = i_bc i) es L.
Proof.
  induction L as [|i L IH]; intros chars pre fuel ok ec lf; (destruct fuel as [|f]; [cbn in lf; lia|]); cbn [each_loop].
  - unfold ibytes in ec. cbn in ec. rewrite app_nil_r in ec. subst chars. rewrite Z.ltb_irrefl. exists []. split; [reflexivity|constructor].
  - inversion_clear ok as [|? ? o ok']. assert (ec' : chars = pre ++ i_all i ++ ibytes L) by exact ec.
    pose proof (item_nonempty i o) as ne. assert (0 < zlen (i_all i)) by (unfold zlen; destruct (i_all i); [congruence|cbn; lia]).
    replace (zlen pre <? zlen chars) with true by (rewrite ec', !zlen_app; pose proof (zlen_nonneg (ibytes L)); lia).
    pose proof (load_item i pre (ibytes L) o) as ld. rewrite <- ec' in ld. rewrite ld. cbn [obind e_end].
    destruct (IH chars (pre ++ i_all i) f ok') as (es & e & f2); [rewrite <- app_assoc; exact ec'|cbn [length] in lf; lia|].
    rewrite zlen_app in e. rewrite e. cbn [obind]. eexists. split; [reflexivity|]. constructor; [|exact f2].
    destruct (item_slices i pre (ibytes L)) as (s1 & s2 & _). cbv zeta in s1, s2. rewrite <- ec' in s1, s2. unfold e_raw, e_paths. auto.
Qed.
Local Lemma each_spec L : Forall item_ok L -> exists es, Lifetime_each (ibytes L) = Some es /\
  Forall2 (fun e i => e_r e = i_r i /\ e_raw (ibytes L) e = i_br i /\ e_paths (ibytes L) e = i_bc i) es L.
Proof. intros ok. apply (each_items L (ibytes L) []); auto. pose proof (ibytes_len L ok). lia. Qed.
Theorem lifetime_each_visits_the_regions : forall s L, is_lifetime s L ->
  exists es, Lifetime_each s = Some es /\
    Forall2 (fun e (g : region) => e_r e = fst g /\ match snd g with None => e_paths s e = SR_empty | Some ps => parsePaths (e_paths s e) = Some ps end) es L.
Proof.
  intros s L (lb & ok & _). destruct (items_of L s ok lb) as (is & <- & <- & oki).
  destruct (each_spec is oki) as (es & e & f). exists es. split; [exact e|]. clear e ok lb. revert oki f. generalize (ibytes is) as chars. intros chars oki f. revert oki.
  induction f as [|e i es is' (h1 & h2 & h3) f' IH]; intros oki; cbn [map]; [constructor|]. inversion_clear oki as [|? ? (o1 & o2 & o3) o].
  constructor; [|apply IH; assumption]. split; [exact h1|]. rewrite h3. destruct o1 as [_ o1]. destruct (snd (i_g i)) as [ps|]; [|exact o3].
  apply parsePaths_ok; [apply o1|exact o3].
Qed.
Print Assumptions lifetime_each_visits_the_regions.

(** ** C33: union *)
Local Lemma ss_tail (L : list region) g : StronglySorted (fun g h => before (fst g) (fst h)) (g :: L) ->
  StronglySorted (fun g h => before (fst g) (fst h)) L /\ Forall (fun h => before (fst g) (fst h)) L.
Proof. intros h. inversion h; auto. Qed.
Definition keeps (A B C : list region) : Prop := forall g, In g C -> exists g', In g' (A ++ B) /\ fst g' = fst g.
Definition all_irredundant (L : list region) : Prop := Forall (fun g => match snd g with None => True | Some ps => irredundant ps end) L.
Local Definition on_union (a b : list Z) (m : bool) (result : list Z) (e : ev) : option (act (list Z) (list Z)) :=
  match e with
  | EEither raw => Some (Go (result ++ raw))
  | EBoth r_both sr_left sr_right _ =>
      let result := result ++ r_both in
      if beq sr_left sr_right || beq sr_left SR_empty then Some (Go (result ++ sr_left))
      else if beq sr_right SR_empty then Some (Go (result ++ sr_right))
      else do result <- Paths_union result sr_left sr_right m; Some (Go result)
  | ELeftDone => Some (match result with [] => Ret b | _ => Go result end)
  | ERightDone => Some (match result with [] => Ret a | _ => Go result end)
  | ERest either => Some (Go (result ++ either))
  end.
(** the content of a region present on both sides *)
Local Lemma union_content cl cr bl br str m a b rb lo : content_ok cl -> content_ok cr -> content_bytes cl bl -> content_bytes cr br ->
  exists c bc, content_ok c /\ content_bytes c bc /\
    (forall x, denote c x <-> denote cl x \/ denote cr x) /\
    (match cl, cr with Some ps, Some qs => irredundant ps -> match c with Some rs => irredundant rs | None => True end | _, _ => True end) /\
    (match cl, cr with None, None => c = None | Some _, Some _ => True | _, _ => c = None end) /\
    (cl = cr -> c = cl) /\
    on_union a b m str (EBoth rb bl br lo) = (if (match cl, cr with Some ps, Some qs => if beq bl br then true else match c with Some rs => valid rs m 1 | None => true end | _, _ => true end)
       then Some (Go (str ++ rb ++ bc)) else None) /\
    (match cl, cr, c with Some ps, Some qs, Some rs => (length rs <= length ps + length qs)%nat /\ (forall q, In q rs -> In q ps \/ In q qs) | _, _, _ => True end).
Proof.
  intros okl okr bl1 br1. cbn [on_union].
  destruct (beq bl br) eqn:e1.
  { apply beq_true in e1. subst br. pose proof (content_inj _ _ _ okl okr bl1 br1) as <-. exists cl, bl.
    refine (conj okl (conj bl1 (conj _ (conj _ (conj _ (conj _ (conj _ _))))))); cbn [orb].
    - intros x. tauto.
    - destruct cl; auto.
    - destruct cl; auto.
    - auto.
    - rewrite <- app_assoc. destruct cl; reflexivity.
    - destruct cl; [|exact I]. split; [lia|auto]. }
  cbn [orb]. destruct (beq bl SR_empty) eqn:e2.
  { apply beq_true in e2. apply (content_empty cl bl okl bl1) in e2. subst cl. exists None, bl.
    refine (conj I (conj bl1 (conj _ (conj I (conj _ (conj _ (conj _ I)))))));
      [intros x; cbn; tauto|destruct cr; reflexivity|auto|rewrite <- app_assoc; destruct cr; reflexivity]. }
  destruct (beq br SR_empty) eqn:e3.
  { apply beq_true in e3. apply (content_empty cr br okr br1) in e3. subst cr. exists None, br.
    refine (conj I (conj br1 (conj _ (conj _ (conj _ (conj _ (conj _ _))))))); [intros x; cbn; tauto|destruct cl; auto|destruct cl; auto|intros ->; reflexivity|rewrite <- app_assoc; destruct cl; reflexivity|destruct cl; exact I]. }
  destruct cl as [ps|]; [|cbn in bl1; subst bl; rewrite beq_refl in e2; discriminate].
  destruct cr as [qs|]; [|cbn in br1; subst br; rewrite beq_refl in e3; discriminate].
  destruct okl as [np okp]. destruct okr as [nq okq]. cbn [content_bytes] in *.
  destruct (Paths_union_spec ps qs bl br (str ++ rb) m okp okq bl1 br1 np) as (rs & bs & okr & nr & pr & l & e & c & i & ir).
  exists (Some rs), bs. refine (conj (conj nr okr) (conj pr (conj _ (conj ir (conj I (conj _ (conj _ (conj l i)))))))).
  - intros x. exact (c x).
  - intros eq. injection eq as <-. exfalso. rewrite (paths_bytes_fun _ _ _ bl1 br1), beq_refl in e1. discriminate.
  - rewrite e. destruct (valid rs m 1); cbn [obind]; [|reflexivity]. rewrite <- app_assoc. reflexivity.
Qed.
Local Lemma item_content i : item_ok i -> content_ok (snd (i_g i)).
Proof. intros ((_ & o) & _). destruct (snd (i_g i)); exact o. Qed.
Local Lemma inside_items_before (i : item) L r x : Forall (fun h => before (i_r i) (fst h)) (map i_g L) -> inside (map i_g L) r x -> r <> i_r i.
Proof.
  intros f (c & ii & _) ->. rewrite Forall_forall in f. specialize (f _ ii). cbn in f. exact (before_irrefl _ f).
Qed.
(** Everything the union produces, for items *)
Local Lemma union_items a b m : forall fuel s L R, (length L + length R < fuel)%nat -> Forall item_ok L -> Forall item_ok R ->
  StronglySorted (fun g h => before (fst g) (fst h)) (map i_g L) -> StronglySorted (fun g h => before (fst g) (fst h)) (map i_g R) ->
  (s = [] -> a = ibytes L /\ b = ibytes R) ->
  forall x, amerge (on_union a b m) fuel s L R = Some x ->
  exists C cb, (match x with Go out => out | Ret out => out end) = s ++ cb /\ lifetime_bytes C cb /\ lifetime_ok C /\
    (forall r y, inside C r y <-> inside (map i_g L) r y \/ inside (map i_g R) r y) /\ keeps (map i_g L) (map i_g R) C /\
    (all_irredundant (map i_g L) -> all_irredundant (map i_g R) -> all_irredundant C).
Proof.
  induction fuel as [|f IH]; intros s L R lf okL okR sL sR inv x e; [lia|]. cbn [amerge] in e.
  assert (rest : forall is, Forall item_ok is -> StronglySorted (fun g h => before (fst g) (fst h)) (map i_g is) -> lifetime_bytes (map i_g is) (ibytes is) /\ lifetime_ok (map i_g is)).
  { intros is o st. split; [apply items_bytes, o|]. split; [|exact st]. clear - o. induction o as [|i is [o _] f IH]; cbn; [constructor|constructor; assumption]. }
  destruct L as [|il L].
  { exists (map i_g R), (ibytes R). destruct (rest R okR sR) as [r1 r2]. refine (conj _ (conj r1 (conj r2 (conj _ (conj _ _))))).
    - unfold finish in e. cbn [on_union obind] in e. destruct s as [|z s].
      + cbn [obind] in e. injection e as <-. apply inv. reflexivity.
      + cbn [obind] in e. injection e as <-. reflexivity.
    - intros r y. cbn [map]. pose proof (inside_nil r y). tauto.
    - intros g i. exists g. auto.
    - auto. }
  destruct R as [|ir R].
  { exists (map i_g (il :: L)), (ibytes (il :: L)). destruct (rest (il :: L) okL sL) as [r1 r2]. refine (conj _ (conj r1 (conj r2 (conj _ (conj _ _))))).
    - unfold finish in e. cbn [on_union obind] in e. destruct s as [|z s].
      + cbn [obind] in e. injection e as <-. apply inv. reflexivity.
      + cbn [obind] in e. injection e as <-. reflexivity.
    - intros r y. pose proof (inside_nil r y). cbn [map] in *. tauto.
    - intros g i. exists g. rewrite app_nil_r. auto.
    - auto. }
  inversion_clear okL as [|? ? okl okL']. inversion_clear okR as [|? ? okr okR'].
  cbn [map] in sL, sR. apply ss_tail in sL. destruct sL as [sL bL]. apply ss_tail in sR. destruct sR as [sR bR].
  fold (i_r il) in bL. fold (i_r ir) in bR.
  (* a step that writes one region, then goes on *)
  assert (step : forall s' g gb L' R', s' = s ++ gb -> gb <> [] -> region_ok g -> (exists br bc, gb = br ++ bc /\ num7 (fst g) br /\ content_bytes (snd g) bc) ->
    amerge (on_union a b m) f s' L' R' = Some x -> (length L' + length R' < f)%nat -> Forall item_ok L' -> Forall item_ok R' ->
    StronglySorted (fun g h => before (fst g) (fst h)) (map i_g L') -> StronglySorted (fun g h => before (fst g) (fst h)) (map i_g R') ->
    Forall (fun h => before (fst g) (fst h)) (map i_g L' ++ map i_g R') ->
    (forall r y, (fst g = r /\ denote (snd g) y) \/ inside (map i_g L') r y \/ inside (map i_g R') r y <-> inside (map i_g (il :: L)) r y \/ inside (map i_g (ir :: R)) r y) ->
    (forall h, In h (g :: map i_g L' ++ map i_g R') -> exists g', In g' (map i_g (il :: L) ++ map i_g (ir :: R)) /\ fst g' = fst h) ->
    (all_irredundant (map i_g (il :: L)) -> all_irredundant (map i_g (ir :: R)) -> all_irredundant [g] /\ all_irredundant (map i_g L') /\ all_irredundant (map i_g R')) ->
    exists C cb, (match x with Go out => out | Ret out => out end) = s ++ cb /\ lifetime_bytes C cb /\ lifetime_ok C /\
    (forall r y, inside C r y <-> inside (map i_g (il :: L)) r y \/ inside (map i_g (ir :: R)) r y) /\ keeps (map i_g (il :: L)) (map i_g (ir :: R)) C /\
    (all_irredundant (map i_g (il :: L)) -> all_irredundant (map i_g (ir :: R)) -> all_irredundant C)).
  { intros s' g gb L' R' -> ng okg (br & bc & eg & n1 & n2) e' lf' oL oR stL stR bef den kp irr.
    destruct (IH (s ++ gb) L' R' lf' oL oR stL stR) with (x := x) as (C & cb & e1 & lb & (okC & sC) & insC & kC & irC); [|exact e'|].
    { intros z. exfalso. apply app_eq_nil in z. tauto. }
    exists (g :: C), (gb ++ cb). refine (conj _ (conj _ (conj _ (conj _ (conj _ _))))).
    - rewrite e1, <- app_assoc. reflexivity.
    - rewrite eg, <- app_assoc. destruct g as [gr gc]. constructor; assumption.
    - split; [constructor; assumption|]. constructor; [exact sC|]. rewrite Forall_forall. intros h ih. destruct (kC h ih) as (g' & ig & eq).
      rewrite Forall_forall in bef. specialize (bef g' ig). cbn in bef. rewrite eq in bef. exact bef.
    - intros r y. rewrite inside_cons, insC. apply den.
    - intros h [<-|ih]; [apply kp; left; reflexivity|]. destruct (kC h ih) as (g' & ig & eq).
      destruct (kp g' (or_intror ig)) as (g2 & i2 & e2). exists g2. split; [exact i2|]. congruence.
    - intros i1 i2. destruct (irr i1 i2) as (j1 & j2 & j3). unfold all_irredundant in *. inversion_clear j1. constructor; [assumption|]. apply irC; assumption. }
  cbv zeta in e. cbn [length] in lf.
  destruct (LifetimeMerge.cmp_cases (i_r il) (i_r ir)) as [[c eq]|[[c bef]|[c bef]]]; rewrite c in e; cbn [Z.eqb Z.ltb Z.compare] in e.
  - (* both *)
    destruct (union_content (snd (i_g il)) (snd (i_g ir)) (i_bc il) (i_bc ir) s m a b (i_br il) (unpackLocid (i_r ir))) as (cc & bc & okc & bcb & dn & irr & _ & _ & on & _);
      [apply item_content, okl|apply item_content, okr|apply okl|apply okr|].
    rewrite on in e. match type of e with context [if ?t then _ else _] => destruct t end; [|discriminate]. cbn [obind] in e.
    apply (step (s ++ i_br il ++ bc) (i_r il, cc) (i_br il ++ bc) L R); auto; try lia.
    + destruct okl as (_ & n & _). apply num7_nonempty in n. destruct (i_br il); [congruence|discriminate].
    + split; [apply okl|]. cbn [snd]. destruct cc; [exact okc|exact I].
    + exists (i_br il), bc. refine (conj eq_refl (conj _ bcb)). apply okl.
    + apply Forall_app. split; [exact bL|]. cbn [fst]. rewrite eq. exact bR.
    + intros r y. cbn [map]. rewrite !inside_cons. cbn [fst snd]. fold (i_r il) (i_r ir). rewrite dn. rewrite <- eq. tauto.
    + intros h [<-|ih]; [exists (i_g il); split; [left; reflexivity|reflexivity]|]. exists h. split; [|reflexivity]. apply in_app_or in ih. apply in_or_app. destruct ih; [left; right; assumption|right; right; assumption].
    + intros i1 i2. unfold all_irredundant in *. inversion_clear i1 as [|? ? j1 j2]. inversion_clear i2 as [|? ? k1 k2]. refine (conj _ (conj j2 k2)). constructor; [|constructor]. cbn [snd].
      destruct (snd (i_g il)) as [ps|] eqn:e1, (snd (i_g ir)) as [qs|] eqn:e2; [apply irr, j1| | |].
      * destruct cc as [rs|]; [|exact I]. exfalso. specialize (dn []). cbn [denote] in dn. destruct dn as [_ dn]. destruct (dn (or_intror I)) as (p & ip & cp).
        destruct okc as [_ okc]. rewrite Forall_forall in okc. specialize (okc p ip). destruct p; [destruct okc|destruct cp].
      * destruct cc as [rs|]; [|exact I]. exfalso. specialize (dn []). cbn [denote] in dn. destruct dn as [_ dn]. destruct (dn (or_introl I)) as (p & ip & cp).
        destruct okc as [_ okc]. rewrite Forall_forall in okc. specialize (okc p ip). destruct p; [destruct okc|destruct cp].
      * destruct cc as [rs|]; [|exact I]. exfalso. specialize (dn []). cbn [denote] in dn. destruct dn as [_ dn]. destruct (dn (or_introl I)) as (p & ip & cp).
        destruct okc as [_ okc]. rewrite Forall_forall in okc. specialize (okc p ip). destruct p; [destruct okc|destruct cp].
  - (* left first *)
    cbn [on_union obind] in e. apply (step (s ++ i_all il) (i_g il) (i_all il) L (ir :: R)); auto.
    + apply item_nonempty, okl.
    + apply okl.
    + exists (i_br il), (i_bc il). refine (conj eq_refl (conj _ _)); apply okl.
    + cbn [length]. lia.
    + cbn [map]. constructor; assumption.
    + apply Forall_app. split; [exact bL|]. cbn [map]. constructor; [exact bef|]. eapply Forall_impl; [|exact bR]. intros h. apply before_trans, bef.
    + intros r y. cbn [map]. rewrite !inside_cons. tauto.
    + intros h [<-|ih]; [exists (i_g il); split; [left; reflexivity|reflexivity]|]. exists h. split; [|reflexivity]. apply in_app_or in ih. apply in_or_app. destruct ih; [left; right; assumption|right; assumption].
    + intros i1 i2. unfold all_irredundant in *. cbn [map] in i1. inversion_clear i1 as [|? ? j1 j2]. refine (conj _ (conj j2 i2)). constructor; [exact j1|constructor].
  - (* right first *)
    cbn [on_union obind] in e. apply (step (s ++ i_all ir) (i_g ir) (i_all ir) (il :: L) R); auto.
    + apply item_nonempty, okr.
    + apply okr.
    + exists (i_br ir), (i_bc ir). refine (conj eq_refl (conj _ _)); apply okr.
    + cbn [length]. lia.
    + cbn [map]. constructor; assumption.
    + cbn [map]. apply Forall_app. split; [|exact bR]. constructor; [exact bef|]. eapply Forall_impl; [|exact bL]. intros h. apply before_trans, bef.
    + intros r y. cbn [map]. rewrite !inside_cons. tauto.
    + intros h [<-|ih]; [exists (i_g ir); split; [apply in_or_app; right; left; reflexivity|reflexivity]|]. exists h. split; [|reflexivity]. apply in_app_or in ih. apply in_or_app. destruct ih; [left; assumption|right; right; assumption].
    + intros i1 i2. unfold all_irredundant in *. cbn [map] in i2. inversion_clear i2 as [|? ? j1 j2]. refine (conj _ (conj i1 j2)). constructor; [exact j1|constructor].
Qed.

(** Union: the result is again a lifetime, its places are those of the one and those of the other; it names no region
    that was not there; and no path within another one, if there were none before. *)
Theorem lifetime_union_is_union : forall a A b B m c, is_lifetime a A -> is_lifetime b B -> Lifetime_union a b m = Some c ->
  exists C, is_lifetime c C /\ (forall r x, inside C r x <-> inside A r x \/ inside B r x) /\
    (forall g, In g C -> exists g', In g' (A ++ B) /\ fst g' = fst g) /\
    (all_irredundant A -> all_irredundant B -> all_irredundant C).
Proof.
  intros a A b B m c (la & oka & sa) (lb & okb & sb) e.
  destruct (items_of A a oka la) as (L & <- & <- & oL). destruct (items_of B b okb lb) as (R & <- & <- & oR).
  unfold Lifetime_union in e. apply obindE in e. destruct e as (x & e & ex).
  destruct (merge_amerge (on_union (ibytes L) (ibytes R) m) [] L R oL oR) as (fuel & lf & em).
  change (merge _ (ibytes L) (ibytes R) []) with (merge (on_union (ibytes L) (ibytes R) m) (ibytes L) (ibytes R) []) in e.
  rewrite em in e. destruct (union_items (ibytes L) (ibytes R) m fuel [] L R lf oL oR sa sb (fun _ => conj eq_refl eq_refl) x e) as (C & cb & e1 & l1 & o1 & i1 & k1 & ir).
  exists C. refine (conj _ (conj i1 (conj k1 ir))). split; [|exact o1]. assert (c = cb) as -> by (destruct x; cbn in ex; injection ex as <-; exact e1). exact l1.
Qed.
Print Assumptions lifetime_union_is_union.

(** It is there unless the paths into a common region get too many (64), too deep or, where that is not allowed, differ
    in size. *)
Theorem lifetime_union_is_total : forall a A b B m, is_lifetime a A -> is_lifetime b B ->
  (forall r ps qs, In (r, Some ps) A -> In (r, Some qs) B ->
     (length ps + length qs <= 64)%nat /\ Forall (fun p => (length p <= 64)%nat) (ps ++ qs) /\ (m = true \/ same_size (ps ++ qs))) ->
  exists c, Lifetime_union a b m = Some c.
Proof.
  intros a A b B m (la & oka & sa) (lb & okb & sb) h.
  destruct (items_of A a oka la) as (L & <- & <- & oL). destruct (items_of B b okb lb) as (R & <- & <- & oR).
  unfold Lifetime_union. destruct (merge_amerge (on_union (ibytes L) (ibytes R) m) [] L R oL oR) as (fuel & lf & em).
  change (merge _ (ibytes L) (ibytes R) []) with (merge (on_union (ibytes L) (ibytes R) m) (ibytes L) (ibytes R) []).
  rewrite em. generalize (ibytes L) as a, (ibytes R) as b. intros a b. clear em la lb oka okb.
  assert (g : exists x, amerge (on_union a b m) fuel [] L R = Some x).
  { generalize (@nil Z) as s. revert L R lf oL oR sa sb h.
    induction fuel as [|f IH]; intros L R lf oL oR sa sb h s; [lia|]. cbn [amerge].
    destruct L as [|il L]; [unfold finish; cbn [on_union obind]; destruct s; cbn [obind on_union]; eauto|].
    destruct R as [|ir R]; [unfold finish; cbn [on_union obind]; destruct s; cbn [obind on_union]; eauto|].
    inversion_clear oL as [|? ? okl oL']. inversion_clear oR as [|? ? okr oR']. cbn [map] in sa, sb, h. cbn [length] in lf. cbv zeta.
    pose proof (ss_tail _ _ sa) as [sa' _]. pose proof (ss_tail _ _ sb) as [sb' _].
    destruct (LifetimeMerge.cmp_cases (i_r il) (i_r ir)) as [[c eq]|[[c _]|[c _]]]; rewrite c; cbn [Z.eqb Z.ltb Z.compare].
    - destruct (union_content (snd (i_g il)) (snd (i_g ir)) (i_bc il) (i_bc ir) s m a b (i_br il) (unpackLocid (i_r ir))) as (cc & bc & okc & bcb & dn & _ & _ & _ & on & sz);
        [apply item_content, okl|apply item_content, okr|apply okl|apply okr|].
      rewrite on.
      assert (v : match snd (i_g il), snd (i_g ir) with Some ps, Some qs => if beq (i_bc il) (i_bc ir) then true else match cc with Some rs => valid rs m 1 | None => true end | _, _ => true end = true).
      { destruct (i_g il) as [rl cl] eqn:el, (i_g ir) as [rr cr] eqn:er. unfold i_r in eq. rewrite el, er in eq. cbn [fst snd] in *. subst rr.
        destruct cl as [ps|], cr as [qs|]; try reflexivity. destruct (beq _ _); [reflexivity|]. destruct cc as [rs|]; [|reflexivity].
        destruct (h rl ps qs (or_introl eq_refl) (or_introl eq_refl)) as (h1 & h2 & h3). destruct sz as [sz1 sz2]. destruct okc as [_ okc].
        apply valid_true; [lia| |].
        - rewrite Forall_forall in *. intros p i. split; [apply h2, in_or_app, sz2, i|apply path_depth, okc, i].
        - destruct h3 as [h3|[n h3]]; [auto|right; exists n]. rewrite Forall_forall in *. intros p i. apply h3, in_or_app, sz2, i. }
      rewrite v. cbn [obind]. apply IH; auto; [lia|]. intros r ps qs i1 i2. apply (h r); right; assumption.
    - cbn [on_union obind]. apply IH; auto; [cbn [length]; lia|]. intros r ps qs i1 i2. apply (h r); [right|]; assumption.
    - cbn [on_union obind]. apply IH; auto; [cbn [length]; lia|]. intros r ps qs i1 i2. apply (h r); [|right]; assumption. }
  destruct g as [x ->]. cbn [obind]. destruct x; eauto.
Qed.
Print Assumptions lifetime_union_is_total.

(** The laws of a join: idempotent to the byte; with nothing on one side, the other; commutative and associative as
    far as places go. *)
Theorem lifetime_union_idempotent : forall a A m, is_lifetime a A -> Lifetime_union a a m = Some a.
Proof.
  intros a A m (la & oka & sa). destruct (items_of A a oka la) as (L & <- & <- & oL).
  unfold Lifetime_union. destruct (merge_amerge (on_union (ibytes L) (ibytes L) m) [] L L oL oL) as (fuel & lf & em).
  change (merge _ (ibytes L) (ibytes L) []) with (merge (on_union (ibytes L) (ibytes L) m) (ibytes L) (ibytes L) []).
  rewrite em. clear em la oka sa. generalize (eq_refl : ibytes L = [] ++ ibytes L). generalize (ibytes L) at 1 3 4 5 as a.
  generalize (@nil Z) as s. revert fuel lf oL. induction L as [|i L IH]; intros fuel lf oL s a ea; (destruct fuel as [|f]; [lia|]); cbn [amerge].
  - unfold finish. cbn [on_union obind]. destruct s; cbn [obind on_union]; rewrite ea; reflexivity.
  - inversion_clear oL as [|? ? ok oL']. cbv zeta.
    destruct (LifetimeMerge.cmp_cases (i_r i) (i_r i)) as [[c _]|[[_ b]|[_ b]]]; try (exfalso; exact (before_irrefl _ b)). rewrite c. cbn [Z.eqb on_union].
    rewrite beq_refl. cbn [orb obind]. apply IH; [cbn [length] in lf; lia|exact oL'|].
    rewrite ea. unfold ibytes. cbn [map concat]. unfold i_all. rewrite <- !app_assoc. reflexivity.
Qed.
Print Assumptions lifetime_union_idempotent.
Theorem lifetime_union_empty : forall b m, Lifetime_union [] b m = Some b /\ forall B, is_lifetime b B -> Lifetime_union b [] m = Some b.
Proof.
  intros b m. split; [reflexivity|]. intros B (lb & okb & sb). destruct (items_of B b okb lb) as (R & <- & <- & oR).
  unfold Lifetime_union. destruct (merge_amerge (on_union (ibytes R) [] m) [] R [] oR (Forall_nil _)) as (fuel & lf & em).
  change (merge _ (ibytes R) [] []) with (merge (on_union (ibytes R) [] m) (ibytes R) (ibytes []) []). rewrite em.
  destruct fuel as [|f]; [lia|]. destruct R; reflexivity.
Qed.
Print Assumptions lifetime_union_empty.
(** Adding a lifetime to another: the places of both; adding nothing changes nothing *)
Theorem lifetime_add_is_union : forall a A b B m c, is_lifetime a A -> is_lifetime b B -> Lifetime_add a b m = Some c ->
  (b = [] -> c = a) /\ exists C, is_lifetime c C /\ (forall r x, inside C r x <-> inside A r x \/ inside B r x).
Proof.
  intros a A b B m c ha hb e.
  assert (u : Lifetime_union a b m = Some c).
  { destruct b; [|exact e]. cbn in e. injection e as <-. exact (proj2 (lifetime_union_empty a m) A ha). }
  split.
  - intros ->. cbn in e. congruence.
  - destruct (lifetime_union_is_union a A b B m c ha hb u) as (C & hc & ic & _). exists C. auto.
Qed.
Print Assumptions lifetime_add_is_union.
Theorem lifetime_union_commutes : forall a A b B m m' c d, is_lifetime a A -> is_lifetime b B ->
  Lifetime_union a b m = Some c -> Lifetime_union b a m' = Some d ->
  exists C D, is_lifetime c C /\ is_lifetime d D /\ forall r x, inside C r x <-> inside D r x.
Proof.
  intros a A b B m m' c d ha hb e1 e2.
  destruct (lifetime_union_is_union a A b B m c ha hb e1) as (C & hc & ic & _).
  destruct (lifetime_union_is_union b B a A m' d hb ha e2) as (D & hd & id & _).
  exists C, D. refine (conj hc (conj hd _)). intros r x. rewrite ic, id. tauto.
Qed.
Print Assumptions lifetime_union_commutes.
Theorem lifetime_union_associates : forall a A b B c C m1 m2 m3 m4 ab bc l r, is_lifetime a A -> is_lifetime b B -> is_lifetime c C ->
  Lifetime_union a b m1 = Some ab -> Lifetime_union ab c m2 = Some l ->
  Lifetime_union b c m3 = Some bc -> Lifetime_union a bc m4 = Some r ->
  exists L R, is_lifetime l L /\ is_lifetime r R /\ forall g x, inside L g x <-> inside R g x.
Proof.
  intros a A b B c C m1 m2 m3 m4 ab bc l r ha hb hc e1 e2 e3 e4.
  destruct (lifetime_union_is_union a A b B m1 ab ha hb e1) as (AB & hab & i1 & _).
  destruct (lifetime_union_is_union ab AB c C m2 l hab hc e2) as (L & hl & i2 & _).
  destruct (lifetime_union_is_union b B c C m3 bc hb hc e3) as (BC & hbc & i3 & _).
  destruct (lifetime_union_is_union a A bc BC m4 r ha hbc e4) as (R & hr & i4 & _).
  exists L, R. refine (conj hl (conj hr _)). intros g x. rewrite i2, i1, i4, i3. tauto.
Qed.
Print Assumptions lifetime_union_associates.
(** To the byte they are not: the paths come in another order. *)
Theorem lifetime_union_commutes_refuted : exists a A b B, is_lifetime a A /\ is_lifetime b B /\
  Lifetime_union a b true <> Lifetime_union b a true.
Proof.
  exists [4; 0; 2], [(4, Some [[SR 1 0]])], [4; 2; 2], [(4, Some [[SR 1 1]])].
  assert (n : forall v, 0 <= v < 128 -> num7 v [v]) by (intros; constructor; assumption).
  assert (g : forall o, 0 <= o < 60 -> is_lifetime [4; 2 * o; 2] [(4, Some [[SR 1 o]])]).
  { intros o ho. split.
    - apply (lb_cons 4 (Some [[SR 1 o]]) [] [4] [2 * o; 2] []); [apply n; lia| |constructor]. constructor.
      apply (pb_last true (SR 1 o) [2 * o] [2]); cbn [flatOffset flatCount]; apply n; lia.
    - split; [|repeat constructor]. constructor; [|constructor]. split; [unfold word; cbn [fst]; lia|].
      cbn [snd]. split; [discriminate|]. constructor; [|constructor]. cbn [path_ok]. unfold sub_ok. cbn [flatOffset flatCount]. lia. }
  split; [apply (g 0); lia|]. split; [apply (g 1); lia|]. vm_compute. discriminate.
Qed.
Print Assumptions lifetime_union_commutes_refuted.

(** ** The hypotheses are met: two lifetimes with a common region, several levels, an offset of two bytes, and regions
    that only the one has. *)
Definition ex_A : list region := [(8, Some [[SR 1 3; SR 2 0]; [SR 2 100]]); (4, Some [[SR 2 0]]); (1, None)].
Definition ex_a : list Z := [8; 7; 0; 5; 200; 1; 4;  4; 0; 4;  1; 0; 0].
Definition ex_B : list region := [(9, None); (8, Some [[SR 1 3]; [SR 1 5]]); (1, None)].
Definition ex_b : list Z := [9; 0; 0;  8; 6; 3; 10; 2;  1; 0; 0].
Ltac n1 := apply num7_last; cbn [flatOffset flatCount]; lia.
Ltac ok_sub := unfold sub_ok; cbn [flatOffset flatCount]; lia.
Ltac ok_p := cbn [path_ok]; first [ok_sub|refine (conj _ (conj eq_refl _)); [ok_sub|ok_p]].
Ltac ok_r := split; [unfold word; cbn [fst]; lia|cbn [snd]; first [exact I|split; [discriminate|repeat (constructor; [ok_p|]); constructor]]].
Ltac ok_s := unfold ex_A, ex_B; repeat first [apply SSorted_cons|apply SSorted_nil|apply Forall_cons|apply Forall_nil]; cbn [fst];
  first [left; reflexivity|right; split; reflexivity].
Example ex_lifetimes : is_lifetime ex_a ex_A /\ is_lifetime ex_b ex_B.
Proof.
  assert (c200 : num7 (2 * 100) [200; 1]) by (apply (num7_more 200); [lia|apply (num7_last (200 / 128)); vm_compute; split; [discriminate|reflexivity]]).
  split; split.
  - apply (lb_cons 8 _ _ [8] [7; 0; 5; 200; 1; 4] [4; 0; 4; 1; 0; 0]); [n1| |].
    + apply (psb_more _ _ [7; 0; 5] [200; 1; 4]).
      * apply (pb_more false (SR 1 3) [SR 2 0] [7] [0; 5]); [n1|]. apply (pb_last false (SR 2 0) [0] [5]); n1.
      * constructor. apply (pb_last true (SR 2 100) [200; 1] [4]); [exact c200|n1].
    + apply (lb_cons 4 _ _ [4] [0; 4] [1; 0; 0]); [n1| |].
      * constructor. apply (pb_last true (SR 2 0) [0] [4]); n1.
      * apply (lb_cons 1 None [] [1] [0; 0] []); [n1|reflexivity|constructor].
  - split; [repeat (constructor; [ok_r|]); constructor|]. ok_s.
  - apply (lb_cons 9 None _ [9] [0; 0] [8; 6; 3; 10; 2; 1; 0; 0]); [n1|reflexivity|].
    apply (lb_cons 8 _ _ [8] [6; 3; 10; 2] [1; 0; 0]); [n1| |].
    + apply (psb_more _ _ [6; 3] [10; 2]); [apply (pb_last false (SR 1 3) [6] [3]); n1|]. constructor. apply (pb_last true (SR 1 5) [10] [2]); n1.
    + apply (lb_cons 1 None [] [1] [0; 0] []); [n1|reflexivity|constructor].
  - split; [repeat (constructor; [ok_r|]); constructor|]. ok_s.
Qed.
(** Their union: what is reached through slot 3 is all there. *)
Example ex_union : Lifetime_union ex_a ex_b true = Some [9; 0; 0;  8; 200; 1; 5; 6; 3; 10; 2;  4; 0; 4;  1; 0; 0].
Proof. vm_compute. reflexivity. Qed.
Example ex_round_trip : appendPaths [77] [[SR 1 3; SR 2 0]; [SR 4 100]] false true = Some [77; 7; 0; 5; 200; 1; 8]
  /\ parsePaths [7; 0; 5; 200; 1; 8] = Some [[SR 1 3; SR 2 0]; [SR 4 100]].
Proof. split; vm_compute; reflexivity. Qed.
