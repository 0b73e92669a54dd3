(** C50, C51: what two lifetimes have in common (src/lifetime.fu). *)
From Verif Require Import LifetimeSpec LifetimeProofs LifetimeSem LifetimeMerge LifetimeInter LifetimeProps CommonLemmas WordsLemmas.
Open Scope Z_scope.

(** ** C50: intersection *)
Local Definition on_inter (result : list Z) (e : ev) : option (act (list Z) (list Z)) :=
  match e with
  | EBoth r_both sr_left sr_right _ =>
      if beq sr_left sr_right || beq sr_right SR_empty then Some (Go (result ++ r_both ++ sr_left))
      else if beq sr_left SR_empty then Some (Go (result ++ r_both ++ sr_right))
      else do inter <- Paths_inter [] sr_left sr_right;
           Some (Go (match inter with [] => result | _ => result ++ r_both ++ inter end))
  | _ => Some (Go result)
  end.
Definition can_inter (ps qs : list path) : Prop := ps = qs \/ lonely (list_prod ps qs) /\ lonely (list_prod qs ps).
Local Lemma inter_content cl cr bl br str rb lo q : content_ok cl -> content_ok cr -> content_bytes cl bl -> content_bytes cr br ->
  match cl, cr with Some ps, Some qs => can_inter ps qs | _, _ => True end ->
  on_inter str (EBoth rb bl br lo) = Some q ->
  exists c, match c with
    | None => q = Go str /\ forall x, ~ (denote cl x /\ denote cr x)
    | Some c => exists bc, q = Go (str ++ rb ++ bc) /\ content_ok c /\ content_bytes c bc /\ forall x, denote c x <-> denote cl x /\ denote cr x
    end.
Proof.
  intros okl okr bl1 br1 ci e. cbn [on_inter] in e. destruct (beq bl br) eqn:e1.
  { cbn [orb] in e. injection e as <-. apply beq_true in e1. subst br. pose proof (content_inj _ _ _ okl okr bl1 br1) as <-.
    exists (Some cl), bl. refine (conj eq_refl (conj okl (conj bl1 _))). intros x. tauto. }
  cbn [orb] in e. destruct (beq br SR_empty) eqn:e2.
  { injection e as <-. apply beq_true in e2. apply (content_empty cr br okr br1) in e2. subst cr. exists (Some cl), bl.
    refine (conj eq_refl (conj okl (conj bl1 _))). intros x. cbn. tauto. }
  destruct (beq bl SR_empty) eqn:e3.
  { injection e as <-. apply beq_true in e3. apply (content_empty cl bl okl bl1) in e3. subst cl. exists (Some cr), br.
    refine (conj eq_refl (conj okr (conj br1 _))). intros x. cbn. tauto. }
  destruct cl as [ps|]; [|cbn in bl1; subst bl; rewrite beq_refl in e3; discriminate].
  destruct cr as [qs|]; [|cbn in br1; subst br; rewrite beq_refl in e2; discriminate].
  destruct okl as [np okp]. destruct okr as [nq okq]. cbn [content_bytes] in *.
  destruct ci as [->|[l1 l2]]; [exfalso; rewrite (paths_bytes_fun _ _ _ bl1 br1), beq_refl in e1; discriminate|].
  apply obindE in e. destruct e as (out & e & eq). destruct (Paths_inter_spec ps qs bl br out okp okq bl1 br1 l1 l2 e) as (rs & h1 & h2 & h3).
  injection eq as <-. destruct h1 as [[-> ->]|[nr pr]].
  - exists None. split; [reflexivity|]. intros x [d1 d2]. apply (covered_nil x). apply h3. auto.
  - exists (Some (Some rs)), out. refine (conj _ (conj (conj nr h2) (conj pr h3))). destruct out; [|reflexivity].
    apply paths_bytes_len in pr. destruct rs; [congruence|cbn in pr; lia].
Qed.
Local Lemma item_content i : item_ok i -> content_ok (snd (i_g i)).
Proof. intros ((_ & o) & _). destruct (snd (i_g i)); exact o. Qed.
Local Lemma ss_tail (L : list region) g : StronglySorted (fun g h => before (fst g) (fst h)) (g :: L) ->
  StronglySorted (fun g h => before (fst g) (fst h)) L /\ Forall (fun h => before (fst g) (fst h)) L.
Proof. intros h. inversion h; auto. Qed.
Local Lemma not_inside (g : Z) (L : list region) x : Forall (fun h => before g (fst h)) L -> ~ inside L g x.
Proof. intros f (c & i & _). rewrite Forall_forall in f. exact (before_irrefl _ (f _ i)). Qed.
Local Lemma inter_items : forall fuel s L R, (length L + length R < fuel)%nat -> Forall item_ok L -> Forall item_ok R ->
  StronglySorted (fun g h => before (fst g) (fst h)) (map i_g L) -> StronglySorted (fun g h => before (fst g) (fst h)) (map i_g R) ->
  (forall r ps qs, In (r, Some ps) (map i_g L) -> In (r, Some qs) (map i_g R) -> can_inter ps qs) ->
  forall x, amerge on_inter fuel s L R = Some x ->
  exists C cb, x = Go (s ++ cb) /\ lifetime_bytes C cb /\ Forall region_ok C /\ StronglySorted (fun g h => before (fst g) (fst h)) C /\
    (forall g, In g C -> exists h, In h (map i_g L) /\ fst h = fst g) /\
    (forall r y, inside C r y <-> inside (map i_g L) r y /\ inside (map i_g R) r y).
Proof.
  induction fuel as [|f IH]; intros s L R lf okL okR sL sR ci x e; [lia|]. cbn [amerge] in e.
  assert (nil : x = Go s -> (forall r y, ~ (inside (map i_g L) r y /\ inside (map i_g R) r y)) -> exists C cb, x = Go (s ++ cb) /\ lifetime_bytes C cb /\ Forall region_ok C /\ StronglySorted (fun g h => before (fst g) (fst h)) C /\
    (forall g, In g C -> exists h, In h (map i_g L) /\ fst h = fst g) /\
    (forall r y, inside C r y <-> inside (map i_g L) r y /\ inside (map i_g R) r y)).
  { intros -> n. exists [], []. rewrite app_nil_r. refine (conj eq_refl (conj lb_nil (conj (Forall_nil _) (conj (SSorted_nil _) (conj _ _))))); [intros g []|].
    intros r y. pose proof (inside_nil r y). pose proof (n r y). tauto. }
  destruct L as [|il L].
  { unfold finish in e. cbn [on_inter obind] in e. apply nil; [congruence|]. intros r y [h _]. exact (inside_nil _ _ h). }
  destruct R as [|ir R].
  { unfold finish in e. cbn [on_inter obind] in e. apply nil; [congruence|]. intros r y [_ h]. exact (inside_nil _ _ h). }
  clear nil. apply Forall_cons_iff in okL, okR. destruct okL as [okl okL], okR as [okr okR]. cbn [map length] in *.
  pose proof (ss_tail _ _ sL) as [sL' bL]. pose proof (ss_tail _ _ sR) as [sR' bR]. fold (i_r il) in bL. fold (i_r ir) in bR.
  destruct (LifetimeMerge.cmp_cases (i_r il) (i_r ir)) as [[c eq]|[[c bef]|[c bef]]]; rewrite c in e; cbn [Z.eqb Z.ltb Z.compare] in e.
  - apply obindE in e. destruct e as (q & e1 & e2).
    destruct (inter_content (snd (i_g il)) (snd (i_g ir)) (i_bc il) (i_bc ir) s (i_br il) (unpackLocid (i_r ir)) q) as (cc & h);
      [apply item_content, okl|apply item_content, okr|apply okl|apply okr| |exact e1|].
    { destruct (i_g il) as [rl cl] eqn:el, (i_g ir) as [rr cr] eqn:er. unfold i_r in eq. rewrite el, er in eq. cbn [fst snd] in *. subst rr.
      destruct cl as [ps|], cr as [qs|]; auto. apply (ci rl); left; reflexivity. }
    assert (inr : forall r y, inside (i_g il :: map i_g L) r y /\ inside (i_g ir :: map i_g R) r y <->
      (i_r il = r /\ denote (snd (i_g il)) y /\ denote (snd (i_g ir)) y) \/ (inside (map i_g L) r y /\ inside (map i_g R) r y)).
    { intros r y. rewrite !inside_cons. fold (i_r il). fold (i_r ir). rewrite <- eq. pose proof (not_inside (i_r il) _ y bL). pose proof (not_inside (i_r ir) _ y bR) as k. rewrite <- eq in k.
      split; [intros [[[a1 a]|a] [[a2 b]|b]]; try subst r; tauto|intros [[a1 [a b]]|[a b]]; tauto]. }
    destruct cc as [cc|].
    + destruct h as (bc & -> & okc & bcb & dn). destruct (IH (s ++ i_br il ++ bc) L R ltac:(lia) okL okR sL' sR') with (x := x) as (C & cb & e3 & lb & okC & sC & kC & iC); [|exact e2|].
      { intros r ps qs i1 i2. apply (ci r); right; assumption. }
      exists ((i_r il, cc) :: C), (i_br il ++ bc ++ cb). refine (conj _ (conj _ (conj _ (conj _ (conj _ _))))).
      * rewrite e3. f_equal. rewrite <- !app_assoc. reflexivity.
      * constructor; [apply okl|exact bcb|exact lb].
      * constructor; [|exact okC]. split; [apply okl|]. destruct cc; exact okc.
      * constructor; [exact sC|]. apply Forall_forall. intros g i. destruct (kC g i) as (h & ih & eh). rewrite Forall_forall in bL. specialize (bL h ih). cbn [fst]. rewrite <- eh. exact bL.
      * intros g [<-|i]; [exists (i_g il); split; [left; reflexivity|reflexivity]|]. destruct (kC g i) as (h & ih & eh). exists h. split; [right; exact ih|exact eh].
      * intros r y. cbn [map]. rewrite inr, inside_cons, iC. cbn [fst snd]. rewrite dn. tauto.
    + destruct h as (-> & dn). destruct (IH s L R ltac:(lia) okL okR sL' sR') with (x := x) as (C & cb & e3 & lb & okC & sC & kC & iC); [|exact e2|].
      { intros r ps qs i1 i2. apply (ci r); right; assumption. }
      exists C, cb. refine (conj e3 (conj lb (conj okC (conj sC (conj _ _))))).
      * intros g i. destruct (kC g i) as (h & ih & eh). exists h. split; [right; exact ih|exact eh].
      * intros r y. cbn [map]. rewrite inr, iC. specialize (dn y). tauto.
  - cbn [on_inter obind] in e. destruct (IH s L (ir :: R) ltac:(cbn [length]; lia) okL) with (x := x) as (C & cb & e3 & lb & okC & sC & kC & iC); auto.
    { intros r ps qs i1 i2. apply (ci r); [right|]; assumption. }
    exists C, cb. refine (conj e3 (conj lb (conj okC (conj sC (conj _ _))))).
    + intros g i. destruct (kC g i) as (h & ih & eh). exists h. split; [right; exact ih|exact eh].
    + intros r y. rewrite iC. cbn [map]. rewrite (inside_cons (i_g il)). split; [tauto|]. intros [[[h _]|h] k]; [exfalso|tauto]. subst r.
      apply (not_inside (i_r il) (i_g ir :: map i_g R) y); [|exact k]. constructor; [exact bef|]. eapply Forall_impl; [|exact bR]. intros g. apply before_trans, bef.
  - cbn [on_inter obind] in e. destruct (IH s (il :: L) R ltac:(cbn [length]; lia)) with (x := x) as (C & cb & e3 & lb & okC & sC & kC & iC); auto.
    { intros r ps qs i1 i2. apply (ci r); [|right]; assumption. }
    exists C, cb. refine (conj e3 (conj lb (conj okC (conj sC (conj kC _))))).
    intros r y. rewrite iC. cbn [map]. rewrite (inside_cons (i_g ir)). split; [tauto|]. intros [k [[h _]|h]]; [exfalso|tauto]. subst r.
    apply (not_inside (i_r ir) (i_g il :: map i_g L) y); [|exact k]. constructor; [exact bef|]. eapply Forall_impl; [|exact bL]. intros g. apply before_trans, bef.
Qed.
(** The full claim: the places of the result are those in both.  It holds if, comparing the paths into a common region
    pair by pair in the order the code takes, no two pairs in a row meet (or the paths are the same); without, it is
    refuted below. *)
Theorem lifetime_inter_is_intersection_partial : forall a A b B c, is_lifetime a A -> is_lifetime b B ->
  (forall r ps qs, In (r, Some ps) A -> In (r, Some qs) B -> can_inter ps qs) ->
  Lifetime_inter a b = Some c ->
  exists C, is_lifetime c C /\ forall r x, inside C r x <-> inside A r x /\ inside B r x.
Proof.
  intros a A b B c (la & oka & sa) (lb & okb & sb) ci e.
  destruct (items_of A a oka la) as (L & <- & <- & oL). destruct (items_of B b okb lb) as (R & <- & <- & oR).
  unfold Lifetime_inter in e. apply obindE in e. destruct e as (x & e & ex).
  destruct (merge_amerge on_inter [] L R oL oR) as (fuel & lf & em).
  change (merge _ (ibytes L) (ibytes R) []) with (merge on_inter (ibytes L) (ibytes R) []) in e. rewrite em in e.
  destruct (inter_items fuel [] L R lf oL oR sa sb ci x e) as (C & cb & -> & l1 & o1 & s1 & _ & i1).
  injection ex as <-. exists C. split; [split; [exact l1|split; assumption]|exact i1].
Qed.
Print Assumptions lifetime_inter_is_intersection_partial.
(** There is a result if in every common region the paths nest or are apart, and there are few of them. *)
Theorem lifetime_inter_is_total_partial : forall a A b B, is_lifetime a A -> is_lifetime b B ->
  (forall r ps qs, In (r, Some ps) A -> In (r, Some qs) B -> can_inter ps qs /\
     (forall p q, In p ps -> In q qs -> within p q \/ within q p \/ ~ meet p q) /\
     (length ps * length qs <= 64)%nat /\ Forall (fun p => (length p <= 64)%nat) (ps ++ qs)) ->
  exists c, Lifetime_inter a b = Some c.
Proof.
  intros a A b B (la & oka & sa) (lb & okb & sb) h.
  destruct (items_of A a oka la) as (L & <- & <- & oL). destruct (items_of B b okb lb) as (R & <- & <- & oR).
  unfold Lifetime_inter. destruct (merge_amerge on_inter [] L R oL oR) as (fuel & lf & em).
  change (merge _ (ibytes L) (ibytes R) []) with (merge on_inter (ibytes L) (ibytes R) []). rewrite em. clear em la lb oka okb sa sb.
  assert (g : exists x, amerge on_inter fuel [] L R = Some x).
  { generalize (@nil Z) as s. revert L R lf oL oR h.
    induction fuel as [|f IH]; intros L R lf oL oR h s; [lia|]. cbn [amerge].
    destruct L as [|il L]; [unfold finish; cbn [on_inter obind]; eauto|].
    destruct R as [|ir R]; [unfold finish; cbn [on_inter obind]; eauto|].
    apply Forall_cons_iff in oL, oR. destruct oL as [okl oL], oR as [okr oR]. cbn [map] in h. cbn [length] in lf. cbv zeta.
    destruct (LifetimeMerge.cmp_cases (i_r il) (i_r ir)) as [[c eq]|[[c _]|[c _]]]; rewrite c; cbn [Z.eqb Z.ltb Z.compare].
    - assert (k : exists q, on_inter s (EBoth (i_br il) (i_bc il) (i_bc ir) (unpackLocid (i_r ir))) = Some (Go q)).
      { cbn [on_inter]. destruct (beq (i_bc il) (i_bc ir)) eqn:e1; [cbn [orb]; eauto|]. cbn [orb]. destruct (beq (i_bc ir) SR_empty) eqn:e2; [eauto|]. destruct (beq (i_bc il) SR_empty) eqn:e3; [eauto|].
        destruct okl as ((_ & ol) & _ & bl1), okr as ((_ & or) & _ & br1). unfold i_r in eq.
        destruct (i_g il) as [rl cl] eqn:el, (i_g ir) as [rr cr] eqn:er. cbn [fst snd] in *. subst rr.
        destruct cl as [ps|]; [|cbn in bl1; rewrite bl1, beq_refl in e3; discriminate].
        destruct cr as [qs|]; [|cbn in br1; rewrite br1, beq_refl in e2; discriminate].
        destruct (h rl ps qs (or_introl eq_refl) (or_introl eq_refl)) as ([->|[l1 l2]] & h2 & h3 & h4).
        { exfalso. cbn in bl1, br1. rewrite (paths_bytes_fun _ _ _ bl1 br1), beq_refl in e1. discriminate. }
        destruct (Paths_inter_total ps qs (i_bc il) (i_bc ir) (proj2 ol) (proj2 or) bl1 br1 l1 l2 h2 h3 h4) as [out ->]. cbn [obind]. eauto. }
      destruct k as [q ->]. cbn [obind]. apply IH; auto; [lia|]. intros r ps qs i1 i2. apply (h r); right; assumption.
    - cbn [on_inter obind]. apply IH; auto; [cbn [length]; lia|]. intros r ps qs i1 i2. apply (h r); [right|]; assumption.
    - cbn [on_inter obind]. apply IH; auto; [cbn [length]; lia|]. intros r ps qs i1 i2. apply (h r); [|right]; assumption. }
  destruct g as [x ->]. cbn [obind]. destruct x; eauto.
Qed.
Print Assumptions lifetime_inter_is_total_partial.
Theorem lifetime_inter_refuted : exists a A b B c, is_lifetime a A /\ is_lifetime b B /\ Lifetime_inter a b = Some c /\
  forall C, is_lifetime c C -> inside A 4 [1] /\ inside B 4 [1] /\ ~ inside C 4 [1].
Proof.
  exists [4; 0; 4], [(4, Some [[SR 2 0]])], [4; 0; 3; 2; 2], [(4, Some [[SR 1 0]; [SR 1 1]])], [4; 0; 2].
  assert (n : forall v, 0 <= v < 128 -> num7 v [v]) by (intros; constructor; assumption).
  refine (conj _ (conj _ (conj _ _))).
  - split.
    + apply (lb_cons 4 _ [] [4] [0; 4] []); [apply n; lia| |constructor]. constructor. apply (pb_last true (SR 2 0) [0] [4]); apply n; cbn; lia.
    + split; [repeat (constructor; [ok_r|]); constructor|repeat constructor].
  - split.
    + apply (lb_cons 4 _ [] [4] [0; 3; 2; 2] []); [apply n; lia| |constructor].
      apply (psb_more _ _ [0; 3] [2; 2]); [apply (pb_last false (SR 1 0) [0] [3]); apply n; cbn; lia|]. constructor. apply (pb_last true (SR 1 1) [2] [2]); apply n; cbn; lia.
    + split; [repeat (constructor; [ok_r|]); constructor|repeat constructor].
  - vm_compute. reflexivity.
  - intros C hC. refine (conj _ (conj _ _)).
    + exists (Some [[SR 2 0]]). split; [left; reflexivity|]. exists [SR 2 0]. split; [left; reflexivity|]. cbn. lia.
    + exists (Some [[SR 1 0]; [SR 1 1]]). split; [left; reflexivity|]. exists [SR 1 1]. split; [right; left; reflexivity|]. cbn. lia.
    + destruct (lifetime_each_visits_the_regions [4; 0; 2] C hC) as (es & e & f).
      assert (ev : Lifetime_each [4; 0; 2] = Some [{| e_r := 4; e_start := 0; e_paths0 := 1; e_end := 3 |}]) by (vm_compute; reflexivity).
      rewrite ev in e. injection e as <-. inversion f as [|? g ? C' [h1 h2] f2]. inversion f2. subst C' C. cbn [e_r] in h1.
      destruct g as [r c]. cbn [fst snd] in *. subst r.
      assert (ep : e_paths [4; 0; 2] {| e_r := 4; e_start := 0; e_paths0 := 1; e_end := 3 |} = [0; 2]) by (vm_compute; reflexivity). rewrite ep in h2.
      assert (pp : parsePaths [0; 2] = Some [[SR 1 0]]) by (vm_compute; reflexivity).
      destruct c as [ps|]; [|discriminate]. rewrite pp in h2. injection h2 as <-.
      intros (c & [i|[]] & k). injection i as <-. destruct k as (p & [<-|[]] & cv). cbn in cv. lia.
Qed.
Print Assumptions lifetime_inter_refuted.

(** ** C51: whether two references may touch the same place.  What a reference touches: places its paths cover and
    its mask, counted from the start of the path's last range, has.  A region without paths: counted from its start. *)
Definition touches_content (c : option (list path)) (mask : option Z) (x : place) : Prop :=
  match c with
  | Some ps => exists p, In p ps /\ touches p mask x
  | None => match x with [] => False | y :: _ => match mask with None => True | Some m => Z.testbit m (3 + y mod 29) = true end end
  end.
Definition reaches (L : list region) (mask : option Z) (r : Z) (x : place) : Prop := exists c, In (r, c) L /\ touches_content c mask x.
(** One writes what the other uses. *)
Definition conflict (A B : list region) (l r : option rwquals) (g : Z) (x : place) : Prop :=
  reaches A (written_of l) g x /\ reaches B (usage_of r) g x \/ reaches A (usage_of l) g x /\ reaches B (written_of r) g x.
Definition apart (ps : list path) : Prop := forall p q, In p ps -> In q ps -> p <> q -> ~ meet p q.
Local Definition on_has (l r : option rwquals) (s : unit) (e : ev) : option (act unit bool) :=
  match e with
  | EBoth _ sr_left sr_right _ =>
      do hit <- (if beq sr_left sr_right then Some (same_region_inter l r)
                 else if beq sr_left SR_empty || beq sr_right SR_empty then Some true
                 else Paths_hasInter sr_left sr_right l r);
      Some (if (hit : bool) then Ret true else Go s)
  | _ => Some (Go s)
  end.
Local Lemma touches_same p m n x : path_ok p -> touches p (Some m) x -> touches p (Some n) x -> Z.land m n = 0 -> False.
Proof.
  intros ok h1 h2 z. pose proof (path_ok_nonempty _ ok) as np.
  destruct (touches_last p _ x np h1) as (s & y & e1 & e2 & b1). destruct (touches_last p _ x np h2) as (s' & y' & e3 & e4 & b2).
  rewrite e1 in e3. rewrite e2 in e4. injection e3 as <-. injection e4 as <-. exact (land_bit _ _ _ z b1 b2).
Qed.
Local Lemma sub_dec (a b : subregion) : {a = b} + {a <> b}.
Proof. decide equality; apply Z.eq_dec. Qed.
Local Lemma has_content cl cr bl br rb lo l r : content_ok cl -> content_ok cr -> content_bytes cl bl -> content_bytes cr br -> rw_ok l -> rw_ok r ->
  (forall ps, cl = Some ps -> cr = Some ps -> apart ps) ->
  on_has l r tt (EBoth rb bl br lo) = Some (Go tt) ->
  forall x, ~ (touches_content cl (written_of l) x /\ touches_content cr (usage_of r) x \/ touches_content cl (usage_of l) x /\ touches_content cr (written_of r) x).
Proof.
  intros okl okr bl1 br1 wl wr ap e x h. cbn [on_has] in e. destruct (beq bl br) eqn:e1.
  { apply beq_true in e1. subst br. pose proof (content_inj _ _ _ okl okr bl1 br1) as <-. cbn [obind] in e.
    destruct (same_region_inter l r) eqn:sr; [discriminate|]. destruct l as [l|], r as [r|]; try discriminate. cbn [same_region_inter] in sr. cbn [written_of usage_of option_map] in h.
    assert (z1 : Z.land (rw_written l) (rw_usage r) = 0) by lia. assert (z2 : Z.land (rw_usage l) (rw_written r) = 0) by (rewrite Z.land_comm; lia).
    destruct cl as [ps|]; cbn [touches_content] in h.
    - assert (sm : forall m n, (exists p, In p ps /\ touches p (Some m) x) -> (exists p, In p ps /\ touches p (Some n) x) -> Z.land m n = 0 -> False).
      { intros m n (p & i & t) (q & j & u) z. assert (p = q).
        { destruct (list_eq_dec sub_dec p q) as [k|k]; [exact k|]. exfalso. apply (ap ps eq_refl eq_refl p q i j k). exists x. split; eapply touches_covers; eassumption. }
        subst q. destruct okl as [_ okl]. rewrite Forall_forall in okl. exact (touches_same p m n x (okl p i) t u z). }
      destruct h as [[h1 h2]|[h1 h2]]; [exact (sm _ _ h1 h2 z1)|exact (sm _ _ h1 h2 z2)].
    - destruct x as [|y x]; [tauto|]. destruct h as [[h1 h2]|[h1 h2]]; [exact (land_bit _ _ _ z1 h1 h2)|exact (land_bit _ _ _ z2 h1 h2)]. }
  destruct (beq bl SR_empty) eqn:e2; [discriminate|]. destruct (beq br SR_empty) eqn:e3; [discriminate|]. cbn [orb] in e.
  destruct cl as [ps|]; [|cbn in bl1; subst bl; rewrite beq_refl in e2; discriminate].
  destruct cr as [qs|]; [|cbn in br1; subst br; rewrite beq_refl in e3; discriminate].
  destruct okl as [np okp]. destruct okr as [nq okq]. cbn [content_bytes] in *.
  unfold Paths_hasInter in e. rewrite (parsePaths_ok _ _ okp bl1), (parsePaths_ok _ _ okq br1) in e. cbn [obind] in e.
  apply obindE in e. destruct e as (k & e & ek). destruct k; [discriminate|].
  pose proof (some_pair_sound l r x wl wr _ (prod_ok _ _ okp okq) e) as sd.
  destruct h as [[(p & i & t) (q & j & u)]|[(p & i & t) (q & j & u)]]; (apply (sd p q); [apply in_prod_iff; auto|]); [left|right]; auto.
Qed.
Local Lemma reaches_cons (g : region) L m r x : reaches (g :: L) m r x <-> (fst g = r /\ touches_content (snd g) m x) \/ reaches L m r x.
Proof.
  unfold reaches. split.
  - intros (c & [->|i] & h); [left; auto|right; eauto].
  - intros [[<- h]|(c & i & h)]; [exists (snd g); split; [left; destruct g; reflexivity|exact h]|exists c; split; [right; exact i|exact h]].
Qed.
Local Lemma not_reaches (g : Z) (L : list region) m x : Forall (fun h => before g (fst h)) L -> ~ reaches L m g x.
Proof. intros f (c & i & _). rewrite Forall_forall in f. exact (before_irrefl _ (f _ i)). Qed.
Local Lemma has_items l r : rw_ok l -> rw_ok r -> forall fuel L R, (length L + length R < fuel)%nat -> Forall item_ok L -> Forall item_ok R ->
  StronglySorted (fun g h => before (fst g) (fst h)) (map i_g L) -> StronglySorted (fun g h => before (fst g) (fst h)) (map i_g R) ->
  (forall r ps, In (r, Some ps) (map i_g L) -> In (r, Some ps) (map i_g R) -> apart ps) ->
  amerge (on_has l r) fuel tt L R = Some (Go tt) -> forall g x, ~ conflict (map i_g L) (map i_g R) l r g x.
Proof.
  intros wl wr. induction fuel as [|f IH]; intros L R lf okL okR sL sR ap e g x cf; [lia|]. cbn [amerge] in e. unfold conflict in cf.
  destruct L as [|il L]; [destruct cf as [[(c & [] & _) _]|[(c & [] & _) _]]|].
  destruct R as [|ir R]; [destruct cf as [[_ (c & [] & _)]|[_ (c & [] & _)]]|].
  apply Forall_cons_iff in okL, okR. destruct okL as [okl okL], okR as [okr okR]. cbn [map length] in *.
  pose proof (ss_tail _ _ sL) as [sL' bL]. pose proof (ss_tail _ _ sR) as [sR' bR]. fold (i_r il) in bL. fold (i_r ir) in bR.
  destruct (LifetimeMerge.cmp_cases (i_r il) (i_r ir)) as [[c eq]|[[c bef]|[c bef]]]; rewrite c in e; cbn [Z.eqb Z.ltb Z.compare] in e.
  - apply obindE in e. destruct e as (q & e1 & e2). destruct q as [[]|]; [|discriminate].
    assert (hc := has_content (snd (i_g il)) (snd (i_g ir)) (i_bc il) (i_bc ir) (i_br il) (unpackLocid (i_r ir)) l r (item_content _ okl) (item_content _ okr) (proj2 (proj2 okl)) (proj2 (proj2 okr)) wl wr).
    assert (hc2 := fun k => hc k e1 x). clear hc.
    assert (ir' := IH L R ltac:(lia) okL okR sL' sR' ltac:(intros r0 ps i1 i2; apply (ap r0); right; assumption) e2 g x). unfold conflict in ir'.
    rewrite !reaches_cons in cf. fold (i_r il) in cf. fold (i_r ir) in cf. rewrite <- eq in cf.
    assert (nl : forall m, i_r il = g -> ~ reaches (map i_g L) m g x) by (intros m <-; apply not_reaches, bL).
    assert (nr : forall m, i_r il = g -> ~ reaches (map i_g R) m g x) by (intros m <-; rewrite eq; apply not_reaches, bR).
    pose proof (nl (written_of l)). pose proof (nl (usage_of l)). pose proof (nr (written_of r)). pose proof (nr (usage_of r)). clear nl nr.
    apply ir'. destruct (Z.eq_dec (i_r il) g) as [h|h]; [|tauto]. exfalso. apply hc2; [|tauto].
    intros ps k1 k2. apply (ap (i_r il)); left; [rewrite <- k1; destruct (i_g il) eqn:z; unfold i_r; rewrite z; reflexivity|rewrite eq, <- k2; destruct (i_g ir) eqn:z; unfold i_r; rewrite z; reflexivity].
  - cbn [on_has obind] in e. apply (IH L (ir :: R) ltac:(cbn [length]; lia) okL ltac:(auto) sL' sR ltac:(intros r0 ps i1 i2; apply (ap r0); [right|]; assumption) e g x). unfold conflict.
    assert (n : forall m, i_r il = g -> ~ reaches (i_g ir :: map i_g R) m g x).
    { intros m <-. apply not_reaches. constructor; [exact bef|]. eapply Forall_impl; [|exact bR]. intros h. apply before_trans, bef. }
    rewrite !(reaches_cons (i_g il)) in cf. fold (i_r il) in cf. pose proof (n (written_of r)). pose proof (n (usage_of r)). cbn [map] in *. tauto.
  - cbn [on_has obind] in e. apply (IH (il :: L) R ltac:(cbn [length]; lia) ltac:(auto) okR sL sR' ltac:(intros r0 ps i1 i2; apply (ap r0); [|right]; assumption) e g x). unfold conflict.
    assert (n : forall m, i_r ir = g -> ~ reaches (i_g il :: map i_g L) m g x).
    { intros m <-. apply not_reaches. constructor; [exact bef|]. eapply Forall_impl; [|exact bL]. intros h. apply before_trans, bef. }
    rewrite !(reaches_cons (i_g ir)) in cf. fold (i_r ir) in cf. pose proof (n (written_of l)). pose proof (n (usage_of l)). cbn [map] in *. tauto.
Qed.
(** If the answer is no, there is no place that one of the references writes and the other uses.  This needs the paths
    of one and the same list not to overlap among themselves. *)
Theorem lifetime_no_intersection_is_safe : forall a A b B l r, is_lifetime a A -> is_lifetime b B -> rw_ok l -> rw_ok r ->
  (forall g ps, In (g, Some ps) A -> In (g, Some ps) B -> apart ps) ->
  Lifetime_hasInter a b l r = Some false -> forall g x, ~ conflict A B l r g x.
Proof.
  intros a A b B l r (la & oka & sa) (lb & okb & sb) wl wr ap e g x cf.
  destruct (items_of A a oka la) as (L & <- & <- & oL). destruct (items_of B b okb lb) as (R & <- & <- & oR).
  unfold Lifetime_hasInter in e. destruct (negb (writes l) && negb (writes r)) eqn:nw.
  { assert (n : forall L' rw, Forall region_ok L' -> writes rw = false -> ~ reaches L' (written_of rw) g x).
    { clear. intros L' rw ok w (c & i & t). rewrite Forall_forall in ok. destruct (ok _ i) as [_ o]. cbn [snd] in o. destruct c as [ps|].
      - destruct t as (p & ip & t). destruct o as [_ o]. rewrite Forall_forall in o. exact (no_write_no_touch p rw x (path_ok_nonempty _ (o p ip)) w t).
      - destruct rw as [rw|]; [|discriminate]. cbn in w, t. assert (z : rw_written rw = 0) by lia. rewrite z in t. destruct x; [exact t|]. rewrite Z.bits_0 in t. discriminate. }
    apply andb_true_iff in nw. destruct nw as [n1 n2]. apply negb_true_iff in n1, n2. pose proof (n _ _ oka n1). pose proof (n _ _ okb n2). unfold conflict in cf. tauto. }
  apply obindE in e. destruct e as (y & e & ey). destruct y as [[]|y]; [|].
  - destruct (merge_amerge (on_has l r) tt L R oL oR) as (fuel & lf & em).
    change (merge _ (ibytes L) (ibytes R) tt) with (merge (on_has l r) (ibytes L) (ibytes R) tt) in e. rewrite em in e.
    exact (has_items l r wl wr fuel L R lf oL oR sa sb ap e g x cf).
  - injection ey as ->. exfalso. destruct (merge_amerge (on_has l r) tt L R oL oR) as (fuel & lf & em).
    change (merge _ (ibytes L) (ibytes R) tt) with (merge (on_has l r) (ibytes L) (ibytes R) tt) in e. rewrite em in e. clear - e.
    revert L R e. induction fuel as [|f IH]; intros L R e; [discriminate|]. cbn [amerge] in e.
    destruct L as [|il L]; [unfold finish in e; cbn [on_has obind] in e; discriminate|].
    destruct R as [|ir R]; [unfold finish in e; cbn [on_has obind] in e; discriminate|]. cbv zeta in e.
    destruct (region_cmp (i_r il) (i_r ir) =? 0); [|destruct (region_cmp (i_r il) (i_r ir) <? 0)].
    + apply obindE in e. destruct e as (q & e1 & e2). cbn [on_has] in e1. apply obindE in e1. destruct e1 as (k & _ & e1). destruct k; injection e1 as <-; [discriminate|]. exact (IH _ _ e2).
    + cbn [on_has obind] in e. exact (IH _ _ e).
    + cbn [on_has obind] in e. exact (IH _ _ e).
Qed.
Print Assumptions lifetime_no_intersection_is_safe.
(** Without that, it is refuted: two references with the paths [0, 2) and [1, 3); the one writes the first slot of
    whichever it is, the other reads the second. *)
Theorem lifetime_no_intersection_is_safe_refuted : exists a A l r g x, is_lifetime a A /\ rw_ok l /\ rw_ok r /\
  Lifetime_hasInter a a l r = Some false /\ conflict A A l r g x.
Proof.
  exists [4; 0; 5; 2; 4], [(4, Some [[SR 2 0]; [SR 2 1]])], (Some (RW 8 8)), (Some (RW 16 0)), 4, [1].
  refine (conj _ (conj _ (conj _ (conj _ _)))).
  - split.
    + apply (lb_cons 4 _ [] [4] [0; 5; 2; 4] []); [n1| |constructor].
      apply (psb_more _ _ [0; 5] [2; 4]); [apply (pb_last false (SR 2 0) [0] [5]); n1|]. constructor. apply (pb_last true (SR 2 1) [2] [4]); n1.
    + split; [repeat (constructor; [ok_r|]); constructor|repeat constructor].
  - cbn. unfold word. lia.
  - cbn. unfold word. lia.
  - vm_compute. reflexivity.
  - left. split; exists (Some [[SR 2 0]; [SR 2 1]]); (split; [left; reflexivity|]).
    + exists [SR 2 1]. split; [right; left; reflexivity|]. cbn. split; [lia|reflexivity].
    + exists [SR 2 0]. split; [left; reflexivity|]. cbn. split; [lia|reflexivity].
Qed.
Print Assumptions lifetime_no_intersection_is_safe_refuted.

(** Without masks the answer is always there and exact. *)
Local Definition hits (bl br : list Z) : option bool :=
  if beq bl br || beq bl SR_empty || beq br SR_empty then Some true else Paths_hasInter bl br None None.
Local Lemma content_witness c : content_ok c -> exists x, denote c x.
Proof.
  destruct c as [ps|]; [|exists []; exact I]. intros [np ok]. destruct ps as [|p ps]; [congruence|]. apply Forall_cons_iff in ok. destruct ok as [o _].
  destruct (covers_witness p o) as [x c]. exists x. exists p. split; [left; reflexivity|exact c].
Qed.
Local Lemma hits_spec cl cr bl br : content_ok cl -> content_ok cr -> content_bytes cl bl -> content_bytes cr br ->
  exists k, hits bl br = Some k /\ (k = true <-> exists x, denote cl x /\ denote cr x).
Proof.
  intros okl okr bl1 br1. unfold hits. destruct (beq bl br) eqn:e1.
  { apply beq_true in e1. subst br. pose proof (content_inj _ _ _ okl okr bl1 br1) as <-. exists true. cbn [orb]. split; [reflexivity|]. split; [|reflexivity]. intros _. destruct (content_witness cl okl) as [x d]. eauto. }
  cbn [orb]. destruct (beq bl SR_empty) eqn:e2.
  { apply beq_true in e2. apply (content_empty cl bl okl bl1) in e2. subst cl. exists true. cbn [orb]. split; [reflexivity|]. split; [|reflexivity]. intros _. destruct (content_witness cr okr) as [x d]. exists x. cbn. auto. }
  cbn [orb]. destruct (beq br SR_empty) eqn:e3.
  { apply beq_true in e3. apply (content_empty cr br okr br1) in e3. subst cr. exists true. split; [reflexivity|]. split; [|reflexivity]. intros _. destruct (content_witness cl okl) as [x d]. exists x. cbn. auto. }
  destruct cl as [ps|]; [|cbn in bl1; subst bl; rewrite beq_refl in e2; discriminate].
  destruct cr as [qs|]; [|cbn in br1; subst br; rewrite beq_refl in e3; discriminate].
  destruct okl as [np okp]. destruct okr as [nq okq]. cbn [content_bytes] in *.
  unfold Paths_hasInter. rewrite (parsePaths_ok _ _ okp bl1), (parsePaths_ok _ _ okq br1). cbn [obind].
  destruct (some_pair_plain _ (prod_ok _ _ okp okq)) as (k & -> & h). exists k. split; [reflexivity|]. rewrite h. cbn [denote]. split.
  - intros ([p q] & i & x & c1 & c2). apply in_prod_iff in i. destruct i as [i j]. exists x. split; [exists p|exists q]; auto.
  - intros (x & (p & i & c1) & q & j & c2). exists (p, q). split; [apply in_prod_iff; auto|]. exists x. auto.
Qed.
Local Lemma inside_two il ir L R g x : i_r il = i_r ir -> Forall (fun h => before (i_r il) (fst h)) (map i_g L) -> Forall (fun h => before (i_r ir) (fst h)) (map i_g R) ->
  (inside (i_g il :: map i_g L) g x /\ inside (i_g ir :: map i_g R) g x <->
   (i_r il = g /\ denote (snd (i_g il)) x /\ denote (snd (i_g ir)) x) \/ (inside (map i_g L) g x /\ inside (map i_g R) g x)).
Proof.
  intros eq bL bR. rewrite !inside_cons. fold (i_r il). fold (i_r ir). rewrite <- eq. pose proof (not_inside (i_r il) _ x bL). pose proof (not_inside (i_r ir) _ x bR) as k. rewrite <- eq in k.
  split; [intros [[[a1 a]|a] [[a2 b]|b]]; try subst g; tauto|intros [[a1 [a b]]|[a b]]; tauto].
Qed.
Local Lemma inside_left (il ir : item) (L R : list item) g x : before (i_r il) (i_r ir) -> Forall (fun h => before (i_r ir) (fst h)) (map i_g R) ->
  (inside (i_g il :: map i_g L) g x /\ inside (i_g ir :: map i_g R) g x <-> inside (map i_g L) g x /\ inside (i_g ir :: map i_g R) g x).
Proof.
  intros bef bR. rewrite (inside_cons (i_g il)). split; [|tauto]. intros [[[h _]|h] k]; [exfalso|tauto]. fold (i_r il) in h. subst g.
  apply (not_inside (i_r il) (i_g ir :: map i_g R) x); [|exact k]. constructor; [exact bef|]. eapply Forall_impl; [|exact bR]. intros h. apply before_trans, bef.
Qed.
Theorem lifetime_intersection_without_masks : forall a A b B, is_lifetime a A -> is_lifetime b B ->
  exists k, Lifetime_hasInter a b None None = Some k /\ (k = true <-> exists g x, inside A g x /\ inside B g x).
Proof.
  intros a A b B (la & oka & sa) (lb & okb & sb).
  destruct (items_of A a oka la) as (L & <- & <- & oL). destruct (items_of B b okb lb) as (R & <- & <- & oR).
  unfold Lifetime_hasInter. cbn [writes negb andb]. destruct (merge_amerge (on_has None None) tt L R oL oR) as (fuel & lf & em).
  change (merge _ (ibytes L) (ibytes R) tt) with (merge (on_has None None) (ibytes L) (ibytes R) tt). rewrite em. clear em la lb oka okb.
  revert L R lf oL oR sa sb. induction fuel as [|f IH]; intros L R lf oL oR sa sb; [lia|]. cbn [amerge].
  destruct L as [|il L]; [exists false; split; [reflexivity|]; split; [discriminate|]; intros (g & x & h & _); exfalso; exact (inside_nil _ _ h)|].
  destruct R as [|ir R]; [exists false; split; [reflexivity|]; split; [discriminate|]; intros (g & x & _ & h); exfalso; exact (inside_nil _ _ h)|].
  apply Forall_cons_iff in oL, oR. destruct oL as [okl oL], oR as [okr oR]. cbn [map length] in *.
  pose proof (ss_tail _ _ sa) as [sa' bL]. pose proof (ss_tail _ _ sb) as [sb' bR]. fold (i_r il) in bL. fold (i_r ir) in bR. cbv zeta.
  destruct (LifetimeMerge.cmp_cases (i_r il) (i_r ir)) as [[c eq]|[[c bef]|[c bef]]]; rewrite c; cbn [Z.eqb Z.ltb Z.compare].
  - destruct (hits_spec _ _ _ _ (item_content _ okl) (item_content _ okr) (proj2 (proj2 okl)) (proj2 (proj2 okr))) as (k & hk & ik).
    assert (e : on_has None None tt (EBoth (i_br il) (i_bc il) (i_bc ir) (unpackLocid (i_r ir))) = Some (if k then Ret true else Go tt)).
    { cbn [on_has same_region_inter]. unfold hits in hk. destruct (beq (i_bc il) (i_bc ir)); [cbn [orb] in hk; injection hk as <-; reflexivity|]. cbn [orb] in hk.
      destruct (beq (i_bc il) SR_empty || beq (i_bc ir) SR_empty); [injection hk as <-; reflexivity|]. rewrite hk. reflexivity. }
    rewrite e. cbn [obind]. destruct k.
    + exists true. split; [reflexivity|]. split; [|reflexivity]. intros _. destruct (proj1 ik eq_refl) as (x & d1 & d2). exists (i_r il), x. apply inside_two; auto.
    + destruct (IH L R ltac:(lia) oL oR sa' sb') as (k & ek & h). exists k. split; [exact ek|]. rewrite h. split; intros (g & x & q); exists g, x.
      * apply inside_two; auto.
      * apply inside_two in q; auto. destruct q as [(_ & q)|q]; [|exact q]. exfalso. assert (false = true) by (apply ik; eauto). discriminate.
  - cbn [on_has obind]. destruct (IH L (ir :: R) ltac:(cbn [length]; lia) oL ltac:(auto) sa' sb) as (k & ek & h). exists k. split; [exact ek|]. rewrite h.
    split; intros (g & x & q); exists g, x; revert q; apply inside_left; assumption.
  - cbn [on_has obind]. destruct (IH (il :: L) R ltac:(cbn [length]; lia) ltac:(auto) oR sa sb') as (k & ek & h). exists k. split; [exact ek|]. rewrite h.
    split; intros (g & x & q); exists g, x; apply and_comm; apply and_comm in q; revert q; apply inside_left; assumption.
Qed.
Print Assumptions lifetime_intersection_without_masks.
Local Definition on_locids (result : list Z) (e : ev) : option (act (list Z) (list Z)) :=
  match e with
  | EBoth _ sr_left sr_right locid =>
      if locid =? 0 then Some (Go result) else
      do hit <- (if beq sr_left sr_right || beq sr_left SR_empty || beq sr_right SR_empty then Some true
                 else Paths_hasInter sr_left sr_right None None);
      Some (Go (if (hit : bool) then result ++ [locid] else result))
  | _ => Some (Go result)
  end.
(** The variables the two have places of in common *)
Theorem lifetime_inter_locids : forall a A b B, is_lifetime a A -> is_lifetime b B ->
  exists ls, Lifetime_interLocids a b = Some ls /\
    forall l, In l ls <-> l <> 0 /\ exists g x, unpackLocid g = l /\ inside A g x /\ inside B g x.
Proof.
  intros a A b B (la & oka & sa) (lb & okb & sb).
  destruct (items_of A a oka la) as (L & <- & <- & oL). destruct (items_of B b okb lb) as (R & <- & <- & oR).
  unfold Lifetime_interLocids. destruct (merge_amerge on_locids [] L R oL oR) as (fuel & lf & em).
  change (merge _ (ibytes L) (ibytes R) []) with (merge on_locids (ibytes L) (ibytes R) []). rewrite em. clear em la lb oka okb.
  assert (go : forall s, exists ls, amerge on_locids fuel s L R = Some (Go (s ++ ls)) /\ forall l, In l ls <-> l <> 0 /\ exists g x, unpackLocid g = l /\ inside (map i_g L) g x /\ inside (map i_g R) g x).
  { revert L R lf oL oR sa sb. induction fuel as [|f IH]; intros L R lf oL oR sa sb s; [lia|]. cbn [amerge].
    destruct L as [|il L]; [exists []; rewrite app_nil_r; split; [reflexivity|]; intros l; split; [intros []|]; intros (_ & g & x & _ & h & _); exfalso; exact (inside_nil _ _ h)|].
    destruct R as [|ir R]; [exists []; rewrite app_nil_r; split; [reflexivity|]; intros l; split; [intros []|]; intros (_ & g & x & _ & _ & h); exfalso; exact (inside_nil _ _ h)|].
    apply Forall_cons_iff in oL, oR. destruct oL as [okl oL], oR as [okr oR]. cbn [map length] in *.
    pose proof (ss_tail _ _ sa) as [sa' bL]. pose proof (ss_tail _ _ sb) as [sb' bR]. fold (i_r il) in bL. fold (i_r ir) in bR. cbv zeta.
    destruct (LifetimeMerge.cmp_cases (i_r il) (i_r ir)) as [[c eq]|[[c bef]|[c bef]]]; rewrite c; cbn [Z.eqb Z.ltb Z.compare].
    - destruct (hits_spec _ _ _ _ (item_content _ okl) (item_content _ okr) (proj2 (proj2 okl)) (proj2 (proj2 okr))) as (k & hk & ik).
      set (n := unpackLocid (i_r ir)).
      assert (e : on_locids s (EBoth (i_br il) (i_bc il) (i_bc ir) n) = Some (Go (s ++ if negb (n =? 0) && k then [n] else []))).
      { cbn [on_locids]. unfold hits in hk. destruct (n =? 0); [cbn [negb andb]; rewrite app_nil_r; reflexivity|]. rewrite hk. cbn [obind negb andb]. destruct k; [reflexivity|rewrite app_nil_r; reflexivity]. }
      rewrite e. cbn [obind]. destruct (IH L R ltac:(lia) oL oR sa' sb' (s ++ if negb (n =? 0) && k then [n] else [])) as (ls & els & h).
      exists ((if negb (n =? 0) && k then [n] else []) ++ ls). split; [rewrite els, <- app_assoc; reflexivity|]. intros l. rewrite in_app_iff, h. split.
      + intros [i|(nz & g & x & u & q)]; [|split; [exact nz|]; exists g, x; split; [exact u|apply inside_two; auto]].
        destruct (Z.eqb_spec n 0) as [z|z]; [destruct i|]. destruct k; [|destruct i]. destruct i as [<-|[]]. split; [exact z|].
        destruct (proj1 ik eq_refl) as (x & d1 & d2). exists (i_r il), x. split; [unfold n; rewrite eq; reflexivity|]. apply inside_two; auto.
      + intros (nz & g & x & u & q). apply inside_two in q; auto. destruct q as [(<- & d)|q]; [left|right; split; [exact nz|]; exists g, x; auto].
        assert (k = true) as -> by (apply ik; eauto). rewrite eq in u. change (n = l) in u. rewrite u. destruct (Z.eqb_spec l 0); [congruence|]. left. reflexivity.
    - cbn [on_locids obind]. destruct (IH L (ir :: R) ltac:(cbn [length]; lia) oL ltac:(auto) sa' sb s) as (ls & els & h). exists ls. split; [exact els|]. intros l. rewrite h.
      split; intros (nz & g & x & u & q); (split; [exact nz|]); exists g, x; (split; [exact u|]); revert q; apply inside_left; assumption.
    - cbn [on_locids obind]. destruct (IH (il :: L) R ltac:(cbn [length]; lia) ltac:(auto) oR sa sb' s) as (ls & els & h). exists ls. split; [exact els|]. intros l. rewrite h.
      split; intros (nz & g & x & u & q); (split; [exact nz|]); exists g, x; (split; [exact u|]); apply and_comm; apply and_comm in q; revert q; apply inside_left; assumption. }
  destruct (go []) as (ls & -> & h). exists ls. split; [reflexivity|exact h].
Qed.
Print Assumptions lifetime_inter_locids.

(** ** The hypotheses are met. *)
Fixpoint lonelyb (pairs : list (path * path)) : bool :=
  match pairs with
  | u :: t => match t with
      | v :: _ => negb (match common (fst u) (snd u) (SR 0 0) (SR 0 0), common (fst v) (snd v) (SR 0 0) (SR 0 0) with Some _, Some _ => true | _, _ => false end)
      | [] => true end && lonelyb t
  | [] => true
  end.
Local Lemma lonelyb_ok pairs : Forall (fun pq => path_ok (fst pq) /\ path_ok (snd pq)) pairs -> lonelyb pairs = true -> lonely pairs.
Proof.
  induction pairs as [|u t IH]; intros ok e pre v w post eq; [destruct pre; discriminate|]. apply Forall_cons_iff in ok. destruct ok as [[o1 o2] ok].
  cbn [lonelyb] in e. apply andb_true_iff in e. destruct e as [e1 e2]. destruct pre as [|p pre].
  - injection eq as <- ->. apply Forall_cons_iff in ok. destruct ok as [[o3 o4] _]. intros [m1 m2].
    pose proof (common_spec (fst u) (snd u) (SR 0 0) (SR 0 0) (or_intror o1) (or_intror o2)) as c1. pose proof (common_spec (fst w) (snd w) (SR 0 0) (SR 0 0) (or_intror o3) (or_intror o4)) as c2.
    destruct (common (fst u) (snd u) _ _); [|contradiction]. destruct (common (fst w) (snd w) _ _); [|contradiction]. discriminate.
  - injection eq as _ eq. exact (IH ok e2 pre v w post eq).
Qed.
Example ex_inter : (forall r ps qs, In (r, Some ps) ex_A -> In (r, Some qs) ex_B -> can_inter ps qs) /\
  Lifetime_inter ex_a ex_b = Some [8; 7; 0; 4;  1; 0; 0].
Proof.
  split; [|vm_compute; reflexivity]. intros r ps qs [i|[i|[i|[]]]] [j|[j|[j|[]]]]; try discriminate; injection i as <- <-; try discriminate; injection j as <-.
  right. split; (apply lonelyb_ok; [apply prod_ok; repeat (constructor; [ok_p|]); constructor|vm_compute; reflexivity]).
Qed.
(** Two references into the struct of 3 slots at slot 2; the one writes its first slot, the other uses the third. *)
Example ex_safe : exists a A b B l r, is_lifetime a A /\ is_lifetime b B /\ rw_ok l /\ rw_ok r /\
  (forall g ps, In (g, Some ps) A -> In (g, Some ps) B -> apart ps) /\ writes l = true /\
  Lifetime_hasInter a b l r = Some false /\ Lifetime_hasInter a b None None = Some true.
Proof.
  exists [4; 4; 6], [(4, Some [[SR 3 2]])], [4; 6; 4], [(4, Some [[SR 2 3]])], (Some (RW 8 8)), (Some (RW 16 0)).
  refine (conj _ (conj _ (conj _ (conj _ (conj _ (conj _ (conj _ _))))))).
  - split.
    + apply (lb_cons 4 _ [] [4] [4; 6] []); [n1| |constructor]. constructor. apply (pb_last true (SR 3 2) [4] [6]); n1.
    + split; [repeat (constructor; [ok_r|]); constructor|repeat constructor].
  - split.
    + apply (lb_cons 4 _ [] [4] [6; 4] []); [n1| |constructor]. constructor. apply (pb_last true (SR 2 3) [6] [4]); n1.
    + split; [repeat (constructor; [ok_r|]); constructor|repeat constructor].
  - cbn. unfold word. lia.
  - cbn. unfold word. lia.
  - intros g ps [i|[]] [j|[]]. injection i as <- <-. discriminate.
  - reflexivity.
  - vm_compute. reflexivity.
  - vm_compute. reflexivity.
Qed.
Example ex_locids : Lifetime_interLocids ex_a ex_b = Some [2].
Proof. vm_compute. reflexivity. Qed.
