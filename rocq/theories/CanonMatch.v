(** src/canon.fu: isCanonAssignable decides [accepts]. *)
From Verif Require Import CanonModel CanonSpec CanonProofs VarintProofs VarintProps CommonLemmas WordsLemmas LifetimeProofs.
Open Scope Z_scope.

(** ** Ends, starts and the first parenthesis *)
Lemma ends_snoc s c x : ends_with (s ++ [x]) c = (x =? c).
Proof. unfold ends_with. rewrite last_last. destruct s; reflexivity. Qed.
Lemma exists_last_or {X} (l : list X) : l = [] \/ exists q x, l = q ++ [x].
Proof. destruct l as [|x l]; [left; reflexivity|]. right. destruct (@exists_last _ (x :: l)) as (q & y & E); [discriminate|]. eauto. Qed.
Lemma ends_plain s : Forall plain_byte s -> ends_with s RPAR = false.
Proof.
  intros F. destruct (exists_last_or s) as [->|(q & x & ->)]; [reflexivity|]. rewrite ends_snoc.
  apply Forall_app in F as [_ F]. inversion_clear F as [|? ? (_ & H & _) _]. apply Z.eqb_neq. exact H.
Qed.
Lemma find_char_at : forall s i rest, Forall plain_byte s -> find_char_from (s ++ LPAR :: rest) LPAR i = i + zlen s.
Proof.
  induction s as [|c s IH]; intros i rest F; cbn [app find_char_from].
  - rewrite Z.eqb_refl. unfold zlen. cbn. lia.
  - inversion_clear F as [|? ? (H & _) F']. apply Z.eqb_neq in H. rewrite H, IH by auto. rewrite zlen_cons. lia.
Qed.
Lemma written_nonempty c : well_formed c -> written c <> [].
Proof.
  intros W. inversion_clear W as [b ps (N & _) _|t c' ? ?]; [|discriminate]. destruct ps as [|p ps]; [exact N|].
  rewrite written_plain by discriminate. destruct b; [tauto|discriminate].
Qed.
Lemma tag_bytes t : 0 <= t < 8 -> Forall plain_byte (varint t) /\ varint t <> [] /\ hd 0 (varint t) <> LBRA.
Proof.
  intros H. pose proof (varint_plain t (tag_word t H)) as F. pose proof (varint_nonempty t (tag_word t H)) as N.
  split; [eapply Forall_impl; [|exact F]; intros c X; apply X|]. split; auto. destruct (varint t) as [|c l]; [tauto|]. inversion_clear F as [|? ? X _]. apply X.
Qed.
Lemma tag_one t : 0 <= t < 8 -> exists c, varint t = [c].
Proof.
  intros H. assert (t = 0 \/ t = 1 \/ t = 2 \/ t = 3 \/ t = 4 \/ t = 5 \/ t = 6 \/ t = 7) as C by lia.
  repeat (destruct C as [->|C]; [eexists; reflexivity|]). subst t. eexists. reflexivity.
Qed.
Lemma tag_first t u : 0 <= t < 8 -> 0 <= u < 8 -> hd 0 (varint t) = hd 0 (varint u) -> t = u.
Proof.
  intros Ht Hu E. destruct (tag_one t Ht) as (c & Et). destruct (tag_one u Hu) as (d & Eu). rewrite Et, Eu in E. cbn in E. subst d.
  apply (varint_inj t u [] [] (tag_word _ Ht) (tag_word _ Hu)). rewrite Et, Eu. reflexivity.
Qed.

(** ** Writing loses nothing *)
Definition no_par (c : Z) : Prop := c <> LPAR.
Lemma base_split : forall a b s t, Forall no_par a -> Forall no_par b -> a ++ LPAR :: s = b ++ LPAR :: t -> a = b /\ s = t.
Proof.
  induction a as [|c a IH]; intros [|d b] s t Fa Fb E; cbn in E; inversion Fa; inversion Fb; subst; unfold no_par in *.
  - injection E as E. auto.
  - injection E as E1 E2. congruence.
  - injection E as E1 E2. congruence.
  - injection E as E1 E2. subst. destruct (IH b s t) as [-> ->]; auto.
Qed.
Lemma base_vs_par a b s : Forall no_par a -> a <> b ++ LPAR :: s.
Proof. intros F E. subst. apply Forall_app in F as [_ F]. inversion F. unfold no_par in *. congruence. Qed.
(** two joined lists, each item of which the walk passes *)
Lemma walk_split sep : (sep = PIPE \/ sep = COLON) -> forall a b s t d, walk sep a d = Some 0 -> walk sep b d = Some 0 -> a ++ sep :: s = b ++ sep :: t -> a = b /\ s = t.
Proof.
  intros S. assert (Nl : (sep =? LPAR) = false) by (destruct S as [->| ->]; reflexivity). assert (Nr : (sep =? RPAR) = false) by (destruct S as [->| ->]; reflexivity).
  induction a as [|c a IH]; intros [|e b] s t d Wa Wb E; cbn in E.
  - injection E as E. auto.
  - injection E as E1 E2; subst. cbn [walk] in *. rewrite Nl, Nr in Wb. injection Wa as ->. rewrite !Z.eqb_refl in Wb. discriminate.
  - injection E as E1 E2; subst. cbn [walk] in *. rewrite Nl, Nr in Wa. injection Wb as ->. rewrite !Z.eqb_refl in Wa. discriminate.
  - injection E as E1 E2; subst. cbn [walk] in *. destruct (e =? LPAR); [|destruct (e =? RPAR); [|destruct (_ && _); [discriminate|]]]; destruct (IH _ _ _ _ Wa Wb E2) as [-> ->]; auto.
Qed.
Lemma walk_no_sep sep : (sep = PIPE \/ sep = COLON) -> forall a b s d, walk sep a d = Some 0 -> walk sep b d = Some 0 -> a <> b ++ sep :: s.
Proof.
  intros S a b s d Wa Wb E. subst. rewrite walk_app, Wb in Wa. cbn [walk] in Wa.
  assert (Nl : (sep =? LPAR) = false) by (destruct S as [->| ->]; reflexivity). assert (Nr : (sep =? RPAR) = false) by (destruct S as [->| ->]; reflexivity).
  rewrite Nl, Nr, !Z.eqb_refl in Wa. discriminate.
Qed.
Lemma join_inj sep : (sep = PIPE \/ sep = COLON) -> forall l k, l <> [] -> k <> [] -> Forall (fun x => walk sep x 0 = Some 0) l -> Forall (fun x => walk sep x 0 = Some 0) k ->
  join sep l = join sep k -> l = k.
Proof.
  intros S. induction l as [|x l IH]; intros k Nl Nk Fl Fk E; [tauto|]. destruct k as [|y k]; [tauto|].
  inversion_clear Fl as [|? ? Wx Fl']. inversion_clear Fk as [|? ? Wy Fk'].
  destruct l as [|x' l], k as [|y' k].
  - cbn in E. congruence.
  - rewrite (join_cons sep y) in E by discriminate. cbn [join] in E. exfalso. exact (walk_no_sep sep S _ _ _ _ Wx Wy E).
  - rewrite (join_cons sep x) in E by discriminate. cbn [join] in E. exfalso. symmetry in E. exact (walk_no_sep sep S _ _ _ _ Wy Wx E).
  - rewrite !join_cons in E by discriminate. destruct (walk_split sep S _ _ _ _ _ Wx Wy E) as [-> E']. f_equal. apply IH; auto; discriminate.
Qed.
Lemma good_no_par b : good_base b -> Forall no_par b.
Proof. intros (_ & _ & F). eapply Forall_impl; [|exact F]. intros c H. apply H. Qed.
Lemma pats_walk ps : good_pats ps -> Forall (fun x => walk PIPE x 0 = Some 0) (map written_pat ps).
Proof.
  intros [_ G]. apply Forall_map, Forall_forall. intros [[m g] args] I. destruct (G _ _ _ I) as (Hm & Hg & Ga). cbn [written_pat].
  rewrite walk_app, varint_walk, walk_app, varint_walk by (auto; apply id_word; lia). apply args_walk_pipe. exact Ga.
Qed.
Lemma args_walk args : good_args args -> Forall (fun x => walk COLON x 0 = Some 0) (map written_type args).
Proof. intros [_ G]. apply Forall_map, Forall_forall. intros [t c] I. destruct (G _ _ I). apply written_type_walk; auto. Qed.
Lemma map_eq_inj {A B} (f : A -> B) : forall l k, (forall x y, In x l -> In y k -> f x = f y -> x = y) -> map f l = map f k -> l = k.
Proof.
  induction l as [|x l IH]; intros [|y k] H E; cbn in E; try discriminate; auto. injection E as E1 E2. f_equal.
  - apply H; [left|left|]; auto.
  - apply IH; auto. intros. apply H; [right|right|]; auto.
Qed.
Lemma hd_plain b ps : well_formed (Plain b ps) -> hd 0 (written (Plain b ps)) <> LBRA.
Proof.
  intros W. inversion_clear W as [? ? (N & Nb & _) _|]. destruct ps as [|p ps]; [exact Nb|].
  rewrite (written_plain b (p :: ps)) by discriminate. destruct b; [tauto|exact Nb].
Qed.
Lemma written_inj_n : forall n c d, (csize c < n)%nat -> well_formed c -> well_formed d -> written c = written d -> c = d.
Proof.
  induction n as [|n IH]; intros c d L Wc Wd E; [lia|]. destruct c as [b ps|t c], d as [b' ps'|t' d].
  - assert (Gb : good_base b) by (inversion Wc; auto). assert (Gb' : good_base b') by (inversion Wd; auto).
    pose proof (good_no_par _ Gb) as Fb. pose proof (good_no_par _ Gb') as Fb'.
    destruct ps as [|p0 ps0] eqn:Ep, ps' as [|p1 ps1] eqn:Ep'; rewrite <- ?Ep, <- ?Ep' in *.
    + subst. cbn in E. congruence.
    + rewrite (written_plain b' ps') in E by (subst; discriminate). exfalso. subst. exact (base_vs_par _ _ _ Fb E).
    + rewrite (written_plain b ps) in E by (subst; discriminate). exfalso. subst. symmetry in E. exact (base_vs_par _ _ _ Fb' E).
    + assert (N : ps <> []) by (subst; discriminate). assert (N' : ps' <> []) by (subst; discriminate).
      rewrite !written_plain in E by auto. destruct (base_split _ _ _ _ Fb Fb' E) as [-> E2]. apply app_inj_tail in E2 as [E2 _].
      pose proof (good_pats_wf _ _ Wc N) as Gp. pose proof (good_pats_wf _ _ Wd N') as Gp'. f_equal.
      apply (join_inj PIPE) in E2; auto using pats_walk; [|clear - N; destruct ps; [tauto|discriminate]|clear - N'; destruct ps'; [tauto|discriminate]].
      apply (map_eq_inj written_pat); auto. intros [[m g] args] [[m' g'] args'] I I' Ew. cbn [written_pat] in Ew.
      destruct (proj2 Gp _ _ _ I) as (Hm & Hg & Ga). destruct (proj2 Gp' _ _ _ I') as (Hm' & Hg' & Ga').
      apply varint_inj in Ew as [<- Ew]; try (apply id_word; lia). apply varint_inj in Ew as [<- Ew]; try (apply id_word; lia). f_equal.
      unfold written_args in Ew. apply (join_inj COLON) in Ew; auto using args_walk;
        [|destruct Ga as [Na _]; clear - Na; destruct args; [tauto|discriminate]|destruct Ga' as [Na _]; clear - Na; destruct args'; [tauto|discriminate]].
      apply (map_eq_inj written_type); auto. intros [t c] [t' c'] J J' Et. destruct (proj2 Ga _ _ J) as [Ht Wt]. destruct (proj2 Ga' _ _ J') as [Ht' Wt'].
      unfold written_type in Et. cbn [fst snd] in Et. apply varint_inj in Et as [<- Et]; try (apply tag_word; auto). f_equal.
      apply IH; auto. pose proof (arg_size b' ps m g args t c I J). lia.
  - exfalso. apply (hd_plain _ _ Wc). rewrite E. reflexivity.
  - exfalso. apply (hd_plain _ _ Wd). rewrite <- E. reflexivity.
  - inversion_clear Wc as [|? ? Ht Wc']. inversion_clear Wd as [|? ? Ht' Wd']. cbn [written] in E. injection E as E.
    apply varint_inj in E as [<- E]; try (apply tag_word; auto). apply app_inj_tail in E as [E _]. f_equal. apply IH; auto. cbn in L. lia.
Qed.
Lemma written_inj c d : well_formed c -> well_formed d -> written c = written d -> c = d.
Proof. intros. eapply written_inj_n; eauto. Qed.
Lemma written_type_inj t c u d : 0 <= t < 8 -> 0 <= u < 8 -> well_formed c -> well_formed d -> written_type (t, c) = written_type (u, d) -> t = u /\ c = d.
Proof.
  intros Ht Hu Wc Wd E. unfold written_type in E. cbn [fst snd] in E. apply varint_inj in E as [<- E]; try (apply tag_word; auto).
  split; auto. apply written_inj; auto.
Qed.
Lemma written_args_inj a b : good_args a -> good_args b -> written_args a = written_args b -> a = b.
Proof.
  intros Ga Gb E. apply (join_inj COLON) in E; auto using args_walk;
    [|destruct Ga as [Na _]; clear - Na; destruct a; [tauto|discriminate]|destruct Gb as [Na _]; clear - Na; destruct b; [tauto|discriminate]].
  apply (map_eq_inj written_type); auto. intros [t c] [u d] I J Ew. destruct (proj2 Ga _ _ I). destruct (proj2 Gb _ _ J).
  destruct (written_type_inj t c u d) as [-> ->]; auto.
Qed.

(** ** Folding over what is visited *)
Lemma foldv_all {X} (visit : X -> option (option unit)) (good : X -> Prop) : forall l,
  (forall x, In x l -> exists m, visit x = Some m /\ (m = None <-> good x)) ->
  exists r, foldv visit l = Some r /\ (r = None <-> forall x, In x l -> good x).
Proof.
  induction l as [|x l IH]; intros H.
  - exists None. cbn. split; auto. split; auto. intros _ x [].
  - destruct (H x (or_introl eq_refl)) as (m & E & Hm). cbn [foldv]. rewrite E. cbn [obind]. destruct m as [u|].
    + exists (Some u). split; auto. split; [discriminate|]. intros A. exfalso. specialize (A x (or_introl eq_refl)). apply Hm in A. discriminate.
    + destruct IH as (r & Er & Hr); [intros; apply H; right; auto|]. exists r. split; auto. rewrite Hr. split; intros A.
      * intros y [<-|I]; [apply Hm; auto|auto].
      * intros y I. apply A. right. auto.
Qed.
Lemma foldv_any {X} (visit : X -> option (option unit)) (good : X -> Prop) : forall l,
  (forall x, In x l -> exists m, visit x = Some m /\ (m = Some tt <-> good x)) ->
  exists r, foldv visit l = Some r /\ (r = Some tt <-> exists x, In x l /\ good x).
Proof.
  induction l as [|x l IH]; intros H.
  - exists None. cbn. split; auto. split; [discriminate|]. intros (x & [] & _).
  - destruct (H x (or_introl eq_refl)) as (m & E & Hm). cbn [foldv]. rewrite E. cbn [obind]. destruct m as [[]|].
    + exists (Some tt). split; auto. split; auto. intros _. exists x. split; [left; auto|apply Hm; auto].
    + destruct IH as (r & Er & Hr); [intros; apply H; right; auto|]. exists r. split; auto. rewrite Hr. split; intros (y & I & G).
      * exists y. split; [right|]; auto.
      * exists y. split; auto. destruct I as [<-|I]; auto. apply Hm in G. discriminate.
Qed.
Lemma in_subs ps x : In x (subs ps) -> exists p, In p ps /\ sp_text x = written_args (snd p) /\ sp_of x = target_of p /\ sp_deep x = deep (snd p).
Proof.
  induction ps as [|p ps IH]; intros I; [destruct I|]. cbn [subs] in I. destruct I as [<-|I].
  - exists p. cbn. auto.
  - destruct (IH I) as (q & Iq & H). exists q. split; [right|]; auto.
Qed.
Lemma subs_in ps p : In p ps -> exists x, In x (subs ps) /\ sp_text x = written_args (snd p) /\ sp_of x = target_of p /\ sp_deep x = deep (snd p).
Proof.
  induction ps as [|q ps IH]; intros I; [destruct I|]. cbn [subs]. destruct I as [->|I].
  - eexists. split; [left; reflexivity|]. cbn. auto.
  - destruct (IH I) as (x & Ix & H). exists x. split; [right|]; auto.
Qed.
Lemma zipv_ok rec (good : Z * canon -> Z * canon -> Prop) : forall ha ga,
  (forall h g, In h ha -> In g ga -> exists b, rec (written_type h) (written_type g) = Some b /\ (b = true <-> good h g)) ->
  exists b, zipv rec ha ga = Some b /\
    (b = true <-> exists i h g, nth_error ha i = Some h /\ nth_error ga i = Some g /\ (S i = length ha <-> S i = length ga) /\ good h g).
Proof.
  induction ha as [|h ha IH]; intros ga H; cbn [zipv].
  { exists false. split; auto. split; [discriminate|]. intros ([|i] & h & g & E & _); discriminate. }
  destruct ga as [|g ga].
  { exists false. split; auto. split; [discriminate|]. intros ([|i] & h' & g & _ & E & _); discriminate. }
  destruct (H h g (or_introl eq_refl) (or_introl eq_refl)) as (b & E & Hb).
  destruct (negb _) eqn:En.
  { exists false. split; auto. split; [discriminate|]. intros ([|i] & h' & g' & E1 & E2 & L & G).
    - cbn [length] in L. destruct ha, ga; try discriminate En; cbn in L; lia.
    - cbn in E1, E2. destruct ha, ga; try discriminate En; destruct i; discriminate. }
  rewrite E. cbn [obind]. destruct b.
  { exists true. split; auto. split; auto. intros _. exists O, h, g. split; [|split; [|split]]; auto; [|apply Hb; auto].
    cbn [length]. destruct ha, ga; try discriminate En; cbn; lia. }
  destruct ha as [|h' ha].
  { exists false. split; auto. split; [discriminate|]. intros ([|i] & x & y & E1 & E2 & L & G); [|destruct i; discriminate].
    cbn in E1, E2. injection E1 as <-. injection E2 as <-. apply Hb in G. discriminate. }
  destruct ga as [|g' ga]; [discriminate En|].
  destruct (IH (g' :: ga)) as (b & E' & Hb'); [intros; apply H; right; auto|]. exists b. split; auto. rewrite Hb'. split.
  - intros (i & x & y & E1 & E2 & L & G). exists (S i), x, y. split; [|split; [|split]]; auto. cbn [length] in *. lia.
  - intros ([|i] & x & y & E1 & E2 & L & G).
    + cbn in E1, E2. injection E1 as <-. injection E2 as <-. apply Hb in G. discriminate.
    + exists i, x, y. split; [|split; [|split]]; auto. cbn [length] in *. lia.
Qed.

(** ** The patterns *)
Lemma sep_lengths ps : (length ps <= S (length (join PIPE (map written_pat ps))))%nat.
Proof.
  induction ps as [|p ps IH]; [cbn; lia|]. destruct ps as [|q ps]; [cbn; lia|].
  cbn [map] in *. rewrite join_cons by discriminate. rewrite app_length. cbn [length] in *. lia.
Qed.
Lemma sep_lengths_args args : (length args <= S (length (written_args args)))%nat.
Proof.
  unfold written_args. induction args as [|p ps IH]; [cbn; lia|]. destruct ps as [|q ps]; [cbn; lia|].
  cbn [map] in *. rewrite join_cons by discriminate. rewrite app_length. cbn [length] in *. lia.
Qed.
Lemma each_sub_ok {R} (visit : sub -> option (option R)) ps : good_pats ps -> eachSubPattern (join PIPE (map written_pat ps)) visit = foldv visit (subs ps).
Proof. intros G. unfold eachSubPattern. apply (sub_loop_ok visit ps []); auto. apply sep_lengths. Qed.
Lemma each_arg_ok {R} (visit : argspec -> option (option R)) args : good_args args -> eachArgSpecType (written_args args) visit = foldv visit (argspecs true args).
Proof. intros G. unfold eachArgSpecType. apply (arg_loop_ok visit args []); auto. apply sep_lengths_args. Qed.
Definition base_bytes (b : list Z) : Prop := b <> [] /\ Forall plain_byte b.
Definition with_pats (b : list Z) (ps : list pat) : list Z := b ++ LPAR :: join PIPE (map written_pat ps) ++ [RPAR].
Lemma with_pats_ends b ps : ends_with (with_pats b ps) RPAR = true.
Proof.
  unfold with_pats. replace (b ++ LPAR :: join PIPE (map written_pat ps) ++ [RPAR]) with ((b ++ LPAR :: join PIPE (map written_pat ps)) ++ [RPAR])
    by (rewrite <- app_assoc; reflexivity). rewrite ends_snoc. apply Z.eqb_refl.
Qed.
Lemma with_pats_find b ps : Forall plain_byte b -> find_char (with_pats b ps) LPAR = zlen b.
Proof. intros F. unfold find_char, with_pats. rewrite find_char_at by auto. lia. Qed.
Lemma with_pats_cut b ps : cut (with_pats b ps) (zlen b + 1) (zlen (with_pats b ps) - 1) = Some (join PIPE (map written_pat ps)).
Proof.
  unfold with_pats. set (j := join _ _). replace (b ++ LPAR :: j ++ [RPAR]) with ((b ++ [LPAR]) ++ j ++ [RPAR]) by (rewrite <- app_assoc; reflexivity).
  replace (zlen b + 1) with (zlen (b ++ [LPAR])) by (rewrite zlen_app; reflexivity).
  replace (zlen ((b ++ [LPAR]) ++ j ++ [RPAR]) - 1) with (zlen ((b ++ [LPAR]) ++ j)) by (rewrite !zlen_app; unfold zlen; cbn; lia). apply cut_mid.
Qed.
Lemma with_pats_base b ps : cut (with_pats b ps) 0 (zlen b + 1 - 1) = Some b.
Proof. unfold with_pats. replace (zlen b + 1 - 1) with (zlen b) by lia. apply (cut_mid [] b). Qed.
Lemma target_of_inj p q ps qs : good_pats ps -> good_pats qs -> In p ps -> In q qs -> (target_of q = target_of p <-> fst q = fst p).
Proof.
  intros [_ G] [_ G'] I J. destruct p as [[m g] a], q as [[m' g'] a']. destruct (G _ _ _ I) as (? & ? & _). destruct (G' _ _ _ J) as (? & ? & _). cbn.
  split; [intros E; apply target_inj in E as [-> ->]; auto; lia|intros E; injection E as -> ->; reflexivity].
Qed.
Lemma pats_ok f hb gb hps gps : base_bytes hb -> base_bytes gb -> good_pats hps -> good_pats gps ->
  (forall hp gp h g, In hp hps -> In gp gps -> In h (snd hp) -> In g (snd gp) ->
     exists b, assignable f (written_type h) (written_type g) = Some b /\ (b = true <-> accepts_inside h g)) ->
  exists b, assignable (S f) (with_pats hb hps) (with_pats gb gps) = Some b /\ (b = true <-> hd 0 hb = hd 0 gb /\ accepts_pats hps gps).
Proof.
  intros [Nh Fh] [Ng Fg] Gh Gg H. cbn [assignable]. rewrite !with_pats_ends. cbn [negb]. rewrite !with_pats_find by auto.
  assert (nth_error (with_pats hb hps) 0 = Some (hd 0 hb)) as -> by (destruct hb; [tauto|reflexivity]).
  assert (nth_error (with_pats gb gps) 0 = Some (hd 0 gb)) as -> by (destruct gb; [tauto|reflexivity]). cbn [obind].
  destruct (Z.eqb_spec (hd 0 hb) (hd 0 gb)) as [E|E]; cbn [negb]; [|exists false; split; auto; split; [discriminate|tauto]].
  rewrite !with_pats_cut. cbn [obind]. rewrite each_sub_ok by auto.
  match goal with |- context[foldv ?v (subs hps)] => set (visit := v) end.
  destruct (foldv_all visit (fun x => exists gp, In gp gps /\ target_of gp = sp_of x /\ exists hp, In hp hps /\ target_of hp = sp_of x /\ sp_text x = written_args (snd hp) /\ accepts_args (snd hp) (snd gp)) (subs hps))
    as (r & Er & Hr).
  - intros x I. destruct (in_subs _ _ I) as (hp & Ip & Tx & Ox & Dx). subst visit. cbv beta. rewrite each_sub_ok by auto.
    match goal with |- context[foldv ?v (subs gps)] => set (visit := v) end.
    assert (Ga : good_args (snd hp)) by (destruct hp as [[m g] a]; apply (proj2 Gh _ _ _ Ip)).
    destruct (foldv_any visit (fun y => exists gp, In gp gps /\ sp_of y = target_of gp /\ sp_text y = written_args (snd gp) /\ target_of gp = sp_of x /\ accepts_args (snd hp) (snd gp)) (subs gps)) as (m & Em & Hm).
    { intros y J. destruct (in_subs _ _ J) as (gp & Jp & Ty & Oy & Dy). subst visit. cbv beta.
      assert (Gb : good_args (snd gp)) by (destruct gp as [[? ?] a]; apply (proj2 Gg _ _ _ Jp)).
      assert (Uniq : forall gp', In gp' gps -> sp_text y = written_args (snd gp') -> snd gp' = snd gp).
      { intros gp' I' T'. assert (good_args (snd gp')) by (destruct gp' as [[? ?] a]; apply (proj2 Gg _ _ _ I')). apply written_args_inj; auto. congruence. }
      destruct (Z.eqb_spec (sp_of y) (sp_of x)) as [Eo|Eo]; cbn [negb].
      2:{ exists None. split; auto. split; [discriminate|]. intros (gp' & I' & O' & _ & T' & _). congruence. }
      rewrite Dx, Dy.
      assert (Good : forall R : Prop, (R <-> accepts_args (snd hp) (snd gp)) ->
        (R <-> exists gp0, In gp0 gps /\ sp_of y = target_of gp0 /\ sp_text y = written_args (snd gp0) /\ target_of gp0 = sp_of x /\ accepts_args (snd hp) (snd gp0))).
      { intros R HR. rewrite HR. split.
        - intros A. exists gp. repeat split; auto. congruence.
        - intros (gp' & I' & O' & T' & _ & A). rewrite <- (Uniq gp' I' T'). exact A. }
      destruct (deep (snd hp)) eqn:Dh, (deep (snd gp)) eqn:Dg; cbn [negb andb].
      - assert (Ez : zip_args (S (length (sp_text x))) (assignable f) (sp_text x) (sp_text y) 0 0 false false = zipv (assignable f) (snd hp) (snd gp)).
        { rewrite Tx, Ty. apply (zip_ok _ (snd hp) (snd gp) [] []); auto. apply sep_lengths_args. }
        rewrite Ez.
        destruct (zipv_ok (assignable f) accepts_inside (snd hp) (snd gp)) as (b & Eb & Hb); [intros h g Ih Ig; apply (H hp gp); auto|].
        rewrite Eb. cbn [obind]. exists (if b then Some tt else None). split; auto. apply Good.
        split.
        + destruct b; [|discriminate]. intros _. destruct (proj1 Hb eq_refl) as (i & h & g & A1 & A2 & A3 & A4). eapply g_any; eauto.
        + intros A. assert (b = true) as ->; [|reflexivity]. apply Hb. inversion A; [congruence|]. eauto 10.
      - exists None. split; auto. apply Good. split; [discriminate|]. intros A. inversion A; congruence.
      - exists None. split; auto. apply Good. split; [discriminate|]. intros A. inversion A; congruence.
      - exists (if beq (sp_text x) (sp_text y) then Some tt else None). split; auto. apply Good. rewrite Tx, Ty. split.
        + destruct (beq _ _) eqn:Eb; [|discriminate]. intros _. apply beq_true in Eb. apply written_args_inj in Eb; auto. rewrite Eb. apply g_same. exact Dg.
        + intros A. inversion A; [|congruence]. rewrite beq_refl. reflexivity. }
    rewrite Em. cbn [obind]. exists (match m with Some tt => None | None => Some tt end). split; auto. destruct m as [[]|].
    + split; auto. intros _. destruct (proj1 Hm eq_refl) as (y & J & gp & Jp & O & T & Eo & A). exists gp. split; auto. split; auto. exists hp. auto.
    + split; [discriminate|]. intros (gp & Jp & Eo & hp' & Ip' & O' & T' & A). exfalso. enough (@None unit = Some tt) by discriminate. apply Hm.
      destruct (subs_in _ _ Jp) as (y & J & Ty & Oy & Dy). exists y. split; auto. exists gp. split; auto. split; auto. split; auto. split; auto.
      assert (Ga' : good_args (snd hp')) by (destruct hp' as [[m g] a]; apply (proj2 Gh _ _ _ Ip')).
      replace (snd hp) with (snd hp'); auto. apply written_args_inj; auto. congruence.
  - unfold obind at 1. change (@None (option unit)) with (@None (option unit)). rewrite Er. cbn [obind].
    exists (match r with Some tt => false | None => true end). split; [reflexivity|].
    assert (R : (match r with Some tt => false | None => true end) = true <-> r = None) by (destruct r as [[]|]; split; congruence).
    rewrite R, Hr. split.
    + intros A. split; auto. constructor. intros hp Ip. destruct (subs_in _ _ Ip) as (x & I & Tx & Ox & Dx).
      destruct (A x I) as (gp & Jp & Eo & hp' & Ip' & O' & T' & Ac). exists gp. split; auto.
      assert (Ga : good_args (snd hp)) by (destruct hp as [[m g] a]; apply (proj2 Gh _ _ _ Ip)).
      assert (Ga' : good_args (snd hp')) by (destruct hp' as [[m g] a]; apply (proj2 Gh _ _ _ Ip')).
      replace (snd hp) with (snd hp') by (apply written_args_inj; auto; congruence). split; auto. apply (target_of_inj hp gp hps gps); auto. congruence.
    + intros [_ A] x I. inversion_clear A as [? ? A']. destruct (in_subs _ _ I) as (hp & Ip & Tx & Ox & Dx). destruct (A' hp Ip) as (gp & Jp & Ef & Ac).
      exists gp. split; auto. apply (target_of_inj hp gp hps gps) in Ef; auto. split; [congruence|]. exists hp. auto.
Qed.

(** ** The whole *)
Lemma join_longer sep l x : In x l -> (length x <= length (join sep l))%nat.
Proof.
  induction l as [|y l IH]; intros I; [destruct I|]. destruct l as [|z l]; [destruct I as [->|[]]; cbn; lia|].
  rewrite join_cons, app_length by discriminate. cbn [length]. destruct I as [->|I]; [lia|]. specialize (IH I). lia.
Qed.
Lemma arg_shorter b ps p a : In p ps -> In a (snd p) -> (length (written_type a) + 2 <= length (with_pats b ps))%nat.
Proof.
  intros I J. unfold with_pats. rewrite !app_length. cbn [length]. rewrite app_length. cbn [length].
  pose proof (join_longer PIPE (map written_pat ps) (written_pat p) (in_map _ _ _ I)). destruct p as [[m g] args]. cbn [written_pat] in H. rewrite !app_length in H.
  pose proof (join_longer COLON (map written_type args) (written_type a) (in_map _ _ _ J)). unfold written_args in H. lia.
Qed.
Lemma written_as b ps : ps <> [] -> written (Plain b ps) = with_pats b ps. Proof. apply written_plain. Qed.
Lemma written_type_as t b ps : ps <> [] -> written_type (t, Plain b ps) = with_pats (varint t ++ b) ps.
Proof. intros N. unfold written_type. cbn [fst snd]. rewrite written_as by auto. unfold with_pats. rewrite <- app_assoc. reflexivity. Qed.
Lemma starts_hd s c : s <> [] -> starts_with s c = (hd 0 s =? c). Proof. destruct s; [tauto|reflexivity]. Qed.
Lemma hd_app (a b : list Z) : a <> [] -> hd 0 (a ++ b) = hd 0 a. Proof. destruct a; [tauto|reflexivity]. Qed.
Lemma base_good b : good_base b -> base_bytes b. Proof. intros (N & _ & F). split; auto. Qed.
Lemma base_tagged t b : 0 <= t < 8 -> good_base b -> base_bytes (varint t ++ b).
Proof.
  intros Ht (N & _ & F). destruct (tag_bytes t Ht) as (Ft & Nt & _). split; [destruct (varint t); [tauto|discriminate]|]. apply Forall_app. auto.
Qed.
Lemma array_ends t c (pre : list Z) : ends_with (pre ++ written (Array t c)) RPAR = false.
Proof.
  cbn [written]. replace (pre ++ LBRA :: varint t ++ written c ++ [RBRA]) with ((pre ++ LBRA :: varint t ++ written c) ++ [RBRA])
    by (rewrite <- !app_assoc; cbn; rewrite <- !app_assoc; reflexivity). rewrite ends_snoc. reflexivity.
Qed.
Lemma tag_app_hd t (s : list Z) : 0 <= t < 8 -> starts_with (varint t ++ s) LBRA = false.
Proof.
  intros H. destruct (tag_bytes t H) as (_ & N & Nl). rewrite starts_hd, hd_app by (first [exact N | destruct (varint t); [tauto|discriminate]]). apply Z.eqb_neq. exact Nl.
Qed.
Definition decides (r : option bool) (P : Prop) : Prop := exists b, r = Some b /\ (b = true <-> P).
Lemma decides_iff r P Q : (P <-> Q) -> decides r P -> decides r Q.
Proof. intros E (b & H & I). exists b. split; auto. rewrite I. exact E. Qed.
Lemma beq_decides a b (P : Prop) : (a = b <-> P) -> decides (Some (beq a b)) P.
Proof. intros E. exists (beq a b). split; auto. rewrite beq_true. exact E. Qed.
(** a guest which does not end in a pattern, and is not an array *)
Lemma shallow_guest f host guest : ends_with guest RPAR = false -> starts_with guest LBRA = false -> host <> [] -> guest <> [] ->
  assignable (S f) host guest = Some (beq host guest).
Proof. intros E1 E2 Nh Ng. cbn [assignable]. rewrite E1, E2. cbn [negb]. destruct host, guest; tauto || reflexivity. Qed.
Lemma plain_host f host b ps : ends_with host RPAR = false -> Forall plain_byte b -> assignable (S f) host (with_pats b ps) = Some (beq host b).
Proof. intros E F. cbn [assignable]. rewrite with_pats_ends, E. cbn [negb]. rewrite with_pats_find, with_pats_base by auto. reflexivity. Qed.

Ltac absurd_ne := exfalso; match goal with H : [] <> [] |- _ => exact (H eq_refl) | H : _ |- _ => congruence end.
Lemma inside_ok : forall fuel t h u g, (length (written_type (t, h)) < fuel)%nat -> 0 <= t < 8 -> 0 <= u < 8 -> well_formed h -> well_formed g ->
  decides (assignable fuel (written_type (t, h)) (written_type (u, g))) (accepts_inside (t, h) (u, g)).
Proof.
  induction fuel as [|fuel IH]; intros t h u g L Ht Hu Wh Wg; [lia|].
  assert (Nh : written_type (t, h) <> []) by (unfold written_type; cbn [fst snd]; destruct (tag_bytes t Ht) as (_ & N & _); destruct (varint t); [tauto|discriminate]).
  assert (Ng : written_type (u, g) <> []) by (unfold written_type; cbn [fst snd]; destruct (tag_bytes u Hu) as (_ & N & _); destruct (varint u); [tauto|discriminate]).
  assert (Same : written_type (t, h) = written_type (u, g) <-> t = u /\ h = g).
  { split; [apply written_type_inj; auto|intros [-> ->]; reflexivity]. }
  assert (Hend : forall b, h = Plain b [] \/ (exists t' c, h = Array t' c) -> ends_with (written_type (t, h)) RPAR = false).
  { intros b [->|(t' & c & ->)]; unfold written_type; cbn [fst snd]; [|apply array_ends]. apply ends_plain. inversion_clear Wh as [? ? Gb _|].
    apply (base_tagged t b Ht Gb). }
  destruct g as [gb gps|gt gc].
  - assert (Gg : good_base gb) by (inversion Wg; auto). destruct gps as [|q gps].
    + rewrite shallow_guest; auto.
      * apply beq_decides. rewrite Same. split; [intros [-> ->]; constructor|]. intros A. inversion A; subst; auto; absurd_ne.
      * unfold written_type. cbn [fst snd written]. apply ends_plain, (base_tagged u gb Hu Gg).
      * apply (tag_app_hd u). exact Hu.
    + set (gps' := q :: gps) in *. assert (Ngp : gps' <> []) by (subst gps'; discriminate). rewrite (written_type_as u gb) by auto.
      destruct h as [hb hps|ht hc].
      * assert (Gh : good_base hb) by (inversion Wh; auto). destruct hps as [|p hps].
        -- rewrite plain_host; [|apply (Hend hb); auto|apply (base_tagged u gb Hu Gg)]. apply beq_decides. unfold written_type. cbn [fst snd written]. split.
           ++ intros E. apply varint_inj in E as [<- <-]; try (apply tag_word; auto). constructor.
           ++ intros A. inversion A; subst; [reflexivity|absurd_ne].
        -- set (hps' := p :: hps) in *. assert (Nhp : hps' <> []) by (subst hps'; discriminate). rewrite (written_type_as t hb) by auto.
           pose proof (good_pats_wf _ _ Wh Nhp) as Gph. pose proof (good_pats_wf _ _ Wg Ngp) as Gpg.
           eapply decides_iff; [|apply pats_ok; auto using base_tagged].
           ++ rewrite !hd_app by (apply tag_bytes; auto). split.
              ** intros [E A]. apply tag_first in E as <-; auto. apply i_pats; auto.
              ** intros A. inversion A; subst; auto.
           ++ intros [[hm hg] ha] [[gm gg] ga] [t1 c1] [t2 c2] I J Ia Ja. cbn [snd] in *.
              destruct (wf_args _ _ _ _ _ Wh I) as (_ & _ & _ & Wa). destruct (wf_args _ _ _ _ _ Wg J) as (_ & _ & _ & Wb).
              destruct (Wa _ _ Ia) as [? ?]. destruct (Wb _ _ Ja) as [? ?]. apply IH; auto.
              rewrite written_type_as in L by auto. pose proof (arg_shorter (varint t ++ hb) hps' (hm, hg, ha) (t1, c1) I Ia). lia.
      * rewrite plain_host; [|apply (Hend []); right; eauto|apply (base_tagged u gb Hu Gg)]. apply beq_decides. split.
        -- intros E. exfalso. unfold written_type in E. cbn [fst snd] in E. apply varint_inj in E as [_ E]; try (apply tag_word; auto).
           destruct Gg as (_ & Nb & _). apply Nb. rewrite <- E. reflexivity.
        -- intros A. inversion A.
  - rewrite shallow_guest; auto.
    + apply beq_decides. rewrite Same. split; [intros [-> ->]; constructor|]. intros A. inversion A; subst; auto.
    + apply array_ends.
    + apply (tag_app_hd u). exact Hu.
Qed.
Lemma assignable_ok h g : well_formed h -> well_formed g -> decides (isCanonAssignable (written h) (written g)) (accepts h g).
Proof.
  intros Wh Wg. unfold isCanonAssignable.
  assert (Nh : written h <> []) by (apply written_nonempty; auto). assert (Ng : written g <> []) by (apply written_nonempty; auto).
  destruct g as [gb gps|gt gc].
  - assert (Gg : good_base gb) by (inversion Wg; auto). destruct gps as [|q gps].
    + rewrite shallow_guest; auto.
      * apply beq_decides. split; [intros E; apply written_inj in E as ->; auto; constructor|]. intros A. inversion A; subst; auto; absurd_ne.
      * apply ends_plain, (base_good gb Gg).
      * rewrite starts_hd by auto. apply Z.eqb_neq. apply (hd_plain gb []). exact Wg.
    + set (gps' := q :: gps) in *. assert (Ngp : gps' <> []) by (subst gps'; discriminate). rewrite (written_as gb) by auto.
      destruct h as [hb hps|ht hc].
      * assert (Gh : good_base hb) by (inversion Wh; auto). destruct hps as [|p hps].
        -- rewrite plain_host; [|apply ends_plain, (base_good hb Gh)|apply (base_good gb Gg)]. apply beq_decides. cbn [written]. split.
           ++ intros ->. constructor.
           ++ intros A. inversion A; subst; [reflexivity|absurd_ne].
        -- set (hps' := p :: hps) in *. assert (Nhp : hps' <> []) by (subst hps'; discriminate). rewrite (written_as hb) by auto.
           pose proof (good_pats_wf _ _ Wh Nhp) as Gph. pose proof (good_pats_wf _ _ Wg Ngp) as Gpg.
           eapply decides_iff; [|apply pats_ok; auto using base_good].
           ++ split.
              ** intros [E A]. apply a_pats; auto.
              ** intros A. inversion A; subst; auto.
           ++ intros [[hm hg] ha] [[gm gg] ga] [t1 c1] [t2 c2] I J Ia Ja. cbn [snd] in *.
              destruct (wf_args _ _ _ _ _ Wh I) as (_ & _ & _ & Wa). destruct (wf_args _ _ _ _ _ Wg J) as (_ & _ & _ & Wb).
              destruct (Wa _ _ Ia) as [? ?]. destruct (Wb _ _ Ja) as [? ?]. apply inside_ok; auto.
              pose proof (arg_shorter hb hps' (hm, hg, ha) (t1, c1) I Ia). lia.
      * rewrite plain_host; [|apply (array_ends ht hc [])|apply (base_good gb Gg)]. apply beq_decides. split.
        -- intros E. exfalso. destruct Gg as (_ & Nb & _). apply Nb. rewrite <- E. reflexivity.
        -- intros A. inversion A.
  - cbn [assignable]. pose proof (array_ends gt gc []) as Xe; cbn [app] in Xe; rewrite Xe. change (starts_with (written (Array gt gc)) LBRA) with true. cbn [negb].
    rewrite starts_hd by auto. destruct h as [hb hps|ht hc].
    + pose proof (hd_plain _ _ Wh) as Nl. apply Z.eqb_neq in Nl. rewrite Nl. exists false. split; auto. split; [discriminate|]. intros A. inversion A.
    + change (hd 0 (written (Array ht hc)) =? LBRA) with true.
      assert (C : forall t c, cut (written (Array t c)) 1 (zlen (written (Array t c)) - 1) = Some (written_type (t, c))).
      { intros t c. cbn [written]. unfold written_type. cbn [fst snd].
        replace (LBRA :: varint t ++ written c ++ [RBRA]) with ([LBRA] ++ (varint t ++ written c) ++ [RBRA]) by (rewrite <- !app_assoc; reflexivity).
        replace (zlen ([LBRA] ++ (varint t ++ written c) ++ [RBRA]) - 1) with (zlen ([LBRA] ++ varint t ++ written c)) by (rewrite !zlen_app; change (zlen [RBRA]) with 1; lia).
        apply (cut_mid [LBRA]). }
      rewrite !C. cbn [obind]. inversion_clear Wh as [|? ? Ht Wh']. inversion_clear Wg as [|? ? Hg Wg']. eapply decides_iff; [|apply inside_ok; auto].
      * split; [apply a_array|]. intros A. inversion A; auto.
      * cbn [written]. unfold written_type. cbn [fst snd length]. rewrite !app_length. cbn [length]. lia.
Qed.
