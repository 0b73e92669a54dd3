(** Proofs about lifetimes: merging two sorted lists of regions, byte by byte. *)
From Verif Require Import LifetimeSpec LifetimeProofs LifetimeSem CommonLemmas WordsLemmas.
Open Scope Z_scope.

(* ---------- the order ---------- *)
Lemma land3 r : Z.land r 3 = r mod 4.
Proof. change 3 with (Z.ones 2). rewrite Z.land_ones by lia. reflexivity. Qed.
Lemma static_mod r : Z.land r 11 = 1 -> r mod 4 = 1.
Proof.
  intros h. rewrite <- land3. assert (e : Z.land (Z.land r 11) 3 = Z.land r 3) by (rewrite <- Z.land_assoc; reflexivity).
  rewrite <- e, h. reflexivity.
Qed.
Lemma cmp_cases l r : (region_cmp l r = 0 /\ l = r) \/ (region_cmp l r = -1 /\ before l r) \/ (region_cmp l r = 1 /\ before r l).
Proof.
  unfold region_cmp, before, class, isStaticOrZeroes, isTemporary, cmp3. rewrite !land3.
  pose proof (static_mod l) as sl. pose proof (static_mod r) as sr.
  destruct (Z.eqb_spec (Z.land l 11) 1) as [a|a], (Z.eqb_spec (Z.land r 11) 1) as [b|b]; try specialize (sl a); try specialize (sr b);
  destruct (Z.eqb_spec l 9) as [c|c]; try (subst l; exfalso; revert a; cbn; lia);
  destruct (Z.eqb_spec r 9) as [d|d]; try (subst r; exfalso; revert b; cbn; lia); cbn [Bool.eqb negb];
  destruct (Z.eqb_spec (l mod 4) 2) as [e|e], (Z.eqb_spec (r mod 4) 2) as [f|f]; try lia;
  repeat match goal with |- context [?x <? ?y] => destruct (Z.ltb_spec x y) end; cbn [Z.eqb Pos.eqb]; lia.
Qed.
Lemma before_irrefl r : ~ before r r.
Proof. unfold before. destruct (class r =? 2); lia. Qed.
Lemma before_trans a b c : before a b -> before b c -> before a c.
Proof.
  unfold before. intros [h|[h h1]] [k|[k k1]]; try (left; lia). right. split; [lia|].
  rewrite h in *. destruct (class b =? 2); lia.
Qed.

(* ---------- items: a region and its bytes ---------- *)
Record item := { i_g : region; i_br : list Z; i_bc : list Z }.
Definition i_r (i : item) : Z := fst (i_g i).
Definition i_all (i : item) : list Z := i_br i ++ i_bc i.
Definition item_ok (i : item) : Prop := region_ok (i_g i) /\ num7 (i_r i) (i_br i) /\ content_bytes (snd (i_g i)) (i_bc i).
Definition ibytes (is : list item) : list Z := concat (map i_all is).
Lemma items_of L bs : Forall region_ok L -> lifetime_bytes L bs -> exists is, map i_g is = L /\ ibytes is = bs /\ Forall item_ok is.
Proof.
  intros ok lb. induction lb as [|r c L br bc bs n1 n2 lb IH]; [exists []; auto|].
  inversion_clear ok as [|? ? o1 o2]. destruct (IH o2) as (is & e1 & e2 & e3).
  exists ({| i_g := (r, c); i_br := br; i_bc := bc |} :: is). cbn. rewrite e1. unfold ibytes in e2. rewrite e2. unfold i_all. cbn. rewrite <- app_assoc.
  refine (conj eq_refl (conj eq_refl _)). constructor; [|exact e3]. split; [exact o1|]. auto.
Qed.
Lemma items_bytes is : Forall item_ok is -> lifetime_bytes (map i_g is) (ibytes is).
Proof.
  induction 1 as [|i is (o1 & o2 & o3) f IH]; [constructor|]. unfold ibytes in *. cbn. unfold i_all. rewrite <- app_assoc.
  destruct i as [[r c] br bc]. constructor; assumption.
Qed.
Lemma load_item i pre rest : item_ok i ->
  load (pre ++ i_all i ++ rest) (zlen pre) =
    Some {| e_r := i_r i; e_start := zlen pre; e_paths0 := zlen pre + zlen (i_br i); e_end := zlen pre + zlen (i_all i) |}.
Proof.
  intros ((w & o) & n & c). unfold load. unfold i_all. rewrite <- app_assoc.
  rewrite (parse7_num pre (i_r i) (i_br i)) by assumption. cbn [obind fst snd].
  rewrite <- zlen_app. rewrite (app_assoc pre).
  unfold i_r in *. destruct (snd (i_g i)) as [ps|]; cbn [content_bytes] in c.
  - destruct o as [_ o]. destruct (walk_paths_at ps (i_bc i) (pre ++ i_br i) rest o c) as (stss & -> & _). cbn [obind snd].
    f_equal. f_equal; rewrite ?zlen_app; lia.
  - rewrite c. destruct (walk_empty_at (pre ++ i_br i) rest) as (stss & ->). cbn [obind snd].
    f_equal. f_equal; rewrite ?zlen_app; try lia. change (zlen SR_empty) with 2. lia.
Qed.
Lemma item_slices i pre rest : let e := {| e_r := i_r i; e_start := zlen pre; e_paths0 := zlen pre + zlen (i_br i); e_end := zlen pre + zlen (i_all i) |} in
  let chars := pre ++ i_all i ++ rest in
  slice chars (e_start e) (e_paths0 e) = i_br i /\ slice chars (e_paths0 e) (e_end e) = i_bc i /\ slice chars (e_start e) (e_end e) = i_all i.
Proof.
  cbv zeta. cbn [e_start e_paths0 e_end]. refine (conj _ (conj _ _)).
  - unfold i_all. rewrite <- app_assoc. apply slice_mid.
  - unfold i_all. rewrite zlen_app, Z.add_assoc, <- zlen_app, <- app_assoc, (app_assoc pre). apply slice_mid.
  - apply slice_mid.
Qed.
Lemma item_nonempty i : item_ok i -> i_all i <> [].
Proof. intros (_ & n & _). apply num7_nonempty in n. unfold i_all. destruct (i_br i); [congruence|discriminate]. Qed.

(* ---------- the merge, on items ---------- *)
Section AM.
Context {St Res : Type} (on : St -> ev -> option (act St Res)).
Fixpoint amerge (fuel : nat) (s : St) (L R : list item) : option (act St Res) :=
  match fuel with
  | O => None
  | S f =>
      match L, R with
      | [], _ => finish on s ELeftDone (ibytes R)
      | _ :: _, [] => finish on s ERightDone (ibytes L)
      | l :: L', r :: R' =>
          let cmp := region_cmp (i_r l) (i_r r) in
          if cmp =? 0 then
            do a <- on s (EBoth (i_br l) (i_bc l) (i_bc r) (unpackLocid (i_r r)));
            match a with Ret x => Some (Ret x) | Go s => amerge f s L' R' end
          else if cmp <? 0 then
            do a <- on s (EEither (i_all l)); match a with Ret x => Some (Ret x) | Go s => amerge f s L' R end
          else do a <- on s (EEither (i_all r)); match a with Ret x => Some (Ret x) | Go s => amerge f s L R' end
      end
  end.
Definition loaded (i : item) (pre : list Z) : entry :=
  {| e_r := i_r i; e_start := zlen pre; e_paths0 := zlen pre + zlen (i_br i); e_end := zlen pre + zlen (i_all i) |}.
(** The state of one side: its items, the bytes before them, whether the first is loaded. *)
Definition side (chars : list Z) (L : list item) (cur : option entry) (o : Z) : Prop :=
  exists pre, chars = pre ++ ibytes L /\
    match cur with None => o = zlen pre | Some e => exists l L', L = l :: L' /\ e = loaded l pre /\ o = e_end e end.
Lemma side_next chars l L e o : side chars (l :: L) (Some e) o -> side chars L None (e_end e).
Proof.
  intros (pre & c & l' & L' & eq & -> & _). injection eq as <- <-. exists (pre ++ i_all l). split.
  - rewrite c. unfold ibytes. cbn. rewrite <- app_assoc. reflexivity.
  - cbn. rewrite zlen_app. reflexivity.
Qed.
Lemma side_load chars l L o : item_ok l -> side chars (l :: L) None o ->
  (o <? zlen chars) = true /\ exists e, load chars o = Some e /\ side chars (l :: L) (Some e) (e_end e).
Proof.
  intros ok (pre & c & ->). split.
  - pose proof (item_nonempty l ok) as ne. rewrite c, zlen_app. unfold ibytes. cbn [map concat]. rewrite zlen_app.
    pose proof (zlen_nonneg (concat (map i_all L))). assert (0 < zlen (i_all l)) by (unfold zlen; destruct (i_all l); [congruence|cbn; lia]). lia.
  - exists (loaded l pre). split.
    + rewrite c. unfold ibytes. cbn [map concat]. apply load_item, ok.
    + exists pre. split; [exact c|]. exists l, L. auto.
Qed.
Lemma side_end chars o : side chars [] None o -> (o <? zlen chars) = false.
Proof. intros (pre & c & ->). rewrite c. unfold ibytes. cbn. rewrite app_nil_r. lia. Qed.
Lemma side_facts chars l L e o : side chars (l :: L) (Some e) o ->
  e_r e = i_r l /\ slice chars (e_start e) (e_paths0 e) = i_br l /\ slice chars (e_paths0 e) (e_end e) = i_bc l /\ whole chars e = i_all l /\
  slice_from chars (e_start e) = ibytes (l :: L).
Proof.
  intros (pre & c & l' & L' & eq & -> & _). injection eq as <- <-.
  destruct (item_slices l pre (ibytes L)) as (a1 & a2 & a3). cbv zeta in *.
  assert (cc : chars = pre ++ i_all l ++ ibytes L) by (rewrite c; reflexivity). rewrite cc in *.
  refine (conj eq_refl (conj a1 (conj a2 (conj a3 _)))). apply slice_from_mid.
Qed.
Lemma merge_loop_amerge lc rc : forall fuel s L R l lo r ro, Forall item_ok L -> Forall item_ok R -> side lc L l lo -> side rc R r ro ->
  merge_loop on lc rc fuel s l lo r ro = amerge fuel s L R.
Proof.
  induction fuel as [|f IH]; intros s L R l lo r ro okL okR sl sr; [reflexivity|]. cbn [merge_loop amerge].
  destruct L as [|il L].
  { destruct l as [e|]; [destruct sl as (pre & _ & ? & ? & eq & _); discriminate|]. rewrite (side_end _ _ sl). cbn [obind].
    f_equal. destruct r as [e|].
    - destruct R as [|ir R]; [destruct sr as (pre & _ & ? & ? & eq & _); discriminate|]. apply (side_facts _ _ _ _ _ sr).
    - destruct sr as (pre & -> & ->). apply slice_from_mid. }
  inversion_clear okL as [|? ? okl okL'].
  assert (ll : exists le, (match l with Some e => Some (Some e) | None => if lo <? zlen lc then do e <- load lc lo; Some (Some e) else Some None end) = Some (Some le)
            /\ side lc (il :: L) (Some le) (e_end le)).
  { destruct l as [e|].
    - exists e. split; [reflexivity|]. destruct sl as (pre & c & x & y & eq & e1 & ->). exists pre. split; [exact c|]. exists x, y. auto.
    - destruct (side_load _ _ _ _ okl sl) as (-> & e & -> & k). exists e. auto. }
  destruct ll as (le & -> & sl'). cbn [obind]. clear sl.
  destruct (side_facts _ _ _ _ _ sl') as (f1 & f2 & f3 & f4 & f5).
  destruct R as [|ir R].
  { destruct r as [e|]; [destruct sr as (pre & _ & ? & ? & eq & _); discriminate|]. rewrite (side_end _ _ sr). cbn [obind]. rewrite f5. reflexivity. }
  inversion_clear okR as [|? ? okr okR'].
  assert (rr : exists re, (match r with Some e => Some (Some e) | None => if ro <? zlen rc then do e <- load rc ro; Some (Some e) else Some None end) = Some (Some re)
            /\ side rc (ir :: R) (Some re) (e_end re)).
  { destruct r as [e|].
    - exists e. split; [reflexivity|]. destruct sr as (pre & c & x & y & eq & e1 & ->). exists pre. split; [exact c|]. exists x, y. auto.
    - destruct (side_load _ _ _ _ okr sr) as (-> & e & -> & k). exists e. auto. }
  destruct rr as (re & -> & sr'). cbn [obind]. clear sr.
  destruct (side_facts _ _ _ _ _ sr') as (g1 & g2 & g3 & g4 & g5).
  rewrite f1, f2, f3, f4, g1, g3, g4. cbv zeta.
  pose proof (side_next _ _ _ _ _ sl') as nl. pose proof (side_next _ _ _ _ _ sr') as nr.
  destruct (region_cmp (i_r il) (i_r ir) =? 0).
  - destruct (on s _) as [[s'|x]|]; cbn [obind]; auto.
  - destruct (region_cmp (i_r il) (i_r ir) <? 0).
    + destruct (on s _) as [[s'|x]|]; cbn [obind]; auto. 
    + destruct (on s _) as [[s'|x]|]; cbn [obind]; auto.
Qed.
Lemma ibytes_len L : Forall item_ok L -> (length L <= length (ibytes L))%nat.
Proof.
  induction 1 as [|i L o f IH]; [cbn; lia|]. unfold ibytes in *. cbn [map concat]. rewrite app_length. pose proof (item_nonempty i o).
  destruct (i_all i); [congruence|cbn [length]; lia].
Qed.
Lemma merge_amerge s L R : Forall item_ok L -> Forall item_ok R ->
  exists fuel, (length L + length R < fuel)%nat /\ merge on (ibytes L) (ibytes R) s = amerge fuel s L R.
Proof.
  intros okL okR. exists (S (length (ibytes L) + length (ibytes R))). pose proof (ibytes_len L okL). pose proof (ibytes_len R okR). split; [lia|].
  unfold merge. apply merge_loop_amerge; auto; exists []; auto.
Qed.
End AM.

(* ---------- what a content denotes ---------- *)
Definition denote (c : option (list path)) (x : place) : Prop := match c with None => True | Some ps => covered ps x end.
Definition content_ok (c : option (list path)) : Prop := match c with None => True | Some ps => ps <> [] /\ Forall path_ok ps end.
Lemma inside_denote L r x : inside L r x <-> exists c, In (r, c) L /\ denote c x.
Proof. unfold inside, denote, covered. split; intros (c & i & h); exists c; split; auto; destruct c; auto. Qed.
Lemma inside_cons g L r x : inside (g :: L) r x <-> (fst g = r /\ denote (snd g) x) \/ inside L r x.
Proof.
  rewrite !inside_denote. split.
  - intros (c & [->|i] & h); [left; auto|right; eauto].
  - intros [[<- h]|(c & i & h)]; [exists (snd g); split; [left; destruct g; reflexivity|exact h]|exists c; split; [right; exact i|exact h]].
Qed.
Lemma inside_nil r x : ~ inside [] r x.
Proof. intros (c & [] & _). Qed.
Lemma content_inj c c' bs : content_ok c -> content_ok c' -> content_bytes c bs -> content_bytes c' bs -> c = c'.
Proof.
  intros o o' h h'. destruct c as [ps|], c' as [qs|]; cbn in *.
  - f_equal. eapply paths_bytes_inj; [apply o|apply o'|exact h|exact h'].
  - subst. exfalso. eapply paths_not_empty; [apply o|exact h|reflexivity].
  - subst. exfalso. eapply paths_not_empty; [apply o'|exact h'|reflexivity].
  - reflexivity.
Qed.
Lemma content_empty c bs : content_ok c -> content_bytes c bs -> (bs = SR_empty <-> c = None).
Proof.
  intros o h. split; [intros ->|intros ->; exact h]. destruct c as [ps|]; [|reflexivity]. exfalso. eapply paths_not_empty; [apply o|exact h|reflexivity].
Qed.
Lemma lb_app L M a b : lifetime_bytes L a -> lifetime_bytes M b -> lifetime_bytes (L ++ M) (a ++ b).
Proof. induction 1 as [|r c L br bc bs n1 n2 lb IH]; intros h; [exact h|]. cbn. rewrite <- !app_assoc. constructor; auto. Qed.
