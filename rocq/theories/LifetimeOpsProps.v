(** C52: operations on lifetimes: fields, references, masks (src/lifetime.fu). *)
From Verif Require Import LifetimeSpec LifetimeProofs LifetimeSem LifetimeMerge LifetimeInter LifetimeOps LifetimeProps LifetimeInterProps UsageProps CommonLemmas WordsLemmas.
Open Scope Z_scope.

Definition tip (p : path) : subregion := last p (SR 0 0).
(** ** What narrow, follow and descend mean for places *)
Local Lemma covers_snoc : forall p s x, covers (p ++ [s]) x <-> exists y, nth_error x (length p) = Some y /\ flatOffset s <= y < flatOffset s + flatCount s /\ covers p x.
Proof.
  induction p as [|t p IH]; intros s x; cbn [app length].
  - destruct x as [|y x]; cbn; [split; [intros []|intros (y & e & _); discriminate]|]. split; [intros [h _]; eauto|intros (z & e & h & _); injection e as ->; auto].
  - destruct x as [|y x]; cbn [covers nth_error]; [split; [intros []|intros (y & e & _); discriminate]|]. rewrite IH. split.
    + intros (h & z & e & h2 & h3). eauto.
    + intros (z & e & h2 & h3 & h4). split; [exact h3|eauto].
Qed.
Local Lemma covers_tip p x : p <> [] -> (covers p x <-> exists y, nth_error x (length p - 1) = Some y /\ flatOffset (tip p) <= y < flatOffset (tip p) + flatCount (tip p) /\ covers (removelast p) x).
Proof.
  intros np. rewrite (app_removelast_last (SR 0 0) np) at 1. fold (tip p). rewrite covers_snoc.
  replace (length (removelast p)) with (length p - 1)%nat; [reflexivity|]. rewrite (app_removelast_last (SR 0 0) np) at 1. rewrite app_length. cbn. lia.
Qed.
Theorem field_places : forall fc fo p x, p <> [] -> 0 <= fo -> fc + fo <= flatCount (tip p) ->
  (covers (narrow fc fo p) x <-> covers p x /\ exists y, nth_error x (length p - 1) = Some y /\ flatOffset (tip p) + fo <= y < flatOffset (tip p) + fo + fc).
Proof.
  intros fc fo p x np h1 h2. unfold narrow. rewrite covers_snoc. cbn [flatCount flatOffset]. fold (tip p). rewrite (covers_tip p x np).
  replace (length (removelast p)) with (length p - 1)%nat by (rewrite (app_removelast_last (SR 0 0) np) at 1; rewrite app_length; cbn; lia).
  split.
  - intros (y & e & r & c). split; [exists y; split; [exact e|split; [lia|exact c]]|exists y; auto].
  - intros [(y & e & r & c) (z & e2 & r2)]. rewrite e in e2. injection e2 as <-. eauto.
Qed.
Print Assumptions field_places.
Theorem deref_places : forall fc p x, covers (follow fc p) x <-> covers p x /\ exists y, nth_error x (length p) = Some y /\ 0 <= y < fc.
Proof.
  intros fc p x. unfold follow. rewrite covers_snoc. cbn [flatCount flatOffset]. split.
  - intros (y & e & r & c). split; [exact c|]. exists y. split; [exact e|lia].
  - intros [c (y & e & r)]. exists y. split; [exact e|]. split; [lia|exact c].
Qed.
Print Assumptions deref_places.
(** A place down [q] from [p]: the place down [p], and from its last slot on, counted from the start of what [p] refers
    to, a place of [q]. *)
Theorem descend_places : forall p q x, p <> [] -> q <> [] -> flatCount (tip p) >= flatOffset (hd (SR 0 0) q) + flatCount (hd (SR 0 0) q) -> 0 <= flatOffset (hd (SR 0 0) q) ->
  (covers (descend p q) x <-> covers p x /\ exists x1 y x2, x = x1 ++ y :: x2 /\ length x1 = (length p - 1)%nat /\ covers q (y - flatOffset (tip p) :: x2)).
Proof.
  intros p q x np nq h1 h2. destruct q as [|t q]; [congruence|]. cbn [descend hd] in *. fold (tip p). rewrite (covers_tip p x np).
  assert (sp : forall u s q x, covers (u ++ s :: q) x <-> exists x1 y x2, x = x1 ++ y :: x2 /\ length x1 = length u /\ covers u x1 /\ flatOffset s <= y < flatOffset s + flatCount s /\ covers q x2).
  { clear. induction u as [|w u IH]; intros s q x; cbn [app length].
    - destruct x as [|y x]; cbn [covers]; [split; [intros []|intros (x1 & y & x2 & e & _); destruct x1; discriminate]|]. split.
      + intros [h1 h2]. exists [], y, x. cbn. auto.
      + intros (x1 & z & x2 & e & l & c & h & k). destruct x1; [|discriminate]. injection e as -> ->. auto.
    - destruct x as [|y x]; cbn [covers]; [split; [intros []|intros (x1 & y & x2 & e & _); destruct x1; discriminate]|]. rewrite IH. split.
      + intros (h & x1 & z & x2 & -> & l & c & k). exists (y :: x1), z, x2. cbn. rewrite l. split; [reflexivity|]. split; [reflexivity|]. tauto.
      + intros (x1 & z & x2 & e & l & c & k). destruct x1 as [|y1 x1]; [destruct c|]. injection e as -> ->. cbn in l, c. split; [tauto|]. exists x1, z, x2. split; [reflexivity|]. split; [lia|tauto]. }
  assert (cv : forall u x1 x2, length x1 = length u -> (covers u (x1 ++ x2) <-> covers u x1)).
  { clear. induction u as [|w u IH]; intros [|y x1] x2 l; cbn in *; try tauto; try discriminate. rewrite IH by lia. tauto. }
  assert (lr : length (removelast p) = (length p - 1)%nat) by (rewrite (app_removelast_last (SR 0 0) np) at 2; rewrite app_length; cbn; lia).
  rewrite sp. cbn [flatCount flatOffset]. rewrite lr. split.
  - intros (x1 & y & x2 & -> & l & c & r & k). split.
    + exists y. split; [rewrite nth_error_app2, l, Nat.sub_diag by lia; reflexivity|]. split; [lia|]. apply cv; [lia|exact c].
    + exists x1, y, x2. split; [reflexivity|]. split; [exact l|]. cbn [covers]. split; [lia|exact k].
  - intros [(y & e & r & c) (x1 & z & x2 & -> & l & k)]. rewrite nth_error_app2, l, Nat.sub_diag in e by lia. injection e as <-. cbn [covers] in k.
    exists x1, z, x2. split; [reflexivity|]. split; [exact l|]. split; [apply cv in c; [exact c|lia]|]. split; [lia|apply k].
Qed.
Print Assumptions descend_places.
(** Going down is associative; a field is one step down. *)
Theorem descend_associates : forall p q r, p <> [] -> q <> [] -> descend (descend p q) r = descend p (descend q r).
Proof.
  intros p q r np nq. destruct r as [|t r]; [reflexivity|]. destruct q as [|s q]; [congruence|].
  assert (ra : forall (a : path) u b, removelast (a ++ u :: b) = a ++ removelast (u :: b)) by (intros; apply removelast_app; discriminate).
  assert (la : forall (a : path) u b, last (a ++ u :: b) (SR 0 0) = last (u :: b) (SR 0 0)).
  { intros a u b. induction a as [|v a IH]; [reflexivity|]. cbn [app]. rewrite <- IH. destruct (a ++ u :: b) eqn:e; [destruct a; discriminate|reflexivity]. }
  destruct q as [|s2 q].
  - cbn [descend removelast last app flatCount flatOffset]. rewrite ra, la. cbn [removelast last flatOffset]. rewrite app_nil_r, Z.add_assoc. reflexivity.
  - cbn [descend]. rewrite ra, la. change (removelast (s :: s2 :: q)) with (s :: removelast (s2 :: q)). cbn [app].
    change (removelast (?a :: s2 :: q)) with (a :: removelast (s2 :: q)). change (last (s :: s2 :: q) (SR 0 0)) with (last (s2 :: q) (SR 0 0)).
    change (last (?a :: s2 :: q) (SR 0 0)) with (last (s2 :: q) (SR 0 0)). rewrite <- app_assoc. reflexivity.
Qed.
Print Assumptions descend_associates.
Theorem field_is_a_step_down : forall fc fo p, p <> [] -> narrow fc fo p = descend p [SR fc fo].
Proof. reflexivity. Qed.
Print Assumptions field_is_a_step_down.

(** ** The operations do this to every path, and to nothing else. *)
Definition every_path (P : path -> Prop) (L : list region) : Prop := forall r ps p, In (r, Some ps) L -> In p ps -> P p.
Local Lemma flat_one {A B} (f : A -> B) l : flat_map (fun a => [f a]) l = map f l.
Proof. induction l; cbn; congruence. Qed.
Local Lemma map_paths_ext F G L : (forall ps, F ps = G ps) -> map_paths F L = map_paths G L.
Proof. intros h. unfold map_paths. apply map_ext. intros [r [ps|]]; cbn; [rewrite h|]; reflexivity. Qed.
Local Lemma op_spec s L f G d t : is_lifetime s L -> writes_paths f G -> Lifetime_op s d (on_last f) = Some t ->
  is_lifetime t (map_paths (flat_map G) L) /\ op_valid (flat_map G) d L.
Proof.
  intros (lb & ok & so) wp e. destruct (items_of L s ok lb) as (is & <- & <- & oki). unfold Lifetime_op in e.
  destruct (LifetimeProps.each_spec is oki) as (es & ee & f2). rewrite ee in e. cbn [obind] in e.
  destruct (op_regions_spec (on_last f) (flat_map G) d (ibytes is)) with (L := is) (es := es) (result := @nil Z) (out := t) as (bs & -> & l1 & o1 & v1); auto.
  { intros ps stss result out okp _ as_ eo. eapply on_last_spec; eassumption. }
  split; [|exact v1]. split; [exact l1|]. split; [exact o1|]. apply map_paths_sorted, so.
Qed.
Local Lemma op_total s L f G P d : is_lifetime s L -> writes_paths f G -> can_write f P -> op_valid (flat_map G) d L -> every_path P L -> exists t, Lifetime_op s d (on_last f) = Some t.
Proof.
  intros (lb & ok & so) wp cw v hp. destruct (items_of L s ok lb) as (is & <- & <- & oki). unfold Lifetime_op.
  destruct (LifetimeProps.each_spec is oki) as (es & ee & f2). rewrite ee. cbn [obind].
  apply (op_regions_total (on_last f) (flat_map G) P d (ibytes is)) with (L := is); auto.
  { intros ps stss result out okp _ as_ eo. eapply on_last_spec; eassumption. }
  { intros ps stss result okp hp' as_. eapply on_last_total; eassumption. }
  apply Forall_forall. intros [r [ps|]] i; [|exact I]. cbn [snd]. apply Forall_forall. intros p ip. exact (hp r ps p i ip).
Qed.
Local Lemma op_only s L f (Q : path -> Prop) d t : is_lifetime s L -> Lifetime_op s d (on_last f) = Some t ->
  (forall p lp sts st result out, path_ok p -> steps lp true [] p sts -> last_step sts = Some st -> f result st = Some out -> Q p) -> every_path Q L.
Proof.
  intros (lb & ok & so) e h. destruct (items_of L s ok lb) as (is & <- & <- & oki). unfold Lifetime_op in e.
  destruct (LifetimeProps.each_spec is oki) as (es & ee & f2). rewrite ee in e. cbn [obind] in e. clear lb so ok ee. revert e. generalize (@nil Z) as result. revert f2. generalize (ibytes is) as chars. intros chars f2.
  revert oki. induction f2 as [|e0 i es is (h1 & h2 & h3) f2 IH]; intros oki result e r ps p ir ip; [destruct ir|]. apply Forall_cons_iff in oki. destruct oki as [oi oki]. cbn [op_regions] in e. rewrite h2, h3 in e.
  destruct oi as ((w & oc) & n & cb). destruct (beq (i_bc i) SR_empty) eqn:eb.
  - destruct ir as [ir|ir]; [|eapply IH; eassumption]. rewrite ir in cb, oc. cbn [snd content_bytes] in cb, oc. apply beq_true in eb. rewrite eb in cb. exfalso. eapply paths_not_empty; [apply oc|exact cb|reflexivity].
  - apply obindE in e. destruct e as ([] & _ & e). apply obindE in e. destruct e as (wk & ew & e). apply obindE in e. destruct e as (r1 & e1 & e). apply obindE in e. destruct e as ([] & _ & e).
    destruct ir as [ir|ir]; [|eapply IH; eassumption]. rewrite ir in cb, oc. cbn [snd content_bytes] in cb, oc. destruct oc as [_ okp].
    destruct (walk_paths_all ps (i_bc i) okp cb) as (stss & ew' & as_). rewrite ew in ew'. injection ew' as ->. cbn [fst] in e1. clear - okp as_ e1 ip h.
    revert e1 okp ip. generalize (result ++ i_br i) as res. induction as_ as [q sts s1|q qs sts stss s1 k IH]; intros res e1 okp ip; apply Forall_cons_iff in okp; destruct okp as [o okp]; cbn [on_last] in e1;
      apply obindE in e1; destruct e1 as (st & es & e1); apply obindE in e1; destruct e1 as (r & ef & e1); (destruct ip as [->|ip]; [exact (h _ _ _ _ _ _ o s1 es ef)|]).
    + destruct ip.
    + eapply IH; eassumption.
Qed.
(** Valid results: at most 64 paths into a region, at most 64 levels, one size; regions with paths are variables. *)
Definition fits (L : list region) : Prop := forall r ps, In (r, Some ps) L -> unpackLocid r <> 0 /\ (length ps <= 64)%nat /\ Forall (fun p => (length p <= 64)%nat) ps.
Local Lemma op_valid_map G d L : fits (map_paths (map G) L) -> (forall r ps, In (r, Some ps) L -> same_size (map G ps)) -> every_path (fun p => d <= Z.of_nat (length (G p))) L -> op_valid (flat_map (fun p => [G p])) d L.
Proof.
  intros ft sz dp. apply Forall_forall. intros [r [ps|]] i; [|exact I]. cbn [snd fst].
  assert (i' : In (r, Some (map G ps)) (map_paths (map G) L)) by (apply in_map_iff; exists (r, Some ps); auto).
  destruct (ft r _ i') as (f1 & f2 & f3). split; [exact f1|]. rewrite flat_one. unfold valid. replace (Z.of_nat (length (map G ps)) <=? 64) with true by (symmetry; apply Z.leb_le; lia). cbn [andb orb].
  apply andb_true_iff. split.
  - apply forallb_forall. intros q iq. rewrite Forall_forall in f3. pose proof (f3 q iq) as l. apply in_map_iff in iq. destruct iq as (p & <- & ip). pose proof (dp r ps p i ip) as l2. cbn beta in l2. lia.
  - destruct (sz r ps i) as [n s]. destruct (map G ps) as [|g gs]; [reflexivity|]. apply Forall_cons_iff in s. destruct s as [e s]. apply forallb_forall. intros q iq. rewrite Forall_forall in s. specialize (s q iq). apply Z.eqb_eq. congruence.
Qed.
(** A field *)
Theorem lifetime_field : forall s L fc fo t, is_lifetime s L -> 0 <= fo -> Lifetime_op_field s fc fo = Some t ->
  is_lifetime t (map_paths (map (narrow fc fo)) L) /\ every_path (fun p => 0 < fc /\ fc + fo <= flatCount (tip p)) L.
Proof.
  intros s L fc fo t h ho e. unfold Lifetime_op_field in e. destruct (op_spec s L _ _ 1 t h (field_writes fc fo ho) e) as [h1 _]. split.
  - rewrite (map_paths_ext (map (narrow fc fo)) (flat_map (fun p => [narrow fc fo p]))) by (intros; symmetry; apply flat_one). exact h1.
  - eapply op_only; [exact h|exact e|]. intros p lp sts st result out ok st1 ls ef. eapply field_only; eassumption.
Qed.
Print Assumptions lifetime_field.
Local Lemma narrow_len fc fo p : path_ok p -> length (narrow fc fo p) = length p.
Proof. intros ok. unfold narrow. rewrite app_length. pose proof (f_equal (@List.length subregion) (app_removelast_last (SR 0 0) (path_ok_nonempty p ok))) as e. rewrite app_length in e. cbn [List.length] in *. lia. Qed.
Local Lemma narrow_count fc fo p : last_count (narrow fc fo p) = fc.
Proof. unfold last_count, narrow. rewrite rev_app_distr. reflexivity. Qed.
Local Lemma lifetime_paths_ok s L r ps p : is_lifetime s L -> In (r, Some ps) L -> In p ps -> path_ok p.
Proof. intros (_ & ok & _) i ip. rewrite Forall_forall in ok. destruct (ok _ i) as [_ [_ o]]. rewrite Forall_forall in o. auto. Qed.
Theorem lifetime_field_is_total : forall s L fc fo, is_lifetime s L -> 0 <= fo -> 0 < fc -> every_path (fun p => fc + fo <= flatCount (tip p)) L -> fits L ->
  exists t, Lifetime_op_field s fc fo = Some t.
Proof.
  intros s L fc fo h ho hc hp ft. unfold Lifetime_op_field. eapply op_total; [exact h|apply field_writes, ho|apply (field_can fc fo ho hc)| |exact hp].
  apply op_valid_map.
  - intros r ps i. apply in_map_iff in i. destruct i as ([r' [ps'|]] & e & i); [|discriminate]. injection e as -> <-. destruct (ft r ps' i) as (f1 & f2 & f3). refine (conj f1 (conj _ _)); [rewrite map_length; exact f2|].
    apply Forall_forall. intros q iq. apply in_map_iff in iq. destruct iq as (p & <- & ip). rewrite narrow_len by (eapply lifetime_paths_ok; eassumption). rewrite Forall_forall in f3. auto.
  - intros r ps _. exists fc. apply Forall_forall. intros q iq. apply in_map_iff in iq. destruct iq as (p & <- & _). apply narrow_count.
  - intros r ps p i ip. rewrite narrow_len by (eapply lifetime_paths_ok; eassumption). pose proof (lifetime_paths_ok s L r ps p h i ip) as o. destruct p; [destruct o|cbn [length]; lia].
Qed.
Print Assumptions lifetime_field_is_total.
(** A reference followed *)
Theorem lifetime_deref : forall s L fc t, is_lifetime s L -> fc < 2 ^ 31 -> Lifetime_op_deref s fc = Some t ->
  is_lifetime t (map_paths (map (follow fc)) L) /\ every_path (fun p => flatCount (tip p) = 1) L.
Proof.
  intros s L fc t h ho e. unfold Lifetime_op_deref in e. destruct (op_spec s L _ _ 2 t h (deref_writes fc ho) e) as [h1 _]. split.
  - rewrite (map_paths_ext (map (follow fc)) (flat_map (fun p => [follow fc p]))) by (intros; symmetry; apply flat_one). exact h1.
  - eapply op_only; [exact h|exact e|]. intros p lp sts st result out ok st1 ls ef.
    destruct (steps_last_step lp p true [] sts st1) as (st' & pb & e1 & e2 & _). rewrite ls in e1. injection e1 as <-. unfold deref_step in ef. apply obindE in ef. destruct ef as ([] & c & _). apply check_Some in c. rewrite e2 in c. unfold tip. lia.
Qed.
Print Assumptions lifetime_deref.
Theorem lifetime_deref_is_total : forall s L fc, is_lifetime s L -> 0 < fc < 2 ^ 31 -> every_path (fun p => flatCount (tip p) = 1) L -> fits (map_paths (map (follow fc)) L) ->
  exists t, Lifetime_op_deref s fc = Some t.
Proof.
  intros s L fc h hc hp ft. unfold Lifetime_op_deref. eapply op_total; [exact h|apply deref_writes; lia|apply (deref_can fc hc)| |exact hp].
  apply op_valid_map; [exact ft| |].
  - intros r ps _. exists fc. apply Forall_forall. intros q iq. apply in_map_iff in iq. destruct iq as (p & <- & _). unfold last_count, follow. rewrite rev_app_distr. reflexivity.
  - intros r ps p i ip. pose proof (lifetime_paths_ok s L r ps p h i ip) as o. unfold follow. rewrite app_length. destruct p; [destruct o|cbn [length]; lia].
Qed.
Print Assumptions lifetime_deref_is_total.
(** Down every path of a list *)
Theorem lifetime_join : forall s L qs child t, is_lifetime s L -> Forall path_ok qs -> paths_bytes qs child -> Lifetime_op_join s child = Some t ->
  is_lifetime t (map_paths (flat_map (fun p => map (descend p) qs)) L) /\
  every_path (fun p => forall q, In q qs -> flatOffset (hd (SR 0 0) q) + flatCount (hd (SR 0 0) q) <= flatCount (tip p)) L.
Proof.
  intros s L qs child t h okq pq e. unfold Lifetime_op_join in e. destruct (op_spec s L _ _ 1 t h (join_writes qs child okq pq) e) as [h1 _]. split; [exact h1|].
  eapply op_only; [exact h|exact e|]. intros p lp sts st result out ok st1 ls ef q iq.
  destruct (steps_last_step lp p true [] sts st1) as (st' & pb & e1 & e2 & e3 & e4 & e5 & e6). rewrite ls in e1. injection e1 as <-.
  unfold join_step in ef. destruct (walk_paths_all qs child okq pq) as (stss & ew & as_). rewrite ew in ef. cbn [obind fst] in ef.
  destruct (join_all st p pb ok e2 e5 e6 qs stss result out okq as_ ef) as (bs & _ & _ & _ & f). rewrite Forall_forall in f. exact (f q iq).
Qed.
Print Assumptions lifetime_join.
(** So the places of a join: those down a path of the one and then a path of the other. *)
Theorem lifetime_join_places : forall s L qs child t, is_lifetime s L -> Forall path_ok qs -> paths_bytes qs child -> Lifetime_op_join s child = Some t ->
  exists T, is_lifetime t T /\ forall r x, inside T r x <->
    In (r, None) L \/ exists ps p q, In (r, Some ps) L /\ In p ps /\ In q qs /\ covers p x /\
      exists x1 y x2, x = x1 ++ y :: x2 /\ length x1 = (length p - 1)%nat /\ covers q (y - flatOffset (tip p) :: x2).
Proof.
  intros s L qs child t h okq pq e. destruct (lifetime_join s L qs child t h okq pq e) as [h1 h2]. eexists. split; [exact h1|]. intros r x. rewrite inside_denote.
  assert (dp : forall ps p q, In (r, Some ps) L -> In p ps -> In q qs -> (covers (descend p q) x <-> covers p x /\ exists x1 y x2, x = x1 ++ y :: x2 /\ length x1 = (length p - 1)%nat /\ covers q (y - flatOffset (tip p) :: x2))).
  { intros ps p q i ip iq. apply descend_places.
    - apply path_ok_nonempty. exact (lifetime_paths_ok s L r ps p h i ip).
    - rewrite Forall_forall in okq. apply path_ok_nonempty. auto.
    - specialize (h2 r ps p i ip q iq). lia.
    - rewrite Forall_forall in okq. specialize (okq q iq). destruct q; [destruct okq|]. apply path_ok_cons in okq. destruct okq as [[o _] _]. cbn [hd]. lia. }
  split.
  - intros (c & i & d). apply in_map_iff in i. destruct i as ([r' [ps|]] & eq & i); injection eq as -> <-; [right|left; exact i]. cbn [denote option_map snd] in d. destruct d as (w & iw & cw).
    apply in_flat_map in iw. destruct iw as (p & ip & iw). apply in_map_iff in iw. destruct iw as (q & <- & iq). exists ps, p, q. apply (dp ps p q i ip iq) in cw. tauto.
  - intros [i|(ps & p & q & i & ip & iq & k)].
    + exists None. split; [|exact I]. apply in_map_iff. exists (r, None). auto.
    + exists (Some (flat_map (fun p => map (descend p) qs) ps)). split; [apply in_map_iff; exists (r, Some ps); auto|]. exists (descend p q). split; [apply in_flat_map; exists p; split; [exact ip|apply in_map, iq]|]. apply (dp ps p q i ip iq). exact k.
Qed.
Print Assumptions lifetime_join_places.
(** What is shared: through the reference, or static. *)
Theorem lifetime_shared : forall s L fc t, is_lifetime s L -> fc < 2 ^ 31 -> Lifetime_makeShared s fc = Some t ->
  exists T, is_lifetime t T /\ forall r x, inside T r x <-> r = 1 \/ inside (map_paths (map (follow fc)) L) r x.
Proof.
  intros s L fc t h ho e. unfold Lifetime_makeShared in e. apply obindE in e. destruct e as (d & e1 & e2). destruct (lifetime_deref s L fc d h ho e1) as [hd _].
  assert (st : is_lifetime Region_STATIC [(1, None)]).
  { split; [apply (lb_cons 1 None [] [1] [0; 0] []); [n1|exact eq_refl|constructor]|]. split; [constructor; [ok_r|constructor]|repeat constructor]. }
  destruct (lifetime_union_is_union d _ Region_STATIC _ false t hd st e2) as (T & hT & iT & _). exists T. split; [exact hT|]. intros r x. rewrite iT. rewrite inside_cons. cbn [fst snd denote]. pose proof (inside_nil r x).
  intuition auto.
Qed.
Print Assumptions lifetime_shared.
