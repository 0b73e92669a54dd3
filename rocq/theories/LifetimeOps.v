(** Proofs about lifetimes: operations that map every path. *)
From Verif Require Import LifetimeSpec LifetimeProofs LifetimeSem LifetimeMerge LifetimeInter CommonLemmas WordsLemmas.
Open Scope Z_scope.

(** ** What the operations do to a path: to a field of what it refers to; through the reference it refers to; down a
    path that starts from what it refers to. *)
Definition narrow (fc fo : Z) (p : path) : path := removelast p ++ [SR fc (flatOffset (last p (SR 0 0)) + fo)].
Definition follow (fc : Z) (p : path) : path := p ++ [SR fc 0].
Definition descend (p q : path) : path :=
  match q with [] => p | t :: q' => removelast p ++ SR (flatCount t) (flatOffset (last p (SR 0 0)) + flatOffset t) :: q' end.
Definition map_paths (F : list path -> list path) (L : list region) : list region := map (fun g => (fst g, option_map F (snd g))) L.

(* ---------- bytes ---------- *)
Inductive pbs (lp : bool) : list path -> list Z -> Prop :=
| pbs_last p bs : path_bytes lp p bs -> pbs lp [p] bs
| pbs_more p ps bs cs : path_bytes false p bs -> pbs lp ps cs -> pbs lp (p :: ps) (bs ++ cs).
Lemma pbs_true ps bs : pbs true ps bs <-> paths_bytes ps bs.
Proof. split; induction 1; constructor; assumption. Qed.
Lemma pbs_app lp ps qs a b : pbs false ps a -> pbs lp qs b -> pbs lp (ps ++ qs) (a ++ b).
Proof. induction 1 as [p bs h|p ps bs cs h k IH]; intros q; cbn; [constructor; assumption|]. rewrite <- app_assoc. constructor; auto. Qed.
Lemma steps_last_step lp : forall p first mid sts, steps lp first mid p sts ->
  exists st pb, last_step sts = Some st /\ s_sub st = last p (SR 0 0) /\ s_last st = true /\ s_lastPath st = lp /\ s_prefix st = mid ++ pb /\
    (forall lp' q bq, path_bytes lp' q bq -> path_bytes lp' (removelast p ++ q) (pb ++ bq)).
Proof.
  intros p first mid sts h. induction h as [first mid s|first mid s p bo sts n h IH].
  - eexists _, []. unfold last_step. cbn. refine (conj eq_refl (conj eq_refl (conj eq_refl (conj eq_refl (conj _ _))))); [symmetry; apply app_nil_r|auto].
  - destruct IH as (st & pb & e1 & e2 & e3 & e4 & e5 & e6). exists st, (bo ++ pb).
    assert (np : p <> []) by (intros ->; inversion h). assert (ns : sts <> []) by (intros ->; inversion h).
    refine (conj _ (conj _ (conj e3 (conj e4 (conj _ _))))).
    + unfold last_step in *. cbn [rev]. destruct (rev sts) as [|x l] eqn:er; [discriminate|]. exact e1.
    + rewrite e2. destruct p; [congruence|reflexivity].
    + rewrite e5, app_assoc. reflexivity.
    + intros lp' q bq hq. replace (removelast (s :: p)) with (s :: removelast p) by (destruct p; [congruence|reflexivity]). rewrite <- app_assoc. cbn [app]. constructor; [exact n|]. apply e6, hq.
Qed.
Lemma removelast_ok p s : path_ok p -> sub_ok s -> path_ok (removelast p ++ [s]).
Proof.
  revert s. induction p as [|t p IH]; intros s ok os; [destruct ok|]. apply path_ok_cons in ok. destruct ok as [o [->|[c ok]]]; [exact os|].
  replace (removelast (t :: p)) with (t :: removelast p) by (destruct p; [destruct ok|reflexivity]). cbn [app]. apply path_ok_make; [exact o|right; apply IH; assumption|auto].
Qed.
Lemma removelast_ok_app p s q : path_ok p -> sub_ok s -> opt_ok q -> (q <> [] -> flatCount s = 1) -> path_ok (removelast p ++ s :: q).
Proof.
  revert s. induction p as [|t p IH]; intros s ok os oq cq; [destruct ok|]. apply path_ok_cons in ok. destruct ok as [o [->|[c ok]]]; [apply path_ok_make; assumption|].
  replace (removelast (t :: p)) with (t :: removelast p) by (destruct p; [destruct ok|reflexivity]). cbn [app]. apply path_ok_make; [exact o|right; apply IH; assumption|auto].
Qed.
Lemma last_ok p : path_ok p -> sub_ok (last p (SR 0 0)).
Proof.
  induction p as [|t p IH]; intros ok; [destruct ok|]. apply path_ok_cons in ok. destruct ok as [o [->|[c ok]]]; [exact o|].
  destruct p; [destruct ok|]. exact (IH ok).
Qed.

(* ---------- one path ---------- *)
(** [f], on the last step of a path [p], writes the paths [G p] *)
Definition writes_paths (f : list Z -> step -> option (list Z)) (G : path -> list path) : Prop :=
  forall p lp sts st result out, path_ok p -> steps lp true [] p sts -> last_step sts = Some st -> f result st = Some out ->
  exists bs, out = result ++ bs /\ pbs lp (G p) bs /\ Forall path_ok (G p).
Lemma on_last_spec f G : writes_paths f G -> forall ps stss result out, Forall path_ok ps -> all_steps ps stss -> on_last f result stss = Some out ->
  exists bs, out = result ++ bs /\ paths_bytes (flat_map G ps) bs /\ Forall path_ok (flat_map G ps).
Proof.
  intros wp ps stss result out ok st. revert result out ok. induction st as [p sts st|p ps sts stss st k IH]; intros result out ok e; cbn [on_last] in e; apply Forall_cons_iff in ok; destruct ok as [o ok].
  - apply obindE in e. destruct e as (l & el & e). apply obindE in e. destruct e as (r & ef & e). injection e as <-.
    destruct (wp p true sts l result r o st el ef) as (bs & -> & pb & okg). exists bs. cbn [flat_map]. rewrite app_nil_r. refine (conj eq_refl (conj _ okg)). apply pbs_true, pb.
  - apply obindE in e. destruct e as (l & el & e). apply obindE in e. destruct e as (r & ef & e).
    destruct (wp p false sts l result r o st el ef) as (bs & -> & pb & okg). destruct (IH _ _ ok e) as (cs & -> & pc & okc).
    exists (bs ++ cs). cbn [flat_map]. rewrite app_assoc. refine (conj eq_refl (conj _ _)); [|apply Forall_app; auto].
    apply pbs_true, pbs_app; [exact pb|apply pbs_true, pc].
Qed.
Definition can_write (f : list Z -> step -> option (list Z)) (P : path -> Prop) : Prop :=
  forall p lp sts st result, path_ok p -> steps lp true [] p sts -> last_step sts = Some st -> P p -> exists out, f result st = Some out.
Lemma on_last_total f P : can_write f P -> forall ps stss result, Forall path_ok ps -> Forall P ps -> all_steps ps stss -> exists out, on_last f result stss = Some out.
Proof.
  intros cw ps stss result ok hp st. revert result ok hp. induction st as [p sts st|p ps sts stss st k IH]; intros result ok hp; cbn [on_last];
    apply Forall_cons_iff in ok; destruct ok as [o ok]; apply Forall_cons_iff in hp; destruct hp as [h hp];
    destruct (steps_last_step _ p true [] sts st) as (l & _ & el & _); rewrite el; cbn [obind]; destruct (cw p _ sts l result o st el h) as [out ->]; cbn [obind]; eauto.
Qed.
Lemma append_last str s lp out : flatOffset s + flatCount s < 2 ^ 31 -> appendSubRegion str s true lp = Some out ->
  sub_ok s /\ exists bs, out = str ++ bs /\ path_bytes lp [s] bs.
Proof.
  intros h e. destruct (appendSub_num str s true lp out h e) as (o & _ & bo & n & bc & n2 & ->). split; [exact o|]. exists (bo ++ bc). split; [reflexivity|].
  rewrite Z.add_0_r in n. constructor; assumption.
Qed.
Lemma append_more str s lp out : flatOffset s + flatCount s < 2 ^ 31 -> appendSubRegion str s false lp = Some out ->
  sub_ok s /\ flatCount s = 1 /\ exists bo, out = str ++ bo /\ num7 (2 * flatOffset s + 1) bo.
Proof.
  intros h e. destruct (appendSub_num str s false lp out h e) as (o & c & bo & n & ->). split; [exact o|]. split; [apply c; reflexivity|]. exists bo. auto.
Qed.
Lemma append_total str s (l lp : bool) : sub_ok s -> (l = false -> flatCount s = 1) -> exists out, appendSubRegion str s l lp = Some out.
Proof.
  intros o c. destruct l.
  - destruct (path_has_bytes lp [s] o) as [bs pb]. inversion pb as [? bo bc n1 n2|? ? ? ? ? k]; [|inversion k]. subst. eexists. apply num_appendSub; eassumption.
  - destruct (append7_num [] (2 * flatOffset s + 1)) as (bo & _ & n). { destruct o as [o1 o2]. unfold word. change (2 ^ 32) with (2 ^ 31 * 2). lia. }
    eexists. apply num_appendSub_more; [exact o|apply c; reflexivity|exact n].
Qed.

Lemma field_writes fc fo : 0 <= fo -> writes_paths (field_step fc fo) (fun p => [narrow fc fo p]).
Proof.
  intros ho p lp sts st result out ok h el e. destruct (steps_last_step lp p true [] sts h) as (st' & pb & e1 & e2 & e3 & e4 & e5 & e6). rewrite el in e1. injection e1 as <-.
  pose proof (last_ok p ok) as [lo lc]. unfold field_step in e. apply obindE in e. destruct e as ([] & c & e). apply check_Some in c. rewrite e2, e3, e4, e5 in *. cbn [app] in *.
  apply append_last in e; [|cbn [flatCount flatOffset]; lia]. destruct e as (os & bs & -> & hb).
  exists (pb ++ bs). rewrite app_assoc. refine (conj eq_refl (conj _ _)).
  - constructor. apply e6, hb.
  - constructor; [|constructor]. apply removelast_ok; assumption.
Qed.
Lemma field_can fc fo : 0 <= fo -> 0 < fc -> can_write (field_step fc fo) (fun p => fc + fo <= flatCount (last p (SR 0 0))).
Proof.
  intros ho hc p lp sts st result ok h el c. destruct (steps_last_step lp p true [] sts h) as (st' & pb & e1 & e2 & e3 & e4 & e5 & e6). rewrite el in e1. injection e1 as <-.
  pose proof (last_ok p ok) as [lo lc]. unfold field_step. rewrite e2, e3. replace (fc + fo <=? flatCount (last p (SR 0 0))) with true by lia. cbn [check obind].
  apply append_total; [split; cbn [flatCount flatOffset]; lia|discriminate].
Qed.
Lemma field_only fc fo p lp sts st result out : path_ok p -> steps lp true [] p sts -> last_step sts = Some st -> field_step fc fo result st = Some out ->
  0 < fc /\ fc + fo <= flatCount (last p (SR 0 0)).
Proof.
  intros ok h el e. destruct (steps_last_step lp p true [] sts h) as (st' & pb & e1 & e2 & e3 & e4 & e5 & e6). rewrite el in e1. injection e1 as <-.
  unfold field_step in e. apply obindE in e. destruct e as ([] & c & e). apply check_Some in c. rewrite e2 in c. split; [|lia]. unfold appendSubRegion in e. apply obindE in e. destruct e as ([] & c2 & _). apply check_Some in c2. cbn [flatCount] in c2. lia.
Qed.
Lemma deref_writes fc : fc < 2 ^ 31 -> writes_paths (deref_step fc) (fun p => [follow fc p]).
Proof.
  intros hf p lp sts st result out ok h el e. destruct (steps_last_step lp p true [] sts h) as (st' & pb & e1 & e2 & e3 & e4 & e5 & e6). rewrite el in e1. injection e1 as <-.
  pose proof (last_ok p ok) as ol. unfold deref_step in e. apply obindE in e. destruct e as ([] & c & e). apply check_Some in c. rewrite e2, e4, e5 in *. cbn [app] in *.
  apply obindE in e. destruct e as (r & e & e'). pose proof ol as [ol1 ol2]. apply append_more in e; [|lia]. destruct e as (_ & c1 & bo & -> & n).
  apply append_last in e'; [|cbn [flatCount flatOffset]; lia]. destruct e' as (os & bs & -> & hb).
  assert (pe : follow fc p = removelast p ++ [last p (SR 0 0); SR fc 0]).
  { unfold follow. rewrite (app_removelast_last (SR 0 0) (path_ok_nonempty p ok)) at 1. rewrite <- app_assoc. reflexivity. }
  exists (pb ++ bo ++ bs). rewrite pe. refine (conj _ (conj _ _)); [rewrite <- !app_assoc; reflexivity| |].
  - constructor. apply e6. constructor; assumption.
  - constructor; [|constructor]. apply removelast_ok_app; [exact ok|exact ol|right; exact os|auto].
Qed.
Lemma deref_can fc : 0 < fc < 2 ^ 31 -> can_write (deref_step fc) (fun p => flatCount (last p (SR 0 0)) = 1).
Proof.
  intros hc p lp sts st result ok h el c. destruct (steps_last_step lp p true [] sts h) as (st' & pb & e1 & e2 & e3 & e4 & e5 & e6). rewrite el in e1. injection e1 as <-.
  pose proof (last_ok p ok) as lo. unfold deref_step. rewrite e2, c. cbn [Z.eqb Pos.eqb check obind].
  destruct (append_total (result ++ s_prefix st) (last p (SR 0 0)) false (s_lastPath st) lo (fun _ => c)) as [r ->]. cbn [obind].
  apply append_total; [split; cbn [flatCount flatOffset]; lia|discriminate].
Qed.

(* ---------- join ---------- *)
Lemma join_rest parent lpq : forall q mid sts result out, steps lpq false mid q sts -> path_ok q -> join_subs parent result sts = Some out ->
  exists bs, out = result ++ bs /\ path_bytes (s_lastPath parent && lpq) q bs.
Proof.
  induction q as [|s q IH]; intros mid sts result out h ok e; [destruct ok|]. apply path_ok_cons in ok. inversion h; subst.
  - destruct ok as [o _]. cbn [join_subs s_first s_sub s_last s_lastPath obind] in e. apply obindE in e. destruct e as (r & e & e'). injection e' as <-.
    destruct o as [o1 o2]. apply append_last in e; [|cbn [flatCount flatOffset]; lia]. destruct e as (_ & bs & -> & hb). exists bs. split; [reflexivity|]. destruct s; exact hb.
  - destruct ok as [o [->|[c ok]]]; [match goal with H : steps _ _ _ [] _ |- _ => inversion H end|].
    cbn [join_subs s_first s_sub s_last s_lastPath obind] in e. apply obindE in e. destruct e as (r & e & e').
    destruct o as [o1 o2]. apply append_more in e; [|cbn [flatCount flatOffset]; lia]. destruct e as (_ & _ & bo' & -> & n). cbn [flatOffset] in n.
    match goal with H : steps _ _ _ q _ |- _ => destruct (IH _ _ _ _ H ok e') as (bs & -> & hb) end.
    exists (bo' ++ bs). rewrite app_assoc. split; [reflexivity|]. constructor; assumption.
Qed.
Lemma join_one parent lpq p q sts result out pb : path_ok p -> path_ok q -> steps lpq true [] q sts -> s_sub parent = last p (SR 0 0) -> s_prefix parent = pb ->
  (forall lp' q bq, path_bytes lp' q bq -> path_bytes lp' (removelast p ++ q) (pb ++ bq)) ->
  join_subs parent result sts = Some out ->
  exists bs, out = result ++ bs /\ path_bytes (s_lastPath parent && lpq) (descend p q) bs /\ path_ok (descend p q) /\
    flatOffset (hd (SR 0 0) q) + flatCount (hd (SR 0 0) q) <= flatCount (last p (SR 0 0)).
Proof.
  intros okp okq h es ep pp e. pose proof (last_ok p okp) as [l1 l2]. destruct q as [|t q]; [destruct okq|]. apply path_ok_cons in okq. cbn [descend hd]. inversion h; subst.
  - destruct okq as [o _]. cbn [join_subs s_first s_sub s_last s_lastPath] in e. apply obindE in e. destruct e as (fo & ef & e). apply obindE in ef. destruct ef as ([] & c & ef). apply check_Some in c. injection ef as <-.
    rewrite es in *. apply obindE in e. destruct e as (r & e & e'). injection e' as <-. destruct o as [o1 o2].
    apply append_last in e; [|cbn [flatCount flatOffset]; lia]. destruct e as (os & bs & -> & hb). rewrite (Z.add_comm (flatOffset t)) in *.
    exists (s_prefix parent ++ bs). rewrite app_assoc. refine (conj eq_refl (conj _ (conj _ _))); [apply pp, hb|apply removelast_ok; assumption|lia].
  - destruct okq as [o [->|[c1 okq]]]; [match goal with H : steps _ _ _ [] _ |- _ => inversion H end|].
    cbn [join_subs s_first s_sub s_last s_lastPath] in e. apply obindE in e. destruct e as (fo & ef & e). apply obindE in ef. destruct ef as ([] & c & ef). apply check_Some in c. injection ef as <-.
    rewrite es in *. apply obindE in e. destruct e as (r & e & e'). destruct o as [o1 o2].
    apply append_more in e; [|cbn [flatCount flatOffset]; lia]. destruct e as (os & _ & bo' & -> & n). rewrite (Z.add_comm (flatOffset t)) in *. cbn [flatOffset] in n.
    match goal with H : steps _ _ _ q _ |- _ => destruct (join_rest _ _ _ _ _ _ _ H okq e') as (bs & -> & hb) end.
    exists (s_prefix parent ++ bo' ++ bs). refine (conj _ (conj _ (conj _ _))); [rewrite <- !app_assoc; reflexivity| | |lia].
    + apply pp. constructor; assumption.
    + apply removelast_ok_app; [exact okp|exact os|right; exact okq|auto].
Qed.
Lemma join_subs_app parent : forall a b result, join_subs parent result (a ++ b) = obind (join_subs parent result a) (fun r => join_subs parent r b).
Proof.
  induction a as [|c a IH]; intros b result; [reflexivity|]. cbn [app join_subs]. destruct (s_first c).
  - destruct (check _); [|reflexivity]. cbn [obind]. destruct (appendSubRegion _ _ _ _); [|reflexivity]. cbn [obind]. apply IH.
  - cbn [obind]. destruct (appendSubRegion _ _ _ _); [|reflexivity]. cbn [obind]. apply IH.
Qed.
Lemma join_all parent p pb : path_ok p -> s_sub parent = last p (SR 0 0) -> s_prefix parent = pb ->
  (forall lp' q bq, path_bytes lp' q bq -> path_bytes lp' (removelast p ++ q) (pb ++ bq)) ->
  forall qs stss result out, Forall path_ok qs -> all_steps qs stss -> join_subs parent result (concat stss) = Some out ->
  exists bs, out = result ++ bs /\ pbs (s_lastPath parent) (map (descend p) qs) bs /\ Forall path_ok (map (descend p) qs) /\
    Forall (fun q => flatOffset (hd (SR 0 0) q) + flatCount (hd (SR 0 0) q) <= flatCount (last p (SR 0 0))) qs.
Proof.
  intros okp es ep pp qs stss result out ok st. revert result out ok. induction st as [q sts st|q qs sts stss st k IH]; intros result out ok e; apply Forall_cons_iff in ok; destruct ok as [o ok]; cbn [concat] in e.
  - rewrite app_nil_r in e. destruct (join_one parent true p q sts result out pb okp o st es ep pp e) as (bs & -> & hb & od & c). rewrite andb_true_r in hb.
    exists bs. cbn [map]. refine (conj eq_refl (conj _ (conj _ _))); repeat constructor; assumption.
  - rewrite join_subs_app in e. apply obindE in e. destruct e as (r & e1 & e2).
    destruct (join_one parent false p q sts result r pb okp o st es ep pp e1) as (bs & -> & hb & od & c). rewrite andb_false_r in hb.
    destruct (IH _ _ ok e2) as (cs & -> & hc & oc & fc). exists (bs ++ cs). rewrite app_assoc. cbn [map].
    refine (conj eq_refl (conj _ (conj _ _))); constructor; assumption.
Qed.
Lemma join_writes qs child : Forall path_ok qs -> paths_bytes qs child -> writes_paths (join_step child) (fun p => map (descend p) qs).
Proof.
  intros okq pq p lp sts st result out ok h el e. destruct (steps_last_step lp p true [] sts h) as (st' & pb & e1 & e2 & e3 & e4 & e5 & e6). rewrite el in e1. injection e1 as <-.
  unfold join_step in e. destruct (walk_paths_all qs child okq pq) as (stss & ew & as_). rewrite ew in e. cbn [obind fst] in e.
  destruct (join_all st p pb ok e2 e5 e6 qs stss result out okq as_ e) as (bs & -> & hb & od & _). rewrite e4 in hb. exists bs. auto.
Qed.
Lemma join_rest_total parent lpq : forall q mid sts result, steps lpq false mid q sts -> path_ok q -> exists out, join_subs parent result sts = Some out.
Proof.
  induction q as [|s q IH]; intros mid sts result h ok; [destruct ok|]. apply path_ok_cons in ok. inversion h; subst.
  - destruct ok as [o _]. cbn [join_subs s_first s_sub s_last s_lastPath obind].
    destruct (append_total result (SR (flatCount s) (flatOffset s)) true (s_lastPath parent && lpq)) as [r ->]; [destruct s; exact o|discriminate|]. cbn [obind]. eauto.
  - destruct ok as [o [->|[c ok]]]; [match goal with H : steps _ _ _ [] _ |- _ => inversion H end|].
    cbn [join_subs s_first s_sub s_last s_lastPath obind].
    destruct (append_total result (SR (flatCount s) (flatOffset s)) false (s_lastPath parent && false)) as [r ->]; [destruct s; exact o|auto|]. cbn [obind].
    match goal with H : steps _ _ _ q _ |- _ => exact (IH _ _ _ H ok) end.
Qed.
Lemma join_can qs child : Forall path_ok qs -> paths_bytes qs child ->
  can_write (join_step child) (fun p => Forall (fun q => flatOffset (hd (SR 0 0) q) + flatCount (hd (SR 0 0) q) <= flatCount (last p (SR 0 0))) qs).
Proof.
  intros okq pq p lp sts st result ok h el c. destruct (steps_last_step lp p true [] sts h) as (st' & pb & e1 & e2 & e3 & e4 & e5 & e6). rewrite el in e1. injection e1 as <-.
  pose proof (last_ok p ok) as [l1 l2]. unfold join_step. destruct (walk_paths_all qs child okq pq) as (stss & ew & as_). rewrite ew. cbn [obind fst].
  assert (one : forall q lpq sts result, path_ok q -> flatOffset (hd (SR 0 0) q) + flatCount (hd (SR 0 0) q) <= flatCount (last p (SR 0 0)) -> steps lpq true [] q sts -> exists out, join_subs st result sts = Some out).
  { clear - e2 l1 l2. intros q lpq sts result ok c h. destruct q as [|t q]; [destruct ok|]. cbn [hd] in c. apply path_ok_cons in ok. inversion h; subst.
    - destruct ok as [[o1 o2] _]. cbn [join_subs s_first s_sub s_last s_lastPath]. rewrite e2. replace (flatOffset t + flatCount t <=? flatCount (last p (SR 0 0))) with true by lia. cbn [check obind].
      match goal with |- context [appendSubRegion ?a ?b ?c ?d] => destruct (append_total a b c d) as [r ->] end; [split; cbn [flatCount flatOffset]; lia|discriminate|]. cbn [obind]. eauto.
    - destruct ok as [[o1 o2] [->|[c1 ok]]]; [match goal with H : steps _ _ _ [] _ |- _ => inversion H end|].
      cbn [join_subs s_first s_sub s_last s_lastPath]. rewrite e2. replace (flatOffset t + flatCount t <=? flatCount (last p (SR 0 0))) with true by lia. cbn [check obind].
      match goal with |- context [appendSubRegion ?a ?b ?c ?d] => destruct (append_total a b c d) as [r ->] end; [split; cbn [flatCount flatOffset]; lia|auto|]. cbn [obind].
      match goal with H : steps _ _ _ q _ |- _ => exact (join_rest_total _ _ _ _ _ _ H ok) end. }
  clear ew pq. revert result okq c. induction as_ as [q sts' s1|q qs sts' stss s1 k IH]; intros result okq c; apply Forall_cons_iff in okq; destruct okq as [o okq]; apply Forall_cons_iff in c; destruct c as [c cs]; cbn [concat].
  - rewrite app_nil_r. eapply one; eassumption.
  - rewrite join_subs_app. destruct (one q false sts' result o c s1) as [r ->]. cbn [obind]. apply IH; assumption.
Qed.

(* ---------- all regions ---------- *)
Definition op_valid (F : list path -> list path) (d : Z) (L : list region) : Prop :=
  Forall (fun g => match snd g with None => True | Some ps => unpackLocid (fst g) <> 0 /\ valid (F ps) false d = true end) L.
Lemma op_regions_spec each F d chars : (forall ps stss result out, Forall path_ok ps -> ps <> [] -> all_steps ps stss -> each result stss = Some out ->
    exists bs, out = result ++ bs /\ paths_bytes (F ps) bs /\ Forall path_ok (F ps)) ->
  forall L es result out, Forall item_ok L -> Forall2 (fun e i => e_r e = i_r i /\ e_raw chars e = i_br i /\ e_paths chars e = i_bc i) es L ->
  op_regions each chars d es result = Some out ->
  exists bs, out = result ++ bs /\ lifetime_bytes (map_paths F (map i_g L)) bs /\ Forall region_ok (map_paths F (map i_g L)) /\ op_valid F d (map i_g L).
Proof.
  intros he. induction L as [|i L IH]; intros es result out ok f e; inversion f; subst.
  - cbn [op_regions] in e. injection e as <-. exists []. rewrite app_nil_r. refine (conj eq_refl (conj lb_nil (conj (Forall_nil _) (Forall_nil _)))).
  - match goal with H : _ /\ _ |- _ => destruct H as (h1 & h2 & h3) end. apply Forall_cons_iff in ok. destruct ok as [oi ok]. cbn [op_regions] in e. rewrite h1, h2, h3 in e.
    pose proof oi as ((w & oc) & n & cb). unfold map_paths, op_valid. cbn [map fst snd]. destruct (i_g i) as [r c] eqn:eg. unfold i_r in *. rewrite eg in *. cbn [fst snd] in *.
    assert (okc : content_ok c) by (destruct c; exact oc).
    destruct (beq (i_bc i) SR_empty) eqn:eb.
    + apply beq_true in eb. apply (content_empty c (i_bc i) okc cb) in eb. subst c. cbn [option_map].
      destruct (IH _ _ _ ok ltac:(eassumption) e) as (bs & -> & lb & okr & ov). exists (i_br i ++ i_bc i ++ bs). rewrite <- !app_assoc. refine (conj eq_refl (conj _ (conj _ _))).
      * constructor; assumption.
      * constructor; [split; [exact w|exact I]|exact okr].
      * constructor; [exact I|exact ov].
    + destruct c as [ps|]; [|cbn in cb; rewrite cb, beq_refl in eb; discriminate]. destruct oc as [np okp]. cbn [content_bytes] in cb.
      apply obindE in e. destruct e as ([] & c1 & e). apply check_Some in c1. destruct (walk_paths_all ps (i_bc i) okp cb) as (stss & ew & as_). rewrite ew in e. cbn [obind fst] in e.
      apply obindE in e. destruct e as (r1 & e1 & e). apply obindE in e. destruct e as ([] & ev & e).
      destruct (he ps stss _ _ okp np as_ e1) as (bs & -> & pb & okF). rewrite skipn_len in ev by reflexivity. rewrite (assert_valid _ _ false d okF pb) in ev. destruct (valid (F ps) false d) eqn:v; [|discriminate].
      destruct (IH _ _ _ ok ltac:(eassumption) e) as (cs & -> & lb & okr & ov). exists (i_br i ++ bs ++ cs). rewrite <- !app_assoc. refine (conj eq_refl (conj _ (conj _ _))).
      * constructor; assumption.
      * constructor; [|exact okr]. split; [exact w|]. cbn [snd option_map]. split; [|exact okF]. intros z. rewrite z in pb. inversion pb.
      * constructor; [|exact ov]. cbn [fst snd]. split; [lia|exact v].
Qed.
Lemma op_regions_total each F (P : path -> Prop) d chars : (forall ps stss result out, Forall path_ok ps -> ps <> [] -> all_steps ps stss -> each result stss = Some out ->
    exists bs, out = result ++ bs /\ paths_bytes (F ps) bs /\ Forall path_ok (F ps)) ->
  (forall ps stss result, Forall path_ok ps -> Forall P ps -> all_steps ps stss -> exists out, each result stss = Some out) ->
  forall L es result, Forall item_ok L -> Forall2 (fun e i => e_r e = i_r i /\ e_raw chars e = i_br i /\ e_paths chars e = i_bc i) es L ->
  op_valid F d (map i_g L) -> Forall (fun g => match snd g with None => True | Some ps => Forall P ps end) (map i_g L) ->
  exists out, op_regions each chars d es result = Some out.
Proof.
  intros he ht. induction L as [|i L IH]; intros es result ok f ov hp; inversion f; subst; cbn [op_regions]; [eauto|].
  match goal with H : _ /\ _ |- _ => destruct H as (h1 & h2 & h3) end. apply Forall_cons_iff in ok. destruct ok as [oi ok]. rewrite h1, h2, h3.
  cbn [map] in ov, hp. apply Forall_cons_iff in ov. destruct ov as [v ov]. apply Forall_cons_iff in hp. destruct hp as [p hp].
  pose proof oi as ((w & oc) & n & cb). destruct (i_g i) as [r c] eqn:eg. unfold i_r in *. rewrite eg in *. cbn [fst snd] in *.
  destruct (beq (i_bc i) SR_empty) eqn:eb; [apply IH; assumption|].
  destruct c as [ps|]; [|cbn in cb; rewrite cb, beq_refl in eb; discriminate]. destruct oc as [np okp]. cbn [content_bytes] in cb. destruct v as [v1 v2].
  replace (unpackLocid r =? 0) with false by lia. cbn [negb check obind]. destruct (walk_paths_all ps (i_bc i) okp cb) as (stss & ew & as_). rewrite ew. cbn [obind fst].
  destruct (ht ps stss (result ++ i_br i) okp p as_) as [r1 e1]. rewrite e1. cbn [obind]. destruct (he ps stss _ _ okp np as_ e1) as (bs & -> & pb & okF).
  rewrite skipn_len by reflexivity. rewrite (assert_valid _ _ false d okF pb), v2. cbn [obind]. apply IH; assumption.
Qed.
Lemma map_paths_sorted F L : StronglySorted (fun g h : region => before (fst g) (fst h)) L -> StronglySorted (fun g h : region => before (fst g) (fst h)) (map_paths F L).
Proof.
  induction 1 as [|g L s IH f]; [constructor|]. cbn. constructor; [exact IH|]. clear - f. induction f; cbn; constructor; assumption.
Qed.
