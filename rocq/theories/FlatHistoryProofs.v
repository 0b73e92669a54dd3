From Verif Require Import CommonLemmas FlatModel FlatSpec FlatProofs FlatMapProofs FlatHistory.
From Coq Require Import Sorted Permutation.

Section P.
Context {K : Type} (cmp : K -> K -> Z) (L : cmp_lawful cmp).
Notation ssorted := (ssorted cmp).

Definition sop_ok (o : sop K) : Prop :=
  match o with SAddAll b | SKeep b | SRemoveAll b => ssorted b | _ => True end.

Lemma ssorted_length_le r a b : ssorted r -> (forall k, In k r -> In k a \/ In k b) ->
  length r <= length a + length b.
Proof.
  intros Sr H. rewrite <- app_length. apply NoDup_incl_length; [apply (ssorted_NoDup cmp L); auto|].
  intros k Hk. apply in_or_app; auto.
Qed.

Lemma set_run_spec os : forall s (mem : K -> Prop),
  Forall sop_ok os -> ssorted s -> (forall k, In k s <-> mem k) ->
  (Z.of_nat (length s + adds os) <= 2^30)%Z ->
  exists s', set_run cmp os s = Some s' /\ ssorted s' /\
    (forall k, In k s' <-> spec_run os mem k) /\ length s' <= length s + adds os.
Proof.
  induction os as [|o os IH]; intros s mem Hok Hs Hm Hsz.
  - exists s; cbn in *; repeat split; auto; try apply Hm; lia.
  - inversion Hok as [|? ? Ho Hok']; subst.
    assert (F : fits s). { unfold fits. cbn in Hsz. destruct o; cbn in Hsz; lia. }
    assert (Step : exists s1, set_step cmp o s = Some s1 /\ ssorted s1 /\
              (forall k, In k s1 <-> spec_after o mem k) /\
              length s1 + adds os <= length s + adds (o :: os)).
    { destruct o; cbn [set_step spec_after adds] in *.
      - destruct (set_add_spec cmp L s k Hs F) as (s1 & b & -> & S1 & M1 & _ & Hl). cbn.
        exists s1; repeat split; auto; try (rewrite M1, Hm; tauto); try lia; apply M1; rewrite Hm; auto.
      - destruct (set_remove_spec cmp L s k Hs F) as (s1 & b & -> & S1 & M1 & _ & Hl). cbn.
        exists s1; split; [reflexivity|]. split; auto. split; [|lia]. intros; rewrite M1, Hm; tauto.
      - exists []; split; [reflexivity|]. split; [constructor|]. split; [|cbn; lia]. cbn; tauto.
      - destruct (set_add_all_spec cmp L s b Hs Ho) as (s1 & -> & S1 & M1).
        exists s1; split; [reflexivity|]. split; auto. split; [intros; rewrite M1, Hm; tauto|].
        pose proof (ssorted_length_le s1 s b S1 (fun k => proj1 (M1 k))). lia.
      - destruct (set_keep_spec cmp L s b Hs Ho) as (s1 & -> & S1 & M1).
        exists s1; split; [reflexivity|]. split; auto. split; [intros; rewrite M1, Hm; tauto|].
        pose proof (ssorted_length_le s1 s [] S1) as H. cbn in H. rewrite Nat.add_0_r in H.
        pose proof (H (fun k Hk => or_introl (proj1 (proj1 (M1 k) Hk)))). lia.
      - destruct (set_remove_all_spec cmp L s b Hs Ho) as (s1 & -> & S1 & M1).
        exists s1; split; [reflexivity|]. split; auto. split; [intros; rewrite M1, Hm; tauto|].
        pose proof (ssorted_length_le s1 s [] S1) as H. cbn in H. rewrite Nat.add_0_r in H.
        pose proof (H (fun k Hk => or_introl (proj1 (proj1 (M1 k) Hk)))). lia. }
    destruct Step as (s1 & E & S1 & M1 & Hl).
    destruct (IH s1 (spec_after o mem) Hok' S1 M1 ltac:(lia)) as (s' & E' & S' & M' & Hl').
    exists s'. cbn [set_run spec_run]. rewrite E. cbn [obind]. repeat split; auto; try apply M'; lia.
Qed.

Section M.
Context {V : Type}.

Lemma mspec_ext (eqb : K -> K -> bool) os : forall f g : K -> option V, (forall k, f k = g k) ->
  forall k, mspec_run eqb os f k = mspec_run eqb os g k.
Proof.
  induction os as [|o os IH]; intros f g H k; cbn; auto.
  apply IH. intros x. destruct o; cbn; rewrite ?H; reflexivity.
Qed.

Lemma map_run_spec (os : list (mop K V)) : forall m f,
  Rep cmp m f -> (Z.of_nat (length (fm_keys m) + length os) <= 2^30)%Z ->
  exists m', map_run cmp os m = Some m' /\ Rep cmp m' (mspec_run (keqb cmp) os f) /\
    length (fm_keys m') <= length (fm_keys m) + length os.
Proof.
  induction os as [|o os IH]; intros m f R Hsz.
  - exists m; cbn; repeat split; auto; try apply R. lia.
  - assert (F : fits (fm_keys m)) by (unfold fits; cbn in Hsz; lia).
    assert (Step : exists m1, map_step cmp o m = Some m1 /\ Rep cmp m1 (mspec_after (keqb cmp) o f) /\
        length (fm_keys m1) <= S (length (fm_keys m))).
    { destruct o; cbn [map_step mspec_after].
      - destruct (fm_set_spec cmp L m f k v R F) as (m1 & b & -> & R1 & _ & Hl). cbn. eauto.
      - unfold fm_remove.
        destruct (fm_if_spec cmp L m f k (fun v => Some (v, true)) R F) as (m1 & b & -> & _ & R1 & Hl); [eauto|].
        cbn. exists m1; split; [reflexivity|]. split; [|lia].
        eapply Rep_ext; [exact R1|]. intros x; cbn. destruct (keqb cmp x k); auto. destruct (f k); auto.
      - exists (fm_clear m); split; [reflexivity|]. split; [|cbn; lia].
        split; [constructor|]. split; [reflexivity|]. cbn. intros; split; [discriminate|tauto].
      - destruct (fm_ref_spec cmp L m f k init (fun v => Some (f0 v)) R F) as (m1 & old & new & -> & Eo & En & R1 & Hl);
          [eauto|]. cbn. exists m1; split; [reflexivity|]. split; [|lia].
        eapply Rep_ext; [exact R1|]. intros x; cbn. destruct (keqb cmp x k); auto. congruence. }
    destruct Step as (m1 & E & R1 & Hl).
    destruct (IH m1 _ R1 ltac:(cbn in Hsz; lia)) as (m' & E' & R' & Hl').
    exists m'. cbn [map_run mspec_run]. rewrite E. cbn [obind]. repeat split; auto; try apply R'.
    cbn; lia.
Qed.
End M.

(** Counted sets: the stored map is the positive part of the multiplicity. *)
Definition cgraph (mu : K -> nat) : K -> option Z :=
  fun k => match mu k with O => None | S _ => Some (Z.of_nat (mu k)) end.

Definition CRep (c : fmap K Z) (mu : K -> nat) (bound : nat) : Prop :=
  Rep cmp c (cgraph mu) /\ (forall k, mu k <= bound) /\ length (fm_keys c) <= bound.

Lemma i32_add_ok x y : (- 2^31 <= x + y <= 2^31 - 1)%Z -> i32_add x y = Some (x + y)%Z.
Proof.
  intros H. unfold i32_add, i32_max. cbv zeta.
  destruct (Z.leb_spec (-2^31) (x + y)); [|lia]. destruct (Z.leb_spec (x + y) (2^31 - 1)); [reflexivity|lia].
Qed.

(** One counted-set step, including the reported boolean. *)
Definition cop_result (o : cop K) (mu : K -> nat) : bool :=
  match o with
  | CIncr k => mu k =? 0          (* "newly present" *)
  | CDecr k => mu k =? 1          (* "last one gone" *)
  | CRemove k => negb (mu k =? 0) (* "was present" *)
  | CClear => true
  end.

Lemma cs_step_spec o c mu n : CRep c mu n -> (Z.of_nat n <= 2^30 - 1)%Z ->
  exists c', cs_step cmp o c = Some (c', cop_result o mu) /\ CRep c' (cspec_after (keqb cmp) o mu) (S n).
Proof.
  intros (R & Hb & Hlen) Hn.
  assert (F : fits (fm_keys c)) by (unfold fits; lia).
  assert (B31 : forall k, (Z.of_nat (mu k) <= 2^30 - 1)%Z). { intros k; specialize (Hb k); lia. }
  destruct o; cbn [cs_step cspec_after cop_result].
  - unfold cs_incr.
    destruct (fm_ref_spec cmp L c (cgraph mu) k 0%Z (fun v => i32_add v 1) R F) as (c1 & old & new & -> & Eo & En & R1 & Hl).
    { specialize (B31 k). unfold cgraph. exists (Z.of_nat (mu k) + 1)%Z.
      destruct (mu k) eqn:E; [reflexivity|]. apply i32_add_ok. lia. }
    cbn [obind]. exists c1. split.
    { f_equal. f_equal. subst old. unfold cgraph. destruct (mu k) eqn:E; [reflexivity|].
      destruct (Z.eqb_spec (Z.of_nat (S n0)) 0); [lia|reflexivity]. }
    split; [|split].
    + eapply Rep_ext; [exact R1|]. intros x; cbn.
      assert (new = Z.of_nat (S (mu k))).
      { subst old. unfold cgraph in En. specialize (B31 k). destruct (mu k) eqn:E.
        - rewrite i32_add_ok in En by lia. injection En as <-. reflexivity.
        - rewrite i32_add_ok in En by lia. injection En as <-. lia. }
      subst new. unfold cgraph. destruct (keqb_spec cmp L x k) as [->|]; reflexivity.
    + intros x. pose proof (Hb x). destruct (keqb cmp x k); lia.
    + lia.
  - unfold cs_try_decr. pose proof R as (S1 & E & M).
    pose proof (bfind_spec cmp L (fm_keys c) k S1 F) as B.
    destruct (bfind cmp (fm_keys c) k) as [i|i|] eqn:Eb; [|destruct B as (B1 & B2 & B3)|destruct B].
    + destruct (Rep_hit cmp c _ k i R B) as (v & Hv & Ef). rewrite Hv. cbn [obind].
      unfold cgraph in Ef. destruct (mu k) as [|q] eqn:Eq; [discriminate|]. assert (v = Z.of_nat (S q)) by congruence; subst v.
      pose proof (B31 k). rewrite i32_add_ok by lia. cbn [obind].
      destruct (fm_if_spec cmp L c (cgraph mu) k
        (fun _ => Some ((Z.of_nat (S q) + -1)%Z, (Z.of_nat (S q) + -1 =? 0)%Z)) R F) as (c1 & b & -> & _ & R1 & Hl); [eauto|].
      cbn [obind]. exists c1. split.
      { f_equal. f_equal. destruct (Z.eqb_spec (Z.of_nat (S q) + -1) 0); destruct (Nat.eqb_spec (S q) 1); auto; lia. }
      split; [|split].
      * eapply Rep_ext; [exact R1|]. intros x; cbn beta.
        destruct (keqb_spec cmp L x k) as [->|Hne].
        -- unfold cgraph at 1. rewrite Eq. cbn beta iota.
           unfold cgraph. destruct (keqb_spec cmp L k k) as [_|]; [|congruence]. rewrite Eq. cbn [Nat.pred].
           destruct (Z.eqb_spec (Z.of_nat (S q) + -1) 0).
           ++ assert (q = 0) by lia. subst q. reflexivity.
           ++ destruct q; [lia|]. f_equal. lia.
        -- unfold cgraph. destruct (keqb_spec cmp L x k); [congruence|reflexivity].
      * intros x. pose proof (Hb x). destruct (keqb cmp x k); lia.
      * lia.
    + assert (Hz : mu k = 0).
      { assert (cgraph mu k = None) as Hc.
        { apply (Rep_none cmp c _ k R). eapply miss_not_In; eauto. }
        unfold cgraph in Hc. destruct (mu k); [reflexivity|discriminate]. }
      exists c. rewrite Hz. split; [reflexivity|]. split; [|split].
      * eapply Rep_ext; [exact R|]. intros x. unfold cgraph.
        destruct (keqb_spec cmp L x k) as [->|]; [rewrite Hz|]; reflexivity.
      * intros x. pose proof (Hb x). destruct (keqb cmp x k); lia.
      * lia.
  - unfold cs_remove, fm_remove.
    destruct (fm_if_spec cmp L c (cgraph mu) k (fun v => Some (v, true)) R F) as (c1 & b & -> & Eb & R1 & Hl); [eauto|].
    exists c1. split; [|split; [|split]].
    + f_equal. f_equal. rewrite Eb. unfold cgraph. destruct (mu k); reflexivity.
    + eapply Rep_ext; [exact R1|]. intros x; cbn beta. unfold cgraph.
      destruct (keqb_spec cmp L x k) as [->|]; [|reflexivity]. destruct (mu k); reflexivity.
    + intros x. pose proof (Hb x). destruct (keqb cmp x k); lia.
    + lia.
  - exists (fm_clear c). split; [reflexivity|]. split; [|split].
    + split; [constructor|]. split; [reflexivity|]. cbn. unfold cgraph. intros; split; [discriminate|tauto].
    + intros; lia.
    + cbn; lia.
Qed.

Lemma cs_run_spec os : forall c mu n, CRep c mu n -> (Z.of_nat (n + length os) <= 2^30)%Z ->
  exists c', cs_run cmp os c = Some c' /\ CRep c' (cspec_run (keqb cmp) os mu) (n + length os).
Proof.
  induction os as [|o os IH]; intros c mu n R Hn.
  - exists c; split; [reflexivity|]. cbn. rewrite Nat.add_0_r. exact R.
  - cbn [length] in Hn. destruct (cs_step_spec o c mu n R ltac:(lia)) as (c1 & E & R1).
    destruct (IH c1 _ _ R1 ltac:(lia)) as (c' & E' & R').
    exists c'. cbn [cs_run cspec_run]. rewrite E. cbn [obind]. split; auto.
    cbn [length]. rewrite Nat.add_succ_r. exact R'.
Qed.

Lemma cs_count_spec c mu n k : CRep c mu n -> fits (fm_keys c) ->
  cs_count cmp c k = Some (Z.of_nat (mu k)).
Proof.
  intros (R & _) F. unfold cs_count. rewrite (fm_get_spec cmp L 0%Z c _ k R F). unfold cgraph.
  destruct (mu k); reflexivity.
Qed.

Fixpoint zsum (l : list Z) : Z := match l with [] => 0 | x :: r => x + zsum r end%Z.

Lemma cs_total_loop_spec vs : forall acc, (forall v, In v vs -> 0 <= v)%Z -> (0 <= acc)%Z ->
  (acc + zsum vs <= 2^31 - 1)%Z -> cs_total_loop vs acc = Some (acc + zsum vs)%Z.
Proof.
  induction vs as [|v vs IH]; intros acc Hp Ha Hs; cbn [cs_total_loop zsum] in *.
  - f_equal; lia.
  - assert (0 <= zsum vs)%Z.
    { clear -Hp. assert (H : forall v, In v vs -> (0 <= v)%Z) by (intros; apply Hp; right; auto).
      clear Hp. induction vs as [|w vs IH]; cbn; [lia|].
      pose proof (H w (or_introl eq_refl)). pose proof (IH (fun v Hv => H v (or_intror Hv))). lia. }
    pose proof (Hp v (or_introl eq_refl)).
    rewrite i32_add_ok by lia. cbn [obind]. rewrite IH; [f_equal; lia| |lia|lia].
    intros; apply Hp; right; auto.
Qed.

Lemma msum_step (U : list K) o mu : NoDup U ->
  msum (cspec_after (keqb cmp) o mu) U <= S (msum mu U).
Proof.
  intros ND. destruct o; cbn [cspec_after].
  - induction U as [|u U IH]; cbn; [lia|]. inversion ND as [|? ? Hn ND']; subst.
    destruct (keqb_spec cmp L u k) as [->|].
    + assert (msum (fun x => if keqb cmp x k then S (mu x) else mu x) U = msum mu U); [|lia].
      clear -L Hn. induction U as [|w U IH]; cbn; [reflexivity|].
      destruct (keqb_spec cmp L w k) as [->|]; [destruct Hn; left; reflexivity|].
      rewrite IH; auto. intros H; apply Hn; right; auto.
    + specialize (IH ND'). lia.
  - assert (forall V, msum (fun x => if keqb cmp x k then Nat.pred (mu x) else mu x) V <= msum mu V); [|auto].
    induction V as [|u V IH]; cbn; [lia|]. destruct (keqb cmp u k); lia.
  - assert (forall V, msum (fun x => if keqb cmp x k then 0 else mu x) V <= msum mu V); [|auto].
    induction V as [|u V IH]; cbn; [lia|]. destruct (keqb cmp u k); lia.
  - induction U as [|u U IH]; cbn; [lia|]. inversion ND; subst. specialize (IH H2). lia.
Qed.

Lemma msum_run (U : list K) os : forall mu, NoDup U ->
  msum (cspec_run (keqb cmp) os mu) U <= msum mu U + length os.
Proof.
  induction os as [|o os IH]; intros mu ND; cbn [cspec_run length]; [lia|].
  pose proof (IH (cspec_after (keqb cmp) o mu) ND). pose proof (msum_step U o mu ND). lia.
Qed.

Lemma msum_filter (mu : K -> nat) U : msum mu (filter (fun k => negb (mu k =? 0)) U) = msum mu U.
Proof.
  induction U as [|u U IH]; cbn; [reflexivity|]. destruct (mu u) eqn:E; cbn; rewrite ?E; lia.
Qed.

Lemma msum_perm (mu : K -> nat) U U' : Permutation.Permutation U U' -> msum mu U = msum mu U'.
Proof. induction 1; cbn; lia. Qed.

Lemma msum_support (mu : K -> nat) U ks : NoDup U -> NoDup ks ->
  (forall k, mu k <> 0 -> In k U) -> (forall k, In k ks <-> mu k <> 0) -> msum mu U = msum mu ks.
Proof.
  intros N1 N2 H1 H2. rewrite <- msum_filter. apply msum_perm.
  apply Permutation.NoDup_Permutation; auto; [apply NoDup_filter; auto|].
  intros k. rewrite filter_In, H2. destruct (Nat.eqb_spec (mu k) 0); cbn; split; auto; try tauto.
  intros [_ H]; discriminate.
Qed.

Lemma CRep_vals c mu n : CRep c mu n -> zsum (fm_vals c) = Z.of_nat (msum mu (fm_keys c)).
Proof.
  intros ((S1 & E & M) & _).
  assert (H : forall k v, In (k, v) (combine (fm_keys c) (fm_vals c)) -> v = Z.of_nat (mu k)).
  { intros k v Hin. apply M in Hin. unfold cgraph in Hin. destruct (mu k); congruence. }
  clear -H E. revert E H. generalize (fm_vals c). induction (fm_keys c) as [|k ks IH]; intros [|v vs] E H; cbn in *; try lia.
  rewrite (IH vs) by (auto; lia). rewrite (H k v) by auto. lia.
Qed.

Lemma CRep_keys c mu n k : CRep c mu n -> (In k (fm_keys c) <-> mu k <> 0).
Proof.
  intros (R & _). pose proof (Rep_none cmp c _ k R) as H. unfold cgraph in H.
  destruct (mu k) eqn:E.
  - split; [|lia]. intros Hin. exfalso. apply H; auto.
  - split; [lia|]. intros _. destruct (in_dec (fun a b => reflect_dec _ _ (keqb_spec cmp L a b)) k (fm_keys c)); auto.
    apply H in n1. discriminate.
Qed.

Lemma cs_total_spec os c n U : CRep c (cspec_run (keqb cmp) os (fun _ => 0)) n ->
  (Z.of_nat (length os) <= 2^30)%Z -> NoDup U ->
  (forall k, cspec_run (keqb cmp) os (fun _ => 0) k <> 0 -> In k U) ->
  cs_total c = Some (Z.of_nat (msum (cspec_run (keqb cmp) os (fun _ => 0)) U)).
Proof.
  intros R Hl ND HU. pose proof R as ((S1 & E & M) & _). unfold cs_total.
  pose proof (CRep_vals c _ n R) as Hz.
  rewrite (msum_support _ U (fm_keys c)); auto.
  2:{ apply (ssorted_NoDup cmp L); auto. } 2:{ intros k. eapply CRep_keys; eauto. }
  pose proof (msum_run (fm_keys c) os (fun _ => 0) (ssorted_NoDup cmp L _ S1)) as Hb.
  assert (Hzero : forall W : list K, msum (fun _ => 0) W = 0) by (induction W; auto).
  rewrite Hzero in Hb.
  rewrite cs_total_loop_spec; [f_equal; lia| |lia|lia].
  intros v Hv. apply In_nth_error in Hv as [i Hi].
  destruct (nth_error_ex (fm_keys c) i) as [k Hk]. { rewrite E. eapply nth_error_lt; eauto. }
  pose proof (nth_error_In _ _ (nth_error_combine _ _ _ _ _ Hk Hi)) as Hin. apply M in Hin.
  unfold cgraph in Hin. destruct (cspec_run _ _ _ k); [discriminate|]. injection Hin as <-. lia.
Qed.
End P.

Lemma flat_set_history_proof :
  forall (K : Type) (cmp : K -> K -> Z), cmp_lawful cmp ->
  forall os : list (sop K),
    Forall (fun o => match o with
                     | SAddAll b | SKeep b | SRemoveAll b => StronglySorted (fun x y => (cmp x y < 0)%Z) b
                     | _ => True end) os ->
    (Z.of_nat (adds os) <= 2^30)%Z ->
    exists s, set_run cmp os [] = Some s /\
      StronglySorted (fun x y => (cmp x y < 0)%Z) s /\
      (forall k, In k s <-> spec_run os (fun _ => False) k) /\
      (forall k, exists b, set_has cmp s k = Some b /\ (b = true <-> spec_run os (fun _ => False) k)).
Proof.
  intros K cmp L os Hok Hsz.
  destruct (set_run_spec cmp L os [] (fun _ => False)) as (s & E & S1 & M & Hl); auto.
  - constructor.
  - cbn; tauto.
  - exists s. repeat split; auto; try apply M.
    intros k. destruct (set_has_spec cmp L s k S1) as (b & Eb & Hb).
    + unfold fits. cbn in Hl. lia.
    + exists b; split; auto. rewrite Hb. apply M.
Qed.

Lemma flat_set_reports_proof :
  forall (K : Type) (cmp : K -> K -> Z), cmp_lawful cmp ->
  forall (s : list K) (k : K),
    StronglySorted (fun x y => (cmp x y < 0)%Z) s -> (Z.of_nat (length s) <= 2^30)%Z ->
    (exists s' b, set_add cmp s k = Some (s', b) /\ (b = true <-> ~ In k s) /\
       (forall x, In x s' <-> x = k \/ In x s)) /\
    (exists s' b, set_remove cmp s k = Some (s', b) /\ (b = true <-> In k s) /\
       (forall x, In x s' <-> x <> k /\ In x s)).
Proof.
  intros K cmp L s k Hs Hl. split.
  - destruct (set_add_spec cmp L s k Hs Hl) as (s' & b & E & _ & M & B & _). eauto 6.
  - destruct (set_remove_spec cmp L s k Hs Hl) as (s' & b & E & _ & M & B & _). eauto 6.
Qed.

Lemma flat_set_bulk_proof :
  forall (K : Type) (cmp : K -> K -> Z), cmp_lawful cmp ->
  forall a b : list K,
    StronglySorted (fun x y => (cmp x y < 0)%Z) a -> StronglySorted (fun x y => (cmp x y < 0)%Z) b ->
    (exists s, set_inter cmp a b = Some s /\ StronglySorted (fun x y => (cmp x y < 0)%Z) s /\
       forall k, In k s <-> In k a /\ In k b) /\
    (exists s, set_union cmp a b = Some s /\ StronglySorted (fun x y => (cmp x y < 0)%Z) s /\
       forall k, In k s <-> In k a \/ In k b) /\
    (exists s, set_diff cmp a b = Some s /\ StronglySorted (fun x y => (cmp x y < 0)%Z) s /\
       forall k, In k s <-> In k a /\ ~ In k b) /\
    (exists r, set_has_inter cmp a b = Some r /\ (r = true <-> exists k, In k a /\ In k b)) /\
    (exists r, set_misses_some cmp a b = Some r /\ (r = true <-> exists k, In k b /\ ~ In k a)).
Proof.
  intros K cmp L a b Ha Hb. repeat split.
  - apply (set_inter_spec cmp L); auto.
  - apply (set_union_spec cmp L); auto.
  - apply (set_diff_spec cmp L); auto.
  - apply (set_has_inter_spec cmp L); auto.
  - apply (set_misses_some_spec cmp L); auto.
Qed.

Lemma map_fst_combine {A B} (ks : list A) (vs : list B) :
  length ks = length vs -> map fst (combine ks vs) = ks.
Proof. revert vs; induction ks as [|k ks IH]; intros [|v vs] E; cbn in *; try lia; auto. f_equal; apply IH; lia. Qed.

Lemma flat_map_history_proof :
  forall (K V : Type) (cmp : K -> K -> Z) (default : V), cmp_lawful cmp ->
  forall os : list (mop K V),
    (Z.of_nat (length os) <= 2^30)%Z ->
    let spec := mspec_run (fun a b => (cmp a b =? 0)%Z) os (fun _ => None) in
    exists m, map_run cmp os map_empty = Some m /\
      (forall k, fm_get cmp default m k = Some (match spec k with Some v => v | None => default end)) /\
      (forall k, fm_has cmp m k = Some (match spec k with Some _ => true | None => false end)) /\
      (exists visited, fm_each m = Some visited /\
         StronglySorted (fun x y => (cmp x y < 0)%Z) (map fst visited) /\
         forall k v, In (k, v) visited <-> spec k = Some v).
Proof.
  intros K V cmp d L os Hl spec.
  destruct (map_run_spec cmp L os map_empty (fun _ => None)) as (m & E & R & Hk); [|cbn; lia|].
  { split; [constructor|]. split; [reflexivity|]. cbn; intros; split; [discriminate|tauto]. }
  assert (F : fits (fm_keys m)) by (unfold fits; cbn in Hk; lia).
  exists m; split; auto. split; [intros; apply (fm_get_spec cmp L); auto|].
  split; [intros; apply (fm_has_spec cmp L); auto|].
  eexists; split; [eapply fm_each_spec; eauto|]. destruct R as (S1 & El & M). split.
  - rewrite map_fst_combine by auto. exact S1.
  - intros; symmetry; apply M.
Qed.

Lemma CRep_empty {K} (cmp : K -> K -> Z) : CRep cmp map_empty (fun _ => 0) 0.
Proof.
  split; [|split; [lia|cbn; lia]]. split; [constructor|]. split; [reflexivity|].
  cbn; intros; split; [discriminate|tauto].
Qed.

Lemma flat_countedset_history_proof :
  forall (K : Type) (cmp : K -> K -> Z), cmp_lawful cmp ->
  forall os : list (cop K),
    (Z.of_nat (length os) <= 2^30)%Z ->
    let mult := cspec_run (fun a b => (cmp a b =? 0)%Z) os (fun _ => 0) in
    exists c, cs_run cmp os map_empty = Some c /\
      (forall k, cs_count cmp c k = Some (Z.of_nat (mult k))) /\
      (forall U, NoDup U -> (forall k, mult k <> 0 -> In k U) -> cs_total c = Some (Z.of_nat (msum mult U))).
Proof.
  intros K cmp L os Hl mult.
  destruct (cs_run_spec cmp L os map_empty (fun _ => 0) 0 (CRep_empty cmp)) as (c & E & R); [cbn; lia|].
  assert (F : fits (fm_keys c)) by (destruct R as (_ & _ & R); unfold fits; lia).
  exists c; split; auto. split.
  - intros k. apply (cs_count_spec cmp L c _ _ k R F).
  - intros U ND HU. eapply (cs_total_spec cmp L); eauto.
Qed.

Lemma flat_countedset_reports_proof :
  forall (K : Type) (cmp : K -> K -> Z), cmp_lawful cmp ->
  forall (os : list (cop K)) (k : K),
    (Z.of_nat (length os) < 2^30)%Z ->
    let mult := cspec_run (fun a b => (cmp a b =? 0)%Z) os (fun _ => 0) in
    exists c, cs_run cmp os map_empty = Some c /\
      (exists c', cs_incr cmp c k = Some (c', (mult k =? 0))) /\
      (exists c', cs_try_decr cmp c k = Some (c', (mult k =? 1))) /\
      (exists c', cs_remove cmp c k = Some (c', negb (mult k =? 0))).
Proof.
  intros K cmp L os k Hl mult.
  destruct (cs_run_spec cmp L os map_empty (fun _ => 0) 0 (CRep_empty cmp)) as (c & E & R); [cbn; lia|].
  cbn [Nat.add] in R. exists c; split; auto.
  destruct (cs_step_spec cmp L (CIncr k) c _ _ R ltac:(lia)) as (c1 & E1 & _).
  destruct (cs_step_spec cmp L (CDecr k) c _ _ R ltac:(lia)) as (c2 & E2 & _).
  destruct (cs_step_spec cmp L (CRemove k) c _ _ R ltac:(lia)) as (c3 & E3 & _).
  cbn in E1, E2, E3. split; [exists c1; exact E1|]. split; [exists c2; exact E2|exists c3; exact E3].
Qed.
