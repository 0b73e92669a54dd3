(** C11: parallel-for splits the index range exactly. *)
From Verif Require Import ParforModel CommonLemmas WordsLemmas.
From Coq Require Import Permutation.
Open Scope Z_scope.

(** ** Specification *)
(** How many of the batches contain index i. *)
Definition holders (bs : list (Z * Z)) (i : Z) : nat :=
  length (filter (fun b => (fst b <=? i) && (i <? snd b)) bs).
(** Batches in order, without gaps, from a to b. *)
Fixpoint consecutive (a : Z) (bs : list (Z * Z)) (b : Z) : Prop :=
  match bs with
  | [] => a = b
  | (s, e) :: bs => s = a /\ s <= e /\ consecutive e bs b
  end.
(** The limit: one batch without workers, else the greater of 64 and the number of threads. *)
Definition limit (workers : Z) : Z := if workers =? 0 then 1 else Z.max 64 (workers + 1).

(** ** Proofs *)
Local Lemma max_batches_is w : 0 <= w < 2 ^ 64 - 1 -> max_batches w = limit w.
Proof.
  intros H. unfold max_batches, limit, wadd. rewrite wrap_small by (unfold word; lia).
  destruct (Z.ltb_spec 64 (w + 1)); destruct (Z.eqb_spec (w + 1) 1); destruct (Z.eqb_spec w 0); cbn [orb]; lia.
Qed.
Local Lemma fill_is n : forall i pb size, 0 <= i -> 0 <= pb -> (i + Z.of_nat n) * pb <= size -> size < 2 ^ 64 -> i + Z.of_nat n < 2 ^ 64 ->
  length (fill_tasks n i pb) = n /\
  forall k, (k < n)%nat -> nth_error (fill_tasks n i pb) k = Some ((i + Z.of_nat k) * pb, (i + Z.of_nat k + 1) * pb).
Proof.
  induction n as [|n IH]; intros i pb size Hi Hp H1 H2 H3; cbn [fill_tasks]; [split; [reflexivity|intros; lia]|].
  assert (A : wadd 64 i 1 = i + 1) by (unfold wadd; apply wrap_small; unfold word; lia). rewrite A.
  destruct (IH (i + 1) pb size) as [L N]; [lia|lia|replace (i + 1 + Z.of_nat n) with (i + Z.of_nat (S n)) by lia; exact H1|exact H2|lia|].
  split; [cbn [length]; lia|]. intros [|k] Hk; cbn [nth_error].
  - unfold wmul. rewrite Z.add_0_r. assert (0 <= i * pb <= (i + Z.of_nat (S n)) * pb) by nia. assert (0 <= (i + 1) * pb <= (i + Z.of_nat (S n)) * pb) by nia.
    rewrite !wrap_small by (unfold word; lia). reflexivity.
  - rewrite N by lia. f_equal. f_equal; f_equal; lia.
Qed.
Local Lemma set_last_nth l size : forall k, nth_error (set_last_end l size) k =
  match nth_error l k with Some t => Some (if (S k =? length l)%nat then (fst t, size) else t) | None => None end.
Proof.
  induction l as [|t r IH]; intros k; [destruct k; reflexivity|]. destruct r as [|u r].
  - cbn. destruct k as [|[|k]]; reflexivity.
  - change (set_last_end (t :: u :: r) size) with (t :: set_last_end (u :: r) size). destruct k as [|k]; [reflexivity|]. cbn [nth_error]. rewrite IH.
    destruct (nth_error (u :: r) k); [|reflexivity]. reflexivity.
Qed.
Local Lemma consecutive_nth bs : forall a b, consecutive a bs b <->
  (bs = [] /\ a = b) \/ (bs <> [] /\ (forall k s e, nth_error bs k = Some (s, e) -> s <= e) /\
    (forall s e, nth_error bs 0 = Some (s, e) -> s = a) /\
    (forall k s e s' e', nth_error bs k = Some (s, e) -> nth_error bs (S k) = Some (s', e') -> s' = e) /\
    (forall s e, nth_error bs (length bs - 1) = Some (s, e) -> e = b)).
Proof.
  induction bs as [|[s e] bs IH]; intros a b; cbn [consecutive].
  - split; [intros ->; left; auto|]. intros [[_ H]|[H _]]; [exact H|congruence].
  - split.
    + intros (-> & Hle & C). right. split; [discriminate|]. apply IH in C. split.
      * intros [|k] s' e' H; cbn in H; [injection H as <- <-; exact Hle|]. destruct C as [[-> _]|(_ & C & _)]; [destruct k; discriminate|eauto].
      * split; [intros s' e' H; cbn in H; congruence|]. split.
        -- intros k s1 e1 s2 e2 H1 H2. cbn in H2. destruct C as [[-> _]|(_ & _ & C0 & C1 & _)]; [destruct k; discriminate|].
           destruct k as [|k]; cbn in H1; [injection H1 as <- <-; eapply C0; eauto|]. eapply C1; eauto.
        -- intros s' e' H. destruct C as [[-> ->]|(N & _ & _ & _ & C)]; [cbn in H; congruence|].
           destruct bs as [|x bs]; [congruence|]. cbn [length] in *. apply (C s' e').
           replace (S (length bs) - 1)%nat with (length bs) by lia. replace (S (S (length bs)) - 1)%nat with (S (length bs)) in H by lia. exact H.
    + intros [[H _]|(_ & H1 & H2 & H3 & H4)]; [discriminate|]. split; [apply (H2 s e); reflexivity|]. split; [apply (H1 0%nat); reflexivity|].
      apply IH. destruct bs as [|[s1 e1] bs]; [left; split; [reflexivity|]; apply (H4 s e); reflexivity|]. right. split; [discriminate|].
      split; [intros k; apply (H1 (S k))|]. split; [intros s2 e2 H; cbn in H; injection H as <- <-; apply (H3 0%nat s e s1 e1); reflexivity|].
      split; [intros k; apply (H3 (S k))|]. intros s2 e2 H. apply (H4 s2 e2). cbn [length] in *.
      replace (S (length bs) - 1)%nat with (length bs) in H by lia. replace (S (S (length bs)) - 1)%nat with (S (length bs)) by lia. exact H.
Qed.
Local Lemma consecutive_le bs : forall a b, consecutive a bs b -> a <= b.
Proof. induction bs as [|[s e] bs IH]; intros a b; cbn; [lia|]. intros (-> & H & C). apply IH in C. lia. Qed.
Local Lemma consecutive_holders bs : forall a b i, consecutive a bs b ->
  holders bs i = if (a <=? i) && (i <? b) then 1%nat else 0%nat.
Proof.
  unfold holders. induction bs as [|[s e] bs IH]; intros a b i; cbn [consecutive filter].
  - intros ->. replace ((b <=? i) && (i <? b)) with false by lia. reflexivity.
  - intros (-> & H & C). cbn [fst snd]. specialize (IH e b i C). pose proof (consecutive_le _ _ _ C).
    destruct (Z.leb_spec a i); destruct (Z.ltb_spec i e); cbn [andb]; cbn [length]; rewrite IH;
      destruct (Z.leb_spec e i); destruct (Z.ltb_spec i b); cbn [andb]; lia.
Qed.

(** ** The theorems *)
Theorem parallel_for_splits_exactly : forall workers size per,
  0 <= workers < 2 ^ 64 - 1 -> 0 <= size < 2 ^ 64 -> 0 < per < 2 ^ 64 ->
  exists bs, batches_of workers size per = Some bs /\
    (forall i, holders bs i = if (0 <=? i) && (i <? size) then 1%nat else 0%nat) /\
    consecutive 0 bs size /\
    1 <= Z.of_nat (length bs) <= limit workers /\
    (1 < Z.of_nat (length bs) -> Forall (fun b => per <= snd b - fst b) bs) /\
    (0 < size -> Forall (fun b => fst b < snd b) bs) /\
    (per <= size -> Z.of_nat (length bs) = Z.min (size / per) (limit workers)).
Proof.
  intros w size per Hw Hs Hp. unfold batches_of, batch_count. destruct (Z.eqb_spec per 0) as [|_]; [lia|]. cbn [obind].
  rewrite max_batches_is by exact Hw.
  set (q := size / per). set (n := if 1 <? (if q <? limit w then q else limit w) then if q <? limit w then q else limit w else 1).
  assert (Lw : 1 <= limit w) by (unfold limit; destruct (Z.eqb_spec w 0); lia).
  assert (Hq : 0 <= q /\ q * per <= size) by (unfold q; pose proof (Z.mul_div_le size per); pose proof (Z.div_pos size per); lia).
  assert (Hn : 1 <= n <= limit w /\ (1 < n -> n <= q) /\ (1 <= q -> n = Z.min q (limit w))).
  { unfold n. destruct (Z.ltb_spec q (limit w)); [destruct (Z.ltb_spec 1 q)|destruct (Z.ltb_spec 1 (limit w))]; lia. }
  clearbody n. destruct Hn as (N1 & N2 & N3). destruct (Z.eqb_spec n 0) as [|_]; [lia|].
  eexists. split; [reflexivity|].
  set (pb := size / n). assert (Hpb : 0 <= pb /\ n * pb <= size /\ size < n * pb + n).
  { unfold pb. pose proof (Z.div_pos size n). pose proof (Z.mul_div_le size n). pose proof (Z.mul_succ_div_gt size n). nia. }
  assert (Hper : 1 < n -> per <= pb).
  { intros H. unfold pb. apply Z.div_le_lower_bound; [lia|]. specialize (N2 H). nia. }
  assert (Hnw : n < 2 ^ 64) by (unfold limit in N1; destruct (Z.eqb_spec w 0); lia).
  destruct (fill_is (Z.to_nat n) 0 pb size) as [FL FN]; [lia|lia|rewrite Z.add_0_l, Z2Nat.id by lia; lia|lia|rewrite Z2Nat.id by lia; lia|].
  set (ts := fill_tasks (Z.to_nat n) 0 pb) in *.
  assert (T : forall k s e, nth_error (set_last_end ts size) k = Some (s, e) ->
     (k < Z.to_nat n)%nat /\ s = Z.of_nat k * pb /\ e = if (S k =? Z.to_nat n)%nat then size else (Z.of_nat k + 1) * pb).
  { intros k s e H. rewrite set_last_nth in H. destruct (Nat.lt_ge_cases k (Z.to_nat n)) as [L|L].
    - rewrite (FN k L) in H. rewrite FL in H. split; [exact L|]. rewrite Z.add_0_l in H. destruct (S k =? Z.to_nat n)%nat; cbn [fst] in H; injection H as <- <-; auto.
    - rewrite (proj2 (nth_error_None ts k)) in H by lia. discriminate. }
  assert (LL : length (set_last_end ts size) = Z.to_nat n).
  { rewrite <- FL. clear. induction ts as [|t r IH]; [reflexivity|]. destruct r; [reflexivity|].
    change (set_last_end (t :: p :: r) size) with (t :: set_last_end (p :: r) size). cbn [length] in *. rewrite IH. reflexivity. }
  assert (Dif : forall k, (k < Z.to_nat n)%nat -> (if (S k =? Z.to_nat n)%nat then size else (Z.of_nat k + 1) * pb) - Z.of_nat k * pb >= pb).
  { intros k Hk. destruct (Nat.eqb_spec (S k) (Z.to_nat n)) as [E|E]; [|nia]. assert (Z.of_nat k = n - 1) by lia. nia. }
  assert (C : consecutive 0 (set_last_end ts size) size).
  { apply consecutive_nth. right. split; [intros E; rewrite E in LL; cbn in LL; lia|]. split; [|split; [|split]].
    - intros k s e H. apply T in H. destruct H as (H & -> & ->). specialize (Dif k H). lia.
    - intros s e H. apply T in H. destruct H as (_ & -> & _). lia.
    - intros k s e s' e' H H'. apply T in H, H'. destruct H as (H & -> & ->). destruct H' as (H' & -> & _).
      destruct (Nat.eqb_spec (S k) (Z.to_nat n)); [lia|]. f_equal. lia.
    - intros s e H. apply T in H. destruct H as (H & _ & ->). rewrite LL in *. destruct (Nat.eqb_spec (S (Z.to_nat n - 1)) (Z.to_nat n)); [reflexivity|lia]. }
  split; [intros i; apply consecutive_holders; exact C|]. split; [exact C|]. split; [rewrite LL; lia|]. split; [|split].
  - rewrite LL. intros H. apply Forall_forall. intros [s e] I. apply In_nth_error in I. destruct I as (k & I). apply T in I.
    destruct I as (I & -> & ->). specialize (Dif k I). cbn [fst snd]. specialize (Hper ltac:(lia)). lia.
  - intros Hpos. apply Forall_forall. intros [s e] I. apply In_nth_error in I. destruct I as (k & I). apply T in I.
    destruct I as (I & -> & ->). specialize (Dif k I). cbn [fst snd].
    destruct (Z.eq_dec n 1) as [->|]; [|specialize (Hper ltac:(lia)); lia]. unfold pb in *. rewrite Z.div_1_r in *. lia.
  - intros H. rewrite LL, Z2Nat.id by lia. apply N3. unfold q. apply Z.div_le_lower_bound; lia.
Qed.
Print Assumptions parallel_for_splits_exactly.

(** ** lib/par.fu: in whatever order the visits of the batches happen, map gives the mapped array. *)
Local Lemma visits_in n : forall i x, In x (visit_range n i) <-> i <= x < i + Z.of_nat n.
Proof.
  induction n as [|n IH]; intros i x; cbn [visit_range In]; [lia|]. rewrite IH. lia.
Qed.
Local Lemma visits_nodup n : forall i, NoDup (visit_range n i).
Proof. induction n as [|n IH]; intros i; cbn; constructor; [rewrite visits_in; lia|apply IH]. Qed.
Local Lemma visits_app n m : forall i, visit_range (n + m) i = visit_range n i ++ visit_range m (i + Z.of_nat n).
Proof.
  induction n as [|n IH]; intros i; cbn [plus visit_range app]; [f_equal; lia|]. rewrite IH. do 3 f_equal. lia.
Qed.
Local Lemma consecutive_visits bs : forall a b, consecutive a bs b -> flat_map batch_visits bs = visit_range (Z.to_nat (b - a)) a.
Proof.
  induction bs as [|[s e] bs IH]; intros a b; cbn [consecutive flat_map].
  - intros ->. rewrite Z.sub_diag. reflexivity.
  - intros (-> & H & C). rewrite (IH _ _ C). unfold batch_visits. cbn [fst snd]. pose proof (consecutive_le _ _ _ C).
    replace (Z.to_nat (b - a)) with (Z.to_nat (e - a) + Z.to_nat (b - e))%nat by lia. rewrite visits_app. do 2 f_equal. lia.
Qed.
Local Lemma writes_spec {T U} (f : T -> Z -> U) arr : forall order result,
  length result = length arr -> (forall i, In i order -> 0 <= i < Z.of_nat (length arr)) ->
  exists r, par_writes f arr order result = Some r /\ length r = length arr /\
    forall k x, nth_error arr k = Some x ->
      nth_error r k = if in_dec Z.eq_dec (Z.of_nat k) order then Some (Some (f x (Z.of_nat k))) else nth_error result k.
Proof.
  induction order as [|i order IH]; intros result L B; cbn [par_writes]; [exists result; auto|].
  pose proof (B i (or_introl eq_refl)) as Bi. replace (i <? 0) with false by lia.
  destruct (nth_error_ex arr (Z.to_nat i) ltac:(lia)) as (x & Ex). rewrite Ex. cbn [obind].
  destruct (upd_total result (Z.to_nat i) (Some (f x i)) ltac:(lia)) as (r1 & E1). rewrite E1. cbn [obind].
  destruct (upd_Some _ _ _ _ E1) as (_ & L1 & S1 & O1).
  destruct (IH r1) as (r & R & Lr & N); [congruence|intros; apply B; right; auto|]. exists r. split; [exact R|]. split; [exact Lr|].
  intros k y Ey. rewrite (N k y Ey). destruct (in_dec Z.eq_dec (Z.of_nat k) order) as [I|I].
  - destruct (in_dec Z.eq_dec (Z.of_nat k) (i :: order)) as [J|J]; [reflexivity|]. exfalso. apply J. right. exact I.
  - destruct (in_dec Z.eq_dec (Z.of_nat k) (i :: order)) as [[->|J]|J]; [|contradiction|].
    + rewrite Nat2Z.id in *. rewrite Ex in Ey. injection Ey as ->. exact S1.
    + apply O1. intros E. apply J. left. lia.
Qed.
Theorem parallel_map_in_any_order : forall T U (f : T -> Z -> U) (arr : list T) workers min bs order,
  0 <= workers < 2 ^ 64 - 1 -> Z.of_nat (length arr) < 2 ^ 31 -> - 2 ^ 31 <= min < 2 ^ 31 ->
  par_batches workers min (Z.of_nat (length arr)) = Some bs ->
  Permutation order (flat_map batch_visits bs) ->
  exists r, par_map f arr order = Some r /\ length r = length arr /\
    forall k x, nth_error arr k = Some x -> nth_error r k = Some (Some (f x (Z.of_nat k))).
Proof.
  intros T U f arr w mn bs order Hw Ha Hm Hb Po. unfold par_batches in Hb. rewrite !wrap_small in Hb by (unfold word; destruct (Z.ltb_spec 1 mn); lia).
  destruct (parallel_for_splits_exactly w (Z.of_nat (length arr)) (if 1 <? mn then mn else 1)) as (bs' & E & _ & C & _); [exact Hw|lia|destruct (Z.ltb_spec 1 mn); lia|].
  rewrite E in Hb. injection Hb as ->. rewrite (consecutive_visits _ _ _ C), Z.sub_0_r, Nat2Z.id in Po.
  destruct (writes_spec f arr order (repeat None (length arr))) as (r & R & L & N).
  - apply repeat_length.
  - intros i I. apply (Permutation_in _ Po) in I. apply visits_in in I. lia.
  - exists r. split; [exact R|]. split; [exact L|]. intros k x Ex. rewrite (N k x Ex).
    destruct (in_dec Z.eq_dec (Z.of_nat k) order) as [|I]; [reflexivity|]. exfalso. apply I.
    apply (Permutation_in _ (Permutation_sym Po)). apply visits_in. apply nth_error_lt in Ex. lia.
Qed.
Print Assumptions parallel_map_in_any_order.

(** ** Non-vacuity *)
Example split_example : batches_of 1 100 40 = Some [(0, 50); (50, 100)] /\ batches_of 0 100 40 = Some [(0, 100)] /\
  batches_of 3 7 2 = Some [(0, 2); (2, 4); (4, 7)] /\ batches_of 3 0 2 = Some [(0, 0)].
Proof. repeat split. Qed.
Example par_map_example : par_map (fun x i => x + i) [10; 20; 30] [2; 0; 1] = Some [Some 10; Some 21; Some 32] /\
  par_batches 3 1 3 = Some [(0, 1); (1, 2); (2, 3)].
Proof. split; reflexivity. Qed.
