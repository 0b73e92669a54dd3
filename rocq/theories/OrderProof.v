(** * C72: proofs about argument order *)

From Coq Require Import List ZArith Bool Permutation Sorting.Sorted Lia.
From Verif Require Import OrderSpec OrderModel.
Import ListNotations.

(** ** Traversals *)

Fixpoint sel (keys : list bool) (i : nat) (pass : bool) : list nat :=
  match keys with
  | [] => []
  | k :: ks => if Bool.eqb pass k then i :: sel ks (S i) pass else sel ks (S i) pass
  end.

Fixpoint number (l : list nat) (q n : nat) : list (nat * nat * bool) :=
  match l with
  | [] => []
  | i :: l => (i, q, Nat.eqb q (n - 1)) :: number l (S q) n
  end.

Definition from (start : nat) (x : nat * nat * bool) : bool := Nat.leb start (snd (fst x)).

Lemma fwd_pass_eq : forall keys i pass q start n,
  fwd_pass keys i pass q start n
  = (filter (from start) (number (sel keys i pass) q n), q + length (sel keys i pass),
     negb (forallb (Bool.eqb pass) keys)).
Proof.
  induction keys as [|k ks IH]; intros i pass q start n; cbn [fwd_pass sel forallb].
  - cbn. rewrite Nat.add_0_r. reflexivity.
  - destruct (Bool.eqb pass k) eqn:E.
    + rewrite IH. cbn [number filter length andb]. unfold from at 2. cbn [fst snd].
      replace (S q + length (sel ks (S i) pass)) with (q + S (length (sel ks (S i) pass))) by lia.
      destruct (Nat.leb start q); reflexivity.
    + rewrite IH. cbn [andb negb]. reflexivity.
Qed.

Lemma sel_none : forall keys i, forallb (Bool.eqb false) keys = true -> sel keys i true = [].
Proof.
  induction keys as [|k ks IH]; intros i E; [reflexivity|].
  cbn in E |- *. apply andb_prop in E as [E1 E2]. destruct k; [discriminate|]. cbn. apply IH, E2.
Qed.

Lemma sel_none' : forall keys i, forallb (Bool.eqb true) keys = true -> sel keys i false = [].
Proof.
  induction keys as [|k ks IH]; intros i E; [reflexivity|].
  cbn in E |- *. apply andb_prop in E as [E1 E2]. destruct k; [|discriminate]. cbn. apply IH, E2.
Qed.

Lemma number_app : forall a b q n, number (a ++ b) q n = number a q n ++ number b (q + length a) n.
Proof.
  induction a as [|x a IH]; intros b q n; cbn [number app length].
  - rewrite Nat.add_0_r. reflexivity.
  - rewrite IH. cbn. do 3 f_equal. lia.
Qed.

Definition order (rtl : bool) (lates : list bool) : list nat :=
  sel (keys_from rtl 0 lates) 0 false ++ sel (keys_from rtl 0 lates) 0 true.

Lemma filter_number : forall l q n start, q <= start ->
  filter (from start) (number l q n) = number (skipn (start - q) l) start n.
Proof.
  induction l as [|i l IH]; intros q n start L; cbn [number filter].
  - destruct (start - q); reflexivity.
  - unfold from at 1. cbn [fst snd]. destruct (Nat.leb start q) eqn:E.
    + apply Nat.leb_le in E. assert (start = q) by lia. subst start.
      rewrite Nat.sub_diag. cbn [skipn number]. f_equal.
      clear. assert (G : forall m q q', q <= q' -> filter (from q) (number m q' n) = number m q' n).
      { induction m as [|x m IH]; intros q0 q' L; [reflexivity|].
        cbn [number filter]. unfold from at 1. cbn [fst snd].
        rewrite (proj2 (Nat.leb_le _ _) L). f_equal. apply IH. lia. }
      apply G. lia.
    + apply Nat.leb_gt in E. rewrite IH by lia.
      replace (start - q) with (S (start - S q)) by lia. reflexivity.
Qed.

Lemma args_forward_eq : forall rtl lates start,
  args_forward rtl lates start = number (skipn start (order rtl lates)) start (length lates).
Proof.
  intros rtl lates start. unfold args_forward, order.
  set (keys := keys_from rtl 0 lates). rewrite !fwd_pass_eq.
  assert (E : filter (from start) (number (sel keys 0 false ++ sel keys 0 true) 0 (length lates))
    = number (skipn start (sel keys 0 false ++ sel keys 0 true)) start (length lates)).
  { rewrite filter_number by lia. rewrite Nat.sub_0_r. reflexivity. }
  rewrite <- E, number_app, filter_app.
  destruct (forallb (Bool.eqb false) keys) eqn:F; cbn [negb].
  - rewrite (sel_none _ _ F). cbn. rewrite app_nil_r. reflexivity.
  - reflexivity.
Qed.

Lemma indices_number : forall l q n, indices (number l q n) = l.
Proof.
  induction l as [|i l IH]; intros q n; [reflexivity|].
  unfold indices in *. cbn. f_equal. apply IH.
Qed.

Lemma indices_forward : forall rtl lates start,
  indices (args_forward rtl lates start) = skipn start (order rtl lates).
Proof. intros. rewrite args_forward_eq. apply indices_number. Qed.

(** *** Reverse *)

Fixpoint rsel (rkeys : list bool) (pass : bool) : list nat :=
  match rkeys with
  | [] => []
  | k :: ks => if Bool.eqb pass k then length ks :: rsel ks pass else rsel ks pass
  end.

Fixpoint numr (l : list nat) (q : nat) (last : bool) : list (nat * nat * bool) :=
  match l with
  | [] => []
  | i :: l => (i, q, last) :: numr l (S q) false
  end.

Definition still (l : list nat) (last : bool) : bool := match l with [] => last | _ => false end.

Lemma rev_pass_eq : forall rkeys pass q last,
  rev_pass rkeys pass q last
  = (numr (rsel rkeys pass) q last, q + length (rsel rkeys pass), still (rsel rkeys pass) last,
     negb (forallb (Bool.eqb pass) rkeys)).
Proof.
  induction rkeys as [|k ks IH]; intros pass q last; cbn [rev_pass rsel forallb].
  - cbn. rewrite Nat.add_0_r. reflexivity.
  - destruct (Bool.eqb pass k) eqn:E; rewrite IH; cbn [numr length andb still negb].
    + replace (S q + length (rsel ks pass)) with (q + S (length (rsel ks pass))) by lia.
      destruct (rsel ks pass); reflexivity.
    + reflexivity.
Qed.

Lemma numr_app : forall a b q last,
  numr (a ++ b) q last = numr a q last ++ numr b (q + length a) (still a last).
Proof.
  induction a as [|x a IH]; intros b q last; cbn [numr app length still].
  - rewrite Nat.add_0_r. reflexivity.
  - rewrite IH. replace (S q + length a) with (q + S (length a)) by lia. destruct a; reflexivity.
Qed.

Lemma sel_app : forall a b i pass, sel (a ++ b) i pass = sel a i pass ++ sel b (i + length a) pass.
Proof.
  induction a as [|k a IH]; intros b i pass; cbn [sel app length].
  - rewrite Nat.add_0_r. reflexivity.
  - rewrite IH. replace (S i + length a) with (i + S (length a)) by lia.
    destruct (Bool.eqb pass k); reflexivity.
Qed.

Lemma rsel_rev : forall keys pass, rsel (rev keys) pass = rev (sel keys 0 pass).
Proof.
  induction keys as [|k ks IH] using rev_ind; intros pass; [reflexivity|].
  rewrite rev_unit, sel_app, rev_app_distr. cbn [rsel sel]. rewrite rev_length, IH.
  destruct (Bool.eqb pass k); reflexivity.
Qed.

Lemma forallb_rev : forall (f : bool -> bool) l, forallb f (rev l) = forallb f l.
Proof.
  induction l as [|x l IH]; [reflexivity|]. cbn. rewrite forallb_app, IH. cbn.
  rewrite andb_true_r. apply andb_comm.
Qed.

Lemma args_reverse_eq : forall rtl lates,
  args_reverse rtl lates = numr (rev (order rtl lates)) 0 true.
Proof.
  intros rtl lates. unfold args_reverse, order. set (keys := keys_from rtl 0 lates).
  rewrite rev_pass_eq, rsel_rev, forallb_rev, rev_app_distr, numr_app.
  destruct (forallb (Bool.eqb true) keys) eqn:F; cbn [negb].
  - rewrite (sel_none' _ _ F). cbn. rewrite app_nil_r. reflexivity.
  - rewrite rev_pass_eq, rsel_rev. reflexivity.
Qed.

Lemma indices_numr : forall l q last, indices (numr l q last) = l.
Proof.
  induction l as [|i l IH]; intros q last; [reflexivity|].
  unfold indices in *. cbn. f_equal. apply IH.
Qed.

(** *** The order *)

Lemma keys_ltr : forall lates i, keys_from false i lates = lates.
Proof. induction lates as [|l ls IH]; intros i; [reflexivity|]. cbn. rewrite IH. reflexivity. Qed.

Lemma sel_spec : forall keys i pass x,
  In x (sel keys i pass) <-> i <= x < i + length keys /\ nth (x - i) keys false = pass.
Proof.
  induction keys as [|k ks IH]; intros i pass x; cbn [sel length].
  - split; [intros []|intros [? _]; lia].
  - assert (R : In x (sel ks (S i) pass) <->
      S i <= x < i + S (length ks) /\ nth (x - i) (k :: ks) false = pass).
    { rewrite IH. replace (S i + length ks) with (i + S (length ks)) by lia.
      split; intros [L E]; (split; [lia|]).
      - replace (x - i) with (S (x - S i)) by lia. exact E.
      - replace (x - i) with (S (x - S i)) in E by lia. exact E. }
    destruct (Bool.eqb pass k) eqn:E.
    + apply eqb_prop in E. subst k. cbn [In]. rewrite R. split.
      * intros [-> | [L N]]; [|split; [lia|exact N]].
        rewrite Nat.sub_diag. split; [lia|reflexivity].
      * intros [L N]. destruct (Nat.eq_dec i x) as [->|D]; [left; reflexivity|right; split; [lia|exact N]].
    + rewrite R. split; intros [L N]; (split; [|exact N]); [lia|].
      destruct (Nat.eq_dec i x) as [->|D]; [|lia].
      rewrite Nat.sub_diag in N. cbn in N. subst k. rewrite eqb_reflx in E. discriminate.
Qed.

Lemma sel_sorted : forall keys i pass, StronglySorted lt (sel keys i pass).
Proof.
  induction keys as [|k ks IH]; intros i pass; cbn [sel]; [constructor|].
  destruct (Bool.eqb pass k); [|apply IH].
  constructor; [apply IH|]. apply Forall_forall. intros x I. apply sel_spec in I. lia.
Qed.

Lemma sorted_nodup : forall l, StronglySorted lt l -> NoDup l.
Proof.
  induction 1 as [|x l S IH F]; constructor; [|exact IH].
  intros I. rewrite Forall_forall in F. specialize (F _ I). lia.
Qed.

Lemma nodup_app : forall (a b : list nat), NoDup a -> NoDup b -> (forall x, In x a -> ~ In x b) -> NoDup (a ++ b).
Proof.
  induction a as [|x a IH]; intros b Na Nb D; [exact Nb|].
  inversion Na; subst. cbn. constructor.
  - rewrite in_app_iff. intros [?|?]; [contradiction|]. apply (D x); [left; reflexivity|assumption].
  - apply IH; [assumption|assumption|]. intros y Iy. apply D. right. exact Iy.
Qed.

Lemma keys_length : forall rtl lates i, length (keys_from rtl i lates) = length lates.
Proof. induction lates as [|l ls IH]; intros i; [reflexivity|]. cbn. rewrite IH. reflexivity. Qed.

Lemma order_in : forall rtl lates x, In x (order rtl lates) <-> x < length lates.
Proof.
  intros rtl lates x. unfold order. rewrite in_app_iff, !sel_spec, keys_length. split.
  - intros [[L _]|[L _]]; lia.
  - intros L. rewrite Nat.sub_0_r. destruct (nth x _ false); [right|left]; (split; [lia|reflexivity]).
Qed.

Lemma order_nodup : forall rtl lates, NoDup (order rtl lates).
Proof.
  intros rtl lates. unfold order. apply nodup_app; try (apply sorted_nodup, sel_sorted).
  intros x I1 I2. apply sel_spec in I1, I2. destruct I1 as [_ E1], I2 as [_ E2]. congruence.
Qed.

Lemma order_perm : forall rtl lates, Permutation (order rtl lates) (seq 0 (length lates)).
Proof.
  intros rtl lates. apply NoDup_Permutation; [apply order_nodup|apply seq_NoDup|].
  intros x. rewrite order_in, in_seq. lia.
Qed.

Lemma ssorted_app : forall (R : nat -> nat -> Prop) a b,
  StronglySorted R a -> StronglySorted R b -> (forall x y, In x a -> In y b -> R x y) ->
  StronglySorted R (a ++ b).
Proof.
  induction a as [|x a IH]; intros b Sa Sb H; [exact Sb|].
  inversion Sa; subst. cbn. constructor.
  - apply IH; [assumption|assumption|]. intros y z Iy Iz. apply H; [right; exact Iy|exact Iz].
  - apply Forall_app. split; [assumption|]. apply Forall_forall. intros y Iy.
    apply H; [left; reflexivity|exact Iy].
Qed.

Lemma ssorted_weaken : forall (R Q : nat -> nat -> Prop) a,
  StronglySorted R a -> (forall x y, In x a -> In y a -> R x y -> Q x y) -> StronglySorted Q a.
Proof.
  induction 1 as [|x l S IH F]; intros H; constructor.
  - apply IH. intros y z Iy Iz. apply H; right; assumption.
  - rewrite Forall_forall in F |- *. intros y Iy. apply H; [left; reflexivity|right; exact Iy|apply F, Iy].
Qed.

Lemma order_ltr : forall lates,
  fu_order (length lates) (fun i => nth i lates false) (order false lates).
Proof.
  intros lates. split; [apply order_perm|]. unfold order. rewrite keys_ltr.
  apply ssorted_app.
  - apply (ssorted_weaken _ _ _ (sel_sorted lates 0 false)). intros x y Ix Iy L.
    apply sel_spec in Ix, Iy. rewrite Nat.sub_0_r in Ix, Iy. right. destruct Ix, Iy.
    split; [congruence|exact L].
  - apply (ssorted_weaken _ _ _ (sel_sorted lates 0 true)). intros x y Ix Iy L.
    apply sel_spec in Ix, Iy. rewrite Nat.sub_0_r in Ix, Iy. right. destruct Ix, Iy.
    split; [congruence|exact L].
  - intros x y Ix Iy. apply sel_spec in Ix, Iy. rewrite Nat.sub_0_r in Ix, Iy. left.
    destruct Ix, Iy. split; assumption.
Qed.

Lemma keys_rtl : forall lates i, keys_from true (S i) lates = repeat false (length lates).
Proof. induction lates as [|l ls IH]; intros i; [reflexivity|]. cbn. rewrite IH. reflexivity. Qed.

Lemma sel_repeat : forall n i, sel (repeat false n) i false = seq i n.
Proof. induction n as [|n IH]; intros i; [reflexivity|]. cbn. rewrite IH. reflexivity. Qed.

Lemma sel_repeat' : forall n i, sel (repeat false n) i true = [].
Proof. induction n as [|n IH]; intros i; [reflexivity|]. cbn. apply IH. Qed.

Lemma order_rtl : forall l lates, order true (l :: lates) = seq 1 (length lates) ++ [0].
Proof.
  intros l lates. unfold order. cbn [keys_from key]. rewrite keys_rtl. cbn.
  rewrite sel_repeat, sel_repeat'. reflexivity.
Qed.

(** ** The solver's mask *)

Lemma region_eqb_spec : forall a b, region_eqb a b = true <-> a = b.
Proof.
  intros [x|x] [y|y]; cbn; split; intros E; try discriminate.
  - apply Z.eqb_eq in E. congruence.
  - injection E as ->. apply Z.eqb_refl.
  - apply Nat.eqb_eq in E. congruence.
  - injection E as ->. apply Nat.eqb_refl.
Qed.

Lemma has_inter_false : forall a b, has_inter a b = false -> forall r, In r a -> ~ In r b.
Proof.
  intros a b E r Ia Ib. unfold has_inter in E.
  assert (T : existsb (fun x => existsb (region_eqb x) b) a = true).
  { apply existsb_exists. exists r. split; [exact Ia|]. apply existsb_exists.
    exists r. split; [exact Ib|]. apply region_eqb_spec. reflexivity. }
  congruence.
Qed.

Definition apart (p q : footprint) : Prop :=
  (forall r, In r (changes p) -> ~ In r (reads q)) /\ (forall r, In r (changes q) -> ~ In r (reads p)).

Lemma conflict_false : forall p q, conflict p q = false -> apart p q.
Proof.
  intros p q E. unfold conflict in E. apply orb_false_elim in E as [E E4].
  apply orb_false_elim in E as [E E3]. apply orb_false_elim in E as [E1 E2].
  split; intros r I; unfold changes in I; apply in_app_iff in I as [I|I].
  - apply (has_inter_false _ _ E3 _ I).
  - apply (has_inter_false _ _ E1 _ I).
  - apply (has_inter_false _ _ E4 _ I).
  - apply (has_inter_false _ _ E2 _ I).
Qed.

Definition covers (p q : footprint) : Prop :=
  incl (reads q) (reads p) /\ incl (writes q) (writes p) /\ incl (moves q) (moves p).

Lemma apart_covers : forall a p q, covers p q -> apart a p -> apart a q.
Proof.
  intros a p q (R & W & M) [A B]. split.
  - intros r I N. apply (A r I). apply R, N.
  - intros r I. apply B. unfold changes in *. apply in_app_iff in I as [I|I]; apply in_app_iff; [left; apply W, I|right; apply M, I].
Qed.

Lemma covers_refl : forall p, covers p p.
Proof. intros p. repeat split; intros x I; exact I. Qed.
Lemma covers_join_l : forall p q r, covers p r -> covers (join p q) r.
Proof. intros p q r (A & B & C). repeat split; cbn; intros x I; apply in_app_iff; left; auto. Qed.
Lemma covers_join_r : forall p q r, covers q r -> covers (join p q) r.
Proof. intros p q r (A & B & C). repeat split; cbn; intros x I; apply in_app_iff; right; auto. Qed.

Lemma bit_testbit : forall i, Z.testbit (bit i) (Z.of_nat (Nat.modulo i 32)) = true.
Proof.
  intros i. unfold bit. rewrite Z.shiftl_spec by lia. rewrite Z.sub_diag. reflexivity.
Qed.

Definition marked (mask : Z) (i : nat) : bool := negb (Z.eqb (Z.land mask (bit i)) 0).

Lemma marked_of_bit : forall mask i,
  Z.testbit mask (Z.of_nat (Nat.modulo i 32)) = true -> marked mask i = true.
Proof.
  intros mask i T. unfold marked. destruct (Z.eqb (Z.land mask (bit i)) 0) eqn:E; [|reflexivity].
  apply Z.eqb_eq in E.
  assert (F : Z.testbit (Z.land mask (bit i)) (Z.of_nat (Nat.modulo i 32)) = true)
    by (rewrite Z.land_spec, T, bit_testbit; reflexivity).
  rewrite E, Z.bits_0 in F. discriminate.
Qed.

Lemma mustseq_mono : forall fp l inner par mask k,
  Z.testbit mask k = true -> Z.testbit (mustseq fp l inner par mask) k = true.
Proof.
  induction l as [|[[i q] b] l IH]; intros inner par mask k T; [exact T|].
  cbn [mustseq]. apply IH. destruct (conflict _ _); [|exact T].
  rewrite Z.lor_spec, T. reflexivity.
Qed.

(** an argument that is not marked touches nothing the ones visited before it do *)
Lemma mustseq_sound : forall fp rest done q last inner par mask,
  q = length done ->
  (match done with
   | [] => True
   | [j] => inner = fp j
   | j :: js => inner = fp j /\ forall k, In k js -> covers par (fp k)
   end) ->
  forall a i b, rest = a ++ i :: b ->
  marked (mustseq fp (numr rest q last) inner par mask) i = false ->
  forall j, In j (rev a ++ done) -> apart (fp i) (fp j).
Proof.
  intros fp. induction rest as [|x rest IH]; intros done q last inner par mask Q I a i b E M j J.
  - destruct a; discriminate.
  - cbn [numr mustseq] in M.
    set (par' := match q with 0 => par | 1 => inner | _ => join par inner end) in *.
    assert (C : forall k, In k done -> covers par' (fp k)).
    { intros k K. subst q par'. destruct done as [|d1 [|d2 ds]]; cbn [length].
      - destruct K.
      - destruct K as [<-|[]]. subst inner. apply covers_refl.
      - destruct I as [-> C]. destruct K as [<-|K]; [apply covers_join_r, covers_refl|].
        apply covers_join_l, C, K. }
    destruct a as [|y a]; cbn [app] in E.
    + injection E as -> ->. cbn [rev app] in J.
      destruct (conflict (fp i) par') eqn:F.
      * exfalso. assert (T : marked (mustseq fp (numr b (S q) false) (fp i) par' (Z.lor mask (bit i))) i = true).
        { apply marked_of_bit, mustseq_mono. rewrite Z.lor_spec, bit_testbit, orb_true_r. reflexivity. }
        congruence.
      * apply (apart_covers _ par'); [apply C, J|]. apply conflict_false, F.
    + injection E as -> ->.
      refine (IH (y :: done) (S q) false (fp y) par' _ _ _ a i b eq_refl M j _).
      * cbn. lia.
      * destruct done as [|d ds]; [reflexivity|]. split; [reflexivity|]. exact C.
      * cbn [rev] in J. rewrite <- app_assoc in J. exact J.
Qed.

Lemma mask_sound : forall lates fp a i b,
  order false lates = a ++ i :: b ->
  marked (mustseq_mask false lates fp) i = false ->
  forall j, In j b -> apart (fp i) (fp j).
Proof.
  intros lates fp a i b E M j J. unfold mustseq_mask in M. cbn [negb andb] in M.
  destruct (Nat.ltb 1 (length lates)) eqn:L.
  - rewrite args_reverse_eq in M.
    refine (mustseq_sound fp (rev (order false lates)) [] 0 true nothing nothing 0%Z eq_refl I (rev b) i (rev a) _ M j _).
    + rewrite E, rev_app_distr. cbn. rewrite <- app_assoc. reflexivity.
    + rewrite rev_involutive, app_nil_r. exact J.
  - exfalso. apply Nat.ltb_ge in L. pose proof (Permutation_length (order_perm false lates)) as P.
    rewrite E, seq_length, app_length in P. cbn in P. destruct b; [destruct J|cbn in P; lia].
Qed.

(** ** Evaluation *)

Lemma same_conf_refl : forall c, same_conf c c.
Proof. intros c. split; [reflexivity|split; reflexivity]. Qed.
Lemma same_conf_trans : forall a b c, same_conf a b -> same_conf b c -> same_conf a c.
Proof.
  intros a b c [V [R O]] [V' [R' O']]. split; [|split].
  - intros i. rewrite V. apply V'.
  - intros r. rewrite R. apply R'.
  - congruence.
Qed.
Lemma same_conf_sym : forall a b, same_conf a b -> same_conf b a.
Proof.
  intros a b [V [R O]]. split; [|split]; [intros i; symmetry; apply V|intros r; symmetry; apply R|symmetry; exact O].
Qed.

Definition proper (f : comp) : Prop :=
  forall s s', same s s' -> fst (f s) = fst (f s') /\ same (snd (f s)) (snd (f s')).

Definition region_in_dec : forall (r : region) l, {In r l} + {~ In r l}.
Proof. intros r l. apply in_dec. decide equality; [apply Z.eq_dec|apply Nat.eq_dec]. Defined.

Lemma within_proper : forall f p, within f p -> proper f.
Proof.
  intros f p W s s' [R O]. destruct (w_dep _ _ W s s') as [V C]; [intros r _; apply R|].
  split; [exact V|]. split.
  - intros r. destruct (region_in_dec r (changes p)) as [I|N]; [apply C, I|].
    rewrite !(w_frame _ _ W) by exact N. apply R.
  - rewrite !(w_quiet _ _ W). exact O.
Qed.

Definition swaps (f g : comp) : Prop :=
  forall s, fst (f (snd (g s))) = fst (f s) /\ fst (g (snd (f s))) = fst (g s) /\
    same (snd (g (snd (f s)))) (snd (f (snd (g s)))).

Lemma apart_swaps : forall f g p q, within f p -> within g q -> apart p q -> swaps f g.
Proof.
  intros f g p q Wf Wg [A B] s.
  assert (Rf : forall r, In r (reads p) -> reg (snd (g s)) r = reg s r).
  { intros r I. apply (w_frame _ _ Wg). intros N. exact (B r N I). }
  assert (Rg : forall r, In r (reads q) -> reg (snd (f s)) r = reg s r).
  { intros r I. apply (w_frame _ _ Wf). intros N. exact (A r N I). }
  destruct (w_dep _ _ Wf _ _ Rf) as [Vf Cf]. destruct (w_dep _ _ Wg _ _ Rg) as [Vg Cg].
  split; [exact Vf|split; [exact Vg|split]].
  - intros r. destruct (region_in_dec r (changes p)) as [I|N].
    + rewrite (w_frame _ _ Wg) by (intros Q; apply (A r I), (w_incl _ _ Wg), Q).
      symmetry. apply Cf, I.
    + rewrite (w_frame _ _ Wf (snd (g s)) r N).
      destruct (region_in_dec r (changes q)) as [J|M]; [apply Cg, J|].
      rewrite !(w_frame _ _ Wg) by exact M. apply (w_frame _ _ Wf), N.
  - rewrite (w_quiet _ _ Wg (snd (f s))), (w_quiet _ _ Wf (snd (g s))), (w_quiet _ _ Wf s),
      (w_quiet _ _ Wg s). reflexivity.
Qed.

Lemma place_swaps : forall f g, names_a_place f -> swaps f g.
Proof.
  intros f g [N V] s. rewrite !N. split; [apply V|split; [reflexivity|split; reflexivity]].
Qed.

Lemma swaps_sym : forall f g, swaps f g -> swaps g f.
Proof.
  intros f g H s. destruct (H s) as (A & B & [R O]). split; [exact B|split; [exact A|split]].
  - intros r. symmetry. apply R.
  - symmetry. exact O.
Qed.

Lemma eval1_proper : forall f i c c', proper (f i) -> same_conf c c' -> same_conf (eval1 f c i) (eval1 f c' i).
Proof.
  intros f i c c' P [V S]. destruct (P _ _ S) as [E S']. split; [|exact S'].
  intros j. unfold eval1, set. cbn [fst]. destruct (Nat.eqb j i); [exact E|apply V].
Qed.

Lemma evals_proper : forall f l c c', (forall i, In i l -> proper (f i)) -> same_conf c c' ->
  same_conf (evals f l c) (evals f l c').
Proof.
  intros f. induction l as [|i l IH]; intros c c' P S; [exact S|].
  cbn. apply IH; [intros j J; apply P; right; exact J|].
  apply eval1_proper; [apply P; left; reflexivity|exact S].
Qed.

Lemma swap_eval : forall f i j c, i <> j -> swaps (f i) (f j) ->
  same_conf (eval1 f (eval1 f c i) j) (eval1 f (eval1 f c j) i).
Proof.
  intros f i j [v s] D H. destruct (H s) as (A & B & S). split; [|exact S].
  intros k. unfold eval1, set. cbn [fst snd].
  destruct (Nat.eqb k j) eqn:Ej, (Nat.eqb k i) eqn:Ei; try reflexivity.
  - apply Nat.eqb_eq in Ej, Ei. congruence.
  - exact B.
  - symmetry. exact A.
Qed.

Lemma move_in : forall f i l c, proper (f i) -> (forall j, In j l -> proper (f j)) ->
  (forall j, In j l -> i <> j /\ swaps (f i) (f j)) ->
  same_conf (evals f (i :: l) c) (evals f (l ++ [i]) c).
Proof.
  intros f i. induction l as [|j l IH]; intros c Pi Pl H; [apply same_conf_refl|].
  apply same_conf_trans with (evals f (i :: l) (eval1 f c j)).
  - change (same_conf (evals f l (eval1 f (eval1 f c i) j)) (evals f l (eval1 f (eval1 f c j) i))).
    apply evals_proper; [intros k K; apply Pl; right; exact K|].
    destruct (H j (or_introl eq_refl)). apply swap_eval; assumption.
  - cbn [app]. change (evals f (j :: l ++ [i]) c) with (evals f (l ++ [i]) (eval1 f c j)).
    apply IH; [exact Pi|intros k K; apply Pl; right; exact K|intros k K; apply H; right; exact K].
Qed.

Lemma evals_app : forall f a b c, evals f (a ++ b) c = evals f b (evals f a c).
Proof. intros f a b c. apply fold_left_app. Qed.

(** ** The plan *)

Definition kept (args : nat -> arg) (l : list nat) : list nat :=
  filter (fun i => negb (discard (args i) && junk (args i))) l.

Lemma plan_sound : forall f args mask lates fp n l pre q h inl,
  (forall i, i < length lates -> within (f i) (fp i)) ->
  (forall i, i < length lates -> chain (args i) = true -> names_a_place (f i)) ->
  mask = mustseq_mask false lates fp ->
  order false lates = pre ++ l -> q = length pre ->
  plan false lates args mask (number l q n) = Some (h, inl) ->
  Permutation (h ++ inl) (kept args l) /\
  forall p c, Permutation inl p -> same_conf (evals f (kept args l) c) (evals f (h ++ p) c).
Proof.
  intros f args mask lates fp n l. induction l as [|i l IH]; intros pre q h inl W N Em Eo Q P.
  { cbn in P. injection P as <- <-. split; [constructor|]. intros p c Pp.
    apply Permutation_nil in Pp. subst p. apply same_conf_refl. }
  assert (Pr : forall j, In j (order false lates) -> proper (f j)).
  { intros j J. apply order_in in J. apply (within_proper _ _ (W j J)). }
  assert (Eo' : order false lates = (pre ++ [i]) ++ l) by (rewrite <- app_assoc; exact Eo).
  assert (Q' : S q = length (pre ++ [i])) by (rewrite app_length; cbn; lia).
  assert (Ii : i < length lates) by (apply (order_in false lates); rewrite Eo; apply in_elt).
  assert (Il : forall j, In j l -> j < length lates).
  { intros j J. apply (order_in false lates). rewrite Eo'. apply in_app_iff. right. exact J. }
  assert (Di : forall j, In j l -> i <> j).
  { intros j J <-. pose proof (order_nodup false lates) as ND. rewrite Eo in ND.
    apply NoDup_remove_2 in ND. apply ND, in_app_iff. right. exact J. }
  cbn [number plan] in P.
  destruct (plan false lates args mask (number l (S q) n)) as [[h' inl']|] eqn:P'; [|discriminate].
  destruct (IH (pre ++ [i]) (S q) h' inl' W N Em Eo' Q' P') as [Pm HI]. clear IH.
  assert (Skip : indices (args_forward false lates (q + 1)) = l).
  { rewrite indices_forward, Eo'. replace (q + 1) with (length (pre ++ [i])) by lia.
    rewrite skipn_app, skipn_all, Nat.sub_diag. reflexivity. }
  rewrite Skip in P.
  fold (marked mask i) in P.
  (* the two shapes of the result *)
  assert (Head : kept args (i :: l) = i :: kept args l -> (h, inl) = (i :: h', inl') ->
    Permutation (h ++ inl) (kept args (i :: l)) /\
    forall p c, Permutation inl p -> same_conf (evals f (kept args (i :: l)) c) (evals f (h ++ p) c)).
  { intros K E. injection E as -> ->. rewrite K. split; [cbn; constructor; exact Pm|].
    intros p c Pp. cbn. apply HI, Pp. }
  assert (Inl : kept args (i :: l) = i :: kept args l -> (h, inl) = (h', i :: inl') ->
    (forall j, In j l -> swaps (f i) (f j)) ->
    Permutation (h ++ inl) (kept args (i :: l)) /\
    forall p c, Permutation inl p -> same_conf (evals f (kept args (i :: l)) c) (evals f (h ++ p) c)).
  { intros K E Sw. injection E as -> ->. rewrite K. split.
    - apply Permutation_sym, Permutation_cons_app, Permutation_sym, Pm.
    - intros p c Pp.
      destruct (in_split i p (Permutation_in _ Pp (or_introl eq_refl))) as (p1 & p2 & ->).
      apply Permutation_cons_app_inv in Pp.
      assert (In_l : forall j, In j (h' ++ p1 ++ p2) -> In j l).
      { intros j J. assert (J' : In j (h' ++ inl')).
        { apply in_app_iff in J as [J|J]; apply in_app_iff; [left; exact J|right].
          apply (Permutation_in j (Permutation_sym Pp)), J. }
        apply (Permutation_in j Pm) in J'. unfold kept in J'. apply filter_In in J' as [J' _]. exact J'. }
      apply same_conf_trans with (evals f (i :: h' ++ p1 ++ p2) c).
      + cbn. apply HI, Pp.
      + rewrite !app_assoc. change (i :: (h' ++ p1) ++ p2) with ((i :: h' ++ p1) ++ p2).
        replace ((h' ++ p1) ++ i :: p2) with (((h' ++ p1) ++ [i]) ++ p2) by (rewrite <- app_assoc; reflexivity).
        rewrite !(evals_app f _ p2). apply evals_proper.
        * intros j J. apply Pr, order_in, Il, In_l. rewrite !in_app_iff. tauto.
        * apply move_in.
          -- apply Pr, order_in, Ii.
          -- intros j J. apply Pr, order_in, Il, In_l. rewrite app_assoc, in_app_iff. left. exact J.
          -- intros j J. assert (Jl : In j l) by (apply In_l; rewrite app_assoc, in_app_iff; left; exact J).
             split; [apply Di, Jl|apply Sw, Jl]. }
  unfold kept in Head, Inl |- *. cbn [filter] in Head, Inl |- *. fold (kept args l) in *.
  destruct (discard (args i)) eqn:Dd; cbn [andb negb] in *.
  - destruct (junk (args i)) eqn:Dj; cbn [negb] in *.
    + destruct (marked mask i); [discriminate|]. injection P as <- <-. split; [exact Pm|exact HI].
    + apply Head; [reflexivity|]. congruence.
  - destruct (marked mask i) eqn:M.
    + destruct (pointless (args i) || _)%bool eqn:Pt.
      * apply Inl; [reflexivity|congruence|].
        apply orb_prop in Pt as [Pt|Pt].
        -- unfold pointless in Pt. destruct (slice (args i)); [discriminate|].
           intros j _. apply place_swaps, (N i Ii Pt).
        -- apply andb_prop in Pt as [_ Pt]. rewrite forallb_forall in Pt.
           intros j J. specialize (Pt j J). unfold pointless in Pt. destruct (slice (args j)); [discriminate|].
           apply swaps_sym, place_swaps, (N j (Il j J) Pt).
      * apply Head; [reflexivity|congruence].
    + apply Inl; [reflexivity|congruence|].
      intros j J. subst mask. apply (apart_swaps _ _ (fp i) (fp j)).
      * apply W, Ii.
      * apply W, Il, J.
      * apply (mask_sound lates fp pre i l Eo M j J).
Qed.

(** ** Numbering *)

Lemma number_nth : forall l q n k i s b,
  nth_error (number l q n) k = Some (i, s, b) ->
  nth_error l k = Some i /\ s = q + k /\ b = Nat.eqb (q + k) (n - 1).
Proof.
  induction l as [|x l IH]; intros q n k i s b E; [destruct k; discriminate|].
  destruct k as [|k]; cbn in E.
  - injection E as <- <- <-. rewrite Nat.add_0_r. auto.
  - destruct (IH _ _ _ _ _ _ E) as (A & -> & ->). rewrite Nat.add_succ_r. auto.
Qed.

Lemma numr_nth : forall l q b0 k i s b,
  nth_error (numr l q b0) k = Some (i, s, b) ->
  nth_error l k = Some i /\ s = q + k /\ b = match k with 0 => b0 | _ => false end.
Proof.
  induction l as [|x l IH]; intros q b0 k i s b E; [destruct k; discriminate|].
  destruct k as [|k]; cbn in E.
  - injection E as <- <- <-. rewrite Nat.add_0_r. auto.
  - destruct (IH _ _ _ _ _ _ E) as (A & -> & ->). rewrite Nat.add_succ_r. destruct k; auto.
Qed.

Lemma skipn_number : forall k l q n, skipn k (number l q n) = number (skipn k l) (q + k) n.
Proof.
  induction k as [|k IH]; intros l q n; [rewrite Nat.add_0_r; reflexivity|].
  destruct l as [|x l]; [reflexivity|]. cbn. rewrite IH, Nat.add_succ_r. reflexivity.
Qed.

Lemma number_length : forall l q n, length (number l q n) = length l.
Proof. induction l as [|x l IH]; intros q n; [reflexivity|]. cbn. rewrite IH. reflexivity. Qed.

(** ** Only one order *)

Lemma before_irrefl : forall late i, ~ before late i i.
Proof. intros late i [[A B]|[_ L]]; [congruence|lia]. Qed.

Lemma before_asym : forall late i j, before late i j -> before late j i -> False.
Proof. intros late i j [[A B]|[A L]] [[C D]|[C M]]; try congruence. lia. Qed.

Lemma sorted_unique : forall late a b, Permutation a b ->
  StronglySorted (before late) a -> StronglySorted (before late) b -> a = b.
Proof.
  intros late. induction a as [|x a IH]; intros b P Sa Sb.
  - apply Permutation_nil in P. congruence.
  - destruct b as [|y b]; [apply Permutation_sym, Permutation_nil in P; discriminate|].
    inversion Sa; inversion Sb; subst.
    assert (x = y) as ->.
    { destruct (Nat.eq_dec x y) as [E|D]; [exact E|exfalso].
      assert (Iy : In y (x :: a)) by (apply (Permutation_in _ (Permutation_sym P)); left; reflexivity).
      assert (Ix : In x (y :: b)) by (apply (Permutation_in _ P); left; reflexivity).
      destruct Iy as [E|Iy]; [congruence|]. destruct Ix as [E|Ix]; [congruence|].
      rewrite Forall_forall in *.
      apply (before_asym late x y); auto. }
    f_equal. apply IH; [apply Permutation_cons_inv in P; exact P|assumption|assumption].
Qed.

Lemma in_sorted_split : forall late l i j, StronglySorted (before late) l -> In i l -> In j l ->
  before late i j -> exists a b, l = a ++ i :: b /\ In j b.
Proof.
  intros late l i j S I J B. destruct (in_split _ _ I) as (a & b & ->).
  exists a, b. split; [reflexivity|].
  apply in_app_iff in J as [J|[->|J]]; [|exfalso; apply (before_irrefl _ _ B)|exact J].
  exfalso. apply in_split in J as (a1 & a2 & ->). rewrite <- app_assoc in S.
  clear I. induction a1 as [|x a1 IH]; cbn in S; inversion S; subst.
  - rewrite Forall_forall in *. apply (before_asym late i j B).
    match goal with H : forall x, _ -> before late j x |- _ => apply H end.
    apply in_app_iff. right. left. reflexivity.
  - auto.
Qed.
