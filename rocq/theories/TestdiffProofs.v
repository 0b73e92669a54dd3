From Coq Require Import Permutation Sorted.
From Verif Require Import CommonLemmas TestdiffModel TestdiffSpec.

Lemma SSorted_weaken {A} (R Q : A -> A -> Prop) l :
  StronglySorted R l -> (forall x y, In x l -> In y l -> R x y -> Q x y) -> StronglySorted Q l.
Proof.
  induction 1 as [|a l H IH HF]; intros HQ; constructor.
  - apply IH; intros; apply HQ; auto; right; auto.
  - rewrite Forall_forall in *. intros x Hx. apply HQ; auto; [left|right]; auto.
Qed.

Lemma SSorted_strict {A} (R Q : A -> A -> Prop) l :
  StronglySorted R l -> NoDup l -> (forall x y, In x l -> In y l -> x <> y -> R x y -> Q x y) -> StronglySorted Q l.
Proof.
  induction 1 as [|a l H IH HF]; intros ND HQ; constructor; inversion ND as [|? ? Hn ND']; subst.
  - apply IH; auto; intros; apply HQ; auto; right; auto.
  - rewrite Forall_forall in *. intros x Hx. apply HQ; auto; [left|right|intros ->]; auto.
Qed.

Lemma SSorted_unique {A} (R : A -> A -> Prop) : (forall x, ~ R x x) -> (forall x y z, R x y -> R y z -> R x z) ->
  forall l1 l2, StronglySorted R l1 -> StronglySorted R l2 -> (forall x, In x l1 <-> In x l2) -> l1 = l2.
Proof.
  intros Ir Tr. induction l1 as [|a l1 IH]; intros [|b l2] H1 H2 E.
  - reflexivity.
  - exfalso; apply (E b); left; reflexivity.
  - exfalso; apply (E a); left; reflexivity.
  - apply StronglySorted_inv in H1 as [S1 M1]; apply StronglySorted_inv in H2 as [S2 M2].
    rewrite Forall_forall in M1, M2.
    assert (a = b) as ->.
    { destruct (proj1 (E a) (or_introl eq_refl)) as [|Ha]; [congruence|].
      destruct (proj2 (E b) (or_introl eq_refl)) as [|Hb]; [congruence|].
      exfalso; apply (Ir a), (Tr _ b); auto. }
    f_equal; apply IH; auto.
    intros x; split; intros Hx.
    + destruct (proj1 (E x) (or_intror Hx)) as [<-|]; [|assumption]. exfalso; apply (Ir b); auto.
    + destruct (proj2 (E x) (or_intror Hx)) as [<-|]; [|assumption]. exfalso; apply (Ir b); auto.
Qed.

Section P.
Context {Str : Type} (scmp : Str -> Str -> Z) (L : cmp_lawful scmp).
Context (sort : forall A : Type, (A -> A -> bool) -> list A -> list A) (SO : sort_ok sort).
Context (eq_dec : forall a b : Str, {a = b} + {a <> b}).
Notation item := (Str * nat)%type.

Definition lexlt (a b : item) : Prop := (scmp (fst a) (fst b) < 0)%Z \/ fst a = fst b /\ snd a < snd b.

Lemma td_less1_iff a b : td_less1 scmp a b = true <-> lexlt a b.
Proof.
  unfold td_less1, lexlt. cbv zeta. destruct a as [s i], b as [t j]; cbn [fst snd].
  destruct (cmp_cases scmp L s t) as [[Hc ->]|[[Hc H]|[Hc H]]].
  - rewrite Hc. cbn [Z.eqb]. destruct (Nat.ltb_spec i j); [split; [auto|reflexivity]|].
    destruct (Nat.ltb_spec j i); cbn; split; try discriminate; intros [|[_ ?]]; lia.
  - destruct (Z.eqb_spec (scmp s t) 0); [lia|]. destruct (Z.ltb_spec (scmp s t) 0); [|lia]. split; auto.
  - destruct (Z.eqb_spec (scmp s t) 0) as [E|]; [lia|]. destruct (Z.ltb_spec (scmp s t) 0); [lia|].
    split; [discriminate|]. intros [|[-> _]]; [lia|]. rewrite (cmp_refl scmp L) in Hc. lia.
Qed.

Lemma lexlt_irrefl a : ~ lexlt a a.
Proof. intros [H|[_ H]]; [rewrite (cmp_refl scmp L) in H; lia|lia]. Qed.
Lemma lexlt_trans a b c : lexlt a b -> lexlt b c -> lexlt a c.
Proof.
  unfold lexlt. intros [H|[H1 H2]] [H'|[H1' H2']].
  - left. eapply (cmp_trans _ L); eauto.
  - left. rewrite <- H1'. exact H.
  - left. rewrite H1. exact H'.
  - right. split; [congruence|lia].
Qed.

(** ** the index list *)
Lemma In_td_index (l : list Str) x i : In (x, i) (td_index l) <-> nth_error l i = Some x.
Proof.
  unfold td_index. assert (H : forall n, In (x, i) (combine l (seq n (length l))) <-> n <= i /\ nth_error l (i - n) = Some x).
  { induction l as [|y l IH]; intros n; cbn.
    - split; [tauto|]. intros [_ H]. destruct (i - n); discriminate.
    - rewrite IH. split.
      + intros [[= -> ->]|[H1 H2]]; [split; [lia|]; replace (i - i) with 0 by lia; reflexivity|].
        split; [lia|]. replace (i - n) with (S (i - S n)) by lia. exact H2.
      + intros [H1 H2]. destruct (Nat.eq_dec i n) as [->|]; [left; rewrite Nat.sub_diag in H2; cbn in H2; congruence|].
        right. split; [lia|]. replace (i - n) with (S (i - S n)) in H2 by lia. exact H2. }
  rewrite H. rewrite Nat.sub_0_r. split; [tauto|]. split; [lia|auto].
Qed.

Lemma NoDup_td_index (l : list Str) : NoDup (td_index l).
Proof.
  unfold td_index. generalize 0 as n. induction l as [|x l IH]; intros n; cbn; [constructor|].
  constructor; auto. intros H. apply in_combine_r in H. apply in_seq in H. lia.
Qed.

(** ** dedupe loop *)
Fixpoint dd (p : item) (r : list item) : list item :=
  match r with
  | [] => []
  | y :: r' => if (scmp (fst p) (fst y) =? 0)%Z then dd y r' else y :: dd y r'
  end.

Lemma td_loop_S i' (l : list item) : td_dedupe_loop scmp (S i') l =
    if 1 <? S i' then
      do a <- nth_error l (i' - 1);
      do b <- nth_error l i';
      if (scmp (fst a) (fst b) =? 0)%Z
      then do l' <- splice_out i' 1 l; td_dedupe_loop scmp i' l'
      else td_dedupe_loop scmp i' l
    else Some l.
Proof. reflexivity. Qed.

Lemma td_dedupe_loop_spec S : forall i p, nth_error S i = Some p -> forall tl,
  td_dedupe_loop scmp (Datatypes.S i) (firstn (Datatypes.S i) S ++ tl) = 
  match S with [] => None | x :: r => Some (x :: dd x (firstn i r) ++ tl) end.
Proof.
  induction i as [|i IH]; intros p Hp tl.
  - destruct S as [|x r]; [discriminate|]. reflexivity.
  - rewrite td_loop_S. destruct (Nat.ltb_spec 1 (Datatypes.S (Datatypes.S i))) as [_|]; [|lia].
    destruct (nth_error_ex S i) as [q Hq]. { apply nth_error_lt in Hp. lia. }
    replace (Datatypes.S i - 1) with i by lia.
    assert (Hl : length (firstn (Datatypes.S (Datatypes.S i)) S) = Datatypes.S (Datatypes.S i)).
    { rewrite firstn_length. apply nth_error_lt in Hp. lia. }
    rewrite !nth_error_app_l by lia. rewrite !nth_error_firstn by lia. rewrite Hp, Hq. cbn [obind].
    assert (Hdd : forall x r, S = x :: r ->
       dd x (firstn (Datatypes.S i) r) = dd x (firstn i r) ++ (if (scmp (fst q) (fst p) =? 0)%Z then [] else [p])).
    { intros x r ->. clear -Hp Hq. revert x r Hp Hq. induction i as [|i IH]; intros x r Hp Hq.
      - cbn in Hp, Hq. destruct r as [|y r]; [discriminate|]. injection Hp as ->. injection Hq as ->. cbn.
        destruct (_ =? 0)%Z; reflexivity.
      - destruct r as [|y r]; [discriminate|]. cbn [firstn dd].
        pose proof (IH y r Hp Hq) as H. cbn [firstn] in H. 
        destruct (scmp (fst x) (fst y) =? 0)%Z; cbn; rewrite H; reflexivity. }
    pose proof (IH q Hq) as IH'.
    destruct (scmp (fst q) (fst p) =? 0)%Z eqn:Ec.
    + rewrite splice_out_spec by (rewrite app_length, Hl; lia). cbn [obind].
      assert (firstn (Datatypes.S i) (firstn (Datatypes.S (Datatypes.S i)) S ++ tl) ++
              skipn (Datatypes.S i + 1) (firstn (Datatypes.S (Datatypes.S i)) S ++ tl)
              = firstn (Datatypes.S i) S ++ tl) as ->.
      { rewrite firstn_app, Hl. replace (Datatypes.S i - Datatypes.S (Datatypes.S i)) with 0 by lia.
        rewrite firstn_O, app_nil_r, firstn_firstn.
        replace (Nat.min (Datatypes.S i) (Datatypes.S (Datatypes.S i))) with (Datatypes.S i) by lia.
        rewrite skipn_app, Hl. rewrite skipn_all2 by (rewrite Hl; lia).
        replace (Datatypes.S i + 1 - Datatypes.S (Datatypes.S i)) with 0 by lia. reflexivity. }
      rewrite IH'. destruct S as [|x r]; [reflexivity|]. rewrite (Hdd x r eq_refl), app_nil_r. reflexivity.
    + rewrite (firstn_S_nth_error S (Datatypes.S i) p Hp), <- app_assoc. rewrite IH'.
      destruct S as [|x r]; [reflexivity|]. rewrite (Hdd x r eq_refl), <- app_assoc. reflexivity.
Qed.

Lemma dd_In p r : StronglySorted lexlt (p :: r) -> forall y,
  In y (dd p r) <-> In y r /\ forall z, In z (p :: r) -> fst z = fst y -> snd y <= snd z.
Proof.
  revert p; induction r as [|q r IH]; intros p Hs y; cbn [dd].
  - split; [intros []|intros [[] _]].
  - apply StronglySorted_inv in Hs as [Hs Hp]. rewrite Forall_forall in Hp.
    pose proof Hs as Hs'. apply StronglySorted_inv in Hs' as [_ Hq]. rewrite Forall_forall in Hq.
    pose proof (Hp q (or_introl eq_refl)) as Hpq.
    specialize (IH q Hs).
    destruct (Z.eqb_spec (scmp (fst p) (fst q)) 0) as [E|NE].
    + apply (cmp_zero _ L) in E. assert (Hlt : snd p < snd q).
      { destruct Hpq as [H|[_ H]]; auto. rewrite E, (cmp_refl scmp L) in H. lia. }
      rewrite IH. split.
      * intros [Hy Hz]. split; [right; auto|]. intros z [<-|Hzin] Ez; auto.
        exfalso. assert (fst y = fst q) by congruence.
        pose proof (Hz q (or_introl eq_refl) ltac:(congruence)).
        pose proof (Hq y Hy) as [H'|[_ H']]; [|lia]. rewrite H, (cmp_refl scmp L) in H'. lia.
      * intros [[<-|Hy] Hz].
        -- exfalso. pose proof (Hz p (or_introl eq_refl) E). lia.
        -- split; auto. intros z Hzin. apply Hz. right; auto.
    + assert (Hpq' : (scmp (fst p) (fst q) < 0)%Z).
      { destruct Hpq as [|[E _]]; auto. rewrite E, (cmp_refl scmp L) in NE. congruence. }
      assert (Hne : forall z, In z (q :: r) -> fst z <> fst p).
      { intros z [<-|Hz] Ez.
        - rewrite Ez, (cmp_refl scmp L) in Hpq'. lia.
        - destruct (Hq z Hz) as [H|[H _]].
          + rewrite Ez in H. apply (cmp_anti _ L) in H. lia.
          + rewrite H, Ez, (cmp_refl scmp L) in Hpq'. lia. }
      cbn [In]. rewrite IH. split.
      * intros [<-|[Hy Hz]].
        -- split; [left; auto|]. intros z [<-|[<-|Hz]] Ez; auto.
           ++ exfalso. apply (Hne q); [left|]; auto.
           ++ destruct (Hq z Hz) as [H|[_ H]]; [|lia]. rewrite Ez, (cmp_refl scmp L) in H. lia.
        -- split; [right; auto|]. intros z [<-|Hz'] Ez; [|auto].
           exfalso. apply (Hne y); [right|]; auto.
      * intros [[<-|Hy] Hz]; [left; auto|]. right. split; auto. 
Qed.

Lemma dd_sorted p r : StronglySorted lexlt (p :: r) -> StronglySorted lexlt (p :: dd p r) /\ incl (dd p r) r.
Proof.
  revert p; induction r as [|q r IH]; intros p Hs; cbn [dd]; [split; [auto|intros x Hx; auto]|].
  apply StronglySorted_inv in Hs as [Hs Hp]. destruct (IH q Hs) as [S1 I1].
  rewrite Forall_forall in Hp. pose proof S1 as S1'. apply StronglySorted_inv in S1' as [S2 Hq].
  destruct (_ =? 0)%Z.
  - split; [|intros x Hx; right; auto]. constructor; auto. apply Forall_forall. intros x Hx. apply Hp. right; auto.
  - split; [|intros x [<-|Hx]; [left|right]; auto]. constructor; auto.
    apply Forall_forall. intros x [<-|Hx]; apply Hp; [left|right]; auto.
Qed.

(** ** keep_first with indices *)
Fixpoint kf (seen l : list Str) (n : nat) : list item :=
  match l with
  | [] => []
  | x :: r => if in_dec eq_dec x seen then kf seen r (S n) else (x, n) :: kf (x :: seen) r (S n)
  end.

Lemma kf_map seen l n : map fst (kf seen l n) = keep_first eq_dec seen l.
Proof.
  revert seen n; induction l as [|x l IH]; intros seen n; cbn; [reflexivity|].
  destruct (in_dec eq_dec x seen); cbn; rewrite IH; reflexivity.
Qed.

Lemma kf_ge seen l n x i : In (x, i) (kf seen l n) -> n <= i.
Proof.
  revert seen n; induction l as [|y l IH]; intros seen n; cbn; [tauto|].
  destruct (in_dec eq_dec y seen); cbn.
  - intros H. apply IH in H. lia.
  - intros [[= <- <-]|H]; [lia|]. apply IH in H. lia.
Qed.

Lemma kf_sorted seen l n : StronglySorted (fun a b : item => snd a < snd b) (kf seen l n).
Proof.
  revert seen n; induction l as [|y l IH]; intros seen n; cbn; [constructor|].
  destruct (in_dec eq_dec y seen); auto. constructor; auto.
  apply Forall_forall. intros [x i] H. apply kf_ge in H. cbn. lia.
Qed.

Lemma kf_In seen l n x i : In (x, i) (kf seen l n) <->
  ~ In x seen /\ n <= i /\ nth_error l (i - n) = Some x /\ forall j, j < i - n -> nth_error l j <> Some x.
Proof.
  revert seen n; induction l as [|y l IH]; intros seen n; cbn [kf].
  - split; [intros []|]. intros (_ & _ & H & _). destruct (i - n); discriminate.
  - destruct (in_dec eq_dec y seen) as [Hy|Hy].
    + rewrite IH. split.
      * intros (H1 & H2 & H3 & H4). repeat split; auto; try lia.
        -- replace (i - n) with (S (i - S n)) by lia. exact H3.
        -- intros [|j] Hj; cbn; [congruence|]. apply H4; lia.
      * intros (H1 & H2 & H3 & H4). destruct (Nat.eq_dec i n) as [->|].
        { rewrite Nat.sub_diag in H3. cbn in H3. congruence. }
        replace (i - n) with (S (i - S n)) in * by lia. repeat split; auto; try lia.
        intros j Hj. apply (H4 (S j)). lia.
    + cbn [In]. rewrite IH. split.
      * intros [[= -> ->]|(H1 & H2 & H3 & H4)].
        -- rewrite Nat.sub_diag. repeat split; auto. intros j Hj; lia.
        -- cbn in H1. repeat split; auto; try lia.
           ++ replace (i - n) with (S (i - S n)) by lia. exact H3.
           ++ intros [|j] Hj; cbn; [intros [= ->]; tauto|]. apply H4; lia.
      * intros (H1 & H2 & H3 & H4). destruct (Nat.eq_dec i n) as [->|].
        { rewrite Nat.sub_diag in H3. cbn in H3. left. congruence. }
        right. replace (i - n) with (S (i - S n)) in * by lia. repeat split; auto; try lia.
        -- intros [->|]; auto. apply (H4 0); [lia|reflexivity].
        -- intros j Hj. apply (H4 (S j)). lia.
Qed.

Lemma td_serialize_spec l : td_serialize_parts scmp sort l = Some (keep_first eq_dec [] l).
Proof.
  unfold td_serialize_parts.
  destruct (SO _ (td_less1 scmp)) with (l := td_index l) as [P1 S1].
  { intros x. destruct (td_less1 scmp x x) eqn:E; auto. apply td_less1_iff in E. destruct (lexlt_irrefl x E). }
  { intros x y z. rewrite !td_less1_iff. apply lexlt_trans. }
  { intros [x i] [y j] Hx Hy Hne. rewrite !td_less1_iff. unfold lexlt; cbn.
    destruct (cmp_cases scmp L x y) as [[Hc ->]|[[Hc H]|[Hc H]]]; auto.
    assert (i <> j) by congruence. destruct (Nat.lt_ge_cases i j); [left; right; auto|right; right; split; [auto|lia]]. }
  set (S0 := sort _ (td_less1 scmp) (td_index l)) in *.
  assert (ND : NoDup S0) by (eapply Permutation_NoDup; [exact P1|apply NoDup_td_index]).
  assert (HIn : forall x i, In (x, i) S0 <-> nth_error l i = Some x).
  { intros x i. rewrite <- In_td_index. split; apply Permutation_in; [apply Permutation_sym|]; auto. }
  assert (S2 : StronglySorted lexlt S0).
  { eapply SSorted_strict; eauto. intros [x i] [y j] Hx Hy Hne Hl. cbn beta in Hl.
    unfold lexlt; cbn. destruct (cmp_cases scmp L x y) as [[Hc ->]|[[Hc H]|[Hc H]]]; auto.
    - assert (i <> j) by congruence. right; split; auto.
      destruct (Nat.lt_ge_cases i j); auto. exfalso.
      assert (td_less1 scmp (y, j) (y, i) = true); [|congruence]. apply td_less1_iff. right; cbn; split; auto; lia.
    - exfalso. assert (td_less1 scmp (y, j) (x, i) = true); [|congruence]. apply td_less1_iff. left; exact H. }
  assert (HD : exists D, td_dedupe_loop scmp (length S0) S0 = Some D /\ NoDup D /\
     forall x i, In (x, i) D <-> nth_error l i = Some x /\ forall j, nth_error l j = Some x -> i <= j).
  { destruct S0 as [|x0 r0] eqn:ES.
    - exists []; cbn. repeat split; auto; try constructor; try tauto.
      intros [H _]. apply HIn in H. destruct H.
    - destruct (nth_error_ex (x0 :: r0) (length r0) ltac:(cbn; lia)) as [p Hp].
      pose proof (td_dedupe_loop_spec (x0 :: r0) (length r0) p Hp []) as E.
      rewrite !app_nil_r in E. rewrite firstn_all2 in E by (cbn; lia).
      rewrite firstn_all2 in E by lia. exists (x0 :: dd x0 r0).
      split; [exact E|]. destruct (dd_sorted x0 r0 S2) as [S3 _]. split.
      { clear -S3 L. induction S3 as [|a m H IH HF]; constructor; auto. rewrite Forall_forall in HF.
        intros Hin. apply (lexlt_irrefl a); auto. }
      intros x i. cbn [In]. rewrite (dd_In x0 r0 S2). rewrite <- HIn. cbn [In].
      split.
      + intros [->|[Hin Hz]].
        * split; [auto|]. intros j Hj. apply HIn in Hj as [[= ->]|Hj]; [lia|].
          apply StronglySorted_inv in S2 as [_ HF]. rewrite Forall_forall in HF. apply HF in Hj as [Hj|[_ Hj]]; cbn in Hj; [|lia].
          rewrite (cmp_refl scmp L) in Hj. lia.
        * split; [auto|]. intros j Hj. apply HIn in Hj. apply (Hz (x, j) Hj eq_refl).
      + intros [[->|Hin] Hm]; [auto|]. right. split; auto. intros [z k] Hz Ez. cbn in *. subst z.
        apply Hm. apply HIn. destruct Hz as [<-|]; [left|right]; auto. }
  destruct HD as (D & ED & NDD & MD). rewrite ED. cbn [obind].
  destruct (SO _ (@td_less2 Str)) with (l := D) as [P2 S3].
  { intros x. unfold td_less2. destruct (Nat.ltb_spec (snd x) (snd x)); auto; lia. }
  { intros x y z. unfold td_less2. rewrite !Nat.ltb_lt. lia. }
  { intros [x i] [y j] Hx Hy Hne. unfold td_less2; cbn [fst snd]. rewrite !Nat.ltb_lt.
    assert (i <> j); [|lia]. intros ->. apply MD in Hx as [Hx _]. apply MD in Hy as [Hy _]. congruence. }
  set (E0 := sort _ (@td_less2 Str) D) in *.
  f_equal. rewrite <- (kf_map [] l 0). f_equal.
  apply (SSorted_unique (fun a b : item => snd a < snd b)).
  - intros x; lia.
  - intros; lia.
  - eapply SSorted_strict; [exact S3|eapply Permutation_NoDup; eauto|].
    intros [x i] [y j] Hx Hy Hne Hl. cbn beta in Hl. unfold td_less2 in Hl; cbn [fst snd] in Hl.
    apply Nat.ltb_ge in Hl. cbn. assert (i <> j); [|lia]. intros ->.
    apply (Permutation_in _ (Permutation_sym P2)) in Hx. apply (Permutation_in _ (Permutation_sym P2)) in Hy.
    apply MD in Hx as [Hx _]. apply MD in Hy as [Hy _]. congruence.
  - apply kf_sorted.
  - intros [x i]. rewrite kf_In, Nat.sub_0_r.
    assert (In (x, i) E0 <-> In (x, i) D) as ->.
    { split; apply Permutation_in; [apply Permutation_sym|]; auto. }
    rewrite MD. split.
    + intros [H1 H2]. split; [intros []|]. split; [lia|]. split; [exact H1|]. intros j Hj E. apply H2 in E. lia.
    + intros (_ & _ & H1 & H2). split; auto. intros j Hj. destruct (Nat.le_gt_cases i j); auto.
      exfalso. eapply H2; eauto.
Qed.
End P.
