(** Lemmas about the shared vocabulary. *)
From Coq Require Export ZifyBool ZifyNat ZifyN.
From Coq Require Import Sorted Permutation.
From Verif Require Export Common.

Lemma nth_error_app_l {A} (l l' : list A) i : i < length l -> nth_error (l ++ l') i = nth_error l i.
Proof. intros H; apply nth_error_app1; exact H. Qed.

Lemma nth_error_app_r {A} (l l' : list A) i :
  length l <= i -> nth_error (l ++ l') i = nth_error l' (i - length l).
Proof. intros H; apply nth_error_app2; exact H. Qed.

Lemma nth_error_skipn {A} (l : list A) n i : nth_error (skipn n l) i = nth_error l (n + i).
Proof.
  revert l; induction n as [|n IH]; intros l; [reflexivity|].
  destruct l as [|x l]; cbn [skipn]; [destruct i; reflexivity|]. cbn. apply IH.
Qed.

Lemma skipn_skipn_add {A} (l : list A) a b : skipn a (skipn b l) = skipn (b + a) l.
Proof. revert l; induction b as [|b IH]; intros [|x l]; cbn; auto. destruct a; reflexivity. Qed.

Lemma nth_error_firstn {A} (l : list A) n i :
  i < n -> nth_error (firstn n l) i = nth_error l i.
Proof.
  revert l i; induction n as [|n IH]; intros l i Hi; [lia|].
  destruct l as [|x l]; [reflexivity|]. destruct i as [|i]; [reflexivity|].
  cbn. apply IH; lia.
Qed.

Lemma skipn_nth_error_cons {A} (l : list A) i x :
  nth_error l i = Some x -> skipn i l = x :: skipn (S i) l.
Proof.
  revert i; induction l as [|y l IH]; intros [|i] H; cbn in *; try discriminate.
  - congruence.
  - apply IH; exact H.
Qed.

Lemma firstn_S_nth_error {A} (l : list A) i x :
  nth_error l i = Some x -> firstn (S i) l = firstn i l ++ [x].
Proof.
  revert i; induction l as [|y l IH]; intros [|i] H; cbn in *; try discriminate.
  - congruence.
  - rewrite <- (IH _ H). reflexivity.
Qed.

Lemma nth_error_In_split {A} (l : list A) i x :
  nth_error l i = Some x -> l = firstn i l ++ x :: skipn (S i) l.
Proof.
  intros H. rewrite <- (skipn_nth_error_cons _ _ _ H). symmetry; apply firstn_skipn.
Qed.

Lemma nth_error_lt {A} (l : list A) i x : nth_error l i = Some x -> i < length l.
Proof. intros H; apply nth_error_Some; congruence. Qed.

Lemma nth_error_ex {A} (l : list A) i : i < length l -> exists x, nth_error l i = Some x.
Proof.
  intros H; apply nth_error_Some in H. destruct (nth_error l i) as [x|]; [eauto|congruence].
Qed.

Lemma upd_spec {A} (l : list A) i x :
  i < length l -> upd l i x = Some (firstn i l ++ x :: skipn (S i) l).
Proof.
  revert i; induction l as [|y l IH]; intros i H; cbn in H; [lia|].
  destruct i as [|i]; cbn; [reflexivity|].
  rewrite IH by lia. reflexivity.
Qed.

Lemma upd_None {A} (l : list A) i x : length l <= i -> upd l i x = None.
Proof.
  revert i; induction l as [|y l IH]; intros i H; [reflexivity|].
  destruct i as [|i]; cbn in *; [lia|]. rewrite IH by lia. reflexivity.
Qed.

Lemma upd_Some {A} (l l' : list A) i x : upd l i x = Some l' ->
  i < length l /\ length l' = length l /\
  nth_error l' i = Some x /\ (forall j, j <> i -> nth_error l' j = nth_error l j).
Proof.
  revert i l'; induction l as [|y l IH]; intros i l' H; [discriminate|].
  destruct i as [|i]; cbn in H.
  - injection H as <-; cbn; repeat split; try lia.
    intros [|j] Hj; [lia|reflexivity].
  - destruct (upd l i x) as [t|] eqn:E; [|discriminate]. injection H as <-.
    destruct (IH _ _ E) as (H1 & H2 & H3 & H4). cbn; repeat split; try lia; auto.
    intros [|j] Hj; [reflexivity|]. cbn; apply H4; lia.
Qed.

Lemma upd_total {A} (l : list A) i x : i < length l -> exists l', upd l i x = Some l'.
Proof. intros H; rewrite upd_spec by exact H; eauto. Qed.

Lemma insert_at_spec {A} (l : list A) i x :
  i <= length l -> insert_at i x l = Some (firstn i l ++ x :: skipn i l).
Proof. intros H; unfold insert_at. destruct (Nat.leb_spec i (length l)); [reflexivity|lia]. Qed.

Lemma splice_out_spec {A} (l : list A) i n :
  i + n <= length l -> splice_out i n l = Some (firstn i l ++ skipn (i + n) l).
Proof. intros H; unfold splice_out. destruct (Nat.leb_spec (i + n) (length l)); [reflexivity|lia]. Qed.

Lemma obind_Some {A B} (m : option A) (f : A -> option B) b :
  obind m f = Some b <-> exists a, m = Some a /\ f a = Some b.
Proof. destruct m; cbn; split; [eauto|intros (a' & H & H'); congruence|discriminate|intros (a' & H & _); discriminate]. Qed.

Lemma list_ext {A} (l l' : list A) :
  (forall i, nth_error l i = nth_error l' i) -> l = l'.
Proof.
  revert l'; induction l as [|x l IH]; intros [|y l'] H.
  - reflexivity.
  - specialize (H 0); discriminate.
  - specialize (H 0); discriminate.
  - f_equal; [specialize (H 0); cbn in H; congruence|].
    apply IH; intros i; apply (H (S i)).
Qed.

Lemma nth_error_mid {A} (a b : list A) x : nth_error (a ++ x :: b) (length a) = Some x.
Proof. rewrite nth_error_app_r by lia. rewrite Nat.sub_diag. reflexivity. Qed.

Lemma firstn_mid {A} (a b : list A) : firstn (length a) (a ++ b) = a.
Proof. rewrite firstn_app, Nat.sub_diag, firstn_all. cbn. apply app_nil_r. Qed.

Lemma skipn_mid {A} (a b : list A) x : skipn (S (length a)) (a ++ x :: b) = b.
Proof.
  replace (a ++ x :: b) with ((a ++ [x]) ++ b) by (rewrite <- app_assoc; reflexivity).
  rewrite skipn_app. rewrite skipn_all2 by (rewrite app_length; cbn [length]; lia).
  replace (S (length a) - length (a ++ [x]))%nat with 0%nat by (rewrite app_length; cbn [length]; lia). reflexivity.
Qed.

Lemma swap_at_Some {A} (l : list A) i j x y :
  nth_error l i = Some x -> nth_error l j = Some y ->
  exists l', swap_at i j l = Some l' /\ length l' = length l /\
    nth_error l' i = Some y /\ nth_error l' j = Some x /\
    (forall k, k <> i -> k <> j -> nth_error l' k = nth_error l k).
Proof.
  intros Hi Hj. unfold swap_at. rewrite Hi, Hj. cbn [obind].
  destruct (upd_total l i y (nth_error_lt _ _ _ Hi)) as [l1 E1]. rewrite E1. cbn [obind].
  destruct (upd_Some _ _ _ _ E1) as (L1 & L2 & L3 & L4).
  assert (Hj' : j < length l1) by (rewrite L2; eapply nth_error_lt; eauto).
  destruct (upd_total l1 j x Hj') as [l2 E2]. exists l2. split; [exact E2|].
  destruct (upd_Some _ _ _ _ E2) as (M1 & M2 & M3 & M4).
  split; [congruence|]. split.
  - destruct (Nat.eq_dec i j) as [->|N]; [|rewrite M4; auto]. rewrite M3. congruence.
  - split; [exact M3|]. intros k K1 K2. rewrite M4, L4; auto.
Qed.

Lemma swap_at_perm {A} (l l' : list A) i j : swap_at i j l = Some l' -> Permutation l l'.
Proof.
  intros H. unfold swap_at in H.
  destruct (nth_error l i) as [x|] eqn:Hi; [|discriminate].
  destruct (nth_error l j) as [y|] eqn:Hj; [|discriminate]. cbn [obind] in H.
  destruct (swap_at_Some l i j x y Hi Hj) as (l2 & E & L & S1 & S2 & S3).
  unfold swap_at in E. rewrite Hi, Hj in E. cbn [obind] in E. rewrite H in E. injection E as <-.
  apply (Permutation_nth_error). split; [symmetry; exact L|].
  exists (fun k => if Nat.eq_dec k i then j else if Nat.eq_dec k j then i else k). split.
  - intros a b. destruct (Nat.eq_dec a i), (Nat.eq_dec a j), (Nat.eq_dec b i), (Nat.eq_dec b j); subst; try lia; intros; congruence.
  - intros k. destruct (Nat.eq_dec k i) as [->|]; [congruence|]. destruct (Nat.eq_dec k j) as [->|]; [congruence|]. auto.
Qed.

(** Strictly sorted lists under a lawful comparison. *)
Section Sorted.
Context {K : Type} (cmp : K -> K -> Z) (L : cmp_lawful cmp).

Definition klt (a b : K) : Prop := (cmp a b < 0)%Z.
Definition ssorted (l : list K) : Prop := StronglySorted klt l.

Lemma cmp_refl a : cmp a a = 0%Z.
Proof. apply (cmp_zero _ L); reflexivity. Qed.

Lemma klt_irrefl a : ~ klt a a.
Proof. unfold klt; rewrite cmp_refl; lia. Qed.

Lemma klt_trans a b c : klt a b -> klt b c -> klt a c.
Proof. apply (cmp_trans _ L). Qed.

Lemma klt_gt a b : (0 < cmp a b)%Z <-> klt b a.
Proof. unfold klt; rewrite (cmp_anti _ L). reflexivity. Qed.

Lemma cmp_cases a b : (cmp a b = 0%Z /\ a = b) \/ (cmp a b < 0)%Z /\ klt a b \/ (0 < cmp a b)%Z /\ klt b a.
Proof.
  destruct (Z.lt_trichotomy (cmp a b) 0) as [H|[H|H]].
  - right; left; split; [lia|exact H].
  - left; split; [exact H|]. apply (cmp_zero _ L); exact H.
  - right; right; split; [exact H|]. apply klt_gt; exact H.
Qed.

Lemma ssorted_app l1 l2 :
  ssorted (l1 ++ l2) <-> ssorted l1 /\ ssorted l2 /\ (forall x y, In x l1 -> In y l2 -> klt x y).
Proof.
  unfold ssorted; induction l1 as [|a l1 IH]; cbn.
  - split; [intros H; repeat split; [constructor|exact H|intros x y []]|intros (_ & H & _); exact H].
  - split.
    + intros H; apply StronglySorted_inv in H as [H1 H2]. apply IH in H1 as (Ha & Hb & Hc).
      rewrite Forall_app in H2. destruct H2 as [H2 H3].
      repeat split; [constructor; assumption|assumption|].
      intros x y [<-|Hx] Hy; [rewrite Forall_forall in H3; auto|auto].
    + intros (H1 & H2 & H3). apply StronglySorted_inv in H1 as [Ha Hb].
      constructor.
      * apply IH; repeat split; auto.
      * rewrite Forall_app; split; [exact Hb|]. apply Forall_forall; intros; apply H3; auto.
Qed.

Lemma ssorted_cons a l : ssorted (a :: l) <-> ssorted l /\ (forall y, In y l -> klt a y).
Proof.
  unfold ssorted; split.
  - intros H; apply StronglySorted_inv in H as [H1 H2]; split; [exact H1|].
    apply Forall_forall; exact H2.
  - intros [H1 H2]; constructor; [exact H1|]. apply Forall_forall; exact H2.
Qed.

Lemma ssorted_NoDup l : ssorted l -> NoDup l.
Proof.
  induction l as [|a l IH]; intros H; [constructor|].
  apply ssorted_cons in H as [H1 H2]. constructor; [|auto].
  intros Hin. apply (klt_irrefl a), H2, Hin.
Qed.

(** A strictly ssorted list is determined by its members. *)
Lemma ssorted_unique l1 l2 :
  ssorted l1 -> ssorted l2 -> (forall x, In x l1 <-> In x l2) -> l1 = l2.
Proof.
  revert l2; induction l1 as [|a l1 IH]; intros [|b l2] H1 H2 E.
  - reflexivity.
  - exfalso; apply (E b); left; reflexivity.
  - exfalso; apply (E a); left; reflexivity.
  - apply ssorted_cons in H1 as [S1 M1]; apply ssorted_cons in H2 as [S2 M2].
    assert (a = b) as ->.
    { destruct (proj1 (E a) (or_introl eq_refl)) as [|Ha]; [congruence|].
      destruct (proj2 (E b) (or_introl eq_refl)) as [|Hb]; [congruence|].
      exfalso; apply (klt_irrefl a), (klt_trans _ b); auto. }
    f_equal; apply IH; auto.
    intros x; split; intros Hx.
    + destruct (proj1 (E x) (or_intror Hx)) as [<-|]; [|assumption].
      exfalso; apply (klt_irrefl b); auto.
    + destruct (proj2 (E x) (or_intror Hx)) as [<-|]; [|assumption].
      exfalso; apply (klt_irrefl b); auto.
Qed.

Lemma ssorted_nth l i j x y :
  ssorted l -> nth_error l i = Some x -> nth_error l j = Some y -> i < j -> klt x y.
Proof.
  intros Hs Hi Hj Hij.
  rewrite (nth_error_In_split _ _ _ Hi) in Hs.
  apply ssorted_app in Hs as (_ & Hs & _). apply ssorted_cons in Hs as [_ Hs]. apply Hs.
  replace j with (S i + (j - S i)) in Hj by lia. rewrite <- nth_error_skipn in Hj.
  eapply nth_error_In; exact Hj.
Qed.
End Sorted.
