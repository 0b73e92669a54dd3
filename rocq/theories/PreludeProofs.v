From Verif Require Import PreludeSpec CommonLemmas.
Open Scope nat_scope.

Section P.
Context {T : Type}.

Lemma occurs_nth (h n : list T) k :
  occurs_at h n k <-> k + length n <= length h /\ forall j, j < length n -> nth_error h (k + j) = nth_error n j.
Proof.
  split.
  - intros (p & s & -> & <-). rewrite !app_length. split; [lia|].
    intros j Hj. rewrite nth_error_app_r by lia. replace (length p + j - length p) with j by lia.
    apply nth_error_app_l; lia.
  - intros (L & H). exists (firstn k h), (skipn (k + length n) h). split; [|apply firstn_length_le; lia].
    rewrite <- (firstn_skipn k h) at 1. f_equal. rewrite <- skipn_skipn_add.
    rewrite <- (firstn_skipn (length n) (skipn k h)) at 1. f_equal.
    apply list_ext. intros i. destruct (Nat.lt_ge_cases i (length n)) as [Hi|Hi].
    + rewrite nth_error_firstn by lia. rewrite nth_error_skipn. apply H; exact Hi.
    + rewrite (proj2 (nth_error_None n i)) by lia. apply nth_error_None. rewrite firstn_length. lia.
Qed.

Section E1.
Context (eqb : T -> T -> bool) (eqb_ok : forall x y, eqb x y = true <-> x = y).
Lemma eqb_false x y : eqb x y = false <-> x <> y.
Proof. rewrite <- eqb_ok. destruct (eqb x y); split; congruence. Qed.

Lemma find_item_from_spec (pre h : list T) c :
  (forall j x, nth_error pre j = Some x -> x <> c) ->
  match find_item_from eqb h c (length pre) with
  | Some k => nth_error (pre ++ h) k = Some c /\ forall j, j < k -> nth_error (pre ++ h) j <> Some c
  | None => forall j, nth_error (pre ++ h) j <> Some c
  end.
Proof.
  revert pre; induction h as [|x h IH]; intros pre N; cbn [find_item_from].
  - intros j E. rewrite app_nil_r in E. apply N in E. congruence.
  - destruct (eqb x c) eqn:E.
    + apply eqb_ok in E. subst. split; [apply nth_error_mid|].
      intros j Hj E. rewrite nth_error_app_l in E by lia. apply N in E; congruence.
    + specialize (IH (pre ++ [x])). rewrite app_length in IH. cbn in IH. rewrite Nat.add_1_r, <- app_assoc in IH. cbn in IH. apply IH.
      intros j y Hy. destruct (Nat.lt_ge_cases j (length pre)) as [L|L].
      * rewrite nth_error_app_l in Hy by lia. eauto.
      * rewrite nth_error_app_r in Hy by lia. destruct (j - length pre) as [|q]; cbn in Hy; [|destruct q; discriminate].
        injection Hy as <-. apply eqb_false; exact E.
Qed.

Lemma find_item_spec (h : list T) c :
  match find_item eqb h c with
  | Some k => nth_error h k = Some c /\ forall j, j < k -> nth_error h j <> Some c
  | None => forall j, nth_error h j <> Some c
  end.
Proof. apply (find_item_from_spec [] h c). intros [|j] x H; discriminate. Qed.

Lemma scan_spec fuel h i last : i < length h -> length h - i <= fuel ->
  exists r, scan eqb fuel h i last = Some r /\
    match r with
    | Some k => i <= k < length h /\ nth_error h k = Some last /\ forall j, i <= j < k -> nth_error h j <> Some last
    | None => forall j, i <= j -> nth_error h j <> Some last
    end.
Proof.
  revert i; induction fuel as [|fuel IH]; intros i L F; [lia|]. cbn [scan].
  destruct (nth_error_ex h i L) as (x & X). rewrite X. cbn [obind].
  destruct (eqb x last) eqn:E.
  - apply eqb_ok in E. subst. eexists. split; [reflexivity|]. cbn. repeat split; auto; lia.
  - apply eqb_false in E. destruct (Nat.eqb_spec (S i) (length h)) as [SE|SE].
    + eexists. split; [reflexivity|]. cbn. intros j Hj Z. destruct (Nat.eq_dec j i) as [->|N]; [congruence|].
      apply nth_error_lt in Z. lia.
    + destruct (IH (S i) ltac:(lia) ltac:(lia)) as (r & -> & R). exists r. split; [reflexivity|].
      destruct r as [k|].
      * destruct R as (R1 & R2 & R3). split; [lia|]. split; [exact R2|].
        intros j Hj. destruct (Nat.eq_dec j i) as [->|N]; [congruence|]. apply R3; lia.
      * intros j Hj. destruct (Nat.eq_dec j i) as [->|N]; [congruence|]. apply R; lia.
Qed.

Lemma match_rest_spec fuel h n base m j :
  j < m -> m < length n -> base + m < length h -> m - j <= fuel ->
  (forall q, q < j -> nth_error h (base + q) = nth_error n q) ->
  exists b, match_rest eqb fuel h n base m j = Some b /\
    (if b then forall q, q < m -> nth_error h (base + q) = nth_error n q
     else exists q, q < m /\ nth_error h (base + q) <> nth_error n q).
Proof.
  revert j; induction fuel as [|fuel IH]; intros j Hj Hm Hb F P; [lia|]. cbn [match_rest].
  destruct (nth_error_ex h (base + j) ltac:(lia)) as (x & X).
  destruct (nth_error_ex n j ltac:(lia)) as (y & Y). rewrite X, Y. cbn [obind].
  destruct (eqb x y) eqn:E; cbn [negb].
  - apply eqb_ok in E. subst y.
    assert (P' : forall q, q < S j -> nth_error h (base + q) = nth_error n q).
    { intros q Hq. destruct (Nat.eq_dec q j) as [->|N]; [congruence|apply P; lia]. }
    destruct (Nat.eqb_spec (S j) m) as [SE|SE].
    + exists true. split; [reflexivity|]. rewrite <- SE. exact P'.
    + apply IH; auto; lia.
  - apply eqb_false in E. exists false. split; [reflexivity|]. exists j. split; [exact Hj|congruence].
Qed.

Lemma calc_skip_spec j n m last : j <= m -> S m = length n ->
  (forall q, j <= q < m -> nth_error n q <> Some last) ->
  exists s, calc_skip eqb j n m last = Some s /\ 1 <= s <= length n /\
    forall d, 1 <= d < s -> nth_error n (m - d) <> Some last.
Proof.
  intros Hj Hm. revert Hj. induction j as [|j IH]; intros Hj N; cbn [calc_skip].
  - eexists. split; [reflexivity|]. split; [lia|]. intros d Hd. apply N. lia.
  - destruct (nth_error_ex n j ltac:(lia)) as (y & Y). rewrite Y. cbn [obind].
    destruct (eqb y last) eqn:E.
    + eexists. split; [reflexivity|]. split; [lia|]. intros d Hd. apply N. lia.
    + apply eqb_false in E. apply IH; [lia|]. intros q Hq.
      destruct (Nat.eq_dec q j) as [->|NE]; [congruence|]. apply N. lia.
Qed.

Lemma find_loop_spec fuel h n m last i skip :
  S m = length n -> 1 <= m -> nth_error n m = Some last -> m <= i -> S (length h) - i < fuel \/ (length h <= i /\ 0 < fuel) ->
  (Z.of_nat (length h) + Z.of_nat (length n) <= 2 ^ 31)%Z ->
  (forall k, k + m < i -> ~ occurs_at h n k) ->
  (skip = 0 \/ (1 <= skip <= length n /\ forall d, 1 <= d < skip -> nth_error n (m - d) <> Some last)) ->
  exists r, find_loop eqb fuel h n m last i skip = Some r /\
    match r with
    | Some k => occurs_at h n k /\ forall j, occurs_at h n j -> k <= j
    | None => forall j, ~ occurs_at h n j
    end.
Proof.
  intros Hm M1 HL. revert i skip. induction fuel as [|fuel IH]; intros i skip Hi F B NO SK; [lia|].
  cbn [find_loop]. destruct (Nat.ltb_spec i (length h)) as [L|L].
  2:{ eexists. split; [reflexivity|]. cbn. intros j O. apply (NO j); [|exact O].
      apply occurs_nth in O as (O & _). lia. }
  assert (TAIL : forall k, occurs_at h n k -> nth_error h (k + m) = Some last).
  { intros k O. apply occurs_nth in O as (_ & O). rewrite O by lia. exact HL. }
  destruct (scan_spec (length h) h i last L ltac:(lia)) as (r & -> & R). cbn [obind].
  destruct r as [i'|].
  2:{ eexists. split; [reflexivity|]. cbn. intros j O. destruct (Nat.lt_ge_cases (j + m) i) as [X|X].
      - exact (NO _ X O). - exact (R _ X (TAIL _ O)). }
  destruct R as (R1 & R2 & R3).
  assert (NO' : forall k, k + m < i' -> ~ occurs_at h n k).
  { intros k Hk O. destruct (Nat.lt_ge_cases (k + m) i) as [X|X]; [exact (NO _ X O)|].
    apply (R3 (k + m)); [lia|]. apply TAIL; exact O. }
  destruct (match_rest_spec (length n) h n (i' - m) m 0 ltac:(lia) ltac:(lia) ltac:(lia) ltac:(lia) ltac:(lia)) as (b & -> & MB).
  cbn [obind]. destruct b.
  { eexists. split; [reflexivity|]. cbn. split.
    - apply occurs_nth. split; [lia|]. intros j Hj. destruct (Nat.eq_dec j m) as [->|N].
      + replace (i' - m + m) with i' by lia. congruence.
      + apply MB. lia.
    - intros j O. destruct (Nat.lt_ge_cases (j + m) i') as [X|X]; [destruct (NO' _ X O)|lia]. }
  destruct MB as (q & Q1 & Q2).
  assert (SS : exists s, (if skip =? 0 then calc_skip eqb m n m last else Some skip) = Some s /\
      1 <= s <= length n /\ forall d, 1 <= d < s -> nth_error n (m - d) <> Some last).
  { destruct (Nat.eqb_spec skip 0) as [Z|Z].
    - apply calc_skip_spec; [lia|exact Hm|]. intros; lia.
    - destruct SK as [SK|SK]; [contradiction|]. exists skip. auto. }
  destruct SS as (s & -> & S1 & S2). cbn [obind].
  destruct (Z.leb_spec (2 ^ 31) (Z.of_nat (i' + s))); [lia|].
  apply IH; [lia|lia|exact B| |right; auto].
  intros k Hk O.
  destruct (Nat.lt_ge_cases (k + m) i') as [X|X]; [exact (NO' _ X O)|].
  destruct (Nat.eq_dec (k + m) i') as [X'|X'].
  - apply Q2. replace (i' - m) with k by lia. apply occurs_nth in O as (_ & O). apply O. lia.
  - (* tail at i' + d, 0 < d < s *)
    set (d := k + m - i'). apply (S2 d); [unfold d; lia|].
    apply occurs_nth in O as (_ & O). rewrite <- O by (unfold d; lia).
    replace (k + (m - d)) with i' by (unfold d; lia). exact R2.
Qed.

Lemma find_spec h n : (Z.of_nat (length h) + Z.of_nat (length n) <= 2 ^ 31)%Z ->
  exists r, find_arr eqb h n = Some r /\
    match r with
    | Some k => occurs_at h n k /\ forall j, occurs_at h n j -> k <= j
    | None => forall j, ~ occurs_at h n j
    end.
Proof.
  intros B. unfold find_arr.
  destruct (Nat.ltb_spec (length h) (length n)) as [L|L]; cbn [orb].
  { destruct (Nat.eqb_spec (length n) 0); [lia|]. eexists. split; [reflexivity|]. cbn.
    intros j O. apply occurs_nth in O as (O & _). lia. }
  destruct (Nat.leb_spec (length n) 0) as [Z|Z].
  { destruct (Nat.eqb_spec (length n) 0); [|lia]. eexists. split; [reflexivity|]. cbn.
    split; [|intros; lia]. apply occurs_nth. split; [lia|]. intros; lia. }
  destruct (Nat.eqb_spec (length n) 1) as [O1|O1].
  { destruct n as [|c [|]]; try discriminate. cbn [nth_error obind]. eexists. split; [reflexivity|].
    pose proof (find_item_spec h c) as S.
    assert (OC : forall j, occurs_at h [c] j <-> nth_error h j = Some c).
    { intros j. rewrite occurs_nth. cbn [length]. split.
      - intros (_ & H). specialize (H 0 ltac:(lia)). rewrite Nat.add_0_r in H. exact H.
      - intros H. split; [apply nth_error_lt in H; lia|]. intros [|q] Hq; [|lia]. rewrite Nat.add_0_r. exact H. }
    destruct (find_item eqb h c) as [k|].
    - rewrite OC. split; [tauto|]. intros j. rewrite OC. intros H. destruct (Nat.lt_ge_cases j k) as [X|X]; [|exact X].
      destruct S as (_ & S). destruct (S _ X H).
    - intros j. rewrite OC. apply S. }
  destruct (nth_error_ex n (length n - 1) ltac:(lia)) as (last & HL). rewrite HL. cbn [obind].
  apply find_loop_spec; auto; try lia.
Qed.

End E1.

Lemma occurs_view (h n : list T) a b k : a <= b <= length h ->
  occurs_at (view_between h a b) n k <-> occurs_at h n (a + k) /\ a + k + length n <= b.
Proof.
  intros L. unfold view_between. rewrite !occurs_nth, firstn_length, skipn_length.
  assert (E : forall j, k + j < b - a -> nth_error (firstn (b - a) (skipn a h)) (k + j) = nth_error h (a + k + j)).
  { intros j Hj. rewrite nth_error_firstn by lia. rewrite nth_error_skipn. f_equal. lia. }
  split.
  - intros (H1 & H2). split; [split; [lia|]|lia]. intros j Hj. rewrite <- E by lia. auto.
  - intros ((H1 & H2) & H3). split; [lia|]. intros j Hj. rewrite E by lia. auto.
Qed.

Section E2.
Context (eqb : T -> T -> bool) (eqb_ok : forall x y, eqb x y = true <-> x = y).
Lemma find_window_spec h n a b : a <= b <= length h ->
  (Z.of_nat (length h) + Z.of_nat (length n) <= 2 ^ 31)%Z ->
  exists r, find_window eqb h n a b = Some r /\ first_occurrence h n a b r.
Proof.
  intros L B. unfold find_window.
  rewrite (proj2 (Nat.leb_le a b)), (proj2 (Nat.leb_le b (length h))) by lia. cbn [andb].
  destruct (find_spec eqb eqb_ok (view_between h a b) n) as (r & -> & R).
  { unfold view_between. rewrite firstn_length. lia. }
  cbn [obind]. eexists. split; [reflexivity|]. destruct r as [k|]; cbn.
  - destruct R as (R1 & R2). apply occurs_view in R1; [|exact L]. rewrite (Nat.add_comm k a).
    split; [split; [tauto|lia]|].
    intros j (J1 & J2 & J3). specialize (R2 (j - a)). rewrite occurs_view in R2 by exact L.
    replace (a + (j - a)) with j in R2 by lia. specialize (R2 (conj J1 J3)). lia.
  - intros j (J1 & J2 & J3). apply (R (j - a)). apply occurs_view; [exact L|].
    replace (a + (j - a)) with j by lia. auto.
Qed.

End E2.

(** ** split *)
Lemma splits_joined (sep s : list T) ps : splits sep s ps -> ps <> [] /\ joined sep ps = s.
Proof.
  induction 1 as [s N|p rest ps F S (NE & IH)]; [split; [discriminate|reflexivity]|].
  split; [discriminate|]. cbn [joined]. destruct ps; [congruence|]. rewrite IH. reflexivity.
Qed.

Lemma splits_free (sep s : list T) ps : sep <> [] -> splits sep s ps -> Forall (fun p => forall k, ~ occurs_at p sep k) ps.
Proof.
  intros NZ. induction 1 as [s N|p rest ps F S IH]; constructor; auto.
  intros k (a & b & E & L). subst p. specialize (F k). rewrite !app_length in F.
  assert (length sep <> 0) by (destruct sep; cbn; congruence).
  assert (length a + (length sep + length b) <= k).
  { apply F. exists a, (b ++ sep ++ rest). split; [|exact L]. rewrite <- !app_assoc. reflexivity. }
  lia.
Qed.

Lemma app_same_length (p q x y : list T) : length p = length q -> p ++ x = q ++ y -> p = q /\ x = y.
Proof.
  revert q; induction p as [|a p IH]; intros [|b q] L E; try discriminate; [auto|].
  cbn in *. injection E as -> E. destruct (IH q ltac:(lia) E). subst; auto.
Qed.

Lemma splits_unique (sep s : list T) ps : splits sep s ps -> forall ps', splits sep s ps' -> ps = ps'.
Proof.
  induction 1 as [s N|p rest ps F S IH]; intros ps' H.
  - inversion H as [|p rest ps'' F S]; subst; [reflexivity|]. exfalso. apply (N (length p)). exists p, rest. auto.
  - inversion H as [s' N|p' rest' ps'' F' S' E]; subst.
    + exfalso. apply (N (length p)). exists p, rest. auto.
    + assert (L1 : length p <= length p').
      { apply F. exists p', rest'. split; [symmetry; exact E|reflexivity]. }
      assert (L2 : length p' <= length p).
      { apply F'. exists p, rest. split; [exact E|reflexivity]. }
      assert (p = p' /\ sep ++ rest = sep ++ rest') as (-> & E2).
      { apply app_same_length; [lia|symmetry; exact E]. }
      apply app_inv_head in E2. subst. f_equal. apply IH; exact S'.
Qed.

Definition pieces (l : list (list T * bool * bool)) := map (fun p => fst (fst p)) l.
(** The flags: only the first is flagged first (when [f]), only the last flagged last. *)
Fixpoint flags_ok (f : bool) (l : list (list T * bool * bool)) : Prop :=
  match l with
  | [] => False
  | [(_, a, b)] => a = f /\ b = true
  | (_, a, b) :: l' => a = f /\ b = false /\ flags_ok false l'
  end.

Section E3.
Context (eqb : T -> T -> bool) (eqb_ok : forall x y, eqb x y = true <-> x = y).
Lemma split_loop_spec fuel s sep last : sep <> [] -> last <= length s ->
  (Z.of_nat (length s) + Z.of_nat (length sep) <= 2 ^ 31)%Z ->
  length s - last < fuel ->
  exists l, split_loop eqb fuel s sep (length sep) last = Some l /\
    splits sep (skipn last s) (pieces l) /\ flags_ok (last =? 0) l.
Proof.
  intros NZ. assert (NZ' : 1 <= length sep) by (destruct sep; cbn; [congruence|lia]).
  revert last. induction fuel as [|fuel IH]; intros last L B F; [lia|]. cbn [split_loop].
  unfold find_start.
  destruct (find_window_spec eqb eqb_ok s sep last (length s) ltac:(lia) B) as (r & -> & R). cbn [obind].
  destruct r as [next|]; cbn in R.
  - destruct R as ((O & R1 & R2) & R3).
    destruct (IH (next + length sep) ltac:(lia) B ltac:(lia)) as (l & -> & S & FL). cbn [obind].
    eexists. split; [reflexivity|]. cbn [pieces map fst].
    set (p := view_between s last next).
    assert (LP : length p = next - last) by (unfold p, view_between; rewrite firstn_length, skipn_length; lia).
    assert (E : skipn last s = p ++ sep ++ skipn (next + length sep) s).
    { destruct O as (a & b & E & La).
      assert (E3 : skipn (next + length sep) s = b).
      { subst s. rewrite <- La, <- app_length, app_assoc. rewrite skipn_app, skipn_all, Nat.sub_diag. reflexivity. }
      assert (E4 : skipn next s = sep ++ b).
      { subst s. rewrite <- La. rewrite skipn_app, skipn_all, Nat.sub_diag. reflexivity. }
      rewrite E3, <- E4. unfold p, view_between.
      rewrite <- (firstn_skipn (next - last) (skipn last s)) at 1. f_equal.
      rewrite skipn_skipn_add. f_equal. lia. }
    split.
    + rewrite E. constructor.
      * intros k O'. rewrite <- E in O'. rewrite LP.
        assert (V : view_between s last (length s) = skipn last s).
        { unfold view_between. apply firstn_all2. rewrite skipn_length. lia. }
        rewrite <- V in O'. apply occurs_view in O'; [|lia]. destruct O' as (O1 & O2).
        assert (next <= last + k); [|lia]. apply R3. split; [exact O1|lia].
      * exact S.
    + destruct l as [|x l]; [destruct FL|]. cbn. split; [reflexivity|]. split; [reflexivity|].
      replace (next + length sep =? 0) with false in FL by (symmetry; apply Nat.eqb_neq; lia). exact FL.
  - assert (N : forall k, ~ occurs_at (skipn last s) sep k).
    { intros k O. assert (V : view_between s last (length s) = skipn last s).
      { unfold view_between. apply firstn_all2. rewrite skipn_length. lia. }
      rewrite <- V in O. apply occurs_view in O; [|lia]. apply (R (last + k)). repeat split; [tauto|lia|lia]. }
    destruct (Nat.eqb_spec last 0) as [->|NL].
    + eexists. split; [reflexivity|]. cbn. split; [constructor; exact N|auto].
    + eexists. split; [reflexivity|]. cbn.
      assert (V : view_between s last (length s) = skipn last s).
      { unfold view_between. apply firstn_all2. rewrite skipn_length. lia. }
      rewrite V. split; [constructor; exact N|auto].
Qed.

Lemma split_each_spec s sep : sep <> [] ->
  (Z.of_nat (length s) + Z.of_nat (length sep) <= 2 ^ 31)%Z ->
  exists l, split_each eqb s sep = Some l /\ splits sep s (pieces l) /\ flags_ok true l.
Proof.
  intros NZ B. unfold split_each. destruct (Nat.eqb_spec (length sep) 0) as [Z|Z]; [destruct sep; cbn in Z; congruence|].
  apply (split_loop_spec (S (S (length s))) s sep 0); auto; lia.
Qed.

End E3.

Lemma replace_loop_tail (s w : list T) l acc : flags_ok false l ->
  replace_loop s w l acc = acc ++ w ++ joined w (pieces l).
Proof.
  revert acc; induction l as [|((p, a), b) l IH]; intros acc F; [destruct F|].
  destruct l as [|q l].
  - destruct F as (-> & ->). cbn. rewrite <- app_assoc. reflexivity.
  - destruct F as (-> & -> & F). 
    change (replace_loop s w (q :: l) ((acc ++ w) ++ p) = acc ++ w ++ (p ++ w ++ joined w (pieces (q :: l)))).
    rewrite IH by exact F. rewrite <- !app_assoc. reflexivity.
Qed.

Section E4.
Context (eqb : T -> T -> bool) (eqb_ok : forall x y, eqb x y = true <-> x = y).
Lemma replace_spec s all w : all <> [] ->
  (Z.of_nat (length s) + Z.of_nat (length all) <= 2 ^ 31)%Z ->
  exists ps, split_on eqb s all = Some ps /\ replace eqb s all w = Some (joined w ps).
Proof.
  intros NZ B. destruct (split_each_spec eqb eqb_ok s all NZ B) as (l & E & S & F).
  unfold split_on, replace. rewrite E. cbn [obind]. eexists. split; [reflexivity|]. f_equal.
  destruct l as [|((p, a), b) l]; [destruct F|]. destruct l as [|q l].
  - destruct F as (-> & ->). cbn in *. apply splits_joined in S as (_ & S). cbn in S. congruence.
  - destruct F as (-> & -> & F). 
    change (replace_loop s w (q :: l) p = p ++ w ++ joined w (pieces (q :: l))).
    apply replace_loop_tail, F.
Qed.

End E4.

(** ** join *)
Lemma blit_spec (done junk : list (option T)) src rest :
  length junk = length src ->
  blit (done ++ junk ++ rest) (length done) src = Some ((done ++ map Some src) ++ rest).
Proof.
  intros L. unfold blit. rewrite !app_length. rewrite (proj2 (Nat.leb_le _ _)) by lia. f_equal.
  rewrite firstn_app, firstn_all, Nat.sub_diag. cbn. rewrite app_nil_r, <- app_assoc. f_equal. f_equal.
  rewrite skipn_app, skipn_all2 by lia. replace (length done + length src - length done) with (length src) by lia.
  rewrite skipn_app, skipn_all2 by lia. rewrite L, Nat.sub_diag. reflexivity.
Qed.

Definition tails (sep : list T) (a : list (list T)) : list T := concat (map (fun p => sep ++ p) a).
Lemma joined_tails sep p a : joined sep (p :: a) = p ++ tails sep a.
Proof.
  revert p; induction a as [|q a IH]; intros p; [cbn; rewrite app_nil_r; reflexivity|].
  change (joined sep (p :: q :: a)) with (p ++ sep ++ joined sep (q :: a)). rewrite IH.
  unfold tails. cbn. rewrite <- !app_assoc. reflexivity.
Qed.
Lemma join_size_spec N (sep : list T) a size : N = length sep -> join_size N a size = size + length (tails sep a).
Proof.
  intros ->. revert size; induction a as [|p a IH]; intros size; cbn; [lia|]. rewrite IH.
  unfold tails. cbn. rewrite !app_length. lia.
Qed.
Lemma sep_len_arr (s : sep_t (T := T)) : sep_len s = length (sep_arr s).
Proof. destruct s; reflexivity. Qed.

Lemma join_loop_spec sep a (done : list T) : 
  join_loop sep a (map Some done ++ repeat None (length (tails (sep_arr sep) a))) (length done)
  = Some (map Some (done ++ tails (sep_arr sep) a)).
Proof.
  revert done; induction a as [|p a IH]; intros done; cbn [join_loop].
  - unfold tails. cbn. rewrite !app_nil_r. reflexivity.
  - unfold tails in *. cbn [map concat]. rewrite !app_length.
    rewrite !repeat_app.
    assert (SEP : (match sep with
             | SepNone => Some (map Some done ++ (repeat None (length (sep_arr sep)) ++ repeat None (length p)) ++ repeat None (length (tails (sep_arr sep) a)))
             | SepItem c => upd (map Some done ++ (repeat None (length (sep_arr sep)) ++ repeat None (length p)) ++ repeat None (length (tails (sep_arr sep) a))) (length done) (Some c)
             | SepArr l => blit (map Some done ++ (repeat None (length (sep_arr sep)) ++ repeat None (length p)) ++ repeat None (length (tails (sep_arr sep) a))) (length done) l
             end) = Some (map Some (done ++ sep_arr sep) ++ repeat None (length p) ++ repeat None (length (tails (sep_arr sep) a)))).
    { destruct sep as [|c|l]; cbn [sep_arr length repeat app].
      - rewrite app_nil_r. reflexivity.
      - rewrite upd_spec by (rewrite app_length, map_length; cbn; lia).
        rewrite firstn_app, firstn_all2, map_length, Nat.sub_diag by (rewrite map_length; lia). cbn [firstn]. rewrite app_nil_r.
        rewrite skipn_app, skipn_all2, map_length by (rewrite map_length; lia). replace (S (length done) - length done) with 1 by lia. cbn [skipn app].
        rewrite map_app, <- app_assoc. reflexivity.
      - rewrite <- app_assoc. pose proof (blit_spec (map Some done) (repeat None (length l)) l (repeat None (length p) ++ repeat None (length (tails l a)))) as BS.
        rewrite map_length in BS. rewrite BS by apply repeat_length. rewrite map_app. reflexivity. }
    unfold tails in SEP. rewrite SEP. cbn [obind]. rewrite sep_len_arr.
    pose proof (blit_spec (map Some (done ++ sep_arr sep)) (repeat None (length p)) p (repeat None (length (tails (sep_arr sep) a)))) as BS.
    unfold tails in BS. rewrite map_length, app_length in BS. rewrite BS by apply repeat_length. cbn [obind].
    specialize (IH ((done ++ sep_arr sep) ++ p)). rewrite !app_length in IH. rewrite map_app in IH. rewrite IH.
    f_equal. f_equal. rewrite <- !app_assoc. reflexivity.
Qed.

Lemma join_spec (a : list (list T)) sep : join a sep = Some (map Some (joined (sep_arr sep) a)).
Proof.
  destruct a as [|x [|y a]]; [reflexivity|reflexivity|]. unfold join.
  rewrite (join_size_spec _ (sep_arr sep)) by apply sep_len_arr.
  rewrite repeat_app.
  pose proof (blit_spec [] (repeat None (length x)) x (repeat None (length (tails (sep_arr sep) (y :: a))))) as BS.
  cbn [app length] in BS. rewrite BS by apply repeat_length. cbn [obind].
  rewrite join_loop_spec, joined_tails. reflexivity.
Qed.

(** ** reverse *)
Lemma swap_at_spec i j (l : list T) : i < length l -> j < length l ->
  exists l', swap_at i j l = Some l' /\ length l' = length l /\
    nth_error l' i = nth_error l j /\ nth_error l' j = nth_error l i /\
    forall k, k <> i -> k <> j -> nth_error l' k = nth_error l k.
Proof.
  intros Hi Hj. unfold swap_at.
  destruct (nth_error_ex l i Hi) as (x & X). destruct (nth_error_ex l j Hj) as (y & Y). rewrite X, Y. cbn [obind].
  destruct (upd_total l i y Hi) as (l1 & U1). rewrite U1. cbn [obind].
  destruct (upd_Some _ _ _ _ U1) as (_ & L1 & N1 & O1).
  destruct (upd_total l1 j x ltac:(lia)) as (l2 & U2). rewrite U2.
  destruct (upd_Some _ _ _ _ U2) as (_ & L2 & N2 & O2).
  exists l2. split; [reflexivity|]. split; [lia|].
  destruct (Nat.eq_dec i j) as [->|N].
  - assert (x = y) by congruence. subst. split; [congruence|]. split; [congruence|]. intros k K _. rewrite O2, O1; auto.
  - split; [rewrite O2 by exact N; congruence|]. split; [congruence|]. intros k K1 K2. rewrite O2, O1; auto.
Qed.

Lemma reverse_loop_spec fuel i (a0 a : list T) :
  length a = length a0 -> i + fuel = length a0 / 2 ->
  (forall k, k < i \/ length a0 - i <= k < length a0 -> nth_error a k = nth_error a0 (length a0 - 1 - k)) ->
  (forall k, i <= k < length a0 - i -> nth_error a k = nth_error a0 k) ->
  exists a', reverse_loop fuel i (length a0 - 1) a = Some a' /\ length a' = length a0 /\
    forall k, k < length a0 -> nth_error a' k = nth_error a0 (length a0 - 1 - k).
Proof.
  assert (D : 2 * (length a0 / 2) <= length a0 < 2 * (length a0 / 2) + 2).
  { pose proof (Nat.div_mod (length a0) 2 ltac:(lia)). pose proof (Nat.mod_upper_bound (length a0) 2 ltac:(lia)). lia. }
  revert i a; induction fuel as [|fuel IH]; intros i a L F H1 H2; cbn [reverse_loop].
  - exists a. split; [reflexivity|]. split; [exact L|]. intros k Hk.
    destruct (Nat.lt_ge_cases k i) as [X|X]; [apply H1; auto|].
    destruct (Nat.lt_ge_cases k (length a0 - i)) as [Y|Y]; [|apply H1; lia].
    rewrite H2 by lia. f_equal. lia.
  - destruct (swap_at_spec i (length a0 - 1 - i) a ltac:(lia) ltac:(lia)) as (a' & -> & L' & S1 & S2 & S3). cbn [obind].
    apply IH; [congruence|lia| |].
    + intros k Hk.
      destruct (Nat.eq_dec k i) as [->|N1]; [rewrite S1, H2 by lia; reflexivity|].
      destruct (Nat.eq_dec k (length a0 - 1 - i)) as [->|N2].
      { rewrite S2, H2 by lia. f_equal. lia. }
      rewrite S3 by assumption. apply H1. lia.
    + intros k Hk. rewrite S3 by lia. apply H2. lia.
Qed.

Lemma reverse_spec (a : list T) : reverse a = Some (rev a).
Proof.
  unfold reverse. destruct (reverse_loop_spec (length a / 2) 0 a a eq_refl eq_refl) as (a' & E & L & H).
  - intros k Hk. lia.
  - intros; reflexivity.
  - rewrite E. f_equal. apply list_ext. intros k. destruct (Nat.lt_ge_cases k (length a)) as [X|X].
    + rewrite H by exact X. destruct (nth_error_ex a (length a - 1 - k) ltac:(lia)) as (x & EX).
      rewrite EX. symmetry.
      rewrite (nth_error_nth' (rev a) x) by (rewrite rev_length; exact X). f_equal. rewrite rev_nth by exact X.
      replace (length a - S k) with (length a - 1 - k) by lia. apply nth_error_nth; exact EX.
    + rewrite !(proj2 (nth_error_None _ _)); auto; rewrite ?rev_length; lia.
Qed.

(** ** partition *)
Lemma swap_perm i j (l l' : list T) : swap_at i j l = Some l' -> Permutation l l'.
Proof.
  unfold swap_at. intros H. apply obind_Some in H as (x & X & H). apply obind_Some in H as (y & Y & H).
  apply obind_Some in H as (l1 & U1 & U2).
  assert (S : exists l'', swap_at i j l = Some l'' /\ length l'' = length l /\ nth_error l'' i = nth_error l j /\ nth_error l'' j = nth_error l i /\
    forall k, k <> i -> k <> j -> nth_error l'' k = nth_error l k) by (apply swap_at_spec; eapply nth_error_lt; eauto).
  destruct S as (l'' & E & L & N1 & N2 & N3). assert (l'' = l').
  { unfold swap_at in E. rewrite X, Y in E. cbn in E. rewrite U1 in E. cbn in E. congruence. } subst l''.
  apply Permutation_nth_error. split; [congruence|].
  exists (fun k => if k =? i then j else if k =? j then i else k). split.
  - intros a b E'. destruct (Nat.eqb_spec a i), (Nat.eqb_spec a j), (Nat.eqb_spec b i), (Nat.eqb_spec b j); lia.
  - intros k. destruct (Nat.eqb_spec k i) as [->|K1]; [congruence|]. destruct (Nat.eqb_spec k j) as [->|K2]; [congruence|]. auto.
Qed.

Definition kept (pred : T -> nat -> bool) (l : list (T * nat)) : list T :=
  map fst (filter (fun p => negb (pred (fst p) (snd p))) l).
Definition dropped (pred : T -> nat -> bool) (l : list (T * nat)) : list T :=
  map fst (filter (fun p => pred (fst p) (snd p)) l).

Definition idx (i : nat) (a : list T) := combine a (seq i (length a)).

Lemma partition_loop_spec pred todo : forall i K D,
  i = length K + length D ->
  exists D', partition_loop (length todo) pred i (length K) (K ++ D ++ todo)
      = Some (length (K ++ kept pred (idx i todo)), K ++ kept pred (idx i todo) ++ D') /\
    Permutation D' (D ++ dropped pred (idx i todo)).
Proof.
  induction todo as [|x todo IH]; intros i K D E; unfold idx, kept, dropped in *; cbn [length partition_loop seq combine filter map].
  - exists D. rewrite !app_nil_r. cbn. split; reflexivity.
  - assert (NX : nth_error (K ++ D ++ x :: todo) i = Some x).
    { rewrite app_assoc. subst i. rewrite <- app_length. apply nth_error_mid. }
    rewrite NX. cbn [obind fst snd]. destruct (pred x i) eqn:P; cbn [negb].
    + destruct (IH (S i) K (D ++ [x])) as (D' & R & PM); [rewrite app_length; cbn; lia|].
      rewrite <- !app_assoc in R. cbn [app] in R. rewrite R. exists D'. split; [reflexivity|].
      rewrite PM. cbn [map fst]. rewrite <- app_assoc. reflexivity.
    + assert (SW : exists D0, (if length K <? i then swap_at i (length K) (K ++ D ++ x :: todo) else Some (K ++ D ++ x :: todo))
         = Some ((K ++ [x]) ++ D0 ++ todo) /\ Permutation D0 D).
      { destruct D as [|d D].
        - cbn in E. rewrite Nat.add_0_r in E. subst i. rewrite Nat.ltb_irrefl. exists []. rewrite <- app_assoc. cbn. auto.
        - cbn in E. rewrite (proj2 (Nat.ltb_lt _ _)) by lia. exists (D ++ [d]). split; [|symmetry; apply Permutation_cons_append].
          unfold swap_at. rewrite NX. cbn [obind].
          cbn [app]. rewrite (nth_error_mid K (D ++ x :: todo) d). cbn [obind].
          rewrite upd_spec by (rewrite !app_length; cbn; rewrite app_length; cbn; lia). cbn [obind].
          assert (E2 : i = length (K ++ d :: D)) by (rewrite app_length; cbn; lia).
          assert (EL : K ++ d :: D ++ x :: todo = (K ++ d :: D) ++ x :: todo) by (rewrite <- app_assoc; reflexivity).
          cbn [app]. rewrite EL. rewrite E2 at 1 2. rewrite firstn_mid, skipn_mid.
          rewrite <- app_assoc. cbn [app].
          rewrite upd_spec by (rewrite app_length; cbn; lia). rewrite firstn_mid, skipn_mid. f_equal.
          rewrite <- !app_assoc. reflexivity. }
      destruct SW as (D0 & -> & PD). cbn [obind].
      destruct (IH (S i) (K ++ [x]) D0) as (D' & R & PM).
      { rewrite app_length. cbn. rewrite (Permutation_length PD). lia. }
      rewrite app_length in R. cbn in R. rewrite Nat.add_1_r in R. rewrite R. exists D'. split.
      * cbn [map fst]. rewrite <- !app_assoc. cbn. rewrite !app_length. cbn. reflexivity.
      * rewrite PM, PD. reflexivity.
Qed.

(** ** the rest *)
Lemma fill_loop_spec fuel v (done : list T) : 
  fill_loop fuel (length done) v (map Some done ++ repeat None fuel) = Some (map (@Some T) (done ++ repeat v fuel)).
Proof.
  revert done; induction fuel as [|fuel IH]; intros done; cbn [fill_loop repeat].
  - rewrite !app_nil_r. reflexivity.
  - rewrite upd_spec by (rewrite app_length, map_length; cbn; lia). cbn [obind].
    pose proof (firstn_mid (map Some done) (None :: repeat None fuel)) as FM. rewrite map_length in FM. rewrite FM.
    pose proof (skipn_mid (map Some done) (repeat None fuel) None) as SM. rewrite map_length in SM. rewrite SM.
    specialize (IH (done ++ [v])). rewrite app_length, map_app, <- !app_assoc in IH. cbn in IH. rewrite Nat.add_1_r in IH.
    exact IH.
Qed.

Lemma steal_loop_spec (mid : list T) : forall done a pre dflt suf,
  steal_loop (length mid) (length done) (length pre) (done ++ repeat dflt (length mid)) ((pre ++ a) ++ mid ++ suf) = 
  Some (done ++ mid, (pre ++ a) ++ repeat dflt (length mid) ++ suf) \/ length a <> length done.
Proof.
  induction mid as [|x mid IH]; intros done a pre dflt suf.
  - left. reflexivity.
  - destruct (Nat.eq_dec (length a) (length done)) as [E|E]; [left|auto]. cbn [length steal_loop repeat].
    rewrite nth_error_mid. cbn [obind].
    assert (EP : length done + length pre = length (pre ++ a)) by (rewrite app_length; lia).
    rewrite EP. cbn [app]. rewrite nth_error_mid. cbn [obind].
    rewrite upd_spec by (rewrite app_length; cbn; lia). cbn [obind].
    rewrite firstn_mid, skipn_mid.
    rewrite upd_spec by (rewrite (app_length (pre ++ a)); cbn; lia). cbn [obind].
    rewrite firstn_mid, skipn_mid.
    specialize (IH (done ++ [x]) (a ++ [dflt]) pre dflt suf).
    rewrite !app_length in IH. cbn [length] in IH. destruct IH as [IH|IH]; [|lia].
    rewrite Nat.add_1_r in IH. repeat (rewrite <- app_assoc in IH; cbn [app] in IH). repeat (rewrite <- app_assoc; cbn [app]). exact IH.
Qed.

Lemma all_loop_spec pred (a : list T) i : all_loop pred a i = true <-> forall k x, nth_error a k = Some x -> pred x (i + k) = true.
Proof.
  revert i; induction a as [|x a IH]; intros i; cbn.
  - split; [intros _ [|k] x H; discriminate|reflexivity].
  - destruct (pred x i) eqn:P; cbn.
    + rewrite IH. split.
      * intros H [|k] y E; cbn in E; [injection E as <-; rewrite Nat.add_0_r; exact P|].
        rewrite <- Nat.add_succ_comm. apply H; exact E.
      * intros H k y E. rewrite Nat.add_succ_comm. apply H; exact E.
    + split; [discriminate|]. intros H. specialize (H 0 x eq_refl). rewrite Nat.add_0_r in H. congruence.
Qed.
Lemma some_loop_spec pred (a : list T) i : some_loop pred a i = true <-> exists k x, nth_error a k = Some x /\ pred x (i + k) = true.
Proof.
  revert i; induction a as [|x a IH]; intros i; cbn.
  - split; [discriminate|]. intros ([|k] & x & H & _); discriminate.
  - destruct (pred x i) eqn:P; cbn.
    + split; [|reflexivity]. intros _. exists 0, x. rewrite Nat.add_0_r. auto.
    + rewrite IH. split.
      * intros (k & y & E & H). exists (S k), y. rewrite <- Nat.add_succ_comm. auto.
      * intros ([|k] & y & E & H); cbn in E.
        -- injection E as <-. rewrite Nat.add_0_r in H. congruence.
        -- exists k, y. rewrite Nat.add_succ_comm. auto.
Qed.
End P.

Lemma map_loop_spec {T U} (f : T -> nat -> U) a : forall done,
  map_loop f a (length done) (map Some done ++ repeat None (length a))
  = Some (map Some (done ++ map (fun p => f (fst p) (snd p)) (combine a (seq (length done) (length a))))).
Proof.
  induction a as [|x a IH]; intros done; cbn [map_loop length repeat seq combine map].
  - rewrite !app_nil_r. reflexivity.
  - rewrite upd_spec by (rewrite app_length, map_length; cbn; lia). cbn [obind fst snd].
    pose proof (firstn_mid (map Some done) (None :: repeat None (length a))) as FM. rewrite map_length in FM. rewrite FM.
    pose proof (skipn_mid (map Some done) (repeat None (length a)) None) as SM. rewrite map_length in SM. rewrite SM.
    specialize (IH (done ++ [f x (length done)])). rewrite app_length, map_app, <- !app_assoc in IH. cbn in IH. rewrite Nat.add_1_r in IH.
    exact IH.
Qed.
