(** C26, C28, C29: find, split / join / replace and the in-place array helpers. *)
From Verif Require Import PreludeSpec PreludeProofs CommonLemmas.
Open Scope nat_scope.

(** ** C26 *)
(** find(haystack, needle) never reads out of bounds and returns the first occurrence, for every
    haystack and needle whose lengths together fit an int. *)
Theorem find_is_the_first_occurrence :
  forall (T : Type) (eqb : T -> T -> bool) (h n : list T),
    (forall x y, eqb x y = true <-> x = y) ->
    (Z.of_nat (length h) + Z.of_nat (length n) <= 2 ^ 31)%Z ->
    exists r, find_arr eqb h n = Some r /\ first_occurrence h n 0 (length h) r.
Proof.
  intros T eqb h n E B. destruct (find_spec eqb E h n B) as (r & R & S). exists r. split; [exact R|].
  destruct r as [k|]; cbn.
  - destruct S as (S1 & S2). pose proof (proj1 (occurs_nth h n k) S1) as (L & _). split; [split; [exact S1|lia]|].
    intros j (J & _). auto.
  - intros j (J & _). exact (S j J).
Qed.
Print Assumptions find_is_the_first_occurrence.

(** With start / end: the first occurrence lying inside the window, as an index into the haystack. *)
Theorem find_window_is_the_first_occurrence :
  forall (T : Type) (eqb : T -> T -> bool) (h n : list T) (a b : nat),
    (forall x y, eqb x y = true <-> x = y) -> a <= b <= length h ->
    (Z.of_nat (length h) + Z.of_nat (length n) <= 2 ^ 31)%Z ->
    exists r, find_window eqb h n a b = Some r /\ first_occurrence h n a b r.
Proof. intros T eqb h n a b E L B. apply find_window_spec; auto. Qed.
Print Assumptions find_window_is_the_first_occurrence.

Theorem find_item_is_the_first :
  forall (T : Type) (eqb : T -> T -> bool) (h : list T) (c : T),
    (forall x y, eqb x y = true <-> x = y) ->
    first_occurrence h [c] 0 (length h) (find_item eqb h c).
Proof.
  intros T eqb h c E. pose proof (find_item_spec eqb E h c) as S.
  assert (OC : forall j, occurs_at h [c] j <-> nth_error h j = Some c).
  { intros j. rewrite occurs_nth. cbn [length]. split.
    - intros (_ & H). specialize (H 0 ltac:(lia)). rewrite Nat.add_0_r in H. exact H.
    - intros H. split; [apply nth_error_lt in H; lia|]. intros [|q] Hq; [|lia]. rewrite Nat.add_0_r. exact H. }
  destruct (find_item eqb h c) as [k|]; cbn.
  - rewrite OC. destruct S as (S1 & S2). split; [apply nth_error_lt in S1 as L; split; [exact S1|lia]|].
    intros j (J & _). apply OC in J. destruct (Nat.lt_ge_cases j k) as [X|X]; [destruct (S2 _ X J)|exact X].
  - intros j (J & _). apply OC in J. exact (S j J).
Qed.
Print Assumptions find_item_is_the_first.

Local Lemma eqb_list_ok (T : Type) (eqb : T -> T -> bool) (a b : list T) :
  (forall x y, eqb x y = true <-> x = y) -> eqb_list eqb a b = true <-> a = b.
Proof.
  intros E. revert b; induction a as [|x a IH]; intros [|y b]; cbn; try (split; congruence).
  rewrite Bool.andb_true_iff, E, IH. split; [intros (-> & ->); reflexivity|]. intros H; injection H; auto.
Qed.

(** has = there is an occurrence; starts = is a prefix; ends = is a suffix. *)
Theorem has_starts_ends :
  forall (T : Type) (eqb : T -> T -> bool) (h n : list T) (c : T),
    (forall x y, eqb x y = true <-> x = y) ->
    ((Z.of_nat (length h) + Z.of_nat (length n) <= 2 ^ 31)%Z ->
       exists b, has eqb h n = Some b /\ (b = true <-> exists pre suf, h = pre ++ n ++ suf)) /\
    (starts eqb h n = true <-> exists suf, h = n ++ suf) /\
    (ends eqb h n = true <-> exists pre, h = pre ++ n) /\
    (exists b, starts_item eqb h c = Some b /\ (b = true <-> exists suf, h = c :: suf)) /\
    (exists b, ends_item eqb h c = Some b /\ (b = true <-> exists pre, h = pre ++ [c])).
Proof.
  intros T eqb h n c E. split; [|split; [|split; [|split]]].
  - intros B. unfold has. destruct (find_spec eqb E h n B) as (r & -> & S). cbn. eexists. split; [reflexivity|].
    destruct r as [k|].
    + destruct S as ((p & s & EH & _) & _). split; [eauto|reflexivity].
    + split; [discriminate|]. intros (p & s & EH). exfalso. apply (S (length p)). exists p, s. auto.
  - unfold starts. rewrite Bool.andb_true_iff, Nat.leb_le, (eqb_list_ok T eqb _ _ E). unfold view_between. cbn [skipn]. rewrite Nat.sub_0_r. split.
    + intros (L & H). exists (skipn (length n) h). rewrite <- H at 1. symmetry. apply firstn_skipn.
    + intros (s & ->). rewrite app_length, firstn_app, firstn_all, Nat.sub_diag. cbn. rewrite app_nil_r. split; [lia|reflexivity].
  - unfold ends. rewrite Bool.andb_true_iff, Nat.leb_le, (eqb_list_ok T eqb _ _ E). unfold view_between. split.
    + intros (L & H). exists (firstn (length h - length n) h).
      replace (length h - (length h - length n)) with (length n) in H by lia.
      rewrite firstn_all2 in H by (rewrite skipn_length; lia). rewrite <- H at 2. symmetry. apply firstn_skipn.
    + intros (s & ->). rewrite app_length. split; [lia|].
      replace (length s + length n - length n) with (length s) by lia.
      rewrite skipn_app, skipn_all, Nat.sub_diag. cbn. apply firstn_all2. lia.
  - unfold starts_item. destruct h as [|x h]; cbn.
    + exists false. split; [reflexivity|]. split; [discriminate|]. intros (s & H). discriminate.
    + eexists. split; [reflexivity|]. rewrite E. split; [intros ->; eauto|]. intros (s & H). congruence.
  - unfold ends_item. destruct (Nat.eqb_spec (length h) 0) as [Z|Z].
    + exists false. split; [reflexivity|]. split; [discriminate|]. intros (p & ->). rewrite app_length in Z. cbn in Z. lia.
    + destruct (exists_last (l := h)) as (p & y & ->); [destruct h; cbn in Z; congruence|].
      rewrite app_length. cbn [length]. replace (length p + 1 - 1) with (length p) by lia. rewrite nth_error_mid. cbn.
      eexists. split; [reflexivity|]. rewrite E. split; [intros ->; eauto|]. intros (q & H). apply app_inj_tail in H. tauto.
Qed.
Print Assumptions has_starts_ends.

(** Finding: the int index is advanced by the skip before it is compared with the length, so a
    haystack longer than 2^31 - len(needle) can overflow it: after a mismatch near the end the
    model's addition traps.  (Stated for the loop step: at i' = len(h) - 1 with skip = len(n).) *)
Theorem find_index_can_overflow :
  forall (T : Type) (eqb : T -> T -> bool) (h n : list T) m last i skip f,
    i < length h -> 0 < skip -> (2 ^ 31 <= Z.of_nat (i + skip))%Z ->
    scan eqb (length h) h i last = Some (Some i) ->
    match_rest eqb (length n) h n (i - m) m 0 = Some false ->
    find_loop eqb (S f) h n m last i skip = None.
Proof.
  intros T eqb h n m last i skip f L S O E1 E2. cbn [find_loop]. rewrite (proj2 (Nat.ltb_lt _ _)) by exact L.
  rewrite E1. cbn [obind]. rewrite E2. cbn [obind]. rewrite (proj2 (Nat.eqb_neq skip 0)) by lia. cbn [obind].
  rewrite (proj2 (Z.leb_le _ _)) by exact O. reflexivity.
Qed.
Print Assumptions find_index_can_overflow.

(** ** C28 *)
(** split cuts at every separator scanning from the left; joining the pieces with the separator
    gives the string back, no piece contains the separator, and the pieces are the only ones
    with the leftmost-cut property. *)
Theorem split_cuts_at_every_separator :
  forall (T : Type) (eqb : T -> T -> bool) (s sep : list T),
    (forall x y, eqb x y = true <-> x = y) -> sep <> [] ->
    (Z.of_nat (length s) + Z.of_nat (length sep) <= 2 ^ 31)%Z ->
    exists ps, split_on eqb s sep = Some ps /\ splits sep s ps /\
      (forall ps', splits sep s ps' -> ps' = ps) /\
      Forall (fun p => forall k, ~ occurs_at p sep k) ps /\
      join ps (SepArr sep) = Some (map Some s).
Proof.
  intros T eqb s sep E NZ B. destruct (split_each_spec eqb E s sep NZ B) as (l & R & S & _).
  exists (pieces l). split; [unfold split_on; rewrite R; reflexivity|]. split; [exact S|].
  split; [intros ps' S'; symmetry; eapply splits_unique; eauto|].
  split; [eapply splits_free; eauto|]. rewrite join_spec. cbn [sep_arr].
  rewrite (proj2 (splits_joined _ _ _ S)). reflexivity.
Qed.
Print Assumptions split_cuts_at_every_separator.

(** The callback form: pieces in order, exactly the first flagged first, exactly the last flagged
    last; an empty separator gives the whole string as the only piece. *)
Theorem split_each_flags :
  forall (T : Type) (eqb : T -> T -> bool) (s sep : list T),
    (forall x y, eqb x y = true <-> x = y) ->
    (Z.of_nat (length s) + Z.of_nat (length sep) <= 2 ^ 31)%Z ->
    exists l ps, split_each eqb s sep = Some l /\ split_on eqb s sep = Some ps /\ map (fun p => fst (fst p)) l = ps /\ ps <> [] /\
      (sep = [] -> ps = [s]) /\
      (forall i p f la, nth_error l i = Some (p, f, la) -> (f = true <-> i = 0) /\ (la = true <-> S i = length l)).
Proof.
  intros T eqb s sep E B.
  assert (FL : forall f (l : list (list T * bool * bool)), flags_ok f l ->
     forall i p a b, nth_error l i = Some (p, a, b) -> (a = true <-> i = 0 /\ f = true) /\ (b = true <-> S i = length l)).
  { clear. intros f l. revert f. induction l as [|((q, a0), b0) l IH]; intros f F i p a b N; [destruct F|].
    destruct l as [|x l].
    - destruct F as (-> & ->). destruct i as [|[|i]]; cbn in N; try discriminate. injection N as -> <- <-. cbn. split; split; auto; tauto.
    - destruct F as (-> & -> & F). destruct i as [|i]; cbn in N.
      + injection N as -> <- <-. cbn. split; [tauto|]. split; [discriminate|lia].
      + destruct (IH false F i p a b N) as (I1 & I2). split.
        * rewrite I1. split; [intros (_ & ?); discriminate|intros (? & _); discriminate].
        * rewrite I2. cbn. lia. }
  destruct sep as [|c sep].
  - exists [(s, true, true)], [s]. unfold split_on, split_each. cbn. repeat (split; [congruence || reflexivity|]).
    intros i p f la N. destruct (FL true [(s, true, true)] (conj eq_refl eq_refl) i p f la N) as (H1 & H2). rewrite H1. tauto.
  - destruct (split_each_spec eqb E s (c :: sep)) as (l & R & S & F); [discriminate|exact B|].
    exists l, (pieces l). split; [exact R|]. split; [unfold split_on; rewrite R; reflexivity|]. split; [reflexivity|].
    split; [apply (splits_joined _ _ _ S)|]. split; [discriminate|].
    intros i p f la N. destruct (FL true l F i p f la N) as (H1 & H2). rewrite H1. tauto.
Qed.
Print Assumptions split_each_flags.

(** join fills every cell: no junk is left, no write leaves the buffer. *)
Theorem join_concatenates :
  forall (T : Type) (a : list (list T)) (sep : sep_t), join a sep = Some (map Some (joined (sep_arr sep) a)).
Proof. intros; apply join_spec. Qed.
Print Assumptions join_concatenates.

Theorem replace_is_split_then_join :
  forall (T : Type) (eqb : T -> T -> bool) (s all w : list T),
    (forall x y, eqb x y = true <-> x = y) -> all <> [] ->
    (Z.of_nat (length s) + Z.of_nat (length all) <= 2 ^ 31)%Z ->
    exists ps, split_on eqb s all = Some ps /\ splits all s ps /\ replace eqb s all w = Some (joined w ps).
Proof.
  intros T eqb s all w E NZ B. destruct (replace_spec eqb E s all w NZ B) as (ps & S & R).
  exists ps. split; [exact S|]. split; [|exact R].
  destruct (split_each_spec eqb E s all NZ B) as (l & Q & SP & _). unfold split_on in S. rewrite Q in S. cbn in S.
  injection S as <-. exact SP.
Qed.
Print Assumptions replace_is_split_then_join.

(** ** C29 *)
Theorem reverse_is_rev :
  forall (T : Type) (a : list T), reverse a = Some (rev a) /\
    (forall a', reverse a = Some a' -> reverse a' = Some a) /\
    (forall a' i, reverse a = Some a' -> i < length a -> nth_error a' i = nth_error a (length a - 1 - i)).
Proof.
  intros T a. rewrite reverse_spec. split; [reflexivity|]. split.
  - intros a' E. injection E as <-. rewrite reverse_spec, rev_involutive. reflexivity.
  - intros a' i E L. injection E as <-. destruct (nth_error_ex a (length a - 1 - i) ltac:(lia)) as (x & EX).
    rewrite EX, (nth_error_nth' (rev a) x) by (rewrite rev_length; exact L). f_equal. rewrite rev_nth by exact L.
    replace (length a - S i) with (length a - 1 - i) by lia. apply nth_error_nth; exact EX.
Qed.
Print Assumptions reverse_is_rev.

(** map calls f on every item with its index, in order, and fills the whole result. *)
Theorem map_agrees_with_lists :
  forall (T U : Type) (f : T -> nat -> U) (a : list T),
    map_ f a = Some (map Some (map (fun p => f (fst p) (snd p)) (indexed a))).
Proof. intros. apply (map_loop_spec f a []). Qed.
Print Assumptions map_agrees_with_lists.

Theorem all_some_agree_with_lists :
  forall (T : Type) (pred : T -> nat -> bool) (a : list T),
    (all pred a = true <-> forall i x, nth_error a i = Some x -> pred x i = true) /\
    (some pred a = true <-> exists i x, nth_error a i = Some x /\ pred x i = true).
Proof. intros. split; [apply (all_loop_spec pred a 0)|apply (some_loop_spec pred a 0)]. Qed.
Print Assumptions all_some_agree_with_lists.

(** partition(pred, start): items before start stay; the items failing pred follow in their
    original order; the items satisfying it are moved behind them; nothing is lost. *)
Theorem partition_keeps_the_rest_in_order :
  forall (T : Type) (pred : T -> nat -> bool) (a : list T) (start : nat), start <= length a ->
    exists keep a' tail, partition_by pred start a = Some (keep, a') /\
      a' = firstn start a ++ map fst (filter (fun p => negb (pred (fst p) (snd p))) (skipn start (indexed a))) ++ tail /\
      keep = length a' - length tail /\
      Permutation tail (map fst (filter (fun p => pred (fst p) (snd p)) (skipn start (indexed a)))).
Proof.
  intros T pred a start L. unfold partition_by.
  assert (LF : length (firstn start a) = start) by (apply firstn_length_le; exact L).
  destruct (partition_loop_spec pred (skipn start a) start (firstn start a) []) as (D & R & P); [cbn; lia|].
  rewrite skipn_length, LF in R. cbn [app] in R. rewrite firstn_skipn in R. rewrite R.
  assert (EI : idx start (skipn start a) = skipn start (indexed a)).
  { unfold idx, indexed. clear. 
    assert (G : forall (l : list T) i k, skipn k (combine l (seq i (length l))) = combine (skipn k l) (seq (i + k) (length (skipn k l)))).
    { induction l as [|x l IH]; intros i [|k]; cbn [skipn length seq combine]; rewrite ?Nat.add_0_r; try reflexivity.
      rewrite IH. f_equal. f_equal. lia. }
    symmetry. apply (G a 0 start). }
  rewrite EI in *. eexists _, _, D. split; [reflexivity|]. split; [reflexivity|]. split.
  - rewrite !app_length. unfold kept. lia.
  - exact P.
Qed.
Print Assumptions partition_keeps_the_rest_in_order.

(** remove(pred) keeps exactly the items failing pred, in order - for non-trivial items; for trivial
    items every call ends in assert(false). *)
Theorem remove_filters :
  forall (T : Type) (pred : T -> nat -> bool) (a : list T),
    remove_pred false pred a = Some (map fst (filter (fun p => negb (pred (fst p) (snd p))) (indexed a))) /\
    remove_pred true pred a = None.
Proof.
  intros T pred a. split; [|reflexivity]. unfold remove_pred.
  destruct (partition_keeps_the_rest_in_order T pred a 0 ltac:(lia)) as (keep & a' & tail & -> & E & K & _). cbn [obind firstn app] in *.
  cbn [skipn] in E. rewrite (proj2 (Nat.leb_le _ _)) by lia. f_equal. rewrite K, E, app_length.
  replace (length _ + length tail - length tail) with (length (map fst (filter (fun p => negb (pred (fst p) (snd p))) (indexed a)))) by lia.
  apply firstn_mid.
Qed.
Print Assumptions remove_filters.

(** resize(len, v): common prefix kept, tail filled with v, no junk left. *)
Theorem resize_keeps_the_prefix :
  forall (T : Type) (len : nat) (v : T) (a : list T),
    resize_with len v a = Some (map Some (firstn len a ++ repeat v (len - length a))).
Proof.
  intros T len v a. unfold resize_with. destruct (Nat.le_gt_cases len (length a)) as [L|L].
  - replace (len - length a) with 0 by lia. cbn. rewrite !app_nil_r. reflexivity.
  - rewrite (firstn_all2 a) by lia. rewrite fill_loop_spec. rewrite map_app. rewrite <- map_app. reflexivity.
Qed.
Print Assumptions resize_keeps_the_prefix.

(** steal(start) / steal(start, end): the window moves to the result, the rest stays; arguments
    outside the array trap. *)
Theorem steal_moves_the_window :
  forall (T : Type) (dflt : T) (pre mid suf : list T),
    steal_from dflt (pre ++ mid) (length pre) = Some (mid, pre) /\
    steal_between dflt (pre ++ mid ++ suf) (length pre) (length pre + length mid) = Some (mid, pre ++ suf) /\
    (forall start, length pre < start -> steal_from dflt pre start = None) /\
    (forall s e, s <= e -> length pre < e -> steal_between dflt pre s e = None).
Proof.
  intros T dflt pre mid suf.
  assert (SL : forall suf, steal_loop (length mid) 0 (length pre) (repeat dflt (length mid)) (pre ++ mid ++ suf)
             = Some (mid, pre ++ repeat dflt (length mid) ++ suf)).
  { intros s. destruct (steal_loop_spec mid [] [] pre dflt s) as [H|H]; [|cbn in H; lia]. cbn [app length] in H. rewrite app_nil_r in H. exact H. }
  split; [|split; [|split]].
  - unfold steal_from. rewrite app_length, (proj2 (Nat.leb_le _ _)) by lia.
    replace (length pre + length mid - length pre) with (length mid) by lia.
    specialize (SL []). rewrite !app_nil_r in SL. rewrite SL. cbn. rewrite firstn_mid. reflexivity.
  - unfold steal_between. rewrite (proj2 (Nat.leb_le _ _)) by lia.
    replace (length pre + length mid - length pre) with (length mid) by lia. rewrite SL. cbn [obind].
    rewrite splice_out_spec by (rewrite !app_length, repeat_length; lia). cbn [obind]. rewrite firstn_mid. f_equal. f_equal. f_equal.
    rewrite app_assoc. rewrite skipn_app, skipn_all2 by (rewrite app_length, repeat_length; lia).
    rewrite app_length, repeat_length, Nat.sub_diag. reflexivity.
  - intros start L. unfold steal_from. destruct (Nat.leb_spec start (length pre)); [lia|reflexivity].
  - intros s e L1 L2. unfold steal_between. rewrite (proj2 (Nat.leb_le _ _)) by lia.
    assert (G : forall n i ret (a : list T), length a < i + s + n -> length a = length pre -> 0 < n -> steal_loop n i s ret a = None).
    { induction n as [|n IH]; intros i ret a LA LE N; [lia|]. cbn [steal_loop].
      destruct (nth_error ret i) as [x|]; [|reflexivity]. cbn [obind].
      destruct (nth_error a (i + s)) as [y|] eqn:Y; [|reflexivity]. cbn [obind].
      destruct (upd ret i y) as [r'|]; [|reflexivity]. cbn [obind].
      destruct (upd a (i + s) x) as [a'|] eqn:U; [|reflexivity]. cbn [obind].
      apply upd_Some in U as (U1 & U2 & _). apply IH; lia. }
    destruct (Nat.eq_dec s e) as [->|NE].
    + rewrite Nat.sub_diag. cbn. unfold splice_out. destruct (Nat.leb_spec (e + 0) (length pre)); [lia|reflexivity].
    + rewrite G; [reflexivity|lia|reflexivity|lia].
Qed.
Print Assumptions steal_moves_the_window.

(** Accessors. *)
Theorem accessors_agree_with_lists :
  forall (T : Type) (a : list T) (d : T) (i : Z), (- 2 ^ 31 <= i < 2 ^ 31)%Z -> (Z.of_nat (length a) < 2 ^ 31)%Z ->
    only a = match a with [x] => Some x | _ => None end /\
    first a = hd_error a /\ last_ a = hd_error (rev a) /\
    if_only a d = Some (match a with [x] => x | _ => d end) /\
    if_first a d = Some (match a with x :: _ => x | [] => d end) /\
    if_last a d = Some (last a d) /\
    if_exists a i d = Some (if (0 <=? i)%Z then nth (Z.to_nat i) a d else d) /\
    (forall k, ensure d a k = Some (nth k a d, a ++ repeat d (S k - length a))).
Proof.
  intros T a d i Hi Ha. refine (conj _ (conj _ (conj _ (conj _ (conj _ (conj _ (conj _ _))))))).
  - destruct a as [|x [|y a]]; reflexivity.
  - destruct a; reflexivity.
  - unfold last_. destruct (Nat.eqb_spec (length a) 0) as [Z|Z]; [destruct a; [reflexivity|discriminate]|].
    destruct (exists_last (l := a)) as (p & y & ->); [destruct a; cbn in Z; congruence|].
    rewrite rev_app_distr, app_length. cbn. replace (length p + 1 - 1) with (length p) by lia. apply nth_error_mid.
  - destruct a as [|x [|y a]]; reflexivity.
  - destruct a; reflexivity.
  - unfold if_last. destruct (Nat.eqb_spec (length a) 0) as [Z|Z]; [destruct a; [reflexivity|discriminate]|].
    destruct (exists_last (l := a)) as (p & y & ->); [destruct a; cbn in Z; congruence|].
    rewrite last_last, app_length. cbn. replace (length p + 1 - 1) with (length p) by lia. apply nth_error_mid.
  - unfold if_exists. destruct (Z.leb_spec 0 i) as [P|P].
    + rewrite Z.mod_small by lia. destruct (Z.ltb_spec i (Z.of_nat (length a))) as [L|L].
      * apply nth_error_nth'. lia.
      * rewrite nth_overflow by lia. reflexivity.
    + rewrite <- (Z_mod_plus_full i 1 (2 ^ 32)), Z.mod_small by lia.
      destruct (Z.ltb_spec (i + 1 * 2 ^ 32) (Z.of_nat (length a))); [lia|reflexivity].
  - intros k. unfold ensure. destruct (Nat.leb_spec (length a) k) as [L|L].
    + rewrite (nth_error_nth' _ d) by (rewrite app_length, repeat_length; lia). cbn [obind].
      rewrite app_nth2 by lia. rewrite nth_repeat. rewrite nth_overflow by lia. reflexivity.
    + rewrite (nth_error_nth' _ d) by lia. cbn [obind]. replace (S k - length a) with 0 by lia. cbn. rewrite app_nil_r. reflexivity.
Qed.
Print Assumptions accessors_agree_with_lists.

(** Non-vacuity. *)
Example prelude_case :
  find_arr Nat.eqb [1; 2; 1; 2; 1; 3; 1; 2; 1; 3; 1; 1] [1; 2; 1; 3; 1; 1] = Some (Some 6) /\
  find_arr Nat.eqb [1; 1; 1; 1] [1; 2] = Some None /\
  find_window Nat.eqb [1; 2; 1; 2; 1] [1; 2] 1 4 = Some (Some 2) /\
  split_on Nat.eqb [0; 7; 7; 7; 1; 7; 7] [7; 7] = Some [[0]; [7; 1]; []] /\
  join [[0]; []; [7]] (SepItem 9) = Some (map Some [0; 9; 9; 7]) /\
  replace Nat.eqb [0; 7; 7; 1] [7; 7] [5] = Some [0; 5; 1] /\
  reverse [1; 2; 3; 4; 5] = Some [5; 4; 3; 2; 1] /\
  partition_by (fun x _ => Nat.even x) 1 [2; 4; 3; 6; 5] = Some (3, [2; 3; 5; 6; 4]) /\
  steal_between 0 [1; 2; 3; 4; 5] 1 3 = Some ([2; 3], [1; 4; 5]).
Proof. vm_compute. repeat split. Qed.
