(** C07: views and slices.  The reference is list slicing with bounds clamped to
    [0, length]: [clamped l start end]. *)
From Verif Require Import ViewModel VecPackProofs CommonLemmas VecInv VecApi VecApi2 VecProofs VecMore.
From Coq Require Import Permutation.
Open Scope Z_scope.

Definition clamped {A} (l : list A) (start end_ : Z) : list A :=
  firstn (Z.to_nat end_ - Z.to_nat start) (skipn (Z.to_nat start) l).
Definition int32 (x : Z) : Prop := - 2 ^ 31 <= x < 2 ^ 31.

Lemma firstn_eq_min {A} (l : list A) n m : (Nat.min n (length l) = Nat.min m (length l))%nat -> firstn n l = firstn m l.
Proof.
  intros H. destruct (Nat.le_gt_cases (length l) n), (Nat.le_gt_cases (length l) m).
  - rewrite !firstn_all2 by lia. reflexivity.
  - lia.
  - lia.
  - f_equal. lia.
Qed.
Lemma pos0_nonneg x : 0 <= pos0 x.
Proof. unfold pos0. destruct (Z.ltb_spec 0 x); lia. Qed.
Lemma pos0_to_nat x : Z.to_nat (pos0 x) = Z.to_nat x.
Proof. unfold pos0. destruct (Z.ltb_spec 0 x); lia. Qed.

(** Every view of a view, for all signed bounds, lies inside the view it was taken
    from, and covers the clamped slice of its elements. *)
Definition inside (w w' : view_t) : Prop :=
  w_off w <= w_off w' /\ 0 <= w_size w' /\ w_off w' + w_size w' <= w_off w + w_size w.
Definition covers {A} (l : list A) (w : view_t) : list A := firstn (Z.to_nat (w_size w)) (skipn (Z.to_nat (w_off w)) l).

Lemma view_between_bounds w a b : 0 <= w_size w < 2 ^ 31 -> int32 a -> int32 b ->
  let w' := get_view_between w a b in let e' := Z.min (Z.max 0 b) (w_size w) in let s' := Z.min (Z.max 0 a) e' in
  w_off w' = w_off w + s' /\ w_size w' = e' - s'.
Proof.
  intros W A B. unfold get_view_between, pos0, wrap. cbn [w_off w_size].
  assert (M : forall x, int32 x -> (if 0 <? x then x else 0) mod 2 ^ 32 = Z.max 0 x).
  { intros x X. unfold int32 in X. destruct (Z.ltb_spec 0 x); rewrite Z.mod_small; lia. }
  rewrite !M by assumption. rewrite (Z.mod_small (w_size w)) by lia.
  assert (N : forall x, (if 0 <? x then x else 0) = Z.max 0 x) by (intros x; destruct (Z.ltb_spec 0 x); lia).
  rewrite !N. set (z := w_size w) in *. set (q := Z.max 0 b). set (p := Z.max 0 a).
  assert (0 <= p /\ 0 <= q) by (unfold p, q; lia). clearbody z p q.
  destruct (Z.leb_spec q z); match goal with |- context [?x <? ?y] => destruct (Z.ltb_spec x y) end; lia.
Qed.
Lemma view_from_is w a : 0 <= w_size w < 2 ^ 31 -> int32 a ->
  get_view_from w a = get_view_between w a (w_size w).
Proof.
  intros W A. unfold get_view_from, get_view_between. rewrite Z.leb_refl || idtac.
  assert (P : pos0 (w_size w) = w_size w) by (unfold pos0; destruct (Z.ltb_spec 0 (w_size w)); lia).
  rewrite P, Z.leb_refl. reflexivity.
Qed.
Lemma view_to_is w b : 0 <= w_size w < 2 ^ 31 -> int32 b -> get_view_to w b = get_view_between w 0 b.
Proof.
  intros W B. destruct (view_between_bounds w 0 b W ltac:(unfold int32; lia) B) as [E1 E2].
  destruct (get_view_between w 0 b) as [o n]. cbn [w_off w_size] in *. subst.
  unfold get_view_to, pos0, wrap. f_equal; [lia|].
  unfold int32 in B.
  destruct (Z.ltb_spec 0 b); rewrite !Z.mod_small by lia;
    match goal with |- context [?x <=? ?y] => destruct (Z.leb_spec x y) end; lia.
Qed.

Theorem views_stay_inside_and_slice :
  forall (A : Type) (l : list A) (w : view_t) (a b : Z),
    0 <= w_off w -> 0 <= w_size w < 2 ^ 31 -> w_off w + w_size w <= Z.of_nat (length l) ->
    int32 a -> int32 b ->
    (inside w (get_view_between w a b) /\ covers l (get_view_between w a b) = clamped (covers l w) a b) /\
    (inside w (get_view_from w a) /\ covers l (get_view_from w a) = clamped (covers l w) a (w_size w)) /\
    (inside w (get_view_to w b) /\ covers l (get_view_to w b) = clamped (covers l w) 0 b).
Proof.
  intros A l w a b O W F HA HB.
  assert (G : forall a b, int32 a -> int32 b ->
    inside w (get_view_between w a b) /\ covers l (get_view_between w a b) = clamped (covers l w) a b).
  { clear a b HA HB. intros a b HA HB. destruct (view_between_bounds w a b W HA HB) as [E1 E2].
    unfold int32 in *. split; [unfold inside; lia|].
    unfold covers, clamped. rewrite E1, E2.
    set (x := Z.to_nat (w_off w)). set (z := Z.to_nat (w_size w)).
    assert (L : (x + z <= length l)%nat) by lia.
    rewrite skipn_firstn_comm, firstn_firstn, skipn_skipn_add.
    set (p := Z.to_nat a). set (q := Z.to_nat b).
    replace (Z.to_nat (w_off w + _)) with (x + Nat.min p (Nat.min q z))%nat by lia.
    replace (Z.to_nat (_ - _)) with (Nat.min q z - p)%nat by lia.
    clearbody x z p q. clear - L.
    destruct (Nat.le_gt_cases p (Nat.min q z)) as [C|C].
    - rewrite (Nat.min_l p) by lia. f_equal. lia.
    - replace (Nat.min q z - p)%nat with 0%nat by lia. replace (Nat.min (q - p) (z - p)) with 0%nat by lia. reflexivity. }
  split; [auto|]. split.
  - rewrite view_from_is by assumption. apply G; auto. unfold int32; lia.
  - rewrite view_to_is by assumption. apply G; auto. unfold int32; lia.
Qed.
Print Assumptions views_stay_inside_and_slice.

(** Indexing a view addresses element [idx] when 0 <= idx < size and nothing otherwise. *)
Theorem view_index_in_bounds : forall w idx, 0 <= w_size w < 2 ^ 31 -> int32 idx ->
  view_index w idx = if (0 <=? idx) && (idx <? w_size w) then Some (w_off w + idx) else None.
Proof.
  intros w idx W I. unfold view_index, wrap, int32 in *. rewrite (Z.mod_small (w_size w)) by lia.
  destruct (Z.leb_spec 0 idx); cbn [andb].
  - rewrite Z.mod_small by lia. reflexivity.
  - rewrite <- (Z.mod_add idx 1) by lia. rewrite Z.mod_small by lia.
    destruct (Z.ltb_spec (idx + 1 * 2 ^ 32) (w_size w)); [lia|reflexivity].
Qed.
Print Assumptions view_index_in_bounds.

(** Reading through a view of a variable in any reachable state is memory-safe and
    yields the clamped slice of its contents. *)
Theorem view_of_vec_reads_the_slice :
  forall (A : Type) (dflt : A) (e : elt) (ops : list (op A)) (s : vars A) m i l a b,
    0 < esz e < 2 ^ 31 ->
    srun (SHAREABLE e) dflt ops [] = Some s -> run dflt e ops start = Ok m ->
    var s i = Some l -> int32 a -> int32 b ->
    read_view e m i (get_view_between (view_all (Z.of_nat (length l))) a b) = Ok (map Some (clamped l a b)).
Proof.
  intros A dflt e ops s m i l a b He E X V HA HB.
  destruct (run_refines dflt e He ops _ _ _ (R_start e) E) as [Y|(m0 & Y & HR)]; [congruence|].
  assert (m0 = m) by congruence. subst m0.
  pose proof (r_fit e _ _ HR i l V) as F. unfold fits in F.
  destruct (R_get e _ _ _ _ HR V) as (v & G & _ & _ & _ & I).
  set (w := view_all (Z.of_nat (length l))).
  assert (W : 0 <= w_size w < 2 ^ 31) by (cbn; lia).
  destruct (views_stay_inside_and_slice A l w a b ltac:(cbn; lia) W ltac:(cbn; lia) HA HB) as [[IN C] _].
  unfold read_view. rewrite G. cbn [rbind].
  set (w' := get_view_between w a b) in *. unfold inside in IN. cbn [w_off w_size w view_all] in IN.
  destruct (Z.ltb_spec (w_off w') 0); [lia|]. destruct (Z.ltb_spec (w_size w') 0); [lia|]. cbn [orb].
  rewrite (Inv_read e He _ _ _ _ _ _ I) by lia. do 2 f_equal.
  transitivity (covers l w'); [reflexivity|]. rewrite C. f_equal.
  unfold covers. cbn [w_off w_size w view_all]. rewrite Nat2Z.id. cbn [skipn]. apply firstn_all.
Qed.
Print Assumptions view_of_vec_reads_the_slice.

(** [into_view]: never covers more bytes than the source, and its assertion holds
    exactly (for aligned data) when the bytes fit exactly. *)
Theorem into_view_exact_fit :
  forall n ss sd addr align, 0 <= n -> 0 < ss -> 0 < sd -> 0 < align ->
    into_view_size n ss sd * sd <= n * ss /\
    (addr mod align = 0 -> into_view_ok n ss sd addr align = true -> into_view_size n ss sd * sd = n * ss) /\
    (addr mod align = 0 -> (n * ss) mod sd = 0 -> into_view_ok n ss sd addr align = true).
Proof.
  intros n ss sd addr align Hn Hs Hd Ha. unfold into_view_ok, into_view_size.
  pose proof (Z.div_mod (n * ss) sd ltac:(lia)) as E. pose proof (Z.mod_pos_bound (n * ss) sd Hd) as B.
  split; [lia|]. split.
  - intros _ H. apply andb_prop in H as [_ H]. apply Z.eqb_eq in H.
    pose proof (Z.div_mod (n * ss / sd * sd) ss ltac:(lia)) as E2. rewrite H in E2.
    pose proof (Z.mod_pos_bound (n * ss / sd * sd) ss Hs). lia.
  - intros -> M. cbn [Z.eqb andb]. apply Z.eqb_eq.
    replace (n * ss / sd * sd) with (n * ss) by lia. apply Z.div_mul. lia.
Qed.
Print Assumptions into_view_exact_fit.

(** A vec slice, moving or copying, in any reachable state: the result is the clamped
    slice; copying leaves every existing variable as it was. *)
Theorem slice_move_is_the_slice :
  forall (A : Type) (dflt : A) (e : elt) (ops : list (op A)) (s : vars A) m i l a b,
    0 < esz e < 2 ^ 31 ->
    srun (SHAREABLE e) dflt ops [] = Some s -> run dflt e ops start = Ok m ->
    var s i = Some l -> int32 a -> Z.of_nat (length l) - 2 ^ 31 < b < 2 ^ 31 ->
    slice_move dflt e i a b m = Exit \/
    exists m', slice_move dflt e i a b m = Ok m' /\ read_var e m' i = Ok (map Some (clamped l a b)) /\
      forall k lk, k <> i -> var s k = Some lk -> read_var e m' k = Ok (map Some lk).
Proof.
  intros A dflt e ops s m i l a b He E X V HA HB.
  destruct (run_refines dflt e He ops _ _ _ (R_start e) E) as [Y|(m0 & Y & HR)]; [congruence|].
  assert (m0 = m) by congruence. subst m0.
  destruct (R_get e _ _ _ _ HR V) as (v & G & _ & Li & _ & I).
  unfold slice_move. rewrite G. cbn [rbind]. rewrite (Inv_size e He _ _ _ _ I).
  destruct (Z.leb_spec (2 ^ 31) (Z.of_nat (length l) - b)); [lia|]. rewrite !pos0_to_nat.
  pose proof (r_fit e _ _ HR i l V) as F.
  set (x := Z.to_nat a). set (y := Z.to_nat (Z.of_nat (length l) - b)).
  set (l' := firstn (length l - x - y) (skipn x l)).
  assert (F' : fitsb (length l') = true).
  { unfold fitsb, l'. apply Z.ltb_lt. rewrite firstn_length, skipn_length. unfold fits in *. lia. }
  assert (SS : sstep (SHAREABLE e) dflt (ShiftPop i x y) s = Some (lset s i (Some l'))).
  { cbn. rewrite V. cbn [obind]. fold l'. unfold require. rewrite F'. reflexivity. }
  assert (EL : l' = clamped l a b).
  { unfold l', clamped. fold x. apply firstn_eq_min. rewrite skipn_length. lia. }
  destruct (step_refines dflt e He _ _ _ _ HR SS) as [Z|(m' & Z & HR')]; [auto|].
  right. exists m'. split; [exact Z|]. split.
  - rewrite <- EL. eapply R_read; eauto. apply var_some, lset_eq. exact Li.
  - intros k lk N Vk. eapply R_read; eauto. rewrite var_lset by auto. exact Vk.
Qed.
Print Assumptions slice_move_is_the_slice.

Lemma init_copy_none {A} (e : elt) (v : vec (A:=A)) h src :
  init_copy e v h src 0 = init_copy e v h (SExt []) 0.
Proof.
  unfold init_copy. destruct (splice_ e true false false 0 0 0 0 0 (vec0 e) h); cbn; try reflexivity.
  destruct src; reflexivity.
Qed.

Local Lemma slice_count a b (n : nat) :
  Z.to_nat (pos0 ((if b <? Z.of_nat n then b else Z.of_nat n) - pos0 a)) = (Nat.min (Z.to_nat b) n - Z.to_nat (pos0 a))%nat.
Proof.
  rewrite !pos0_to_nat. unfold pos0. destruct (Z.ltb_spec b (Z.of_nat n)), (Z.ltb_spec 0 a); lia.
Qed.

Theorem slice_copy_is_the_slice :
  forall (A : Type) (dflt : A) (e : elt) (ops : list (op A)) (s : vars A) m j l a b,
    0 < esz e < 2 ^ 31 -> SHAREABLE e = true ->
    srun (SHAREABLE e) dflt ops [] = Some s -> run dflt e ops start = Ok m ->
    var s j = Some l -> int32 a -> int32 b ->
    slice_copy dflt e j a b m = Exit \/
    exists m', slice_copy dflt e j a b m = Ok m' /\
      read_var e m' (length s) = Ok (map Some (clamped l a b)) /\
      forall k lk, var s k = Some lk -> read_var e m' k = Ok (map Some lk).
Proof.
  intros A dflt e ops s m j l a b He SH E X V HA HB.
  destruct (run_refines dflt e He ops _ _ _ (R_start e) E) as [Y|(m0 & Y & HR)]; [congruence|].
  assert (m0 = m) by congruence. subst m0.
  destruct (R_get e _ _ _ _ HR V) as (v & G & Nv & Lj & LL & I).
  pose proof (r_fit e _ _ HR j l V) as F.
  unfold slice_copy. rewrite G. cbn [rbind]. rewrite (Inv_size e He _ _ _ _ I).
  assert (CP : sstep (SHAREABLE e) dflt (Copy j) s = Some (s ++ [Some l])).
  { cbn. rewrite V, SH. reflexivity. }
  assert (VN : forall t : list A, var (s ++ [Some t]) (length s) = Some t).
  { intros t. apply var_some. rewrite nth_error_app2, Nat.sub_diag by lia. reflexivity. }
  assert (VO : forall (t : list A) k lk, var s k = Some lk -> var (s ++ [Some t]) k = Some lk).
  { intros t k lk Vk. apply var_app. exact Vk. }
  destruct (TRIVIAL e && (a =? 0) && (SMALL_CAPA e <? b)) eqn:C1.
  - apply andb_prop in C1 as [C1 C3]. apply andb_prop in C1 as [_ C2].
    apply Z.eqb_eq in C2. subst a. apply Z.ltb_lt in C3.
    pose proof (SMALL_CAPA_range e ltac:(lia)) as SR.
    destruct (step_refines dflt e He _ _ _ _ HR CP) as [Z|(m1 & Z & HR1)]; rewrite Z; [auto|]. cbn [rbind].
    unfold slice_move.
    destruct (R_get e _ _ _ _ HR1 (VN l)) as (v1 & G1 & _ & Lj1 & _ & I1).
    rewrite LL, G1. cbn [rbind]. rewrite (Inv_size e He _ _ _ _ I1).
    unfold fits in F.
    destruct (Z.leb_spec (2 ^ 31) (Z.of_nat (length l) - b)); [lia|]. rewrite !pos0_to_nat.
    set (y := Z.to_nat (Z.of_nat (length l) - b)).
    change (Z.to_nat 0) with 0%nat.
    set (l' := firstn (length l - 0 - y) (skipn 0 l)).
    assert (F' : fitsb (length l') = true).
    { unfold fitsb, l'. apply Z.ltb_lt. rewrite firstn_length, skipn_length. unfold fits in *. lia. }
    assert (SS : sstep (SHAREABLE e) dflt (ShiftPop (length s) 0 y) (s ++ [Some l]) =
       Some (lset (s ++ [Some l]) (length s) (Some l'))).
    { cbn [sstep]. rewrite VN. cbn [obind]. fold l'. unfold require. rewrite F'. reflexivity. }
    assert (EL : l' = clamped l 0 b).
    { unfold l', clamped. change (Z.to_nat 0) with 0%nat. apply firstn_eq_min. rewrite skipn_length. lia. }
    destruct (step_refines dflt e He _ _ _ _ HR1 SS) as [Z2|(m2 & Z2 & HR2)]; [auto|].
    right. exists m2. split; [exact Z2|]. split.
    + rewrite <- EL. eapply R_read; eauto. apply var_some, lset_eq. exact Lj1.
    + intros k lk Vk. eapply R_read; eauto. rewrite var_lset.
      * apply VO. exact Vk.
      * apply var_some in Vk. apply nth_error_lt in Vk. lia.
  - destruct (negb (TRIVIAL e) && (a =? 0) && (b =? Z.of_nat (length l))) eqn:C2.
    + apply andb_prop in C2 as [C2 C4]. apply andb_prop in C2 as [_ C3].
      apply Z.eqb_eq in C3, C4. subst a b.
      destruct (step_refines dflt e He _ _ _ _ HR CP) as [Z|(m1 & Z & HR1)]; [auto|].
      right. exists m1. split; [exact Z|]. split.
      * eapply R_read; eauto. rewrite VN. f_equal. unfold clamped. rewrite Nat2Z.id. change (Z.to_nat 0) with 0%nat.
        rewrite Nat.sub_0_r. cbn [skipn]. rewrite firstn_all. reflexivity.
      * intros k lk Vk. eapply R_read; eauto.
    + set (st := Z.to_nat (pos0 a)).
      set (cnt := Z.to_nat (pos0 ((if b <? Z.of_nat (length l) then b else Z.of_nat (length l)) - pos0 a))).
      assert (EC : cnt = (Nat.min (Z.to_nat b) (length l) - st)%nat).
      { apply slice_count. }
      assert (ES : st = Z.to_nat a) by apply pos0_to_nat.
      assert (RN : runs (init_copy e v (m_heap m) (src_of dflt e true v st) cnt)
                (holds e (live (m_vars m) s) (clamped l a b))).
      { assert (IA : Inv e (m_heap m) (live (m_vars m) s)) by apply (r_inv e _ _ HR).
        destruct (Nat.le_gt_cases (st + cnt) (length l)) as [L|L].
        - apply (init_copy_run e He); [exact IA| |unfold fits in *; lia].
          eapply (src_is_incl e He v ((v, map Some l) :: live (lset (m_vars m) j None) (lset s j None)) (live (m_vars m) s)).
          { intros x Hx. eapply Permutation_in; [apply Permutation_sym, (live_take _ _ j v l LL Nv)|exact Hx]. apply var_some; exact V. }
          destruct (src_facts dflt e He (m_heap m) v v l l _ true st cnt (conj eq_refl eq_refl) I L) as (S1 & _).
          assert (EQ : clamped l a b = firstn cnt (skipn st l)).
          { unfold clamped. rewrite <- ES. apply firstn_eq_min. rewrite skipn_length. lia. }
          rewrite EQ. exact S1.
        - (* an over-long start reads nothing *)
          assert (cnt = 0%nat) as -> by lia.
          assert (clamped l a b = []) as ->.
          { unfold clamped. rewrite skipn_all2 by lia. apply firstn_nil. }
          rewrite init_copy_none. apply (init_copy_run e He); [exact IA| |unfold fits; lia].
          cbn. auto. }
      destruct RN as [Z|([v' h'] & Z & H)]; rewrite Z; [left; reflexivity|]. cbn [rbind].
      right. eexists. split; [reflexivity|]. unfold holds in H. cbn [fst snd] in H.
      assert (HR' : R e {| m_heap := h'; m_vars := m_vars m ++ [Some v'] |} (s ++ [Some (clamped l a b)])).
      { constructor; cbn [m_heap m_vars].
        - apply shape_app, (r_shape _ _ _ HR).
        - rewrite live_app by apply shape_length, (r_shape _ _ _ HR). cbn.
          eapply Inv_perm; [apply Permutation_cons_append|exact H].
        - apply fitsall_app; [apply (r_fit _ _ _ HR)|].
          unfold clamped. rewrite firstn_length, skipn_length. unfold fits in *. lia. }
      split; [eapply R_read; eauto|]. intros k lk Vk. eapply R_read; eauto.
Qed.
Print Assumptions slice_copy_is_the_slice.

(** Finding: the moving slice computes size - end in signed 32 bits, so end = INT_MIN
    overflows (undefined) for every vec, before any clamping. *)
Theorem slice_move_int_min_overflows :
  forall (A : Type) (dflt : A) (e : elt) i m v, getv m i = Ok v ->
    slice_move dflt e i 0 (- 2 ^ 31) m = UB.
Proof.
  intros A dflt e i m v G. unfold slice_move. rewrite G. cbn [rbind].
  destruct (Z.leb_spec (2 ^ 31) (Z.of_nat (size e v) - - 2 ^ 31)); [reflexivity|lia].
Qed.
Print Assumptions slice_move_int_min_overflows.

(** Non-vacuity. *)
Definition e1 : elt := {| esz := 1; e_trivial := true; e_aligned := true; e_copiable := true |}.
Definition slice_l : list Z := [1; 2; 3; 4; 5; 6; 7; 8; 9; 10; 11; 12; 13; 14; 15; 16; 17; 18; 19; 20].
Definition slice_m : machine Z := match run 0 e1 [New slice_l; Copy 0%nat] start with Ok m => m | _ => start end.
Definition slice_rd (r : res (machine Z)) (i : nat) : res (list (option Z)) :=
  match r with Ok m' => read_var e1 m' i | _ => UB end.
Example slice_case :
  slice_rd (slice_copy 0 e1 0%nat 0 17 slice_m) 2%nat = Ok (map Some (firstn 17 slice_l)) /\
  slice_rd (slice_copy 0 e1 0%nat 2 5 slice_m) 2%nat = Ok (map Some [3; 4; 5]) /\
  slice_rd (slice_copy 0 e1 0%nat (-3) 99 slice_m) 2%nat = Ok (map Some slice_l) /\
  slice_rd (slice_move 0 e1 1%nat 18 99 slice_m) 1%nat = Ok (map Some [19; 20]) /\
  read_view e1 slice_m 0%nat (get_view_between (get_view_from (view_all 20) 3) 1 4) = Ok (map Some [5; 6; 7]).
Proof.
  assert (R : forall r l, (match r with Ok a => (fix go (a : list (option Z)) (b : list Z) :=
      match a, b with [], [] => true | Some x :: a, y :: b => Z.eqb x y && go a b | _, _ => false end) a l | _ => false end) = true ->
      r = Ok (map Some l)).
  { intros [a| |] l H; try discriminate. f_equal. revert l H. induction a as [|[x|] a IH]; intros [|y l] H; try discriminate; [reflexivity|].
    apply andb_true_iff in H. destruct H as [H1 H2]. apply Z.eqb_eq in H1. subst. cbn. f_equal. apply IH. exact H2. }
  repeat match goal with |- _ /\ _ => split end; apply R; reflexivity.
Qed.
