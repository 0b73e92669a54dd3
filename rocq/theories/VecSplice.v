(** Correctness of the universal splice primitive. *)
From Verif Require Import VecModel VecPackProofs ArcProofs CommonLemmas VecMem VecInv WordsLemmas.
From Coq Require Import Permutation.
Open Scope nat_scope.

Section Splice.
Context {A : Type} (e : elt) (He : (0 < esz e < 2 ^ 31)%Z).
Implicit Types (h : heap (A:=A)) (v : vec (A:=A)) (p q : ptr) (s S : list (option A)).
Local Notation size := (size e).
Local Notation data := (data e).
Local Notation vcapa := (vcapa e).
Local Notation Inv := (Inv e).

Lemma hset_app_l h b k x : b < length h -> hset (h ++ [x]) b k = hset h b k ++ [x].
Proof.
  intros L. apply list_ext. intros i. destruct (Nat.eq_dec i b) as [->|N].
  - rewrite hset_eq by (rewrite app_length; lia). rewrite nth_error_app1 by (rewrite hset_length; lia).
    rewrite hset_eq by exact L. reflexivity.
  - rewrite hset_neq by exact N. destruct (Nat.lt_ge_cases i (length h)).
    + rewrite !nth_error_app1 by (rewrite ?hset_length; lia). rewrite hset_neq by exact N. reflexivity.
    + rewrite !nth_error_app2 by (rewrite ?hset_length; lia). rewrite hset_length. reflexivity.
Qed.
Lemma hset_app_last h k x : hset (h ++ [x]) (length h) k = h ++ [k].
Proof.
  apply list_ext. intros i. destruct (Nat.eq_dec i (length h)) as [->|N].
  - rewrite hset_eq by (rewrite app_length; cbn; lia).
    rewrite nth_error_app2, Nat.sub_diag by lia. reflexivity.
  - rewrite hset_neq by exact N. destruct (Nat.lt_ge_cases i (length h)).
    + rewrite !nth_error_app1 by lia. reflexivity.
    + rewrite !(proj2 (nth_error_None _ _)); auto; rewrite app_length; cbn; lia.
Qed.

Lemma slots_store_other v h p q s : p <> q ->
  slots_at (fst (store v h p s)) (snd (store v h p s)) q = slots_at v h q.
Proof.
  intros N. destruct p as [|b|]; cbn; [destruct q; cbn; auto; congruence| |reflexivity].
  destruct (nth_error h b) as [[k|]|] eqn:E; cbn; try reflexivity.
  destruct q as [|b'|]; cbn; auto. unfold get_block.
  rewrite hset_neq by congruence. reflexivity.
Qed.

Lemma raw_eq_repeat s : raw_list s -> s = repeat None (length s).
Proof. induction 1 as [|x s Hx Hs IH]; cbn; [reflexivity|]. rewrite Hx, <- IH. reflexivity. Qed.

(** Two pieces written into raw storage. *)
Definition filled (a m : list A) (ins n : nat) : list (option A) :=
  map Some a ++ repeat None ins ++ map Some m ++ repeat None (n - (length a + ins + length m)).
Lemma filled_length a m ins n : length a + ins + length m <= n -> length (filled a m ins n) = n.
Proof. intros H. unfold filled. rewrite !app_length, !map_length, !repeat_length. lia. Qed.

Lemma put_filled1 (a : list A) n : length a <= n ->
  put 0 (map Some a) (repeat None n) = map Some a ++ repeat None (n - length a).
Proof.
  intros H. unfold put. cbn [firstn app]. rewrite map_length. f_equal.
  replace n with (length a + (n - length a)) at 1 by lia. cbn [Nat.add].
  rewrite repeat_app, skipn_app, skipn_all2 by (rewrite repeat_length; lia).
  rewrite repeat_length, Nat.sub_diag. reflexivity.
Qed.
Lemma put_filled2 (a m : list A) ins n : length a + ins + length m <= n ->
  put (length a + ins) (map Some m) (map Some a ++ repeat None (n - length a)) = filled a m ins n.
Proof.
  intros H. unfold filled.
  replace (n - length a) with (ins + (length m + (n - (length a + ins + length m)))) by lia.
  rewrite !repeat_app.
  replace (map Some a ++ repeat None ins ++ repeat None (length m) ++ repeat None (n - (length a + ins + length m)))
    with ((map Some a ++ repeat None ins) ++ repeat None (length m) ++ repeat None (n - (length a + ins + length m)))
    by (rewrite <- app_assoc; reflexivity).
  replace (length a + ins) with (length (map Some a ++ repeat (@None A) ins))
    by (rewrite app_length, map_length, repeat_length; reflexivity).
  rewrite put_mid by (rewrite map_length, repeat_length; reflexivity).
  rewrite app_length, map_length, repeat_length.
  rewrite <- app_assoc. reflexivity.
Qed.

(** Memory ranges of the old contents. *)
Lemma read_a v h q (a d m x : list A) rest :
  slots_at v h q = Ok (map Some (a ++ d ++ m ++ x) ++ rest) ->
  read_range v h q 0 (length a) = Ok (map Some a).
Proof.
  intros H. rewrite !map_app, <- !app_assoc in H.
  rewrite <- (map_length Some a). apply (read_range_mid _ _ _ [] _ _ H).
Qed.
Lemma read_m v h q (a d m x : list A) rest :
  slots_at v h q = Ok (map Some (a ++ d ++ m ++ x) ++ rest) ->
  read_range v h q (length a + length d) (length m) = Ok (map Some m).
Proof.
  intros H. rewrite !map_app, <- !app_assoc in H.
  rewrite <- (map_length Some a), <- (map_length Some d), <- (map_length Some m), <- app_length.
  rewrite app_assoc in H. apply (read_range_mid _ _ _ _ _ _ H).
Qed.

Lemma two_piece_copy v h p q (a d m x : list A) rest ins n :
  p <> q ->
  slots_at v h q = Ok (map Some (a ++ d ++ m ++ x) ++ rest) ->
  slots_at v h p = Ok (repeat None n) ->
  length a + ins + length m <= n ->
  (let! (v, h) := copy_ctor e v h p 0 q 0 (length a) in
   copy_ctor e v h p (length a + ins) q (length a + length d) (length m))
  = Ok (store v h p (filled a m ins n)).
Proof.
  intros N HQ HP L. unfold copy_ctor at 1. rewrite (read_a _ _ _ _ _ _ _ _ HQ). cbn [rbind].
  rewrite live_map, orb_true_r.
  erewrite construct_ok; [|exact HP|rewrite map_length, repeat_length; lia|].
  2:{ intros _. apply raw_firstn, raw_skipn, raw_repeat. }
  rewrite put_filled1 by lia. cbn [rbind].
  pose proof (slots_store v h p _ (map Some a ++ repeat None (n - length a)) HP) as S1.
  pose proof (slots_store_other v h p q (map Some a ++ repeat None (n - length a)) N) as S2.
  pose proof (fun s2 => store_store v h p _ (map Some a ++ repeat None (n - length a)) s2 HP) as SS.
  destruct (store v h p (map Some a ++ repeat None (n - length a))) as [v1 h1]. cbn [fst snd] in *.
  rewrite HQ in S2. unfold copy_ctor. rewrite (read_m _ _ _ _ _ _ _ _ S2). cbn [rbind].
  rewrite live_map, orb_true_r.
  erewrite construct_ok; [|exact S1| |].
  - rewrite put_filled2 by lia. rewrite SS. reflexivity.
  - rewrite !app_length, !map_length, repeat_length. lia.
  - intros _. apply raw_firstn. rewrite skipn_app, skipn_all2 by (rewrite map_length; lia).
    apply raw_skipn, raw_repeat.
Qed.

(** Trivial relocation does the same. *)
Lemma two_piece_move_trivial v h p q (a d m x : list A) rest ins n :
  TRIVIAL e = true -> p <> q ->
  slots_at v h q = Ok (map Some (a ++ d ++ m ++ x) ++ rest) ->
  slots_at v h p = Ok (repeat None n) ->
  length a + ins + length m <= n ->
  relocate e v h (length a) (length d) ins (length x) p q (length (a ++ d ++ m ++ x))
  = Ok (store v h p (filled a m ins n)).
Proof.
  intros T N HQ HP L. unfold relocate, mem_move at 1. rewrite (read_a _ _ _ _ _ _ _ _ HQ). cbn [rbind].
  rewrite T.
  erewrite write_range_ok; [|exact HP|rewrite map_length, repeat_length; lia].
  rewrite put_filled1 by lia. cbn [rbind].
  pose proof (slots_store v h p _ (map Some a ++ repeat None (n - length a)) HP) as S1.
  pose proof (slots_store_other v h p q (map Some a ++ repeat None (n - length a)) N) as S2.
  pose proof (fun s2 => store_store v h p _ (map Some a ++ repeat None (n - length a)) s2 HP) as SS.
  destruct (store v h p (map Some a ++ repeat None (n - length a))) as [v1 h1]. cbn [fst snd] in *.
  rewrite HQ in S2. unfold mem_move.
  replace (length (a ++ d ++ m ++ x) - (length a + length d + length x)) with (length m)
    by (rewrite !app_length; lia).
  rewrite (read_m _ _ _ _ _ _ _ _ S2). cbn [rbind]. rewrite T.
  erewrite write_range_ok; [|exact S1|rewrite !app_length, !map_length, repeat_length; lia].
  rewrite put_filled2 by lia. rewrite SS. reflexivity.
Qed.

(** Non-trivial relocation between two different blocks empties the source. *)
Lemma store_comm v h b b' s s' : b <> b' ->
  store (fst (store v h (PBlk b) s)) (snd (store v h (PBlk b) s)) (PBlk b') s' =
  store (fst (store v h (PBlk b') s')) (snd (store v h (PBlk b') s')) (PBlk b) s.
Proof.
  intros N. cbn [store].
  assert (HC : forall k k', hset (hset h b k) b' k' = hset (hset h b' k') b k).
  { intros k k'. apply list_ext. intros i.
    destruct (Nat.eq_dec i b) as [->|N1].
    - rewrite hset_neq by congruence. destruct (Nat.lt_ge_cases b (length h)).
      + rewrite !hset_eq by (rewrite ?hset_length; lia). reflexivity.
      + rewrite !(proj2 (nth_error_None _ _)); auto; rewrite ?hset_length; auto.
    - rewrite (hset_neq _ b) by congruence. destruct (Nat.eq_dec i b') as [->|N2].
      + destruct (Nat.lt_ge_cases b' (length h)).
        * rewrite !hset_eq by (rewrite ?hset_length; lia). reflexivity.
        * rewrite !(proj2 (nth_error_None _ _)); auto; rewrite ?hset_length; auto.
      + rewrite !hset_neq by congruence. reflexivity. }
  destruct (nth_error h b) as [[k|]|] eqn:E, (nth_error h b') as [[k'|]|] eqn:E'; cbn [fst snd];
    rewrite ?hset_neq by congruence; rewrite ?E, ?E'; cbn [fst snd]; rewrite ?HC; try reflexivity.
Qed.

Lemma two_piece_move_nontrivial v h b b' (a m : list A) (D R : list (option A)) ins n del x old_size :
  TRIVIAL e = false -> b <> b' ->
  slots_at v h (PBlk b') = Ok (map Some a ++ D ++ map Some m ++ R) ->
  raw_list D -> raw_list R -> length D = del ->
  slots_at v h (PBlk b) = Ok (repeat None n) ->
  length a + ins + length m <= n ->
  old_size - (length a + del + x) = length m ->
  let st := store v h (PBlk b') (repeat None (length a) ++ D ++ repeat None (length m) ++ R) in
  relocate e v h (length a) del ins x (PBlk b) (PBlk b') old_size
  = Ok (store (fst st) (snd st) (PBlk b) (filled a m ins n)).
Proof.
  intros T N HQ RD RR LD HP L EM st. subst del. unfold relocate, mem_move at 1.
  assert (N' : PBlk b' <> PBlk b) by congruence.
  assert (N'' : PBlk b <> PBlk b') by congruence.
  assert (RA : read_range v h (PBlk b') 0 (length a) = Ok (map Some a)).
  { rewrite <- (map_length Some a) at 1. apply (read_range_mid _ _ _ [] _ _ HQ). }
  rewrite RA. cbn [rbind]. rewrite T, live_map.
  set (Q1 := repeat None (length a) ++ D ++ map Some m ++ R).
  assert (W1 : write_range v h (PBlk b') 0 (repeat None (length a)) = Ok (store v h (PBlk b') Q1)).
  { erewrite write_range_ok; [|exact HQ|rewrite repeat_length, !app_length, map_length; lia].
    do 2 f_equal. unfold Q1. apply (put_mid [] (map Some a)). rewrite repeat_length, map_length. reflexivity. }
  rewrite W1.
  pose proof (slots_store v h (PBlk b') _ Q1 HQ) as SQ1.
  pose proof (slots_store_other v h (PBlk b') (PBlk b) Q1 N') as SP1. rewrite HP in SP1.
  pose proof (fun s2 => store_store v h (PBlk b') _ Q1 s2 HQ) as SSQ.
  destruct (store v h (PBlk b') Q1) as [v1 h1] eqn:ST1. cbn [fst snd] in SQ1, SP1, SSQ. cbn [rbind].
  erewrite construct_ok; [|exact SP1|rewrite map_length, repeat_length; lia|].
  2:{ intros _. apply raw_firstn, raw_skipn, raw_repeat. }
  rewrite put_filled1 by lia.
  set (P1 := map Some a ++ repeat None (n - length a)).
  pose proof (slots_store v1 h1 (PBlk b) _ P1 SP1) as SP2.
  pose proof (slots_store_other v1 h1 (PBlk b) (PBlk b') P1 N'') as SQ2. rewrite SQ1 in SQ2.
  pose proof (store_comm v1 h1 b b' P1 (repeat None (length a) ++ D ++ repeat None (length m) ++ R) N) as CM.
  destruct (store v1 h1 (PBlk b) P1) as [v2 h2] eqn:ST2. cbn [fst snd] in SP2, SQ2, CM. cbn [rbind].
  rewrite EM. unfold mem_move.
  assert (RM : read_range v2 h2 (PBlk b') (length a + length D) (length m) = Ok (map Some m)).
  { unfold Q1 in SQ2. rewrite app_assoc in SQ2.
    replace (length a + length D) with (length (repeat (@None A) (length a) ++ D)) by (rewrite app_length, repeat_length; reflexivity).
    rewrite <- (map_length Some m). apply (read_range_mid _ _ _ _ _ _ SQ2). }
  rewrite RM. cbn [rbind]. rewrite T, live_map.
  assert (W2 : write_range v2 h2 (PBlk b') (length a + length D) (repeat None (length m)) =
     Ok (store v2 h2 (PBlk b') (repeat None (length a) ++ D ++ repeat None (length m) ++ R))).
  { erewrite write_range_ok; [|exact SQ2|].
    - do 2 f_equal. unfold Q1. rewrite app_assoc.
      replace (length a + length D) with (length (repeat (@None A) (length a) ++ D)) by (rewrite app_length, repeat_length; reflexivity).
      rewrite put_mid by (rewrite repeat_length, map_length; reflexivity). rewrite <- app_assoc. reflexivity.
    - unfold Q1. rewrite !app_length, !repeat_length, map_length. lia. }
  rewrite W2, CM. cbn [rbind]. rewrite SSQ. fold st.
  (* final construct *)
  assert (SP3 : slots_at (fst st) (snd st) (PBlk b) = Ok (repeat None n)).
  { unfold st. rewrite slots_store_other by congruence. exact HP. }
  pose proof (slots_store (fst st) (snd st) (PBlk b) _ P1 SP3) as SP4.
  pose proof (fun s2 => store_store (fst st) (snd st) (PBlk b) _ P1 s2 SP3) as SS4.
  destruct (store (fst st) (snd st) (PBlk b) P1) as [v4 h4]. cbn [fst snd] in SP4, SS4.
  erewrite construct_ok; [|exact SP4| |].
  - unfold P1. rewrite put_filled2 by lia. rewrite SS4. reflexivity.
  - unfold P1. rewrite !app_length, !map_length, repeat_length. lia.
  - intros _. apply raw_firstn. unfold P1. rewrite skipn_app, skipn_all2 by (rewrite map_length; lia).
    apply raw_skipn, raw_repeat.
Qed.

(** ** Postcondition *)
Definition splice_post (vs : list (vec (A:=A) * list (option A))) (a m : list A) (ins push : nat)
  (old_size : nat) (must_own : Prop) (r : spliced) : Prop :=
  exists X Y, length X = ins /\ length Y = push /\
    (TRIVIAL e = false -> raw_list X /\ raw_list Y) /\
    Inv (s_heap r) ((s_vec r, map Some a ++ X ++ map Some m ++ Y) :: vs) /\
    (s_ptr r = data (s_vec r) \/ (ins = 0 /\ push = 0)) /\
    ((0 < ins + push)%nat \/ must_own -> (Z.of_nat (s_new r) <= vcapa (s_vec r))%Z) /\
    s_old r = old_size /\ s_new r = length a + ins + length m + push.

Lemma hold_ok h v vs (a d m q : list A) ins push M :
  let l := a ++ d ++ m ++ q in
  let new_size := length a + ins + length m + push in
  Inv h ((v, map Some l) :: vs) -> (Z.of_nat new_size <= vcapa v)%Z ->
  exists r, hold_ground e false (length a) (length d) ins (length q) (length l) new_size (data v) v h = Ok r /\
    splice_post vs a m ins push (length l) M r.
Proof.
  intros l new_size I LC. pose proof (inv_rep _ _ _ I _ _ (or_introl eq_refl)) as V.
  unfold hold_ground.
  destruct (data v) as [|b|] eqn:DV.
  3:{ (* empty, unallocated *)
    destruct (vrep_null_facts e He _ _ _ V DV) as (E0 & C0 & Ev).
    apply map_eq_nil in E0. unfold l in E0. apply app_eq_nil in E0 as [Ea E0].
    apply app_eq_nil in E0 as [Ed E0]. apply app_eq_nil in E0 as [Em Eq]. subst a d m q.
    rewrite C0 in LC. unfold new_size in *. cbn [length] in *.
    assert (ins = 0 /\ push = 0) as [-> ->] by lia.
    cbn [app] in l. unfold l in *. cbn [length]. rewrite !destroy_0. cbn [rbind].
    rewrite Nat.sub_0_r, destroy_0. cbn [rbind Nat.eqb].
    eexists. split; [reflexivity|]. exists [], []. cbn.
    split; [reflexivity|]. split; [reflexivity|]. split; [intros _; split; constructor|].
    assert (WS : write_size e 0 v = v).
    { subst v. unfold write_size. unfold VecModel.data in DV. cbn in *.
      destruct (is_small e 0); [discriminate|reflexivity]. }
    rewrite WS. split; [exact I|]. split; [left; auto|]. split; [intros _; lia|]. auto. }
  all: assert (NN : data v <> PNull) by (rewrite DV; discriminate).
  all: destruct (vrep_slots e He _ _ _ V NN) as (rest & SL & RW & CL); rewrite DV in SL.
  all: specialize (CL ltac:(lia)).
  all: destruct (hold_mem e v h _ a d m q rest ins SL RW) as (X & R' & E & LX & LL & RX);
    [rewrite app_length, map_length in *; fold l; unfold new_size in *; lia|].
  all: fold l in E.
  all: destruct (let! (v, h) := destroy_range e v h _ (length a) (length d) in _) as [[v1 h1]| |] eqn:E1;
    cbn [rbind] in E |- *; try discriminate; rewrite E; cbn [rbind].
  all: assert (LR : push <= length R') by
     (rewrite !app_length, !map_length in *; fold l in LL; unfold new_size in *; lia).
  all: set (Y := firstn push R'); set (R2 := skipn push R').
  all: assert (SP : map Some a ++ X ++ map Some m ++ R' = (map Some a ++ X ++ map Some m ++ Y) ++ R2)
     by (unfold Y, R2; rewrite <- !app_assoc, firstn_skipn; reflexivity).
  all: assert (LY : length Y = push) by (unfold Y; rewrite firstn_length; lia).
  all: assert (LS1 : length (map Some a ++ X ++ map Some m ++ Y) = new_size)
     by (rewrite !app_length, !map_length; unfold new_size; lia).
  all: destruct (Inv_store e He h v (map Some l) vs (map Some l ++ rest)
                  (map Some a ++ X ++ map Some m ++ Y) R2 I) as (I' & D' & C');
    [lia|exact NN|rewrite DV; exact SL|rewrite <- SP; exact LL|rewrite LS1; exact LC
    |intros T; unfold R2; apply raw_skipn; apply RX; exact T|].
  all: rewrite DV, <- SP, LS1 in I', D', C'.
  all: destruct (store v h _ (map Some a ++ X ++ map Some m ++ R')) as [v2 h2]; cbn [fst snd] in I', D', C'.
  all: eexists; split; [reflexivity|].
  all: exists X, Y; cbn [s_heap s_vec s_ptr s_new s_old].
  all: split; [exact LX|]; split; [exact LY|].
  all: split; [intros T; split; [apply RX; exact T|unfold Y; apply raw_firstn; apply RX; exact T]|].
  all: split; [exact I'|]; split; [left; symmetry; exact D'|].
  all: split; [intros _; rewrite C'; exact LC|]; split; reflexivity.
Qed.
End Splice.
