(** Every vec operation, against the invariant and a list. *)
From Verif Require Import VecModel VecPackProofs ArcProofs CommonLemmas VecMem VecInv VecSplice VecSplice2 VecSplice3 WordsLemmas.
From Coq Require Import Permutation.
Open Scope nat_scope.

(** No undefined behaviour; the process may exit (allocator), otherwise P holds. *)
Definition runs {X} (r : res X) (P : X -> Prop) : Prop := r = Exit \/ exists x, r = Ok x /\ P x.
Lemma runs_bind {X Y} (r : res X) (k : X -> res Y) P Q :
  runs r P -> (forall x, P x -> runs (k x) Q) -> runs (let! x := r in k x) Q.
Proof. intros [->|(x & -> & Hx)] H; [left; reflexivity|]. cbn. apply H. exact Hx. Qed.
Lemma runs_ok {X} (x : X) (P : X -> Prop) : P x -> runs (Ok x) P.
Proof. intros H. right. eauto. Qed.
Lemma runs_mono {X} (r : res X) (P Q : X -> Prop) : runs r P -> (forall x, P x -> Q x) -> runs r Q.
Proof. intros [->|(x & -> & Hx)] H; [left; reflexivity|right; eauto]. Qed.
Lemma runs_exists {X} (r : res X) (P : X -> Prop) : (exists x, r = Ok x /\ P x) -> runs r P.
Proof. right. assumption. Qed.

Section Api.
Context {A : Type} (dflt : A) (e : elt) (He : (0 < esz e < 2 ^ 31)%Z).
Implicit Types (h : heap (A:=A)) (v w : vec (A:=A)) (p : ptr) (S : list (option A)).
Local Notation size := (size e).
Local Notation data := (data e).
Local Notation vcapa := (vcapa e).
Local Notation Inv := (Inv e).

(** ** Overwriting slots in place, without changing the size *)
Lemma Inv_put h v S vs s S1 rest1 :
  Inv h ((v, S) :: vs) -> (0 <= vcapa v)%Z -> data v <> PNull ->
  slots_at v h (data v) = Ok s -> length (S1 ++ rest1) = length s -> length S1 = length S ->
  (TRIVIAL e = false -> raw_list rest1) ->
  let r := store v h (data v) (S1 ++ rest1) in
  Inv (snd r) ((fst r, S1) :: vs) /\ data (fst r) = data v /\ vcapa (fst r) = vcapa v.
Proof.
  intros [I1 I2 I3 I4 I5] C N SL LL LS RAW r.
  pose proof (I1 v S (or_introl eq_refl)) as V.
  destruct V as [rest HS (W & Sm & Sz) Hd Hz Hb L|HS Hp Hd Hz Hb HS0|b c sh k rest Hd Hz Hp B Hsh Hn Hs Hc R Hb].
  - assert (D : data v = PThis) by (unfold VecModel.data; rewrite Sm; reflexivity).
    unfold r. rewrite D in *. cbn [store fst snd] in *. cbn in SL. injection SL as <-.
    split; [|split; [rewrite <- D; apply data_setbuf|reflexivity]].
    constructor.
    + intros v' S' [E|H]; [|apply I1; right; exact H]. injection E as <- <-.
      eapply vrep_small with (rest := rest1); cbn; auto; try congruence.
      split; [auto|]. split; [auto|congruence].
    + intros b k H. rewrite <- (I2 b k H), !refs_cons. reflexivity.
    + intros v' S' b [E|H] E' C'.
      * injection E as <- <-. cbn in E'. congruence.
      * rewrite <- (I3 v' S' b (or_intror H) E' C'), !refs_cons. reflexivity.
    + exact I4.
    + eapply empt_same; [| |exact I5]; [reflexivity|].
      split; intros E0; rewrite E0 in LS; cbn [length] in LS; apply length_zero_iff_nil; congruence.
  - exfalso. apply N. unfold VecModel.data, is_small. rewrite HS, Hd. reflexivity.
  - assert (NSm : is_small e (v_pack v) = false) by (rewrite Hp; apply bigword_not_small; auto; lia).
    assert (D : data v = PBlk b) by (unfold VecModel.data; rewrite NSm, Hd; reflexivity).
    unfold r. rewrite D in *. cbn [store] in *. rewrite Hn in *. cbn [fst snd].
    cbn in SL. rewrite (get_block_ok _ _ _ Hn) in SL. cbn in SL. injection SL as <-.
    pose proof (I3 v S b (or_introl eq_refl) Hd C) as U.
    rewrite refs_cons in U. cbn [fst] in U. unfold points_to in U at 1. rewrite Hd, Nat.eqb_refl in U.
    assert (U0 : refs vs b = 0) by lia.
    assert (Lb : b < length h) by (apply nth_error_lt in Hn; exact Hn).
    split; [|auto].
    constructor.
    + intros v' S' [E|H].
      * injection E as <- <-. eapply vrep_big with (b := b) (c := c) (sh := sh) (rest := rest1);
          [exact Hd|congruence|exact Hp|exact B|exact Hsh|apply hset_eq; exact Lb|reflexivity| |exact RAW|exact Hb].
        cbn [b_slots]. rewrite LL. lia.
      * apply (vrep_frame e h); [apply I1; right; exact H|]. intros b' E.
        apply hset_neq. intros ->. eapply refs_0; eauto.
    + intros b' k' H. rewrite refs_cons. cbn [fst].
      destruct (Nat.eq_dec b' b) as [->|Nb].
      * rewrite hset_eq in H by exact Lb. injection H as <-. cbn.
        rewrite <- (I2 b k Hn), refs_cons. reflexivity.
      * rewrite hset_neq in H by exact Nb. rewrite <- (I2 b' k' H), refs_cons. reflexivity.
    + intros v' S' b' [E|H] E' C'.
      * injection E as <- <-. rewrite <- (I3 v S b' (or_introl eq_refl) E' C'), !refs_cons. reflexivity.
      * rewrite <- (I3 v' S' b' (or_intror H) E' C'), !refs_cons. reflexivity.
    + apply pos_hset; [exact I4|]. intros k0 E0. injection E0 as <-. cbn. eauto.
    + eapply empt_same; [| |exact I5]; [reflexivity|].
      split; intros E0; rewrite E0 in LS; cbn [length] in LS; apply length_zero_iff_nil; congruence.
Qed.

(** Constructing elements in a gap. *)
Lemma fill_gap h v vs (x y z l : list (option A)) p :
  Inv h ((v, x ++ y ++ z) :: vs) -> (Z.of_nat (length (x ++ y ++ z)) <= vcapa v)%Z ->
  p = data v \/ y = [] -> length l = length y -> (TRIVIAL e = false -> raw_list y) ->
  exists v' h', construct_range e v h p (length x) l = Ok (v', h') /\
    Inv h' ((v', x ++ l ++ z) :: vs) /\ data v' = data v /\ vcapa v' = vcapa v.
Proof.
  intros I LC HP LL RY.
  destruct y as [|y0 y'].
  - destruct l; [|discriminate]. exists v, h. unfold construct_range. cbn [length].
    rewrite read_range_0. cbn. rewrite orb_true_r. auto.
  - destruct HP as [->|]; [|discriminate].
    pose proof (inv_rep _ _ _ I _ _ (or_introl eq_refl)) as V.
    destruct (data v) as [|b|] eqn:DV.
    3:{ destruct (vrep_null_facts e He _ _ _ V DV) as (E0 & _). destruct x; discriminate. }
    all: assert (NN : data v <> PNull) by (rewrite DV; discriminate).
    all: destruct (vrep_slots e He _ _ _ V NN) as (rest & SL & RW & CL); rewrite DV in SL.
    all: rewrite <- !app_assoc in SL.
    all: rewrite (construct_mid e _ _ _ _ _ _ l SL) by (auto; congruence).
    all: destruct (Inv_put h v _ vs (x ++ (y0 :: y') ++ z ++ rest) (x ++ l ++ z) rest I) as (I' & D' & C');
      [lia|exact NN|rewrite DV; exact SL
      |rewrite !app_length in *; lia|rewrite !app_length in *; lia|exact RW|].
    all: rewrite DV, <- !app_assoc in I', D', C'.
    all: destruct (store v h _ _) as [v2 h2]; cbn [fst snd] in *.
    all: exists v2, h2; split; [reflexivity|]; split; [exact I'|]; split; [first [exact D'|congruence]|exact C'].
Qed.

(** A one-gap splice followed by construction. *)
Lemma post_fill_ins h vs (a m : list A) (l : list (option A)) old M r :
  splice_post e vs a m (length l) 0 old M r -> h = s_heap r ->
  exists v' h', construct_range e (s_vec r) h (s_ptr r) (length a) l = Ok (v', h') /\
    Inv h' ((v', map Some a ++ l ++ map Some m) :: vs).
Proof.
  intros (X & Y & LX & LY & RXY & I & HP & HC & HO & HN) ->.
  destruct Y; [|discriminate]. rewrite app_nil_r in I.
  destruct l as [|l0 l'].
  - destruct X; [|discriminate]. exists (s_vec r), (s_heap r). unfold construct_range. cbn [length].
    rewrite read_range_0. cbn. rewrite orb_true_r. auto.
  - destruct (fill_gap _ _ _ (map Some a) X (map Some m) (l0 :: l') (s_ptr r) I) as (v' & h' & E & I' & _).
    + cbn [length] in HC. rewrite !app_length, !map_length, LX.
      assert (Z.of_nat (s_new r) <= vcapa (s_vec r))%Z by (apply HC; left; lia). lia.
    + destruct HP as [HP|[HP _]]; [left; exact HP|discriminate].
    + auto.
    + intros T. apply RXY; exact T.
    + rewrite map_length in E. eauto.
Qed.
Lemma post_fill_push h vs (a : list A) (l : list (option A)) old M r :
  splice_post e vs a [] 0 (length l) old M r -> h = s_heap r ->
  exists v' h', construct_range e (s_vec r) h (s_ptr r) (length a) l = Ok (v', h') /\
    Inv h' ((v', map Some a ++ l) :: vs).
Proof.
  intros (X & Y & LX & LY & RXY & I & HP & HC & HO & HN) ->.
  destruct X; [|discriminate]. cbn [app map] in I.
  destruct l as [|l0 l'].
  - destruct Y; [|discriminate]. exists (s_vec r), (s_heap r). unfold construct_range. cbn [length].
    rewrite read_range_0. cbn. rewrite orb_true_r. auto.
  - rewrite <- (app_nil_r Y) in I.
    destruct (fill_gap _ _ _ (map Some a) Y [] (l0 :: l') (s_ptr r) I) as (v' & h' & E & I' & _).
    + cbn [length] in HC. rewrite !app_length, !map_length, LY. cbn [length] in *.
      assert (Z.of_nat (s_new r) <= vcapa (s_vec r))%Z by (apply HC; left; lia). lia.
    + destruct HP as [HP|[_ HP]]; [left; exact HP|discriminate].
    + auto.
    + intros T. apply RXY; exact T.
    + rewrite map_length, app_nil_r in *. eauto.
Qed.
Lemma post_none vs (a m : list A) old M r :
  splice_post e vs a m 0 0 old M r -> Inv (s_heap r) ((s_vec r, map Some (a ++ m)) :: vs).
Proof.
  intros (X & Y & LX & LY & RXY & I & HP & HC & HO & HN).
  destruct X; [|discriminate]. destruct Y; [|discriminate].
  cbn [app] in I. rewrite app_nil_r, <- map_app in I. exact I.
Qed.

Lemma map_repeat' (x : A) n : map Some (repeat x n) = repeat (Some x) n.
Proof. induction n; cbn; congruence. Qed.

(** ** The operations.  [fits] is the precondition that sizes stay below 2^31 - 1. *)
Definition fits (n : nat) : Prop := (Z.of_nat n < 2 ^ 31 - 1)%Z.
Definition holds (vs : list (vec (A:=A) * list (option A))) (l : list A) (x : vec (A:=A) * heap (A:=A)) : Prop :=
  Inv (snd x) ((fst x, map Some l) :: vs).

Lemma split4 (l : list A) i d q : i + d + q <= length l ->
  l = firstn i l ++ firstn d (skipn i l) ++ firstn (length l - (i + d + q)) (skipn (i + d) l) ++ skipn (length l - q) l.
Proof.
  intros H. rewrite <- (firstn_skipn i l) at 1. f_equal.
  rewrite <- (firstn_skipn d (skipn i l)) at 1. f_equal.
  rewrite skipn_skipn_add.
  rewrite <- (firstn_skipn (length l - (i + d + q)) (skipn (i + d) l)) at 1. f_equal.
  rewrite skipn_skipn_add. f_equal. lia.
Qed.

(** Splice with all arguments in range. *)
Lemma splice_run h v vs l resv i d n q k :
  Inv h ((v, map Some l) :: vs) -> i + d + q <= length l -> fits (length l + n + k) ->
  runs (splice_ e false false resv i d n q k v h)
       (splice_post e vs (firstn i l) (firstn (length l - (i + d + q)) (skipn (i + d) l)) n k (length l) (resv = true)).
Proof.
  intros I L F.
  pose proof (split4 l i d q L) as E.
  pose proof I as I0. rewrite E in I0.
  assert (La : length (firstn i l) = i) by (rewrite firstn_length; lia).
  assert (Ld : length (firstn d (skipn i l)) = d) by (rewrite firstn_length, skipn_length; lia).
  assert (Lq : length (skipn (length l - q) l) = q) by (rewrite skipn_length; lia).
  pose proof (splice_ok e He h v vs (firstn i l) (firstn d (skipn i l))
    (firstn (length l - (i + d + q)) (skipn (i + d) l)) (skipn (length l - q) l) resv i d n q k I0) as P.
  cbv zeta in P. rewrite <- E, La, Ld, Lq in P.
  apply P; auto; lia.
Qed.

Lemma resplit (l : list A) i d : i + d <= length l ->
  firstn (length l - (i + d + 0)) (skipn (i + d) l) = skipn (i + d) l.
Proof. intros H. apply firstn_all2. rewrite skipn_length. lia. Qed.

(** Nothing inserted in the middle: the kept pieces are adjacent. *)
Lemma post_join vs (a m : list A) k old M r :
  splice_post e vs a m 0 k old M r -> splice_post e vs (a ++ m) [] 0 k old M r.
Proof.
  intros (X & Y & LX & LY & RXY & I1 & HP & HC & HO & HN). exists X, Y.
  destruct X; [|discriminate]. rewrite app_length. cbn [app map length] in *. rewrite map_app, <- app_assoc.
  split; [auto|]. split; [auto|]. split; [exact RXY|]. split; [exact I1|]. split; [exact HP|].
  split; [exact HC|]. split; [exact HO|]. lia.
Qed.

Ltac simp_pieces :=
  cbn [Nat.add firstn skipn]; rewrite ?Nat.sub_0_r, ?Nat.add_0_r.

Lemma post_old vs (a m : list A) n k old M r : splice_post e vs a m n k old M r -> s_old r = old.
Proof. intros (X & Y & LX & LY & RXY & I1 & HP & HC & HO & HN). exact HO. Qed.

(** push *)
Lemma push_run h v vs l x : Inv h ((v, map Some l) :: vs) -> fits (length l + 1) ->
  runs (push e x v h) (holds vs (l ++ [x])).
Proof.
  intros I F. unfold push.
  eapply runs_bind; [apply (splice_run h v vs l false 0 0 0 0 1 I); [lia|rewrite Nat.add_0_r; exact F]|].
  simp_pieces. rewrite firstn_all. intros r P. apply post_join in P. cbn [app] in P.
  assert (HO : s_old r = length l) by exact (post_old _ _ _ _ _ _ _ _ P). rewrite HO.
  destruct (post_fill_push _ _ _ [Some x] _ _ _ P eq_refl) as (v' & h' & E & I').
  rewrite E. apply runs_ok. unfold holds. cbn. rewrite map_app. exact I'.
Qed.

(** insert *)
Lemma insert_run h v vs l i x : Inv h ((v, map Some l) :: vs) -> i <= length l -> fits (length l + 1) ->
  runs (insert e i x v h) (holds vs (firstn i l ++ x :: skipn i l)).
Proof.
  intros I L F. unfold insert.
  eapply runs_bind; [apply (splice_run h v vs l false i 0 1 0 0 I); [lia|rewrite Nat.add_0_r; exact F]|].
  simp_pieces. rewrite (firstn_all2 (skipn i l)) by (rewrite skipn_length; lia). intros r P.
  destruct (post_fill_ins _ _ _ _ [Some x] _ _ _ P eq_refl) as (v' & h' & E & I').
  rewrite firstn_length, Nat.min_l in E by lia.
  rewrite E. apply runs_ok. unfold holds. cbn. rewrite map_app. exact I'.
Qed.
Lemma unshift_run h v vs l x : Inv h ((v, map Some l) :: vs) -> fits (length l + 1) ->
  runs (unshift e x v h) (holds vs (x :: l)).
Proof. intros I F. exact (insert_run h v vs l 0 x I (Nat.le_0_l _) F). Qed.

(** splice(idx, del) and friends *)
Lemma cut_run h v vs l i d q : Inv h ((v, map Some l) :: vs) -> i + d + q <= length l -> fits (length l) ->
  runs (let! s := splice_ e false false false i d 0 q 0 v h in fin s)
    (holds vs (firstn i l ++ firstn (length l - (i + d + q)) (skipn (i + d) l))).
Proof.
  intros I L F. eapply runs_bind; [apply (splice_run h v vs l false i d 0 q 0 I); [lia|rewrite !Nat.add_0_r; exact F]|].
  intros r P. apply runs_ok. unfold holds. cbn. eapply post_none. exact P.
Qed.

(** Arguments out of range are clamped. *)
Lemma splice_clamp resv i d n q k v h : exists i' d' q',
  i' = Nat.min i (size v) /\ d' = Nat.min d (size v - i') /\ q' = Nat.min q (size v - i' - d') /\
  splice_ e false false resv i d n q k v h = splice_ e false false resv i' d' n q' k v h.
Proof.
  do 3 eexists. split; [reflexivity|]. split; [reflexivity|]. split; [reflexivity|].
  unfold splice_. cbv zeta.
  set (sz := VecModel.size e v). set (i' := Nat.min i sz). set (d' := Nat.min d (sz - i')).
  set (q' := Nat.min q (sz - i' - d')).
  replace (Nat.min i' sz) with i' by (unfold i'; lia).
  replace (Nat.min d' (sz - i')) with d' by (unfold d'; lia).
  replace (Nat.min q' (sz - i' - d')) with q' by (unfold q'; lia). reflexivity.
Qed.

Lemma Inv_size h v vs l : Inv h ((v, map Some l) :: vs) -> size v = length l.
Proof.
  intros I. rewrite (vrep_size e He _ _ _ (inv_rep _ _ _ I _ _ (or_introl eq_refl))). apply map_length.
Qed.

Lemma splice_del_run h v vs l i d : Inv h ((v, map Some l) :: vs) -> fits (length l) ->
  runs (splice_del e i d v h) (holds vs (firstn i l ++ skipn (i + d) l)).
Proof.
  intros I F. unfold splice_del.
  destruct (splice_clamp false i d 0 0 0 v h) as (i' & d' & q' & Ei & Ed & Eq & ->).
  rewrite (Inv_size _ _ _ _ I) in *. cbn in Eq. subst q'.
  eapply runs_mono; [apply (cut_run h v vs l i' d' 0 I); [lia|exact F]|].
  intros x H. rewrite resplit in H by lia.
  replace (firstn i l) with (firstn i' l).
  2:{ subst i'. destruct (Nat.le_gt_cases i (length l)); [rewrite Nat.min_l by lia; reflexivity|].
      rewrite Nat.min_r, firstn_all, firstn_all2 by lia. reflexivity. }
  replace (skipn (i + d) l) with (skipn (i' + d') l); [exact H|].
  destruct (Nat.le_gt_cases (length l) (i + d)).
  - rewrite !skipn_all2 by lia. reflexivity.
  - f_equal. lia.
Qed.

Lemma pop_run h v vs l : Inv h ((v, map Some l) :: vs) -> fits (length l) ->
  runs (pop e v h) (holds vs (removelast l)).
Proof.
  intros I F. unfold pop. destruct l as [|x0 l0] eqn:El.
  - destruct (splice_clamp false 0 0 0 1 0 v h) as (i' & d' & q' & Ei & Ed & Eq & ->).
    rewrite (Inv_size _ _ _ _ I) in *. cbn in *. subst. cbn.
    eapply runs_mono; [apply (cut_run h v vs [] 0 0 0 I); [cbn; lia|exact F]|]. auto.
  - rewrite <- El in *. assert (1 <= length l) by (subst; cbn; lia).
    eapply runs_mono; [apply (cut_run h v vs l 0 0 1 I); [lia|exact F]|].
    simp_pieces. intros x H0. cbn [app] in H0. rewrite removelast_firstn_len.
    replace (Nat.pred (length l)) with (length l - 1) by lia. exact H0.
Qed.

Lemma shrink_run h v vs l n : Inv h ((v, map Some l) :: vs) -> fits (length l) ->
  runs (shrink e n v h) (holds vs (firstn n l)).
Proof.
  intros I F. unfold shrink. rewrite (Inv_size _ _ _ _ I).
  eapply runs_mono; [apply (cut_run h v vs l 0 0 (length l - n) I); [lia|exact F]|].
  simp_pieces. cbn [app]. intros x H.
  destruct (Nat.le_gt_cases n (length l)).
  - replace (length l - (length l - n)) with n in H by lia. exact H.
  - rewrite firstn_all2 by lia. replace (length l - (length l - n)) with (length l) in H by lia.
    rewrite firstn_all in H. exact H.
Qed.

(** [shift_pop n m]: n from the left, then at most m from the right. *)
Lemma shift_pop_run h v vs l n m : Inv h ((v, map Some l) :: vs) -> fits (length l) ->
  runs (shift_pop e n m v h) (holds vs (firstn (length l - n - m) (skipn n l))).
Proof.
  intros I F. unfold shift_pop.
  destruct (splice_clamp false 0 n 0 m 0 v h) as (i' & d' & q' & Ei & Ed & Eq & ->).
  rewrite (Inv_size _ _ _ _ I) in *. cbn [Nat.min] in Ei. subst i'. rewrite Nat.sub_0_r in Ed, Eq.
  eapply runs_mono; [apply (cut_run h v vs l 0 d' q' I); [lia|exact F]|].
  simp_pieces. cbn [app]. intros x H.
  replace (skipn n l) with (skipn d' l).
  2:{ destruct (Nat.le_gt_cases n (length l)); [f_equal; lia|]. rewrite !skipn_all2 by lia. reflexivity. }
  replace (length l - n - m) with (length l - (d' + q')) by lia. exact H.
Qed.

Lemma clear_run h v vs l : Inv h ((v, map Some l) :: vs) -> fits (length l) ->
  runs (clear e v h) (holds vs []).
Proof.
  intros I F. unfold clear. destruct (splice_clear_ok e He h v vs l I F) as (s & E & I').
  rewrite E. apply runs_ok. exact I'.
Qed.

(** resize / grow *)
Lemma grow_run h v vs l n : Inv h ((v, map Some l) :: vs) -> fits (length l) -> fits n ->
  runs (grow dflt e n v h) (holds vs (l ++ repeat dflt (n - length l))).
Proof.
  intros I F Fn. unfold grow. rewrite (Inv_size _ _ _ _ I).
  eapply runs_bind; [apply (splice_run h v vs l false 0 0 0 0 (n - length l) I); [lia|unfold fits in *; lia]|].
  simp_pieces. rewrite firstn_all. intros r P. apply post_join in P. cbn [app] in P.
  assert (HO : s_old r = length l) by exact (post_old _ _ _ _ _ _ _ _ P).
  assert (HN : s_new r = length l + (n - length l)).
  { destruct P as (X & Y & LX & LY & RXY & I1 & HP & HC & _ & HN). cbn in HN. lia. }
  rewrite HO, HN. replace (length l + (n - length l) - length l) with (n - length l) by lia.
  rewrite <- (repeat_length (Some dflt) (n - length l)) in P.
  destruct (post_fill_push _ _ _ _ _ _ _ P eq_refl) as (v' & h' & E & I').
  rewrite E. apply runs_ok. unfold holds. cbn. rewrite map_app, map_repeat'. exact I'.
Qed.

Lemma construct_nil v h p off : construct_range e v h p off [] = Ok (v, h).
Proof. unfold construct_range. cbn [length]. rewrite read_range_0. cbn. rewrite orb_true_r. reflexivity. Qed.

Lemma resize_run h v vs l n : Inv h ((v, map Some l) :: vs) -> fits (length l) -> fits n ->
  runs (resize dflt e n v h) (holds vs (firstn n l ++ repeat dflt (n - length l))).
Proof.
  intros I F Fn. destruct (Nat.le_gt_cases n (length l)) as [L|L].
  - unfold resize. rewrite (Inv_size _ _ _ _ I). replace (n - length l) with 0 by lia.
    eapply runs_bind; [apply (splice_run h v vs l false 0 0 0 (length l - n) 0 I); [lia|unfold fits in *; lia]|].
    simp_pieces. replace (length l - (length l - n)) with n by lia. intros r P.
    assert (HO : s_old r = length l) by exact (post_old _ _ _ _ _ _ _ _ P).
    assert (HN : s_new r <= length l).
    { destruct P as (X & Y & LX & LY & RXY & I1 & HP & HC & _ & HN). rewrite firstn_length in HN. cbn in HN. lia. }
    replace (s_new r - s_old r) with 0 by lia. cbn [repeat]. rewrite construct_nil. apply runs_ok.
    unfold holds. cbn [fst snd]. rewrite app_nil_r. apply post_none in P. exact P.
  - rewrite firstn_all2 by lia. pose proof (grow_run h v vs l n I F Fn) as G. unfold grow in G. unfold resize.
    rewrite (Inv_size _ _ _ _ I) in *. replace (length l - n) with 0 by lia. exact G.
Qed.

Lemma splice_empty_run h v vs l i d n : Inv h ((v, map Some l) :: vs) -> i <= length l -> fits (length l + n) ->
  runs (splice_empty dflt e i d n v h) (holds vs (firstn i l ++ repeat dflt n ++ skipn (i + d) l)).
Proof.
  intros I L F. unfold splice_empty.
  destruct (splice_clamp false i d n 0 0 v h) as (i' & d' & q' & Ei & Ed & Eq & ->).
  rewrite (Inv_size _ _ _ _ I) in *. cbn in Eq. subst q'. rewrite Nat.min_l in Ei by lia. subst i'.
  eapply runs_bind; [apply (splice_run h v vs l false i d' n 0 0 I); [lia|rewrite Nat.add_0_r; exact F]|].
  rewrite resplit by lia. intros r P.
  rewrite <- (repeat_length (Some dflt) n) in P.
  destruct (post_fill_ins _ _ _ _ _ _ _ _ P eq_refl) as (v' & h' & E & I').
  rewrite firstn_length, Nat.min_l in E by lia.
  rewrite E. apply runs_ok. unfold holds. cbn. rewrite !map_app, map_repeat'.
  replace (skipn (i + d) l) with (skipn (i + d') l); [exact I'|].
  destruct (Nat.le_gt_cases (length l) (i + d)).
  - rewrite !skipn_all2 by lia. reflexivity.
  - f_equal. lia.
Qed.

(** ** reserve *)
Lemma unshareable_capa h v S : vrep e h v S -> SHAREABLE e = false -> (0 <= vcapa v)%Z.
Proof.
  intros V SH. pose proof (small_capa_Z e He).
  destruct (v_data v) as [b|] eqn:D.
  - destruct V as [rest HS (W & Sm & Sz) Hd Hz Hb L|HS Hp Hd Hz Hb HS0|b' c sh k rest Hd Hz Hp B Hsh Hn Hs Hc R Hb];
      try congruence.
    unfold VecModel.vcapa. rewrite Hp, capa_bigword by (auto; lia). rewrite (Hsh SH). destruct B. lia.
  - rewrite (vrep_capa_nodata e _ _ _ V D). lia.
Qed.

Definition reserved (vs : list (vec (A:=A) * list (option A))) (l : list A) (n : nat) (x : vec (A:=A) * heap (A:=A)) : Prop :=
  holds vs l x /\ (Z.of_nat n <= vcapa (fst x))%Z.

Lemma reserve_run h v vs l n : Inv h ((v, map Some l) :: vs) -> fits (length l) -> fits n ->
  runs (reserve e n v h) (reserved vs l n).
Proof.
  intros I F Fn. unfold reserve. pose proof (inv_rep _ _ _ I _ _ (or_introl eq_refl)) as V.
  destruct (Z.ltb_spec (vcapa v) (Z.of_nat n)) as [C|C].
  2:{ apply runs_ok. split; [exact I|exact C]. }
  destruct (Nat.eqb_spec n 0) as [->|Nn].
  - destruct (SHAREABLE e) eqn:SH.
    2:{ pose proof (unshareable_capa _ _ _ V SH). lia. }
    eapply runs_bind; [apply (splice_run h v vs l true 0 0 0 0 0 I); [lia|rewrite !Nat.add_0_r; exact F]|].
    simp_pieces. rewrite firstn_all. intros r P. apply runs_ok. split.
    + apply post_none in P. exact P.
    + destruct P as (X & Y & LX & LY & RXY & I1 & HP & HC & HO & HN). cbn [fst].
      assert (Z.of_nat (s_new r) <= vcapa (s_vec r))%Z by (apply HC; right; reflexivity). lia.
  - rewrite (Inv_size _ _ _ _ I).
    eapply runs_bind; [apply (splice_run h v vs l true 0 0 0 0 (n - length l) I); [lia|unfold fits in *; lia]|].
    simp_pieces. rewrite firstn_all. intros r P. apply runs_ok.
    destruct P as (X & Y & LX & LY & RXY & I1 & HP & HC & HO & HN).
    destruct X; [|discriminate]. cbn [app map length] in *.
    assert (CN : (Z.of_nat (s_new r) <= vcapa (s_vec r))%Z) by (apply HC; right; reflexivity).
    assert (NN : data (s_vec r) <> PNull).
    { intros E. destruct (vrep_null_facts e He _ _ _ (inv_rep _ _ _ I1 _ _ (or_introl eq_refl)) E) as (_ & C0 & _). lia. }
    destruct (vrep_slots e He _ _ _ (inv_rep _ _ _ I1 _ _ (or_introl eq_refl)) NN) as (rest & SL & RW & CL).
    destruct (Inv_store e He _ _ _ _ _ (map Some l) (Y ++ rest) I1 ltac:(lia) NN SL) as (I2 & D2 & C2).
    + rewrite app_assoc. reflexivity.
    + rewrite map_length. lia.
    + intros T. apply raw_app. split; [apply RXY; exact T|apply RW; exact T].
    + rewrite app_assoc in I2, D2, C2. rewrite store_id in I2, D2, C2 by exact SL.
      cbn [fst snd] in *. rewrite map_length in *. rewrite HO. split; [exact I2|]. cbn [fst]. rewrite C2. lia.
Qed.

Lemma data_mut_run h v vs l : Inv h ((v, map Some l) :: vs) -> fits (length l) ->
  runs (data_mut e v h) (reserved vs l 0).
Proof.
  intros I F. unfold data_mut. destruct (SHAREABLE e) eqn:SH.
  - apply reserve_run; auto. unfold fits. lia.
  - apply runs_ok. split; [exact I|]. cbn. apply (unshareable_capa h v (map Some l)); auto.
    apply (inv_rep _ _ _ I). left; reflexivity.
Qed.

(** ** Elements *)
Lemma Inv_slots h v vs l : Inv h ((v, map Some l) :: vs) -> l <> [] ->
  exists rest, slots_at v h (data v) = Ok (map Some l ++ rest) /\ (TRIVIAL e = false -> raw_list rest).
Proof.
  intros I N. pose proof (inv_rep _ _ _ I _ _ (or_introl eq_refl)) as V.
  assert (NN : data v <> PNull).
  { intros E. destruct (vrep_null_facts e He _ _ _ V E) as (E0 & _). apply map_eq_nil in E0. contradiction. }
  destruct (vrep_slots e He _ _ _ V NN) as (rest & SL & RW & CL). eauto.
Qed.

Lemma Inv_view h v vs l : Inv h ((v, map Some l) :: vs) -> view e h v = Ok (map Some l).
Proof.
  intros I. unfold view. rewrite (Inv_size _ _ _ _ I). destruct l as [|x0 l0] eqn:E.
  - apply read_range_0.
  - rewrite <- E in *. destruct (Inv_slots _ _ _ _ I ltac:(congruence)) as (rest & SL & _).
    rewrite <- (map_length Some l). apply (read_range_mid _ _ _ [] _ _ SL).
Qed.

(** Reading a run of the vec's storage. *)
Lemma Inv_read h v vs l off n : Inv h ((v, map Some l) :: vs) -> off + n <= length l ->
  read_range v h (data v) off n = Ok (map Some (firstn n (skipn off l))).
Proof.
  intros I L. destruct n as [|n'] eqn:En; [apply read_range_0|]. rewrite <- En in *.
  destruct (Inv_slots _ _ _ _ I ltac:(destruct l; [cbn in L; lia|discriminate])) as (rest & SL & _).
  rewrite (read_range_ok _ _ _ _ off n SL) by (rewrite app_length, map_length; lia).
  rewrite skipn_app, firstn_app, map_length, skipn_map, firstn_map.
  rewrite map_length, skipn_length. replace (n - (length l - off)) with 0 by lia.
  rewrite firstn_O, app_nil_r. reflexivity.
Qed.

Lemma get_elem_run h v vs l i x : Inv h ((v, map Some l) :: vs) -> nth_error l i = Some x ->
  get_elem e i v h = Ok x.
Proof.
  intros I N. unfold get_elem. pose proof (nth_error_lt _ _ _ N) as L.
  rewrite (Inv_size _ _ _ _ I). destruct (Nat.ltb_spec i (length l)); [|lia].
  rewrite (Inv_read _ _ _ _ i 1 I) by lia. rewrite (skipn_nth_error_cons _ _ _ N). reflexivity.
Qed.

Lemma set_elem_run h v vs l i x : Inv h ((v, map Some l) :: vs) -> fits (length l) -> i < length l ->
  runs (set_elem e i x v h) (holds vs (firstn i l ++ x :: skipn (S i) l)).
Proof.
  intros I F L. unfold set_elem. eapply runs_bind; [apply data_mut_run; eauto|].
  intros [v1 h1] [I1 C1]. unfold holds in I1. cbn [fst snd] in *.
  rewrite (Inv_size _ _ _ _ I1). destruct (Nat.ltb_spec i (length l)); [|lia].
  rewrite (Inv_read _ _ _ _ i 1 I1) by lia. cbn [rbind].
  rewrite live_map, orb_true_r.
  destruct (nth_error_ex l i L) as [y Hy].
  destruct (Inv_slots _ _ _ _ I1 ltac:(destruct l; [cbn in L; lia|discriminate])) as (rest & SL & RW).
  assert (El : l = firstn i l ++ [y] ++ skipn (S i) l).
  { cbn [app]. rewrite <- (skipn_nth_error_cons _ _ _ Hy), firstn_skipn. reflexivity. }
  assert (ES : map Some l ++ rest = map Some (firstn i l) ++ [Some y] ++ (map Some (skipn (S i) l) ++ rest)).
  { rewrite El at 1. rewrite !map_app, <- !app_assoc. reflexivity. }
  rewrite (write_range_ok _ _ _ _ i [Some x] SL) by (rewrite app_length, map_length; cbn; lia).
  rewrite ES. replace i with (length (map Some (firstn i l))) at 1 by (rewrite map_length, firstn_length; lia).
  rewrite put_mid by reflexivity.
  destruct (Inv_put h1 v1 _ vs (map Some l ++ rest) (map Some (firstn i l ++ x :: skipn (S i) l)) rest I1 C1) as (I2 & _ & _).
  - intros E. destruct (vrep_null_facts e He _ _ _ (inv_rep _ _ _ I1 _ _ (or_introl eq_refl)) E) as (E0 & _).
    apply map_eq_nil in E0. subst l. cbn in L. lia.
  - exact SL.
  - rewrite !app_length, !map_length, !app_length. cbn [length]. rewrite firstn_length, skipn_length. lia.
  - rewrite !map_length. rewrite !app_length. cbn [length]. rewrite firstn_length, skipn_length. lia.
  - exact RW.
  - rewrite map_app in I2. cbn [map] in I2. rewrite <- app_assoc in I2. cbn [app] in I2 |- *.
    destruct (store v1 h1 _ _) as [v2 h2]. cbn [fst snd] in I2. apply runs_ok.
    unfold holds. cbn [fst snd]. rewrite map_app. exact I2.
Qed.
End Api.
