(** Copying, destroying, moving from, and self-referential operations. *)
From Verif Require Import VecModel VecPackProofs ArcProofs CommonLemmas VecMem VecInv VecSplice VecSplice2 VecSplice3 VecApi WordsLemmas.
From Coq Require Import Permutation.
Open Scope nat_scope.

Section Api2.
Context {A : Type} (dflt : A) (e : elt) (He : (0 < esz e < 2 ^ 31)%Z).
Implicit Types (h : heap (A:=A)) (v w : vec (A:=A)) (p : ptr) (S : list (option A)).
Local Notation size := (size e).
Local Notation data := (data e).
Local Notation vcapa := (vcapa e).
Local Notation Inv := (Inv e).

Lemma shared_capa_nodata h v S : vrep e h v S -> v_data v = None -> vshared_capa e v = SMALL_CAPA e.
Proof.
  intros V D. pose proof (vrep_capa_nodata e _ _ _ V D) as C. unfold vshared_capa, shared_capa.
  unfold VecModel.vcapa in C. rewrite C. pose proof (SMALL_CAPA_range e ltac:(lia)) as R.
  destruct (SHAREABLE e); [|reflexivity].
  rewrite wrap_small by (unfold word; lia). rewrite land_notsign by lia. reflexivity.
Qed.

Lemma big_size h v S b : vrep e h v S -> v_data v = Some b -> v_size v = length S.
Proof. intros V D. destruct V; congruence. Qed.

Lemma copy_run h v S vs : Inv h ((v, S) :: vs) -> SHAREABLE e = true ->
  exists c m h', copy e v h = Ok (c, m, h') /\ Inv h' ((c, S) :: (m, S) :: vs).
Proof.
  intros I SH. pose proof (inv_rep _ _ _ I _ _ (or_introl eq_refl)) as V.
  unfold copy. rewrite SH. cbn [negb].
  destruct (v_data v) as [b|] eqn:D.
  - destruct (masked_capa e He _ _ _ _ V D) as (oc & Eoc & Em & [Lo1 Lo2] & Ll & Emu & Eun & Bo & _).
    unfold vshared_capa. rewrite Eoc. destruct (Z.ltb_spec (SMALL_CAPA e) oc); [|lia].
    destruct V as [rest HS (W & Sm & Sz) Hd Hz Hb L|HS Hp Hd Hz Hb HS0|b' c sh k rest Hd Hz Hp B Hsh Hn Hs Hc R Hb];
      try congruence.
    assert (b' = b) by congruence. subst b'.
    rewrite (get_block_ok _ _ _ Hn). cbn [rbind].
    assert (Lb : b < length h) by (apply nth_error_lt in Hn; exact Hn).
    rewrite set_block_ok by exact Lb. cbn [rbind].
    set (m := set_pack (mark_shared e (v_pack v)) v).
    set (h' := hset h b (Some {| b_arc := b_arc k + 1; b_slots := b_slots k |})).
    exists m, m, h'. split; [reflexivity|].
    assert (Pm : v_pack m = bigword e c true) by (unfold m; cbn; rewrite Hp, mark_shared_bigword by (auto; lia); reflexivity).
    assert (Cm : (vcapa m < 0)%Z).
    { unfold VecModel.vcapa. rewrite Pm, capa_bigword by (auto; lia). destruct B. lia. }
    assert (Vm : vrep e h' m S).
    { eapply vrep_big with (b := b) (c := c) (sh := true) (k := {| b_arc := b_arc k + 1; b_slots := b_slots k |}) (rest := rest);
        [exact Hd|exact Hz|exact Pm|exact B|congruence|apply hset_eq; exact Lb|exact Hs|exact Hc|exact R|exact Hb]. }
    assert (PT : forall b', points_to b' m = points_to b' v) by reflexivity.
    assert (PB : points_to b v = true) by (unfold points_to; rewrite D; apply Nat.eqb_refl).
    destruct I as [I1 I2 I3 I4 I5]. constructor.
    + intros v' S' [E|[E|H0]]; [injection E as <- <-; exact Vm|injection E as <- <-; exact Vm|].
      eapply vrep_frame_arc; [apply I1; right; exact H0|]. intros b1 k1 E1 K1. unfold h'.
      destruct (Nat.eq_dec b1 b) as [->|N1].
      * rewrite hset_eq by exact Lb. eexists. split; [reflexivity|]. cbn. congruence.
      * rewrite hset_neq by exact N1. eauto.
    + intros b1 k1 K1. rewrite !refs_cons. cbn [fst]. rewrite !PT. unfold h' in K1.
      destruct (Nat.eq_dec b1 b) as [->|N1].
      * rewrite hset_eq in K1 by exact Lb. injection K1 as <-. cbn [b_arc].
        specialize (I2 b k Hn). rewrite refs_cons in I2. cbn [fst] in I2. rewrite PB in *. lia.
      * rewrite hset_neq in K1 by exact N1. specialize (I2 _ _ K1). rewrite refs_cons in I2. cbn [fst] in I2.
        assert (points_to b1 v = false) as -> by (unfold points_to; rewrite D; apply Nat.eqb_neq; congruence).
        assert (points_to b1 v = false) as P1 by (unfold points_to; rewrite D; apply Nat.eqb_neq; congruence).
        rewrite P1 in I2. lia.
    + intros v' S' b1 [E|[E|H0]] D1 C1; [injection E as <- <-; lia|injection E as <- <-; lia|].
      pose proof (I3 v' S' b1 (or_intror H0) D1 C1) as U. rewrite refs_cons in U. cbn [fst] in U.
      pose proof (refs_in vs v' S' b1 H0 D1) as U2.
      rewrite !refs_cons. cbn [fst]. rewrite !PT. destruct (points_to b1 v); lia.
    + apply pos_hset; [exact I4|]. intros k0 E0. injection E0 as <-. cbn. specialize (I4 _ _ Hn). lia.
    + apply empt_copy; [reflexivity|]. eapply empt_same; [| |exact I5]; [reflexivity|tauto].
  - rewrite (shared_capa_nodata _ _ _ V D). rewrite Z.ltb_irrefl.
    exists v, v, h. split; [reflexivity|]. apply Inv_add_nodata; auto.
Qed.

Lemma dtor_run h v vs (l : list A) : Inv h ((v, map Some l) :: vs) ->
  exists h', dtor e v h = Ok h' /\ Inv h' vs.
Proof.
  intros I. pose proof (inv_rep _ _ _ I _ _ (or_introl eq_refl)) as V. unfold dtor.
  destruct (v_data v) as [b|] eqn:D.
  - destruct (masked_capa e He _ _ _ _ V D) as (oc & Eoc & Em & [Lo1 Lo2] & Ll & Emu & Eun & Bo & _).
    destruct (shared_dealloc_ok e He _ v l _ b I D) as (h' & E & I' & _).
    unfold vshared_capa. rewrite Eoc in *. destruct (Z.ltb_spec (SMALL_CAPA e) oc); [|lia].
    assert (HZ : v_size v = length l).
    { rewrite (big_size _ _ _ _ V D). apply map_length. }
    rewrite HZ. eauto.
  - rewrite (shared_capa_nodata _ _ _ V D). rewrite Z.ltb_irrefl. exists h. split; [reflexivity|].
    eapply Inv_nodata; eauto.
Qed.

(** ** Moving from another vec *)
Lemma construct_write v h p off (l : list (option A)) x :
  construct_range e v h p off l = Ok x -> write_range v h p off l = Ok x.
Proof.
  unfold construct_range. destruct (read_range v h p off (length l)); cbn; try discriminate.
  destruct (TRIVIAL e || forallb is_raw x0); [auto|discriminate].
Qed.

Definition moved_from (ls ls' : list A) : Prop := ls' = [] \/ ls' = ls.

Lemma Inv_read_snd h v S src vs ls : Inv h ((v, S) :: (src, map Some ls) :: vs) ->
  read_range src h (data src) 0 (length ls) = Ok (map Some ls).
Proof.
  intros I. eapply Inv_perm in I; [|apply perm_swap].
  rewrite (Inv_read e He _ _ _ _ 0 (length ls) I) by lia. cbn [skipn]. rewrite firstn_all. reflexivity.
Qed.

Lemma absorb_run s (x y z : list (option A)) src ls vs :
  Inv (s_heap s) ((s_vec s, x ++ y ++ z) :: (src, map Some ls) :: vs) ->
  length y = length ls -> (TRIVIAL e = false -> raw_list y) ->
  (y <> [] -> (Z.of_nat (length (x ++ y ++ z)) <= vcapa (s_vec s))%Z /\ s_ptr s = data (s_vec s)) ->
  exists v' src' h' ls', absorb e (length x) s src = Ok (v', src', h') /\
    Inv h' ((v', x ++ map Some ls ++ z) :: (src', map Some ls') :: vs) /\ moved_from ls ls'.
Proof.
  intros I LY RY OWN. set (v := s_vec s) in *. set (h := s_heap s) in *.
  pose proof I as Isw. eapply Inv_perm in Isw; [|apply perm_swap].
  pose proof (inv_rep _ _ _ Isw _ _ (or_introl eq_refl)) as VS.
  assert (SZ : size src = length ls) by (eapply Inv_size; eauto).
  (* the gap can be filled whatever else has happened, as long as the invariant holds *)
  assert (FILL : forall h1 (vs1 : list (vec * list (option A))), Inv h1 ((v, x ++ y ++ z) :: vs1) ->
    exists v' h', construct_range e v h1 (s_ptr s) (length x) (map Some ls) = Ok (v', h') /\
      Inv h' ((v', x ++ map Some ls ++ z) :: vs1)).
  { intros h1 vs1 I1. destruct y as [|y0 y'] eqn:EY.
    - destruct ls; [|discriminate]. cbn [map]. rewrite construct_nil. eauto.
    - rewrite <- EY in *. destruct (OWN ltac:(congruence)) as [C P].
      destruct (fill_gap e He h1 v vs1 x y z (map Some ls) (s_ptr s) I1 C (or_introl P)
        ltac:(rewrite map_length; congruence) RY) as (v' & h' & E & I' & _). eauto. }
  unfold absorb. fold v h. rewrite SZ.
  destruct (v_data src) as [b|] eqn:D.
  - pose proof (vrep_data_big e He _ _ _ b VS D) as DS. rewrite DS.
    destruct (masked_capa e He _ _ _ _ VS D) as (oc & Eoc & Em & [Lo1 Lo2] & Ll & Emu & Eun & Bo & _).
    assert (EV : vshared_capa e src = oc) by exact Eoc.
    cbv zeta. rewrite EV. destruct (Z.ltb_spec (SMALL_CAPA e) oc); [|lia].
    assert (VZ : v_size src = length ls).
    { rewrite (big_size _ _ _ _ VS D). apply map_length. }
    pose proof (Inv_read_snd _ _ _ _ _ _ I) as RD. rewrite DS in RD.
    destruct (TRIVIAL e) eqn:T.
    + (* memcpy *)
      rewrite RD. cbn [rbind].
      destruct (FILL _ _ I) as (v' & h' & E & I'). rewrite (construct_write _ _ _ _ _ _ E). cbn [rbind].
      destruct (SHAREABLE e) eqn:SH.
      * eapply Inv_perm in I'; [|apply perm_swap].
        destruct (shared_dealloc_ok e He _ src ls _ b I' D) as (h2 & E2 & I2 & _).
        rewrite Eoc in E2. rewrite VZ, D, E2. cbn [rbind]. exists v', (vec0 e), h2, [].
        split; [reflexivity|]. split; [|left; reflexivity].
        eapply Inv_perm; [apply perm_swap|]. apply Inv_add_nodata; auto. apply vrep_vec0; auto.
      * exists v', src, h', ls. split; [reflexivity|]. split; [exact I'|right; reflexivity].
    + cbn [rbind]. specialize (RY eq_refl).
      (* relocate or copy *)
      assert (UNIQ : forall srcu, v_data srcu = Some b -> data srcu = PBlk b ->
        Inv h ((srcu, map Some ls) :: (v, x ++ y ++ z) :: vs) ->
        refs ((v, x ++ y ++ z) :: vs) b = 0 -> (0 <= vcapa srcu)%Z ->
        exists v' src' h' ls',
          (let! l := read_range srcu h (PBlk b) 0 (length ls) in
           if forallb is_live l then
             let! (_, h) := write_range srcu h (PBlk b) 0 (repeat None (length ls)) in
             let! (v, h) := construct_range e v h (s_ptr s) (length x) l in
             let! h := uniq_dealloc e h (PBlk b) (Z.land (wrap 32 (vcapa srcu)) NOT_SIGN) in
             Ok (v, vec0 e, h)
           else UB) = Ok (v', src', h') /\
          Inv h' ((v', x ++ map Some ls ++ z) :: (src', map Some ls') :: vs) /\ moved_from ls ls').
      { intros srcu Du DDu Iu U Cu.
        assert (RDu : read_range srcu h (PBlk b) 0 (length ls) = Ok (map Some ls)) by exact RD.
        rewrite RDu. cbn [rbind]. rewrite live_map.
        assert (NN : data srcu <> PNull) by (rewrite DDu; discriminate).
        pose proof (inv_rep _ _ _ Iu _ _ (or_introl eq_refl)) as Vu.
        destruct (vrep_slots e He _ _ _ Vu NN) as (rest & SL & RW & CL).
        destruct (Inv_put e He h srcu _ _ _ (repeat None (length ls)) rest Iu Cu NN SL) as (I1 & D1 & C1).
        { rewrite !app_length, map_length, repeat_length. reflexivity. }
        { rewrite repeat_length, map_length. reflexivity. }
        { exact RW. }
        rewrite DDu in SL, I1.
        rewrite (write_range_ok _ _ _ _ 0 (repeat None (length ls)) SL)
          by (rewrite repeat_length, app_length, map_length; lia).
        pose proof (put_mid [] (map Some ls) rest (repeat None (length ls)) ltac:(rewrite repeat_length, map_length; reflexivity)) as PM.
        cbn [app length] in PM. rewrite PM. cbn [rbind].
        assert (FS : fst (store srcu h (PBlk b) (repeat None (length ls) ++ rest)) = srcu).
        { cbn. destruct (nth_error h b) as [[?|]|]; reflexivity. }
        destruct (store srcu h (PBlk b) (repeat None (length ls) ++ rest)) as [s1 h1] eqn:ST. cbn [fst snd] in *. subst s1.
        eapply Inv_perm in I1; [|apply perm_swap].
        destruct (FILL _ _ I1) as (v' & h' & E & I'). rewrite E. cbn [rbind].
        eapply Inv_perm in I'; [|apply perm_swap].
        assert (U' : refs ((v', x ++ map Some ls ++ z) :: vs) b = 0).
        { pose proof (inv_uniq _ _ _ I' srcu _ b (or_introl eq_refl) Du Cu) as U1.
          rewrite refs_cons in U1. cbn [fst] in U1. unfold points_to in U1 at 1. rewrite Du, Nat.eqb_refl in U1. lia. }
        destruct (uniq_dealloc_ok e He _ _ _ _ b I' Du U' ltac:(intros _; apply raw_repeat)) as (E4 & I4).
        destruct (masked_capa e He _ _ _ _ Vu Du) as (oc' & Eoc' & Em' & _).
        rewrite Em', <- Eoc', E4. cbn [rbind].
        exists v', (vec0 e), (hset h' b None), []. split; [reflexivity|]. split; [|left; reflexivity].
        eapply Inv_perm; [apply perm_swap|]. apply Inv_add_nodata; auto. apply vrep_vec0; auto. }
      unfold check_unique. rewrite nontrivial_capa by auto. rewrite D.
      destruct (SHAREABLE e) eqn:SH; cbn [negb].
      * destruct (Z.leb_spec 0 (vcapa src)) as [Cs|Cs].
        -- cbn [rbind].
           apply (UNIQ src); auto.
           pose proof (inv_uniq _ _ _ Isw src _ b (or_introl eq_refl) D Cs) as U1.
           rewrite refs_cons in U1. cbn [fst] in U1. unfold points_to in U1 at 1. rewrite D, Nat.eqb_refl in U1. lia.
        -- rewrite (is_unique_ok e He _ _ _ _ _ Isw D). cbn [rbind].
           destruct (Nat.eqb_spec (refs ((v, x ++ y ++ z) :: vs) b) 0) as [U|U].
           ++ cbn [rbind].
              destruct (mark_unique_inv e He h src _ _ b Isw D U) as (Iu & Du & Cu & _).
              apply UNIQ; auto; [rewrite Du; exact DS|rewrite Cu, Em; lia].
           ++ cbn [rbind]. rewrite RD. cbn [rbind]. rewrite live_map.
              destruct (FILL _ _ I) as (v' & h' & E & I'). rewrite E. cbn [rbind].
              eapply Inv_perm in I'; [|apply perm_swap].
              destruct (shared_dealloc_ok e He _ src ls _ b I' D) as (h2 & E2 & I2 & _).
              rewrite Eoc in E2. rewrite VZ, D, E2. cbn [rbind]. exists v', (vec0 e), h2, [].
              split; [reflexivity|]. split; [|left; reflexivity].
              eapply Inv_perm; [apply perm_swap|]. apply Inv_add_nodata; auto. apply vrep_vec0; auto.
      * cbn [rbind]. pose proof (unshareable_capa e He _ _ _ VS SH) as Cs.
        apply (UNIQ src); auto.
        pose proof (inv_uniq _ _ _ Isw src _ b (or_introl eq_refl) D Cs) as U1.
        rewrite refs_cons in U1. cbn [fst] in U1. unfold points_to in U1 at 1. rewrite D, Nat.eqb_refl in U1. lia.
  - (* inline or unallocated source *)
    rewrite (shared_capa_nodata _ _ _ VS D), Z.ltb_irrefl.
    destruct (FILL _ _ I) as (v' & h' & E & I').
    destruct (TRIVIAL e) eqn:T.
    + rewrite (Inv_read_snd _ _ _ _ _ _ I). cbn [rbind]. rewrite (construct_write _ _ _ _ _ _ E). cbn [rbind].
      exists v', src, h', ls. split; [reflexivity|]. split; [exact I'|right; reflexivity].
    + assert (ls = []) as ->.
      { pose proof (vrep_small_capa_bound e He _ _ _ VS D) as B. rewrite nontrivial_capa in B by auto.
        rewrite map_length in B. destruct ls; [reflexivity|cbn in B; lia]. }
      destruct y; [|discriminate]. cbn [rbind]. exists v, src, h, [].
      split; [reflexivity|]. split; [exact I|right; reflexivity].
Qed.

Definition moved (vs : list (vec (A:=A) * list (option A))) (l ls : list A)
  (x : vec (A:=A) * vec (A:=A) * heap (A:=A)) : Prop :=
  exists ls', Inv (snd x) ((fst (fst x), map Some l) :: (snd (fst x), map Some ls') :: vs) /\ moved_from ls ls'.

Lemma clamp_skipn (l : list A) i d d' : d' = Nat.min d (length l - i) -> i <= length l -> skipn (i + d') l = skipn (i + d) l.
Proof.
  intros E L. destruct (Nat.le_gt_cases (length l) (i + d)).
  - rewrite !skipn_all2 by lia. reflexivity.
  - f_equal. lia.
Qed.

Lemma splice_move_run h v src vs l ls i d :
  Inv h ((v, map Some l) :: (src, map Some ls) :: vs) -> i <= length l -> fits (length l + length ls) ->
  runs (splice_move e i d src v h) (moved vs (firstn i l ++ ls ++ skipn (i + d) l) ls).
Proof.
  intros I L F. unfold splice_move.
  assert (SZ : size src = length ls).
  { eapply Inv_perm in I; [|apply perm_swap]. eapply Inv_size; eauto. }
  rewrite SZ.
  destruct (splice_clamp e false i d (length ls) 0 0 v h) as (i' & d' & q' & Ei & Ed & Eq & ->).
  rewrite (Inv_size e He _ _ _ _ I) in *. cbn in Eq. subst q'. rewrite Nat.min_l in Ei by lia. subst i'.
  eapply runs_bind; [apply (splice_run e He h v _ l false i d' (length ls) 0 0 I); [lia|rewrite Nat.add_0_r; exact F]|].
  rewrite resplit by lia. rewrite (clamp_skipn l i d d' Ed L). intros r P.
  destruct P as (X & Y & LX & LY & RXY & I1 & HP & HC & HO & HN).
  destruct Y; [|discriminate]. rewrite app_nil_r in I1.
  destruct (absorb_run r _ _ _ src ls vs I1 LX) as (v' & src' & h' & ls' & E & I' & M).
  - intros T. apply RXY; exact T.
  - intros NX. destruct X as [|x0 X']; [contradiction|]. cbn in LX.
    split; [|destruct HP as [HP|[HP _]]; [exact HP|lia]].
    rewrite !app_length, !map_length. cbn [length]. assert (Z.of_nat (s_new r) <= vcapa (s_vec r))%Z by (apply HC; left; lia). lia.
  - rewrite map_length, firstn_length, Nat.min_l in E by lia. rewrite E. apply runs_ok.
    exists ls'. split; [|exact M]. cbn [fst snd]. rewrite !map_app. exact I'.
Qed.

Lemma append_move_run h v src vs l ls d :
  Inv h ((v, map Some l) :: (src, map Some ls) :: vs) -> d <= length l -> fits (length l + length ls) ->
  runs (append_move e d src v h) (moved vs (firstn (length l - d) l ++ ls) ls).
Proof.
  intros I L F. unfold append_move.
  assert (SZ : size src = length ls).
  { eapply Inv_perm in I; [|apply perm_swap]. eapply Inv_size; eauto. }
  rewrite SZ.
  eapply runs_bind; [apply (splice_run e He h v _ l false 0 0 0 d (length ls) I); [lia|rewrite Nat.add_0_r; exact F]|].
  cbn [Nat.add firstn skipn]. intros r P. apply post_join in P. cbn [app] in P.
  destruct P as (X & Y & LX & LY & RXY & I1 & HP & HC & HO & HN).
  destruct X; [|discriminate]. cbn [app map length] in I1. rewrite <- (app_nil_r Y) in I1.
  assert (La : length (firstn (length l - d) l) = length l - d) by (rewrite firstn_length; lia).
  destruct (absorb_run r _ _ _ src ls vs I1 LY) as (v' & src' & h' & ls' & E & I' & M).
  - intros T. apply RXY; exact T.
  - intros NX. destruct Y as [|x0 X']; [contradiction|]. cbn in LY.
    split; [|destruct HP as [HP|[_ HP]]; [exact HP|lia]].
    rewrite !app_length, !map_length. cbn [length] in *. assert (Z.of_nat (s_new r) <= vcapa (s_vec r))%Z by (apply HC; left; lia). lia.
  - rewrite map_length, La in E. rewrite HO, E. apply runs_ok.
    exists ls'. split; [|exact M]. cbn [fst snd]. rewrite !map_app. rewrite app_nil_r in I'. exact I'.
Qed.

(** ** Copying from a view *)
(** [src] denotes [n] elements [k], kept alive by the vecs [vs]; [owner] is what
    [SThis] points into. *)
Definition src_is (owner : vec) (vs : list (vec (A:=A) * list (option A))) (src : csrc (A:=A)) (n : nat) (k : list A) : Prop :=
  match src with
  | SExt l => n <= length l /\ k = firstn n l
  | SBlk b off => exists w lw, In (w, map Some lw) vs /\ v_data w = Some b /\ off + n <= length lw /\
                    k = firstn n (skipn off lw)
  | SThis off => exists lw, In (owner, map Some lw) vs /\ data owner = PThis /\ off + n <= length lw /\
                    k = firstn n (skipn off lw)
  end.

Lemma src_length owner vs src n k : src_is owner vs src n k -> length k = n.
Proof.
  destruct src; cbn.
  - intros (lw & _ & _ & L & ->). rewrite firstn_length, skipn_length. lia.
  - intros (w & lw & _ & _ & L & ->). rewrite firstn_length, skipn_length. lia.
  - intros (L & ->). rewrite firstn_length. lia.
Qed.

Lemma Inv_read_in h vs w lw off n : Inv h vs -> In (w, map Some lw) vs -> off + n <= length lw ->
  read_range w h (data w) off n = Ok (map Some (firstn n (skipn off lw))).
Proof.
  intros I H L. apply in_split in H as (l1 & l2 & ->).
  eapply Inv_perm in I; [|apply Permutation_sym, Permutation_middle].
  eapply Inv_read; eauto.
Qed.

Lemma read_src_ok h owner vs src n k : Inv h vs -> src_is owner vs src n k ->
  read_src owner h src n = Ok (map Some k).
Proof.
  intros I H. destruct src; cbn in *.
  - destruct H as (lw & H & D & L & ->). rewrite <- D. eapply Inv_read_in; eauto.
  - destruct H as (w & lw & H & D & L & ->).
    pose proof (Inv_read_in _ _ _ _ _ _ I H L) as R.
    rewrite (vrep_data_big e He _ _ _ b (inv_rep _ _ _ I _ _ H) D) in R. exact R.
  - destruct H as (L & ->). destruct (Nat.leb_spec n (length l)); [reflexivity|lia].
Qed.

Lemma src_is_incl owner vs vs' src n k : incl vs vs' -> src_is owner vs src n k -> src_is owner vs' src n k.
Proof.
  intros HI. destruct src; cbn; [intros (lw & H)|intros (w & lw & H)|auto].
  - exists lw. intuition.
  - exists w, lw. intuition.
Qed.

Lemma init_copy_run h owner vs src n k : Inv h vs -> src_is owner vs src n k -> fits n ->
  runs (init_copy e owner h src n) (holds e vs k).
Proof.
  intros I HS F. unfold init_copy.
  eapply runs_bind; [exact (splice_init_ok e He h vs n I F)|].
  intros r (I1 & HP & HC & _). cbv beta.
  rewrite (read_src_ok _ owner _ src n k I1) by (eapply src_is_incl; [|exact HS]; apply incl_tl, incl_refl).
  cbn [rbind]. unfold ctor_from. rewrite live_map, orb_true_r.
  rewrite <- (app_nil_r (repeat None n)) in I1.
  destruct (fill_gap e He (s_heap r) (s_vec r) vs [] (repeat None n) [] (map Some k) (s_ptr r)) as (v' & h' & E & I' & _).
  - exact I1.
  - cbn [app]. rewrite app_nil_r, repeat_length. exact HC.
  - destruct HP as [HP|HP]; [left; exact HP|right; subst n; reflexivity].
  - rewrite map_length, repeat_length. eapply src_length; eauto.
  - intros _. apply raw_repeat.
  - cbn [app length] in E, I'. rewrite app_nil_r in I'. rewrite E. apply runs_ok. exact I'.
Qed.

Lemma of_list_run h vs l : Inv h vs -> fits (length l) -> runs (of_list e l h) (holds e vs l).
Proof.
  intros I F. unfold of_list. apply init_copy_run; auto. cbn. split; [lia|]. symmetry. apply firstn_all.
Qed.

Lemma self_splice_run h v vs l i d src n k :
  Inv h ((v, map Some l) :: vs) -> src_is v ((v, map Some l) :: vs) src n k ->
  i <= length l -> fits (length l + n) ->
  runs (self_splice e i d src n v h) (holds e vs (firstn i l ++ k ++ skipn (i + d) l)).
Proof.
  intros I HS L F. unfold self_splice.
  pose proof (src_length _ _ _ _ _ HS) as LK.
  eapply runs_bind; [apply init_copy_run; [exact I|exact HS|unfold fits in *; lia]|].
  intros [tmp h1] I1. unfold holds in I1. cbn [fst snd] in I1.
  eapply Inv_perm in I1; [|apply perm_swap].
  eapply runs_bind; [apply (splice_move_run h1 v tmp vs l k i d I1 L); unfold fits in *; lia|].
  intros [[v2 tmp2] h2] (ls' & I2 & _). cbn [fst snd] in I2.
  eapply Inv_perm in I2; [|apply perm_swap].
  destruct (dtor_run _ _ _ _ I2) as (h3 & E3 & I3). rewrite E3. apply runs_ok. exact I3.
Qed.

(** Not the self-assignment shortcut, or it is harmless. *)
Definition not_misread (v : vec) (l : list A) (i d : nat) (src : csrc (A:=A)) (k : list A) : Prop :=
  i = 0 -> d = length l -> src_at_start src = true -> src_inside e v src = true -> k = l.

Lemma splice_copy_run h v vs l i d src n k :
  Inv h ((v, map Some l) :: vs) -> src_is v ((v, map Some l) :: vs) src n k ->
  (src_inside e v src = false -> forall o, src_is o vs src n k) ->
  i <= length l -> fits (length l + n) -> not_misread v l i d src k ->
  runs (splice_copy e i d src n v h) (holds e vs (firstn i l ++ k ++ skipn (i + d) l)).
Proof.
  intros I HS HO L F NM. unfold splice_copy. rewrite (Inv_size e He _ _ _ _ I).
  destruct (src_inside e v src) eqn:IN; cbn [negb].
  - destruct (Nat.eqb_spec i 0) as [->|Ni]; cbn [negb orb]; [|eapply self_splice_run; eauto].
    destruct (Nat.eqb_spec d (length l)) as [->|Nd]; cbn [negb orb]; [|eapply self_splice_run; eauto].
    destruct (src_at_start src) eqn:ST; cbn [negb orb]; [|eapply self_splice_run; eauto].
    apply runs_ok. rewrite (NM eq_refl eq_refl ST IN).
    unfold holds. cbn [fst snd firstn app Nat.add]. rewrite skipn_all, app_nil_r. exact I.
  - specialize (HO eq_refl). pose proof (src_length _ _ _ _ _ HS) as LK. subst n.
    destruct (splice_clamp e false i d (length k) 0 0 v h) as (i' & d' & q' & Ei & Ed & Eq & ->).
    rewrite (Inv_size e He _ _ _ _ I) in *. cbn in Eq. subst q'. rewrite Nat.min_l in Ei by lia. subst i'.
    eapply runs_bind; [apply (splice_run e He h v _ l false i d' (length k) 0 0 I); [lia|rewrite Nat.add_0_r; exact F]|].
    rewrite resplit by lia. rewrite (clamp_skipn l i d d' Ed L). intros r P.
    assert (RS : read_src (s_vec r) (s_heap r) src (length k) = Ok (map Some k)).
    { destruct P as (X & Y & LX & LY & RXY & I1 & _). eapply read_src_ok; [exact I1|].
      eapply src_is_incl; [apply incl_tl, incl_refl|apply HO]. }
    rewrite RS. cbn [rbind]. unfold ctor_from. rewrite live_map, orb_true_r.
    rewrite <- (map_length Some k) in P.
    destruct (post_fill_ins e He _ _ _ _ _ _ _ _ P eq_refl) as (v' & h' & E & I').
    rewrite firstn_length, Nat.min_l in E by lia. rewrite E. apply runs_ok.
    unfold holds. cbn [fst snd]. rewrite !map_app. exact I'.
Qed.

Lemma append_copy_run h v vs l d src n k :
  Inv h ((v, map Some l) :: vs) -> src_is v ((v, map Some l) :: vs) src n k ->
  (src_inside e v src = false -> forall o, src_is o vs src n k) ->
  d <= length l -> fits (length l + n) -> not_misread v l (length l - d) d src k ->
  runs (append_copy e d src n v h) (holds e vs (firstn (length l - d) l ++ k)).
Proof.
  intros I HS HO L F NM. unfold append_copy. rewrite (Inv_size e He _ _ _ _ I).
  assert (SELF : runs (self_splice e (length l - d) d src n v h) (holds e vs (firstn (length l - d) l ++ k))).
  { eapply runs_mono; [eapply self_splice_run; eauto; lia|]. intros x H.
    rewrite (skipn_all2 l) in H by lia. rewrite app_nil_r in H. exact H. }
  destruct (src_inside e v src) eqn:IN; cbn [negb].
  - destruct (Nat.eqb_spec d (length l)) as [->|Nd]; cbn [negb orb]; [|exact SELF].
    destruct (src_at_start src) eqn:ST; cbn [negb orb]; [|exact SELF].
    apply runs_ok. rewrite (NM ltac:(lia) eq_refl ST IN).
    unfold holds. rewrite Nat.sub_diag. exact I.
  - specialize (HO eq_refl). pose proof (src_length _ _ _ _ _ HS) as LK. subst n.
    eapply runs_bind; [apply (splice_run e He h v _ l false 0 0 0 d (length k) I); [lia|rewrite Nat.add_0_r; exact F]|].
    cbn [Nat.add firstn skipn]. intros r P. apply post_join in P. cbn [app] in P.
    assert (RS : read_src (s_vec r) (s_heap r) src (length k) = Ok (map Some k)).
    { destruct P as (X & Y & LX & LY & RXY & I1 & _). eapply read_src_ok; [exact I1|].
      eapply src_is_incl; [apply incl_tl, incl_refl|apply HO]. }
    rewrite RS. cbn [rbind]. unfold ctor_from. rewrite live_map, orb_true_r.
    rewrite <- (map_length Some k) in P.
    destruct (post_fill_push e He _ _ _ _ _ _ _ P eq_refl) as (v' & h' & E & I').
    rewrite firstn_length, Nat.min_l in E by lia. rewrite E. apply runs_ok.
    unfold holds. cbn [fst snd]. rewrite !map_app. exact I'.
Qed.
End Api2.
