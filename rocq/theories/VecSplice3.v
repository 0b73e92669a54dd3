(** Correctness of [_Splice], concluded. *)
From Verif Require Import VecModel VecPackProofs ArcProofs CommonLemmas VecMem VecInv VecSplice VecSplice2 WordsLemmas.
From Coq Require Import Permutation.
Open Scope nat_scope.

Section Splice3.
Context {A : Type} (e : elt) (He : (0 < esz e < 2 ^ 31)%Z).
Implicit Types (h : heap (A:=A)) (v : vec (A:=A)) (p q : ptr) (s S : list (option A)).
Local Notation size := (size e).
Local Notation data := (data e).
Local Notation vcapa := (vcapa e).
Local Notation Inv := (Inv e).

Lemma vcapa_big h v S b : vrep e h v S -> v_data v = Some b ->
  vcapa v <> SMALL_CAPA e /\ ((SMALL_CAPA e < vcapa v)%Z \/ (vcapa v < 0)%Z).
Proof.
  intros V D.
  destruct (masked_capa e He _ _ _ _ V D) as (oc & Eoc & Em & [Lo1 Lo2] & Ll & Emu & Eun & Bo & _).
  pose proof (small_capa_Z e He).
  destruct (Z.le_gt_cases 0 (vcapa v)) as [P|P].
  - specialize (Eun P). split; [lia|left; lia].
  - split; [lia|right; exact P].
Qed.

Lemma vrep_word h v S : vrep e h v S -> word 32 (v_pack v).
Proof.
  intros V. destruct V as [rest HS (W & Sm & Sz) Hd Hz Hb L|HS Hp Hd Hz Hb HS0|b' c' sh k' rest Hd Hz Hp B Hsh Hn Hs Hc RW Hb].
  - exact W.
  - rewrite Hp. unfold word. lia.
  - rewrite Hp. apply pack_word, bigword_word. destruct B. pose proof (small_capa_Z e He). lia.
Qed.

Lemma buf_length h v S : vrep e h v S -> length (v_buf v) = small_capa e.
Proof.
  intros V. destruct V as [rest HS (W & Sm & Sz) Hd Hz Hb L|HS Hp Hd Hz Hb HS0|b' c' sh k' rest Hd Hz Hp B Hsh Hn Hs Hc RW Hb].
  - exact L.
  - rewrite Hb. cbn. pose proof (small_capa_Z e He). rewrite no_small in * by auto. lia.
  - rewrite Hb. unfold raw_buf. apply repeat_length.
Qed.
Lemma buf_big h v S b : vrep e h v S -> v_data v = Some b -> v_buf v = repeat None (small_capa e).
Proof. intros V D. destruct V; try congruence. assumption. Qed.

(** Small representation written over a (possibly big) vec. *)
Lemma write_small_rep h v S rest : HAS_SMALL e = true -> word 32 (v_pack v) ->
  (Z.of_nat (length S) <= SMALL_CAPA e)%Z ->
  v_buf v = S ++ rest -> length (v_buf v) = small_capa e ->
  vrep e h (write_small_v e (length S) v) S /\ data (write_small_v e (length S) v) = PThis /\
  vcapa (write_small_v e (length S) v) = SMALL_CAPA e.
Proof.
  intros HS Wp LC Hb Hl.
  pose proof (SMALL_CAPA_range e ltac:(lia)) as R.
  pose proof (write_small_spec e (v_pack v) (Z.of_nat (length S)) HS Wp ltac:(lia)) as W.
  pose proof W as (W1 & W2 & W3).
  split; [|split].
  - eapply vrep_small with (rest := rest); cbn; auto.
  - unfold VecModel.data. cbn. rewrite W2. reflexivity.
  - unfold VecModel.vcapa, capa. cbn. rewrite HS, W2. reflexivity.
Qed.

Lemma vec0_facts : data (vec0 (A:=A) e) <> PThis \/ HAS_SMALL e = true.
Proof. unfold VecModel.data, is_small. destruct (HAS_SMALL e); [right|left]; auto. cbn. discriminate. Qed.
Lemma vec0_capa : vcapa (vec0 (A:=A) e) = SMALL_CAPA e.
Proof. eapply vrep_capa_nodata; [apply (vrep_vec0 e [])|reflexivity]. Qed.

Lemma post_own vs a m ins push old_size M v h p n :
  Inv h ((v, gapped a m ins push) :: vs) -> p = data v \/ n = 0 ->
  n = length a + ins + length m + push -> (Z.of_nat n <= vcapa v)%Z ->
  splice_post e vs a m ins push old_size M {| s_vec := v; s_heap := h; s_ptr := p; s_old := old_size; s_new := n |}.
Proof.
  intros I HP -> C. exists (repeat None ins), (repeat None push).
  rewrite !repeat_length. cbn.
  split; [reflexivity|]. split; [reflexivity|]. split; [intros _; split; apply raw_repeat|].
  split; [exact I|]. split; [destruct HP; [left; auto|right; lia]|]. split; [intros _; exact C|]. auto.
Qed.

Lemma small_gap_inv h v vs (a m : list A) ins push : HAS_SMALL e = true -> Inv h vs ->
  word 32 (v_pack v) -> v_buf v = filled a m ins (small_capa e) ->
  (Z.of_nat (length a + ins + length m + push) <= SMALL_CAPA e)%Z ->
  let w := write_small_v e (length a + ins + length m + push) v in
  Inv h ((w, gapped a m ins push) :: vs) /\ data w = PThis /\ vcapa w = SMALL_CAPA e.
Proof.
  intros HS I W Hb L w. pose proof (small_capa_Z e He) as SC.
  rewrite (filled_split a m ins push) in Hb by lia.
  destruct (write_small_rep h v (gapped a m ins push)
     (repeat None (small_capa e - (length a + ins + length m + push))) HS W) as (V & D & C).
  - rewrite gapped_length. exact L.
  - exact Hb.
  - rewrite Hb, app_length, gapped_length, repeat_length. lia.
  - rewrite gapped_length in V, D, C. split; [|auto]. apply Inv_add_nodata; auto.
Qed.

Lemma write_small_setbuf n v s : write_small_v e n (setbuf v s) = setbuf (write_small_v e n v) s.
Proof. reflexivity. Qed.

(** Reallocation. *)
Lemma realloc_ok h v vs (a d m q : list A) ins push M :
  let l := a ++ d ++ m ++ q in
  let ns := length a + ins + length m + push in
  Inv h ((v, map Some l) :: vs) -> (vcapa v < Z.of_nat ns)%Z -> (Z.of_nat ns < 2 ^ 31 - 1)%Z ->
  let r := reallocate e false false (length a) (length d) ins (length q) (length l) ns (data v) (vcapa v) v h in
  r = Exit \/ exists (s : spliced), r = Ok s /\ splice_post e vs a m ins push (length l) M s.
Proof.
  intros l ns I LC LN r.
  pose proof (inv_rep _ _ _ I _ _ (or_introl eq_refl)) as V.
  pose proof (small_capa_Z e He) as SCZ.
  pose proof (vrep_word _ _ _ V) as WP.
  destruct (v_data v) as [b|] eqn:D.
  - pose proof (vrep_data_big e He _ _ _ b V D) as DV.
    destruct (masked_capa e He _ _ _ _ V D) as (oc & Eoc & Em & [Lo1 Lo2] & Ll & Emu & Eun & Bo & _).
    destruct (vcapa_big _ _ _ _ V D) as [NC NC2].
    unfold r, reallocate. rewrite DV.
    destruct (Z.leb_spec (Z.of_nat ns) (SMALL_CAPA e)) as [LS|LS].
    + (* shared, becomes inline or empty *)
      right. assert (NEG : (vcapa v < 0)%Z) by lia.
      unfold move_or_copy. rewrite Em.
      destruct (HAS_SMALL e) eqn:HS.
      * pose proof (has_small_trivial e HS) as T. rewrite T. cbn [rbind orb andb negb].
        destruct (vrep_block e _ _ _ _ V D) as (k & rest & K & SL & RW).
        set (w := write_small_v e ns v).
        assert (S1 : slots_at w h (PBlk b) = Ok (map Some l ++ rest)).
        { cbn. rewrite (get_block_ok _ _ _ K). cbn. rewrite SL. reflexivity. }
        assert (S2 : slots_at w h PThis = Ok (repeat None (small_capa e))).
        { cbn. rewrite (buf_big _ _ _ _ V D). reflexivity. }
        replace (length l - (length a + length d + length q)) with (length m)
          by (unfold l; rewrite !app_length; lia).
        rewrite (two_piece_copy e w h PThis (PBlk b) a d m q rest ins (small_capa e) ltac:(discriminate) S1 S2 ltac:(unfold ns in *; lia)).
        cbn [rbind store].
        destruct (shared_dealloc_ok e He _ v l _ b I D) as (h' & E & I' & _).
        rewrite Eoc in E. rewrite E. cbn [rbind]. eexists. split; [reflexivity|].
        unfold w. rewrite <- write_small_setbuf.
        destruct (small_gap_inv h' (setbuf v (filled a m ins (small_capa e))) vs a m ins push HS I' WP eq_refl LS) as (I2 & D2 & C2).
        apply post_own; auto. fold ns in C2. rewrite C2. exact LS.
      * rewrite no_small in * by auto.
        assert (EZ : ns = 0) by lia.
        assert (a = [] /\ m = [] /\ ins = 0 /\ push = 0) as (-> & -> & -> & ->).
        { unfold ns in EZ. destruct a; [|cbn in EZ; lia]. destruct m; [|cbn in EZ; lia]. cbn in EZ. repeat split; lia. }
        destruct (shared_dealloc_ok e He _ v l _ b I D) as (h' & E & I' & _). rewrite Eoc in E.
        assert (POST : splice_post e vs [] [] 0 0 (length l) M
          {| s_vec := vec0 e; s_heap := h'; s_ptr := PThis; s_old := length l; s_new := ns |}).
        { apply post_own; auto.
          - cbn. apply Inv_add_nodata; auto. apply vrep_vec0; auto.
          - rewrite vec0_capa, no_small by auto. rewrite EZ. lia. }
        replace (length l - (@length A [] + length d + length q)) with 0
          by (unfold l; cbn; rewrite !app_length; cbn; lia).
        cbn [length Nat.add]. rewrite !copy_ctor_0. cbn [rbind]. rewrite ?copy_ctor_0.
        destruct (TRIVIAL e) eqn:T.
        -- cbn [orb andb negb rbind]. rewrite E. cbn [rbind]. eexists; split; [reflexivity|exact POST].
        -- rewrite EZ in *. destruct (Z.ltb_spec 0 (vcapa v)); [lia|].
           destruct (Z.ltb_spec oc (Z.of_nat 0)); [lia|]. rewrite andb_false_r. cbn [rbind].
           destruct (Z.ltb_spec 0 oc); [|lia].
           destruct ((false || SHAREABLE e) && negb false); cbn [rbind];
             rewrite E; cbn [rbind]; eexists; (split; [reflexivity|exact POST]).
    + destruct (alloc_ok e He h ns ltac:(lia)) as [->|(c & n & -> & B & L)]; [left; reflexivity|]. right.
      cbn [rbind orb]. destruct (Z.eqb_spec (vcapa v) (SMALL_CAPA e)); [contradiction|].
      rewrite andb_false_r. apply move_or_copy_new; auto.
  - pose proof (vrep_capa_nodata e _ _ _ V D) as VC.
    assert (LS : (SMALL_CAPA e < Z.of_nat ns)%Z) by lia.
    unfold r, reallocate. destruct (Z.leb_spec (Z.of_nat ns) (SMALL_CAPA e)); [lia|].
    destruct (alloc_ok e He h ns ltac:(lia)) as [->|(c & n & -> & B & L)]; [left; reflexivity|]. right.
    cbn [rbind orb]. rewrite VC, Z.eqb_refl, andb_true_r.
    pose proof (Inv_nodata e _ _ _ _ D I) as I0.
    destruct (write_big_facts e He (length h) ns c v B) as [WD WC].
    destruct V as [rest HS (W & Sm & Sz) Hd Hz Hb Lb|HS Hp Hd Hz Hb HS0|b' c' sh k' rest Hd Hz Hp B' Hsh Hn Hs Hc RW Hb];
      [| |congruence].
    + (* inline to heap *)
      rewrite (has_small_trivial e HS), HS. cbn [andb negb].
      assert (DV : data v = PThis) by (unfold VecModel.data; rewrite Sm; reflexivity). rewrite DV.
      assert (N : PBlk (length h) <> PThis) by discriminate.
      pose proof (two_piece_move_trivial e v _ (PBlk (length h)) PThis a d m q rest ins n (has_small_trivial e HS) N
        ltac:(cbn; rewrite Hb; reflexivity) (slots_app_new _ _ {| b_arc := 0; b_slots := repeat None n |}) ltac:(unfold ns in *; lia)) as TP.
      fold l in TP. rewrite TP.
      cbn [rbind]. rewrite store_app_new. cbn [b_arc]. eexists. split; [reflexivity|].
      apply post_gapped; auto; [|fold ns; rewrite WC; lia].
      apply add_filled; auto.
    + (* nothing to heap *)
      apply map_eq_nil in HS0. unfold l in HS0. apply app_eq_nil in HS0 as [-> E0].
      apply app_eq_nil in E0 as [-> E0]. apply app_eq_nil in E0 as [-> ->].
      assert (POST : splice_post e vs [] [] ins push (length l) M
          {| s_vec := write_big e (length h) ns c v; s_heap := h ++ [Some {| b_arc := 0; b_slots := repeat None n |}];
             s_ptr := PBlk (length h); s_old := length l; s_new := ns |}).
      { apply post_gapped; auto; [|rewrite WC; lia].
        replace (repeat None n) with (filled (A:=A) [] [] ins n); [apply add_filled; auto|].
        unfold filled. cbn. rewrite <- repeat_app. f_equal. unfold ns in *. cbn in *. lia. }
      unfold l in *. cbn [length app Nat.add] in *.
      destruct (TRIVIAL e) eqn:T.
      * rewrite HS. cbn [andb rbind]. eexists. split; [reflexivity|exact POST].
      * rewrite no_small by auto. unfold move_or_copy. rewrite T. cbn [Z.ltb].
        change (Z.land (wrap 32 0) NOT_SIGN) with 0%Z. cbn [Z.ltb Z.compare andb rbind orb negb].
        rewrite !copy_ctor_0. cbn [rbind Nat.sub Nat.add]. rewrite ?copy_ctor_0. rewrite no_small by auto.
        cbn [Z.ltb Z.compare].
        destruct (SHAREABLE e); cbn [andb rbind]; rewrite ?copy_ctor_0; cbn [rbind];
          (eexists; split; [reflexivity|exact POST]).
Qed.

(** ** The primitive *)
Lemma splice_ok h v vs (a d m q : list A) resv idx del ins pop push :
  let l := a ++ d ++ m ++ q in
  Inv h ((v, map Some l) :: vs) ->
  length a = Nat.min idx (length l) -> length d = Nat.min del (length l - length a) ->
  length q = Nat.min pop (length l - length a - length d) ->
  (Z.of_nat (length l + ins + push) < 2 ^ 31 - 1)%Z ->
  let r := splice_ e false false resv idx del ins pop push v h in
  r = Exit \/ exists (s : spliced), r = Ok s /\ splice_post e vs a m ins push (length l) (resv = true) s.
Proof.
  intros l I La Ld Lq LN r.
  pose proof (inv_rep _ _ _ I _ _ (or_introl eq_refl)) as V.
  assert (SZ : size v = length l) by (rewrite (vrep_size e He _ _ _ V), map_length; reflexivity).
  assert (LL : length l = length a + length d + length m + length q) by (unfold l; rewrite !app_length; lia).
  set (ns := length a + ins + length m + push).
  assert (NS : length l + (ins + push) - length d - length q = ns) by (unfold ns; lia).
  unfold r, splice_. rewrite SZ, <- La, <- Ld, <- Lq, NS.
  destruct (Z.leb_spec (2 ^ 31 - 1) (Z.of_nat (length l + ins + push))); [lia|].
  destruct (Z.leb_spec (Z.of_nat ns) (vcapa v)) as [C1|C1].
  { right. apply hold_ok; auto. }
  assert (RA : let r := reallocate e false false (length a) (length d) ins (length q) (length l) ns (data v) (vcapa v) v h in
    r = Exit \/ exists (s : spliced), r = Ok s /\ splice_post e vs a m ins push (length l) (resv = true) s).
  { apply realloc_ok; auto. unfold ns. lia. }
  cbv zeta in RA.
  destruct (Z.ltb_spec (SMALL_CAPA e) (Z.of_nat ns)) as [C2|C2]; [|exact RA].
  destruct (Z.leb_spec (Z.of_nat ns) (Z.land (wrap 32 (vcapa v)) NOT_SIGN)) as [C3|C3]; [|exact RA].
  cbn [andb].
  destruct (v_data v) as [b|] eqn:D.
  2:{ exfalso. rewrite (vrep_capa_nodata e _ _ _ V D) in C3.
      pose proof (SMALL_CAPA_range e ltac:(lia)) as R.
      rewrite wrap_small in C3 by (unfold word; lia). rewrite land_notsign in C3 by lia. lia. }
  pose proof (vrep_data_big e He _ _ _ b V D) as DV.
  destruct (masked_capa e He _ _ _ _ V D) as (oc & Eoc & Em & [Lo1 Lo2] & Ll & Emu & Eun & Bo & _).
  destruct (negb resv && TRIVIAL e && (push + ins =? 0) && ((length a + length d + length q =? length l) || (length d =? 0))) eqn:FREE.
  - (* free right slice of a shared buffer *)
    apply andb_prop in FREE as [FREE F4]. apply andb_prop in FREE as [FREE F3].
    apply andb_prop in FREE as [F1 F2]. apply negb_true_iff in F1. apply Nat.eqb_eq in F3.
    assert (ins = 0 /\ push = 0) as [-> ->] by lia.
    right. eexists. split; [reflexivity|].
    exists [], []. cbn [length s_vec s_heap s_ptr s_old s_new].
    split; [reflexivity|]. split; [reflexivity|]. split; [intros _; split; constructor|].
    split; [|split; [right; auto|split; [intros [H0|H0]; [lia|congruence]|split; [reflexivity|unfold ns; lia]]]].
    cbn [app]. rewrite app_nil_r, <- map_app.
    assert (PRE : exists tl, l = (a ++ m) ++ tl).
    { apply orb_prop in F4 as [F4|F4].
      - apply Nat.eqb_eq in F4. assert (m = []) by (destruct m; [auto|cbn in *; lia]). subst m.
        exists (d ++ q). unfold l. rewrite app_nil_r. reflexivity.
      - apply Nat.eqb_eq in F4. assert (d = []) by (destruct d; [auto|cbn in *; lia]). subst d.
        exists q. unfold l. rewrite <- app_assoc. reflexivity. }
    destruct PRE as [tl PRE].
    assert (LP : ns = length (map Some (a ++ m))) by (rewrite map_length, app_length; unfold ns; lia).
    clear RA. destruct I as [I1 I2 I3 I4 I5].
    assert (PT : forall b', points_to b' {| v_data := Some b; v_size := ns; v_pack := v_pack v; v_buf := v_buf v |} = points_to b' v)
      by (intros b'; unfold points_to; cbn; rewrite D; reflexivity).
    constructor.
    + intros v' S' [E|H0]; [|apply I1; right; exact H0]. injection E as <- <-.
      destruct V as [rest HS (W & Sm & Sz) Hd Hz Hb Lb|HS Hp Hd Hz Hb HS0|b' c' sh k' rest Hd Hz Hp B' Hsh Hn Hs Hc RW Hb];
        try congruence.
      eapply vrep_big with (b := b') (c := c') (sh := sh) (k := k') (rest := map Some tl ++ rest); cbn;
        [congruence|exact LP|exact Hp|exact B'|exact Hsh|exact Hn| | |congruence|exact Hb].
      * rewrite Hs, PRE, !map_app, <- !app_assoc. reflexivity.
      * rewrite <- LP. rewrite map_length in Hc. unfold ns. lia.
    + intros b' k' H0. rewrite <- (I2 b' k' H0), !refs_cons. cbn [fst]. rewrite PT. reflexivity.
    + intros v' S' b' [E|H0] E' C'.
      * injection E as <- <-. cbn in E'. rewrite <- D in E'.
        rewrite <- (I3 v (map Some l) b' (or_introl eq_refl) E' C'), !refs_cons. cbn [fst]. rewrite PT. reflexivity.
      * rewrite <- (I3 v' S' b' (or_intror H0) E' C'), !refs_cons. cbn [fst]. rewrite PT. reflexivity.
    + exact I4.
    + eapply empt_same; [| |exact I5]; [symmetry; exact D|].
      split; intros E0; apply (f_equal (@length _)) in E0; rewrite ?map_length in E0; cbn [length] in E0; exfalso;
        pose proof (SMALL_CAPA_range e ltac:(lia)); [lia|rewrite app_length in E0; unfold ns in C2; lia].
  - rewrite DV, (is_unique_ok e He _ _ _ _ _ I D). cbn [rbind].
    destruct (Nat.eqb_spec (refs vs b) 0) as [U|U].
    + destruct (mark_unique_inv e He h v _ vs b I D U) as (Iu & Du & Cu & _).
      rewrite <- DV, <- Du. right. apply hold_ok; auto. rewrite Cu. exact C3.
    + rewrite <- DV.
      destruct (negb resv && (length d + length q + ins + push =? 0)) eqn:NOP; cbn [negb andb]; rewrite NOP; [|exact RA].
      apply andb_prop in NOP as [N1 N2]. apply negb_true_iff in N1. apply Nat.eqb_eq in N2.
      assert (ins = 0 /\ push = 0 /\ length d = 0 /\ length q = 0) as (-> & -> & Ed & Eq) by lia.
      apply length_zero_iff_nil in Ed, Eq. right. eexists. split; [reflexivity|].
      exists [], []. cbn [length s_vec s_heap s_ptr s_old s_new].
      split; [reflexivity|]. split; [reflexivity|]. split; [intros _; split; constructor|].
      split; [|split; [right; auto|split; [intros [H0|H0]; [lia|congruence]|split; [reflexivity|unfold ns; lia]]]].
      cbn [app]. rewrite app_nil_r, <- map_app. unfold l in I. rewrite Ed, Eq, app_nil_r in I. exact I.
Qed.

(** [clear] *)
Lemma splice_clear_ok h v vs (l : list A) :
  Inv h ((v, map Some l) :: vs) -> (Z.of_nat (length l) < 2 ^ 31 - 1)%Z ->
  exists (s : spliced), splice_ e false true false 0 0 0 0 0 v h = Ok s /\ Inv (s_heap s) ((s_vec s, []) :: vs).
Proof.
  intros I LN.
  pose proof (inv_rep _ _ _ I _ _ (or_introl eq_refl)) as V.
  assert (SZ : size v = length l) by (rewrite (vrep_size e He _ _ _ V), map_length; reflexivity).
  pose proof (small_capa_Z e He) as SCZ.
  unfold splice_. rewrite SZ. cbn [Nat.min Nat.add Nat.sub]. rewrite !Nat.add_0_r.
  destruct (Z.leb_spec (2 ^ 31 - 1) (Z.of_nat (length l))); [lia|].
  destruct (Z.leb_spec (Z.of_nat 0) (vcapa v)) as [C1|C1].
  - unfold hold_ground. destruct (data v) as [|b|] eqn:DV.
    3:{ destruct (vrep_null_facts e He _ _ _ V DV) as (E0 & C0 & Ev). apply map_eq_nil in E0. subst l.
      cbn [length]. rewrite destroy_0. cbn [rbind]. eexists. split; [reflexivity|]. cbn [s_heap s_vec].
      assert (WS : write_size e 0 v = v).
      { subst v. unfold write_size. unfold VecModel.data in DV. cbn in *.
        destruct (is_small e 0); [discriminate|reflexivity]. }
      rewrite WS. exact I. }
    all: assert (NN : data v <> PNull) by (rewrite DV; discriminate).
    all: destruct (vrep_slots e He _ _ _ V NN) as (rest & SL & RW & CL); rewrite DV in SL.
    all: pose proof (destroy_mid e v h _ [] rest l SL) as DM; cbn [length app] in DM; rewrite DM; cbn [rbind app].
    all: set (R := (if TRIVIAL e then map Some l else repeat None (length l)) ++ rest).
    all: destruct (Inv_store e He h v (map Some l) vs (map Some l ++ rest) [] R I) as (I' & D' & C');
      [lia|exact NN|rewrite DV; exact SL
      |unfold R; cbn [app]; destruct (TRIVIAL e); rewrite !app_length, ?map_length, ?repeat_length; reflexivity
      |cbn; lia
      |intros T; unfold R; rewrite T; apply raw_app; split; [apply raw_repeat|auto]|].
    all: rewrite DV in I'; cbn [app length] in I'.
    all: destruct (store v h _ R) as [v2 h2]; cbn [fst snd rbind] in *.
    all: eexists; split; [reflexivity|exact I'].
  - destruct (v_data v) as [b|] eqn:D.
    2:{ exfalso. rewrite (vrep_capa_nodata e _ _ _ V D) in C1. lia. }
    pose proof (vrep_data_big e He _ _ _ b V D) as DV.
    destruct (masked_capa e He _ _ _ _ V D) as (oc & Eoc & Em & [Lo1 Lo2] & Ll & Emu & Eun & Bo & _).
    destruct (Z.ltb_spec (SMALL_CAPA e) (Z.of_nat 0)); [lia|]. cbn [andb].
    unfold reallocate. destruct (Z.leb_spec (Z.of_nat 0) (SMALL_CAPA e)); [|lia].
    unfold move_or_copy. rewrite Em, DV.
    destruct (shared_dealloc_ok e He _ v l _ b I D) as (h' & E & I' & _). rewrite Eoc in E.
    assert (MV : forall hh : heap (A:=A), (if TRIVIAL e then Ok false
      else if (0 <? vcapa v)%Z then Ok true
      else if (0 <? oc)%Z && (oc <? Z.of_nat 0)%Z then is_unique e hh (PBlk b) else Ok false) = Ok false).
    { intros hh. destruct (TRIVIAL e); [reflexivity|]. destruct (Z.ltb_spec 0 (vcapa v)); [lia|].
      destruct (Z.ltb_spec oc (Z.of_nat 0)); [lia|]. rewrite andb_false_r. reflexivity. }
    rewrite MV. cbn [rbind]. rewrite andb_false_r. cbn [rbind].
    assert (FIN : Inv h' ((if HAS_SMALL e then write_small_v e 0 v else vec0 e, []) :: vs)).
    { destruct (HAS_SMALL e) eqn:HS.
      - destruct (write_small_rep h' v [] (v_buf v) HS (vrep_word _ _ _ V)) as (V' & _); cbn; auto; try lia.
        { eapply buf_length; eauto. }
        apply Inv_add_nodata; auto.
      - apply Inv_add_nodata; auto. apply vrep_vec0; auto. }
    rewrite E. destruct (Z.ltb_spec (SMALL_CAPA e) oc); [|lia].
    destruct (TRIVIAL e); cbn [rbind]; (eexists; split; [reflexivity|exact FIN]).
Qed.

(** Initialisation of a fresh vec with room for [n] elements. *)
Lemma splice_init_ok h vs n :
  Inv h vs -> (Z.of_nat n < 2 ^ 31 - 1)%Z ->
  let r := splice_ e true false false 0 0 0 0 n (vec0 (A:=A) e) h in
  r = Exit \/ exists (s : spliced), r = Ok s /\ Inv (s_heap s) ((s_vec s, repeat None n) :: vs) /\
    (s_ptr s = data (s_vec s) \/ n = 0) /\ (Z.of_nat n <= vcapa (s_vec s))%Z /\
    (exists h0, s_heap s = h ++ h0).
Proof.
  intros I LN r. pose proof (small_capa_Z e He) as SCZ.
  unfold r, splice_. cbn [Nat.min Nat.add Nat.sub].
  rewrite Nat.sub_0_r. rewrite Nat.sub_0_r.
  destruct (Z.leb_spec (2 ^ 31 - 1) (Z.of_nat n)); [lia|].
  unfold reallocate. destruct (Z.leb_spec (Z.of_nat n) (SMALL_CAPA e)) as [LS|LS].
  - right. eexists. split; [reflexivity|]. cbn [s_heap s_vec s_ptr].
    destruct (HAS_SMALL e) eqn:HS.
    + destruct (write_small_rep h (vec0 e) (repeat None n) (repeat None (small_capa e - n)) HS) as (V' & D' & C').
      * cbn. unfold word. lia.
      * rewrite repeat_length. exact LS.
      * cbn. unfold raw_buf. rewrite <- repeat_app. f_equal. lia.
      * cbn. unfold raw_buf. apply repeat_length.
      * rewrite repeat_length in V', D', C'. split; [apply Inv_add_nodata; auto|].
        split; [left; auto|]. split; [rewrite C'; exact LS|]. exists []. rewrite app_nil_r. reflexivity.
    + rewrite no_small in * by auto. assert (n = 0) by lia. subst n. cbn [repeat].
      split; [apply Inv_add_nodata; auto; apply vrep_vec0; auto|]. split; [right; auto|].
      split; [rewrite vec0_capa, no_small by auto; lia|]. exists []. rewrite app_nil_r. reflexivity.
  - destruct (alloc_ok e He h n ltac:(lia)) as [->|(c & k & -> & B & L)]; [left; reflexivity|]. right.
    cbn [rbind orb]. rewrite andb_false_r. cbn [rbind]. eexists. split; [reflexivity|]. cbn [s_heap s_vec s_ptr].
    destruct (write_big_facts e He (length h) n c (vec0 (A:=A) e) B) as [WD WC].
    split.
    + pose proof (Inv_add_block e h vs (vec0 e) (repeat None n) (repeat None (k - n)) c I B) as I'.
      rewrite <- repeat_app, repeat_length in I'. replace (n + (k - n)) with k in I' by lia.
      apply I'; [rewrite repeat_length; lia|intros _; apply raw_repeat].
    + split; [left; auto|]. split; [rewrite WC; lia|]. eexists. reflexivity.
Qed.
End Splice3.
