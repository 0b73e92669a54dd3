(** Correctness of [_Splice], continued: reallocation, and the whole primitive. *)
From Verif Require Import VecModel VecPackProofs ArcProofs CommonLemmas VecMem VecInv VecSplice WordsLemmas.
From Coq Require Import Permutation.
Open Scope nat_scope.

Section Splice2.
Context {A : Type} (e : elt) (He : (0 < esz e < 2 ^ 31)%Z).
Implicit Types (h : heap (A:=A)) (v : vec (A:=A)) (p q : ptr) (s S : list (option A)).
Local Notation size := (size e).
Local Notation data := (data e).
Local Notation vcapa := (vcapa e).
Local Notation Inv := (Inv e).

Definition gapped (a m : list A) (ins push : nat) : list (option A) :=
  map Some a ++ repeat None ins ++ map Some m ++ repeat None push.
Lemma gapped_length a m ins push : length (gapped a m ins push) = length a + ins + length m + push.
Proof. unfold gapped. rewrite !app_length, !map_length, !repeat_length. lia. Qed.

Lemma filled_split a m ins push n : length a + ins + length m + push <= n ->
  filled (A:=A) a m ins n = gapped a m ins push ++ repeat None (n - (length a + ins + length m + push)).
Proof.
  intros H. unfold filled, gapped. rewrite <- !app_assoc. do 3 f_equal.
  rewrite <- repeat_app. f_equal. lia.
Qed.

Lemma post_gapped vs a m ins push old_size M v h p n :
  Inv h ((v, gapped a m ins push) :: vs) -> p = data v ->
  n = length a + ins + length m + push -> (Z.of_nat n <= vcapa v)%Z ->
  splice_post e vs a m ins push old_size M {| s_vec := v; s_heap := h; s_ptr := p; s_old := old_size; s_new := n |}.
Proof.
  intros I -> -> C. exists (repeat None ins), (repeat None push).
  rewrite !repeat_length. cbn.
  split; [reflexivity|]. split; [reflexivity|]. split; [intros _; split; apply raw_repeat|].
  split; [exact I|]. split; [left; reflexivity|]. split; [intros _; exact C|]. auto.
Qed.

Lemma write_big_facts b n c v : big_ok e c ->
  data (write_big e b n c v) = PBlk b /\ vcapa (write_big e b n c v) = c.
Proof.
  intros B.
  pose proof (bigword_not_small e c false ltac:(lia) B) as NS.
  pose proof (capa_bigword e c false ltac:(lia) B) as C. unfold bigword in *. cbn in NS, C.
  split; [unfold VecModel.data; cbn; rewrite NS; reflexivity|exact C].
Qed.

Lemma add_filled h vs v a m ins push n c :
  Inv h vs -> big_ok e c -> (Z.of_nat (length a + ins + length m + push) <= c <= Z.of_nat n)%Z ->
  Inv (h ++ [Some {| b_arc := 0; b_slots := filled a m ins n |}])
    ((write_big e (length h) (length a + ins + length m + push) c v, gapped a m ins push) :: vs).
Proof.
  intros I B L. rewrite (filled_split a m ins push n) by lia.
  rewrite <- (gapped_length a m ins push). apply Inv_add_block; auto.
  - rewrite app_length, repeat_length, gapped_length. lia.
  - intros _. apply raw_repeat.
Qed.

Lemma read_range_frame v v' h h' p off n :
  slots_at v h p = slots_at v' h' p -> read_range v h p off n = read_range v' h' p off n.
Proof. intros H. unfold read_range. rewrite H. reflexivity. Qed.

Lemma slots_app_old v h x b k : nth_error h b = Some (Some k) ->
  slots_at v (h ++ [x]) (PBlk b) = Ok (b_slots k).
Proof.
  intros K. cbn. unfold get_block. rewrite nth_error_app1 by (apply nth_error_lt in K; exact K).
  rewrite K. reflexivity.
Qed.
Lemma slots_app_new v h k : slots_at v (h ++ [Some k]) (PBlk (length h)) = Ok (b_slots k).
Proof. cbn. unfold get_block. rewrite nth_error_app2, Nat.sub_diag by lia. reflexivity. Qed.
Lemma store_app_new v h k s : store v (h ++ [Some k]) (PBlk (length h)) s =
  (v, h ++ [Some {| b_arc := b_arc k; b_slots := s |}]).
Proof.
  cbn. rewrite nth_error_app2, Nat.sub_diag by lia. cbn. rewrite hset_app_last. reflexivity.
Qed.

Lemma vrep_block h v S b : vrep e h v S -> v_data v = Some b ->
  exists k rest, nth_error h b = Some (Some k) /\ b_slots k = S ++ rest /\ (TRIVIAL e = false -> raw_list rest).
Proof.
  intros V D. destruct V as [rest HS (W & Sm & Sz) Hd Hz Hb L|HS Hp Hd Hz Hb HS0|b' c' sh k' rest Hd Hz Hp B Hsh Hn Hs Hc RW Hb];
    try congruence. replace b with b' by congruence. eauto.
Qed.

(** Moving or copying from a heap block [b] into a fresh block. *)
Lemma move_or_copy_new h v vs (a d m q : list A) ins push n c b M :
  let l := a ++ d ++ m ++ q in
  let new_size := length a + ins + length m + push in
  Inv h ((v, map Some l) :: vs) -> v_data v = Some b ->
  big_ok e c -> (Z.of_nat new_size <= c <= Z.of_nat n)%Z ->
  exists r, move_or_copy e false (length a) (length d) ins (length q) (length l) new_size
      (PBlk b) (PBlk (length h)) (vcapa v)
      (write_big e (length h) new_size c v) (h ++ [Some {| b_arc := 0; b_slots := repeat None n |}]) = Ok r /\
    splice_post e vs a m ins push (length l) M r.
Proof.
  intros l new_size I D B LC.
  pose proof (inv_rep _ _ _ I _ _ (or_introl eq_refl)) as V.
  destruct (masked_capa e He _ _ _ _ V D) as (oc & Eoc & Em & [Lo1 Lo2] & Ll & Emu & Eun & Bo & _).
  destruct (vrep_block _ _ _ _ V D) as (k & rest & K & SL & RW).
  destruct (write_big_facts (length h) new_size c v B) as [WD WC].
  assert (Lb : b < length h) by (apply nth_error_lt in K; exact K).
  assert (Nb : PBlk (length h) <> PBlk b) by (intros E; injection E; lia).
  set (h1 := h ++ [Some {| b_arc := 0; b_slots := repeat None n |}]).
  set (w := write_big e (length h) new_size c v) in *.
  assert (S1 : slots_at w h1 (PBlk b) = Ok (map Some l ++ rest)).
  { unfold h1. rewrite (slots_app_old _ _ _ _ _ K), SL. reflexivity. }
  assert (S2 : slots_at w h1 (PBlk (length h)) = Ok (repeat None n)).
  { unfold h1. rewrite slots_app_new. reflexivity. }
  assert (LN : length a + ins + length m <= n) by (unfold new_size in LC; lia).
  assert (IU : is_unique e h1 (PBlk b) = Ok (refs vs b =? 0)).
  { rewrite <- (is_unique_ok e He _ _ _ _ _ I D). unfold is_unique, h1.
    destruct (SHAREABLE e); [|reflexivity]. unfold get_block. rewrite nth_error_app1 by exact Lb. reflexivity. }
  assert (PTW : forall b', points_to b' w = (length h =? b')) by reflexivity.
  unfold move_or_copy. rewrite Em. fold h1.
  (* the copying outcome *)
  assert (COPY : exists r,
    (let! (v, hh) := (let! (v, hh) := copy_ctor e w h1 (PBlk (length h)) 0 (PBlk b) 0 (length a) in
        copy_ctor e v hh (PBlk (length h)) (length a + ins) (PBlk b) (length a + length d)
          (length l - (length a + length d + length q))) in
     let! hh := shared_dealloc e hh (PBlk b) (length l) oc in
     Ok {| s_vec := v; s_heap := hh; s_ptr := PBlk (length h1 - 1); s_old := length l; s_new := new_size |}) = Ok r /\
    splice_post e vs a m ins push (length l) M r).
  { replace (length l - (length a + length d + length q)) with (length m)
      by (unfold l; rewrite !app_length; lia).
    rewrite (two_piece_copy e w h1 _ _ a d m q rest ins n Nb S1 S2 LN).
    unfold h1. rewrite store_app_new. cbn [rbind b_arc].
    pose proof (add_filled h ((v, map Some l) :: vs) v a m ins push n c I B LC) as I1.
    eapply Inv_perm in I1; [|apply perm_swap].
    destruct (shared_dealloc_ok e He _ v l _ b I1 D) as (h' & E & I' & _).
    rewrite Eoc in E. rewrite E. cbn [rbind].
    rewrite app_length. cbn [length]. replace (length h + 1 - 1) with (length h) by lia.
    eexists. split; [reflexivity|]. apply post_gapped; auto.
    fold new_size. fold w. rewrite WC. lia. }
  assert (HL : length h1 - 1 = length h) by (unfold h1; rewrite app_length; cbn; lia).
  rewrite HL in COPY.
  destruct (TRIVIAL e) eqn:T.
  - (* trivial: always copy *)
    cbn [rbind orb andb negb]. exact COPY.
  - rewrite nontrivial_capa in * by auto.
    set (MV := if (0 <? vcapa v)%Z then Ok true else _).
    assert (NSH : SHAREABLE e = false -> (0 < vcapa v)%Z).
    { intros SH. clear - V D SH He Lo1 T.
      destruct V as [rest' HS (W & Sm & Sz) Hd Hz Hb L|HS Hp Hd Hz Hb HS0|b' c' sh k' rest' Hd Hz Hp B' Hsh Hn Hs Hc RW' Hb];
        try congruence.
      unfold VecModel.vcapa. rewrite Hp, capa_bigword by (auto; lia). rewrite (Hsh SH).
      destruct B' as [B' _]. rewrite nontrivial_capa in B' by auto. lia. }
    assert (EMV : MV = Ok false /\ SHAREABLE e = true \/ MV = Ok true /\ refs vs b = 0).
    { unfold MV. destruct (Z.ltb_spec 0 (vcapa v)) as [P|P].
      - right. split; [reflexivity|].
        pose proof (inv_uniq _ _ _ I _ _ b (or_introl eq_refl) D ltac:(lia)) as U.
        rewrite refs_cons in U. cbn [fst] in U. unfold points_to in U. rewrite D, Nat.eqb_refl in U. lia.
      - assert (SH : SHAREABLE e = true) by (destruct (SHAREABLE e); auto; specialize (NSH eq_refl); lia).
        destruct ((0 <? oc)%Z && (oc <? Z.of_nat new_size)%Z); [|left; auto].
        rewrite IU. destruct (Nat.eqb_spec (refs vs b) 0); [right; auto|left; auto]. }
    destruct EMV as [[-> SH]|[-> U]]; cbn [rbind].
    + (* copy because shared *)
      rewrite SH. cbn [orb andb negb]. destruct (Z.ltb_spec 0 oc); [|lia]. exact COPY.
    + (* relocate *)
      destruct (Z.ltb_spec 0 oc); [|lia]. clear COPY.
      assert (D1 : destroy_range e w h1 (PBlk b) (length a) (length d) =
        Ok (store w h1 (PBlk b) (map Some a ++ repeat None (length d) ++ map Some m ++ map Some q ++ rest))).
      { unfold l in S1. rewrite !map_app, <- !app_assoc in S1. rewrite <- (map_length Some a).
        rewrite (destroy_mid e _ _ _ _ _ _ S1), T. reflexivity. }
      rewrite D1. cbn [rbind].
      set (Q1 := map Some a ++ repeat None (length d) ++ map Some m ++ map Some q ++ rest).
      pose proof (slots_store w h1 (PBlk b) _ Q1 S1) as SQ1.
      pose proof (fun s2 => store_store w h1 (PBlk b) _ Q1 s2 S1) as SS1.
      destruct (store w h1 (PBlk b) Q1) as [w1 g1] eqn:ST1. cbn [fst snd] in SQ1, SS1.
      set (Q2 := map Some a ++ repeat None (length d) ++ map Some m ++ repeat None (length q) ++ rest).
      assert (D2 : destroy_range e w1 g1 (PBlk b) (length l - length q) (length q) = Ok (store w h1 (PBlk b) Q2)).
      { rewrite <- SS1. unfold Q1 in SQ1. rewrite !app_assoc in SQ1. rewrite <- (app_assoc _ (map Some q) rest) in SQ1.
        replace (length l - length q) with (length ((map Some a ++ repeat None (length d)) ++ map Some m))
          by (unfold l; rewrite !app_length, !map_length, repeat_length; lia).
        rewrite (destroy_mid e _ _ _ _ _ _ SQ1), T. unfold Q2. rewrite <- !app_assoc. reflexivity. }
      rewrite D2. cbn [rbind].
      pose proof (slots_store w h1 (PBlk b) _ Q2 S1) as SQ2.
      pose proof (slots_store_other w h1 (PBlk b) (PBlk (length h)) Q2 ltac:(congruence)) as SP2. rewrite S2 in SP2.
      pose proof (fun s2 => store_store w h1 (PBlk b) _ Q2 s2 S1) as SS2.
      destruct (store w h1 (PBlk b) Q2) as [w2 g2] eqn:ST2. cbn [fst snd] in SQ2, SP2, SS2.
      specialize (RW eq_refl).
      rewrite (two_piece_move_nontrivial e w2 g2 (length h) b a m (repeat None (length d))
        (repeat None (length q) ++ rest) ins n (length d) (length q) (length l) T
        ltac:(lia) SQ2 (raw_repeat _) (proj2 (raw_app _ _) (conj (raw_repeat _) RW))
        (repeat_length _ _) SP2 LN ltac:(unfold l; rewrite !app_length; lia)).
      rewrite SS2. cbn [rbind].
      set (QF := repeat None (length a) ++ repeat None (length d) ++ repeat None (length m) ++ repeat None (length q) ++ rest).
      assert (EQF : store w h1 (PBlk b) QF =
         (w, hset h b (Some {| b_arc := b_arc k; b_slots := QF |}) ++ [Some {| b_arc := 0; b_slots := repeat None n |}])).
      { unfold h1. cbn [store]. rewrite nth_error_app1, K by exact Lb. rewrite hset_app_l by exact Lb. reflexivity. }
      rewrite EQF. cbn [fst snd].
      set (h2 := hset h b (Some {| b_arc := b_arc k; b_slots := QF |})).
      assert (Lh2 : length h2 = length h) by apply hset_length.
      assert (SN : store w (h2 ++ [Some {| b_arc := 0; b_slots := repeat None n |}]) (PBlk (length h)) (filled a m ins n)
        = (w, h2 ++ [Some {| b_arc := 0; b_slots := filled a m ins n |}]))
        by (rewrite <- Lh2; apply store_app_new).
      rewrite SN. cbn [b_arc rbind].
      (* ghost: the old vec, marked unique, its elements gone *)
      destruct (mark_unique_inv e He h v _ vs b I D U) as (Iu & Du & Cu & _).
      set (vu := set_pack (mark_unique e (v_pack v)) v) in *.
      rewrite Em in Cu. pose proof (vrep_data_big e He _ _ _ b V D) as DV. rewrite DV in Du.
      assert (SU : slots_at vu h (data vu) = Ok (map Some l ++ rest)).
      { rewrite Du. cbn. rewrite (get_block_ok _ _ _ K). cbn. rewrite SL. reflexivity. }
      assert (EQ2 : QF = repeat None (length l) ++ rest).
      { unfold QF, l. rewrite !app_length, !repeat_app, <- !app_assoc. reflexivity. }
      destruct (Inv_store e He h vu (map Some l) vs (map Some l ++ rest) (repeat None (length l)) rest Iu) as (I2 & _ & _).
      * rewrite Cu. lia.
      * rewrite Du. discriminate.
      * exact SU.
      * rewrite !app_length, repeat_length, map_length. reflexivity.
      * rewrite repeat_length, Cu. rewrite map_length in Ll. lia.
      * intros _. exact RW.
      * rewrite Du, <- EQ2, repeat_length in I2. cbn [store] in I2. rewrite K in I2. cbn [fst snd] in I2.
        fold h2 in I2.
        assert (WU : write_size e (length l) vu =
           {| v_data := Some b; v_size := length l; v_pack := bigword e oc false; v_buf := v_buf v |}).
        { unfold write_size, vu. cbn. rewrite Emu, bigword_not_small by (auto; lia). rewrite D. reflexivity. }
        rewrite WU in I2.
        pose proof (add_filled h2 _ v a m ins push n c I2 B LC) as I3.
        eapply Inv_perm in I3; [|apply perm_swap].
        destruct (uniq_dealloc_ok e He _ _ _ _ b I3 eq_refl) as (E4 & I4).
        -- rewrite refs_cons. cbn [fst]. unfold points_to. cbn [v_data write_big]. rewrite Lh2.
           destruct (Nat.eqb_spec (length h) b); [lia|]. rewrite U. reflexivity.
        -- intros _. apply raw_repeat.
        -- cbn [v_pack] in E4. rewrite shared_capa_bigword in E4 by (auto; lia).
           rewrite E4. cbn [rbind]. eexists. split; [reflexivity|].
           rewrite Lh2 in I4. apply post_gapped; auto.
           fold new_size. fold w. rewrite WC. lia.
Qed.
End Splice2.
