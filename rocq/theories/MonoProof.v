(* Proofs about MonoModel. *)
From Coq Require Import List ZArith NArith Bool Lia.
From Verif Require Import MonoSpec MonoModel.
Import ListNotations.
Local Open Scope Z_scope.

Lemma get_some : forall m i, 0 <= i < len m -> get m i = Some (at_ m i).
Proof.
  intros m i H. unfold get. destruct (Z.leb_spec 0 i), (Z.ltb_spec i (len m)); cbn; try lia. reflexivity.
Qed.

Lemma put_some : forall m i v, 0 <= i < len m ->
  put m i v = Some {| len := len m; at_ := fun j => if Z.eqb j i then v else at_ m j |}.
Proof.
  intros m i v H. unfold put. destruct (Z.leb_spec 0 i), (Z.ltb_spec i (len m)); cbn; try lia. reflexivity.
Qed.

Lemma copy_row_ok : forall n src so d dest,
  0 <= so -> so + Z.of_nat n <= len src -> 0 <= d -> d + Z.of_nat n <= len dest ->
  exists dest', copy_row n src so d dest = Some dest' /\ len dest' = len dest /\
    forall a, at_ dest' a = if (Z.leb d a && Z.ltb a (d + Z.of_nat n))%bool then at_ src (so + (a - d)) else at_ dest a.
Proof.
  induction n as [| n IH]; intros src so d dest H1 H2 H3 H4; cbn [copy_row].
  - exists dest. repeat split. intro a. destruct (Z.leb_spec d a), (Z.ltb_spec a (d + Z.of_nat 0)); cbn; try reflexivity. lia.
  - rewrite get_some by lia. rewrite put_some by lia.
    destruct (IH src (so + 1) (d + 1) {| len := len dest; at_ := fun j => if Z.eqb j d then at_ src so else at_ dest j |})
      as (dest' & E & L & P); cbn [len]; try lia.
    exists dest'. split; [exact E |]. split; [exact L |]. intro a. rewrite P. cbn [at_].
    destruct (Z.leb_spec (d + 1) a), (Z.ltb_spec a (d + 1 + Z.of_nat n)), (Z.leb_spec d a),
      (Z.ltb_spec a (d + Z.of_nat (S n))), (Z.eqb_spec a d); cbn; try lia; try reflexivity.
    + f_equal. lia.
    + f_equal. lia.
Qed.

Lemma copy_rows_ok : forall h sw dw src so d dest,
  0 <= sw <= dw -> 0 <= so -> so + Z.of_nat h * sw <= len src ->
  0 <= d -> (h = O \/ d + (Z.of_nat h - 1) * dw + sw <= len dest) ->
  exists dest', copy_rows h sw dw src so d dest = Some dest' /\ len dest' = len dest /\
    (forall y x, 0 <= y < Z.of_nat h -> 0 <= x < sw ->
       at_ dest' (d + y * dw + x) = at_ src (so + y * sw + x)) /\
    (forall a, (forall y x, 0 <= y < Z.of_nat h -> 0 <= x < sw -> a <> d + y * dw + x) ->
       at_ dest' a = at_ dest a).
Proof.
  induction h as [| h IH]; intros sw dw src so d dest W S1 S2 D1 D2; cbn [copy_rows].
  - exists dest. repeat split; auto. intros; lia.
  - assert (D3 : d + Z.of_nat h * dw + sw <= len dest).
    { destruct D2 as [D2 | D2]; [discriminate |]. replace (Z.of_nat (S h) - 1) with (Z.of_nat h) in D2 by lia. exact D2. }
    assert (M0 : 0 <= Z.of_nat h * sw) by (apply Z.mul_nonneg_nonneg; lia).
    assert (M1 : 0 <= Z.of_nat h * dw) by (apply Z.mul_nonneg_nonneg; lia).
    rewrite Nat2Z.inj_succ, Z.mul_succ_l in S2.
    destruct (copy_row_ok (Z.to_nat sw) src so d dest) as (m1 & E1 & L1 & P1); try lia.
    rewrite E1. rewrite Z2Nat.id in P1 by lia.
    destruct (IH sw dw src (so + sw) (d + dw) m1) as (m2 & E2 & L2 & P2 & Q2); try lia.
    exists m2. split; [exact E2 |]. split; [lia |]. split.
    + intros y x Hy Hx. destruct (Z.eq_dec y 0) as [-> | Ny].
      * rewrite Q2.
        -- rewrite P1. destruct (Z.leb_spec d (d + 0 * dw + x)), (Z.ltb_spec (d + 0 * dw + x) (d + sw)); cbn; try lia.
           f_equal. lia.
        -- intros y' x' Hy' Hx'. assert (0 <= y' * dw) by (apply Z.mul_nonneg_nonneg; lia). lia.
      * specialize (P2 (y - 1) x ltac:(lia) Hx).
        replace (d + y * dw + x) with (d + dw + (y - 1) * dw + x) by ring.
        rewrite P2. f_equal. ring.
    + intros a Ha. rewrite Q2.
      * rewrite P1. destruct (Z.leb_spec d a), (Z.ltb_spec a (d + sw)); cbn; try reflexivity.
        exfalso. apply (Ha 0 (a - d)); lia.
      * intros y x Hy Hx E. apply (Ha (y + 1) x); [lia | lia |]. rewrite E. ring.
Qed.

Definition contains (db b : box) : Prop :=
  x_min db <= x_min b /\ x_max b <= x_max db /\ y_min db <= y_min b /\ y_max b <= y_max db.

Lemma unique2 : forall m r k r' k', 0 <= k < m -> 0 <= k' < m -> r * m + k = r' * m + k' -> r = r' /\ k = k'.
Proof.
  intros m r k r' k' H H' E.
  assert (r = r'). { destruct (Z.lt_trichotomy r r') as [L | [L | L]]; [nia | exact L | nia]. }
  subst. split; [reflexivity | lia].
Qed.

Lemma move_glyph_ok : forall db src i n g dest,
  proper (gbox g) -> contains db (gbox g) -> stored src g ->
  0 <= i < n -> len dest = n * stride db ->
  (forall a, i * stride db <= a < (i + 1) * stride db -> at_ dest a = 0%N) ->
  exists g' dest', move_glyph db src i g dest = Some (g', dest') /\ len dest' = len dest /\
    gbox g' = db /\
    (forall x y, pixel dest' g' x y = pixel src g x y) /\
    (top_left g' = i * stride db) /\
    (forall a, a < i * stride db \/ (i + 1) * stride db <= a -> at_ dest' a = at_ dest a).
Proof.
  intros db src i n g dest [PX PY] (C1 & C2 & C3 & C4) [T0 T1] Hi HL HZ.
  unfold move_glyph. set (sb := gbox g) in *.
  set (dw := width db). set (dh := height db). set (sw := width sb). set (sh := height sb).
  assert (HS : stride db = dw * dh) by reflexivity.
  assert (Bw : 0 <= sw <= dw) by (unfold sw, dw, width; lia).
  assert (Bh : 0 <= sh <= dh) by (unfold sh, dh, height; lia).
  rewrite !Z.max_l by lia.
  set (left := x_min sb - x_min db). set (top := y_max db - y_max sb).
  assert (Bl : 0 <= left /\ left + sw <= dw) by (unfold left, sw, dw, width; lia).
  assert (Bt : 0 <= top /\ top + sh <= dh) by (unfold top, sh, dh, height; lia).
  assert (Sd : 0 <= dw * dh) by (apply Z.mul_nonneg_nonneg; lia).
  destruct (Z.leb_spec 0 left), (Z.leb_spec 0 top), (Z.leb_spec sw dw), (Z.leb_spec sh dh); try lia. cbn [andb].
  set (d := i * stride db + (top * dw + left)).
  assert (D0 : 0 <= i * stride db) by (rewrite HS; apply Z.mul_nonneg_nonneg; lia).
  assert (D1 : 0 <= top * dw) by (apply Z.mul_nonneg_nonneg; lia).
  assert (Wn : forall y x, 0 <= y < sh -> 0 <= x < sw ->
    d + y * dw + x = i * stride db + ((top + y) * dw + (left + x)) /\
    0 <= (top + y) * dw + (left + x) < stride db).
  { intros y x Hy Hx. split; [unfold d; ring |]. rewrite HS. split.
    - assert (0 <= (top + y) * dw) by (apply Z.mul_nonneg_nonneg; lia). lia.
    - assert ((top + y) * dw <= (dh - 1) * dw) by (apply Z.mul_le_mono_nonneg_r; lia).
      replace (dw * dh) with ((dh - 1) * dw + dw) by ring. lia. }
  destruct (copy_rows_ok (Z.to_nat sh) sw dw src (top_left g) d dest) as (dest' & E & L & P & Q); try lia.
  { rewrite Z2Nat.id by lia. fold (width sb) (height sb) in T1. fold sw sh in T1. lia. }
  { destruct (Z.eq_dec sh 0) as [Z0 | Z0]; [left; rewrite Z0; reflexivity | right].
    rewrite Z2Nat.id by lia. rewrite HL.
    assert (A1 : (top + (sh - 1)) * dw <= (dh - 1) * dw) by (apply Z.mul_le_mono_nonneg_r; lia).
    assert (A2 : (i + 1) * (dw * dh) <= n * (dw * dh)) by (apply Z.mul_le_mono_nonneg_r; lia).
    unfold d. rewrite HS. replace ((i + 1) * (dw * dh)) with (i * (dw * dh) + ((dh - 1) * dw + dw)) in A2 by ring.
    replace ((top + (sh - 1)) * dw) with (top * dw + (sh - 1) * dw) in A1 by ring. lia. }
  rewrite E. rewrite Z2Nat.id in P, Q by lia.
  eexists _, dest'. split; [reflexivity |]. cbn [gbox top_left]. repeat split; auto.
  - intros x y. unfold pixel. cbn [gbox top_left]. fold sb.
    change (x_max db - x_min db) with dw. change (x_max sb - x_min sb) with sw.
    destruct (inside sb x y) eqn:IS.
    + unfold inside in IS. rewrite !andb_true_iff in IS. destruct IS as (((I1 & I2) & I3) & I4).
      apply Z.leb_le in I1, I3. apply Z.ltb_lt in I2, I4.
      assert (ID : inside db x y = true).
      { unfold inside. rewrite !andb_true_iff. repeat split; try (apply Z.leb_le; lia); apply Z.ltb_lt; lia. }
      rewrite ID.
      specialize (P (y_max sb - 1 - y) (x - x_min sb)). rewrite <- P.
      * f_equal. unfold d, top, left. ring.
      * unfold sh, height. lia.
      * unfold sw, width. lia.
    + destruct (inside db x y) eqn:ID; [| reflexivity].
      unfold inside in ID. rewrite !andb_true_iff in ID. destruct ID as (((I1 & I2) & I3) & I4).
      apply Z.leb_le in I1, I3. apply Z.ltb_lt in I2, I4.
      set (r := y_max db - 1 - y). set (k := x - x_min db).
      assert (Br : 0 <= r < dh) by (unfold r, dh, height; lia).
      assert (Bk : 0 <= k < dw) by (unfold k, dw, width; lia).
      assert (Bi : 0 <= r * dw + k < stride db).
      { rewrite HS. split.
        - assert (0 <= r * dw) by (apply Z.mul_nonneg_nonneg; lia). lia.
        - assert (r * dw <= (dh - 1) * dw) by (apply Z.mul_le_mono_nonneg_r; lia).
          replace (dw * dh) with ((dh - 1) * dw + dw) by ring. lia. }
      rewrite Q.
      * apply HZ. lia.
      * intros y' x' Hy' Hx' Eq. destruct (Wn y' x' Hy' Hx') as [E1 _]. rewrite E1 in Eq.
        assert (Eq' : r * dw + k = (top + y') * dw + (left + x')) by lia.
        apply unique2 in Eq'; [| lia | lia]. destruct Eq' as [Er Ek].
        assert (F : inside sb x y = true); [| congruence].
        unfold inside. unfold r, top, sh, height in *. unfold k, left, sw, width in *.
        rewrite !andb_true_iff. repeat split; try (apply Z.leb_le; lia); apply Z.ltb_lt; lia.
  - intros a Ha. apply Q. intros y x Hy Hx Eq. destruct (Wn y x Hy Hx) as [E1 E2]. lia.
Qed.

Lemma pixel_local : forall m m' g i s, 0 <= s -> stride (gbox g) = s -> top_left g = i * s ->
  (forall a, i * s <= a < (i + 1) * s -> at_ m a = at_ m' a) ->
  forall x y, pixel m g x y = pixel m' g x y.
Proof.
  intros m m' g i s Hs S T H x y. unfold pixel. destruct (inside (gbox g) x y) eqn:I; [| reflexivity].
  unfold inside in I. rewrite !andb_true_iff in I. destruct I as (((I1 & I2) & I3) & I4).
  apply Z.leb_le in I1, I3. apply Z.ltb_lt in I2, I4. apply H. rewrite T.
  set (w := x_max (gbox g) - x_min (gbox g)). set (r := y_max (gbox g) - 1 - y).
  assert (SS : s = w * (y_max (gbox g) - y_min (gbox g))) by (rewrite <- S; reflexivity).
  assert (0 <= r * w) by (apply Z.mul_nonneg_nonneg; unfold r, w; lia).
  assert (r * w <= (y_max (gbox g) - y_min (gbox g) - 1) * w) by (apply Z.mul_le_mono_nonneg_r; unfold r, w; lia).
  replace ((y_max (gbox g) - y_min (gbox g) - 1) * w) with (s - w) in H1 by (rewrite SS; ring).
  unfold w in *. lia.
Qed.

Lemma move_glyphs_ok : forall db src n gs i dest, 0 <= stride db ->
  (forall g, In g gs -> proper (gbox g) /\ contains db (gbox g) /\ stored src g) ->
  0 <= i -> i + Z.of_nat (length gs) <= n -> len dest = n * stride db ->
  (forall a, i * stride db <= a -> at_ dest a = 0%N) ->
  exists gs' dest', move_glyphs db src i gs dest = Some (gs', dest') /\ len dest' = len dest /\
    Forall2 (fun g g' => gbox g' = db /\ stored dest' g' /\ forall x y, pixel dest' g' x y = pixel src g x y) gs gs' /\
    (forall a, a < i * stride db -> at_ dest' a = at_ dest a).
Proof.
  intros db src n. induction gs as [| g gs IH]; intros i dest Hs Hg Hi Hn HL HZ; cbn [move_glyphs].
  - exists [], dest. repeat split; auto.
  - cbn [length] in Hn. rewrite Nat2Z.inj_succ in Hn.
    destruct (Hg g (or_introl eq_refl)) as (G1 & G2 & G3).
    destruct (move_glyph_ok db src i n g dest G1 G2 G3) as (g' & m1 & E1 & L1 & B1 & P1 & T1 & Q1); auto; try lia.
    { intros a Ha. apply HZ. lia. }
    rewrite E1.
    assert (St : (i + 1) * stride db = i * stride db + stride db) by ring.
    destruct (IH (i + 1) m1) as (gs' & m2 & E2 & L2 & F2 & Q2); auto; try lia.
    { intros x Hx. apply Hg. right. exact Hx. }
    { intros a Ha. rewrite Q1 by lia. apply HZ. lia. }
    rewrite E2. exists (g' :: gs'), m2. split; [reflexivity |]. split; [lia |]. split.
    + constructor; [| exact F2]. split; [exact B1 |]. split.
      * unfold stored. rewrite T1, B1. fold (width db) (height db). fold (stride db).
        rewrite L2, L1, HL. assert (0 <= i * stride db) by (apply Z.mul_nonneg_nonneg; lia).
        assert ((i + 1) * stride db <= n * stride db) by (apply Z.mul_le_mono_nonneg_r; lia). lia.
      * intros x y. rewrite <- P1. apply (pixel_local m2 m1 g' i (stride db)); auto.
        -- rewrite B1. reflexivity.
        -- intros a Ha. apply Q2. lia.
    + intros a Ha. rewrite Q2 by lia. apply Q1. lia.
Qed.

Lemma widen_contains : forall gs b,
  contains (fold_left widen gs b) b /\ forall g, In g gs -> contains (fold_left widen gs b) (gbox g).
Proof.
  induction gs as [| g gs IH]; intros b; cbn [fold_left].
  - split; [unfold contains; lia | contradiction].
  - destruct (IH (widen b g)) as [I1 I2].
    set (u := fold_left widen gs (widen b g)) in *.
    destruct I1 as (A1 & A2 & A3 & A4). cbn in A1, A2, A3, A4.
    split; [unfold contains; lia |]. intros x [<- | Hx]; [unfold contains; lia | auto].
Qed.

Lemma first_box_in : forall gs cur, gs <> [] -> exists g, In g gs /\ first_box cur gs = gbox g.
Proof.
  induction gs as [| g gs IH]; intros cur H; [congruence |]. cbn [first_box].
  destruct (truthy (gbox g)); [exists g; cbn; auto |].
  destruct gs as [| g2 gs]; [exists g; cbn; auto |].
  destruct (IH (gbox g) ltac:(discriminate)) as (x & Hx & E). exists x. split; [right; exact Hx | exact E].
Qed.

(* the hull is no larger than it must be *)
Lemma widen_least : forall gs b u, contains u b -> (forall g, In g gs -> contains u (gbox g)) ->
  contains u (fold_left widen gs b).
Proof.
  induction gs as [| g gs IH]; intros b u Hb Hg; cbn [fold_left]; [exact Hb |].
  apply IH; [| intros x Hx; apply Hg; right; exact Hx].
  specialize (Hg g (or_introl eq_refl)). unfold contains, widen in *. cbn. lia.
Qed.

Lemma make_mono_ok : forall cur gs texels, truthy cur = false -> gs <> [] ->
  (forall g, In g gs -> proper (gbox g) /\ stored texels g) ->
  exists db gs' texels', make_mono_bounds cur gs texels = Some (db, gs', texels') /\
    (forall g, In g gs -> contains db (gbox g)) /\
    (forall u, (forall g, In g gs -> contains u (gbox g)) -> contains u db) /\
    len texels' = Z.of_nat (length gs) * ((x_max db - x_min db) * (y_max db - y_min db)) /\
    Forall2 (fun g g' => gbox g' = db /\ stored texels' g' /\ forall x y, pixel texels' g' x y = pixel texels g x y) gs gs'.
Proof.
  intros cur gs texels C N H. unfold make_mono_bounds. rewrite C.
  set (db := fold_left widen gs (first_box cur gs)).
  destruct (widen_contains gs (first_box cur gs)) as [W1 W2]. fold db in W1, W2.
  destruct (first_box_in gs cur N) as (g0 & Hg0 & E0).
  assert (Hs : 0 <= stride db).
  { destruct (H g0 Hg0) as [[P1 P2] _]. rewrite E0 in W1. unfold contains in W1.
    unfold stride, width, height. apply Z.mul_nonneg_nonneg; lia. }
  destruct (move_glyphs_ok db texels (Z.of_nat (length gs)) gs 0
              {| len := Z.of_nat (length gs) * stride db; at_ := fun _ => 0%N |}) as (gs' & m & E & L & F & _); auto; try lia.
  { intros g Hg. destruct (H g Hg). auto. }
  rewrite E. exists db, gs', m. split; [reflexivity |]. split; [exact W2 |]. split; [| split; [exact L | exact F]].
  intros u Hu. apply widen_least; [rewrite E0; apply Hu; exact Hg0 | exact Hu].
Qed.

Lemma move_glyphs_at : forall db src gs i dest gs' m, move_glyphs db src i gs dest = Some (gs', m) ->
  length gs' = length gs /\
  forall k g, nth_error gs' k = Some g -> g = {| gbox := db; top_left := (i + Z.of_nat k) * stride db |}.
Proof.
  intros db src. induction gs as [| g gs IH]; intros i dest gs' m E; cbn [move_glyphs] in E.
  - injection E as <- <-. split; [reflexivity |]. intros [|] g E; discriminate.
  - destruct (move_glyph db src i g dest) as [[g1 d1] |] eqn:M; [| discriminate].
    destruct (move_glyphs db src (i + 1) gs d1) as [[r d2] |] eqn:R; [| discriminate].
    injection E as <- <-. destruct (IH _ _ _ _ R) as [L Q]. split; [cbn; lia |].
    intros [| k] x Hx; cbn in Hx.
    + injection Hx as <-. unfold move_glyph in M.
      destruct (_ && _)%bool; [| discriminate].
      destruct (copy_rows _ _ _ _ _ _ _); [| discriminate]. injection M as <- <-. f_equal. f_equal. lia.
    + rewrite (Q k x Hx). f_equal. f_equal. lia.
Qed.

(* what each visits, glyph by glyph *)
Lemma each_from_ok : forall mb gs m want i,
  (forall k g, nth_error want k = Some g ->
     (if Z.eqb (stride mb) 0 then nth_error gs (Z.to_nat (i + Z.of_nat k))
      else Some {| gbox := mb; top_left := (i + Z.of_nat k) * stride mb |}) = Some g /\
     proper (gbox g) /\ stored m g) ->
  each_from (length want) i mb gs m = Some want.
Proof.
  intros mb gs m. induction want as [| w want IH]; intros i H; cbn [length each_from]; [reflexivity |].
  destruct (H 0%nat w eq_refl) as (E & [P1 P2] & [S1 S2]). cbn in E. rewrite Z.add_0_r in E. rewrite E.
  assert (0 <= stride (gbox w)) by (unfold stride, width, height; apply Z.mul_nonneg_nonneg; lia).
  replace (Z.leb 0 (top_left w)) with true by (symmetry; apply Z.leb_le; lia).
  replace (Z.leb (top_left w) (top_left w + stride (gbox w))) with true by (symmetry; apply Z.leb_le; lia).
  replace (Z.leb (top_left w + stride (gbox w)) (len m)) with true
    by (symmetry; apply Z.leb_le; unfold stride, width, height; lia).
  cbn [andb]. rewrite IH; [reflexivity |].
  intros k g Hk. specialize (H (S k) g Hk).
  replace (i + 1 + Z.of_nat k) with (i + Z.of_nat (S k)) by lia. exact H.
Qed.

Lemma each_glyphs : forall mb gs m, stride mb = 0 ->
  (forall g, In g gs -> proper (gbox g) /\ stored m g) -> each mb gs m = Some gs /\ count mb gs m = Z.of_nat (length gs).
Proof.
  intros mb gs m Z0 H. unfold each, count, glyph_count. rewrite Z0. cbn [Z.eqb]. split.
  - rewrite Nat2Z.id. apply each_from_ok. intros k g Hk. rewrite Z0. cbn [Z.eqb Z.add]. rewrite Nat2Z.id.
    split; [exact Hk | apply H; eapply nth_error_In; exact Hk].
  - destruct (Z.ltb_spec 0 (Z.of_nat (length gs))); lia.
Qed.

Lemma each_mono : forall cur gs texels db gs' m, truthy cur = false -> gs <> [] ->
  (forall g, In g gs -> proper (gbox g) /\ stored texels g) ->
  make_mono_bounds cur gs texels = Some (db, gs', m) ->
  each db gs' m = Some gs' /\ count db gs' m = Z.of_nat (length gs) /\
  (stride db <> 0 -> forall any, each db any m = Some gs' /\ count db any m = Z.of_nat (length gs)).
Proof.
  intros cur gs texels db gs' m C N H E.
  destruct (make_mono_ok cur gs texels C N H) as (db2 & gs2 & m2 & E2 & W & _ & L & F).
  rewrite E in E2. injection E2 as <- <- <-.
  unfold make_mono_bounds in E. rewrite C in E.
  destruct (move_glyphs _ _ _ _ _) as [[r d] |] eqn:M; [| discriminate]. injection E as E1 <- <-.
  rewrite E1 in M. apply move_glyphs_at in M. destruct M as [Len At].
  assert (Pr : proper db).
  { destruct gs as [| g0 gs0]; [congruence |]. destruct (H g0 (or_introl eq_refl)) as [[P1 P2] _].
    specialize (W g0 (or_introl eq_refl)). unfold contains in W. unfold proper. lia. }
  assert (St : forall g, In g r -> proper (gbox g) /\ stored d g).
  { clear - F Pr. induction F as [| a b l l' (B1 & B2 & _) F IH]; intros g Hg; [destruct Hg |].
    destruct Hg as [<- | Hg]; [| apply IH; exact Hg]. rewrite B1. split; assumption. }
  destruct (Z.eq_dec (stride db) 0) as [Z0 | Z0].
  - destruct (each_glyphs db r d Z0 St) as [A B]. split; [exact A |]. split; [rewrite B, Len; reflexivity |].
    intros X. contradiction.
  - assert (G : forall any, each db any d = Some r /\ count db any d = Z.of_nat (length gs)).
    { intros any. unfold each, count, glyph_count.
      destruct (Z.eqb_spec (stride db) 0) as [X | _]; [contradiction |].
      assert (Q : Z.quot (len d) (stride db) = Z.of_nat (length gs)).
      { rewrite L. unfold stride, width, height in *. apply Z.quot_mul. exact Z0. }
      rewrite Q. split.
      - rewrite Nat2Z.id, <- Len. apply each_from_ok. intros k g Hk.
        destruct (Z.eqb_spec (stride db) 0) as [X | _]; [contradiction |].
        split; [f_equal; symmetry; apply At; exact Hk | apply St; eapply nth_error_In; exact Hk].
      - destruct (Z.ltb_spec 0 (Z.of_nat (length gs))); lia. }
    destruct (G r). split; [assumption |]. split; [assumption |]. intros _. exact G.
Qed.
