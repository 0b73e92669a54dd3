From Verif Require Import VecPack WordsLemmas.
Open Scope Z_scope.

Lemma land_disjoint a b k : 0 <= k -> 0 <= b < 2 ^ k -> Z.land (a * 2 ^ k) b = 0.
Proof.
  intros Hk Hb. apply Z.bits_inj'. intros i Hi. rewrite Z.land_spec, Z.bits_0.
  destruct (Z.ltb_spec i k).
  - rewrite Z.mul_pow2_bits_low by lia. reflexivity.
  - rewrite (word_testbit_high k b i) by (auto; lia). apply andb_false_r.
Qed.

Lemma lor_add a b k : 0 <= k -> 0 <= b < 2 ^ k -> Z.lor (a * 2 ^ k) b = a * 2 ^ k + b.
Proof.
  intros Hk Hb. pose proof (land_disjoint a b k Hk Hb) as D.
  rewrite <- Z.lxor_lor by exact D. symmetry. apply Z.add_nocarry_lxor. exact D.
Qed.

Lemma wrap_signed x : word 32 x -> wrap 32 (signed 32 x) = x.
Proof.
  intros H. unfold signed. rewrite (wrap_small 32 x H).
  unfold word in H. destruct (Z.ltb_spec x (2 ^ (32 - 1))).
  - apply wrap_small. exact H.
  - unfold wrap. replace (x - 2 ^ 32) with (x + (-1) * 2 ^ 32) by lia.
    rewrite Z.mod_add by lia. apply Z.mod_small. exact H.
Qed.

Section P.
Context (e : elt).
Notation pack := (pack e). Notation unpack := (unpack e).

Lemma pack_arith a : word 32 a ->
  pack a = if PACK_CAPA e then (a mod 2 ^ 8) * 2 ^ 24 + a / 2 ^ 8 else a.
Proof.
  intros H. unfold VecPack.pack. destruct (PACK_CAPA e); [|reflexivity].
  unfold wshl, wshr, wrap. rewrite Z.shiftl_mul_pow2, Z.shiftr_div_pow2 by lia.
  replace (2 ^ 32) with (2 ^ 8 * 2 ^ 24) by reflexivity.
  rewrite Z.mul_mod_distr_r by lia. apply lor_add; [lia|].
  unfold word in H. split; [apply Z.div_pos; lia|]. apply Z.div_lt_upper_bound; [lia|].
  change (2 ^ 8 * 2 ^ 24) with (2 ^ 32). lia.
Qed.

Lemma unpack_arith p : word 32 p ->
  unpack p = if PACK_CAPA e then (p mod 2 ^ 24) * 2 ^ 8 + p / 2 ^ 24 else p.
Proof.
  intros H. unfold VecPack.unpack. destruct (PACK_CAPA e); [|reflexivity].
  unfold wshl, wshr, wrap. rewrite Z.shiftl_mul_pow2, Z.shiftr_div_pow2 by lia.
  replace (2 ^ 32) with (2 ^ 24 * 2 ^ 8) by reflexivity.
  rewrite Z.mul_mod_distr_r by lia. apply lor_add; [lia|].
  unfold word in H. split; [apply Z.div_pos; lia|]. apply Z.div_lt_upper_bound; [lia|].
  change (2 ^ 24 * 2 ^ 8) with (2 ^ 32). lia.
Qed.

Lemma pack_word a : word 32 a -> word 32 (pack a).
Proof.
  intros H. rewrite pack_arith by auto. destruct (PACK_CAPA e); [|exact H].
  unfold word in *. pose proof (Z.mod_pos_bound a (2 ^ 8) ltac:(lia)).
  assert (0 <= a / 2 ^ 8 < 2 ^ 24).
  { split; [apply Z.div_pos; lia|]. apply Z.div_lt_upper_bound; [lia|].
    change (2 ^ 8 * 2 ^ 24) with (2 ^ 32). lia. }
  lia.
Qed.

Lemma unpack_word p : word 32 p -> word 32 (unpack p).
Proof.
  intros H. rewrite unpack_arith by auto. destruct (PACK_CAPA e); [|exact H].
  unfold word in *. pose proof (Z.mod_pos_bound p (2 ^ 24) ltac:(lia)).
  assert (0 <= p / 2 ^ 24 < 2 ^ 8).
  { split; [apply Z.div_pos; lia|]. apply Z.div_lt_upper_bound; [lia|].
    change (2 ^ 24 * 2 ^ 8) with (2 ^ 32). lia. }
  lia.
Qed.

Lemma unpack_pack a : word 32 a -> unpack (pack a) = a.
Proof.
  intros H. rewrite unpack_arith by (apply pack_word; auto). rewrite pack_arith by auto.
  destruct (PACK_CAPA e); [|reflexivity]. unfold word in H.
  assert (0 <= a / 2 ^ 8 < 2 ^ 24).
  { split; [apply Z.div_pos; lia|]. apply Z.div_lt_upper_bound; [lia|].
    change (2 ^ 8 * 2 ^ 24) with (2 ^ 32). lia. }
  rewrite (Z.add_comm (a mod 2 ^ 8 * 2 ^ 24)), Z.mod_add, Z.div_add by lia.
  rewrite (Z.mod_small (a / 2 ^ 8)), (Z.div_small (a / 2 ^ 8)) by lia.
  pose proof (Z.div_mod a (2 ^ 8) ltac:(lia)). lia.
Qed.

Lemma pack_unpack p : word 32 p -> pack (unpack p) = p.
Proof.
  intros H. rewrite pack_arith by (apply unpack_word; auto). rewrite unpack_arith by auto.
  destruct (PACK_CAPA e); [|reflexivity]. unfold word in H.
  assert (0 <= p / 2 ^ 24 < 2 ^ 8).
  { split; [apply Z.div_pos; lia|]. apply Z.div_lt_upper_bound; [lia|].
    change (2 ^ 24 * 2 ^ 8) with (2 ^ 32). lia. }
  rewrite (Z.add_comm (p mod 2 ^ 24 * 2 ^ 8)), Z.mod_add, Z.div_add by lia.
  rewrite (Z.mod_small (p / 2 ^ 24)), (Z.div_small (p / 2 ^ 24)) by lia.
  pose proof (Z.div_mod p (2 ^ 24) ltac:(lia)). lia.
Qed.

(** The bit test only looks at the low nibble of the unpacked word. *)
Lemma land15 x : Z.land x 15 = x mod 16.
Proof. change 15 with (Z.ones 4). rewrite Z.land_ones by lia. reflexivity. Qed.

Lemma land_shift15 p : 0 <= p -> (Z.land p (Z.shiftl 15 24) =? 0) = (((p / 2 ^ 24) mod 16) =? 0).
Proof.
  intros Hp.
  assert (E : Z.land p (Z.shiftl 15 24) = ((p / 2 ^ 24) mod 16) * 2 ^ 24).
  { rewrite <- land15, <- Z.shiftr_div_pow2 by lia. rewrite <- Z.shiftl_mul_pow2 by lia.
    rewrite Z.shiftl_land. apply Z.bits_inj'. intros i Hi.
    rewrite !Z.land_spec, !Z.shiftl_spec by lia.
    destruct (Z.ltb_spec i 24).
    - rewrite !(Z.testbit_neg_r _ (i - 24)) by lia. rewrite !andb_false_r. reflexivity.
    - rewrite Z.shiftr_spec by lia. replace (i - 24 + 24) with i by lia. reflexivity. }
  rewrite E. pose proof (Z.mod_pos_bound (p / 2 ^ 24) 16 ltac:(lia)).
  destruct (Z.eqb_spec (((p / 2 ^ 24) mod 16) * 2 ^ 24) 0), (Z.eqb_spec ((p / 2 ^ 24) mod 16) 0); lia.
Qed.

Lemma is_small_pack a : HAS_SMALL e = true -> word 32 a ->
  is_small e (pack a) = (a mod 16 =? 0).
Proof.
  intros HS H. unfold is_small. rewrite HS. unfold IS_BIG_MASK.
  rewrite pack_arith by auto. unfold word in H. destruct (PACK_CAPA e) eqn:P.
  - assert (A : 0 <= a / 2 ^ 8 < 2 ^ 24).
    { split; [apply Z.div_pos; lia|]. apply Z.div_lt_upper_bound; [lia|].
      change (2 ^ 8 * 2 ^ 24) with (2 ^ 32). lia. }
    pose proof (Z.mod_pos_bound a (2 ^ 8) ltac:(lia)).
    rewrite land_shift15 by lia.
    rewrite Z.add_comm, Z.div_add by lia. rewrite (Z.div_small (a / 2 ^ 8)) by lia.
    cbn [Z.add]. change (2 ^ 8) with (16 * 16).
    rewrite Z.rem_mul_r by lia. rewrite Z.mul_comm, Z.mod_add by lia. rewrite Zmod_mod. reflexivity.
  - rewrite land15. reflexivity.
Qed.

Lemma SMALL_CAPA_range : 0 < esz e -> 0 <= SMALL_CAPA e <= 15.
Proof.
  intros H. unfold SMALL_CAPA. destruct (e_trivial e && e_aligned e); [|lia].
  split; [apply Z.div_pos; lia|]. apply Z.div_le_upper_bound; nia.
Qed.

Lemma HAS_SMALL_pos : 0 < esz e -> HAS_SMALL e = true <-> 0 < SMALL_CAPA e.
Proof.
  intros H. unfold HAS_SMALL. pose proof (SMALL_CAPA_range H).
  destruct (Z.eqb_spec (SMALL_CAPA e) 0); cbn; split; intros; try lia; discriminate.
Qed.

(** ** Big words *)
Definition bigword (c : Z) (sh : bool) : Z := pack (if sh then c + 2 ^ 31 else c).
(** An admissible big capacity: positive 31-bit, and recognisable when inline
    representations exist. *)
Definition big_ok (c : Z) : Prop :=
  SMALL_CAPA e < c < 2 ^ 31 /\ (HAS_SMALL e = true -> c mod 16 <> 0).

Lemma lor_sign c : 0 <= c < 2 ^ 31 -> Z.lor c (2 ^ 31) = c + 2 ^ 31.
Proof. intros H. rewrite Z.lor_comm. rewrite <- (Z.mul_1_l (2 ^ 31)). rewrite lor_add by lia. lia. Qed.

Lemma mod16_sign c : (c + 2 ^ 31) mod 16 = c mod 16.
Proof. change (2 ^ 31) with (2 ^ 27 * 16). apply Z.mod_add. lia. Qed.

Lemma bigword_word c (sh : bool) : 0 <= c < 2 ^ 31 -> word 32 (if sh then c + 2 ^ 31 else c).
Proof. intros. unfold word. change (2 ^ 32) with (2 ^ 31 + 2 ^ 31). destruct sh; lia. Qed.

Lemma bigword_not_small c sh : 0 < esz e -> big_ok c -> is_small e (bigword c sh) = false.
Proof.
  intros He [R L]. pose proof (SMALL_CAPA_range He).
  destruct (HAS_SMALL e) eqn:HS.
  - unfold bigword. rewrite is_small_pack by (auto; apply bigword_word; lia).
    apply Z.eqb_neq. destruct sh; [rewrite mod16_sign|]; auto.
  - unfold is_small. rewrite HS. reflexivity.
Qed.

Lemma signed_bigword c (sh : bool) : 0 <= c < 2 ^ 31 ->
  signed 32 (if sh then c + 2 ^ 31 else c) = if sh then c - 2 ^ 31 else c.
Proof.
  intros H. unfold signed. rewrite wrap_small by (apply bigword_word; auto).
  change (32 - 1) with 31. change (2 ^ 32) with (2 ^ 31 + 2 ^ 31).
  destruct sh.
  - destruct (Z.ltb_spec (c + 2 ^ 31) (2 ^ 31)); lia.
  - destruct (Z.ltb_spec c (2 ^ 31)); lia.
Qed.

Lemma capa_bigword c sh : 0 < esz e -> big_ok c ->
  capa e (bigword c sh) = if sh then c - 2 ^ 31 else c.
Proof.
  intros He B. pose proof (bigword_not_small c sh He B) as NS. destruct B as [R L].
  pose proof (SMALL_CAPA_range He).
  unfold capa. rewrite NS. unfold bigword. destruct (HAS_SMALL e) eqn:HS.
  - rewrite unpack_pack by (apply bigword_word; lia). apply signed_bigword; lia.
  - unfold VecPack.pack, PACK_CAPA. rewrite HS. cbn [andb]. apply signed_bigword; lia.
Qed.

Lemma land_notsign_add c : 0 <= c < 2 ^ 31 -> Z.land (c + 2 ^ 31) NOT_SIGN = c.
Proof.
  intros H. unfold NOT_SIGN. change (2 ^ 31 - 1) with (Z.ones 31). rewrite Z.land_ones by lia.
  rewrite <- (Z.mul_1_l (2 ^ 31)) at 1. rewrite Z.mod_add by lia. apply Z.mod_small. lia.
Qed.

Lemma land_notsign c : 0 <= c < 2 ^ 31 -> Z.land c NOT_SIGN = c.
Proof.
  intros H. unfold NOT_SIGN. change (2 ^ 31 - 1) with (Z.ones 31). rewrite Z.land_ones by lia.
  apply Z.mod_small. lia.
Qed.

Lemma wrap_neg c : 0 <= c < 2 ^ 31 -> wrap 32 (c - 2 ^ 31) = c + 2 ^ 31.
Proof.
  intros H. unfold wrap. replace (c - 2 ^ 31) with (c + 2 ^ 31 + (-1) * 2 ^ 32) by lia.
  rewrite Z.mod_add by lia. apply Z.mod_small. change (2 ^ 32) with (2 ^ 31 + 2 ^ 31). lia.
Qed.

Lemma mask_capa c (sh : bool) : 0 <= c < 2 ^ 31 ->
  Z.land (wrap 32 (if sh then c - 2 ^ 31 else c)) NOT_SIGN = c.
Proof.
  intros H. destruct sh.
  - rewrite wrap_neg by auto. apply land_notsign_add; auto.
  - rewrite wrap_small by (unfold word; change (2 ^ 32) with (2 ^ 31 + 2 ^ 31); lia).
    apply land_notsign; auto.
Qed.

Lemma shared_capa_bigword c sh : 0 < esz e -> big_ok c -> (SHAREABLE e = false -> sh = false) ->
  shared_capa e (bigword c sh) = c.
Proof.
  intros He B S. unfold shared_capa. rewrite capa_bigword by auto. destruct B as [R _].
  pose proof (SMALL_CAPA_range He).
  destruct (SHAREABLE e); [apply mask_capa; lia|]. rewrite (S eq_refl). reflexivity.
Qed.

Lemma mark_shared_bigword c sh : 0 < esz e -> big_ok c ->
  mark_shared e (bigword c sh) = bigword c true.
Proof.
  intros He [R _]. pose proof (SMALL_CAPA_range He). unfold mark_shared, bigword.
  rewrite unpack_pack by (apply bigword_word; lia). unfold SIGN_BIT. f_equal.
  destruct sh; [|apply lor_sign; lia].
  rewrite <- lor_sign by lia. rewrite <- Z.lor_assoc, Z.lor_diag. reflexivity.
Qed.

Lemma mark_unique_bigword c sh : 0 < esz e -> big_ok c -> (SHAREABLE e = false -> sh = false) ->
  mark_unique e (bigword c sh) = bigword c false.
Proof.
  intros He B S. unfold mark_unique. rewrite shared_capa_bigword by auto. reflexivity.
Qed.

Lemma bigword_inj c sh c' sh' : 0 < esz e -> big_ok c -> big_ok c' ->
  bigword c sh = bigword c' sh' -> c = c' /\ sh = sh'.
Proof.
  intros He B B' E. pose proof (f_equal (capa e) E) as C. rewrite !capa_bigword in C by auto.
  destruct B as [R _], B' as [R' _]. pose proof (SMALL_CAPA_range He).
  destruct sh, sh'; split; try reflexivity; lia.
Qed.

Lemma looks_big_spec a : HAS_SMALL e = true -> 0 < a < 2 ^ 31 -> 
  let c := looks_big e a in (c = a \/ c = a - 1) /\ c mod 16 <> 0.
Proof.
  intros HS H c. unfold c, looks_big.
  pose proof (is_small_pack a HS) as P. unfold is_small in P. rewrite HS, Z.land_comm in P.
  rewrite P by (unfold word; change (2 ^ 32) with (2 ^ 31 + 2 ^ 31); lia).
  destruct (Z.eqb_spec (a mod 16) 0) as [E|E].
  - split; [right; reflexivity|]. intros E2.
    apply Z.mod_divide in E; [|lia]. apply Z.mod_divide in E2; [|lia].
    destruct E as [x Hx], E2 as [y Hy]. lia.
  - split; [left; reflexivity|exact E].
Qed.

(** ** Small words *)
(** A control word that reads as an inline vec of size n. *)
Definition smallword (p n : Z) : Prop :=
  word 32 p /\ is_small e p = true /\ small_size e p = n.

Lemma write_small_spec p n : HAS_SMALL e = true -> word 32 p -> 0 <= n <= 15 ->
  smallword (write_small e p n) n.
Proof.
  intros HS Hp Hn. unfold smallword, write_small, is_small, small_size, IS_BIG_MASK,
    SMALL_SIZE_OFFSET, SMALL_SIZE_MASK. rewrite HS.
  destruct (PACK_CAPA e) eqn:PC.
  - assert (E : wrap 8 (Z.shiftl n 4) = n * 16).
    { rewrite Z.shiftl_mul_pow2 by lia. apply wrap_small. unfold word. cbn. lia. }
    rewrite E. change (2 ^ 24 - 1) with (Z.ones 24). rewrite Z.land_ones by lia.
    rewrite Z.shiftl_mul_pow2 by lia. pose proof (Z.mod_pos_bound p (2 ^ 24) ltac:(lia)) as M.
    rewrite Z.lor_comm, lor_add by lia.
    set (m := p mod 2 ^ 24) in *. clearbody m.
    assert (W : 0 <= n * 16 * 2 ^ 24 + m < 2 ^ 32).
    { change (2 ^ 32) with (256 * 2 ^ 24). nia. }
    split; [exact W|]. split.
    + rewrite land_shift15 by lia. rewrite Z.add_comm, Z.div_add, (Z.div_small m) by lia.
      rewrite Z.add_0_l. rewrite Z.mod_mul by lia. reflexivity.
    + rewrite land15. unfold wshr. rewrite Z.shiftr_div_pow2 by lia.
      replace (n * 16 * 2 ^ 24 + m) with (m + n * 2 ^ 28) by (change (2 ^ 28) with (16 * 2 ^ 24); lia).
      rewrite Z.div_add by lia. rewrite (Z.div_small m) by (change (2 ^ 28) with (16 * 2 ^ 24); lia).
      rewrite Z.add_0_l. apply Z.mod_small. lia.
  - rewrite !land15. rewrite Z.shiftl_mul_pow2 by lia. rewrite (Z.mod_small n) by lia.
    change (2 ^ 4) with 16.
    split; [unfold word; lia|]. split.
    + rewrite Z.mod_mul by lia. reflexivity.
    + unfold wshr. rewrite Z.shiftr_div_pow2 by lia. change (2 ^ 4) with 16.
      rewrite Z.div_mul by lia. apply Z.mod_small. lia.
Qed.

Lemma smallword_0 : HAS_SMALL e = true -> smallword 0 0.
Proof.
  intros HS. unfold smallword, is_small, small_size. rewrite HS. unfold word.
  rewrite Z.land_0_l. split; [lia|]. split; [reflexivity|].
  unfold wshr. rewrite Z.shiftr_0_l. reflexivity.
Qed.

(** Inline element bytes versus control word. *)
Lemma pack_byte_15 p : word 32 p -> pack_byte p 15 = p / 2 ^ 24.
Proof.
  intros H. unfold pack_byte, wshr. change (8 * (15 - 12)) with 24.
  rewrite Z.shiftr_div_pow2 by lia. apply wrap_small. unfold word in *.
  split; [apply Z.div_pos; lia|]. apply Z.div_lt_upper_bound; [lia|].
  change (2 ^ 24 * 2 ^ 8) with (2 ^ 32). lia.
Qed.

Lemma pack_bytes p : word 32 p ->
  p = pack_byte p 12 + pack_byte p 13 * 2 ^ 8 + pack_byte p 14 * 2 ^ 16 + pack_byte p 15 * 2 ^ 24.
Proof.
  intros H. rewrite pack_byte_15 by auto. unfold pack_byte, wshr, wrap.
  change (8 * (12 - 12)) with 0. change (8 * (13 - 12)) with 8. change (8 * (14 - 12)) with 16.
  rewrite !Z.shiftr_div_pow2 by lia. change (2 ^ 0) with 1. rewrite Z.div_1_r.
  replace (p / 2 ^ 16) with (p / 2 ^ 8 / 2 ^ 8) by (rewrite Z.div_div by lia; reflexivity).
  replace (p / 2 ^ 24) with (p / 2 ^ 8 / 2 ^ 8 / 2 ^ 8) by (rewrite !Z.div_div by lia; reflexivity).
  pose proof (Z.div_mod p (2 ^ 8) ltac:(lia)).
  pose proof (Z.div_mod (p / 2 ^ 8) (2 ^ 8) ltac:(lia)).
  pose proof (Z.div_mod (p / 2 ^ 8 / 2 ^ 8) (2 ^ 8) ltac:(lia)).
  lia.
Qed.

Lemma overwrite_top p lo hi f : word 32 p -> hi <= 15 ->
  word 32 (overwrite_pack p lo hi f) /\ overwrite_pack p lo hi f / 2 ^ 24 = p / 2 ^ 24.
Proof.
  intros H Hh. unfold overwrite_pack.
  assert (B : forall x, 0 <= wrap 8 x < 2 ^ 8) by (intros; apply wrap_word; lia).
  assert (C : forall j, 0 <= (if (lo <=? j) && (j <? hi) then wrap 8 (f j) else pack_byte p j) < 2 ^ 8).
  { intros j. destruct ((lo <=? j) && (j <? hi)); [apply B|]. apply B. }
  destruct (Z.ltb_spec 15 hi); [lia|]. rewrite (andb_false_r (lo <=? 15)).
  pose proof (C 12). pose proof (C 13). pose proof (C 14).
  set (x := if (lo <=? 12) && (12 <? hi) then _ else _) in *.
  set (y := if (lo <=? 13) && (13 <? hi) then _ else _) in *.
  set (z := if (lo <=? 14) && (14 <? hi) then _ else _) in *.
  clearbody x y z. rewrite pack_byte_15 by auto.
  assert (T : 0 <= p / 2 ^ 24 < 2 ^ 8).
  { unfold word in H. split; [apply Z.div_pos; lia|]. apply Z.div_lt_upper_bound; [lia|].
    change (2 ^ 24 * 2 ^ 8) with (2 ^ 32). lia. }
  assert (L : 0 <= x + y * 2 ^ 8 + z * 2 ^ 16 < 2 ^ 24) by lia.
  split; [unfold word; lia|].
  rewrite Z.div_add by lia. rewrite (Z.div_small (x + y * 2 ^ 8 + z * 2 ^ 16)) by lia. lia.
Qed.

Lemma overwrite_none p lo hi f : word 32 p -> hi <= 12 -> overwrite_pack p lo hi f = p.
Proof.
  intros H Hh. unfold overwrite_pack.
  assert (C : forall j, 12 <= j -> (j <? hi) = false).
  { intros j Hj. destruct (Z.ltb_spec j hi); [lia|reflexivity]. }
  rewrite !C, !andb_false_r by lia. symmetry. apply pack_bytes. exact H.
Qed.

(** For which element sizes inline elements stay clear of the control bits. *)
Definition layout_ok : Prop := PACK_CAPA e = true \/ SMALL_CAPA e * esz e <= 12.

Lemma inline_write_keeps_control p n i f :
  0 < esz e -> HAS_SMALL e = true -> layout_ok -> smallword p n -> 0 <= i < SMALL_CAPA e ->
  smallword (overwrite_pack p (i * esz e) ((i + 1) * esz e) f) n.
Proof.
  intros He HS Ly (W & Sm & Sz) Hi.
  assert (R : SMALL_CAPA e * esz e <= 15).
  { unfold SMALL_CAPA in *. destruct (e_trivial e && e_aligned e); [|lia].
    rewrite Z.mul_comm. apply Z.mul_div_le. lia. }
  assert (R2 : (i + 1) * esz e <= SMALL_CAPA e * esz e) by nia.
  destruct Ly as [P|L].
  - destruct (overwrite_top p (i * esz e) ((i + 1) * esz e) f W) as [W' T]; [lia|].
    split; [exact W'|].
    unfold is_small, small_size, IS_BIG_MASK, SMALL_SIZE_OFFSET, SMALL_SIZE_MASK in *.
    rewrite HS, P in *. rewrite land_shift15 in * by (apply W || apply W').
    rewrite T. split; [exact Sm|]. rewrite <- Sz. f_equal. unfold wshr.
    rewrite !Z.shiftr_div_pow2 by lia. change (2 ^ 28) with (2 ^ 24 * 2 ^ 4).
    rewrite <- !Z.div_div by lia. rewrite T. reflexivity.
  - rewrite overwrite_none by (auto; lia). split; auto.
Qed.
End P.

Lemma layout_ok_iff e : 0 < esz e -> HAS_SMALL e = true ->
  layout_ok e <-> ~ In (esz e) [5; 7; 13; 14; 15].
Proof.
  intros He HS. unfold layout_ok, PACK_CAPA, HAS_SMALL, SMALL_CAPA in *.
  destruct (e_trivial e && e_aligned e); [|discriminate].
  assert (L : esz e <= 15).
  { destruct (Z.le_gt_cases (esz e) 15); [lia|]. rewrite Z.div_small in HS by lia. discriminate. }
  set (s := esz e) in *. clearbody s.
  assert (C : In s [1;2;3;4;5;6;7;8;9;10;11;12;13;14;15]) by (cbn [In]; lia).
  cbn [In] in C.
  repeat (destruct C as [<-|C]; [cbn; split; [intros [X|X]; try discriminate; try lia; intros []; intuition discriminate
    | intros X; try (left; reflexivity); try (right; lia); exfalso; apply X; intuition] |]).
  destruct C.
Qed.
