(** Proofs about VarintModel.v. *)
From Verif Require Export VarintModel.
From Verif Require Import CommonLemmas WordsLemmas.
Open Scope Z_scope.

Lemma cont_low v : 0 <= v -> Z.land (cont_byte v) 127 = v mod 128.
Proof.
  intros H. unfold cont_byte. change 127 with (Z.ones 7). change 128 with (2 ^ 7) at 2. rewrite <- Z.land_ones by lia.
  apply Z.bits_inj'. intros i Hi. rewrite !Z.land_spec, wrap_testbit by lia. rewrite Z.lor_spec.
  destruct (Z.ltb_spec i 7).
  - rewrite Z.ones_spec_low by lia. rewrite !andb_true_r. destruct (Z.ltb_spec i 8); [|lia]. cbn [andb].
    replace (Z.testbit 128 i) with false; [apply orb_false_r|]. change 128 with (2 ^ 7). symmetry. apply Z.pow2_bits_false. lia.
  - rewrite Z.ones_spec_high by lia. rewrite !andb_false_r. reflexivity.
Qed.
Lemma cont_ge v : 0 <= v -> 128 <= cont_byte v < 256.
Proof.
  intros H. unfold cont_byte. pose proof (wrap_word 8 (Z.lor v 128) ltac:(lia)) as W.
  unfold word in W. change (2 ^ 8) with 256 in W. split; [|lia].
  assert (T : Z.testbit (wrap 8 (Z.lor v 128)) 7 = true).
  { rewrite wrap_testbit by lia. rewrite Z.lor_spec. change (Z.testbit 128 7) with true. rewrite orb_true_r. reflexivity. }
  destruct (Z_lt_dec (wrap 8 (Z.lor v 128)) 128); [|lia].
  rewrite (word_testbit_high 7) in T; [discriminate| |lia|lia]. unfold word. change (2 ^ 7) with 128. lia.
Qed.

(** What a scan sees: the little-endian base-128 digits of v, all but the last with the top bit set. *)
Inductive enc (last : Z -> list Z) (stop : Z) : Z -> list Z -> Prop :=
| enc_last v : v < stop -> enc last stop v (last v)
| enc_more v r : stop <= v -> enc last stop (wshr v 7) r -> enc last stop v (cont_byte v :: r).

Lemma lor_shl a b s : 0 <= s -> 0 <= a < 2 ^ s -> Z.lor a (b * 2 ^ s) = a + b * 2 ^ s.
Proof.
  intros Hs Ha. rewrite <- Z.shiftl_mul_pow2 by lia.
  assert (L : Z.land a (Z.shiftl b s) = 0).
  { apply Z.bits_inj'. intros i Hi. rewrite Z.land_spec, Z.bits_0.
    destruct (Z.ltb_spec i s); [rewrite (Z.shiftl_spec_low b s i) by lia; apply andb_false_r|].
    rewrite (word_testbit_high s a) by (auto; lia). reflexivity. }
  rewrite <- Z.lxor_lor by exact L. rewrite <- Z.add_nocarry_lxor by exact L. reflexivity.
Qed.
Lemma wshl_small b s : 0 <= s -> 0 <= b -> b * 2 ^ s < 2 ^ 32 -> wshl 32 b s = b * 2 ^ s.
Proof.
  intros. unfold wshl. rewrite Z.shiftl_mul_pow2 by lia. apply wrap_small. unfold word.
  pose proof (Z.pow_pos_nonneg 2 s ltac:(lia) ltac:(lia)). nia.
Qed.
Lemma pow7 s : 0 <= s -> 2 ^ (s + 7) = 128 * 2 ^ s.
Proof. intros. rewrite Z.pow_add_r by lia. change (2 ^ 7) with 128. lia. Qed.

(** The scan over the encoding of v, started with the low part already in [result]:
    it ends after the encoding, with the rest of v still to come from the last byte. *)
Lemma scan_enc last stop : (forall v, 0 <= v < stop -> exists c, last v = [c] /\ c < 128) -> 64 <= stop <= 128 ->
  forall v bs, enc last stop v bs -> forall fuel str off rest k result c0,
  0 <= v -> 0 <= k <= 4 -> 0 <= result < 2 ^ (7 * k) -> result + v * 2 ^ (7 * k) < 2 ^ 32 ->
  skipn off str = bs ++ rest -> (length bs < fuel)%nat ->
  exists result' shift' c' v', scan_loop fuel str (Z.of_nat off) (7 * k) result c0 = Some (result', shift', c', Z.of_nat (off + length bs))
    /\ 0 <= v' < stop /\ last v' = [c'] /\ 0 <= shift' < 32 /\ 0 <= result' < 2 ^ shift' /\ result' + v' * 2 ^ shift' = result + v * 2 ^ (7 * k).
Proof.
  intros Hlast Hstop v bs E.
  induction E as [v Hv|v r Hv E IH]; intros fuel str off rest k result c0 H0 Hs Hr Hb Hk Hf.
  - destruct (Hlast v ltac:(lia)) as (c & Ec & Hc). rewrite Ec in *. cbn [length app] in *.
    destruct fuel as [|fuel]; [lia|]. cbn [scan_loop].
    assert (N : nth_error str off = Some c). { replace off with (off + 0)%nat by lia. rewrite <- nth_error_skipn, Hk. reflexivity. }
    pose proof (nth_error_lt _ _ _ N). destruct (Z.ltb_spec (Z.of_nat off) (Z.of_nat (length str))); [|lia].
    destruct (Z.ltb_spec (Z.of_nat off) 0); [lia|]. rewrite Nat2Z.id, N. cbn [obind].
    destruct (Z.leb_spec 128 c); [lia|].
    exists result, (7 * k), c, v. split; [do 2 f_equal; lia|]. repeat split; auto; lia.
  - cbn [length app] in *. destruct fuel as [|fuel]; [lia|]. cbn [scan_loop].
    assert (N : nth_error str off = Some (cont_byte v)). { replace off with (off + 0)%nat by lia. rewrite <- nth_error_skipn, Hk. reflexivity. }
    pose proof (nth_error_lt _ _ _ N). destruct (Z.ltb_spec (Z.of_nat off) (Z.of_nat (length str))); [|lia].
    destruct (Z.ltb_spec (Z.of_nat off) 0); [lia|]. rewrite Nat2Z.id, N. cbn [obind].
    pose proof (cont_ge v H0). destruct (Z.leb_spec 128 (cont_byte v)); [|lia].
    destruct (Z.leb_spec 32 (7 * k)); [lia|]. rewrite cont_low by lia.
    assert (K3 : k <= 3).
    { destruct (Z.eq_dec k 4); [|lia]. subst k. change (2 ^ (7 * 4)) with 268435456 in *. change (2 ^ 32) with 4294967296 in *. lia. }
    pose proof (Z.div_mod v 128 ltac:(lia)) as Dm. pose proof (Z.mod_pos_bound v 128 ltac:(lia)) as Mb.
    assert (Vs : wshr v 7 = v / 128) by (unfold wshr; rewrite Z.shiftr_div_pow2 by lia; reflexivity).
    pose proof (pow7 (7 * k) ltac:(lia)) as P7. pose proof (Z.pow_pos_nonneg 2 (7 * k) ltac:(lia) ltac:(lia)) as Pp.
    rewrite wshl_small by (try lia; nia). rewrite lor_shl by (auto; lia).
    replace (7 * k + 7) with (7 * (k + 1)) in * by lia.
    replace (Z.of_nat off + 1) with (Z.of_nat (S off)) by lia.
    destruct (IH fuel str (S off) rest (k + 1) (result + v mod 128 * 2 ^ (7 * k)) (cont_byte v)) as (r' & s' & c' & v' & E1 & E2 & E3 & E4 & E5 & E6).
    + rewrite Vs. apply Z.div_pos; lia.
    + lia.
    + rewrite P7. nia.
    + rewrite Vs, P7. nia.
    + replace (S off) with (off + 1)%nat by lia. rewrite <- skipn_skipn_add, Hk. reflexivity.
    + lia.
    + exists r', s', c', v'. split; [rewrite E1; do 2 f_equal; lia|]. refine (conj E2 (conj E3 (conj E4 (conj E5 _)))).
      rewrite E6, Vs, P7. nia.
Qed.

Lemma append_loop_enc v : forall fuel, 0 <= v < 2 ^ (7 * Z.of_nat fuel - 1) -> (0 < fuel)%nat ->
  exists bs, append_varint_loop fuel v = Some bs /\
    enc (fun v => [wrap 8 (wadd 32 v (if v <? 10 then 48 else if v <? 36 then 65 - 10 else 95 - 36))]) 64 v bs.
Proof.
  intros fuel. revert v. induction fuel; intros v H Hf; [lia|]. cbn [append_varint_loop].
  destruct (Z.leb_spec 64 v).
  - pose proof (Z.div_mod v 128 ltac:(lia)) as Dm. pose proof (Z.mod_pos_bound v 128 ltac:(lia)).
    assert (Vs : wshr v 7 = v / 128) by (unfold wshr; rewrite Z.shiftr_div_pow2 by lia; reflexivity).
    assert (0 <= v / 128) by (apply Z.div_pos; lia).
    destruct fuel as [|fuel]; [change (2 ^ (7 * Z.of_nat 1 - 1)) with 64 in H; lia|].
    destruct (IHfuel (wshr v 7)) as (bs & E & En); [|lia|].
    + rewrite Vs. split; [auto|]. replace (7 * Z.of_nat (S (S fuel)) - 1) with (7 * Z.of_nat (S fuel) - 1 + 7) in H by lia.
      rewrite pow7 in H by lia. nia.
    + rewrite E. cbn [obind]. eexists. split; [reflexivity|]. constructor 2; auto.
  - eexists. split; [reflexivity|]. constructor 1. lia.
Qed.
Lemma append7_loop_enc v : forall fuel, 0 <= v < 2 ^ (7 * Z.of_nat fuel) -> (0 < fuel)%nat ->
  exists bs, append7_loop fuel v = Some bs /\ enc (fun v => [wrap 8 v]) 128 v bs.
Proof.
  intros fuel. revert v. induction fuel; intros v H Hf; [lia|]. cbn [append7_loop].
  destruct (Z.leb_spec 128 v).
  - pose proof (Z.div_mod v 128 ltac:(lia)) as Dm. pose proof (Z.mod_pos_bound v 128 ltac:(lia)).
    assert (Vs : wshr v 7 = v / 128) by (unfold wshr; rewrite Z.shiftr_div_pow2 by lia; reflexivity).
    assert (0 <= v / 128) by (apply Z.div_pos; lia).
    destruct fuel as [|fuel]; [change (2 ^ (7 * Z.of_nat 1)) with 128 in H; lia|].
    destruct (IHfuel (wshr v 7)) as (bs & E & En); [|lia|].
    + rewrite Vs. split; [auto|]. replace (7 * Z.of_nat (S (S fuel))) with (7 * Z.of_nat (S fuel) + 7) in H by lia.
      rewrite pow7 in H by lia. nia.
    + rewrite E. cbn [obind]. eexists. split; [reflexivity|]. constructor 2; auto.
  - eexists. split; [reflexivity|]. constructor 1. lia.
Qed.

Lemma trailer_char v : 0 <= v < 64 ->
  wrap 8 (wadd 32 v (if v <? 10 then 48 else if v <? 36 then 65 - 10 else 95 - 36)) =
    v + (if v <? 10 then 48 else if v <? 36 then 55 else 59).
Proof.
  intros H. unfold wadd. rewrite (wrap_small 32), (wrap_small 8); [reflexivity| |]; unfold word;
  destruct (Z.ltb_spec v 10), (Z.ltb_spec v 36); change (2 ^ 8) with 256; change (2 ^ 32) with 4294967296; lia.
Qed.

Lemma enc_len last stop v bs : enc last stop v bs -> (forall v, length (last v) = 1%nat) -> (0 < length bs)%nat.
Proof. intros E H. destruct E; [rewrite H; lia|cbn; lia]. Qed.

Lemma varint_round_trip pre v rest : word 32 v ->
  exists bs, append_varint pre v = Some (pre ++ bs) /\ (0 < length bs)%nat /\
    parse_varint (Z.of_nat (length pre)) ((pre ++ bs) ++ rest) = Some (v, Z.of_nat (length pre + length bs)).
Proof.
  intros Hv. unfold append_varint. destruct (append_loop_enc v 6) as (bs & E & En); [|lia|].
  { unfold word in Hv. assert (2 ^ 32 < 2 ^ (7 * Z.of_nat 6 - 1)) by reflexivity. lia. }
  rewrite E. cbn [obind]. exists bs. split; [reflexivity|]. split; [apply (enc_len _ _ _ _ En); reflexivity|].
  unfold parse_varint, scan.
  match type of En with enc ?l _ _ _ => pose proof (scan_enc l 64) as SE end.
  destruct SE with (v := v) (bs := bs) (fuel := S (length ((pre ++ bs) ++ rest))) (str := (pre ++ bs) ++ rest)
    (off := length pre) (rest := rest) (k := 0) (result := 0) (c0 := 0) as (r & s & c & v' & S1 & S2 & S3 & S4 & S5 & S6); auto; try lia.
  - intros x Hx. rewrite trailer_char by auto. eexists. split; [reflexivity|]. destruct (Z.ltb_spec x 10), (Z.ltb_spec x 36); lia.
  - destruct Hv; auto.
  - unfold word in Hv. change (2 ^ (7 * 0)) with 1. lia.
  - rewrite <- app_assoc, skipn_app, skipn_all, Nat.sub_diag. reflexivity.
  - rewrite !app_length. lia.
  - change (7 * 0) with 0 in S1. rewrite S1. cbn [obind]. cbv beta zeta iota.
    cbv beta in S3. rewrite trailer_char in S3 by auto. injection S3 as S3.
    assert (Hsub : (if (48 <=? c) && (c <=? 57) then Some 48 else if (65 <=? c) && (c <=? 90) then Some (65 - 10)
             else if (95 <=? c) && (c <=? 122) then Some (95 - 36) else None) = Some (c - v')).
    { subst c. destruct (Z.ltb_spec v' 10); [|destruct (Z.ltb_spec v' 36)].
      - destruct (Z.leb_spec 48 (v' + 48)), (Z.leb_spec (v' + 48) 57); cbn [andb]; try lia. f_equal. lia.
      - destruct (Z.leb_spec (v' + 55) 57); [lia|]. rewrite andb_false_r.
        destruct (Z.leb_spec 65 (v' + 55)), (Z.leb_spec (v' + 55) 90); cbn [andb]; try lia. f_equal. lia.
      - destruct (Z.leb_spec (v' + 59) 57); [lia|]. rewrite andb_false_r.
        destruct (Z.leb_spec (v' + 59) 90); [lia|]. rewrite andb_false_r.
        destruct (Z.leb_spec 95 (v' + 59)), (Z.leb_spec (v' + 59) 122); cbn [andb]; try lia. f_equal. lia. }
    rewrite Hsub. cbn [obind]. destruct (Z.leb_spec 32 s); [lia|].
    replace (wsub 32 c (c - v')) with v'.
    2:{ unfold wsub. replace (c - (c - v')) with v' by lia. symmetry. apply wrap_small. unfold word. assert (64 < 2 ^ 32) by reflexivity. lia. }
    change (2 ^ (7 * 0)) with 1 in S6. unfold word in Hv.
    rewrite wshl_small by lia. rewrite lor_shl by lia. do 2 f_equal. lia.
Qed.

Lemma round_trip7 pre v rest : word 32 v ->
  exists bs, append7bit pre v = Some (pre ++ bs) /\ (0 < length bs)%nat /\
    parse7bit ((pre ++ bs) ++ rest) (Z.of_nat (length pre)) = Some (v, Z.of_nat (length pre + length bs)).
Proof.
  intros Hv. unfold append7bit. destruct (append7_loop_enc v 6) as (bs & E & En); [|lia|].
  { unfold word in Hv. assert (2 ^ 32 < 2 ^ (7 * Z.of_nat 6)) by reflexivity. lia. }
  rewrite E. cbn [obind]. exists bs. split; [reflexivity|]. split; [apply (enc_len _ _ _ _ En); reflexivity|].
  unfold parse7bit, scan.
  assert (W : forall x, 0 <= x < 128 -> wrap 8 x = x) by (intros x Hx; apply wrap_small; unfold word; change (2 ^ 8) with 256; lia).
  match type of En with enc ?l _ _ _ => pose proof (scan_enc l 128) as SE end.
  destruct SE with (v := v) (bs := bs) (fuel := S (length ((pre ++ bs) ++ rest))) (str := (pre ++ bs) ++ rest)
    (off := length pre) (rest := rest) (k := 0) (result := 0) (c0 := 0) as (r & s & c & v' & S1 & S2 & S3 & S4 & S5 & S6); auto; try lia.
  - intros x Hx. rewrite W by auto. eexists. split; [reflexivity|]. lia.
  - destruct Hv; auto.
  - unfold word in Hv. change (2 ^ (7 * 0)) with 1. lia.
  - rewrite <- app_assoc, skipn_app, skipn_all, Nat.sub_diag. reflexivity.
  - rewrite !app_length. lia.
  - change (7 * 0) with 0 in S1. rewrite S1. cbn [obind]. cbv beta zeta iota.
    cbv beta in S3. rewrite W in S3 by auto. injection S3 as ->.
    destruct (Z.leb_spec 32 s); [lia|]. change (2 ^ (7 * 0)) with 1 in S6. unfold word in Hv.
    rewrite wshl_small by lia. rewrite lor_shl by lia. do 2 f_equal. lia.
Qed.

(** Bytes of the encodings. *)
Lemma enc_bytes last stop (P : Z -> Prop) v bs : enc last stop v bs -> 0 <= v -> (forall v, 0 <= v < stop -> Forall P (last v)) ->
  (forall c, 128 <= c < 256 -> P c) -> Forall P bs.
Proof.
  intros E. induction E; intros H0 HL HC.
  - apply HL. lia.
  - constructor; [apply HC, cont_ge; auto|]. apply IHE; auto. unfold wshr. apply Z.shiftr_nonneg. auto.
Qed.
