(** C21: UTF-8. *)
From Verif Require Import Utf8Spec CommonLemmas WordsLemmas.
Open Scope Z_scope.

(** ** Bits of a byte *)
Local Lemma land_hi c k m : 0 <= k <= 8 -> byte c -> m = 256 - 2 ^ k -> Z.land c m = c / 2 ^ k * 2 ^ k.
Proof.
  intros Hk Hc ->. rewrite <- Z.shiftr_div_pow2, <- Z.shiftl_mul_pow2 by lia.
  rewrite <- Z.ldiff_ones_r by lia. apply Z.bits_inj'. intros i Hi. rewrite Z.land_spec, Z.ldiff_spec.
  destruct (Z.testbit c i) eqn:T; [cbn [andb]|reflexivity].
  assert (i < 8). { destruct (Z_lt_dec i 8); auto. rewrite (word_testbit_high 8 c) in T by (auto; lia). discriminate. }
  replace (256 - 2 ^ k) with ((2 ^ (8 - k) - 1) * 2 ^ k).
  2:{ rewrite Z.mul_sub_distr_r, <- Z.pow_add_r by lia. replace (8 - k + k) with 8 by lia. change (2 ^ 8) with 256. lia. }
  rewrite <- Z.shiftl_mul_pow2 by lia. rewrite Z.shiftl_spec by lia.
  replace (2 ^ (8 - k) - 1) with (Z.ones (8 - k)) by (rewrite Z.ones_equiv; lia).
  destruct (Z_lt_dec i k).
  - rewrite Z.testbit_neg_r by lia. rewrite Z.ones_spec_low by lia. reflexivity.
  - rewrite !Z.testbit_ones_nonneg by lia. destruct (Z.ltb_spec (i - k) (8 - k)), (Z.ltb_spec i k); try lia; reflexivity.
Qed.
Local Lemma land_lo c k m : 0 <= k -> m = 2 ^ k - 1 -> Z.land c m = c mod 2 ^ k.
Proof. intros Hk ->. rewrite <- Z.land_ones by lia. f_equal. rewrite Z.ones_equiv. lia. Qed.
Local Lemma lor_hi a k h : 0 <= k -> 0 <= a < 2 ^ k -> Z.lor a (h * 2 ^ k) = a + h * 2 ^ k.
Proof.
  intros Hk Ha. rewrite <- Z.shiftl_mul_pow2 by lia.
  assert (L : Z.land a (Z.shiftl h k) = 0).
  { apply Z.bits_inj'. intros i Hi. rewrite Z.land_spec, Z.bits_0.
    destruct (Z.ltb_spec i k); [rewrite (Z.shiftl_spec_low h k i) by lia; apply andb_false_r|].
    rewrite (word_testbit_high k a) by (auto; lia). reflexivity. }
  rewrite <- Z.lxor_lor by exact L. rewrite <- Z.add_nocarry_lxor by exact L. reflexivity.
Qed.

Local Lemma extra_spec c : byte c -> 128 <= c ->
  extra_of c = if c <? 192 then None else if c <? 224 then Some 1%nat else if c <? 240 then Some 2%nat else if c <? 248 then Some 3%nat else None.
Proof.
  intros B H. unfold extra_of.
  rewrite (land_hi c 5 224), (land_hi c 4 240), (land_hi c 3 248) by (auto; lia).
  change (2 ^ 5) with 32. change (2 ^ 4) with 16. change (2 ^ 3) with 8. unfold byte in B.
  destruct (Z.eqb_spec (c / 32 * 32) 192), (Z.eqb_spec (c / 16 * 16) 224), (Z.eqb_spec (c / 8 * 8) 240),
    (Z.ltb_spec c 192), (Z.ltb_spec c 224), (Z.ltb_spec c 240), (Z.ltb_spec c 248); try reflexivity; exfalso; Z.div_mod_to_equations; lia.
Qed.
Local Lemma cont_test b : byte b -> (Z.land b 192 =? 128) = true <-> cont_byte b.
Proof.
  intros B. rewrite (land_hi b 6 192) by (auto; lia). change (2 ^ 6) with 64. rewrite Z.eqb_eq. unfold cont_byte, byte in *.
  split; intros; Z.div_mod_to_equations; lia.
Qed.
Local Lemma cont_bits b : cont_byte b -> Z.land b (Z.lxor 192 (2 ^ 32 - 1)) = b - 128.
Proof.
  intros H. unfold cont_byte in H. replace (Z.land b (Z.lxor 192 (2 ^ 32 - 1))) with (Z.land b 63).
  - rewrite (land_lo b 6 63) by lia. change (2 ^ 6) with 64. Z.div_mod_to_equations; lia.
  - apply Z.bits_inj'. intros i Hi. rewrite !Z.land_spec, Z.lxor_spec. destruct (Z.testbit b i) eqn:T; [cbn [andb]|reflexivity].
    assert (i < 8). { destruct (Z_lt_dec i 8); auto. rewrite (word_testbit_high 8 b) in T; [discriminate| |lia|lia]. unfold word. change (2 ^ 8) with 256. lia. }
    assert (C : i = 0 \/ i = 1 \/ i = 2 \/ i = 3 \/ i = 4 \/ i = 5 \/ i = 6 \/ i = 7) by lia.
    repeat (destruct C as [->|C]; [reflexivity|]). subst. reflexivity.
Qed.
Local Lemma push6 c b : 0 <= c < 2 ^ 26 -> cont_byte b -> Z.lor (wshl 32 c 6) (Z.land b (Z.lxor 192 (2 ^ 32 - 1))) = c * 64 + (b - 128).
Proof.
  intros Hc Hb. rewrite cont_bits by auto. unfold wshl. rewrite Z.shiftl_mul_pow2 by lia. rewrite wrap_small.
  - rewrite Z.lor_comm. unfold cont_byte in Hb. rewrite lor_hi by (change (2 ^ 6) with 64; lia). change (2 ^ 6) with 64. lia.
  - unfold word. change (2 ^ 26) with 67108864 in Hc. change (2 ^ 6) with 64. change (2 ^ 32) with 4294967296. lia.
Qed.

(** The value gathered from continuation bytes bs after c. *)
Fixpoint gather (c : Z) (bs : list Z) : Z := match bs with [] => c | b :: bs' => gather (c * 64 + (b - 128)) bs' end.
Local Lemma cont_loop_ok bs : forall s i c, Forall cont_byte bs -> (length bs <= 3)%nat -> 0 <= c < 2 ^ (26 - 6 * (Z.of_nat (length bs) - 1)) -> (0 < length bs)%nat ->
  (forall k, (k < length bs)%nat -> nth_error s (S i + k) = nth_error bs k) ->
  cont_loop (length bs) s i c = Some (inl (gather c bs, (i + length bs)%nat)).
Proof.
  induction bs as [|b bs IH]; intros s i c F L Hc Pos N; [cbn in Pos; lia|]. cbn [length cont_loop gather] in *.
  inversion F; subst. pose proof (N 0%nat ltac:(lia)) as N0. rewrite Nat.add_0_r in N0. rewrite N0. cbn [nth_error obind].
  assert (B : byte b) by (unfold byte, cont_byte in *; lia). rewrite (proj2 (cont_test b B) ltac:(auto)).
  assert (Hc26 : 0 <= c < 2 ^ 26). { split; [lia|]. eapply Z.lt_le_trans; [apply Hc|]. apply Z.pow_le_mono_r; lia. }
  rewrite push6 by auto. destruct bs as [|b2 bs]; [cbn; do 3 f_equal; lia|].
  rewrite (IH s (S i)); auto.
  - do 3 f_equal. cbn [length]. lia.
  - lia.
  - unfold cont_byte in *. cbn [length] in *. set (e := Z.of_nat (S (length bs))) in *.
    replace (26 - 6 * (Z.of_nat (S (S (length bs))) - 1)) with (26 - 6 * (e - 1) - 6) in Hc by lia.
    assert (P : 2 ^ (26 - 6 * (e - 1)) = 64 * 2 ^ (26 - 6 * (e - 1) - 6)).
    { change 64 with (2 ^ 6). rewrite <- Z.pow_add_r by (unfold e in *; lia). f_equal. lia. }
    rewrite P. set (q := 2 ^ (26 - 6 * (e - 1) - 6)) in *. clearbody q. clear P. lia.
  - cbn [length]. lia.
  - intros k Hk. specialize (N (S k) ltac:(lia)). replace (S (S i) + k)%nat with (S i + S k)%nat by lia. exact N.
Qed.

(** A shaped sequence at i is read whole. *)
Local Lemma round_shape s i bs c : shape bs c -> (i + length bs <= length s)%nat ->
  (forall k, (k < length bs)%nat -> nth_error s (i + k) = nth_error bs k) ->
  round s i = Some (Each c (i + length bs - 1)%nat, (i + length bs - 1)%nat).
Proof.
  intros Hsh Hl N. unfold round.
  assert (N0 : nth_error s i = nth_error bs 0). { specialize (N 0%nat). rewrite Nat.add_0_r in N. apply N. destruct Hsh; cbn; lia. }
  rewrite N0.
  assert (Tail : forall a rest e c0, bs = a :: rest -> length rest = e -> (e <= 3)%nat -> (0 < e)%nat -> Forall cont_byte rest -> byte a -> 128 <= a ->
     extra_of a = Some e -> Z.land a (wshr 63 (Z.of_nat e)) = c0 -> 0 <= c0 < 2 ^ (26 - 6 * (Z.of_nat e - 1)) -> gather c0 rest = c ->
     (do c <- nth_error bs 0; if 128 <=? c then match extra_of c with None => Some (Error i, i) | Some extra =>
        let c := Z.land c (wshr 63 (Z.of_nat extra)) in let i1 := (i + extra)%nat in
        if (length s <? i1)%nat then Some (Error i, i)
        else do r <- cont_loop extra s i c; match r with inl (c, j) => Some (Each c j, j) | inr j => Some (Error i, j) end end
      else Some (Each c i, i)) = Some (Each c (i + length bs - 1)%nat, (i + length bs - 1)%nat)).
  { intros a rest e c0 -> Le L3 Pos F Ba Ha Ex El Hc0 G. cbn [nth_error obind]. destruct (Z.leb_spec 128 a); [|lia].
    rewrite Ex. cbv zeta. cbn [length] in *. destruct (Nat.ltb_spec (length s) (i + e)); [lia|]. rewrite El.
    rewrite <- Le in *. rewrite (cont_loop_ok rest); auto.
    - cbn [obind]. rewrite G. do 2 f_equal; [f_equal; lia|lia].
    - intros k Hk. specialize (N (S k) ltac:(lia)). replace (S i + k)%nat with (i + S k)%nat by lia. exact N. }
  destruct Hsh as [c Hc|a b Ha Hb|a b d Ha Hb Hd|a b d e Ha Hb Hd He].
  - cbn [nth_error obind length]. destruct (Z.leb_spec 128 c); [lia|]. do 2 f_equal; [f_equal; lia|lia].
  - eapply (Tail a [b] 1%nat (a - 192)); auto; try lia; try (unfold byte; lia); try (cbn [length]; lia).
    + rewrite extra_spec by (unfold byte; lia). destruct (Z.ltb_spec a 192), (Z.ltb_spec a 224); try lia; reflexivity.
    + change (wshr 63 (Z.of_nat 1)) with 31. rewrite (land_lo a 5) by lia. change (2 ^ 5) with 32. Z.div_mod_to_equations; lia.
  - eapply (Tail a [b; d] 2%nat (a - 224)); auto; try lia; try (unfold byte; lia); try (cbn [length]; lia).
    + rewrite extra_spec by (unfold byte; lia). destruct (Z.ltb_spec a 192), (Z.ltb_spec a 224), (Z.ltb_spec a 240); try lia; reflexivity.
    + change (wshr 63 (Z.of_nat 2)) with 15. rewrite (land_lo a 4) by lia. change (2 ^ 4) with 16. Z.div_mod_to_equations; lia.
    + cbn [gather]. lia.
  - eapply (Tail a [b; d; e] 3%nat (a - 240)); auto; try lia; try (unfold byte; lia); try (cbn [length]; lia).
    + rewrite extra_spec by (unfold byte; lia). destruct (Z.ltb_spec a 192), (Z.ltb_spec a 224), (Z.ltb_spec a 240), (Z.ltb_spec a 248); try lia; reflexivity.
    + change (wshr 63 (Z.of_nat 3)) with 7. rewrite (land_lo a 3) by lia. change (2 ^ 3) with 8. Z.div_mod_to_equations; lia.
    + cbn [gather]. lia.
Qed.
Local Lemma shape_len bs c : shape bs c -> (0 < length bs)%nat.
Proof. destruct 1; cbn; lia. Qed.

Local Lemma loop_reads l : Forall (fun p => shape (fst p) (snd p)) l -> forall fuel s i rest,
  skipn i s = concat (map fst l) -> (i <= length s)%nat -> rest = reads i l -> (length s - i < fuel)%nat ->
  codepoints_loop fuel s i = Some rest.
Proof.
  induction 1 as [|[bs c] l Hsh Hl IH]; intros fuel s i rest Hs Hi -> Hf; (destruct fuel as [|fuel]; [lia|]); cbn [codepoints_loop reads map concat fst snd] in *.
  - destruct (Nat.ltb_spec i (length s)); [|reflexivity].
    assert (L : length (skipn i s) = 0%nat) by (rewrite Hs; reflexivity). rewrite skipn_length in L. lia.
  - pose proof (shape_len _ _ Hsh) as Pos.
    assert (L : length (skipn i s) = (length bs + length (concat (map fst l)))%nat) by (rewrite Hs, app_length; reflexivity).
    rewrite skipn_length in L. destruct (Nat.ltb_spec i (length s)); [|lia].
    rewrite (round_shape s i bs c); auto; [|lia|].
    + cbn [obind snd fst]. replace (S (i + length bs - 1)) with (i + length bs)%nat by lia.
      rewrite (IH fuel s (i + length bs)%nat (reads (i + length bs) l)); auto; [|lia|lia].
      rewrite <- skipn_skipn_add, Hs, skipn_app, skipn_all, Nat.sub_diag. reflexivity.
    + intros k Hk. rewrite <- nth_error_skipn, Hs. apply nth_error_app1. auto.
Qed.

(** ** Decoding any concatenation of shaped sequences reports exactly their values, with no error. *)
Theorem decode_well_formed : forall l, Forall (fun p => shape (fst p) (snd p)) l ->
  codepoints (concat (map fst l)) = Some (reads 0 l).
Proof. intros l H. unfold codepoints. apply (loop_reads l H); auto; lia. Qed.
Print Assumptions decode_well_formed.

(** ** Every code point is encoded in the shortest standard form. *)
Theorem encode_is_standard : forall c, 0 <= c < 1114112 -> valid (utf8 c) c.
Proof.
  intros c Hc. unfold utf8, valid.
  assert (W : forall x, 0 <= x < 256 -> wrap 8 x = x) by (intros; apply wrap_small; unfold word; change (2 ^ 8) with 256; lia).
  assert (Sh : forall k, 0 <= k -> wshr c k = c / 2 ^ k) by (intros; unfold wshr; apply Z.shiftr_div_pow2; lia).
  assert (Cont : forall x, 0 <= x -> wrap 8 (Z.lor (Z.land x 63) 128) = x mod 64 + 128).
  { intros x Hx. rewrite (land_lo x 6) by lia. change (2 ^ 6) with 64. change 128 with (2 * 2 ^ 6). pose proof (Z.mod_pos_bound x 64 ltac:(lia)).
    rewrite lor_hi by (change (2 ^ 6) with 64; lia). apply W. change (2 ^ 6) with 64. lia. }
  assert (Lead : forall x k m h, 0 <= k <= 5 -> m = 2 ^ k - 1 -> 0 <= h -> 0 <= x < 2 ^ k -> h * 2 ^ k + 2 ^ k <= 256 -> wrap 8 (Z.lor (Z.land x m) (h * 2 ^ k)) = x + h * 2 ^ k).
  { intros x k m h Hk Em Hh Hx Hb. rewrite (land_lo x k m) by lia. rewrite Z.mod_small by lia. rewrite lor_hi by lia. apply W. lia. }
  rewrite !Sh by lia.
  destruct (Z.leb_spec c 127); [|destruct (Z.leb_spec c 2047); [|destruct (Z.leb_spec c 65535); [|destruct (Z.leb_spec c 1114111); [|lia]]]].
  - rewrite W by lia. split; [constructor; lia|]. unfold needs. destruct (Z.ltb_spec c 128); [|lia]. split; [reflexivity|lia].
  - rewrite !Cont by (apply Z.div_pos; lia). change (2 ^ 6) with 64. change (2 ^ 0) with 1. rewrite Z.div_1_r.
    change 192 with (6 * 2 ^ 5). rewrite Lead by first [lia | split; [apply Z.div_pos; lia|apply Z.div_lt_upper_bound; lia]]. change (6 * 2 ^ 5) with 192.
    split; [|unfold needs; destruct (Z.ltb_spec c 128), (Z.ltb_spec c 2048); try lia; split; [reflexivity|lia]].
    replace c with ((c / 64 + 192 - 192) * 64 + (c mod 64 + 128 - 128)) at 3 by (pose proof (Z.div_mod c 64 ltac:(lia)); lia).
    constructor; unfold cont_byte; Z.div_mod_to_equations; lia.
  - rewrite !Cont by (apply Z.div_pos; lia). change (2 ^ 12) with 4096. change (2 ^ 6) with 64. change (2 ^ 0) with 1. rewrite Z.div_1_r.
    change 224 with (14 * 2 ^ 4). rewrite Lead by first [lia | split; [apply Z.div_pos; lia|apply Z.div_lt_upper_bound; lia]]. change (14 * 2 ^ 4) with 224.
    split; [|unfold needs; destruct (Z.ltb_spec c 128), (Z.ltb_spec c 2048), (Z.ltb_spec c 65536); try lia; split; [reflexivity|lia]].
    replace c with ((c / 4096 + 224 - 224) * 4096 + ((c / 64) mod 64 + 128 - 128) * 64 + (c mod 64 + 128 - 128)) at 4
      by (Z.div_mod_to_equations; lia).
    constructor; unfold cont_byte; Z.div_mod_to_equations; lia.
  - rewrite !Cont by (apply Z.div_pos; lia). change (2 ^ 18) with 262144. change (2 ^ 12) with 4096. change (2 ^ 6) with 64. change (2 ^ 0) with 1. rewrite Z.div_1_r.
    change 240 with (30 * 2 ^ 3). rewrite Lead by first [lia | split; [apply Z.div_pos; lia|apply Z.div_lt_upper_bound; lia]]. change (30 * 2 ^ 3) with 240.
    split; [|unfold needs; destruct (Z.ltb_spec c 128), (Z.ltb_spec c 2048), (Z.ltb_spec c 65536); try lia; split; [reflexivity|lia]].
    replace c with ((c / 262144 + 240 - 240) * 262144 + ((c / 4096) mod 64 + 128 - 128) * 4096 + ((c / 64) mod 64 + 128 - 128) * 64 + (c mod 64 + 128 - 128)) at 5
      by (Z.div_mod_to_equations; lia).
    constructor; unfold cont_byte; Z.div_mod_to_equations; lia.
Qed.
Print Assumptions encode_is_standard.

(** Outside the range nothing is produced. *)
Theorem encode_out_of_range : forall c, 1114112 <= c -> utf8 c = [].
Proof. intros c H. unfold utf8. destruct (Z.leb_spec c 127), (Z.leb_spec c 2047), (Z.leb_spec c 65535), (Z.leb_spec c 1114111); try lia; reflexivity. Qed.
Print Assumptions encode_out_of_range.

(** ** Round trip *)
Definition values (ev : list event) : list Z := flat_map (fun e => match e with Each c _ => [c] | Error _ => [] end) ev.
Definition errors (ev : list event) : list nat := flat_map (fun e => match e with Each _ _ => [] | Error i => [i] end) ev.

Theorem encode_decode_roundtrip : forall cs, Forall (fun c => 0 <= c < 1114112) cs ->
  exists ev, codepoints (flat_map utf8 cs) = Some ev /\ values ev = cs /\ errors ev = [].
Proof.
  intros cs H. set (l := map (fun c => (utf8 c, c)) cs). exists (reads 0 l).
  assert (E : flat_map utf8 cs = concat (map fst l)) by (unfold l; rewrite map_map, flat_map_concat_map; reflexivity).
  rewrite E. split; [apply decode_well_formed|].
  - unfold l. apply Forall_map. cbn. eapply Forall_impl; [|exact H]. intros c Hc. apply encode_is_standard. exact Hc.
  - assert (R : forall l i, values (reads i l) = map snd l /\ errors (reads i l) = []).
    { induction l0 as [|[bs c] l0 IH]; intros i; [auto|]. destruct (IH (i + length bs)%nat) as [H1 H2]. split; [cbn; f_equal; exact H1|exact H2]. }
    destruct (R l 0%nat) as [-> ->]. split; [|reflexivity]. unfold l. rewrite map_map, map_id. reflexivity.
Qed.
Print Assumptions encode_decode_roundtrip.

(** Valid UTF-8 text is reproduced exactly by decoding and encoding again. *)
Theorem decode_encode_roundtrip : forall l, Forall (fun p => valid (fst p) (snd p)) l ->
  exists ev, codepoints (concat (map fst l)) = Some ev /\ flat_map utf8 (values ev) = concat (map fst l).
Proof.
  intros l H. exists (reads 0 l). split; [apply decode_well_formed; eapply Forall_impl; [|exact H]; intros p V; apply V|].
  assert (R : forall l i, values (reads i l) = map snd l).
  { induction l0 as [|[bs c] l0 IH]; intros i; cbn; [auto|]. f_equal. apply IH. }
  rewrite R. rewrite flat_map_concat_map, map_map. f_equal. apply map_ext_Forall.
  eapply Forall_impl; [|exact H]. intros [bs c] (S1 & L1 & C1). cbn [fst snd] in *.
  (* the shortest form is unique *)
  assert (Hc : 0 <= c < 1114112) by (destruct S1; unfold cont_byte in *; lia).
  destruct (encode_is_standard c Hc) as (S2 & L2 & _). rewrite <- L1 in L2. clear - S1 S2 L2.
  remember (utf8 c) as u. clear Hequ.
  inversion S1; subst; inversion S2; subst; cbn [length] in *; try discriminate; unfold cont_byte in *.
  - reflexivity.
  - f_equal; [lia|f_equal; lia].
  - assert (a0 = a) by lia. subst. assert (b0 = b) by lia. subst. do 3 f_equal. lia.
  - assert (a0 = a) by lia. subst. assert (b0 = b) by lia. subst. assert (d0 = d) by lia. subst. do 4 f_equal. lia.
Qed.
Print Assumptions decode_encode_roundtrip.

(** ** Safety.  A decode reads out of bounds only when the input ends inside a sequence that lacks
    exactly its last byte; every other input, well-formed or not, is processed to the end. *)
Definition truncated_by_one (s : list Z) : Prop :=
  exists pre lead conts, s = pre ++ lead :: conts /\ Forall cont_byte conts /\
    ((192 <= lead < 224 /\ length conts = 0%nat) \/ (224 <= lead < 240 /\ length conts = 1%nat) \/ (240 <= lead < 248 /\ length conts = 2%nat)).

Local Lemma cont_loop_cases n : forall s i c, Forall byte s -> (i + n <= length s)%nat ->
  (cont_loop n s i c = None /\ (i + n = length s)%nat /\ (0 < n)%nat /\ Forall cont_byte (skipn (S i) s)) \/
  exists r, cont_loop n s i c = Some r /\ match r with inl (_, j) => j = (i + n)%nat | inr j => (i < j < length s)%nat end.
Proof.
  induction n; intros s i c B H; cbn [cont_loop].
  - right. eexists. split; [reflexivity|]. cbn. lia.
  - destruct (nth_error s (S i)) as [b|] eqn:N; cbn [obind].
    + pose proof (nth_error_lt _ _ _ N). assert (Bb : byte b) by (rewrite Forall_forall in B; apply B; eapply nth_error_In; eauto).
      destruct (Z.land b 192 =? 128) eqn:T.
      * destruct (IHn s (S i) (Z.lor (wshl 32 c 6) (Z.land b (Z.lxor 192 (2 ^ 32 - 1)))) B ltac:(lia)) as [(E & H1 & H2 & H3)|(r & E & Hr)].
        -- left. split; [exact E|]. split; [lia|]. split; [lia|]. rewrite (skipn_nth_error_cons s (S i) b N). constructor; [apply cont_test; auto|exact H3].
        -- right. exists r. split; [exact E|]. destruct r as [[c' j]|j]; lia.
      * right. eexists. split; [reflexivity|]. cbn. lia.
    + left. split; [reflexivity|]. apply nth_error_None in N. split; [lia|]. split; [lia|]. rewrite skipn_all2 by lia. constructor.
Qed.
Local Lemma round_cases s i : Forall byte s -> (i < length s)%nat ->
  (round s i = None /\ truncated_by_one s) \/ exists ev j, round s i = Some (ev, j) /\ (i <= j < length s)%nat.
Proof.
  intros B Hi. unfold round. destruct (nth_error_ex s i Hi) as (c & N). rewrite N. cbn [obind].
  assert (Bc : byte c) by (rewrite Forall_forall in B; apply B; eapply nth_error_In; eauto).
  destruct (Z.leb_spec 128 c); [|right; eexists _, _; split; [reflexivity|lia]].
  destruct (extra_of c) as [e|] eqn:Ex; [|right; eexists _, _; split; [reflexivity|lia]].
  cbv zeta. destruct (Nat.ltb_spec (length s) (i + e)); [right; eexists _, _; split; [reflexivity|lia]|].
  destruct (cont_loop_cases e s i (Z.land c (wshr 63 (Z.of_nat e))) B ltac:(lia)) as [(E & H1 & H2 & H3)|(r & E & Hr)].
  - left. rewrite E. split; [reflexivity|]. exists (firstn i s), c, (skipn (S i) s).
    split; [rewrite <- (skipn_nth_error_cons s i c N); symmetry; apply firstn_skipn|]. split; [exact H3|].
    rewrite skipn_length. rewrite extra_spec in Ex by auto.
    destruct (Z.ltb_spec c 192), (Z.ltb_spec c 224), (Z.ltb_spec c 240), (Z.ltb_spec c 248); try discriminate; injection Ex as <-; lia.
  - right. rewrite E. cbn [obind]. destruct r as [[c' j]|j]; eexists _, _; (split; [reflexivity|]); [|lia].
    destruct (Nat.eq_dec j (length s)) as [->|]; [|lia]. exfalso. subst. (* all continuation bytes were read, so j < length s *)
    assert (Q : forall n s i c r, cont_loop n s i c = Some (inl r) -> (i < length s)%nat -> (snd r < length s)%nat).
    { induction n; intros s0 i0 c0 r E0 Hi0; cbn [cont_loop] in E0; [injection E0 as <-; exact Hi0|].
      destruct (nth_error s0 (S i0)) eqn:N0; [|discriminate]. cbn [obind] in E0. pose proof (nth_error_lt _ _ _ N0).
      destruct (_ =? _); [|discriminate]. apply IHn in E0; auto. }
    apply Q in E; [cbn in E; lia|exact Hi].
Qed.

Theorem decode_in_bounds : forall s, Forall byte s -> ~ truncated_by_one s -> exists ev, codepoints s = Some ev.
Proof.
  intros s B H. unfold codepoints.
  assert (L : forall fuel i, (length s - i < fuel)%nat -> exists ev, codepoints_loop fuel s i = Some ev).
  { induction fuel; intros i Hf; [lia|]. cbn [codepoints_loop]. destruct (Nat.ltb_spec i (length s)); [|eauto].
    destruct (round_cases s i B H0) as [[_ T]|(ev & j & -> & Hj)]; [contradiction|]. cbn [obind fst snd].
    destruct (IHfuel (S j)) as (rest & ->); [lia|]. cbn. eauto. }
  apply L. lia.
Qed.
Print Assumptions decode_in_bounds.

(** ** Soundness: text decoded without an error is a concatenation of shaped sequences, and the
    reported code points are their values. *)
Local Lemma cont_loop_inv n : forall s i c c' j, Forall byte s -> cont_loop n s i c = Some (inl (c', j)) ->
  length (firstn n (skipn (S i) s)) = n /\ Forall cont_byte (firstn n (skipn (S i) s)).
Proof.
  induction n; intros s i c c' j B E; cbn [cont_loop] in E; [split; [reflexivity|constructor]|].
  destruct (nth_error s (S i)) as [b|] eqn:N; [|discriminate]. cbn [obind] in E.
  destruct (Z.land b 192 =? 128) eqn:T; [|discriminate].
  assert (Bb : byte b) by (rewrite Forall_forall in B; apply B; eapply nth_error_In; eauto).
  destruct (IHn _ _ _ _ _ B E) as [L F]. rewrite (skipn_nth_error_cons s (S i) b N). cbn [firstn length].
  split; [f_equal; exact L|constructor; [apply cont_test; auto|exact F]].
Qed.
Local Lemma round_inv s i c j : Forall byte s -> (i < length s)%nat -> round s i = Some (Each c j, j) ->
  exists bs, shape bs c /\ skipn i s = bs ++ skipn (i + length bs) s /\ (i + length bs <= length s)%nat /\ j = (i + length bs - 1)%nat.
Proof.
  intros B Hi E. destruct (nth_error_ex s i Hi) as (a & N).
  assert (Ba : byte a) by (rewrite Forall_forall in B; apply B; eapply nth_error_In; eauto).
  assert (Fin : forall bs c1, shape bs c1 -> firstn (length bs) (skipn i s) = bs ->
    exists bs, shape bs c /\ skipn i s = bs ++ skipn (i + length bs) s /\ (i + length bs <= length s)%nat /\ j = (i + length bs - 1)%nat).
  { intros bs c1 Hsh Hf. exists bs.
    assert (Hs : skipn i s = bs ++ skipn (i + length bs) s).
    { rewrite <- skipn_skipn_add. rewrite <- Hf at 1. symmetry. apply firstn_skipn. }
    assert (Hl : (i + length bs <= length s)%nat).
    { assert (L : length (firstn (length bs) (skipn i s)) = length bs) by (rewrite Hf; reflexivity).
      rewrite firstn_length, skipn_length in L. lia. }
    rewrite (round_shape s i bs c1 Hsh Hl) in E.
    - injection E as <- <-. auto.
    - intros k Hk. rewrite <- nth_error_skipn, Hs. apply nth_error_app1. auto. }
  pose proof E as E0. unfold round in E0. rewrite N in E0. cbn [obind] in E0.
  destruct (Z.leb_spec 128 a).
  - rewrite extra_spec in E0 by auto.
    assert (K : forall e, (if (length s <? i + e)%nat then Some (Error i, i) else
        do r <- cont_loop e s i (Z.land a (wshr 63 (Z.of_nat e))); match r with inl (c, j) => Some (Each c j, j) | inr j => Some (Error i, j) end) = Some (Each c j, j) ->
        exists bs, firstn (S e) (skipn i s) = a :: bs /\ length bs = e /\ Forall cont_byte bs).
    { intros e Q. destruct (length s <? i + e)%nat; [discriminate|].
      destruct (cont_loop e s i _) as [[[c2 j2]|j2]|] eqn:CL; try discriminate.
      destruct (cont_loop_inv _ _ _ _ _ _ B CL) as [L F]. exists (firstn e (skipn (S i) s)).
      rewrite (skipn_nth_error_cons s i a N). cbn [firstn]. auto. }
    unfold byte in Ba.
    destruct (Z.ltb_spec a 192); [discriminate|]. destruct (Z.ltb_spec a 224).
    { destruct (K 1%nat E0) as ([|b [|]] & Hf & L & F); try discriminate. inversion F; subst.
      eapply (Fin [a; b]); [apply sh2; auto; lia|exact Hf]. }
    destruct (Z.ltb_spec a 240).
    { destruct (K 2%nat E0) as ([|b [|d [|]]] & Hf & L & F); try discriminate. inversion F as [|? ? F1 F2]; subst. inversion F2; subst.
      eapply (Fin [a; b; d]); [apply sh3; auto; lia|exact Hf]. }
    destruct (Z.ltb_spec a 248); [|discriminate].
    { destruct (K 3%nat E0) as ([|b [|d [|e [|]]]] & Hf & L & F); try discriminate. inversion F as [|? ? F1 F2]; subst. inversion F2 as [|? ? F3 F4]; subst. inversion F4; subst.
      eapply (Fin [a; b; d; e]); [apply sh4; auto; lia|exact Hf]. }
  - eapply (Fin [a]); [apply sh1; unfold byte in Ba; lia|]. cbn [length].
    rewrite (skipn_nth_error_cons s i a N). reflexivity.
Qed.
Local Lemma round_event s i c j k : round s i = Some (Each c j, k) -> j = k.
Proof.
  unfold round. destruct (nth_error s i) as [a|]; [|discriminate]. cbn [obind]. destruct (128 <=? a).
  - destruct (extra_of a); [|discriminate]. cbv zeta. destruct (_ <? _)%nat; [discriminate|].
    destruct (cont_loop _ _ _ _) as [[[c2 j2]|j2]|]; cbn; try discriminate. congruence.
  - congruence.
Qed.

Theorem decode_without_errors_is_sound : forall s ev, Forall byte s -> codepoints s = Some ev -> errors ev = [] ->
  exists l, Forall (fun p => shape (fst p) (snd p)) l /\ s = concat (map fst l) /\ ev = reads 0 l.
Proof.
  intros s ev B E Er. unfold codepoints in E.
  assert (L : forall fuel i ev, (i <= length s)%nat -> codepoints_loop fuel s i = Some ev -> errors ev = [] ->
    exists l, Forall (fun p => shape (fst p) (snd p)) l /\ skipn i s = concat (map fst l) /\ ev = reads i l).
  { clear ev E Er. induction fuel; intros i ev Hi E Er; [discriminate|]. cbn [codepoints_loop] in E.
    destruct (Nat.ltb_spec i (length s)).
    - destruct (round s i) as [[e k]|] eqn:R; [|discriminate]. cbn [obind fst snd] in E.
      destruct (codepoints_loop fuel s (S k)) as [rest|] eqn:C; [|discriminate]. injection E as <-.
      destruct e as [c j|i0]; [|discriminate]. cbn in Er.
      pose proof (round_event _ _ _ _ _ R). subst k.
      destruct (round_inv s i c j B H R) as (bs & Hsh & Hs & Hl & ->). pose proof (shape_len _ _ Hsh).
      replace (S (i + length bs - 1)) with (i + length bs)%nat in C by lia.
      destruct (IHfuel (i + length bs)%nat rest ltac:(lia) C Er) as (l & F & Hc & ->).
      exists ((bs, c) :: l). split; [constructor; auto|]. split; [cbn; rewrite Hs, Hc; reflexivity|reflexivity].
    - injection E as <-. exists []. split; [constructor|]. split; [rewrite skipn_all2 by lia; reflexivity|reflexivity]. }
  apply (L _ 0%nat ev ltac:(lia) E Er).
Qed.
Print Assumptions decode_without_errors_is_sound.

(** The bound check is off by one: such an input does make the decoder read past the end, even
    after any well-formed prefix. *)
Theorem decode_in_bounds_refuted : forall l lead, Forall (fun p => shape (fst p) (snd p)) l -> 192 <= lead < 224 ->
  codepoints (concat (map fst l) ++ [lead]) = None.
Proof.
  intros l lead H Hl. unfold codepoints.
  assert (L : forall l, Forall (fun p => shape (fst p) (snd p)) l -> forall fuel s i, skipn i s = concat (map fst l) ++ [lead] -> (i <= length s)%nat -> (length s - i < fuel)%nat ->
    codepoints_loop fuel s i = None).
  { clear l H. induction 1 as [|[bs c] l Hsh Hf IH]; intros fuel s i Hs Hi Hfu; (destruct fuel as [|fuel]; [lia|]); cbn [codepoints_loop map concat fst snd app] in *.
    - assert (Ln : length (skipn i s) = 1%nat) by (rewrite Hs; reflexivity). rewrite skipn_length in Ln.
      destruct (Nat.ltb_spec i (length s)); [|lia].
      assert (N : nth_error s i = Some lead) by (replace i with (i + 0)%nat by lia; rewrite <- nth_error_skipn, Hs; reflexivity).
      unfold round. rewrite N. cbn [obind]. destruct (Z.leb_spec 128 lead); [|lia].
      rewrite extra_spec by (unfold byte; lia). destruct (Z.ltb_spec lead 192), (Z.ltb_spec lead 224); try lia.
      cbv zeta. destruct (Nat.ltb_spec (length s) (i + 1)); [lia|]. cbn [cont_loop].
      replace (nth_error s (S i)) with (@None Z) by (symmetry; apply nth_error_None; lia). reflexivity.
    - pose proof (shape_len _ _ Hsh) as Pos.
      assert (Ln : length (skipn i s) = (length bs + length (concat (map fst l)) + 1)%nat) by (rewrite Hs, !app_length; cbn; lia).
      rewrite skipn_length in Ln. destruct (Nat.ltb_spec i (length s)); [|lia].
      rewrite (round_shape s i bs c); auto; [|lia|].
      + cbn [obind snd fst]. replace (S (i + length bs - 1)) with (i + length bs)%nat by lia.
        rewrite (IH fuel s (i + length bs)%nat); auto; [|lia|lia].
        rewrite <- skipn_skipn_add, Hs. rewrite <- app_assoc, skipn_app, skipn_all, Nat.sub_diag. reflexivity.
      + intros k Hk. rewrite <- nth_error_skipn, Hs, <- app_assoc. apply nth_error_app1. auto. }
  apply (L l H); auto; lia.
Qed.
Print Assumptions decode_in_bounds_refuted.

(** The decoder also accepts what UTF-8 forbids: overlong forms, and values beyond 0x10ffff. *)
Theorem decode_accepts_overlong : codepoints [192; 128] = Some [Each 0 1] /\ codepoints [247; 191; 191; 191] = Some [Each 2097151 3].
Proof. split; reflexivity. Qed.
Print Assumptions decode_accepts_overlong.

(** ** Non-vacuity *)
Example utf8_example : utf8 8364 = [226; 130; 172] /\ codepoints [65; 226; 130; 172; 240; 159; 143; 128] = Some [Each 65 0; Each 8364 3; Each 127936 7].
Proof. split; reflexivity. Qed.
Example utf8_bad_example : codepoints [226; 65; 66; 128] = Some [Error 0; Each 66 2; Error 3] /\ ~ truncated_by_one [226; 65; 66; 128].
Proof.
  split; [reflexivity|]. intros (pre & lead & conts & E & F & H). unfold cont_byte in F.
  destruct pre as [|p0 [|p1 [|p2 [|p3 pre]]]]; cbn in E.
  - injection E as <- <-. cbn in H. lia.
  - injection E as _ <- <-. lia.
  - injection E as _ _ <- <-. lia.
  - injection E as _ _ _ <- <-. lia.
  - injection E as _ _ _ _ E. destruct pre; discriminate.
Qed.
