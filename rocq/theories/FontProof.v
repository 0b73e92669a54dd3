(* Proofs about FontModel. *)
From Coq Require Import List NArith Arith Bool Lia.
From Verif Require Import FontSpec FontModel.
Import ListNotations.

Definition bit_of (ws : list N) (i : nat) : bool := N.testbit (nth (i / 64) ws 0%N) (N.of_nat (i mod 64)).

Lemma div_mod_64 : forall R j, j < 64 -> (64 * R + j) / 64 = R /\ (64 * R + j) mod 64 = j.
Proof.
  intros R j H. split.
  - symmetry. apply (Nat.div_unique _ 64 R j); lia.
  - symmetry. apply (Nat.mod_unique _ 64 R j); lia.
Qed.

Lemma split_64 : forall i, exists R j, j < 64 /\ i = 64 * R + j.
Proof.
  intro i. exists (i / 64), (i mod 64). split; [apply Nat.mod_upper_bound; lia | apply Nat.div_mod; lia].
Qed.

Lemma bit_of_at : forall ws R j, j < 64 -> bit_of ws (64 * R + j) = N.testbit (nth R ws 0%N) (N.of_nat j).
Proof. intros ws R j H. unfold bit_of. destruct (div_mod_64 R j H) as [-> ->]. reflexivity. Qed.

Lemma bit_of_app_l : forall ws x i, i < 64 * length ws -> bit_of (ws ++ x) i = bit_of ws i.
Proof.
  intros ws x i H. destruct (split_64 i) as (R & j & Hj & ->).
  rewrite !bit_of_at by exact Hj. rewrite app_nth1 by lia. reflexivity.
Qed.

Lemma bit_of_last : forall ws b j, j < 64 -> bit_of (ws ++ [b]) (64 * length ws + j) = N.testbit b (N.of_nat j).
Proof.
  intros ws b j H. rewrite bit_of_at by exact H. rewrite app_nth2 by lia.
  replace (length ws - length ws) with 0 by lia. reflexivity.
Qed.

Lemma bit_of_over : forall ws i, 64 * length ws <= i -> bit_of ws i = false.
Proof.
  intros ws i H. destruct (split_64 i) as (R & j & Hj & ->).
  rewrite bit_of_at by exact Hj. rewrite nth_overflow by lia. apply N.bits_0.
Qed.

Lemma add_bit : forall buffer x bit k,
  N.testbit (N.lor buffer (N.shiftl (if N.eqb x 0 then 0 else 1) (N.of_nat bit))) (N.of_nat k) =
  orb (N.testbit buffer (N.of_nat k)) (andb (Nat.eqb k bit) (set_texel x)).
Proof.
  intros buffer x bit k. rewrite N.lor_spec. f_equal. unfold set_texel.
  destruct (Nat.lt_ge_cases k bit) as [L | L].
  - rewrite N.shiftl_spec_low by lia. destruct (Nat.eqb_spec k bit); [lia | reflexivity].
  - rewrite N.shiftl_spec_high' by lia. rewrite <- Nat2N.inj_sub.
    destruct (N.eqb_spec x 0); cbn [negb].
    + rewrite andb_false_r. apply N.bits_0.
    + rewrite andb_true_r. destruct (Nat.eqb_spec k bit) as [-> | Ne].
      * rewrite Nat.sub_diag. reflexivity.
      * destruct (k - bit) as [| m] eqn:Q; [lia |].
        apply N.bits_above_log2. cbn. lia.
Qed.

Lemma to_bits_spec : forall bs buffer bit ret,
  bit < 64 -> (forall k, bit <= k -> N.testbit buffer (N.of_nat k) = false) ->
  (forall i, i < 64 * length ret -> bit_of (to_bits bs buffer bit ret) i = bit_of ret i) /\
  (forall j, bit_of (to_bits bs buffer bit ret) (64 * length ret + j) =
             if Nat.ltb j bit then N.testbit buffer (N.of_nat j) else texel bs (j - bit)) /\
  length (to_bits bs buffer bit ret) = length ret + (bit + length bs + 63) / 64.
Proof.
  induction bs as [| x r IH]; intros buffer bit ret Hb Hi; cbn [to_bits].
  - assert (T : forall n, texel [] n = false) by (intros [| n]; reflexivity).
    destruct (Nat.eqb_spec bit 0) as [-> | Nz].
    + repeat split.
      * intro j. cbn. rewrite T. apply bit_of_over. lia.
      * cbn. lia.
    + repeat split.
      * intros i H. apply bit_of_app_l. exact H.
      * intro j. rewrite T. destruct (Nat.ltb_spec j bit) as [L | L].
        -- apply bit_of_last. lia.
        -- destruct (Nat.lt_ge_cases j 64).
           ++ rewrite bit_of_last by lia. apply Hi. exact L.
           ++ apply bit_of_over. rewrite app_length. cbn. lia.
      * rewrite app_length. cbn [length]. f_equal.
        apply (Nat.div_unique _ 64 1 (bit - 1)); lia.
  - set (buffer' := N.lor buffer (N.shiftl (if N.eqb x 0 then 0 else 1) (N.of_nat bit))).
    destruct (Nat.eqb_spec (S bit) 64) as [E | E].
    + destruct (IH 0%N 0 (ret ++ [buffer'])) as (I1 & I2 & I3); [lia | intros; apply N.bits_0 |].
      rewrite app_length in I1, I2, I3. cbn [length] in I1, I2, I3. repeat split.
      * intros i H. rewrite I1 by lia. apply bit_of_app_l. exact H.
      * intro j. destruct (Nat.lt_ge_cases j 64) as [L | L].
        -- rewrite I1 by lia. rewrite bit_of_last by exact L. unfold buffer'. rewrite add_bit.
           destruct (Nat.ltb_spec j bit) as [L2 | L2].
           ++ destruct (Nat.eqb_spec j bit); [lia |]. cbn. apply orb_false_r.
           ++ assert (j = bit) as -> by lia. rewrite Nat.eqb_refl, (Hi bit) by lia.
              rewrite Nat.sub_diag. reflexivity.
        -- replace (64 * length ret + j) with (64 * (length ret + 1) + (j - 64)) by lia.
           rewrite I2. destruct (Nat.ltb_spec (j - 64) 0); [lia |]. destruct (Nat.ltb_spec j bit); [lia |].
           replace (j - bit) with (S (j - 64)) by lia. rewrite Nat.sub_0_r. reflexivity.
      * rewrite I3. cbn [length]. replace (bit + S (length r) + 63) with ((0 + length r + 63) + 1 * 64) by lia.
        rewrite Nat.div_add by lia. lia.
    + destruct (IH buffer' (S bit) ret) as (I1 & I2 & I3); [lia | |].
      { intros k Hk. unfold buffer'. rewrite add_bit, Hi by lia.
        destruct (Nat.eqb_spec k bit); [lia | reflexivity]. }
      repeat split.
      * exact I1.
      * intro j. rewrite I2. unfold buffer'. rewrite add_bit.
        destruct (Nat.ltb_spec j bit) as [L | L], (Nat.ltb_spec j (S bit)) as [L2 | L2]; try lia.
        -- destruct (Nat.eqb_spec j bit); [lia |]. cbn. apply orb_false_r.
        -- assert (j = bit) as -> by lia. rewrite Nat.eqb_refl, (Hi bit) by lia.
           rewrite Nat.sub_diag. reflexivity.
        -- replace (j - bit) with (S (j - S bit)) by lia. reflexivity.
      * rewrite I3. cbn [length]. f_equal. f_equal. lia.
Qed.

Lemma land_bit : forall v b, N.eqb (N.land v (N.shiftl 1 b)) 0 = negb (N.testbit v b).
Proof.
  intros v b. rewrite N.shiftl_1_l. destruct (N.testbit v b) eqn:T; cbn.
  - apply N.eqb_neq. intro H. assert (Q : N.testbit (N.land v (2 ^ b)) b = true).
    { rewrite N.land_spec, T, N.pow2_bits_true. reflexivity. }
    rewrite H, N.bits_0 in Q. discriminate.
  - apply N.eqb_eq. apply N.bits_inj_0. intro n. rewrite N.land_spec, N.pow2_bits_eqb.
    destruct (N.eqb_spec b n) as [<- | Ne]; [rewrite T; reflexivity | apply andb_false_r].
Qed.

Lemma bits_to_bytes_length : forall ws, length (bits_to_bytes ws) = length ws * 64.
Proof. intro ws. unfold bits_to_bytes. rewrite map_length, seq_length. reflexivity. Qed.

Lemma bits_to_bytes_nth : forall ws i, nth i (bits_to_bytes ws) 0%N = if bit_of ws i then 255%N else 0%N.
Proof.
  intros ws i. destruct (Nat.lt_ge_cases i (length ws * 64)) as [L | L].
  - unfold bits_to_bytes.
    match goal with |- nth i (map ?f _) _ = _ => set (g := f) end.
    rewrite (nth_indep _ 0%N (g 0)) by (rewrite map_length, seq_length; exact L).
    rewrite map_nth, seq_nth by exact L. unfold g. cbn [Nat.add].
    rewrite land_bit. unfold bit_of. destruct (N.testbit _ _); reflexivity.
  - rewrite nth_overflow by (rewrite bits_to_bytes_length; exact L).
    rewrite bit_of_over by lia. reflexivity.
Qed.

Lemma round_trip : forall bs,
  length (bits_to_bytes (bytes_to_bits bs)) = (length bs + 63) / 64 * 64 /\
  forall i, nth i (bits_to_bytes (bytes_to_bits bs)) 0%N = if texel bs i then 255%N else 0%N.
Proof.
  intro bs. destruct (to_bits_spec bs 0 0 []) as (_ & I2 & I3); [lia | intros; apply N.bits_0 |].
  split.
  - rewrite bits_to_bytes_length. unfold bytes_to_bits. rewrite I3. reflexivity.
  - intro i. rewrite bits_to_bytes_nth. unfold bytes_to_bits.
    specialize (I2 i). destruct (Nat.ltb_spec i 0); [lia |]. rewrite Nat.sub_0_r in I2.
    change (64 * @length N [] + i) with i in I2. rewrite I2. reflexivity.
Qed.

(* hex *)
Lemma digits_value_app : forall s t acc, digits_value acc (s ++ t) =
  match digits_value acc s with Some v => digits_value v t | None => None end.
Proof.
  induction s as [| c s IH]; intros t acc; cbn; [reflexivity |].
  destruct (digit_value c); [apply IH | reflexivity].
Qed.

Lemma digit_ok : forall c, (c < 16)%N ->
  digit_value (if N.leb 10 c then 97 + (c - 10) else 48 + c)%N = Some c.
Proof.
  intros c H. unfold digit_value. destruct (N.leb_spec 10 c).
  - replace (N.leb 48 (97 + (c - 10)) && N.leb (97 + (c - 10)) 57)%bool with false.
    + replace (N.leb 97 (97 + (c - 10)) && N.leb (97 + (c - 10)) 102)%bool with true.
      * f_equal. lia.
      * symmetry. apply andb_true_iff. split; apply N.leb_le; lia.
    + symmetry. apply andb_false_iff. right. apply N.leb_gt. lia.
  - replace (N.leb 48 (48 + c) && N.leb (48 + c) 57)%bool with true.
    + f_equal. lia.
    + symmetry. apply andb_true_iff. split; apply N.leb_le; lia.
Qed.

Lemma hex_digits_ok : forall fuel v, (v < 16 ^ N.of_nat fuel)%N ->
  digits_value 0 (rev (hex_digits fuel v)) = Some v.
Proof.
  induction fuel as [| fuel IH]; intros v H; cbn [hex_digits].
  - cbn in *. f_equal. lia.
  - destruct (N.eqb_spec v 0) as [-> | Nz]; [reflexivity |].
    cbn [rev]. rewrite digits_value_app.
    rewrite N.shiftr_div_pow2. change (2 ^ 4)%N with 16%N.
    rewrite Nat2N.inj_succ, N.pow_succ_r' in H.
    rewrite IH by (apply N.div_lt_upper_bound; lia).
    change 15%N with (N.ones 4). rewrite N.land_ones. change (2 ^ 4)%N with 16%N.
    cbn [digits_value]. rewrite digit_ok by (apply N.mod_lt; lia).
    f_equal. symmetry. apply N.div_mod. lia.
Qed.

Lemma hex_ok : forall v, (v < 2 ^ 64)%N -> literal_value (hex v) = Some v.
Proof.
  intros v H. unfold hex. destruct (N.eqb_spec v 0) as [-> | Nz]; [reflexivity |].
  rewrite rev_app_distr. cbn [rev app].
  pose proof (hex_digits_ok 16 v) as Q. change (16 ^ N.of_nat 16)%N with (2 ^ 64)%N in Q. specialize (Q H).
  assert (L : rev (hex_digits 16 v) <> []).
  { intro Z. rewrite Z in Q. cbn in Q. congruence. }
  destruct (rev (hex_digits 16 v)) as [| c r]; [congruence |]. exact Q.
Qed.

(* codepoints *)
Lemma set_nth_length : forall l n x, length (set_nth l n x) = length l.
Proof. induction l as [| y l IH]; intros [| n] x; cbn; auto. Qed.

Lemma set_nth_nth : forall l n x k, n < length l ->
  nth k (set_nth l n x) 0%N = if Nat.eqb k n then x else nth k l 0%N.
Proof.
  induction l as [| y l IH]; intros n x k H; cbn in H; [lia |].
  destruct n as [| n], k as [| k]; cbn; auto. rewrite IH by lia. reflexivity.
Qed.

Lemma place_length : forall cps i font, length (place cps i font) = length font.
Proof.
  intros cps. induction i as [| i IH]; intros font; cbn; [reflexivity |].
  rewrite IH, set_nth_length. reflexivity.
Qed.

Lemma place_nth : forall cps, NoDup cps -> forall i font, i <= length cps -> (N.of_nat i <= 65536)%N ->
  (forall c, In c cps -> c < length font) ->
  (forall p, p < i -> nth (nth p cps 0) (place cps i font) 0%N = N.of_nat p) /\
  (forall c, (forall p, p < i -> nth p cps 0 <> c) -> nth c (place cps i font) 0%N = nth c font 0%N).
Proof.
  intros cps ND. induction i as [| i IH]; intros font L L2 B; cbn [place]; [split; [lia | reflexivity] |].
  set (f1 := set_nth font (nth i cps 0) (N.of_nat i mod 65536)).
  destruct (IH f1) as [I1 I2]; try lia.
  { intros c Hc. unfold f1. rewrite set_nth_length. auto. }
  assert (Bi : nth i cps 0 < length font) by (apply B, nth_In; lia).
  split.
  - intros p Hp. destruct (Nat.eq_dec p i) as [-> | Ne]; [| apply I1; lia].
    rewrite I2.
    + unfold f1. rewrite set_nth_nth by exact Bi. rewrite Nat.eqb_refl. apply N.mod_small. lia.
    + intros q Hq E. assert (q = i); [| lia]. apply (proj1 (NoDup_nth cps 0) ND); lia.
  - intros c Hc. rewrite I2 by (intros p Hp; apply Hc; lia).
    unfold f1. rewrite set_nth_nth by exact Bi. destruct (Nat.eqb_spec c (nth i cps 0)) as [-> | Ne]; [| reflexivity].
    exfalso. apply (Hc i); [lia | reflexivity].
Qed.

(* filtering an interval by membership in an increasing list gives the list *)
Fixpoint above (n : nat) (l : list nat) : Prop :=
  match l with [] => True | x :: r => n <= x /\ above (S x) r end.

Lemma above_ge : forall l n x, above n l -> In x l -> n <= x.
Proof.
  induction l as [| y l IH]; intros n x H Hx; cbn in *; [contradiction |].
  destruct H as [H1 H2], Hx as [-> | Hx]; [lia |]. specialize (IH _ _ H2 Hx). lia.
Qed.

Lemma above_nodup : forall l n, above n l -> NoDup l.
Proof.
  induction l as [| y l IH]; intros n H; cbn in *; constructor.
  - intro Hy. destruct H as [_ H]. pose proof (above_ge _ _ _ H Hy). lia.
  - destruct H. eauto.
Qed.

Lemma filter_interval : forall k n l f, above n l -> (forall x, In x l -> x < n + k) ->
  (forall c, n <= c -> f c = true <-> In c l) -> filter f (seq n k) = l.
Proof.
  induction k as [| k IH]; intros n l f H B F; cbn.
  - destruct l as [| x l]; [reflexivity |]. specialize (B x (or_introl eq_refl)). destruct H. lia.
  - destruct (f n) eqn:Q.
    + apply F in Q; [| lia]. destruct l as [| x l]; [contradiction |]. destruct H as [H1 H2].
      assert (x = n). { destruct Q as [Q | Q]; [auto |]. pose proof (above_ge _ _ _ H2 Q). lia. }
      subst x. f_equal. apply IH; auto.
      * intros x Hx. specialize (B x (or_intror Hx)). lia.
      * intros c Hc. rewrite (F c) by lia. cbn. split; [intros [-> | ?]; [lia | auto] | auto].
    + assert (~ In n l) by (intro Hn; apply F in Hn; [congruence | lia]).
      apply IH.
      * destruct l as [| x l]; [exact I |]. destruct H as [H1 H2]. split; [| exact H2].
        destruct (Nat.eq_dec x n); [subst; cbn in *; tauto | lia].
      * intros x Hx. specialize (B x Hx). lia.
      * intros c Hc. apply F. lia.
Qed.

Lemma above_last : forall l n x, above n l -> In x l -> x <= last l 0.
Proof.
  induction l as [| y l IH]; intros n x H Hx; [contradiction |].
  destruct H as [H1 H2]. destruct l as [| z l].
  - destruct Hx as [-> | []]. cbn. lia.
  - change (last (y :: z :: l) 0) with (last (z :: l) 0). destruct Hx as [-> | Hx].
    + pose proof (IH _ z H2 (or_introl eq_refl)). destruct H2. lia.
    + eauto.
Qed.

Lemma above_length : forall l n m, above n l -> (forall x, In x l -> x < m) -> length l <= m - n.
Proof.
  induction l as [| y l IH]; intros n m H B; cbn; [lia |]. destruct H as [H1 H2].
  specialize (IH (S y) m H2 (fun x Hx => B x (or_intror Hx))).
  specialize (B y (or_introl eq_refl)). lia.
Qed.

Lemma codepoints_ok : forall r, above 1 r -> (forall c, In c r -> (N.of_nat c < 65536)%N) ->
  emit_codepoints (unpack_codepoints (0 :: r)) = 0 :: r /\
  (forall p, p <= length r -> nth (nth p (0 :: r) 0) (unpack_codepoints (0 :: r)) 0%N = N.of_nat p) /\
  (forall c, ~ In c r -> nth c (unpack_codepoints (0 :: r)) 0%N = 0%N).
Proof.
  intros r H B. set (cps := 0 :: r).
  assert (A : above 0 cps) by (cbn; split; [lia | exact H]).
  assert (ND := above_nodup _ _ A).
  assert (LN : (N.of_nat (length cps) <= 65536)%N).
  { assert (M : exists m, N.of_nat m = 65536%N) by (exists (N.to_nat 65536); apply N2Nat.id).
    destruct M as [m M]. pose proof (above_length cps 0 m A) as Q.
    assert (length cps <= m - 0); [| lia]. apply Q.
    intros x [<- | Hx]; [lia |]. specialize (B x Hx). lia. }
  assert (LE : forall c, In c cps -> c < length (repeat 0%N (S (last cps 0)))).
  { intros c Hc. rewrite repeat_length. pose proof (above_last _ _ _ A Hc). lia. }
  destruct (place_nth cps ND (length cps) (repeat 0%N (S (last cps 0))) (le_n _) LN LE) as [P1 P2].
  fold (unpack_codepoints cps) in P1, P2.
  assert (R0 : forall n c, nth c (repeat 0%N n) 0%N = 0%N).
  { induction n as [| n IHn]; intros [| c]; cbn; auto. }
  assert (P3 : forall c, ~ In c r -> nth c (unpack_codepoints cps) 0%N = 0%N).
  { intros c Hc. destruct (Nat.eq_dec c 0) as [-> | Nz].
    - specialize (P1 0 ltac:(cbn; lia)). exact P1.
    - rewrite P2; [apply R0 |]. intros p Hp E.
      assert (Hin : In c cps) by (rewrite <- E; apply nth_In; exact Hp).
      destruct Hin; [congruence | auto]. }
  split; [| split; [| exact P3]].
  - unfold emit_codepoints. apply filter_interval.
    + exact A.
    + intros x Hx. cbn [Nat.add]. unfold unpack_codepoints. rewrite place_length. auto.
    + intros c _. rewrite orb_true_iff, negb_true_iff, N.eqb_neq, Nat.eqb_eq. split.
      * intros [Hc | ->]; [| left; reflexivity]. right.
        destruct (in_dec Nat.eq_dec c r) as [Hi | Hi]; [exact Hi |]. destruct Hc. apply P3. exact Hi.
      * intros [<- | Hc]; [right; reflexivity | left].
        destruct (In_nth r c 0 Hc) as (p & Hp & E).
        specialize (P1 (S p) ltac:(cbn; lia)). cbn [nth cps] in P1. rewrite E in P1. rewrite P1. lia.
  - intros p Hp. apply P1. cbn. lia.
Qed.
