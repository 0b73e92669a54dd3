(** C09 and C31: decimal printing and parsing. *)
From Verif Require Import DecSpec CommonLemmas WordsLemmas.
Open Scope Z_scope.

Local Lemma value_snoc s c : value (s ++ [c]) = 10 * value s + (c - 48).
Proof. unfold value. rewrite fold_left_app. reflexivity. Qed.
Local Lemma value_acc s : forall a, fold_left (fun a c => 10 * a + (c - 48)) s a = a * 10 ^ Z.of_nat (length s) + value s.
Proof.
  unfold value. induction s as [|c s IH]; intros a; cbn [fold_left length]; [cbn; lia|].
  rewrite IH, (IH (10 * 0 + (c - 48))). rewrite Nat2Z.inj_succ, Z.pow_succ_r by lia. lia.
Qed.
Local Lemma value_cons c s : value (c :: s) = (c - 48) * 10 ^ Z.of_nat (length s) + value s.
Proof. unfold value at 1. cbn [fold_left]. rewrite value_acc. f_equal. Qed.
Local Lemma value_bound s : Forall digit s -> 0 <= value s < 10 ^ Z.of_nat (length s).
Proof.
  induction 1 as [|c s Hc Hs IH]; [cbn; lia|]. rewrite value_cons. cbn [length].
  rewrite Nat2Z.inj_succ, Z.pow_succ_r by lia. unfold digit in Hc. nia.
Qed.

(** The loop, run on num with the already produced digits res. *)
Local Lemma loop_spec fuel : forall num res, 0 <= num < 10 ^ Z.of_nat fuel -> (0 < fuel)%nat ->
  exists s, u64dec_loop fuel num res = Some (s ++ res) /\ Forall digit s /\ value s = num /\ s <> [] /\
    (s = [48] \/ exists c s', s = c :: s' /\ c <> 48).
Proof.
  induction fuel; intros num res Hn Hf; [lia|]. cbn [u64dec_loop].
  pose proof (Z.div_mod num 10 ltac:(lia)) as Dm. pose proof (Z.mod_pos_bound num 10 ltac:(lia)).
  rewrite Nat2Z.inj_succ, Z.pow_succ_r in Hn by lia.
  destruct (Z.eqb_spec (num / 10) 0) as [E|E].
  - exists [num mod 10 + 48]. split; [reflexivity|]. split; [repeat constructor; lia|]. split; [unfold value; cbn [fold_left]; lia|].
    split; [discriminate|]. destruct (Z.eq_dec (num mod 10) 0) as [Q|Q]; [left; rewrite Q; reflexivity|].
    right. exists (num mod 10 + 48), []. split; [reflexivity|lia].
  - assert (Hd : 0 <= num / 10 < 10 ^ Z.of_nat fuel) by lia.
    assert (Pf : (0 < fuel)%nat). { destruct fuel; [|lia]. change (10 ^ Z.of_nat 0) with 1 in Hd. lia. }
    destruct (IHfuel (num / 10) ((num mod 10 + 48) :: res) Hd Pf) as (s & -> & D & V & N & L).
    exists (s ++ [num mod 10 + 48]). rewrite <- app_assoc. split; [reflexivity|].
    split; [apply Forall_app; split; [exact D|repeat constructor; lia]|].
    split; [rewrite value_snoc, V; lia|]. split; [destruct s; discriminate|].
    destruct L as [L|(c & s' & -> & Hc)].
    + exfalso. rewrite L in V. unfold value in V. cbn in V. lia.
    + right. exists c, (s' ++ [num mod 10 + 48]). split; [reflexivity|exact Hc].
Qed.

(** ** C09 *)
Theorem u64dec_prints_the_decimal : forall n, word 64 n -> exists s, u64dec n = Some s /\ decimal s n.
Proof.
  intros n Hn. unfold u64dec. destruct (loop_spec 20 n []) as (s & E & H); [|lia|].
  - unfold word in Hn. assert (2 ^ 64 < 10 ^ Z.of_nat 20) by reflexivity. lia.
  - rewrite app_nil_r in E. exists s. split; [exact E|]. unfold decimal. tauto.
Qed.
Print Assumptions u64dec_prints_the_decimal.

Theorem i64dec_prints_the_decimal : forall n, - 2 ^ 63 <= n < 2 ^ 63 -> exists s, i64dec n = Some s /\ sdecimal s n.
Proof.
  intros n Hn. unfold i64dec. destruct (Z.ltb_spec n 0) as [H|H].
  - destruct (Z.eqb_spec n (- 2 ^ 63)) as [->|H'].
    + eexists. split; [reflexivity|]. right. split; [reflexivity|]. eexists. split; [reflexivity|].
      split; [repeat constructor; unfold digit; lia|]. split; [reflexivity|]. split; [discriminate|].
      right. eexists _, _. split; [reflexivity|lia].
    + destruct (u64dec_prints_the_decimal (- n)) as (s & -> & D); [unfold word; lia|].
      exists (45 :: s). split; [reflexivity|]. right. split; [exact H|]. exists s. auto.
  - destruct (u64dec_prints_the_decimal n) as (s & -> & D); [unfold word; lia|].
    exists s. split; [reflexivity|]. left. auto.
Qed.
Print Assumptions i64dec_prints_the_decimal.

(** There is only one such numeral, so the output is determined by the two theorems above. *)
Theorem decimal_is_unique : forall s s' n, decimal s n -> decimal s' n -> s = s'.
Proof.
  assert (Same : forall s s', length s = length s' -> Forall digit s -> Forall digit s' -> value s = value s' -> s = s').
  { induction s as [|c s IH]; intros [|c' s'] L D D' V; try discriminate; [reflexivity|].
    injection L as L. inversion D; subst. inversion D'; subst. rewrite !value_cons, L in V.
    pose proof (value_bound s ltac:(auto)) as B1. pose proof (value_bound s' ltac:(auto)) as B2. rewrite L in B1.
    assert (c = c') by nia. subst. f_equal. apply IH; auto. lia. }
  assert (Low : forall c s, Forall digit (c :: s) -> c <> 48 -> 10 ^ Z.of_nat (length s) <= value (c :: s)).
  { intros c s D H. inversion D; subst. rewrite value_cons. pose proof (value_bound s ltac:(auto)). unfold digit in *. nia. }
  assert (Len : forall s s' n, decimal s n -> decimal s' n -> (length s <= length s')%nat).
  { intros s s' n (D & V & N & L) (D' & V' & N' & L').
    destruct L as [->|(c & t & -> & Hc)]; [destruct s'; [congruence|cbn; lia]|].
    specialize (Low c t D Hc). pose proof (value_bound s' D') as B.
    assert (10 ^ Z.of_nat (length t) < 10 ^ Z.of_nat (length s')) by lia.
    apply Z.pow_lt_mono_r_iff in H; [|lia|lia]. cbn [length]. lia. }
  intros s s' n D D'. apply Same; try (destruct D, D'; auto; fail).
  - pose proof (Len _ _ _ D D'). pose proof (Len _ _ _ D' D). lia.
  - destruct D as (_ & -> & _), D' as (_ & -> & _). reflexivity.
Qed.
Print Assumptions decimal_is_unique.

(** ** C31 *)
Local Lemma wmul_add a d : wadd 32 (wmul 32 (wrap 32 a) 10) (wsub 32 d 48) = wrap 32 (10 * a + (d - 48)).
Proof.
  unfold wadd, wmul, wsub, wrap. rewrite Zmult_mod_idemp_l, <- Zplus_mod. f_equal. lia.
Qed.
Local Lemma parse_loop_spec ds : forall fuel str off rest a, skipn off str = ds ++ rest -> (off <= length str)%nat -> Forall digit ds ->
  (rest = [] \/ exists c r, rest = c :: r /\ ~ digit c) -> (length ds < fuel)%nat ->
  parse10_loop fuel str (Z.of_nat off) (wrap 32 a) =
    Some (wrap 32 (fold_left (fun a c => 10 * a + (c - 48)) ds a), Z.of_nat (off + length ds)).
Proof.
  induction ds as [|d ds IH]; intros fuel str off rest a Hs Ho Hd Hr Hf; (destruct fuel as [|fuel]; [cbn in Hf; lia|]); cbn [parse10_loop fold_left length] in *.
  - rewrite Nat.add_0_r. destruct (Z.ltb_spec (Z.of_nat off) (Z.of_nat (length str))) as [H|H]; [|reflexivity].
    destruct (Z.ltb_spec (Z.of_nat off) 0); [lia|]. rewrite Nat2Z.id.
    destruct Hr as [->|(c & r & -> & Hc)].
    + exfalso. assert (L : length (skipn off str) = 0%nat) by (rewrite Hs; reflexivity). rewrite skipn_length in L. lia.
    + cbn in Hs. assert (N : nth_error str off = Some c).
      { replace off with (off + 0)%nat by lia. rewrite <- nth_error_skipn, Hs. reflexivity. }
      rewrite N. cbn [obind]. unfold digit in Hc.
      destruct (Z.ltb_spec c 48), (Z.ltb_spec 57 c); cbn [orb]; try reflexivity. lia.
  - assert (N : nth_error str off = Some d).
    { replace off with (off + 0)%nat by lia. rewrite <- nth_error_skipn, Hs. reflexivity. }
    pose proof (nth_error_lt _ _ _ N). destruct (Z.ltb_spec (Z.of_nat off) (Z.of_nat (length str))); [|lia].
    destruct (Z.ltb_spec (Z.of_nat off) 0); [lia|]. rewrite Nat2Z.id, N. cbn [obind].
    inversion Hd as [|? ? Hd1 Hd2]; subst. unfold digit in Hd1.
    destruct (Z.ltb_spec d 48), (Z.ltb_spec 57 d); cbn [orb]; try lia.
    rewrite wmul_add. replace (Z.of_nat off + 1) with (Z.of_nat (S off)) by lia.
    rewrite (IH fuel str (S off) rest); auto; [do 2 f_equal; lia| |lia].
    replace (S off) with (off + 1)%nat by lia. rewrite <- skipn_skipn_add, Hs. reflexivity.
Qed.

Theorem parse10u32_reads_the_digits : forall str off ds, digits_at str off ds ->
  parse10u32 (Z.of_nat off) str = Some (value ds mod 2 ^ 32, Z.of_nat (off + length ds)).
Proof.
  intros str off ds (rest & Hs & Ho & Hd & Hr). unfold parse10u32.
  change 0 with (wrap 32 0). apply (parse_loop_spec ds _ str off rest); auto.
  assert (L : length (skipn off str) = length (ds ++ rest)) by (rewrite Hs; reflexivity).
  rewrite skipn_length, app_length in L. lia.
Qed.
Print Assumptions parse10u32_reads_the_digits.

(** Every position of every string has such a digit run, so the parser is total from any cursor inside the string. *)
Theorem digits_at_exists : forall str off, (off <= length str)%nat -> exists ds, digits_at str off ds.
Proof.
  intros str off Ho. assert (H : forall l, exists ds rest, l = ds ++ rest /\ Forall digit ds /\ (rest = [] \/ exists c r, rest = c :: r /\ ~ digit c)).
  { induction l as [|c l IH]; [exists [], []; auto|].
    destruct (Z_le_dec 48 c) as [H1|H1]; [destruct (Z_le_dec c 57) as [H2|H2]|].
    - destruct IH as (ds & rest & -> & D & R). exists (c :: ds), rest. repeat split; auto. constructor; auto. split; auto.
    - exists [], (c :: l). repeat split; auto. right. exists c, l. split; [reflexivity|unfold digit; lia].
    - exists [], (c :: l). repeat split; auto. right. exists c, l. split; [reflexivity|unfold digit; lia]. }
  destruct (H (skipn off str)) as (ds & rest & E & D & R). exists ds, rest. auto.
Qed.
Print Assumptions digits_at_exists.

Theorem parse10s32_reads_the_number : forall str off ds,
  (digits_at str off ds -> value ds < 2 ^ 31 -> nth_error str off <> Some 45 ->
     parse10s32 (Z.of_nat off) str = Some (value ds, Z.of_nat (off + length ds))) /\
  (nth_error str off = Some 45 -> digits_at str (S off) ds -> value ds < 2 ^ 31 ->
     parse10s32 (Z.of_nat off) str = Some (- value ds, Z.of_nat (S off + length ds))).
Proof.
  intros str off ds. split.
  - intros H V N. unfold parse10s32. pose proof H as (rest & Hs & Ho & Hd & Hr).
    pose proof (value_bound ds Hd) as B.
    destruct (Z.leb_spec (Z.of_nat (length str)) (Z.of_nat off)).
    + assert (L : length (skipn off str) = 0%nat) by (rewrite skipn_length; lia).
      rewrite Hs, app_length in L. destruct ds; cbn in L; [|lia]. rewrite Nat.add_0_r. reflexivity.
    + destruct (Z.ltb_spec (Z.of_nat off) 0); [lia|]. rewrite Nat2Z.id.
      destruct (nth_error_ex str off ltac:(lia)) as (c & Ec). rewrite Ec in N |- *. cbn [obind].
      destruct (Z.eqb_spec c 45); [congruence|].
      rewrite (parse10u32_reads_the_digits str off ds H). cbn [obind fst snd].
      unfold signed, wrap. rewrite Z.mod_mod by lia. rewrite Z.mod_small by lia.
      change (32 - 1) with 31. destruct (Z.ltb_spec (value ds) (2 ^ 31)); [|lia].
      destruct (Z.ltb_spec (value ds * 1) (- 2 ^ 31)), (Z.leb_spec (2 ^ 31) (value ds * 1)); cbn [orb]; try lia.
      do 2 f_equal. lia.
  - intros N H V. unfold parse10s32. pose proof H as (rest & Hs & Ho & Hd & Hr).
    pose proof (value_bound ds Hd) as B. pose proof (nth_error_lt _ _ _ N).
    destruct (Z.leb_spec (Z.of_nat (length str)) (Z.of_nat off)); [lia|].
    destruct (Z.ltb_spec (Z.of_nat off) 0); [lia|]. rewrite Nat2Z.id, N. cbn [obind]. change (45 =? 45) with true. cbv iota.
    replace (Z.of_nat off + 1) with (Z.of_nat (S off)) by lia.
    rewrite (parse10u32_reads_the_digits str (S off) ds H). cbn [obind fst snd].
    unfold signed, wrap. rewrite Z.mod_mod by lia. rewrite Z.mod_small by lia.
    change (32 - 1) with 31. destruct (Z.ltb_spec (value ds) (2 ^ 31)); [|lia].
    destruct (Z.ltb_spec (value ds * -1) (- 2 ^ 31)), (Z.leb_spec (2 ^ 31) (value ds * -1)); cbn [orb]; try lia.
    do 2 f_equal. lia.
Qed.
Print Assumptions parse10s32_reads_the_number.

(** The least int is the one number it cannot read: the final product overflows. *)
Theorem parse10s32_refuted : exists s, i64dec (- 2 ^ 31) = Some s /\ parse10s32 0 s = None.
Proof. exists [45; 50; 49; 52; 55; 52; 56; 51; 54; 52; 56]. split; reflexivity. Qed.
Print Assumptions parse10s32_refuted.

(** What i64dec prints, parse10s32 reads back, leaving the cursor at the end of the numeral. *)
Theorem print_then_parse : forall n rest, - 2 ^ 31 < n < 2 ^ 31 -> (rest = [] \/ exists c r, rest = c :: r /\ ~ digit c) ->
  exists s, i64dec n = Some s /\ parse10s32 0 (s ++ rest) = Some (n, Z.of_nat (length s)).
Proof.
  intros n rest Hn Hr. destruct (i64dec_prints_the_decimal n ltac:(lia)) as (s & E & D).
  exists s. split; [exact E|]. destruct D as [[H (D & V & N & _)]|[H (s' & -> & D & V & N & _)]].
  - destruct (parse10s32_reads_the_number (s ++ rest) 0 s) as [P _]. change (Z.of_nat 0) with 0 in P. rewrite P.
    + rewrite V. reflexivity.
    + exists rest. repeat split; auto. lia.
    + lia.
    + destruct s as [|c s]; [congruence|]. cbn. inversion D as [|? ? D1 D2]; subst. unfold digit in D1. intros Q. injection Q as Q. lia.
  - destruct (parse10s32_reads_the_number ((45 :: s') ++ rest) 0 s') as [_ P]. change (Z.of_nat 0) with 0 in P. rewrite P.
    + rewrite V. do 2 f_equal. lia.
    + reflexivity.
    + exists rest. repeat split; auto. cbn. lia.
    + lia.
Qed.
Print Assumptions print_then_parse.

(** ** Non-vacuity *)
Example dec_example : u64dec 18446744073709551615 = Some [49;56;52;52;54;55;52;52;48;55;51;55;48;57;53;53;49;54;49;53].
Proof. reflexivity. Qed.
Example dec_example2 : i64dec (-70) = Some [45; 55; 48] /\ parse10s32 1 [120; 45; 55; 48; 44] = Some (-70, 4).
Proof. split; reflexivity. Qed.
Example dec_example3 : digits_at [120; 45; 55; 48; 44] 2 [55; 48].
Proof. exists [44]. repeat split; cbn; try lia; [repeat constructor; unfold digit; lia|]. right. exists 44, []. split; [reflexivity|unfold digit; lia]. Qed.
