From Verif Require Import WordsLemmas TeaModel.
Open Scope Z_scope.

Definition wtea (t : tea) : Prop := word 32 (fst t) /\ word 32 (snd t).

Lemma round_word sum t : wtea t -> wtea (snd (tea_round sum t)).
Proof. intros H. split; cbn; apply wadd_word; lia. Qed.

Definition unround (sum : Z) (t : tea) : tea :=
  let v1 := wsub 32 (snd t) (tea_mix (fst t) sum 0xAD90777D 0x7E95761E) in
  let v0 := wsub 32 (fst t) (tea_mix v1 sum 0xA341316C 0xC8013EA4) in
  (v0, v1).

Lemma unround_round sum t : wtea t -> unround (fst (tea_round sum t)) (snd (tea_round sum t)) = t.
Proof.
  intros [H0 H1]. destruct t as [a b]. unfold unround, tea_round; cbn [fst snd] in *.
  rewrite (wadd_wsub 32 b) by (auto; lia). rewrite (wadd_wsub 32 a) by (auto; lia). reflexivity.
Qed.
Lemma round_unround sum t : wtea t ->
  wtea (unround (wadd 32 sum 0x9e3779b9) t) /\ snd (tea_round sum (unround (wadd 32 sum 0x9e3779b9) t)) = t.
Proof.
  intros [H0 H1]. destruct t as [a b]. unfold unround, tea_round, wtea; cbn [fst snd] in *.
  split; [split; apply wrap_word; lia|].
  rewrite (wsub_wadd 32 a) by (auto; lia). rewrite (wsub_wadd 32 b) by (auto; lia). reflexivity.
Qed.

Lemma rounds_bij n : forall sum,
  (forall t, wtea t -> wtea (tea_rounds n sum t)) /\
  (forall t t', wtea t -> wtea t' -> tea_rounds n sum t = tea_rounds n sum t' -> t = t') /\
  (forall u, wtea u -> exists t, wtea t /\ tea_rounds n sum t = u).
Proof.
  induction n as [|n IH]; intros sum.
  - cbn [tea_rounds]. repeat split; eauto; apply H.
  - assert (U : forall t, tea_rounds (S n) sum t =
        tea_rounds n (wadd 32 sum 0x9e3779b9) (snd (tea_round sum t))) by reflexivity.
    destruct (IH (wadd 32 sum 0x9e3779b9)) as (I1 & I2 & I3). split; [|split].
    + intros t Ht. rewrite U. apply I1, round_word, Ht.
    + intros t t' Ht Ht' E. rewrite !U in E. apply I2 in E; try apply round_word; auto.
      rewrite <- (unround_round sum t Ht), <- (unround_round sum t' Ht'). rewrite E. reflexivity.
    + intros u Hu. destruct (I3 u Hu) as (t & Ht & E).
      destruct (round_unround sum t Ht) as [W R].
      exists (unround (wadd 32 sum 0x9e3779b9) t). split; [exact W|]. rewrite U, R. exact E.
Qed.

Lemma r16_word t : wtea t -> wtea (r16 t).
Proof. apply (rounds_bij 16 0). Qed.
Lemma r16_inj t t' : wtea t -> wtea t' -> r16 t = r16 t' -> t = t'.
Proof. apply (rounds_bij 16 0). Qed.

Local Opaque r16.
Lemma lxor_cancel_l a b c : Z.lxor a b = Z.lxor a c -> b = c.
Proof.
  intros H. assert (E : Z.lxor a (Z.lxor a b) = Z.lxor a (Z.lxor a c)) by congruence.
  rewrite <- !Z.lxor_assoc, !Z.lxor_nilpotent, !Z.lxor_0_l in E. exact E.
Qed.
Lemma lxor_cancel_r a b c : Z.lxor a c = Z.lxor b c -> a = b.
Proof. rewrite !(Z.lxor_comm _ c). apply lxor_cancel_l. Qed.

Definition absorb (t : tea) (ab : Z * Z) : tea := r16 (Z.lxor (fst t) (fst ab), Z.lxor (snd t) (snd ab)).

Lemma absorb_word t ab : wtea t -> wtea ab -> wtea (absorb t ab).
Proof. intros [H0 H1] [H2 H3]. apply r16_word. split; cbn; apply lxor_word; auto; lia. Qed.
Lemma absorb_inj_l t t' ab : wtea t -> wtea t' -> wtea ab -> absorb t ab = absorb t' ab -> t = t'.
Proof.
  intros [H0 H1] [H0' H1'] [H2 H3] E. unfold absorb in E. apply r16_inj in E; [|split; cbn; apply lxor_word; auto; lia ..].
  injection E as E1 E2. apply lxor_cancel_r in E1, E2. destruct t, t'; cbn in *; congruence.
Qed.
Lemma absorb_inj_r t ab ab' : wtea t -> wtea ab -> wtea ab' -> absorb t ab = absorb t ab' -> ab = ab'.
Proof.
  intros [H0 H1] [H0' H1'] [H2 H3] E. unfold absorb in E. apply r16_inj in E; [|split; cbn; apply lxor_word; auto; lia ..].
  injection E as E1 E2. apply lxor_cancel_l in E1, E2. destruct ab, ab'; cbn in *; congruence.
Qed.

(** hash of TEA / u64 / u32 arguments. *)
Lemma hash_tea_absorb r o : hash_tea r o = absorb r (snd o, fst o).
Proof. reflexivity. Qed.
Lemma hash_u64_absorb r v : hash_u64 r v = absorb r (wrap 32 (wshr v 32), wrap 32 v).
Proof. reflexivity. Qed.
Lemma hash_u32_absorb r v : hash_u32 r v = absorb r (v, 0).
Proof. unfold hash_u32, absorb. cbn [fst snd]. rewrite Z.lxor_0_r. reflexivity. Qed.

Lemma halves_inj v v' : word 64 v -> word 64 v' ->
  wrap 32 (wshr v 32) = wrap 32 (wshr v' 32) -> wrap 32 v = wrap 32 v' -> v = v'.
Proof.
  intros H H' E1 E2. apply (word_ext 64); auto; [lia|]. intros i Hi.
  destruct (Z.ltb_spec i 32).
  - assert (F := f_equal (fun x => Z.testbit x i) E2). cbn beta in F. rewrite !wrap_testbit in F by lia.
    destruct (Z.ltb_spec i 32); [exact F|lia].
  - assert (F := f_equal (fun x => Z.testbit x (i - 32)) E1). cbn beta in F.
    rewrite !wrap_testbit, !wshr_testbit in F by lia.
    destruct (Z.ltb_spec (i - 32) 32); [|lia]. replace (i - 32 + 32) with i in F by lia. exact F.
Qed.

Lemma tea_u64_ok t : wtea t -> word 64 (tea_u64 t) /\ wrap 32 (tea_u64 t) = fst t /\ wrap 32 (wshr (tea_u64 t) 32) = snd t.
Proof.
  intros [H0 H1]. destruct t as [a b]; cbn [fst snd] in *. unfold tea_u64; cbn [fst snd]. split; [|split].
  - apply lor_word; [lia| |apply wshl_word; lia]. unfold word in *; lia.
  - apply (word_ext 32); auto; [lia|apply wrap_word; lia|]. intros i Hi.
    rewrite wrap_testbit, Z.lor_spec, wshl_testbit by lia.
    destruct (Z.ltb_spec i 32), (Z.leb_spec 32 i), (Z.ltb_spec i 64); try (exfalso; lia). rewrite orb_false_r. reflexivity.
  - apply (word_ext 32); auto; [lia|apply wrap_word; lia|]. intros i Hi.
    rewrite wrap_testbit, wshr_testbit, Z.lor_spec, wshl_testbit by lia.
    rewrite (word_testbit_high 32 a) by (auto; lia).
    destruct (Z.ltb_spec i 32), (Z.ltb_spec (i + 32) 64), (Z.leb_spec 32 (i + 32)); try (exfalso; lia).
    cbn [andb orb]. f_equal; lia.
Qed.

Lemma tea_u64_inj t t' : wtea t -> wtea t' -> tea_u64 t = tea_u64 t' -> t = t'.
Proof.
  intros H H' E. destruct (tea_u64_ok t H) as (_ & A & B), (tea_u64_ok t' H') as (_ & A' & B').
  destruct t, t'; cbn [fst snd] in *. rewrite E in A, B. congruence.
Qed.

(** Digests. *)
Lemma digest_len ch b n v : length (digest_loop ch b n v) = n.
Proof. revert v; induction n as [|n IH]; intros v; cbn; auto. Qed.

Lemma digest_inj ch b n : 1 < b -> (forall c d, 0 <= c < b -> 0 <= d < b -> ch c = ch d -> c = d) ->
  forall v v', 0 <= v < b ^ Z.of_nat n -> 0 <= v' < b ^ Z.of_nat n ->
    digest_loop ch b n v = digest_loop ch b n v' -> v = v'.
Proof.
  intros Hb Hch. induction n as [|n IH]; intros v v' Hv Hv' E.
  - cbn in Hv, Hv'; lia.
  - cbn [digest_loop] in E. injection E as E1 E2.
    rewrite Nat2Z.inj_succ, Z.pow_succ_r in Hv, Hv' by lia.
    apply Hch in E1; try (apply Z.mod_pos_bound; lia).
    apply IH in E2.
    + rewrite (Z.div_mod v b), (Z.div_mod v' b) by lia. congruence.
    + split; [apply Z.div_pos; lia|]. apply Z.div_lt_upper_bound; lia.
    + split; [apply Z.div_pos; lia|]. apply Z.div_lt_upper_bound; lia.
Qed.

Lemma char62_val c : 0 <= c < 62 -> char62 c = if c <? 10 then c + 48 else if c <? 36 then c + 87 else c + 29.
Proof.
  intros H. unfold char62. destruct (Z.ltb_spec c 10); [rewrite wrap_small; unfold word; lia|].
  destruct (Z.ltb_spec c 36); rewrite wrap_small; unfold word; lia.
Qed.
Lemma char62_inj c d : 0 <= c < 62 -> 0 <= d < 62 -> char62 c = char62 d -> c = d.
Proof.
  intros Hc Hd. rewrite !char62_val by auto.
  destruct (Z.ltb_spec c 10), (Z.ltb_spec d 10), (Z.ltb_spec c 36), (Z.ltb_spec d 36); lia.
Qed.
Lemma char16_val c : 0 <= c < 16 -> char16 c = if c <? 10 then c + 48 else c + 87.
Proof. intros H. unfold char16. destruct (Z.ltb_spec c 10); rewrite wrap_small; unfold word; lia. Qed.
Lemma char16_inj c d : 0 <= c < 16 -> 0 <= d < 16 -> char16 c = char16 d -> c = d.
Proof. intros Hc Hd. rewrite !char16_val by auto. destruct (Z.ltb_spec c 10), (Z.ltb_spec d 10); lia. Qed.

(** a character of a digest: 0-9, a-z, A-Z (62) / 0-9, a-f (16) *)
Definition alnum (c : Z) : Prop := 48 <= c <= 57 \/ 97 <= c <= 122 \/ 65 <= c <= 90.
Definition hexchar (c : Z) : Prop := 48 <= c <= 57 \/ 97 <= c <= 102.

Lemma digest_chars (P : Z -> Prop) ch b n : 0 < b -> (forall c, 0 <= c < b -> P (ch c)) -> forall v, Forall P (digest_loop ch b n v).
Proof.
  intros Hb H. induction n as [|n IH]; intros v; cbn; constructor; auto. apply H, Z.mod_pos_bound; auto.
Qed.

Lemma digests_proof : forall chars,
  (chars <= 0 \/ 11 <= chars -> forall v v', word 64 v -> word 64 v' -> digest62 v chars = digest62 v' chars -> v = v') /\
  (chars <= 0 \/ 16 <= chars -> forall v v', word 64 v -> word 64 v' -> digest16 v chars = digest16 v' chars -> v = v').
Proof.
  intros chars. split; intros Hc v v' Hv Hv' E.
  - unfold digest62 in E. replace ((0 <? chars) && (chars <? 11)) with false in E by lia.
    revert E. apply digest_inj; [lia|apply char62_inj| |]; unfold word in *;
    replace (62 ^ Z.of_nat (Z.to_nat 11)) with 52036560683837093888 by (vm_compute; reflexivity); lia.
  - unfold digest16 in E. replace ((0 <? chars) && (chars <? 16)) with false in E by lia.
    revert E. apply digest_inj; [lia|apply char16_inj| |]; unfold word in *;
    replace (16 ^ Z.of_nat (Z.to_nat 16)) with (2 ^ 64) by (vm_compute; reflexivity); lia.
Qed.

Lemma digests_shape_proof : forall v chars, 
  Forall alnum (digest62 v chars) /\ Forall hexchar (digest16 v chars) /\
  length (digest62 v chars) = (if (0 <? chars) && (chars <? 11) then Z.to_nat chars else 11%nat) /\
  length (digest16 v chars) = (if (0 <? chars) && (chars <? 16) then Z.to_nat chars else 16%nat).
Proof.
  intros v chars. unfold digest62, digest16. repeat split.
  - apply digest_chars; [lia|]. intros c Hc. unfold alnum. rewrite char62_val by auto.
    destruct (Z.ltb_spec c 10); [lia|]. destruct (Z.ltb_spec c 36); lia.
  - apply digest_chars; [lia|]. intros c Hc. unfold hexchar. rewrite char16_val by auto.
    destruct (Z.ltb_spec c 10); lia.
  - rewrite digest_len. destruct (_ && _); reflexivity.
  - rewrite digest_len. destruct (_ && _); reflexivity.
Qed.

(** ** Byte strings, eight bytes at a time. *)
Definition le4 (a b c d : Z) : Z := a + 256 * (b + 256 * (c + 256 * d)).
Definition pair8 (m : list Z) : Z * Z :=
  match m with
  | [a; b; c; d; e; f; g; h] => (le4 a b c d, le4 e f g h)
  | _ => (0, 0)
  end.

Lemma nth_shift8 (m q : list Z) i : length m = 8%nat -> nth_error (m ++ q) (8 + i) = nth_error q i.
Proof. intros H. rewrite nth_error_app_r by lia. rewrite H. f_equal. lia. Qed.

Lemma u32_at_shift m q i : length m = 8%nat -> u32_at (m ++ q) (2 + i) = u32_at q i.
Proof.
  intros H. unfold u32_at.
  replace (4 * (2 + i))%nat with (8 + 4 * i)%nat by lia.
  rewrite <- !Nat.add_assoc. rewrite !nth_shift8 by auto. reflexivity.
Qed.
Lemma hash_tuples_shift m q f : forall k r, length m = 8%nat ->
  hash_tuples f (S k) (m ++ q) r = hash_tuples f k q r.
Proof.
  induction f as [|f IH]; intros k r H; cbn [hash_tuples]; [reflexivity|].
  replace (2 * S k)%nat with (2 + 2 * k)%nat by lia. rewrite <- Nat.add_assoc.
  rewrite !u32_at_shift by auto.
  destruct (u32_at q (2 * k)); [|reflexivity]. cbn [obind].
  destruct (u32_at q (2 * k + 1)); [|reflexivity]. cbn [obind]. apply IH; auto.
Qed.
Lemma hash_last_shift m q f : forall i a, length m = 8%nat ->
  hash_last f (8 + i) (m ++ q) a = hash_last f i q a.
Proof.
  induction f as [|f IH]; intros i a H; cbn [hash_last]; [reflexivity|].
  rewrite nth_shift8 by auto. destruct (nth_error q i); [|reflexivity]. cbn [obind].
  change (S (8 + i)) with (8 + S i)%nat. apply IH; auto.
Qed.

Lemma destruct8 (m : list Z) : length m = 8%nat -> exists a b c d e f g h, m = [a; b; c; d; e; f; g; h].
Proof.
  intros H. do 8 (destruct m as [|? m]; [discriminate|]). destruct m; [|discriminate]. repeat eexists.
Qed.

Lemma hash_bytes_block m q res : length m = 8%nat ->
  hash_bytes res (m ++ q) = hash_bytes (absorb res (pair8 m)) q.
Proof.
  intros H. unfold hash_bytes. rewrite app_length, H.
  replace ((8 + length q) / 4)%nat with (2 + length q / 4)%nat
    by (replace (8 + length q)%nat with (length q + 2 * 4)%nat by lia; rewrite Nat.div_add by lia; lia).
  replace ((8 + length q) mod 8)%nat with (length q mod 8)%nat
    by (replace (8 + length q)%nat with (length q + 1 * 8)%nat by lia; rewrite Nat.mod_add by lia; lia).
  set (n := (length q / 4)%nat).
  replace ((2 + n) / 2)%nat with (S (n / 2)) by (replace (2 + n)%nat with (n + 1 * 2)%nat by lia; rewrite Nat.div_add by lia; lia).
  replace ((2 + n) mod 2)%nat with (n mod 2)%nat by (replace (2 + n)%nat with (n + 1 * 2)%nat by lia; rewrite Nat.mod_add by lia; lia).
  assert (E : hash_tuples (S (n / 2)) 0 (m ++ q) res = hash_tuples (n / 2) 0 q (absorb res (pair8 m))).
  { destruct (destruct8 m H) as (a & b & c & d & e & f & g & h & Em).
    cbn [hash_tuples]. rewrite <- (hash_tuples_shift m q (n / 2) 0) by auto.
    subst m. reflexivity. }
  rewrite E. clear E. destruct (hash_tuples (n / 2) 0 q (absorb res (pair8 m))) as [r|]; [|reflexivity]. cbn [obind].
  destruct (length q mod 8 =? 0)%nat; [reflexivity|].
  replace (4 * (2 + n))%nat with (8 + 4 * n)%nat by lia.
  replace (8 + length q - (8 + 4 * n))%nat with (length q - 4 * n)%nat by lia.
  rewrite hash_last_shift by auto.
  destruct (Nat.eqb_spec (n mod 2) 1) as [Ho|]; [|reflexivity].
  replace (2 + n - 1)%nat with (2 + (n - 1))%nat.
  - rewrite u32_at_shift by auto. reflexivity.
  - destruct n; [discriminate|lia].
Qed.

Lemma be_step a b : 0 <= a < 2 ^ 24 -> byte b -> Z.lor (wshl 32 a 8) b = a * 256 + b.
Proof.
  intros Ha Hb. unfold byte in Hb.
  assert (E : wshl 32 a 8 = a * 256).
  { unfold wshl. rewrite Z.shiftl_mul_pow2 by lia. apply wrap_small. unfold word. lia. }
  rewrite E. symmetry. rewrite Z.add_nocarry_lxor.
  - rewrite Z.lxor_lor; auto. apply Z.bits_inj'. intros i Hi. rewrite Z.land_spec, Z.bits_0.
    change 256 with (2 ^ 8). rewrite Z.mul_pow2_bits by lia.
    destruct (Z.ltb_spec i 8).
    + rewrite Z.testbit_neg_r by lia. reflexivity.
    + rewrite (word_testbit_high 8 b) by (unfold word; lia). apply andb_false_r.
  - apply Z.bits_inj'. intros i Hi. rewrite Z.land_spec, Z.bits_0.
    change 256 with (2 ^ 8). rewrite Z.mul_pow2_bits by lia.
    destruct (Z.ltb_spec i 8).
    + rewrite Z.testbit_neg_r by lia. reflexivity.
    + rewrite (word_testbit_high 8 b) by (unfold word; lia). apply andb_false_r.
Qed.

(** The tail pair of fewer than eight bytes. *)
Fixpoint be (acc : Z) (l : list Z) : Z := match l with [] => acc | b :: l => be (acc * 256 + b) l end.
Definition pair_tail (m : list Z) : Z * Z :=
  match m with
  | a :: b :: c :: d :: r => (le4 a b c d, be 0 r)
  | _ => (0, be 0 m)
  end.

Ltac bytes := repeat match goal with H : Forall byte (_ :: _) |- _ => inversion H; subst; clear H end.

Lemma hash_bytes_tail m res : Forall byte m -> (length m < 8)%nat ->
  hash_bytes res m = Some (match m with [] => res | _ => absorb res (pair_tail m) end).
Proof.
  intros Hb Hl. unfold absorb.
  do 8 (destruct m as [|? m]; [bytes; unfold byte in *;
    destruct res as [x y]; cbn; unfold pair_tail; cbn [be fst snd];
    rewrite ?Z.lxor_0_r; try reflexivity;
    repeat match goal with |- context [Z.lor (wshl 32 ?a 8) ?b] => rewrite (be_step a b) by (unfold byte; lia) end; reflexivity|]).
  cbn in Hl. lia.
Qed.

Lemma le4_word a b c d : byte a -> byte b -> byte c -> byte d -> word 32 (le4 a b c d).
Proof. unfold byte, word, le4. lia. Qed.
Lemma le4_inj a b c d a' b' c' d' : byte a -> byte b -> byte c -> byte d -> byte a' -> byte b' -> byte c' -> byte d' ->
  le4 a b c d = le4 a' b' c' d' -> a = a' /\ b = b' /\ c = c' /\ d = d'.
Proof. unfold byte, le4. lia. Qed.

Lemma pair8_word m : Forall byte m -> length m = 8%nat -> wtea (pair8 m).
Proof.
  intros Hb H. destruct (destruct8 m H) as (a & b & c & d & e & f & g & h & ->).
  bytes. split; cbn [pair8 fst snd]; apply le4_word; auto.
Qed.
Lemma pair8_inj m m' : Forall byte m -> Forall byte m' -> length m = 8%nat -> length m' = 8%nat ->
  pair8 m = pair8 m' -> m = m'.
Proof.
  intros Hb Hb' H H'. destruct (destruct8 m H) as (a & b & c & d & e & f & g & h & ->).
  destruct (destruct8 m' H') as (a' & b' & c' & d' & e' & f' & g' & h' & ->).
  bytes. cbn [pair8]. intros [= E1 E2]. apply le4_inj in E1; auto. apply le4_inj in E2; auto.
  destruct E1 as (-> & -> & -> & ->), E2 as (-> & -> & -> & ->). reflexivity.
Qed.
Lemma pair_tail_word m : Forall byte m -> (length m < 8)%nat -> wtea (pair_tail m).
Proof.
  intros Hb Hl. do 8 (destruct m as [|? m]; [bytes; unfold byte in *; split; unfold word; cbn [pair_tail fst snd be]; unfold le4; lia|]).
  cbn in Hl; lia.
Qed.
Lemma pair_tail_inj m m' : Forall byte m -> Forall byte m' -> length m = length m' -> (length m < 8)%nat ->
  pair_tail m = pair_tail m' -> m = m'.
Proof.
  intros Hb Hb' He Hl.
  assert (H : forall (b1 b2 : Z * Z), b1 = b2 -> fst b1 = fst b2 /\ snd b1 = snd b2) by (intros ? ? ->; auto).
  do 8 (destruct m as [|? m], m' as [|? m']; try discriminate;
    [bytes; unfold byte in *; intros E; apply H in E; destruct E as [E1 E2]; cbn [pair_tail fst snd be] in E1, E2; unfold le4 in E1;
     repeat f_equal; lia|]).
  cbn in Hl; lia.
Qed.

(** Hashing is a function of blocks, injective in each. *)
Lemma hash_bytes_word q : forall res, Forall byte q -> wtea res -> exists r, hash_bytes res q = Some r /\ wtea r.
Proof.
  assert (G : forall n q res, (length q <= n)%nat -> Forall byte q -> wtea res -> exists r, hash_bytes res q = Some r /\ wtea r).
  { induction n as [|n IH]; intros q0 res Hn Hb Hw.
    - destruct q0; [|cbn in Hn; lia]. exists res. split; [reflexivity|auto].
    - destruct (Nat.lt_ge_cases (length q0) 8) as [H|H].
      + rewrite hash_bytes_tail by auto. eexists; split; [reflexivity|].
        destruct q0; auto. apply absorb_word; auto. apply pair_tail_word; auto.
      + rewrite <- (firstn_skipn 8 q0) in Hb |- *. apply Forall_app in Hb as [B1 B2].
        assert (L : length (firstn 8 q0) = 8%nat) by (apply firstn_length_le; lia).
        rewrite hash_bytes_block by auto. apply IH; auto.
        * rewrite skipn_length; lia.
        * apply absorb_word; auto. apply pair8_word; auto. }
  intros res. apply (G (length q)). lia.
Qed.

Lemma hash_bytes_inj_state : forall n q r r', (length q <= n)%nat -> Forall byte q -> wtea r -> wtea r' ->
  hash_bytes r q = hash_bytes r' q -> r = r'.
Proof.
  induction n as [|n IH]; intros q r r' Hn Hb Hw Hw' E.
  - destruct q; [|cbn in Hn; lia]. cbn in E. congruence.
  - destruct (Nat.lt_ge_cases (length q) 8) as [H|H].
    + rewrite !hash_bytes_tail in E by auto. injection E as E. destruct q; auto.
      apply absorb_inj_l in E; auto. apply pair_tail_word; auto.
    + rewrite <- (firstn_skipn 8 q) in Hb, E. apply Forall_app in Hb as [B1 B2].
      assert (L : length (firstn 8 q) = 8%nat) by (apply firstn_length_le; lia).
      rewrite !hash_bytes_block in E by auto. apply IH in E; auto.
      * apply absorb_inj_l in E; auto. apply pair8_word; auto.
      * rewrite skipn_length; lia.
      * apply absorb_word; auto. apply pair8_word; auto.
      * apply absorb_word; auto. apply pair8_word; auto.
Qed.

Lemma hash_bytes_inj_block m m' q r : Forall byte m -> Forall byte m' -> Forall byte q -> wtea r ->
  length m = length m' -> (length m = 8%nat \/ (length m < 8)%nat /\ q = []) -> m <> m' ->
  hash_bytes r (m ++ q) <> hash_bytes r (m' ++ q).
Proof.
  intros Hm Hm' Hq Hr Hl Hs Hne E. apply Hne. destruct Hs as [H8|[H8 ->]].
  - rewrite !hash_bytes_block in E by congruence.
    apply (hash_bytes_inj_state (length q)) in E; auto; try (apply absorb_word; auto; apply pair8_word; auto; congruence).
    apply absorb_inj_r in E; auto; try (apply pair8_word; auto; congruence).
    apply pair8_inj; auto; congruence.
  - rewrite !app_nil_r, !hash_bytes_tail in E by (auto; lia). injection E as E.
    destruct m as [|x m], m' as [|x' m']; [reflexivity|cbn in Hl; lia|cbn in Hl; lia|].
    apply absorb_inj_r in E; auto; try (apply pair_tail_word; auto; congruence).
    apply pair_tail_inj; auto; congruence.
Qed.

Lemma hash_bytes_one_block : forall k p m m' q r,
  length p = (8 * k)%nat -> Forall byte p -> Forall byte m -> Forall byte m' -> Forall byte q -> wtea r ->
  length m = length m' -> (length m = 8%nat \/ (length m < 8)%nat /\ q = []) -> m <> m' ->
  hash_bytes r (p ++ m ++ q) <> hash_bytes r (p ++ m' ++ q).
Proof.
  induction k as [|k IH]; intros p m m' q r Hp Bp Bm Bm' Bq Hr Hl Hs Hne.
  - destruct p; [|cbn in Hp; lia]. cbn [app]. apply hash_bytes_inj_block; auto.
  - rewrite <- (firstn_skipn 8 p) in Bp |- *. apply Forall_app in Bp as [B1 B2].
    assert (L : length (firstn 8 p) = 8%nat) by (apply firstn_length_le; lia).
    rewrite <- !(app_assoc (firstn 8 p)). rewrite !(hash_bytes_block (firstn 8 p)) by auto.
    apply (IH (skipn 8 p) m m' q); auto.
    + rewrite skipn_length; lia.
    + apply absorb_word; auto. apply pair8_word; auto.
Qed.
