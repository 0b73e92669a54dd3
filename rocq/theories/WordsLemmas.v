(** Bit-level lemmas about [Words]. *)
From Verif Require Export Words CommonLemmas.
Open Scope Z_scope.

Lemma wrap_word w x : 0 <= w -> word w (wrap w x).
Proof. intros H. unfold word, wrap. apply Z.mod_pos_bound. apply Z.pow_pos_nonneg; lia. Qed.

Lemma wrap_small w x : word w x -> wrap w x = x.
Proof. intros H. apply Z.mod_small. exact H. Qed.

Lemma wrap_testbit w x i : 0 <= w -> 0 <= i ->
  Z.testbit (wrap w x) i = (i <? w) && Z.testbit x i.
Proof.
  intros Hw Hi. unfold wrap. destruct (Z.ltb_spec i w).
  - rewrite Z.mod_pow2_bits_low by lia. reflexivity.
  - rewrite Z.mod_pow2_bits_high by lia. reflexivity.
Qed.

Lemma word_testbit_high w x i : word w x -> 0 <= w -> w <= i -> Z.testbit x i = false.
Proof.
  intros Hx Hw Hi. rewrite <- (wrap_small w x Hx). rewrite wrap_testbit by lia.
  destruct (Z.ltb_spec i w); [lia|reflexivity].
Qed.

Lemma word_of_bits w x : 0 <= w -> 0 <= x -> (forall i, w <= i -> Z.testbit x i = false) -> word w x.
Proof.
  intros Hw Hx H. replace x with (wrap w x); [apply wrap_word; lia|].
  apply Z.bits_inj'. intros i Hi. rewrite wrap_testbit by lia.
  destruct (Z.ltb_spec i w); [reflexivity|]. symmetry. cbn. apply H; lia.
Qed.

Lemma wshl_testbit w x k i : 0 <= w -> 0 <= k -> 0 <= i ->
  Z.testbit (wshl w x k) i = (i <? w) && (k <=? i) && Z.testbit x (i - k).
Proof.
  intros. unfold wshl. rewrite wrap_testbit by lia.
  destruct (Z.ltb_spec i w); cbn; [|reflexivity].
  rewrite Z.shiftl_spec by lia. destruct (Z.leb_spec k i); cbn; [reflexivity|].
  apply Z.testbit_neg_r; lia.
Qed.

Lemma wshr_testbit x k i : 0 <= k -> 0 <= i -> Z.testbit (wshr x k) i = Z.testbit x (i + k).
Proof. intros. apply Z.shiftr_spec; lia. Qed.

Lemma lxor_word w a b : 0 <= w -> word w a -> word w b -> word w (Z.lxor a b).
Proof.
  intros Hw Ha Hb. apply word_of_bits; auto.
  - apply Z.lxor_nonneg. destruct Ha, Hb; tauto.
  - intros i Hi. rewrite Z.lxor_spec, (word_testbit_high w a), (word_testbit_high w b) by auto. reflexivity.
Qed.

Lemma lor_word w a b : 0 <= w -> word w a -> word w b -> word w (Z.lor a b).
Proof.
  intros Hw Ha Hb. apply word_of_bits; auto.
  - apply Z.lor_nonneg. destruct Ha, Hb; tauto.
  - intros i Hi. rewrite Z.lor_spec, (word_testbit_high w a), (word_testbit_high w b) by auto. reflexivity.
Qed.

Lemma land_word_l w a b : 0 <= w -> word w a -> word w (Z.land a b).
Proof.
  intros Hw Ha. apply word_of_bits; auto.
  - apply Z.land_nonneg. destruct Ha; tauto.
  - intros i Hi. rewrite Z.land_spec, (word_testbit_high w a) by auto. reflexivity.
Qed.

Lemma land_comm_word w a b : 0 <= w -> word w b -> word w (Z.land a b).
Proof. intros. rewrite Z.land_comm. apply land_word_l; auto. Qed.

Lemma wshr_word w x k : 0 <= w -> 0 <= k -> word w x -> word w (wshr x k).
Proof.
  intros Hw Hk Hx. apply word_of_bits; auto.
  - apply Z.shiftr_nonneg. destruct Hx; auto.
  - intros i Hi. rewrite wshr_testbit by lia. apply (word_testbit_high w); auto; lia.
Qed.

Lemma wshl_word w x k : 0 <= w -> word w (wshl w x k).
Proof. intros. apply wrap_word; auto. Qed.

Lemma wadd_word w a b : 0 <= w -> word w (wadd w a b).
Proof. intros. apply wrap_word; auto. Qed.

Lemma wadd_wsub w a b : 0 <= w -> word w a -> wsub w (wadd w a b) b = a.
Proof.
  intros Hw Ha. unfold wsub, wadd, wrap. rewrite Zminus_mod_idemp_l.
  replace (a + b - b) with a by lia. apply Z.mod_small; auto.
Qed.

Lemma wsub_wadd w a b : 0 <= w -> word w a -> wadd w (wsub w a b) b = a.
Proof.
  intros Hw Ha. unfold wsub, wadd, wrap. rewrite Zplus_mod_idemp_l.
  replace (a - b + b) with a by lia. apply Z.mod_small; auto.
Qed.

Lemma word_ext w a b : 0 <= w -> word w a -> word w b ->
  (forall i, 0 <= i < w -> Z.testbit a i = Z.testbit b i) -> a = b.
Proof.
  intros Hw Ha Hb H. apply Z.bits_inj'. intros i Hi.
  destruct (Z.ltb_spec i w); [apply H; lia|].
  rewrite (word_testbit_high w a), (word_testbit_high w b); auto.
Qed.
