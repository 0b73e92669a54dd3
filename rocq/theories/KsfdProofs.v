From Verif Require Import WordsLemmas KsfdModel.
Open Scope Z_scope.

Lemma land_ones_wrap x n : 0 <= n -> Z.land x (Z.ones n) = wrap n x.
Proof. intros. apply Z.land_ones; auto. Qed.

Definition packed (kind fd st user : Z) : Z :=
  Z.lor (Z.lor (Z.lor kind (wshl 64 fd 8)) (wshl 64 (Z.land st 0xf) 4)) (wshl 64 user 32).

Lemma packed_bits kind fd st user i :
  word 4 kind -> word 24 fd -> word 32 user -> 0 <= i ->
  Z.testbit (packed kind fd st user) i =
    if i <? 4 then Z.testbit kind i
    else if i <? 8 then Z.testbit st (i - 4)
    else if i <? 32 then Z.testbit fd (i - 8)
    else if i <? 64 then Z.testbit user (i - 32) else false.
Proof.
  intros Hk Hf Hu Hi. unfold packed. rewrite !Z.lor_spec, !wshl_testbit by lia.
  change 15 with (Z.ones 4). rewrite land_ones_wrap by lia.
  assert (St : 4 <= i -> Z.testbit (wrap 4 st) (i - 4) = (i <? 8) && Z.testbit st (i - 4)).
  { intros. rewrite wrap_testbit by lia. f_equal. destruct (Z.ltb_spec (i - 4) 4), (Z.ltb_spec i 8); auto; lia. }
  assert (K : 4 <= i -> Z.testbit kind i = false) by (intros; apply (word_testbit_high 4); auto; lia).
  assert (Fd : 32 <= i -> Z.testbit fd (i - 8) = false) by (intros; apply (word_testbit_high 24); auto; lia).
  destruct (Z.ltb_spec i 4) as [H|H].
  - destruct (Z.leb_spec 8 i), (Z.leb_spec 4 i), (Z.leb_spec 32 i); try (exfalso; lia).
    rewrite !andb_false_r, !orb_false_r. reflexivity.
  - rewrite (K H), (St H). destruct (Z.leb_spec 4 i); [|lia].
    destruct (Z.ltb_spec i 8).
    + destruct (Z.leb_spec 8 i), (Z.leb_spec 32 i), (Z.ltb_spec i 64); try (exfalso; lia).
      cbn [andb orb]. rewrite ?andb_false_r, ?orb_false_r. reflexivity.
    + destruct (Z.leb_spec 8 i); [|lia]. destruct (Z.ltb_spec i 32).
      * destruct (Z.leb_spec 32 i), (Z.ltb_spec i 64); try (exfalso; lia).
        cbn [andb orb]. rewrite ?orb_false_r. reflexivity.
      * rewrite (Fd ltac:(lia)). destruct (Z.leb_spec 32 i); [|lia].
        destruct (Z.ltb_spec i 64); cbn [andb orb]; reflexivity.
Qed.

Lemma pack_unpack_proof : forall kind fd st user st0,
  word 4 kind -> word 24 fd -> word 8 st -> word 32 user ->
  exists k, ksfd_pack kind fd st user = Some k /\ word 64 k /\
    ksfd_unpack k st0 = (kind, fd, Z.lor st0 (st mod 16), user).
Proof.
  intros kind fd st user st0 Hk Hf Hs Hu. unfold ksfd_pack.
  replace ((0 <=? fd) && (fd <=? 16777215)) with true by (unfold word in Hf; lia).
  eexists; split; [reflexivity|]. fold (packed kind fd st user).
  pose proof (fun i => packed_bits kind fd st user i Hk Hf Hu) as B. split.
  - apply word_of_bits; [lia| |].
    + unfold packed. repeat (apply Z.lor_nonneg; split); try (apply wshl_word; lia). unfold word in Hk; lia.
    + intros i Hi. rewrite B by lia. destruct (Z.ltb_spec i 4), (Z.ltb_spec i 8), (Z.ltb_spec i 32), (Z.ltb_spec i 64); try (exfalso; lia). reflexivity.
  - unfold ksfd_unpack. change 15 with (Z.ones 4). change 16777215 with (Z.ones 24).
    rewrite !land_ones_wrap by lia. f_equal; [f_equal; [f_equal|]|].
    + apply (word_ext 4); auto; [lia| |].
      { apply word_of_bits; [lia|apply wrap_word; lia|]. intros i Hi. rewrite !wrap_testbit by lia.
        destruct (Z.ltb_spec i 4); [lia|]. apply andb_false_r. }
      intros i Hi. rewrite !wrap_testbit, B by lia.
      destruct (Z.ltb_spec i 4), (Z.ltb_spec i 8); try (exfalso; lia). reflexivity.
    + assert (E : wrap 24 (wshr (packed kind fd st user) 8) = fd).
      { apply (word_ext 24); auto; [lia|apply wrap_word; lia|]. intros i Hi.
        rewrite wrap_testbit, wshr_testbit, B by lia.
        destruct (Z.ltb_spec i 24), (Z.ltb_spec (i + 8) 4), (Z.ltb_spec (i + 8) 8), (Z.ltb_spec (i + 8) 32); try (exfalso; lia).
        cbn [andb]. f_equal; lia. }
      rewrite E. unfold signed. unfold word in Hf. rewrite wrap_small by (unfold word; lia).
      destruct (Z.ltb_spec fd (2 ^ (32 - 1))); lia.
    + f_equal. change (st mod 16) with (wrap 4 st). apply Z.bits_inj'. intros i Hi.
      rewrite !wrap_testbit, wshr_testbit, B by lia.
      destruct (Z.ltb_spec i 4); [|apply andb_false_r].
      destruct (Z.ltb_spec i 8), (Z.ltb_spec (i + 4) 4), (Z.ltb_spec (i + 4) 8); try (exfalso; lia).
      cbn [andb]. f_equal; lia.
    + apply (word_ext 32); auto; [lia|apply wrap_word; lia|]. intros i Hi.
      rewrite wrap_testbit, wshr_testbit, B by lia.
      destruct (Z.ltb_spec i 32), (Z.ltb_spec (i + 32) 4), (Z.ltb_spec (i + 32) 8), (Z.ltb_spec (i + 32) 32), (Z.ltb_spec (i + 32) 64); try (exfalso; lia).
      cbn [andb]. f_equal; lia.
Qed.
