(* Proofs about DrainModel. *)
From Coq Require Import List Arith ZArith Bool Lia.
From Verif Require Import DrainSpec DrainModel.
Import ListNotations.

Lemma bytes_app : forall A (w : source A) c n m, bytes w c (n + m) = bytes w c n ++ bytes w (c + n) m.
Proof. intros. unfold bytes. rewrite seq_app, map_app. reflexivity. Qed.

Lemma bytes_length : forall A (w : source A) c n, length (bytes w c n) = n.
Proof. intros. unfold bytes. rewrite map_length, seq_length. reflexivity. Qed.

Lemma firstn_pre : forall A (x y z : list A) n, n = length x + length y -> firstn n (x ++ y ++ z) = x ++ y.
Proof.
  intros A x y z n ->. rewrite app_assoc, firstn_app, app_length.
  replace (length x + length y - (length x + length y)) with 0 by lia. cbn. rewrite app_nil_r.
  apply firstn_all2. rewrite app_length. lia.
Qed.

Section P.
  Context {A : Type}.
  Variable junk : buf A -> list A.
  Variable w : source A.

  Definition wf (b : buf A) : Prop := size b <= length (cells b).

  Lemma content_length : forall b, wf b -> length (content b) = size b.
  Proof. intros b W. unfold content. apply firstn_length_le. exact W. Qed.

  Lemma append_ok : forall b xs, wf b ->
    wf (append_copy junk b xs) /\ content (append_copy junk b xs) = content b ++ xs /\
    size (append_copy junk b xs) = size b + length xs.
  Proof.
    intros b xs W. pose proof (content_length b W) as L. unfold wf, append_copy. cbn. repeat split.
    - rewrite !app_length. lia.
    - apply firstn_pre. rewrite L. reflexivity.
  Qed.

  Lemma direct_unshared : forall (b : buf A) n, (0 < capa b - Z.of_nat n)%Z -> shared b = false.
  Proof. intros b n H. unfold capa in H. destruct (shared b); [lia | reflexivity]. Qed.

  Lemma poke_ok : forall (b : buf A) xs, wf b -> size b + length xs <= length (cells b) ->
    exists b2, poke b (size b) xs = Some b2 /\ size b2 = size b /\ shared b2 = shared b /\
      wf b2 /\ content b2 = content b /\
      wf (write_size b2 (size b + length xs)) /\
      content (write_size b2 (size b + length xs)) = content b ++ xs.
  Proof.
    intros b xs W H. unfold poke. destruct (Nat.leb_spec (size b + length xs) (length (cells b))); [| lia].
    eexists. split; [reflexivity |]. cbn. unfold wf in *. cbn.
    assert (L : length (firstn (size b) (cells b)) = size b) by (apply firstn_length_le; lia).
    repeat split.
    - rewrite !app_length, L, skipn_length. lia.
    - unfold content. cbn. rewrite firstn_app, L. replace (size b - size b) with 0 by lia.
      cbn. rewrite app_nil_r. rewrite firstn_firstn. f_equal. lia.
    - rewrite !app_length, L, skipn_length. lia.
    - change (content b) with (firstn (size b) (cells b)). apply firstn_pre. rewrite L. reflexivity.
  Qed.

  Lemma fd_read_ok : lawful w -> forall i c b, wf b ->
    exists a, fd_read junk w i c b = Some a /\ wf (a_buf a) /\
      content (a_buf a) = content b ++ bytes w c (a_read a) /\
      a_taken a = c + a_read a /\ a_err a = fails w i /\
      (fails w i <> None -> a_read a = 0) /\
      (fails w i = None -> a_read a <= arrived w i - c) /\
      (fails w i = None -> a_more a = true -> 1024 < Z.of_nat (a_read a))%Z /\
      (fails w i = None -> a_more a = false -> willing w -> a_read a = arrived w i - c).
  Proof.
    intros LW i c b W. unfold fd_read.
    destruct (Z.ltb_spec 1024 (capa b - Z.of_nat (size b))) as [D | D].
    - assert (U : shared b = false) by (apply (direct_unshared b (size b)); lia).
      assert (DM : data_mut junk b = b) by (unfold data_mut; rewrite U; reflexivity).
      rewrite DM. assert (C : capa b = Z.of_nat (length (cells b))) by (unfold capa; rewrite U; reflexivity).
      destruct (fails w i) as [e |] eqn:F.
      + eexists. split; [reflexivity |]. cbn. unfold bytes. cbn. rewrite app_nil_r.
        repeat split; auto; try discriminate; intros; congruence.
      + set (cap := (capa b - Z.of_nat (size b))%Z) in *. set (n := give w i cap (arrived w i - c)).
        destruct (LW i cap (arrived w i - c)) as [G1 G2]. fold n in G1, G2.
        destruct (poke_ok b (bytes w c n)) as (b2 & P & S2 & _ & W2 & C2 & W3 & C3); auto.
        { rewrite bytes_length. lia. }
        rewrite P. rewrite bytes_length in W3, C3. eexists. split; [reflexivity |]. cbn [a_buf a_read a_taken a_err a_more].
        split; [| split]; [destruct (Nat.ltb 0 n); assumption | | ].
        * destruct (Nat.ltb_spec 0 n) as [Hn | Hn]; [exact C3 |].
          assert (n = 0) as -> by lia. unfold bytes. cbn. rewrite app_nil_r. exact C2.
        * repeat split; auto; try congruence; intros.
          -- apply Z.eqb_eq in H0. lia.
          -- apply Z.eqb_neq in H0. specialize (H1 i cap (arrived w i - c)). fold n in H1. lia.
    - destruct (fails w i) as [e |] eqn:F.
      + eexists. split; [reflexivity |]. cbn. unfold bytes. cbn. rewrite app_nil_r.
        repeat split; auto; try discriminate; intros; congruence.
      + set (n := give w i 65536%Z (arrived w i - c)).
        destruct (LW i 65536%Z (arrived w i - c)) as [G1 G2]. fold n in G1, G2.
        eexists. split; [reflexivity |]. cbn [a_buf a_read a_taken a_err a_more].
        destruct (append_ok b (bytes w c n) W) as (W2 & C2 & _).
        split; [| split]; [destruct (Nat.ltb 0 n); assumption | | ].
        * destruct (Nat.ltb_spec 0 n) as [Hn | Hn]; [exact C2 |].
          assert (n = 0) as -> by lia. unfold bytes. cbn. rewrite app_nil_r. reflexivity.
        * repeat split; auto; try congruence; intros.
          -- apply Z.eqb_eq in H0. lia.
          -- apply Z.eqb_neq in H0. specialize (H1 i 65536%Z (arrived w i - c)). fold n in H1. lia.
  Qed.

  Variable retry : Z -> bool.

  Lemma exhaustive_ok : lawful w -> forall fuel i c total b, wf b ->
    match read_exhaustive junk w retry fuel i c total b with
    | Going => True
    | Fault => False
    | Done b' c' total' err i' =>
        wf b' /\ c <= c' /\ total' = total + (c' - c) /\ i < i' /\
        content b' = content b ++ bytes w c (c' - c) /\
        err = fails w (pred i') /\
        match err with Some e => retry e = false | None => True end
    end.
  Proof.
    intros LW. induction fuel as [| fuel IH]; intros i c total b W; cbn [read_exhaustive]; [exact I |].
    destruct (fd_read_ok LW i c b W) as (a & E & W1 & C1 & T1 & ER & Z0 & Av & _).
    rewrite E. destruct (a_err a) as [e |] eqn:Q.
    - assert (R0 : a_read a = 0) by (apply Z0; congruence).
      destruct (retry e) eqn:RT.
      + specialize (IH (S i) (a_taken a) total (a_buf a) W1).
        rewrite T1, R0, Nat.add_0_r in *. 
        destruct (read_exhaustive junk w retry fuel (S i) c total (a_buf a)); auto.
        destruct IH as (I1 & I2 & I3 & I4 & I5 & I6 & I7).
        rewrite C1 in I5. unfold bytes at 1 in I5. cbn in I5. rewrite app_nil_r in I5.
        repeat split; auto; lia.
      + rewrite T1, R0, Nat.add_0_r. rewrite R0 in C1. unfold bytes in C1. cbn in C1. rewrite app_nil_r in C1.
        replace (c - c) with 0 by lia. unfold bytes. cbn. rewrite app_nil_r. repeat split; auto; lia.
    - destruct (a_more a) eqn:M.
      + specialize (IH (S i) (a_taken a) (total + a_read a) (a_buf a) W1).
        destruct (read_exhaustive junk w retry fuel (S i) (a_taken a) (total + a_read a) (a_buf a)); auto.
        destruct IH as (I1 & I2 & I3 & I4 & I5 & I6 & I7).
        repeat split; auto; try lia.
        rewrite I5, C1, <- app_assoc. f_equal. rewrite T1 in *.
        replace (taken - c) with (a_read a + (taken - (c + a_read a))) by lia.
        rewrite bytes_app. reflexivity.
      + rewrite T1. replace (c + a_read a - c) with (a_read a) by lia. repeat split; auto; lia.
  Qed.

  Lemma exhaustive_all : lawful w -> willing w -> (forall i j, i <= j -> arrived w i <= arrived w j) ->
    forall fuel i c total b b' c' total' i', wf b -> c <= arrived w i ->
    read_exhaustive junk w retry fuel i c total b = Done b' c' total' None i' ->
    c' = arrived w (pred i').
  Proof.
    intros LW WW Mo. induction fuel as [| fuel IH]; intros i c total b b' c' total' i' W L H; cbn [read_exhaustive] in H;
      [discriminate |].
    destruct (fd_read_ok LW i c b W) as (a & E & W1 & C1 & T1 & ER & Z0 & Av & _ & Al).
    rewrite E in H. pose proof (Mo i (S i) ltac:(lia)) as Mi. destruct (a_err a) as [e |] eqn:Q.
    - assert (R0 : a_read a = 0) by (apply Z0; congruence).
      destruct (retry e); [| discriminate].
      eapply IH; [exact W1 | | exact H]. lia.
    - destruct (a_more a) eqn:M.
      + eapply IH; [exact W1 | | exact H]. specialize (Av (eq_sym ER)). lia.
      + inversion H; subst. cbn. rewrite (Al (eq_sym ER) eq_refl WW) in *. lia.
  Qed.

  Lemma exhaustive_ends : lawful w -> forall last total_bytes,
    (forall i, arrived w i <= total_bytes) ->
    (forall i e, last <= i -> fails w i = Some e -> retry e = false) ->
    forall fuel i c total b, wf b -> c <= total_bytes -> (last - i) + (total_bytes - c) < fuel ->
    exists b' c' total' err i', read_exhaustive junk w retry fuel i c total b = Done b' c' total' err i'.
  Proof.
    intros LW last N Bd Rt. induction fuel as [| fuel IH]; intros i c total b W L Fu; [lia |].
    cbn [read_exhaustive].
    destruct (fd_read_ok LW i c b W) as (a & E & W1 & C1 & T1 & ER & Z0 & Av & Mo & _).
    rewrite E. destruct (a_err a) as [e |] eqn:Q.
    - assert (R0 : a_read a = 0) by (apply Z0; congruence).
      destruct (retry e) eqn:RT; [| eauto 10].
      destruct (le_lt_dec last i) as [Hl | Hl]; [specialize (Rt i e Hl (eq_sym ER)); congruence |].
      apply IH; auto; lia.
    - destruct (a_more a) eqn:M; [| eauto 10].
      specialize (Mo (eq_sym ER) eq_refl). specialize (Av (eq_sym ER)). specialize (Bd i).
      apply IH; auto; lia.
  Qed.

  Lemma discard_ok : lawful w -> forall fuel i c total c' total' err i',
    read_discard w fuel i c total = Some (c', total', err, i') ->
    c <= c' /\ total' = total + (c' - c) /\ i < i' /\ err = fails w (pred i').
  Proof.
    intros LW. induction fuel as [| fuel IH]; intros i c total c' total' err i' H; cbn [read_discard] in H; [discriminate |].
    destruct (fails w i) as [e |] eqn:F.
    - inversion H; subst. cbn. repeat split; auto; lia.
    - cbv zeta in H. destruct (Z.eqb _ _).
      + apply IH in H. destruct H as (H1 & H2 & H3 & H4). repeat split; auto; lia.
      + inversion H; subst. cbn. repeat split; auto; lia.
  Qed.

  Lemma discard_all : lawful w -> willing w -> (forall i j, i <= j -> arrived w i <= arrived w j) ->
    forall fuel i c total c' total' i', c <= arrived w i ->
    read_discard w fuel i c total = Some (c', total', None, i') -> c' = arrived w (pred i').
  Proof.
    intros LW WW Mo. induction fuel as [| fuel IH]; intros i c total c' total' i' L H; cbn [read_discard] in H; [discriminate |].
    destruct (fails w i) as [e |] eqn:F; [discriminate |]. cbv zeta in H.
    pose proof (Mo i (S i) ltac:(lia)) as Mi.
    destruct (LW i 65536%Z (arrived w i - c)) as [_ G].
    specialize (WW i 65536%Z (arrived w i - c) ltac:(lia)).
    destruct (Z.eqb_spec (Z.of_nat (give w i 65536 (arrived w i - c))) 65536).
    - eapply IH; [| exact H]. lia.
    - inversion H; subst. cbn. lia.
  Qed.

  Lemma exec_loop_ok : lawful w -> forall fuel i c b, wf b ->
    match exec_loop junk w fuel i c (size b) b with
    | Going => True
    | Fault => False
    | Done b' c' sz err i' =>
        wf b' /\ c <= c' /\ sz = size b' /\ i < i' /\ content b' = content b ++ bytes w c (c' - c) /\
        (willing w -> arrived w (pred i') - c' = 0) /\ err = None /\
        (forall N, c <= N -> (forall j, arrived w j <= N) -> c' <= N)
    end.
  Proof.
    intros LW. induction fuel as [| fuel IH]; intros i c b W; cbn [exec_loop]; [exact I |]. cbv zeta.
    assert (FIN : forall n cap, n = give w i cap (arrived w i - c) -> (65536 <= cap)%Z -> n = 0 ->
      willing w -> arrived w i - c = 0).
    { intros n cap Hn Hc H0 WW. specialize (WW i cap (arrived w i - c) ltac:(lia)). lia. }
    destruct (Z.ltb 0 (capa b - Z.of_nat (size b)) && Z.ltb 65536 (capa b - Z.of_nat (size b))) eqn:D.
    - apply andb_true_iff in D. destruct D as [_ D]. apply Z.ltb_lt in D.
      assert (U : shared b = false) by (apply (direct_unshared b (size b)); lia).
      assert (DM : data_mut junk b = b) by (unfold data_mut; rewrite U; reflexivity).
      rewrite DM. assert (C : capa b = Z.of_nat (length (cells b))) by (unfold capa; rewrite U; reflexivity).
      set (cap := (capa b - Z.of_nat (size b))%Z) in *.
      specialize (FIN _ cap eq_refl ltac:(lia)).
      destruct (LW i cap (arrived w i - c)) as [G1 G2].
      set (n := give w i cap (arrived w i - c)) in *.
      destruct (poke_ok b (bytes w c n)) as (b2 & P & S2 & _ & W2 & C2 & W3 & C3); auto.
      { rewrite bytes_length. lia. }
      rewrite P. rewrite bytes_length in W3, C3. destruct (Nat.eqb_spec n 0) as [Hn | Hn].
      + replace (c - c) with 0 by lia. unfold bytes. cbn. rewrite app_nil_r.
        repeat split; auto; try lia.
      + specialize (IH (S i) (c + n) (write_size b2 (size b + n)) W3).
        cbn [write_size size] in IH.
        destruct (exec_loop junk w fuel (S i) (c + n) (size b + n) (write_size b2 (size b + n))) as [| | b' c' sz err i']; auto.
        destruct IH as (I1 & I2 & I3 & I4 & I5 & I6 & I7 & I8). repeat split; auto; try lia;
          [| intros N HN Bd; apply I8; [specialize (Bd i); lia | exact Bd]].
        rewrite I5, C3, <- app_assoc. f_equal.
        replace (c' - c) with (n + (c' - (c + n))) by lia. rewrite bytes_app. reflexivity.
    - specialize (FIN _ 65536%Z eq_refl ltac:(lia)).
      destruct (LW i 65536%Z (arrived w i - c)) as [G1 G2].
      set (n := give w i 65536%Z (arrived w i - c)) in *.
      destruct (append_ok b (bytes w c n) W) as (W2 & C2 & S2). rewrite bytes_length in S2.
      destruct (Nat.eqb_spec n 0) as [Hn | Hn].
      + replace (c - c) with 0 by lia. unfold bytes. cbn. rewrite app_nil_r.
        repeat split; auto; try lia.
      + specialize (IH (S i) (c + n) (append_copy junk b (bytes w c n)) W2).
        rewrite S2 in IH.
        destruct (exec_loop junk w fuel (S i) (c + n) (size b + n) _) as [| | b' c' sz err i']; auto.
        destruct IH as (I1 & I2 & I3 & I4 & I5 & I6 & I7 & I8). repeat split; auto; try lia;
          [| intros N HN Bd; apply I8; [specialize (Bd i); lia | exact Bd]].
        rewrite I5, C2, <- app_assoc. f_equal.
        replace (c' - c) with (n + (c' - (c + n))) by lia. rewrite bytes_app. reflexivity.
  Qed.

  Lemma exec_loop_ends : lawful w -> forall N, (forall i, arrived w i <= N) ->
    forall fuel i c b, wf b -> c <= N -> N - c < fuel ->
    exec_loop junk w fuel i c (size b) b <> Going.
  Proof.
    intros LW N Bd. induction fuel as [| fuel IH]; intros i c b W L Fu; [lia |]. cbn [exec_loop]. cbv zeta.
    destruct (Z.ltb 0 (capa b - Z.of_nat (size b)) && Z.ltb 65536 (capa b - Z.of_nat (size b))) eqn:D.
    - apply andb_true_iff in D. destruct D as [_ D]. apply Z.ltb_lt in D.
      assert (U : shared b = false) by (apply (direct_unshared b (size b)); lia).
      assert (DM : data_mut junk b = b) by (unfold data_mut; rewrite U; reflexivity).
      rewrite DM. assert (C : capa b = Z.of_nat (length (cells b))) by (unfold capa; rewrite U; reflexivity).
      set (cap := (capa b - Z.of_nat (size b))%Z) in *.
      destruct (LW i cap (arrived w i - c)) as [G1 G2].
      set (n := give w i cap (arrived w i - c)) in *.
      destruct (poke_ok b (bytes w c n)) as (b2 & P & S2 & _ & W2 & C2 & W3 & C3); auto.
      { rewrite bytes_length. lia. }
      rewrite P. rewrite bytes_length in W3, C3. destruct (Nat.eqb_spec n 0) as [Hn | Hn]; [discriminate |].
      specialize (Bd i).
      apply (IH (S i) (c + n) (write_size b2 (size b + n)) W3); lia.
    - destruct (LW i 65536%Z (arrived w i - c)) as [G1 G2].
      set (n := give w i 65536%Z (arrived w i - c)) in *.
      destruct (append_ok b (bytes w c n) W) as (W2 & C2 & S2). rewrite bytes_length in S2.
      destruct (Nat.eqb_spec n 0) as [Hn | Hn]; [discriminate |].
      specialize (Bd i). specialize (IH (S i) (c + n) (append_copy junk b (bytes w c n)) W2).
      rewrite S2 in IH. apply IH; lia.
  Qed.

  Lemma exec_whole : lawful w -> willing w -> forall N, (forall i, arrived w i = N) ->
    forall pclose errno b, wf b ->
    exists b' k, exec junk w None pclose errno (S N) b =
        Some (Done b' N (size b') None k, pclose, if Z.eqb pclose (-1) then errno else 0%Z) /\
      wf b' /\ content b' = content b ++ bytes w 0 N.
  Proof.
    intros LW WW N Ar pclose errno b W.
    pose proof (exec_loop_ok LW (S N) 0 0 b W) as K.
    assert (Q : exec_loop junk w (S N) 0 0 (size b) b <> Going).
    { apply (exec_loop_ends LW N); auto; try lia. intro i. rewrite Ar. lia. }
    unfold exec. destruct (exec_loop junk w (S N) 0 0 (size b) b) as [| | b' c' sz err i']; try contradiction; try congruence.
    destruct K as (I1 & I2 & I3 & I4 & I5 & I6 & I7 & I8).
    specialize (I6 WW). rewrite Ar in I6. specialize (I8 N ltac:(lia) ltac:(intro j; rewrite Ar; lia)).
    assert (c' = N) as -> by lia. subst sz err. rewrite Nat.sub_0_r in I5.
    exists b', i'. auto.
  Qed.
End P.
