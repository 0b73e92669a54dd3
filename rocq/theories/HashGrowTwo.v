(** Growing an index of lib/hash.fu with no slots, or with two full ones; and so every roomy index. *)
From Verif Require Import CommonLemmas HashModel HashIndex HashSpec HashTop HashGrowTop.
From Coq Require Import Permutation.
Open Scope Z_scope.

Lemma rehash_S f ix ol om op m mp p : rehash (S f) ix ol om op m mp p =
      if ol <=? p then Some ix else
      let i := Z.land (p + op) om in
      do index_entry <- getz ix i;
      let ideal := Z.land (ie_hash index_entry) m in
      let diff := Z.land (i - ideal) m in
      if ((ol <=? ideal) || (mp <=? diff)) && negb (ie_pos index_entry =? 0)%nat then
        do d <- find_dest (S (length ix)) ix m i ideal;
        match d with
        | None => rehash f ix ol om op m mp (p + 1)
        | Some i_dest =>
            do q <- shift_back (S (length ix)) ix m ideal i_dest;
            let (index, i_dest) := (q : list ientry * Z) in
            do index <- swapz i i_dest index;
            do index <- compact (compact_fuel index) index m i;
            rehash f index ol om op m mp p
        end
      else rehash f ix ol om op m mp (p + 1).
Proof. reflexivity. Qed.
Ltac lands := repeat match goal with |- context [Z.land ?a ?b] => let v := eval vm_compute in (Z.land a b) in match v with 0 => idtac | 1 => idtac | 2 => idtac | 3 => idtac end; change (Z.land a b) with v end.
Lemma g0 (x y z w : ientry) : getz [x; y; z; w] 0 = Some x. Proof. reflexivity. Qed.
Lemma g1 (x y z w : ientry) : getz [x; y; z; w] 1 = Some y. Proof. reflexivity. Qed.
Lemma g2 (x y z w : ientry) : getz [x; y; z; w] 2 = Some z. Proof. reflexivity. Qed.
Lemma g3 (x y z w : ientry) : getz [x; y; z; w] 3 = Some w. Proof. reflexivity. Qed.
Lemma s13 (x y z w : ientry) : swapz 1 3 [x; y; z; w] = Some [x; w; z; y]. Proof. reflexivity. Qed.
Lemma s02 (x y z w : ientry) : swapz 0 2 [x; y; z; w] = Some [z; y; x; w]. Proof. reflexivity. Qed.
Ltac st0 := cbn -[Z.land rehash find_dest shift_back compact compact_fuel swapz getz Z.sub Z.add]; lands; rewrite ?g0, ?g1, ?g2, ?g3.
Ltac stp := cbn -[Z.land rehash swapz getz Z.sub Z.add compact]; lands; rewrite ?g0, ?g1, ?g2, ?g3, ?s13, ?s02.
Ltac stc := cbn -[Z.land rehash getz Z.sub Z.add]; lands; rewrite ?g0, ?g1, ?g2, ?g3.
Section TWO.
Context (ha hb : Z) (pa pb f : nat).
Notation a := (IE ha (S pa)).
Notation b := (IE hb (S pb)).
Notation o := (IE 0 0).
Lemma two_end ix : rehash (S f) ix 2 1 1 3 2 2 = Some ix.
Proof. reflexivity. Qed.
Lemma two_b1 x : Z.land hb 3 = 1 -> rehash (S x) [a; b; o; o] 2 1 1 3 2 0 = rehash x [a; b; o; o] 2 1 1 3 2 1.
Proof. intros E. rewrite rehash_S. do 3 st0. rewrite ?E. do 3 st0. do 4 stp. do 3 stc. reflexivity. Qed.
Lemma two_b3 x : Z.land hb 3 = 3 -> rehash (S (S x)) [a; b; o; o] 2 1 1 3 2 0 = rehash x [a; o; o; b] 2 1 1 3 2 1.
Proof. intros E. rewrite rehash_S. do 3 st0. rewrite ?E. do 3 st0. do 4 stp. do 3 stc. rewrite rehash_S. do 3 st0. reflexivity. Qed.
Lemma two_a0 x s t : Z.land ha 3 = 0 -> rehash (S x) [a; s; o; t] 2 1 1 3 2 1 = rehash x [a; s; o; t] 2 1 1 3 2 2.
Proof. intros E. rewrite rehash_S. do 3 st0. rewrite ?E. do 3 st0. do 4 stp. do 3 stc. reflexivity. Qed.
Lemma two_a2 x t : Z.land ha 3 = 2 -> rehash (S (S x)) [a; o; o; t] 2 1 1 3 2 1 = rehash x [o; o; a; t] 2 1 1 3 2 2.
Proof. intros E. rewrite rehash_S. do 3 st0. rewrite ?E. do 3 st0. do 4 stp. do 3 stc. rewrite rehash_S. do 3 st0. reflexivity. Qed.
Lemma two_a2b x t : Z.land ha 3 = 2 -> Z.land (1 - hb) 3 = 0 -> rehash (S (S x)) [a; b; o; t] 2 1 1 3 2 1 = rehash x [o; b; a; t] 2 1 1 3 2 2.
Proof. intros E E'. rewrite rehash_S. do 3 st0. rewrite ?E. do 3 st0. do 4 stp. do 3 stc. rewrite E'. do 3 stc. rewrite rehash_S. do 3 st0. reflexivity. Qed.
End TWO.

Lemma ideal_order ix n : lenz ix = n -> 0 < n -> 0 < Z.log2 n -> (forall j, 0 <= j < n -> slot_used ix j -> ie_hash (slot ix j) mod n = j) -> in_order ix.
Proof.
  intros L n0 n1 H i u. assert (E : slot ix (i mod n) = slot ix i) by (unfold slot; rewrite L, Z.mod_mod by lia; auto).
  assert (Q : probe_distance ix i = 0).
  { unfold probe_distance. rewrite L. rewrite Zminus_mod. rewrite <- E. rewrite H.
    - rewrite Z.sub_diag. apply Z.mod_0_l. lia.
    - apply Z.mod_pos_bound. lia.
    - unfold slot_used in *. rewrite E. auto. }
  rewrite Q, L. split; auto.
Qed.
Lemma grow_empty : exists ix', increase_capacity [] = Some ix' /\ in_order ix'.
Proof.
  exists [IE 0 0; IE 0 0]. split; [reflexivity|]. intros i u. exfalso. apply u. unfold slot. destruct (Z.to_nat _) as [|[|[|]]]; reflexivity.
Qed.
Lemma grow_two ix : pow2 ix 1 -> RH ix 1 -> (forall e, In e ix -> ie_pos e <> 0%nat) -> exists ix', increase_capacity ix = Some ix' /\ in_order ix'.
Proof.
  intros [_ L] R F. change (2 ^ 1) with 2 in L. unfold lenz in L. destruct ix as [|[ha [|pa]] [|[hb [|pb]] [|]]]; cbn [length] in L; try lia;
    try (exfalso; apply (F (IE ha 0)); cbn; auto; fail); try (exfalso; apply (F (IE hb 0)); cbn; auto; fail).
  assert (Da : ha mod 2 = 0).
  { pose proof (R 0 ltac:(intros Q; vm_compute in Q; discriminate Q)) as [D _]. unfold dist, lenz in D. cbn [length] in D. change (at_ _ 0) with (IE ha (S pa)) in D. cbn [ie_hash] in D. change (Z.of_nat 2) with 2 in D.
    pose proof (Z.mod_pos_bound (0 - ha) 2 ltac:(lia)). assert (Z0' : (0 - ha) mod 2 = 0) by lia. rewrite Zmod_even in Z0' |- *. rewrite Z.even_sub in Z0'. destruct (Z.even ha); cbn in *; auto. }
  assert (Db : hb mod 2 = 1).
  { pose proof (R 1 ltac:(intros Q; vm_compute in Q; discriminate Q)) as [D _]. unfold dist, lenz in D. cbn [length] in D. change (at_ _ 1) with (IE hb (S pb)) in D. cbn [ie_hash] in D. change (Z.of_nat 2) with 2 in D.
    pose proof (Z.mod_pos_bound (1 - hb) 2 ltac:(lia)). assert (Z0' : (1 - hb) mod 2 = 0) by lia. rewrite Zmod_even in Z0' |- *. rewrite Z.even_sub in Z0'. destruct (Z.even hb); cbn in *; auto. }
  assert (M : forall x, Z.land x 3 = x mod 4) by (intros x; change 3 with (Z.ones 2); rewrite Z.land_ones by lia; reflexivity).
  assert (Ca : ha mod 4 = 0 \/ ha mod 4 = 2).
  { pose proof (Z.div_mod ha 4 ltac:(lia)). pose proof (Z.mod_pos_bound ha 4 ltac:(lia)). pose proof (Z.div_mod ha 2 ltac:(lia)). lia. }
  assert (Cb : hb mod 4 = 1 \/ hb mod 4 = 3).
  { pose proof (Z.div_mod hb 4 ltac:(lia)). pose proof (Z.mod_pos_bound hb 4 ltac:(lia)). pose proof (Z.div_mod hb 2 ltac:(lia)). lia. }
  change (increase_capacity _) with (rehash 35 [IE ha (S pa); IE hb (S pb); IE 0 0; IE 0 0] 2 1 1 3 2 0).
  destruct Cb as [Cb|Cb].
  - rewrite two_b1 by (rewrite M; auto). destruct Ca as [Ca|Ca].
    + rewrite two_a0 by (rewrite M; auto). rewrite two_end. eexists. split; [reflexivity|]. apply (ideal_order _ 4); try reflexivity.
      intros j Hj u. assert (j = 0 \/ j = 1 \/ j = 2 \/ j = 3) as [->|[->|[->| ->]]] by lia; cbn in *; auto; exfalso; apply u; reflexivity.
    + rewrite two_a2b by (rewrite M; first [exact Ca|rewrite Zminus_mod, Cb; reflexivity]). rewrite two_end. eexists. split; [reflexivity|]. apply (ideal_order _ 4); try reflexivity.
      intros j Hj u. assert (j = 0 \/ j = 1 \/ j = 2 \/ j = 3) as [->|[->|[->| ->]]] by lia; cbn in *; auto; exfalso; apply u; reflexivity.
  - rewrite two_b3 by (rewrite M; auto). destruct Ca as [Ca|Ca].
    + rewrite two_a0 by (rewrite M; auto). rewrite two_end. eexists. split; [reflexivity|]. apply (ideal_order _ 4); try reflexivity.
      intros j Hj u. assert (j = 0 \/ j = 1 \/ j = 2 \/ j = 3) as [->|[->|[->| ->]]] by lia; cbn in *; auto; exfalso; apply u; reflexivity.
    + rewrite two_a2 by (rewrite M; auto). rewrite two_end. eexists. split; [reflexivity|]. apply (ideal_order _ 4); try reflexivity.
      intros j Hj u. assert (j = 0 \/ j = 1 \/ j = 2 \/ j = 3) as [->|[->|[->| ->]]] by lia; cbn in *; auto; exfalso; apply u; reflexivity.
Qed.
Lemma grow_roomy ix : sound_index ix -> NoDup (map ie_hash (used ix)) -> roomy ix -> lenz ix < MAX_INDEX ->
  exists ix', increase_capacity ix = Some ix' /\ in_order ix'.
Proof.
  intros [->|(k & P & R)] N Ro M; [apply grow_empty|].
  assert (C : (exists e, In e ix /\ ie_pos e = 0%nat) \/ pow2 ix 1 /\ forall e, In e ix -> ie_pos e <> 0%nat).
  { destruct (existsb (fun e => (ie_pos e =? 0)%nat) ix) eqn:E.
    - left. apply existsb_exists in E. destruct E as (e & I & E). exists e. split; auto. apply Nat.eqb_eq; auto.
    - right. assert (A : forall e, In e ix -> ie_pos e <> 0%nat).
      { intros e I Z. assert (Q : existsb (fun e => (ie_pos e =? 0)%nat) ix = true) by (apply existsb_exists; exists e; split; auto; apply Nat.eqb_eq; auto). congruence. }
      split; auto. destruct Ro as [Ro|(e & I & Z)]; [|exfalso; eapply A; eauto]. pose proof (pow2_pos _ _ P). split; [lia|]. change (2 ^ 1) with 2. unfold lenz in *. lia. }
  destruct C as [(e & I & Z)|[P1 A]].
  - destruct (In_nth ix e IE0 I) as (m & L & E). apply (st_grow ix k (Z.of_nat m) P R N); auto.
    + unfold lenz. lia.
    + unfold at_. rewrite Z.mod_small by (unfold lenz; lia). rewrite Nat2Z.id, E. unfold is_used. auto.
  - assert (k = 1). { destruct P as [Hk P], P1 as [_ P1]. rewrite P in P1. apply Z.pow_inj_r in P1; lia. } subst k. apply grow_two; auto.
Qed.
