(** The concurrent generator and shuffle: proofs. *)
From Coq Require Import Permutation NArith Nnat.
From Verif Require Import WordsLemmas Gf2 RandModel RandProofs.
Open Scope Z_scope.

Lemma iter_add_nat {A} (f : A -> A) n m x : Nat.iter (n + m) f x = Nat.iter n f (Nat.iter m f x).
Proof. induction n as [|n IH]; [reflexivity|]. cbn. f_equal. exact IH. Qed.

Lemma iter_period_ex : exists m : nat, forall x, word 64 x -> x <> 0 -> Nat.iter m xorshift64 (xorshift64 x) = x.
Proof.
  assert (G : forall (p : N), (0 < p)%N -> (forall x, word 64 x -> x <> 0 -> N.iter p xorshift64 x = x) ->
     exists m : nat, forall x, word 64 x -> x <> 0 -> Nat.iter m xorshift64 (xorshift64 x) = x).
  { intros p Hp H. exists (Nat.pred (N.to_nat p)). intros x Hx H0.
    pose proof (H x Hx H0) as E. rewrite N2Nat.inj_iter in E.
    assert (E2 : N.to_nat p = (Nat.pred (N.to_nat p) + 1)%nat) by lia. rewrite E2 in E.
    rewrite iter_add_nat in E. exact E. }
  refine (G _ _ (fun x H H0 => proj1 (xorshift64_period x H H0))). reflexivity.
Qed.

Lemma xorshift64_0 : xorshift64 0 = 0.
Proof. reflexivity. Qed.

Lemma iter_0 n : Nat.iter n xorshift64 0 = 0.
Proof. induction n as [|n IH]; cbn [Nat.iter nat_rect]; [reflexivity|]. change (xorshift64 (Nat.iter n xorshift64 0) = 0). rewrite IH. reflexivity. Qed.

Lemma xorshift64_nz x : word 64 x -> x <> 0 -> xorshift64 x <> 0.
Proof.
  intros H H0 E. destruct iter_period_ex as [m P]. specialize (P x H H0). rewrite E in P.
  rewrite iter_0 in P. congruence.
Qed.

Lemma iter_word n x : word 64 x -> word 64 (Nat.iter n xorshift64 x).
Proof. intros H; induction n as [|n IH]; [exact H|]. cbn. apply xorshift64_word, IH. Qed.
Lemma iter_nz n x : word 64 x -> x <> 0 -> Nat.iter n xorshift64 x <> 0.
Proof. intros H H0; induction n as [|n IH]; [exact H0|]. cbn. apply xorshift64_nz; auto. apply iter_word; auto. Qed.

Lemma xorshift64_inj x y : word 64 x -> word 64 y -> xorshift64 x = xorshift64 y -> x = y.
Proof.
  intros Hx Hy E. destruct (Z.eq_dec x 0) as [->|Nx].
  - destruct (Z.eq_dec y 0) as [|Ny]; [congruence|]. exfalso. apply (xorshift64_nz y Hy Ny). rewrite <- E. reflexivity.
  - destruct (Z.eq_dec y 0) as [->|Ny]; [exfalso; apply (xorshift64_nz x Hx Nx); rewrite E; reflexivity|].
    destruct iter_period_ex as [m P]. rewrite <- (P x Hx Nx), <- (P y Hy Ny), E. reflexivity.
Qed.

Lemma iter_inj n x y : word 64 x -> word 64 y -> Nat.iter n xorshift64 x = Nat.iter n xorshift64 y -> x = y.
Proof.
  intros Hx Hy. induction n as [|n IH]; cbn; auto. intros E. apply IH.
  apply xorshift64_inj; auto; apply iter_word; auto.
Qed.

Lemma xorshift64_surj y : word 64 y -> exists x, word 64 x /\ xorshift64 x = y.
Proof.
  intros Hy. destruct (Z.eq_dec y 0) as [->|Ny].
  - exists 0. split; [unfold word; lia|reflexivity].
  - destruct iter_period_ex as [m P]. exists (Nat.iter m xorshift64 y). split; [apply iter_word; auto|].
    rewrite <- (P y Hy Ny) at 2. symmetry.
    change (xorshift64 (Nat.iter m xorshift64 y)) with (Nat.iter (1 + m) xorshift64 y).
    rewrite (Nat.add_comm 1 m), iter_add_nat. reflexivity.
Qed.

Lemma rand_out_inj x y : word 64 x -> word 64 y -> rand_out x = rand_out y -> x = y.
Proof.
  intros Hx Hy E.
  assert (G : forall z, word 64 z -> wmul 64 (rand_out z) 6415128727920758069 = z).
  { intros z Hz. unfold rand_out, wmul, wrap. rewrite Zmult_mod_idemp_l.
    rewrite <- Z.mul_assoc. rewrite <- Zmult_mod_idemp_r.
    replace ((2685821657736338717 * 6415128727920758069) mod 2 ^ 64) with 1 by (vm_compute; reflexivity).
    rewrite Z.mul_1_r. apply Z.mod_small. exact Hz. }
  rewrite <- (G x Hx), <- (G y Hy), E. reflexivity.
Qed.

Definition draw_i (seed : Z) (i : nat) : Z := rand_out (Nat.iter (S i) xorshift64 seed).

Lemma threads_inv seed n st : rreach seed n st ->
  map snd (draws st) = map (draw_i seed) (seq 0 (length (draws st))) /\
  shared st = Nat.iter (length (draws st)) xorshift64 seed.
Proof.
  induction 1 as [|s s' Hr [I1 I2] Hs]; [split; reflexivity|].
  destruct Hs as [st t ths Ht Hu|st t ths prev Ht He Hu|st t ths prev Ht Hu]; cbn [draws shared]; auto.
  rewrite app_length, map_app. cbn [length]. rewrite Nat.add_1_r, seq_S, map_app, I1. cbn [map plus snd].
  assert (E : xorshift64 prev = Nat.iter (S (length (draws st))) xorshift64 seed).
  { change (Nat.iter (S (length (draws st))) xorshift64 seed) with (xorshift64 (Nat.iter (length (draws st)) xorshift64 seed)).
    rewrite <- I2, He. reflexivity. }
  split; [|exact E]. f_equal. f_equal. unfold draw_i. rewrite E. reflexivity.
Qed.

Lemma draws_distinct seed : word 64 seed -> seed <> 0 -> forall i j,
  Z.of_nat i < 2 ^ 64 - 1 -> Z.of_nat j < 2 ^ 64 - 1 -> draw_i seed i = draw_i seed j -> i = j.
Proof.
  intros H H0.
  assert (W : forall i j, (i < j)%nat -> Z.of_nat j < 2 ^ 64 - 1 -> draw_i seed i <> draw_i seed j).
  { intros i j Hij Hj E. unfold draw_i in E. apply rand_out_inj in E; try (apply iter_word; auto).
    replace (S j) with (S i + (j - i))%nat in E by lia. rewrite iter_add_nat in E.
    apply iter_inj in E; auto; [|apply iter_word; auto].
    destruct (xorshift64_period seed H H0) as [_ P].
    apply (P (N.of_nat (j - i))); [lia|]. rewrite N2Nat.inj_iter, Nat2N.id. auto. }
  intros i j Hi Hj E. destruct (Nat.lt_trichotomy i j) as [L|[L|L]]; auto; exfalso.
  - apply (W i j); auto.
  - apply (W j i); auto.
Qed.

Lemma NoDup_map_inj {A B} (f : A -> B) l :
  (forall x y, In x l -> In y l -> f x = f y -> x = y) -> NoDup l -> NoDup (map f l).
Proof.
  intros H N. induction N as [|x l Hx N IH]; cbn; constructor.
  - intros Hin. apply in_map_iff in Hin as (y & E & Hy). apply Hx.
    rewrite (H x y); auto; [left|right]; auto.
  - apply IH. intros; apply H; auto; right; auto.
Qed.

Lemma rand_seed_ok sec usec : word 64 (rand_seed sec usec) /\ rand_seed sec usec <> 0.
Proof.
  unfold rand_seed. set (x := Z.lor (Z.lor 1 (wrap 64 usec)) (wshl 64 sec 32)).
  assert (W : word 64 x).
  { apply lor_word; [lia| |apply wshl_word; lia]. apply lor_word; [lia|unfold word; lia|apply wrap_word; lia]. }
  assert (NZ : x <> 0).
  { intros E. assert (B : Z.testbit x 0 = true) by (unfold x; rewrite !Z.lor_spec; reflexivity).
    rewrite E in B. discriminate. }
  split; [apply iter_word|apply iter_nz]; auto.
Qed.

(** shuffle *)
Lemma shuffle_loop_ok {A} fuel : forall n i seed (arr : list A), length arr = n -> (i + fuel < n)%nat \/ fuel = 0%nat ->
  word 32 seed ->
  exists arr' seed', shuffle_loop fuel n i seed arr = Some (arr', seed') /\ Permutation arr arr' /\
    (forall k, (k < i)%nat -> nth_error arr' k = nth_error arr k).
Proof.
  induction fuel as [|fuel IH]; intros n i seed arr Hlen Hf Hw; cbn [shuffle_loop].
  - exists arr, seed. auto.
  - destruct Hf as [Hf|Hf]; [|discriminate].
    pose proof (xorshift32_word seed Hw) as Hw'.
    set (s := xorshift32 seed) in *.
    assert (Hm : 0 <= s mod Z.of_nat (n - i) < Z.of_nat (n - i)) by (apply Z.mod_pos_bound; lia).
    set (idx := (i + Z.to_nat (s mod Z.of_nat (n - i)))%nat) in *.
    assert (Hidx : (i <= idx < n)%nat) by (unfold idx; lia).
    destruct (nth_error_ex arr i) as [x Hx]; [lia|]. destruct (nth_error_ex arr idx) as [y Hy]; [lia|].
    destruct (swap_at_Some arr i idx x y Hx Hy) as (arr1 & E1 & L1 & _ & _ & K1).
    rewrite E1. cbn [obind].
    destruct (IH n (S i) s arr1) as (arr' & seed' & E2 & P2 & K2); auto; try lia.
    exists arr', seed'. split; [exact E2|]. split.
    + eapply perm_trans; [eapply swap_at_perm; eauto|exact P2].
    + intros k Hk. rewrite K2 by lia. apply K1; lia.
Qed.

Lemma shuffle_perm {A} (arr : list A) seed : word 32 seed ->
  exists arr' seed', shuffle arr seed = Some (arr', seed') /\ Permutation arr arr'.
Proof.
  intros Hw. unfold shuffle.
  destruct (shuffle_loop_ok (length arr - 1) (length arr) 0
     (if seed =? 0 then wrap 32 (Z.of_nat (length arr)) else seed) arr) as (a & s & E & P & _); auto.
  - destruct (length arr); [right; reflexivity|]. left; lia.
  - destruct (seed =? 0); auto. apply wrap_word; lia.
  - eauto.
Qed.

Lemma nth_error_map_f {A B} (f : A -> B) l i : nth_error (map f l) i = match nth_error l i with Some x => Some (f x) | None => None end.
Proof. revert i; induction l as [|a l IH]; intros [|i]; cbn; auto. Qed.
Lemma upd_map {A B} (f : A -> B) l i x : upd (map f l) i (f x) = match upd l i x with Some l' => Some (map f l') | None => None end.
Proof. revert i; induction l as [|a l IH]; intros [|i]; cbn; auto. rewrite IH. destruct (upd l i x); reflexivity. Qed.
Lemma swap_at_map {A B} (f : A -> B) i j l :
  swap_at i j (map f l) = match swap_at i j l with Some l' => Some (map f l') | None => None end.
Proof.
  unfold swap_at. rewrite !nth_error_map_f. destruct (nth_error l i) as [x|]; [|reflexivity].
  destruct (nth_error l j) as [y|]; [|reflexivity]. cbn [obind]. rewrite upd_map.
  destruct (upd l i y) as [l1|]; [|reflexivity]. cbn [obind]. apply upd_map.
Qed.
Lemma shuffle_loop_map {A B} (f : A -> B) fuel : forall n i seed l,
  shuffle_loop fuel n i seed (map f l) =
  match shuffle_loop fuel n i seed l with Some (l', s) => Some (map f l', s) | None => None end.
Proof.
  induction fuel as [|fuel IH]; intros n i seed l; cbn [shuffle_loop]; [reflexivity|].
  rewrite swap_at_map. destruct (swap_at _ _ l) as [l1|]; [|reflexivity]. cbn [obind]. apply IH.
Qed.
Lemma shuffle_map {A B} (f : A -> B) seed l :
  shuffle (map f l) seed = match shuffle l seed with Some (l', s) => Some (map f l', s) | None => None end.
Proof. unfold shuffle. rewrite map_length. apply shuffle_loop_map. Qed.
