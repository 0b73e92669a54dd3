(** C23 - the random generator never gets stuck; C24 - shuffle is a permutation. *)
From Coq Require Import Permutation.
From Verif Require Import WordsLemmas Gf2 RandModel RandProofs RandThreads.
Open Scope Z_scope.

(** C23: one step is a bijection of the 64-bit words ... *)
Theorem rand_step_bijective : forall y, word 64 y ->
  exists! x, word 64 x /\ xorshift64 x = y.
Proof.
  exact (fun y Hy => match xorshift64_surj y Hy with
    | ex_intro _ x (conj Hx E) => ex_intro _ x (conj (conj Hx E)
        (fun x' '(conj Hx' E') => xorshift64_inj x x' Hx Hx' (eq_trans E (eq_sym E')))) end).
Qed.
Print Assumptions rand_step_bijective.

(** ... with exactly two cycles: {0}, and one of length 2^64 - 1 through every
    other state. *)
Theorem rand_full_period : xorshift64 0 = 0 /\
  forall x, word 64 x -> x <> 0 ->
    xorshift64 x <> 0 /\
    N.iter (2 ^ 64 - 1) xorshift64 x = x /\
    (forall n, (0 < n < 2 ^ 64 - 1)%N -> N.iter n xorshift64 x <> x).
Proof.
  exact (conj eq_refl (fun x H H0 => conj (xorshift64_nz x H H0) (xorshift64_period x H H0))).
Qed.
Print Assumptions rand_full_period.

(** Any number of threads drawing under any schedule (and any number of failed
    compare-exchanges): whatever the clock said at start-up, the k-th completed
    draw is the output of the k-th state after the seed, so no state is skipped
    or handed out twice, and no value repeats within 2^64 - 1 draws. *)
Theorem rand_draws_linearised : forall sec usec n st,
  let seed := rand_seed sec usec in
  rreach seed n st ->
  word 64 seed /\ seed <> 0 /\ shared st <> 0 /\
  map snd (draws st) = map (fun k => rand_out (Nat.iter (S k) xorshift64 seed)) (seq 0 (length (draws st))) /\
  (Z.of_nat (length (draws st)) <= 2 ^ 64 - 1 -> NoDup (map snd (draws st))).
Proof.
  intros sec usec n st seed Hr. destruct (rand_seed_ok sec usec) as [W NZ]. fold seed in W, NZ.
  destruct (threads_inv seed n st Hr) as [E1 E2].
  split; [exact W|]. split; [exact NZ|]. split; [rewrite E2; apply iter_nz; assumption|].
  split; [exact E1|]. intros Hle. rewrite E1. apply NoDup_map_inj; [|apply seq_NoDup].
  intros i j Hi Hj. apply in_seq in Hi, Hj. apply draws_distinct; auto; lia.
Qed.
Print Assumptions rand_draws_linearised.

(** Non-vacuity: two threads race; one compare-exchange fails and retries. *)
Example rand_race : exists st, rreach (rand_seed 1700000000 123456) 2 st /\ length (draws st) = 2%nat
  /\ map fst (draws st) = [1; 0]%nat.
Proof.
  generalize (rand_seed 1700000000 123456). intros seed.
  pose proof (rr_init seed 2) as H0.
  match type of H0 with rreach _ _ ?s => pose proof (rr_step _ _ _ _ H0 (r_call s 0 _ eq_refl eq_refl)) as H1 end.
  match type of H1 with rreach _ _ ?s => pose proof (rr_step _ _ _ _ H1 (r_call s 1 _ eq_refl eq_refl)) as H2 end.
  match type of H2 with rreach _ _ ?s => pose proof (rr_step _ _ _ _ H2 (r_cas_ok s 1 _ _ eq_refl eq_refl eq_refl)) as H3 end.
  match type of H3 with rreach _ _ ?s => pose proof (rr_step _ _ _ _ H3 (r_cas_fail s 0 _ _ eq_refl eq_refl)) as H4 end.
  match type of H4 with rreach _ _ ?s => pose proof (rr_step _ _ _ _ H4 (r_cas_ok s 0 _ _ eq_refl eq_refl eq_refl)) as H5 end.
  eexists. split; [exact H5|]. split; reflexivity.
Qed.

(** C24: for every array and every seed, shuffle succeeds (no index is ever out
    of range) and returns a rearrangement of the array. *)
Theorem shuffle_is_permutation : forall (A : Type) (arr : list A) seed, word 32 seed ->
  exists arr' seed', shuffle arr seed = Some (arr', seed') /\ Permutation arr arr'.
Proof. exact @shuffle_perm. Qed.
Print Assumptions shuffle_is_permutation.

(** The rearrangement depends on the length and the seed only, not on the values. *)
Theorem shuffle_is_uniform_in_values : forall (A B : Type) (f : A -> B) seed l,
  shuffle (map f l) seed = match shuffle l seed with Some (l', s) => Some (map f l', s) | None => None end.
Proof. exact @shuffle_map. Qed.
Print Assumptions shuffle_is_uniform_in_values.

Example shuffle_case : exists l s, shuffle [10; 20; 30; 40; 50] 7 = Some (l, s) /\ l <> [10; 20; 30; 40; 50].
Proof. eexists _, _. split; [vm_compute; reflexivity|discriminate]. Qed.
