From Coq Require Import Znumtheory Permutation.
From Verif Require Import WordsLemmas Gf2 RandModel.
Open Scope Z_scope.

Lemma linear_shr k : 0 <= k -> linear (fun x => Z.lxor x (wshr x k)).
Proof.
  intros Hk x y. unfold wshr. rewrite Z.shiftr_lxor. apply lxor4.
Qed.
Lemma wrap_lxor w x y : 0 <= w -> wrap w (Z.lxor x y) = Z.lxor (wrap w x) (wrap w y).
Proof.
  intros Hw. apply Z.bits_inj'. intros i Hi. rewrite wrap_testbit, !Z.lxor_spec, !wrap_testbit by lia.
  destruct (i <? w); reflexivity.
Qed.
Lemma linear_shl w k : 0 <= w -> 0 <= k -> linear (fun x => Z.lxor x (wshl w x k)).
Proof.
  intros Hw Hk x y. unfold wshl. rewrite Z.shiftl_lxor, wrap_lxor by lia. apply lxor4.
Qed.

Lemma xorshift64_linear : linear xorshift64.
Proof.
  intros x y. unfold xorshift64. cbv zeta.
  pose proof (linear_shr 12 ltac:(lia)) as A. pose proof (linear_shl 64 25 ltac:(lia) ltac:(lia)) as B.
  pose proof (linear_shr 27 ltac:(lia)) as C. unfold linear in *. cbv beta in *. rewrite A, B, C. reflexivity.
Qed.
Lemma xorshift32_linear : linear xorshift32.
Proof.
  intros x y. unfold xorshift32. cbv zeta.
  pose proof (linear_shl 32 13 ltac:(lia) ltac:(lia)) as A. pose proof (linear_shr 17 ltac:(lia)) as B.
  pose proof (linear_shl 32 5 ltac:(lia) ltac:(lia)) as C. unfold linear in *. cbv beta in *. rewrite A, B, C. reflexivity.
Qed.

Lemma xorshift64_word x : word 64 x -> word 64 (xorshift64 x).
Proof.
  intros H. unfold xorshift64; cbv zeta.
  repeat (apply lxor_word; [lia| |]); try apply wshr_word; try apply wshl_word; try lia;
  repeat (apply lxor_word; [lia| |]); try apply wshr_word; try apply wshl_word; try lia; auto;
  repeat (apply lxor_word; [lia| |]); try apply wshr_word; try apply wshl_word; try lia; auto.
Qed.
Lemma xorshift32_word x : word 32 x -> word 32 (xorshift32 x).
Proof.
  intros H. unfold xorshift32; cbv zeta.
  repeat (apply lxor_word; [lia| |]); try apply wshr_word; try apply wshl_word; try lia;
  repeat (apply lxor_word; [lia| |]); try apply wshr_word; try apply wshl_word; try lia; auto;
  repeat (apply lxor_word; [lia| |]); try apply wshr_word; try apply wshl_word; try lia; auto.
Qed.

Lemma primes64 : Forall prime [3; 5; 17; 257; 641; 65537; 6700417].
Proof.
  repeat apply Forall_cons; try apply Forall_nil.
  - apply (prime_by_trial 3 0); vm_compute; auto.
  - apply (prime_by_trial 5 1); vm_compute; auto.
  - apply (prime_by_trial 17 3); vm_compute; auto.
  - apply (prime_by_trial 257 16); vm_compute; auto.
  - apply (prime_by_trial 641 30); vm_compute; auto.
  - apply (prime_by_trial 65537 300); vm_compute; auto.
  - apply (prime_by_trial 6700417 2700); vm_compute; auto.
Qed.
Lemma primes32 : Forall prime [3; 5; 17; 257; 65537].
Proof. pose proof primes64 as H. repeat (inversion H as [|? ? ? H']; subst; clear H; rename H' into H; auto; try constructor; auto). Qed.

(** Characteristic polynomials of the two steps and, per cofactor (2^w - 1) / p,
    the inverse of t^cofactor + 1; all checked below by computation. *)
Definition m64 := 18453700935701797745.
Definition m32 := 4299080257.
Definition invs64 := [(3, 6982573358161762488); (5, 3313899723189181131); (17, 1016330942154151095);
  (257, 1816094620514011043); (641, 5969494788886631151); (65537, 7936406919433075362); (6700417, 8628105096296427465)].
Definition invs32 := [(3, 2585467165); (5, 627944065); (17, 1428936566); (257, 2895861762); (65537, 3511099410)].

Definition inv_ok (w : nat) (m : Z) (N0 : Z) (pi : Z * Z) : bool :=
  let '(p, i) := pi in
  (0 <? N0 / p) && (0 <=? i) && (i <? 2 ^ Z.of_nat w) &&
  (pmul w m i (Z.lxor (tpow w m (Z.to_pos (N0 / p))) 1) =? 1).

Lemma m64_kills : forallb (fun b => ev 64 xorshift64 m64 b =? 0) (basis 64) = true.
Proof. vm_compute. reflexivity. Qed.
Lemma m32_kills : forallb (fun b => ev 32 xorshift32 m32 b =? 0) (basis 32) = true.
Proof. vm_compute. reflexivity. Qed.
Lemma order64 : tpow 64 m64 18446744073709551615 = 1.
Proof. vm_compute. reflexivity. Qed.
Lemma order32 : tpow 32 m32 4294967295 = 1.
Proof. vm_compute. reflexivity. Qed.
Lemma invs64_ok : forallb (inv_ok 64 m64 18446744073709551615) invs64 = true.
Proof. vm_compute. reflexivity. Qed.
Lemma invs32_ok : forallb (inv_ok 32 m32 4294967295) invs32 = true.
Proof. vm_compute. reflexivity. Qed.

Lemma period_gen f w m (N0 : positive) (pis : list (Z * Z)) : linear f ->
  (forall x, word (Z.of_nat w) x -> word (Z.of_nat w) (f x)) -> (2 <= w)%nat ->
  word (Z.of_nat w + 1) m /\ Z.testbit m (Z.of_nat w) = true ->
  forallb (fun b => ev w f m b =? 0) (basis w) = true ->
  Forall prime (map fst pis) -> Z.pos N0 = fold_right Z.mul 1 (map fst pis) ->
  tpow w m N0 = 1 -> forallb (inv_ok w m (Z.pos N0)) pis = true ->
  forall x, word (Z.of_nat w) x -> x <> 0 ->
    N.iter (N.pos N0) f x = x /\ forall n, (0 < n < N.pos N0)%N -> N.iter n f x <> x.
Proof.
  intros L Hf Hw Hm Hk Hps HN Hord Hco x Hx Hx0.
  pose proof (kills_by_basis w f m L Hk) as K.
  assert (HK : N.iter (N.pos N0) f x = x) by (apply (poly_order w f m L Hf Hm Hw K N0 Hord x Hx)).
  split; [exact HK|].
  apply (exact_period f x (map fst pis) (N.pos N0)); auto.
  intros p Hp. apply in_map_iff in Hp as ([p' i] & E & Hin). cbn in E; subst p'.
  rewrite forallb_forall in Hco. specialize (Hco _ Hin). unfold inv_ok in Hco.
  change (Z.of_N (N.pos N0)) with (Z.pos N0).
  apply andb_true_iff in Hco as [Hco H4]. apply andb_true_iff in Hco as [Hco H3]. apply andb_true_iff in Hco as [H1 H2].
  destruct (Z.pos N0 / p) as [|k|k] eqn:E; try discriminate. cbn [Z.to_pos Z.to_N] in *.
  apply (poly_no_fixed w f m L Hf Hm Hw K k i); auto; [unfold word; lia|]. apply Z.eqb_eq; exact H4.
Qed.

Lemma xorshift64_period : forall x, word 64 x -> x <> 0 ->
  N.iter 18446744073709551615 xorshift64 x = x /\
  forall n, (0 < n < 18446744073709551615)%N -> N.iter n xorshift64 x <> x.
Proof.
  apply (period_gen xorshift64 64 m64 18446744073709551615 invs64).
  - apply xorshift64_linear.
  - apply xorshift64_word.
  - lia.
  - split; [unfold word, m64; lia|reflexivity].
  - apply m64_kills.
  - apply primes64.
  - reflexivity.
  - apply order64.
  - apply invs64_ok.
Qed.
Lemma xorshift32_period : forall x, word 32 x -> x <> 0 ->
  N.iter 4294967295 xorshift32 x = x /\
  forall n, (0 < n < 4294967295)%N -> N.iter n xorshift32 x <> x.
Proof.
  apply (period_gen xorshift32 32 m32 4294967295 invs32).
  - apply xorshift32_linear.
  - apply xorshift32_word.
  - lia.
  - split; [unfold word, m32; lia|reflexivity].
  - apply m32_kills.
  - apply primes32.
  - reflexivity.
  - apply order32.
  - apply invs32_ok.
Qed.
