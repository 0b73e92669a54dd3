(** Linear maps over GF(2) on w-bit words as lists of columns, used to compute
    orders of xorshift steps.  Proof machinery only (no model of /repo). *)
From Coq Require Import Znumtheory.
From Verif Require Import WordsLemmas.
Open Scope Z_scope.

(** Image of [x] under the matrix with columns [m] (column i = image of bit i). *)
Fixpoint mapply (m : list Z) (x : Z) : Z :=
  match m with
  | [] => 0
  | c :: m' => Z.lxor (if Z.odd x then c else 0) (mapply m' (Z.div2 x))
  end.
Definition basis (w : nat) : list Z := map (fun i => 2 ^ Z.of_nat i) (seq 0 w).
Definition linear (f : Z -> Z) : Prop := forall x y, f (Z.lxor x y) = Z.lxor (f x) (f y).

Lemma lxor4 a b c d : Z.lxor (Z.lxor a b) (Z.lxor c d) = Z.lxor (Z.lxor a c) (Z.lxor b d).
Proof. rewrite !Z.lxor_assoc. f_equal. rewrite <- !Z.lxor_assoc. f_equal. apply Z.lxor_comm. Qed.

Lemma div2_lxor x y : Z.div2 (Z.lxor x y) = Z.lxor (Z.div2 x) (Z.div2 y).
Proof. rewrite !Z.div2_spec. apply Z.shiftr_lxor. Qed.
Lemma odd_lxor x y : Z.odd (Z.lxor x y) = xorb (Z.odd x) (Z.odd y).
Proof. rewrite <- !Z.bit0_odd. apply Z.lxor_spec. Qed.

Lemma mapply_linear m : linear (mapply m).
Proof.
  induction m as [|c m IH]; intros x y; [reflexivity|]. cbn [mapply].
  rewrite odd_lxor, div2_lxor, IH.
  destruct (Z.odd x), (Z.odd y); cbn [xorb]; rewrite lxor4; f_equal;
    rewrite ?Z.lxor_nilpotent, ?Z.lxor_0_r, ?Z.lxor_0_l; reflexivity.
Qed.

Lemma linear_0 f : linear f -> f 0 = 0.
Proof. intros L. pose proof (L 0 0) as H. rewrite Z.lxor_0_r in H. rewrite Z.lxor_nilpotent in H. exact H. Qed.

Lemma linear_comp f g : linear f -> linear g -> linear (fun x => f (g x)).
Proof. intros F G x y. rewrite G, F. reflexivity. Qed.

(** Decomposition of a word into bits. *)
Lemma mapply_map_basis f (L : linear f) : forall w k x, word (Z.of_nat w) x ->
  mapply (map (fun i => f (2 ^ Z.of_nat i)) (seq k w)) x = f (x * 2 ^ Z.of_nat k).
Proof.
  induction w as [|w IH]; intros k x Hx.
  - assert (x = 0) as -> by (unfold word in Hx; cbn in Hx; lia). cbn. symmetry; apply linear_0; auto.
  - cbn [seq map mapply]. rewrite IH.
    2:{ unfold word in *. rewrite Nat2Z.inj_succ, Z.pow_succ_r in Hx by lia. rewrite Z.div2_div.
        split; [apply Z.div_pos; lia|]. apply Z.div_lt_upper_bound; lia. }
    assert (E : (if Z.odd x then f (2 ^ Z.of_nat k) else 0) = f (Z.b2z (Z.odd x) * 2 ^ Z.of_nat k)).
    { destruct (Z.odd x); cbn [Z.b2z]; [rewrite Z.mul_1_l; auto|]. rewrite Z.mul_0_l. symmetry. apply linear_0; auto. }
    rewrite E, <- L. f_equal.
    rewrite Nat2Z.inj_succ. rewrite Z.pow_succ_r by lia.
    replace (Z.div2 x * (2 * 2 ^ Z.of_nat k)) with (2 * Z.div2 x * 2 ^ Z.of_nat k) by lia.
    rewrite <- !Z.shiftl_mul_pow2 by lia. rewrite <- Z.shiftl_lxor. f_equal.
    apply Z.bits_inj'. intros i Hi. rewrite Z.lxor_spec.
    destruct (Z.eq_dec i 0) as [->|Hn].
    + rewrite Z.testbit_even_0, xorb_false_r, !Z.bit0_odd. destruct (Z.odd x); reflexivity.
    + assert (Hi' : i = Z.succ (Z.pred i)) by lia. rewrite Hi'. rewrite Z.testbit_even_succ by lia.
      assert (E2 : Z.testbit (Z.b2z (Z.odd x)) (Z.succ (Z.pred i)) = false).
      { destruct (Z.odd x); cbn [Z.b2z]; [|apply Z.bits_0]. rewrite <- Hi'.
        replace 1 with (2 ^ 0) by reflexivity. rewrite Z.pow2_bits_false; auto. }
      rewrite E2. rewrite xorb_false_l. rewrite Z.div2_spec, Z.shiftr_spec by lia. f_equal; lia.
Qed.

Lemma mapply_of f (L : linear f) w x : word (Z.of_nat w) x ->
  mapply (map f (basis w)) x = f x.
Proof.
  intros Hx. unfold basis. rewrite map_map. rewrite (mapply_map_basis f L w 0 x Hx).
  rewrite Z.mul_1_r. reflexivity.
Qed.

Lemma linear_id : linear (fun x => x).
Proof. intros x y; reflexivity. Qed.

Lemma mapply_id w x : word (Z.of_nat w) x -> mapply (basis w) x = x.
Proof. intros H. rewrite <- (mapply_of (fun x => x) linear_id w x H) at 2. rewrite map_id. reflexivity. Qed.

(** ** Orders *)
Lemma iter_fix_mul {A} (f : A -> A) x n : N.iter n f x = x -> forall k, N.iter (k * n) f x = x.
Proof.
  intros H k. induction k as [|k IH] using N.peano_ind; [reflexivity|].
  rewrite N.mul_succ_l, N.add_comm, N.iter_add, IH. exact H.
Qed.

Lemma iter_fix_gcd {A} (f : A -> A) x n m : (0 < n)%N ->
  N.iter n f x = x -> N.iter m f x = x -> N.iter (N.gcd n m) f x = x.
Proof.
  intros Hn En Em. destruct (N.gcd_bezout_pos n m Hn) as (a & b & E).
  assert (H1 := iter_fix_mul f x n En a). rewrite E, N.iter_add in H1.
  rewrite (iter_fix_mul f x m Em b) in H1. exact H1.
Qed.

Lemma prime_from_trial p k : 1 < p -> p < k * k -> 0 <= k ->
  (forall d, 1 < d < k -> ~ (d | p)) -> prime p.
Proof.
  intros Hp Hk Hk0 H. apply prime_alt. split; [lia|]. intros n Hn [q Hq].
  destruct (Z_lt_le_dec n k) as [H1|H1].
  - apply (H n); [lia|]. exists q; auto.
  - apply (H q); [|exists n; lia]. split; nia.
Qed.

Fixpoint trial (fuel : nat) (d p : Z) : bool :=
  match fuel with O => true | S f => negb (p mod d =? 0) && trial f (d + 1) p end.
Lemma trial_ok fuel : forall d p, 0 < d -> trial fuel d p = true ->
  forall e, d <= e < d + Z.of_nat fuel -> ~ (e | p).
Proof.
  induction fuel as [|f IH]; intros d p Hd H e He Hdiv; [lia|].
  cbn [trial] in H. apply andb_true_iff in H as [H1 H2].
  destruct (Z.eq_dec e d) as [->|Hn].
  - apply negb_true_iff, Z.eqb_neq in H1. apply H1. apply Z.mod_divide; [lia|auto].
  - apply (IH (d + 1) p) with (e := e); auto; lia.
Qed.
Lemma prime_by_trial p (fuel : nat) : 1 < p -> p < (2 + Z.of_nat fuel) * (2 + Z.of_nat fuel) ->
  trial fuel 2 p = true -> prime p.
Proof.
  intros H1 H2 H3. apply (prime_from_trial p (2 + Z.of_nat fuel)); auto; [lia|].
  intros d Hd. apply (trial_ok fuel 2 p); auto; lia.
Qed.

Lemma prime_div_list (ps : list Z) p : Forall prime ps -> prime p ->
  (p | fold_right Z.mul 1 ps) -> In p ps.
Proof.
  intros Hps Hp. induction ps as [|q ps IH]; cbn [fold_right]; intros Hd.
  - exfalso. apply Z.divide_1_r_nonneg in Hd; [|destruct Hp; lia]. destruct Hp; lia.
  - inversion Hps; subst. destruct (prime_mult p Hp _ _ Hd) as [H|H].
    + left. symmetry. apply prime_div_prime; auto.
    + right. auto.
Qed.

Lemma prime_divisor_exists n : 1 < n -> exists p, prime p /\ (p | n).
Proof.
  intros Hn. assert (H0 : 0 <= n) by lia. revert n H0 Hn.
  apply (Zlt_0_ind (fun n => 1 < n -> exists p, prime p /\ (p | n))). intros n IH _ Hn.
  destruct (prime_dec n) as [H|H]; [exists n; split; auto; apply Z.divide_refl|].
  destruct (not_prime_divide n Hn H) as (d & Hd & Hdv).
  destruct (IH d ltac:(lia) ltac:(lia)) as (p & Hp & Hpd). exists p; split; auto.
  eapply Z.divide_trans; eauto.
Qed.

(** If N = product of primes ps kills x but no N/p does, x has period exactly N. *)
Lemma exact_period {A} (f : A -> A) x (ps : list Z) (N0 : N) :
  Forall prime ps -> Z.of_N N0 = fold_right Z.mul 1 ps ->
  N.iter N0 f x = x ->
  (forall p, In p ps -> N.iter (Z.to_N (Z.of_N N0 / p)) f x <> x) ->
  forall n, (0 < n < N0)%N -> N.iter n f x <> x.
Proof.
  intros Hps HN HNx Hp n Hn Hnx.
  pose proof (iter_fix_gcd f x n N0 ltac:(lia) Hnx HNx) as Hg.
  set (g := N.gcd n N0) in *.
  assert (Hg1 : N.divide g n) by apply N.gcd_divide_l.
  assert (Hg2 : N.divide g N0) by apply N.gcd_divide_r.
  destruct Hg1 as [a Ha], Hg2 as [q Hq]. clearbody g.
  assert (Hgpos : (0 < g)%N) by (destruct (N.eq_dec g 0) as [->|]; lia).
  assert (Hgn : (g <= n)%N) by (destruct a; nia).
  assert (Hq1 : (1 < q)%N) by nia.
  destruct (prime_divisor_exists (Z.of_N q) ltac:(lia)) as (p & Pp & Pd).
  assert (Hin : In p ps).
  { apply prime_div_list; auto. rewrite <- HN, Hq, N2Z.inj_mul. apply Z.divide_mul_l. auto. }
  apply (Hp p Hin). destruct Pd as [c Hc].
  assert (Ppos : 1 < p) by (destruct Pp; auto).
  assert (Hcpos : 0 < c) by nia.
  assert (HE : Z.of_N N0 / p = c * Z.of_N g).
  { rewrite Hq, N2Z.inj_mul, Hc. replace (c * p * Z.of_N g) with (c * Z.of_N g * p) by lia. apply Z.div_mul; lia. }
  rewrite HE. rewrite Z2N.inj_mul by lia. rewrite N2Z.id. apply iter_fix_mul. auto.
Qed.

(** ** Polynomials in a linear step [A], reduced modulo a polynomial [m] of
    degree [w] that annihilates [A].  A polynomial is the word of its
    coefficients. *)
Section Poly.
Context (w : nat) (A : Z -> Z) (m : Z).
Context (A_lin : linear A).
Context (A_word : forall x, word (Z.of_nat w) x -> word (Z.of_nat w) (A x)).
Let W := Z.of_nat w.

Fixpoint krylov (n : nat) (x : Z) : list Z :=
  match n with O => [] | S n => x :: krylov n (A x) end.
Definition ev (p x : Z) : Z := mapply (krylov (S w) x) p.

Definition xtime (a : Z) : Z := let b := 2 * a in if Z.testbit b W then Z.lxor b m else b.
Fixpoint pmm (p : positive) (q : Z) : Z :=
  match p with
  | xH => q
  | xO p => xtime (pmm p q)
  | xI p => Z.lxor q (xtime (pmm p q))
  end.
Definition pmul (p q : Z) : Z := match p with Z.pos p => pmm p q | _ => 0 end.
Fixpoint tpow (k : positive) : Z :=
  match k with
  | xH => 2
  | xO k => let h := tpow k in pmul h h
  | xI k => let h := tpow k in xtime (pmul h h)
  end.

Context (m_deg : word (W + 1) m /\ Z.testbit m W = true).
Context (w_pos : (2 <= w)%nat).
Context (m_kills : forall x, word W x -> ev m x = 0).

Lemma krylov_snoc n x : krylov (S n) x = krylov n x ++ [Nat.iter n A x].
Proof.
  revert x; induction n as [|n IH]; intros x; [reflexivity|].
  cbn [krylov app]. f_equal. change (A x :: krylov n (A (A x))) with (krylov (S n) (A x)). rewrite IH.
  f_equal. f_equal. clear. induction n as [|n IH]; [reflexivity|]. cbn. f_equal. exact IH.
Qed.

Lemma mapply_app a b x : mapply (a ++ b) x = Z.lxor (mapply a x) (mapply b (Z.shiftr x (Z.of_nat (length a)))).
Proof.
  revert x; induction a as [|c a IH]; intros x.
  - cbn [app mapply length]. rewrite Z.shiftr_0_r, Z.lxor_0_l. reflexivity.
  - cbn [app mapply length]. rewrite IH, Z.lxor_assoc. f_equal. f_equal. f_equal.
    rewrite Z.div2_spec, Z.shiftr_shiftr by lia. f_equal. lia.
Qed.

Lemma krylov_length n x : length (krylov n x) = n.
Proof. revert x; induction n as [|n IH]; intros x; cbn; auto. Qed.

Lemma ev_short p x : word W p -> ev p x = mapply (krylov w x) p.
Proof.
  intros Hp. unfold ev. rewrite krylov_snoc, mapply_app, krylov_length.
  assert (E : Z.shiftr p (Z.of_nat w) = 0).
  { destruct Hp as [H0 H1]. fold W. rewrite Z.shiftr_div_pow2 by lia. apply Z.div_small. lia. }
  rewrite E. cbn. apply Z.lxor_0_r.
Qed.

Lemma A_mapply n x p : A (mapply (krylov n x) p) = mapply (krylov n (A x)) p.
Proof.
  revert x p; induction n as [|n IH]; intros x p; cbn [krylov mapply]; [apply linear_0; auto|].
  rewrite A_lin, IH. f_equal. destruct (Z.odd p); [reflexivity|]. apply linear_0; auto.
Qed.

Lemma ev_double a x : word W a -> ev (2 * a) x = A (ev a x).
Proof.
  intros Ha. rewrite (ev_short a x Ha), A_mapply. unfold ev. cbn [krylov mapply].
  rewrite Z.odd_mul. cbn [Z.odd andb]. rewrite Z.lxor_0_l. f_equal.
  rewrite Z.div2_div, Z.mul_comm, Z.div_mul by lia. reflexivity.
Qed.

Lemma xtime_ok a x : word W a -> word W x -> word W (xtime a) /\ ev (xtime a) x = A (ev a x).
Proof.
  intros Ha Hx. unfold xtime. cbv zeta.
  assert (Hb : word (W + 1) (2 * a)) by (unfold word in *; rewrite Z.pow_add_r by lia; lia).
  destruct m_deg as [D1 D2].
  destruct (Z.testbit (2 * a) W) eqn:E.
  - split.
    + apply word_of_bits; [lia| |].
      * apply Z.lxor_nonneg. unfold word in *; lia.
      * intros i Hi. rewrite Z.lxor_spec. destruct (Z.eq_dec i W) as [->|]; [rewrite E, D2; reflexivity|].
        rewrite (word_testbit_high (W + 1) (2 * a)), (word_testbit_high (W + 1) m) by (auto; lia). reflexivity.
    + unfold ev at 1. rewrite (mapply_linear _ (2 * a) m). fold (ev (2 * a) x). fold (ev m x).
      rewrite m_kills, Z.lxor_0_r by auto. apply ev_double; auto.
  - split; [|apply ev_double; auto]. apply word_of_bits; [lia|unfold word in Hb; lia|].
    intros i Hi. destruct (Z.eq_dec i W) as [->|]; [exact E|]. apply (word_testbit_high (W + 1)); auto; lia.
Qed.

Lemma ev_lxor p q x : ev (Z.lxor p q) x = Z.lxor (ev p x) (ev q x).
Proof. apply mapply_linear. Qed.
Lemma ev_1 x : ev 1 x = x.
Proof.
  unfold ev. cbn [krylov mapply]. cbn [Z.odd]. change (Z.div2 1) with 0.
  rewrite (linear_0 _ (mapply_linear _)), Z.lxor_0_r. reflexivity.
Qed.
Lemma ev_0 x : ev 0 x = 0.
Proof. apply linear_0, mapply_linear. Qed.
Lemma mapply_word c p : Forall (word W) c -> word W (mapply c p).
Proof.
  intros H. revert p. induction H as [|y l Hy H IH]; intros p; cbn [mapply].
  - unfold word. split; [lia|]. apply Z.pow_pos_nonneg; lia.
  - apply lxor_word; [lia| |apply IH]. destruct (Z.odd p); [exact Hy|]. unfold word. split; [lia|]. apply Z.pow_pos_nonneg; lia.
Qed.
Lemma ev_word p x : word W x -> word W (ev p x).
Proof.
  intros Hx. apply mapply_word. generalize (S w). intros n. revert x Hx.
  induction n as [|n IH]; intros x Hx; cbn; constructor; auto.
Qed.

Lemma pos_half_word p b : word W (Z.pos (b p)) -> (b = xO \/ b = xI) -> word W (Z.pos p).
Proof. unfold word. intros H [-> | ->]; lia. Qed.

Lemma pmm_ok p q x : word W (Z.pos p) -> word W q -> word W x ->
  word W (pmm p q) /\ ev (pmm p q) x = ev (Z.pos p) (ev q x).
Proof.
  intros Hp Hq Hx. induction p as [p IH|p IH|].
  - assert (Hp' := pos_half_word p xI Hp (or_intror eq_refl)). destruct (IH Hp') as [I1 I2].
    destruct (xtime_ok _ x I1 Hx) as [X1 X2]. cbn [pmm]. split; [apply lxor_word; auto; lia|].
    rewrite ev_lxor, X2, I2.
    replace (Z.pos p~1) with (Z.lxor 1 (2 * Z.pos p)) by reflexivity.
    rewrite ev_lxor, ev_1, ev_double by auto. reflexivity.
  - assert (Hp' := pos_half_word p xO Hp (or_introl eq_refl)). destruct (IH Hp') as [I1 I2].
    destruct (xtime_ok _ x I1 Hx) as [X1 X2]. cbn [pmm]. split; [auto|].
    rewrite X2, I2. change (Z.pos p~0) with (2 * Z.pos p). rewrite ev_double by auto. reflexivity.
  - cbn [pmm]. split; auto. rewrite ev_1. reflexivity.
Qed.

Lemma pmul_ok p q x : word W p -> word W q -> word W x ->
  word W (pmul p q) /\ ev (pmul p q) x = ev p (ev q x).
Proof.
  intros Hp Hq Hx. destruct p as [|p|p]; [|apply pmm_ok; auto|unfold word in Hp; lia].
  cbn [pmul]. split; [exact Hp|]. rewrite !ev_0. reflexivity.
Qed.

Lemma tpow_ok k : word W (tpow k) /\ forall x, word W x -> ev (tpow k) x = Pos.iter A x k.
Proof.
  assert (Z0 : word W 0) by (unfold word; split; [lia|apply Z.pow_pos_nonneg; lia]).
  assert (W1 : word W 1) by (unfold word; split; [lia|apply Z.pow_gt_1; lia]).
  induction k as [k [I1 I2]|k [I1 I2]|].
  - cbn [tpow Pos.iter]. cbv zeta.
    destruct (pmul_ok _ _ 0 I1 I1 Z0) as [P1 _]. destruct (xtime_ok _ 0 P1 Z0) as [X1 _].
    split; [exact X1|]. intros x Hx. destruct (xtime_ok _ x P1 Hx) as [_ X2]. rewrite X2.
    destruct (pmul_ok _ _ x I1 I1 Hx) as [_ P2]. rewrite P2.
    rewrite (I2 x Hx). rewrite I2; [reflexivity|]. rewrite <- (I2 x Hx). apply ev_word; auto.
  - cbn [tpow Pos.iter]. cbv zeta.
    destruct (pmul_ok _ _ 0 I1 I1 Z0) as [P1 _]. split; [exact P1|]. intros x Hx.
    destruct (pmul_ok _ _ x I1 I1 Hx) as [_ P2]. rewrite P2.
    rewrite (I2 x Hx). rewrite I2; [reflexivity|]. rewrite <- (I2 x Hx). apply ev_word; auto.
  - cbn [tpow Pos.iter]. split.
    + unfold word. split; [lia|]. change 2 with (2 ^ 1) at 1. apply Z.pow_lt_mono_r; lia.
    + intros x Hx. change 2 with (2 * 1). rewrite ev_double, ev_1; auto.
Qed.

Lemma poly_order k : tpow k = 1 -> forall x, word W x -> Pos.iter A x k = x.
Proof. intros H x Hx. destruct (tpow_ok k) as [_ E]. rewrite <- E, H by auto. apply ev_1. Qed.

Lemma poly_no_fixed k inv : word W inv -> pmul inv (Z.lxor (tpow k) 1) = 1 ->
  forall x, word W x -> x <> 0 -> Pos.iter A x k <> x.
Proof.
  intros Hi H x Hx Hn E. destruct (tpow_ok k) as [T1 T2].
  assert (W1 : word W 1) by (unfold word; split; [lia|apply Z.pow_gt_1; lia]).
  destruct (pmul_ok inv (Z.lxor (tpow k) 1) x) as [_ P]; auto; [apply lxor_word; auto; lia|].
  rewrite H, ev_1, ev_lxor, ev_1, (T2 x Hx), E, Z.lxor_nilpotent in P. apply Hn. rewrite P.
  clear - A_lin. unfold ev. generalize (S w). intros n. revert inv. induction n as [|n IH]; intros inv; cbn [krylov mapply]; [reflexivity|].
  rewrite (linear_0 A A_lin), IH. destruct (Z.odd inv); reflexivity.
Qed.
End Poly.

(** [ev m] is linear in the argument, so checking it on the basis is enough. *)
Lemma ev_linear w A p : linear A -> linear (ev w A p).
Proof.
  intros L. unfold ev. generalize (S w). intros n. revert p. induction n as [|n IH]; intros p x y; [reflexivity|].
  cbn [krylov mapply]. rewrite L, IH, lxor4. f_equal. destruct (Z.odd p); reflexivity.
Qed.
Lemma kills_by_basis w A m : linear A ->
  forallb (fun b => ev w A m b =? 0) (basis w) = true ->
  forall x, word (Z.of_nat w) x -> ev w A m x = 0.
Proof.
  intros L H x Hx. rewrite <- (mapply_of (ev w A m) (ev_linear w A m L) w x Hx).
  assert (E : map (ev w A m) (basis w) = map (fun _ => 0) (basis w)).
  { apply map_ext_in. intros b Hb. rewrite forallb_forall in H. apply Z.eqb_eq, H, Hb. }
  rewrite E. clear. revert x. induction (basis w) as [|b l IH]; intros x; cbn [map mapply]; [reflexivity|].
  rewrite IH. destruct (Z.odd x); reflexivity.
Qed.
