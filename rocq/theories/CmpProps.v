(** C27: the generic comparison [<>] is a total order consistent with equality, at every
    type built from primitives, arrays and structs, with or without aliasing. *)
From Verif Require Import CmpSpec CmpProofs CommonLemmas.
Open Scope Z_scope.

(** [<>] always terminates in bounds with -1, 0 or 1; it is 0 exactly when the contents are
    equal; swapping the operands negates it; and it is transitive. *)
Theorem cmp_is_a_total_order :
  forall t a b c, has_ty t a -> has_ty t b -> has_ty t c ->
    one_memory a b -> one_memory b a -> one_memory b c -> one_memory a c ->
    exists x y z, cmp t a b = Some x /\ cmp t b c = Some y /\ cmp t a c = Some z /\
      (x = -1 \/ x = 0 \/ x = 1) /\
      (x = 0 <-> erase a = erase b) /\
      cmp t b a = Some (- x) /\
      (x <= 0 -> y <= 0 -> z <= 0) /\ (x < 0 -> y <= 0 -> z < 0) /\ (x <= 0 -> y < 0 -> z < 0).
Proof.
  intros t a b c Ha Hb Hc M1 M2 M3 M4. destruct (cmp_ok t) as [T Z A R].
  destruct (T a b) as (x & X & CX); auto. destruct (T b c) as (y & Y & CY); auto. destruct (T a c) as (z & W & CZ); auto.
  exists x, y, z. split; [exact X|]. split; [exact Y|]. split; [exact W|]. split; [exact CX|].
  split; [apply (Z a b x); auto|]. split; [apply A; auto|].
  pose proof (fun p q => R a b c x y z Ha Hb Hc M1 M3 M4 X Y W p q) as H.
  repeat split; intros P Q; destruct (H ltac:(lia) ltac:(lia)) as (H1 & H2); auto; apply H2; auto.
Qed.
Print Assumptions cmp_is_a_total_order.

(** [==] and [!=] on arrays and structs decide equality of contents. *)
Theorem eq_decides_equal_contents :
  forall t a b, has_ty t a -> has_ty t b -> one_memory a b ->
    exists e, eq_ t a b = Some e /\ ne_ t a b = Some (negb e) /\ (e = true <-> erase a = erase b).
Proof.
  intros t a b Ha Hb M. destruct (cmp_ok t) as [T Z A R]. destruct (T a b) as (x & X & _); auto.
  exists (x =? 0). unfold eq_, ne_. rewrite X. cbn. split; [reflexivity|]. split; [reflexivity|].
  rewrite Z.eqb_eq. apply (Z a b x); auto.
Qed.
Print Assumptions eq_decides_equal_contents.

Local Lemma loop_bytes l k c : length l = length k -> Forall (has_ty TPrim) l -> Forall (has_ty TPrim) k ->
  arr_loop (cmp TPrim) l k 0 = Some c -> c < 0 ->
  exists p x y a b, bytes_of (VArr 0 l) = p ++ x :: a /\ bytes_of (VArr 0 k) = p ++ y :: b /\ x < y.
Proof.
  revert k; induction l as [|x l IH]; intros [|y k] L HL HK E C; try discriminate; cbn in E; [injection E as <-; lia|].
  inversion HL as [|? ? Hx HL']; inversion HK as [|? ? Hy HK']; subst. inversion Hx as [z| |]; inversion Hy as [z0| |]; subst.
  cbn in E. destruct (prim_cmp_cases z z0) as [[R H]|[[R H]|[R H]]]; rewrite R in E.
  - exists [], z, z0. cbn. eauto.
  - destruct (IH k) as (p & a & b & s & t & E1 & E2 & E3); auto. cbn in *. exists (z :: p), a, b, s, t. rewrite E1, E2. subst. auto.
  - rewrite arr_loop_stop in E by lia. injection E as <-. lia.
Qed.
Local Lemma one_memory_refl v : one_memory v v.
Proof.
  revert v. fix IH 1. intros [z|p l|l].
  - constructor.
  - constructor; [intros _ i x y X Y; congruence|]. revert l. fix GO 1. intros [|v l] [|i] x y X Y; cbn in *; try discriminate.
    + injection X as <-. injection Y as <-. apply IH.
    + eapply GO; eauto.
  - constructor. revert l. fix GO 1. intros [|v l] [|i] x y X Y; cbn in *; try discriminate.
    + injection X as <-. injection Y as <-. apply IH.
    + eapply GO; eauto.
Qed.

(** On byte strings the ordering operators are shortlex: shorter first, then by the first
    difference.  (Not the dictionary order: "b" < "aa".) *)
Theorem string_order_is_shortlex :
  forall a b, has_ty (TArr TPrim) a -> has_ty (TArr TPrim) b -> one_memory a b ->
    exists lt gt le ge, str_lt a b = Some lt /\ str_gt a b = Some gt /\ str_le a b = Some le /\ str_ge a b = Some ge /\
      (lt = true <-> shortlex_lt (bytes_of a) (bytes_of b)) /\
      (le = true <-> shortlex_lt (bytes_of a) (bytes_of b) \/ bytes_of a = bytes_of b) /\
      gt = negb le /\ ge = negb lt.
Proof.
  intros a b Ha Hb M. destruct (cmp_ok (TArr TPrim)) as [T Z A R]. destruct (T a b) as (x & X & CX); auto.
  unfold str_lt, str_gt, str_le, str_ge. rewrite X. cbn [obind].
  exists (x <? 0), (0 <? x), (x <=? 0), (0 <=? x). do 4 (split; [reflexivity|]).
  assert (LT : x < 0 <-> shortlex_lt (bytes_of a) (bytes_of b)).
  { pose proof Ha as Ha'. pose proof Hb as Hb'. inversion Ha as [|? p l HL|]; inversion Hb as [|? q k HK|]; subst.
    rewrite (arr_value TPrim) in X by (auto; apply cmp_ok). unfold shortlex_lt. cbn [bytes_of]. rewrite !map_length.
    pose proof (prim_cmp_cases (Z.of_nat (length l)) (Z.of_nat (length k))) as PC.
    destruct (Nat.eqb_spec (length l) (length k)) as [L|L].
    - split.
      + intros C. right. split; [exact L|]. exact (loop_bytes l k x L HL HK X C).
      + intros [C|(_ & pre & u & v & a' & b' & E1 & E2 & E3)]; [lia|].
        clear - L HL HK E1 E2 E3 X. revert l k L HL HK E1 E2 X. induction pre as [|w pre IH]; intros [|s l] [|t k] L HL HK E1 E2 X; try discriminate.
        * inversion HL as [|? ? Hx HL']; inversion HK as [|? ? Hy HK']; subst. inversion Hx as [z| |]; inversion Hy as [z0| |]; subst.
          cbn in *. injection E1 as -> _. injection E2 as -> _.
          destruct (prim_cmp_cases u v) as [[R H]|[[R H]|[R H]]]; rewrite R in X; try lia. rewrite arr_loop_stop in X by lia. injection X as <-. lia.
        * inversion HL as [|? ? Hx HL']; inversion HK as [|? ? Hy HK']; subst. inversion Hx as [z| |]; inversion Hy as [z0| |]; subst.
          cbn in *. injection E1 as -> E1. injection E2 as -> E2.
          destruct (prim_cmp_cases w w) as [[R H]|[[R H]|[R H]]]; rewrite R in X; try lia. eapply (IH l k); eauto.
    - injection X as <-. split; [intros C; left; lia|]. intros [C|(C & _)]; lia. }
  assert (EQ : x = 0 <-> bytes_of a = bytes_of b).
  { rewrite (Z a b x) by auto. inversion Ha as [|? p l HL|]; inversion Hb as [|? q k HK|]; subst. unfold eqc. cbn.
    clear - HL HK. revert k HK. induction HL as [|s l Hs HL IH]; intros k HK; inversion HK as [|t ? Ht Hk]; subst; cbn; try (split; congruence).
    inversion Hs; inversion Ht; subst. cbn. specialize (IH _ Hk). split; intros J.
    - injection J as -> J. f_equal. apply IH. congruence.
    - injection J as -> J. apply IH in J. injection J as J. congruence. }
  rewrite Z.ltb_lt, Z.leb_le. split; [exact LT|]. split; [rewrite <- LT, <- EQ; lia|].
  split; [destruct (Z.leb_spec x 0); destruct (Z.ltb_spec 0 x); auto; lia|destruct (Z.leb_spec 0 x); destruct (Z.ltb_spec x 0); auto; lia].
Qed.
Print Assumptions string_order_is_shortlex.

(** Floats: [<>] compares bit patterns, the primitive [==] is IEEE.  They agree except on
    exactly the signed zeros and the NaNs. *)
Theorem float_eq_disagrees_only_on_zeros_and_nans :
  forall x y, 0 <= x < 2 ^ 32 -> 0 <= y < 2 ^ 32 ->
    (f32_eq x y = true <-> prim_cmp x y = 0) <->
    ~ ((x = y /\ f32_nan x = true) \/ (x <> y /\ f32_zero x = true /\ f32_zero y = true)).
Proof.
  intros x y Hx Hy.
  assert (P : prim_cmp x y = 0 <-> x = y) by (destruct (prim_cmp_cases x y) as [[-> ?]|[[-> ?]|[-> ?]]]; split; lia).
  rewrite P. unfold f32_eq.
  assert (NZ : forall q, f32_zero q = true -> f32_nan q = false)
    by (intros q Q; unfold f32_zero, f32_nan in *; apply Z.eqb_eq in Q; rewrite Q; reflexivity).
  destruct (Z.eqb_spec x y) as [->|N]; cbn.
  - destruct (f32_nan y) eqn:E; cbn.
    + split; intros H; [exfalso; assert (false = true) by (apply H; reflexivity); discriminate|exfalso; apply H; auto].
    + split; intros H; [|tauto]. intros [[? ?]|[? ?]]; congruence.
  - destruct (f32_zero x) eqn:Zx, (f32_zero y) eqn:Zy; cbn.
    + rewrite (NZ x Zx), (NZ y Zy). cbn. split; intros H; [exfalso; apply N, H; reflexivity|exfalso; apply H; auto].
    + rewrite !Bool.andb_false_r. split; [intros _ [[? ?]|(? & ? & ?)]; congruence|intros _; split; congruence].
    + rewrite !Bool.andb_false_r. split; [intros _ [[? ?]|(? & ? & ?)]; congruence|intros _; split; congruence].
    + rewrite !Bool.andb_false_r. split; [intros _ [[? ?]|(? & ? & ?)]; congruence|intros _; split; congruence].
Qed.
Print Assumptions float_eq_disagrees_only_on_zeros_and_nans.

(** Non-vacuity: structs with arrays, an aliased prefix. *)
Definition S1 := TStruct [(false, TArr TPrim); (true, TPrim)].
Definition mk p l z := VStruct [VArr p (map VPrim l); VPrim z].
Example cmp_case :
  has_ty (TArr S1) (VArr 10 [mk 100 [1; 2] 7; mk 200 [3] 1]) /\
  cmp S1 (mk 100 [9; 9] 1) (mk 200 [1] 2) = Some (-1) /\
  cmp S1 (mk 100 [9; 9] 1) (mk 200 [1] 1) = Some 1 /\
  cmp S1 (mk 100 [9; 9] 1) (mk 300 [9; 9] 1) = Some 0 /\
  cmp (TArr TPrim) (VArr 5 [VPrim 1]) (VArr 5 [VPrim 1; VPrim 2]) = Some (-1) /\
  one_memory (VArr 5 [VPrim 1]) (VArr 5 [VPrim 1; VPrim 2]) /\
  one_memory (mk 100 [9; 9] 1) (mk 100 [9; 9] 1) /\
  f32_eq 0 0x80000000 = true /\ prim_cmp 0 0x80000000 = -1.
Proof.
  split; [repeat constructor|]. do 4 (split; [reflexivity|]).
  split.
  { constructor.
    - intros _ [|[|i]] x y X Y; cbn in *; congruence.
    - intros [|[|i]] x y X Y; cbn in *; try congruence. injection X as <-. injection Y as <-. constructor. }
  split; [apply one_memory_refl|]. split; reflexivity.
Qed.
