From Verif Require Import CmpSpec CommonLemmas.
Open Scope Z_scope.

Section TyInd.
Variable P : ty -> Prop.
Hypothesis HP : P TPrim.
Hypothesis HA : forall u, P u -> P (TArr u).
Hypothesis HS : forall fs, Forall (fun f => P (snd f)) fs -> P (TStruct fs).
Fixpoint ty_ind' (t : ty) : P t :=
  match t with
  | TPrim => HP
  | TArr u => HA u (ty_ind' u)
  | TStruct fs => HS fs ((fix go fs : Forall (fun f => P (snd f)) fs :=
      match fs with [] => Forall_nil _ | f :: fs' => Forall_cons f (ty_ind' (snd f)) (go fs') end) fs)
  end.
End TyInd.

(** A comparison defined on all of [D], valued in -1, 0, 1, antisymmetric, transitive,
    zero exactly on [E]-related values. *)
Record good {A} (D : A -> Prop) (M : A -> A -> Prop) (E : A -> A -> Prop) (f : A -> A -> option Z) : Prop := {
  g_tot : forall a b, D a -> D b -> M a b -> exists c, f a b = Some c /\ (c = -1 \/ c = 0 \/ c = 1);
  g_zero : forall a b c, D a -> D b -> M a b -> f a b = Some c -> (c = 0 <-> E a b);
  g_anti : forall a b c, D a -> D b -> M a b -> M b a -> f a b = Some c -> f b a = Some (- c);
  g_trans : forall a b c x y z, D a -> D b -> D c -> M a b -> M b c -> M a c ->
     f a b = Some x -> f b c = Some y -> f a c = Some z -> x <= 0 -> y <= 0 -> z <= 0 /\ (x < 0 \/ y < 0 -> z < 0) }.

Definition eqc (a b : val) := erase a = erase b.
Definition ok (t : ty) := good (has_ty t) one_memory eqc (cmp t).

Lemma prim_cmp_cases a b : (prim_cmp a b = -1 /\ a < b) \/ (prim_cmp a b = 0 /\ a = b) \/ (prim_cmp a b = 1 /\ b < a).
Proof. unfold prim_cmp. destruct (Z.ltb_spec a b); [auto|]. destruct (Z.ltb_spec b a); [auto|]. right; left. split; lia. Qed.

Lemma ok_prim : ok TPrim.
Proof.
  constructor.
  - intros a b Ha Hb _. inversion Ha; inversion Hb; subst. cbn. eexists. split; [reflexivity|].
    destruct (prim_cmp_cases z z0) as [[-> _]|[[-> _]|[-> _]]]; auto.
  - intros a b c Ha Hb _ E. inversion Ha; inversion Hb; subst. cbn in E. injection E as <-. unfold eqc; cbn.
    destruct (prim_cmp_cases z z0) as [[-> H]|[[-> H]|[-> H]]]; split; intros K; try lia; try (injection K; lia); try congruence.
  - intros a b c Ha Hb _ _ E. inversion Ha; inversion Hb; subst. cbn in *. injection E as <-. f_equal.
    destruct (prim_cmp_cases z z0) as [[-> H]|[[-> H]|[-> H]]]; destruct (prim_cmp_cases z0 z) as [[-> K]|[[-> K]|[-> K]]]; lia.
  - intros a b c p q r Ha Hb Hc _ _ _ E1 E2 E3 Hx Hy. inversion Ha as [z0| |]; inversion Hb as [z1| |]; inversion Hc as [z2| |]; subst. cbn in *.
    injection E1 as <-. injection E2 as <-. injection E3 as <-.
    revert Hx Hy. destruct (prim_cmp_cases z0 z1) as [[-> H]|[[-> H]|[-> H]]]; destruct (prim_cmp_cases z1 z2) as [[-> K]|[[-> K]|[-> K]]];
      destruct (prim_cmp_cases z0 z2) as [[-> J]|[[-> J]|[-> J]]]; lia.
Qed.

(** The element loop on lists of equal length, started at 0. *)
Definition pairwise (l k : list val) := forall i x y, nth_error l i = Some x -> nth_error k i = Some y -> one_memory x y.
Lemma pairwise_cons x l y k : pairwise (x :: l) (y :: k) <-> one_memory x y /\ pairwise l k.
Proof.
  unfold pairwise. split.
  - intros H. split; [apply (H 0%nat); reflexivity|]. intros i a b. apply (H (S i)).
  - intros (H1 & H2) [|i] a b X Y; cbn in X, Y; [congruence|eauto].
Qed.

Lemma arr_loop_stop f l k c : c <> 0 -> arr_loop f l k c = Some c.
Proof. intros H. destruct l; cbn; [reflexivity|]. destruct (Z.eqb_spec c 0); [contradiction|reflexivity]. Qed.

Lemma loop_tot u : ok u -> forall l k, Forall (has_ty u) l -> Forall (has_ty u) k -> length l = length k -> pairwise l k ->
  exists c, arr_loop (cmp u) l k 0 = Some c /\ (c = -1 \/ c = 0 \/ c = 1) /\ (c = 0 <-> map erase l = map erase k).
Proof.
  intros K. induction l as [|x l IH]; intros [|y k] HL HK L M; try discriminate.
  - exists 0. cbn. repeat split; auto.
  - inversion HL; inversion HK; subst. apply pairwise_cons in M as (M1 & M2). cbn [arr_loop Z.eqb].
    destruct (g_tot _ _ _ _ K x y) as (c & E & C); auto. rewrite E. cbn [obind].
    pose proof (g_zero _ _ _ _ K x y c ltac:(auto) ltac:(auto) ltac:(auto) E) as Z0. unfold eqc in Z0.
    destruct (Z.eq_dec c 0) as [->|N].
    + destruct (IH k) as (d & E' & D & DZ); auto. exists d. split; [exact E'|]. split; [exact D|].
      cbn [map]. rewrite DZ. assert (erase x = erase y) by tauto. split; [intros ->; congruence|]. intros J; injection J; auto.
    + rewrite arr_loop_stop by exact N. exists c. split; [reflexivity|]. split; [exact C|].
      cbn [map]. split; [contradiction|]. intros J; injection J as J1 _. tauto.
Qed.

Lemma loop_anti u : ok u -> forall l k c, Forall (has_ty u) l -> Forall (has_ty u) k -> length l = length k -> pairwise l k -> pairwise k l ->
  arr_loop (cmp u) l k 0 = Some c -> arr_loop (cmp u) k l 0 = Some (- c).
Proof.
  intros K. induction l as [|x l IH]; intros [|y k] c HL HK L M M' E; try discriminate.
  - cbn in *. injection E as <-. reflexivity.
  - inversion HL; inversion HK; subst. apply pairwise_cons in M as (M1 & M2). apply pairwise_cons in M' as (M1' & M2').
    cbn [arr_loop Z.eqb] in *. apply obind_Some in E as (d & E1 & E2).
    rewrite (g_anti _ _ _ _ K x y d) by auto. cbn [obind].
    destruct (Z.eq_dec d 0) as [->|N]; [apply IH; auto|].
    rewrite arr_loop_stop in E2 by exact N. injection E2 as <-. apply arr_loop_stop. lia.
Qed.

Lemma loop_trans u : ok u -> forall l k j x y z, Forall (has_ty u) l -> Forall (has_ty u) k -> Forall (has_ty u) j ->
  length l = length k -> length k = length j -> pairwise l k -> pairwise k j -> pairwise l j ->
  arr_loop (cmp u) l k 0 = Some x -> arr_loop (cmp u) k j 0 = Some y -> arr_loop (cmp u) l j 0 = Some z ->
  x <= 0 -> y <= 0 -> z <= 0 /\ (x < 0 \/ y < 0 -> z < 0).
Proof.
  intros K. induction l as [|a l IH]; intros [|b k] [|c j] x y z HL HK HJ L1 L2 M1 M2 M3 E1 E2 E3 Hx Hy; try discriminate.
  - cbn in *. injection E1 as <-. injection E2 as <-. injection E3 as <-. lia.
  - inversion HL; inversion HK; inversion HJ; subst.
    apply pairwise_cons in M1 as (M1 & N1). apply pairwise_cons in M2 as (M2 & N2). apply pairwise_cons in M3 as (M3 & N3).
    cbn [arr_loop Z.eqb] in *.
    apply obind_Some in E1 as (p & P1 & E1). apply obind_Some in E2 as (q & Q1 & E2). apply obind_Some in E3 as (r & R1 & E3).
    assert (PL : p <= 0). { destruct (Z.eq_dec p 0) as [->|N]; [lia|]. rewrite arr_loop_stop in E1 by exact N. injection E1 as <-. lia. }
    assert (QL : q <= 0). { destruct (Z.eq_dec q 0) as [->|N]; [lia|]. rewrite arr_loop_stop in E2 by exact N. injection E2 as <-. lia. }
    destruct (g_trans _ _ _ _ K a b c p q r) as (G1 & G2); auto.
    destruct (Z.eq_dec p 0) as [->|NP], (Z.eq_dec q 0) as [->|NQ].
    + assert (r = 0) as ->.
      { pose proof (g_zero _ _ _ _ K a b 0 ltac:(auto) ltac:(auto) ltac:(auto) P1) as Z1.
        pose proof (g_zero _ _ _ _ K b c 0 ltac:(auto) ltac:(auto) ltac:(auto) Q1) as Z2.
        apply (g_zero _ _ _ _ K a c r ltac:(auto) ltac:(auto) ltac:(auto) R1). unfold eqc in *.
        transitivity (erase b); tauto. }
      eapply (IH k j); eauto.
    + rewrite arr_loop_stop in E2 by exact NQ. injection E2 as <-.
      assert (r < 0) by (apply G2; lia). rewrite arr_loop_stop in E3 by lia. injection E3 as <-. lia.
    + assert (r < 0) by (apply G2; lia). rewrite arr_loop_stop in E3 by lia. injection E3 as <-. lia.
    + assert (r < 0) by (apply G2; lia). rewrite arr_loop_stop in E3 by lia. injection E3 as <-. lia.
Qed.

Lemma erase_map_eq (p q : Z) (l k : list val) : p = q -> length l = length k ->
  (p = q -> forall i x y, nth_error l i = Some x -> nth_error k i = Some y -> erase x = erase y) -> map erase l = map erase k.
Proof.
  intros E L H. specialize (H E). clear E. revert k L H; induction l as [|x l IH]; intros [|y k] L H; try discriminate; [reflexivity|].
  cbn. f_equal; [apply (H 0%nat); reflexivity|]. apply IH; [cbn in L; lia|]. intros i a b. apply (H (S i)).
Qed.

(** The comparison of two arrays, whether or not the quick path is taken. *)
Lemma arr_value u p l q k : ok u -> Forall (has_ty u) l -> Forall (has_ty u) k -> one_memory (VArr p l) (VArr q k) ->
  cmp (TArr u) (VArr p l) (VArr q k) =
    (if length l =? length k then arr_loop (cmp u) l k 0
     else Some (prim_cmp (Z.of_nat (length l)) (Z.of_nat (length k))))%nat.
Proof.
  intros K HL HK OM. inversion OM as [|p' l' q' k' Q M|]; subst. cbn [cmp].
  destruct (Nat.eqb_spec (length l) (length k)) as [L|L].
  - assert (prim_cmp (Z.of_nat (length l)) (Z.of_nat (length k)) = 0) as -> by (destruct (prim_cmp_cases (Z.of_nat (length l)) (Z.of_nat (length k))) as [[? ?]|[[? ?]|[? ?]]]; lia).
    destruct (Z.eqb_spec p q) as [E|E]; cbn [negb]; [|reflexivity].
    destruct (loop_tot u K l k HL HK L M) as (c & -> & _ & CZ). f_equal. symmetry. apply CZ. eapply erase_map_eq; eauto.
  - destruct (Z.eqb_spec p q) as [E|E]; cbn [negb]; [reflexivity|]. apply arr_loop_stop.
    destruct (prim_cmp_cases (Z.of_nat (length l)) (Z.of_nat (length k))) as [[-> ?]|[[-> ?]|[-> ?]]]; lia.
Qed.

Lemma ok_arr u : ok u -> ok (TArr u).
Proof.
  intros K. constructor.
  - intros a b Ha Hb OM. inversion Ha; inversion Hb; subst. rewrite arr_value by auto. inversion OM; subst.
    destruct (Nat.eqb_spec (length l) (length l0)) as [L|L].
    + destruct (loop_tot u K l l0) as (c & E & C & _); auto. eauto.
    + eexists. split; [reflexivity|]. destruct (prim_cmp_cases (Z.of_nat (length l)) (Z.of_nat (length l0))) as [[-> _]|[[-> _]|[-> _]]]; auto.
  - intros a b c Ha Hb OM E. inversion Ha; inversion Hb; subst. rewrite arr_value in E by auto. inversion OM; subst.
    unfold eqc. cbn. destruct (Nat.eqb_spec (length l) (length l0)) as [L|L].
    + destruct (loop_tot u K l l0) as (c' & E' & _ & CZ); auto. assert (c' = c) by congruence. subst. rewrite CZ.
      split; [congruence|]. intros J; injection J; auto.
    + injection E as <-. split.
      * intros Z. destruct (prim_cmp_cases (Z.of_nat (length l)) (Z.of_nat (length l0))) as [[? ?]|[[? ?]|[? ?]]]; lia.
      * intros J. injection J as J. apply (f_equal (@length _)) in J. rewrite !map_length in J. contradiction.
  - intros a b c Ha Hb OM OM' E. inversion Ha; inversion Hb; subst. rewrite arr_value in * by auto.
    inversion OM; inversion OM'; subst. rewrite Nat.eqb_sym.
    destruct (Nat.eqb_spec (length l) (length l0)) as [L|L].
    + apply loop_anti; auto.
    + injection E as <-. f_equal.
      destruct (prim_cmp_cases (Z.of_nat (length l)) (Z.of_nat (length l0))) as [[-> ?]|[[-> ?]|[-> ?]]];
      destruct (prim_cmp_cases (Z.of_nat (length l0)) (Z.of_nat (length l))) as [[-> ?]|[[-> ?]|[-> ?]]]; lia.
  - intros a b c x y z Ha Hb Hc O1 O2 O3 E1 E2 E3 Hx Hy. inversion Ha; inversion Hb; inversion Hc; subst.
    rewrite arr_value in * by auto. inversion O1; inversion O2; inversion O3; subst.
    pose proof (prim_cmp_cases (Z.of_nat (length l)) (Z.of_nat (length l0))) as C1.
    pose proof (prim_cmp_cases (Z.of_nat (length l0)) (Z.of_nat (length l1))) as C2.
    pose proof (prim_cmp_cases (Z.of_nat (length l)) (Z.of_nat (length l1))) as C3.
    destruct (Nat.eqb_spec (length l) (length l0)) as [L1|L1], (Nat.eqb_spec (length l0) (length l1)) as [L2|L2],
      (Nat.eqb_spec (length l) (length l1)) as [L3|L3]; try lia;
      repeat match goal with H : Some (prim_cmp _ _) = Some _ |- _ => injection H as H end; try lia.
    eapply (loop_trans u K l l0 l1); eauto.
Qed.

(** Structs: one pass over the fields selected by [triv]. *)
Definition pass (triv : bool) : list (bool * ty) -> list val -> list val -> option Z :=
  fix go (fs : list (bool * ty)) (l k : list val) : option Z :=
    match fs, l, k with
    | [], _, _ => Some 0
    | (tr, u) :: fs', x :: l', y :: k' =>
        if Bool.eqb tr triv then do c <- cmp u x y; if c =? 0 then go fs' l' k' else Some c
        else go fs' l' k'
    | _, _, _ => None
    end.
Lemma cmp_struct fs l k : cmp (TStruct fs) (VStruct l) (VStruct k) =
  do c <- pass true fs l k; if c =? 0 then pass false fs l k else Some c.
Proof. reflexivity. Qed.

Definition typed (fs : list (bool * ty)) (l : list val) := Forall2 (fun f x => has_ty (snd f) x) fs l.
(** Equal on the selected fields. *)
Fixpoint eqsel (triv : bool) (fs : list (bool * ty)) (l k : list val) : Prop :=
  match fs, l, k with
  | (tr, _) :: fs', x :: l', y :: k' => (tr = triv -> erase x = erase y) /\ eqsel triv fs' l' k'
  | _, _, _ => True
  end.
Lemma eqsel_both fs l k : typed fs l -> typed fs k -> eqsel true fs l k /\ eqsel false fs l k <-> map erase l = map erase k.
Proof.
  intros H. revert k. induction H as [|(tr & u) x fs l Hx Hl IH]; intros k Hk; inversion Hk; subst; cbn; [tauto|].
  rename y into y0. split.
  - intros ((A & B) & C & D). f_equal; [destruct tr; auto|]. apply IH; auto.
  - intros J. injection J as J1 J2. apply (IH l') in J2; [|assumption]. tauto.
Qed.

Lemma pass_good triv fs : Forall (fun f => ok (snd f)) fs ->
  good (typed fs) pairwise (eqsel triv fs) (pass triv fs).
Proof.
  induction 1 as [|(tr & u) fs K HF [IT IZ IA IR]]; cbn [snd] in *.
  - constructor; cbn.
    + intros; exists 0; auto.
    + intros a b c _ _ _ E. injection E as <-. tauto.
    + intros a b c _ _ _ _ E. injection E as <-. reflexivity.
    + intros a b c x y z _ _ _ _ _ _ E1 E2 E3. injection E1 as <-. injection E2 as <-. injection E3 as <-. lia.
  - constructor.
    + intros a b Ha Hb M. inversion Ha as [|? x ? l Hx Hl]; inversion Hb as [|? y ? k Hy Hk]; subst.
      apply pairwise_cons in M as (M1 & M2). cbn [snd] in *. cbn [pass].
      destruct (Bool.eqb tr triv); [|apply IT; auto].
      destruct (g_tot _ _ _ _ K x y) as (c & E & C); auto. rewrite E. cbn [obind].
      destruct (Z.eqb_spec c 0); [apply IT; auto|eauto].
    + intros a b c Ha Hb M. inversion Ha as [|? x ? l Hx Hl]; inversion Hb as [|? y ? k Hy Hk]; subst.
      apply pairwise_cons in M as (M1 & M2). cbn [snd] in *. cbn [pass eqsel]. intros E.
      destruct (Bool.eqb tr triv) eqn:B.
      * apply Bool.eqb_prop in B. apply obind_Some in E as (d & E1 & E2).
        pose proof (g_zero _ _ _ _ K x y d Hx Hy M1 E1) as Z1. unfold eqc in Z1.
        destruct (Z.eqb_spec d 0) as [D|D].
        -- rewrite (IZ l k c Hl Hk M2 E2). tauto.
        -- injection E2 as <-. tauto.
      * apply Bool.eqb_false_iff in B. rewrite (IZ l k c Hl Hk M2 E). tauto.
    + intros a b c Ha Hb M M'. inversion Ha as [|? x ? l Hx Hl]; inversion Hb as [|? y ? k Hy Hk]; subst.
      apply pairwise_cons in M as (M1 & M2). apply pairwise_cons in M' as (M1' & M2'). cbn [snd] in *. cbn [pass]. intros E.
      destruct (Bool.eqb tr triv); [|apply IA; auto].
      apply obind_Some in E as (d & E1 & E2). rewrite (g_anti _ _ _ _ K x y d) by auto. cbn [obind].
      destruct (Z.eqb_spec d 0) as [D|D]; destruct (Z.eqb_spec (- d) 0) as [D'|D']; try lia; [apply IA; auto|congruence].
    + intros a b c p q r Ha Hb Hc M M' M''.
      inversion Ha as [|? x ? l Hx Hl]; inversion Hb as [|? y ? k Hy Hk]; inversion Hc as [|? z ? j Hz Hj]; subst.
      apply pairwise_cons in M as (M1 & M2). apply pairwise_cons in M' as (M1' & M2'). apply pairwise_cons in M'' as (M1'' & M2'').
      cbn [snd] in *. cbn [pass]. intros E1 E2 E3 Hp Hq.
      destruct (Bool.eqb tr triv); [|eapply (IR l k j); eauto].
      apply obind_Some in E1 as (d1 & F1 & E1). apply obind_Some in E2 as (d2 & F2 & E2). apply obind_Some in E3 as (d3 & F3 & E3).
      assert (d1 <= 0) by (destruct (Z.eqb_spec d1 0); [lia|injection E1 as <-; lia]).
      assert (d2 <= 0) by (destruct (Z.eqb_spec d2 0); [lia|injection E2 as <-; lia]).
      destruct (g_trans _ _ _ _ K x y z d1 d2 d3) as (G1 & G2); auto.
      destruct (Z.eqb_spec d1 0) as [D1|D1], (Z.eqb_spec d2 0) as [D2|D2].
      * subst. assert (d3 = 0) as ->.
        { pose proof (g_zero _ _ _ _ K x y 0 Hx Hy M1 F1) as Z1. pose proof (g_zero _ _ _ _ K y z 0 Hy Hz M1' F2) as Z2.
          apply (g_zero _ _ _ _ K x z d3 Hx Hz M1'' F3). unfold eqc in *. transitivity (erase y); tauto. }
        cbn [Z.eqb] in E3. eapply (IR l k j); eauto.
      * assert (d3 < 0) by (apply G2; lia). destruct (Z.eqb_spec d3 0); [lia|]. injection E3 as <-. lia.
      * assert (d3 < 0) by (apply G2; lia). destruct (Z.eqb_spec d3 0); [lia|]. injection E3 as <-. lia.
      * assert (d3 < 0) by (apply G2; lia). destruct (Z.eqb_spec d3 0); [lia|]. injection E3 as <-. lia.
Qed.

Lemma ok_struct fs : Forall (fun f => ok (snd f)) fs -> ok (TStruct fs).
Proof.
  intros H. destruct (pass_good true fs H) as [T1 Z1 A1 R1]. destruct (pass_good false fs H) as [T2 Z2 A2 R2].
  assert (EQ : forall l k j, eqsel true fs l k -> eqsel true fs k j -> typed fs l -> typed fs k -> typed fs j -> eqsel true fs l j).
  { clear. induction fs as [|(tr & u) fs IH]; intros l k j E1 E2 Hl Hk Hj; [exact I|].
    inversion Hl; inversion Hk; inversion Hj; subst. cbn in *. destruct E1, E2. split; [|eauto].
    intros ->. transitivity (erase y0); auto. }
  constructor.
  - intros a b Ha Hb OM. inversion Ha; inversion Hb; subst. inversion OM; subst. rewrite cmp_struct.
    destruct (T1 l l0) as (c & -> & C); auto. cbn [obind]. destruct (Z.eqb_spec c 0); [apply T2; auto|eauto].
  - intros a b c Ha Hb OM E. inversion Ha; inversion Hb; subst. inversion OM; subst. rewrite cmp_struct in E.
    apply obind_Some in E as (d & E1 & E2). unfold eqc. cbn.
    assert (EB : CStruct (map erase l) = CStruct (map erase l0) <-> eqsel true fs l l0 /\ eqsel false fs l l0).
    { rewrite eqsel_both by assumption. split; [intros J; injection J; auto|congruence]. }
    rewrite EB. pose proof (Z1 l l0 d ltac:(assumption) ltac:(assumption) ltac:(assumption) E1).
    destruct (Z.eqb_spec d 0) as [D|D].
    + pose proof (Z2 l l0 c ltac:(assumption) ltac:(assumption) ltac:(assumption) E2). tauto.
    + injection E2 as <-. tauto.
  - intros a b c Ha Hb OM OM' E. inversion Ha; inversion Hb; subst. inversion OM; inversion OM'; subst. rewrite cmp_struct in *.
    apply obind_Some in E as (d & E1 & E2). rewrite (A1 l l0 d) by assumption. cbn [obind].
    destruct (Z.eqb_spec d 0) as [D|D]; destruct (Z.eqb_spec (- d) 0) as [D'|D']; try lia; [apply A2; auto|congruence].
  - intros a b c x y z Ha Hb Hc O1 O2 O3 E1 E2 E3 Hx Hy. inversion Ha; inversion Hb; inversion Hc; subst.
    inversion O1; inversion O2; inversion O3; subst. rewrite cmp_struct in *.
    apply obind_Some in E1 as (d1 & F1 & E1). apply obind_Some in E2 as (d2 & F2 & E2). apply obind_Some in E3 as (d3 & F3 & E3).
    assert (d1 <= 0) by (destruct (Z.eqb_spec d1 0); [lia|injection E1 as <-; lia]).
    assert (d2 <= 0) by (destruct (Z.eqb_spec d2 0); [lia|injection E2 as <-; lia]).
    destruct (R1 l l0 l1 d1 d2 d3) as (G1 & G2); auto.
    destruct (Z.eqb_spec d1 0) as [D1|D1], (Z.eqb_spec d2 0) as [D2|D2].
    + subst. assert (d3 = 0) as ->.
      { apply (Z1 l l1 d3); auto. apply (EQ l l0 l1); auto; [apply (Z1 l l0 0)|apply (Z1 l0 l1 0)]; auto. }
      cbn [Z.eqb] in E3. eapply (R2 l l0 l1); eauto.
    + assert (d3 < 0) by (apply G2; lia). destruct (Z.eqb_spec d3 0); [lia|]. injection E3 as <-. lia.
    + assert (d3 < 0) by (apply G2; lia). destruct (Z.eqb_spec d3 0); [lia|]. injection E3 as <-. lia.
    + assert (d3 < 0) by (apply G2; lia). destruct (Z.eqb_spec d3 0); [lia|]. injection E3 as <-. lia.
Qed.

Theorem cmp_ok t : ok t.
Proof. induction t using ty_ind'; [apply ok_prim|apply ok_arr; assumption|apply ok_struct; assumption]. Qed.
