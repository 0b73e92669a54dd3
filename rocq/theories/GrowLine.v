(** Growing the index of lib/hash.fu, when it has a free slot z0.  The doubled index is looked at as the line of slots
    from z0 - n to z0 + n, whose ends (the same slot) and middle stay free: two halves of n - 1 slots each.  An entry
    has an ideal slot Y on the line; before growing it was in slot P of the left half (P + n in the right one), with the
    ideal X.  This file is about functions from slots to entries; HashGrow.v connects it with the program. *)
From Verif Require Import CommonLemmas HashModel HashIndex.
From Coq Require Import Permutation.
Open Scope Z_scope.

Fixpoint zrange (a : Z) (m : nat) : list Z := match m with O => [] | S m => a :: zrange (a + 1) m end.
Lemma in_zrange m : forall a x, In x (zrange a m) <-> a <= x < a + Z.of_nat m.
Proof. induction m as [|m IH]; intros a x; cbn [zrange In]; [lia|]. rewrite IH. lia. Qed.
Lemma zrange_length m : forall a, length (zrange a m) = m.
Proof. induction m as [|m IH]; intros a; cbn; auto. Qed.
Lemma zrange_map_nodup (g : Z -> Z) m : forall a, (forall v w, a <= v < a + Z.of_nat m -> a <= w < a + Z.of_nat m -> g v = g w -> v = w) ->
  NoDup (map g (zrange a m)).
Proof.
  induction m as [|m IH]; intros a H; cbn [zrange map]; constructor.
  - rewrite in_map_iff. intros (x & E & I). rewrite in_zrange in I. specialize (H x a). lia.
  - apply IH. intros v w Hv Hw. apply H; lia.
Qed.
Lemma pigeon (g : Z -> Z) a b lo hi : a < b -> (forall v, a <= v < b -> lo <= g v < hi) ->
  (forall v w, a <= v < b -> a <= w < b -> g v = g w -> v = w) -> b - a <= hi - lo.
Proof.
  intros ab R I. set (m := Z.to_nat (b - a)).
  assert (N : NoDup (map g (zrange a m))) by (apply zrange_map_nodup; intros v w Hv Hw; apply I; lia).
  assert (Inc : incl (map g (zrange a m)) (zrange lo (Z.to_nat (hi - lo)))).
  { intros y Hy. apply in_map_iff in Hy. destruct Hy as (x & <- & Hx). apply in_zrange in Hx. apply in_zrange. specialize (R x). lia. }
  apply NoDup_incl_length in Inc; [|exact N]. rewrite map_length, !zrange_length in Inc. specialize (R a). lia.
Qed.
(** going up from a until something fails, and down *)
Lemma first_from (q : Z -> Prop) (qd : forall x, {q x} + {~ q x}) b : forall a, a <= b ->
  (forall v, a <= v < b -> q v) \/ exists d, a <= d < b /\ ~ q d /\ forall v, a <= v < d -> q v.
Proof.
  intros a H. remember (Z.to_nat (b - a)) as m eqn:Em. revert a H Em. induction m as [|m IH]; intros a H Em; [left; lia|].
  destruct (qd a) as [Q|Q]; [|right; exists a; split; [lia|split; [auto|lia]]].
  destruct (IH (a + 1)) as [A|(d & D1 & D2 & D3)]; [lia|lia| |].
  - left. intros v Hv. destruct (Z.eq_dec v a) as [->|]; [auto|apply A; lia].
  - right. exists d. split; [lia|split; [auto|]]. intros v Hv. destruct (Z.eq_dec v a) as [->|]; [auto|apply D3; lia].
Qed.
Lemma down_from (q : Z -> Prop) (qd : forall x, {q x} + {~ q x}) z : ~ q z -> forall a, z < a ->
  exists c, z < c <= a /\ ~ q (c - 1) /\ forall v, c <= v < a -> q v.
Proof.
  intros Nz a H. remember (Z.to_nat (a - z)) as m eqn:Em. revert a H Em. induction m as [|m IH]; intros a H Em; [lia|].
  destruct (qd (a - 1)) as [Q|Q]; [|exists a; split; [lia|split; [auto|lia]]].
  assert (a - 1 <> z) by congruence. destruct (IH (a - 1)) as (c & C1 & C2 & C3); [lia|lia|].
  exists c. split; [lia|split; [auto|]]. intros v Hv. destruct (Z.eq_dec v (a - 1)) as [->|]; [auto|apply C3; lia].
Qed.

Section LINE.
Context (n k z0 : Z) (Y X P : ientry -> Z) (real : ientry -> Prop).
Hypothesis k1 : 1 <= k.
Hypothesis nk : 2 * k <= n.
Hypothesis z0n : 0 <= z0 < n.
Hypothesis real_ok : forall e, real e -> z0 - n < X e /\ X e <= P e /\ P e < z0 /\ P e < X e + k /\ (Y e = X e \/ Y e = X e + n).
Hypothesis sorted : forall e e', real e -> real e' -> P e < P e' -> X e <= X e'.
Notation table := (Z -> ientry).
Definition inL (v : Z) : Prop := z0 - n < v < z0 + n.
Record base (f : table) : Prop := {
  b_z : forall v, v = z0 - n \/ v = z0 \/ v = z0 + n -> ~ is_used (f v);
  b_real : forall v, inL v -> is_used (f v) -> real (f v);
  b_inj : forall v w, inL v -> inL w -> is_used (f v) -> is_used (f w) -> P (f v) = P (f w) -> v = w }.
(** U: the slots not dealt with yet.  An entry in one of these, and not on the way from its ideal slot, is pending. *)
Definition pend (U : Z -> Prop) (f : table) (v : Z) : Prop := U v /\ is_used (f v) /\ (v < Y (f v) \/ Y (f v) < 0).
(** every other entry can be found from its ideal slot, and they are in order; but for a hole *)
Definition core_but (U : Z -> Prop) (f : table) (hole : Z -> Prop) : Prop := forall v, inL v -> is_used (f v) -> ~ pend U f v ->
  Y (f v) <= v /\ (forall w, Y (f v) <= w <= v -> hole w \/ is_used (f w)) /\
  (forall w, Y (f v) <= w < v -> hole w \/ pend U f w \/ Y (f w) <= Y (f v)).
Definition core U f := core_but U f (fun _ => False).
(** e = f i goes to d, everything from d to dest goes up by one *)
Definition moved (f : table) (i d dest : Z) (f1 : table) : Prop :=
  f1 d = f i /\ (forall t, d < t <= dest -> f1 t = f (t - 1)) /\ ~ is_used (f1 i) /\
  forall v, z0 - n <= v <= z0 + n -> v <> i -> ~ d <= v <= dest -> f1 v = f v.
(** everything from h + 1 to h + m goes down by one *)
Definition compacted (f : table) (h m : Z) (f2 : table) : Prop :=
  0 <= m /\ (forall v, h <= v < h + m -> f2 v = f (v + 1)) /\ ~ is_used (f2 (h + m)) /\
  (forall v, z0 - n <= v <= z0 + n -> ~ h <= v <= h + m -> f2 v = f v) /\
  (forall v, h < v <= h + m -> is_used (f v) /\ Y (f v) <> v) /\
  (~ is_used (f (h + m + 1)) \/ Y (f (h + m + 1)) = h + m + 1).

Lemma Y_range e : real e -> z0 - n < Y e < z0 \/ z0 < Y e < z0 + n.
Proof. intros R. apply real_ok in R. lia. Qed.
Lemma pend_dec U f (Ud : forall v, {U v} + {~ U v}) v : {pend U f v} + {~ pend U f v}.
Proof.
  unfold pend. destruct (Ud v) as [u|u]; [|right; tauto]. destruct (used_dec (f v)) as [w|w]; [|right; tauto].
  destruct (Z_lt_dec v (Y (f v))); [left; tauto|]. destruct (Z_lt_dec (Y (f v)) 0); [left; tauto|right; tauto].
Qed.

Lemma move_core U f i d dest f1 : base f -> core U f -> inL i -> is_used (f i) ->
  Y (f i) <= d <= dest -> dest < z0 + n ->
  (forall w, Y (f i) <= w < dest -> is_used (f w) /\ ~ pend U f w) -> ~ is_used (f dest) -> ~ Y (f i) <= i <= dest ->
  (Y (f i) < 0 -> forall v, Y (f i) <= v <= dest -> ~ U v) ->
  (forall t, d <= t < dest -> Y (f i) < Y (f t)) -> (d = Y (f i) \/ Y (f (d - 1)) <= Y (f i)) ->
  moved f i d dest f1 -> core_but U f1 (eq i).
Proof.
  intros B C Li ui Hd Hz Fu De Ni HU Gt St (M1 & M2 & M3 & M4) v Lv uv np.
  pose proof (Y_range _ (b_real _ B _ Li ui)) as Ye. set (y := Y (f i)) in *.
  assert (U1 : forall w, y <= w <= dest -> is_used (f1 w)).
  { intros w Hw. destruct (Z_lt_dec w d).
    - rewrite M4 by lia. apply Fu; lia.
    - destruct (Z.eq_dec w d) as [->|]; [rewrite M1; auto|]. rewrite M2 by lia. apply Fu; lia. }
  assert (Np : forall w, y <= w <= dest -> ~ pend U f1 w).
  { intros w Hw (Uw & uw & Pw). destruct (Z_lt_dec y 0) as [y0|y0]; [apply (HU y0 w); auto|].
    destruct (Z_lt_dec w d).
    - rewrite M4 in * by lia. apply (proj2 (Fu w ltac:(lia))). split; auto.
    - destruct (Z.eq_dec w d) as [->|]; [rewrite M1 in Pw; lia|]. rewrite M2 in * by lia.
      destruct (Fu (w - 1) ltac:(lia)) as [a b]. destruct (C (w - 1) ltac:(unfold inL; lia) a b) as (c & _). pose proof (Gt (w - 1) ltac:(lia)). lia. }
  destruct (Z_le_dec d v) as [dv|dv]; [destruct (Z_le_dec v dest) as [vd|vd]|].
  - (* within the moved *)
    destruct (Z.eq_dec v d) as [->|nd].
    + rewrite M1. fold y. split; [lia|]. split; [intros w Hw; right; apply U1; lia|]. intros w Hw. right; right.
      rewrite M4 by lia. destruct St as [->|St]; [lia|]. destruct (Fu (d - 1) ltac:(lia)) as [a b].
      destruct (C (d - 1) ltac:(unfold inL; lia) a b) as (c1 & c2 & c3). destruct (Z.eq_dec w (d - 1)) as [->|]; [auto|].
      destruct (c3 w ltac:(lia)) as [[]|[c|c]]; [exfalso; apply (proj2 (Fu w ltac:(lia)) c)|lia].
    + rewrite M2 by lia. pose proof (Gt (v - 1) ltac:(lia)) as G. destruct (Fu (v - 1) ltac:(lia)) as [a b].
      destruct (C (v - 1) ltac:(unfold inL; lia) a b) as (c1 & c2 & c3). split; [lia|]. split; [intros w Hw; right; apply U1; lia|].
      intros w Hw. right; right. destruct (Z_lt_dec w d).
      * rewrite M4 by lia. destruct (c3 w ltac:(lia)) as [[]|[c|c]]; [exfalso; apply (proj2 (Fu w ltac:(lia)) c)|lia].
      * destruct (Z.eq_dec w d) as [->|]; [rewrite M1; fold y; lia|]. rewrite M2 by lia.
        destruct (Fu (w - 1) ltac:(lia)) as [a' b']. destruct (C (w - 1) ltac:(unfold inL; lia) a' b') as (c1' & _).
        destruct (Z_le_dec (Y (f (v - 1))) (w - 1)); [|lia]. destruct (c3 (w - 1) ltac:(lia)) as [[]|[c|c]]; [exfalso; exact (b' c)|lia].
  - (* above *)
    assert (vi : v <> i) by (intros ->; tauto). assert (E : f1 v = f v) by (apply M4; unfold inL in *; lia). rewrite E in *.
    assert (np' : ~ pend U f v). { intros (a & b & c). apply np. unfold pend. rewrite E. auto. }
    destruct (C v Lv uv np') as (c1 & c2 & c3). split; auto. pose proof (Y_range _ (b_real _ B _ Lv uv)) as Yv.
    assert (Q : dest < Y (f v)). { destruct (Z_lt_dec dest (Y (f v))); auto. destruct (c2 dest ltac:(lia)) as [[]|]. tauto. }
    split; intros w Hw; (destruct (Z.eq_dec i w) as [|iw]; [left; auto|right]).
    + rewrite M4 by (unfold inL in *; lia). destruct (c2 w Hw) as [[]|]; auto.
    + assert (Ew : f1 w = f w) by (apply M4; unfold inL in *; lia). unfold pend. rewrite Ew. destruct (c3 w Hw) as [[]|]; auto.
  - (* below *)
    assert (vi : v <> i) by (intros ->; tauto). assert (E : f1 v = f v) by (apply M4; unfold inL in *; lia). rewrite E in *.
    assert (np' : ~ pend U f v). { intros (a & b & c). apply np. unfold pend. rewrite E. auto. }
    destruct (C v Lv uv np') as (c1 & c2 & c3). split; auto. pose proof (Y_range _ (b_real _ B _ Lv uv)) as Yv.
    split; intros w Hw; (destruct (Z.eq_dec i w) as [|iw]; [left; auto|right]).
    + rewrite M4 by (unfold inL in *; lia). destruct (c2 w Hw) as [[]|]; auto.
    + assert (Ew : f1 w = f w) by (apply M4; unfold inL in *; lia). unfold pend. rewrite Ew. destruct (c3 w Hw) as [[]|]; auto.
Qed.

Lemma compact_core U f h m f2 : base f -> core_but U f (eq h) -> inL h -> h + m < z0 + n ->
  (forall v, U v -> 0 <= v) ->
  compacted f h m f2 ->
  (forall v, h <= v < h + m -> U (v + 1) -> U v) ->
  (forall v, h <= v < h + m -> U v -> ~ pend U f (v + 1) -> 0 <= Y (f (v + 1))) ->
  core U f2.
Proof.
  intros B C Lh Hz U0 (m0 & M1 & M2 & M3 & M4 & M5) Ul Un v Lv uv np.
  assert (Pd : forall w, h <= w < h + m -> pend U f (w + 1) -> pend U f2 w).
  { intros w Hw (a & b & c). split; [apply Ul; auto|]. rewrite M1 by auto. split; auto. lia. }
  destruct (Z_lt_dec v h) as [vh|vh]; [|destruct (Z_lt_dec v (h + m)) as [vm|vm]].
  - assert (E : f2 v = f v) by (apply M3; unfold inL in *; lia). rewrite E in *.
    assert (np' : ~ pend U f v). { intros (a & b & c). apply np. unfold pend. rewrite E. auto. }
    destruct (C v Lv uv np') as (c1 & c2 & c3). split; auto. pose proof (Y_range _ (b_real _ B _ Lv uv)) as Yv.
    split; intros w Hw; right; (assert (Ew : f2 w = f w) by (apply M3; unfold inL in *; lia)).
    + rewrite Ew. destruct (c2 w Hw) as [->|]; [lia|auto].
    + unfold pend. rewrite Ew. destruct (c3 w Hw) as [->|]; [lia|auto].
  - rewrite M1 in * by lia. assert (Lv1 : inL (v + 1)) by (unfold inL in *; lia).
    assert (np' : ~ pend U f (v + 1)) by (intros q; apply np, Pd; auto; lia).
    destruct (C (v + 1) Lv1 uv np') as (c1 & c2 & c3). pose proof (proj2 (M4 (v + 1) ltac:(lia))) as Nq.
    pose proof (Y_range _ (b_real _ B _ Lv1 uv)) as Yv. split; [lia|]. split; intros w Hw; right.
    + destruct (Z_lt_dec w h).
      * rewrite M3 by (unfold inL in *; lia). destruct (c2 w ltac:(lia)) as [->|]; [lia|auto].
      * rewrite M1 by lia. apply M4. lia.
    + destruct (Z_lt_dec w h).
      * assert (Ew : f2 w = f w) by (apply M3; unfold inL in *; lia). unfold pend. rewrite Ew. destruct (c3 w ltac:(lia)) as [->|]; [lia|auto].
      * destruct (c3 (w + 1) ltac:(lia)) as [?|[q|q]]; [lia|left; apply Pd; auto; lia|right; rewrite M1 by lia; auto].
  - destruct (Z.eq_dec v (h + m)) as [->|vm']; [tauto|].
    assert (E : f2 v = f v) by (apply M3; unfold inL in *; lia). rewrite E in *.
    assert (np' : ~ pend U f v). { intros (a & b & c). apply np. unfold pend. rewrite E. auto. }
    destruct (C v Lv uv np') as (c1 & c2 & c3). split; auto. pose proof (Y_range _ (b_real _ B _ Lv uv)) as Yv.
    assert (Q : h + m < Y (f v)).
    { destruct (Z_lt_dec (h + m) (Y (f v))); auto. destruct (c2 (h + m + 1) ltac:(lia)) as [?|u1]; [lia|].
      destruct M5 as [|M5]; [tauto|]. destruct (Z.eq_dec v (h + m + 1)) as [->|]; [lia|].
      destruct (c3 (h + m + 1) ltac:(lia)) as [?|[(a & b & c)|q]]; [lia| |lia]. specialize (U0 _ a). lia. }
    split; intros w Hw; right; (assert (Ew : f2 w = f w) by (apply M3; unfold inL in *; lia)).
    + rewrite Ew. destruct (c2 w Hw) as [->|]; [lia|auto].
    + unfold pend. rewrite Ew. destruct (c3 w Hw) as [->|]; [lia|auto].
Qed.

Lemma moved_base f i d dest f1 : base f -> inL i -> is_used (f i) -> z0 - n < d <= dest -> dest < z0 + n -> ~ d <= i <= dest -> ~ d <= z0 <= dest ->
  ~ is_used (f dest) -> moved f i d dest f1 -> base f1.
Proof.
  intros B Li ui Hd Hz Ni Nz De (M1 & M2 & M3 & M4).
  assert (iz : i <> z0) by (intros ->; apply (b_z _ B z0); auto).
  (* where it was *)
  assert (S : forall v, inL v -> is_used (f1 v) -> exists w, inL w /\ is_used (f w) /\ f1 v = f w /\
     (v = d /\ w = i \/ d < v <= dest /\ w = v - 1 \/ v <> i /\ ~ d <= v <= dest /\ w = v)).
  { intros v Lv uv. assert (vi : v <> i) by (intros ->; tauto).
    destruct (Z.eq_dec v d) as [->|]; [exists i; rewrite M1 in *; split; [auto|split; [auto|split; [auto|left; auto]]]|].
    destruct (Z_le_dec d v); [destruct (Z_le_dec v dest)|].
    - rewrite M2 in * by lia. exists (v - 1). split; [unfold inL in *; lia|]. split; auto. split; auto. right; left. lia.
    - rewrite M4 in * by (unfold inL in *; lia). exists v. split; auto. split; auto. split; auto. right; right. lia.
    - rewrite M4 in * by (unfold inL in *; lia). exists v. split; auto. split; auto. split; auto. right; right. lia. }
  constructor.
  - intros v Hv. rewrite M4; [apply (b_z _ B); auto|unfold inL in *; lia..].
  - intros v Lv uv. destruct (S v Lv uv) as (w & Lw & uw & E & _). rewrite E. apply (b_real _ B); auto.
  - intros v w Lv Lw uv uw E. destruct (S v Lv uv) as (v' & Lv' & uv' & Ev & Cv). destruct (S w Lw uw) as (w' & Lw' & uw' & Ew & Cw).
    rewrite Ev, Ew in E. apply (b_inj _ B) in E; auto. subst w'.
    assert (v' <> dest) by (intros ->; tauto). lia.
Qed.
Lemma compacted_base f h m f2 : base f -> inL h -> ~ is_used (f h) -> h + m < z0 + n -> (h < z0 -> h + m < z0) -> h <> z0 ->
  compacted f h m f2 -> base f2.
Proof.
  intros B Lh uh Hz Hz' hz (m0 & M1 & M2 & M3 & M4 & M5).
  assert (S : forall v, inL v -> is_used (f2 v) -> exists w, inL w /\ is_used (f w) /\ f2 v = f w /\
     (h <= v < h + m /\ w = v + 1 \/ ~ h <= v <= h + m /\ w = v)).
  { intros v Lv uv. destruct (Z_le_dec h v); [destruct (Z_lt_dec v (h + m))|].
    - rewrite M1 in * by lia. exists (v + 1). split; [unfold inL in *; lia|split; [auto|split; [auto|left; lia]]].
    - assert (v <> h + m) by (intros ->; tauto). rewrite M3 in * by (unfold inL in *; lia). exists v. split; [auto|split; [auto|split; [auto|right; lia]]].
    - rewrite M3 in * by (unfold inL in *; lia). exists v. split; [auto|split; [auto|split; [auto|right; lia]]]. }
  constructor.
  - intros v Hv. rewrite M3; [apply (b_z _ B); auto|unfold inL in *; lia..].
  - intros v Lv uv. destruct (S v Lv uv) as (w & Lw & uw & E & _). rewrite E. apply (b_real _ B); auto.
  - intros v w Lv Lw uv uw E. destruct (S v Lv uv) as (v' & Lv' & uv' & Ev & Cv). destruct (S w Lw uw) as (w' & Lw' & uw' & Ew & Cw).
    rewrite Ev, Ew in E. apply (b_inj _ B) in E; auto. subst w'. lia.
Qed.

Definition W (f : table) : Prop := forall v, inL v -> is_used (f v) -> Y (f v) <= v \/ (0 <= v < z0 /\ z0 < Y (f v)).
Lemma same_half U f v : base f -> core U f -> inL v -> is_used (f v) -> ~ pend U f v -> (v < z0 /\ Y (f v) < z0 /\ Y (f v) = X (f v)) \/ (z0 < v /\ z0 < Y (f v) /\ Y (f v) = X (f v) + n).
Proof.
  intros B C Lv uv np. destruct (C v Lv uv np) as (c1 & c2 & _). assert (v <> z0) by (intros ->; apply (b_z _ B z0); auto).
  pose proof (real_ok _ (b_real _ B _ Lv uv)) as R. unfold inL in *. destruct (Z_lt_dec v z0); [left; lia|right].
  destruct (Z_le_dec (Y (f v)) z0) as [q|q]; [|lia]. destruct (c2 z0 ltac:(lia)) as [[]|u]. exfalso. apply (b_z _ B z0); auto.
Qed.
(** the slot, in f, of what is in slot v of f2 *)
Definition origin (f : table) (i d dest m : Z) (f2 : table) (v : Z) : Prop :=
  (v = d /\ f2 v = f i) \/
  (d < v <= dest /\ f2 v = f (v - 1)) \/
  (i <= v < i + m /\ f2 v = f (v + 1) /\ is_used (f (v + 1)) /\ Y (f (v + 1)) <> v + 1) \/
  (~ d <= v <= dest /\ ~ i <= v <= i + m /\ f2 v = f v).
(** dest is where f i is to go *)
Record goal (U : Z -> Prop) (f : table) (i dest : Z) : Prop := {
  g_range : Y (f i) <= dest < z0 + n;
  g_used : forall w, Y (f i) <= w < dest -> is_used (f w) /\ ~ pend U f w;
  g_free : ~ is_used (f dest);
  g_not : ~ Y (f i) <= i <= dest;
  g_U : Y (f i) < 0 -> forall v, Y (f i) <= v <= dest -> ~ U v;
  g_z : dest <> z0 }.
Definition place (f : table) (i dest d : Z) : Prop := Y (f i) <= d <= dest /\
  (forall t, d <= t < dest -> Y (f i) < Y (f t)) /\ (d = Y (f i) \/ Y (f (d - 1)) <= Y (f i)).

Lemma keep U f i dest d m f1 f2 : base f -> core U f -> W f -> (forall v, U v -> 0 <= v) -> inL i -> U i -> is_used (f i) ->
  goal U f i dest -> place f i dest d -> moved f i d dest f1 -> compacted f1 i m f2 ->
  (forall v, i <= v -> U (v + 1) -> U v) ->
  (forall v, i <= v -> inL (v + 1) -> (i < z0 -> v + 1 < z0) -> is_used (f (v + 1)) -> U v -> ~ pend U f (v + 1) -> 0 <= Y (f (v + 1))) ->
  base f2 /\ core U f2 /\ W f2 /\ (i < z0 -> i + m < z0) /\ i + m < z0 + n /\ ~ is_used (f2 (i + m)) /\ (dest < i \/ (i < z0 /\ z0 < Y (f i))) /\
  (forall v, i < v <= i + m -> is_used (f v)) /\
  forall v, inL v -> is_used (f2 v) -> origin f i d dest m f2 v.
Proof.
  intros B C Wf U0 Li Ui ui [G1 G2 G3 G4 G5 G6] (Hd & Gt & St) M Cm Ul Un. pose proof (U0 _ Ui) as i0.
  pose proof (Y_range _ (b_real _ B _ Li ui)) as Yr. assert (iz : i <> z0) by (intros ->; apply (b_z _ B z0); auto).
  assert (Nz : ~ d <= z0 <= dest).
  { intros q. destruct (Z.eq_dec z0 dest); [lia|]. destruct (G2 z0 ltac:(lia)) as [u _]. apply (b_z _ B z0); auto. }
  assert (Nz' : ~ Y (f i) <= z0 <= dest).
  { intros q. destruct (Z.eq_dec z0 dest); [lia|]. destruct (G2 z0 ltac:(lia)) as [u _]. apply (b_z _ B z0); auto. }
  assert (Hh : dest < i \/ (i < z0 /\ z0 < Y (f i))).
  { destruct (Wf i Li ui) as [q|q]; lia. }
  assert (B1 : base f1) by (eapply moved_base; [exact B|exact Li|exact ui|idtac..|exact M]; try lia; auto).
  pose proof M as (M1 & M2 & M3 & M4). pose proof Cm as (m0 & C1 & C2 & C3 & C4 & C5).
  assert (im : i + m < z0 + n). { destruct (Z_lt_dec (i + m) (z0 + n)); auto. exfalso. apply (b_z _ B1 (z0 + n)); auto. apply C4. unfold inL in *; lia. }
  assert (im' : i < z0 -> i + m < z0). { intros q. destruct (Z_lt_dec (i + m) z0); auto. exfalso. apply (b_z _ B1 z0); auto. apply C4. unfold inL in *; lia. }
  assert (B2 : base f2) by (eapply compacted_base; [exact B1|exact Li|exact M3|exact im|exact im'|exact iz|exact Cm]).
  assert (D : forall v, i < v <= i + m -> f1 v = f v) by (intros v Hv; apply M4; unfold inL in *; lia).
  assert (Og : forall v, inL v -> is_used (f2 v) -> origin f i d dest m f2 v).
  { intros v Lv uv. unfold origin. destruct (Z_le_dec i v) as [a|a].
    - destruct (Z_lt_dec v (i + m)) as [b|b].
      + right; right; left. destruct (C4 (v + 1) ltac:(lia)) as [q1 q2]. rewrite D in q1, q2 by lia. rewrite C1 by lia. rewrite D by lia. auto.
      + assert (v <> i + m) by (intros ->; tauto). rewrite C3 by (unfold inL in *; lia).
        destruct (Z.eq_dec v d) as [->|]; [left; auto|]. destruct (Z_le_dec d v); [destruct (Z_le_dec v dest)|].
        * right; left. rewrite M2 by lia. split; [lia|auto].
        * right; right; right. rewrite M4 by (unfold inL in *; lia). split; [lia|split; [lia|auto]].
        * right; right; right. rewrite M4 by (unfold inL in *; lia). split; [lia|split; [lia|auto]].
    - rewrite C3 by (unfold inL in *; lia).
        destruct (Z.eq_dec v d) as [->|]; [left; auto|]. destruct (Z_le_dec d v); [destruct (Z_le_dec v dest)|].
        * right; left. rewrite M2 by lia. split; [lia|auto].
        * right; right; right. rewrite M4 by (unfold inL in *; lia). split; [lia|split; [lia|auto]].
        * right; right; right. rewrite M4 by (unfold inL in *; lia). split; [lia|split; [lia|auto]]. }
  assert (Cu : forall v, i < v <= i + m -> is_used (f v)) by (intros v Hv; rewrite <- D by auto; apply C4; auto).
  split; [exact B2|]. split; [|split; [|split; [exact im'|split; [exact im|split; [exact C2|split; [exact Hh|split; [exact Cu|exact Og]]]]]]].
  - eapply compact_core; [exact B1|eapply move_core with (f := f); eauto; lia|exact Li|exact im|exact U0|exact Cm| |].
    + intros v Hv. apply Ul. lia.
    + intros v Hv Uv. unfold pend. rewrite D by lia. intros np. apply Un; auto; try lia; [unfold inL in *; lia|apply Cu; lia].
  - intros v Lv uv. destruct (Og v Lv uv) as [(-> & E)|[(Hv & E)|[(Hv & E & u1 & Ne)|(H1 & H2 & E)]]]; rewrite E in *.
    + left. lia.
    + left. destruct (G2 (v - 1) ltac:(lia)) as [a b]. destruct (C (v - 1) ltac:(unfold inL; lia) a b) as (c & _). lia.
    + destruct (Wf (v + 1)) as [q|q]; [unfold inL in *; lia|auto|left; lia|]. destruct (Z.eq_dec (v + 1) z0); [lia|]. right. lia.
    + apply Wf; auto.
Qed.

(** too many entries for a run of slots *)
Lemma crowded f o c b e : base f -> (o = 0 \/ o = n) -> z0 - n < c -> c <= b -> b <= z0 + n ->
  (forall v, c <= v < b -> is_used (f v) /\ c <= P (f v) + o < b) -> c <= P e + o < b ->
  (forall v, c <= v < b -> P (f v) <> P e) -> False.
Proof.
  intros B Ho Hc cb Hb H He Ne.
  pose proof (pigeon (fun v => if v =? b then P e + o else P (f v) + o) c (b + 1) c b ltac:(lia)) as G. cbv beta in G.
  assert (b + 1 - c <= b - c); [|lia]. apply G.
  - intros v Hv. destruct (Z.eqb_spec v b); [lia|]. apply H. lia.
  - intros v w Hv Hw E. destruct (Z.eqb_spec v b), (Z.eqb_spec w b); [lia| | |].
    + exfalso. apply (Ne w); lia.
    + exfalso. apply (Ne v); lia.
    + apply (b_inj _ B); try (unfold inL; lia); try (apply H; lia).
Qed.
Lemma room U f i lo b o (Ud : forall v, {U v} + {~ U v}) : base f -> core U f -> inL i -> is_used (f i) ->
  (o = 0 /\ lo = z0 - n /\ b <= z0 \/ o = n /\ lo = z0 /\ b <= z0 + n) -> ~ lo < i < b ->
  lo < Y (f i) <= b -> Y (f i) = X (f i) + o -> P (f i) + o < b ->
  (forall v, lo < v < b -> is_used (f v) -> P (f v) + o < b /\ (pend U f v -> v <= P (f v) + o)) ->
  exists dest, Y (f i) <= dest < b /\ ~ is_used (f dest) /\ forall w, Y (f i) <= w < dest -> is_used (f w).
Proof.
  intros B C Li ui Ho Ni Yr Ye Pe H.
  destruct (first_from (fun v => is_used (f v)) (fun v => used_dec (f v)) b (Y (f i)) ltac:(lia)) as [A|(d & D1 & D2 & D3)]; [|exists d; auto].
  exfalso. destruct (down_from (fun v => is_used (f v)) (fun v => used_dec (f v)) lo) with (a := Y (f i)) as (c & c1 & c2 & c3); [apply (b_z _ B); lia|lia|].
  assert (A' : forall v, c <= v < b -> is_used (f v)). { intros v Hv. destruct (Z_lt_dec v (Y (f i))); [apply c3|apply A]; lia. }
  pose proof (real_ok _ (b_real _ B _ Li ui)) as Re.
  apply (crowded f o c b (f i) B); try lia.
  - intros v Hv. split; [auto|]. assert (Lv : inL v) by (unfold inL; lia). destruct (H v ltac:(lia) (A' v Hv)) as [h1 h2]. split; [|auto].
    destruct (pend_dec U f Ud v) as [q|q]; [specialize (h2 q); lia|].
    destruct (C v Lv (A' v Hv) q) as (q1 & q2 & _). pose proof (real_ok _ (b_real _ B _ Lv (A' v Hv))) as Rv.
    destruct (same_half U f v B C Lv (A' v Hv) q) as [q3|q3]; assert (Y (f v) = X (f v) + o) by lia;
    (destruct (Z_le_dec c (Y (f v))); [lia|]; destruct (q2 (c - 1) ltac:(lia)) as [[]|]; tauto).
  - intros v Hv E. apply (b_inj _ B) in E; auto; [lia|unfold inL; lia].
Qed.

(** ** First the slots from k on *)
Definition U1 (i v : Z) : Prop := i <= v < n \/ 0 <= v < k.
Record inv1 (i : Z) (f : table) : Prop := {
  i1_base : base f; i1_core : core (U1 i) f; i1_W : W f;
  i1_A : forall v, 0 <= v < z0 -> is_used (f v) -> v <= P (f v);
  i1_B : forall v, z0 < v < z0 + n -> pend (U1 i) f v -> v <= P (f v) + n /\ P (f v) < 0;
  i1_neg : forall v, z0 - n < v < 0 -> is_used (f v) -> P (f v) < 0;
  i1_low : forall v, 0 <= v < k -> v < z0 -> is_used (f v) -> P (f v) = v }.
Lemma U1_dec i v : {U1 i v} + {~ U1 i v}.
Proof. unfold U1. destruct (Z_le_dec i v), (Z_lt_dec v n), (Z_le_dec 0 v), (Z_lt_dec v k); (left; lia) || (right; lia). Qed.
Lemma goal1 i f : inv1 i f -> k <= i < n -> pend (U1 i) f i -> exists dest, goal (U1 i) f i dest /\
  (i < z0 /\ n < Y (f i) \/ z0 < i /\ dest < 0).
Proof.
  intros [B C Wf IA IB IN IL] Hi Pi. pose proof Pi as (_ & ui & Pi'). assert (Li : inL i) by (unfold inL; lia).
  pose proof (real_ok _ (b_real _ B _ Li ui)) as Re. assert (iz : i <> z0) by (intros ->; apply (b_z _ B z0); auto).
  destruct (Z_lt_dec i z0) as [a|a].
  - pose proof (IA i ltac:(lia) ui). assert (Ye : Y (f i) = X (f i) + n) by (destruct (Wf i Li ui); lia).
    destruct (room (U1 i) f i z0 (z0 + n) n (U1_dec i) B C Li ui) as (dest & D1 & D2 & D3); try lia.
    { intros v Hv u. assert (Lv : inL v) by (unfold inL; lia). pose proof (real_ok _ (b_real _ B _ Lv u)). split; [lia|]. intros q. apply IB; auto. }
    exists dest. split; [|left; lia]. constructor; try lia; auto.
    intros w Hw. split; [apply D3; auto|]. intros (q & _). unfold U1 in q. lia.
  - destruct (IB i ltac:(lia) Pi) as [b1 b2]. assert (Yn : Y (f i) < 0). { destruct Pi' as [q|q]; auto. destruct (Wf i Li ui); lia. }
    assert (Ye : Y (f i) = X (f i)) by lia.
    destruct (room (U1 i) f i (z0 - n) 0 0 (U1_dec i) B C Li ui) as (dest & D1 & D2 & D3); try lia.
    { intros v Hv u. split; [specialize (IN v ltac:(lia) u); lia|]. intros (q & _). unfold U1 in q. lia. }
    exists dest. split; [|right; lia]. constructor; try lia; auto.
    + intros w Hw. split; [apply D3; auto|]. intros (q & _). unfold U1 in q. lia.
    + intros _ v Hv q. unfold U1 in q. lia.
Qed.
Lemma keep1 i f dest d m f1 f2 : inv1 i f -> k <= i < n -> pend (U1 i) f i -> goal (U1 i) f i dest -> (i < z0 /\ n < Y (f i) \/ z0 < i /\ dest < 0) ->
  place f i dest d -> moved f i d dest f1 -> compacted f1 i m f2 ->
  inv1 i f2 /\ i + m < z0 + n /\ ~ is_used (f2 (i + m)) /\ (forall v, i < v <= i + m -> is_used (f v)).
Proof.
  intros Iv Hi Pi G Hf Pl M Cm. pose proof Iv as [B C Wf IA IB IN IL]. pose proof Pi as (Ui & ui & _). assert (Li : inL i) by (unfold inL; lia).
  destruct (keep (U1 i) f i dest d m f1 f2 B C Wf) as (B2 & C2 & W2 & im & im' & fr & Hh & Cu & Og); auto.
  { unfold U1. lia. }
  { unfold U1. lia. }
  { intros v Hv Lv Hz u Uv np. destruct (same_half _ f (v + 1) B C Lv u np) as [q|q]; [|lia].
    pose proof (IA (v + 1) ltac:(lia) u). pose proof (real_ok _ (b_real _ B _ Lv u)). lia. }
  split; [|auto]. destruct G as [G1 G2 G3 G4 G5 G6]. pose proof Pl as (Hd & Gt & St).
  pose proof (real_ok _ (b_real _ B _ Li ui)) as Re.
  constructor; auto.
  - intros v Hv uv. assert (Lv : inL v) by (unfold inL; lia). destruct (Og v Lv uv) as [(-> & E)|[(Hv' & E)|[(Hv' & E & u1 & Ne)|(H1 & H2 & E)]]]; rewrite E in *; try lia.
    + pose proof (b_real _ B (v + 1) ltac:(unfold inL; lia) u1) as R. apply real_ok in R. destruct (Z_lt_dec i z0); [|lia]. specialize (IA (v + 1) ltac:(lia) u1). lia.
  - intros v Hv (Uv & uv & Pv). assert (Lv : inL v) by (unfold inL; lia). destruct (Og v Lv uv) as [(-> & E)|[(Hv' & E)|[(Hv' & E & u1 & Ne)|(H1 & H2 & E)]]]; rewrite E in *; try lia.
    + exfalso. destruct (G2 (v - 1) ltac:(lia)) as [a b]. destruct (C (v - 1) ltac:(unfold inL; lia) a b) as (c & _). specialize (Gt (v - 1) ltac:(lia)). lia.
    + assert (L1 : inL (v + 1)) by (unfold inL; lia). destruct (pend_dec _ f (U1_dec i) (v + 1)) as [q|q]; [destruct (IB (v + 1) ltac:(unfold inL in *; lia) q); lia|].
      exfalso. destruct (same_half _ f (v + 1) B C L1 u1 q) as [?|?]; [lia|]. destruct (C (v + 1) L1 u1 q) as (c & _). lia.
    + apply IB; auto. split; auto.
  - intros v Hv uv. assert (Lv : inL v) by (unfold inL; lia). destruct (Og v Lv uv) as [(-> & E)|[(Hv' & E)|[(Hv' & E & u1 & Ne)|(H1 & H2 & E)]]]; rewrite E in *; try lia.
    + destruct Hf as [?|[Hf _]]; [lia|]. apply (IB i ltac:(lia) Pi).
    + apply IN; [lia|auto].
  - intros v Hv Hv0 uv. assert (Lv : inL v) by (unfold inL; lia). destruct (Og v Lv uv) as [(-> & E)|[(Hv' & E)|[(Hv' & E & u1 & Ne)|(H1 & H2 & E)]]]; rewrite E in *; try lia.
Qed.
Lemma core_same U U' f : (forall v, inL v -> is_used (f v) -> (pend U f v <-> pend U' f v)) -> base f -> core U f -> core U' f.
Proof.
  intros E B C v Lv uv np. pose proof (Y_range _ (b_real _ B _ Lv uv)) as Yr. rewrite <- E in np by auto. destruct (C v Lv uv np) as (c1 & c2 & c3). split; auto. split; auto.
  intros w Hw. assert (Lw : inL w) by (unfold inL in *; lia). destruct (c3 w Hw) as [[]|[q|q]]; auto. right; left. apply E; auto. apply q.
Qed.
Lemma next1 i f : inv1 i f -> k <= i < n -> ~ pend (U1 i) f i -> inv1 (i + 1) f.
Proof.
  intros [B C Wf IA IB IN IL] Hi Np. 
  assert (E : forall v, pend (U1 i) f v <-> pend (U1 (i + 1)) f v).
  { intros v. split; intros (a & b & c); (split; [|auto]); unfold U1 in *; [|lia]. destruct (Z.eq_dec v i) as [->|]; [|lia]. exfalso. apply Np. split; auto. }
  constructor; auto.
  - eapply core_same; eauto.
  - intros v Hv q. apply IB; auto. apply E; auto.
Qed.

(** ** Then those below k *)
Definition U2 (i v : Z) : Prop := i <= v < k.
Record inv2 (i : Z) (f : table) : Prop := {
  i2_base : base f; i2_core : core (U2 i) f; i2_W : W f;
  i2_A : forall v, i <= v < z0 -> is_used (f v) -> v <= P (f v);
  i2_B : forall v, z0 < v < z0 + n -> pend (U2 i) f v -> v <= P (f v) + n;
  i2_M : forall v w, i <= v < z0 -> is_used (f v) -> Y (f v) < 0 -> z0 - n < w < v -> is_used (f w) -> Y (f w) < z0 -> Y (f w) <= Y (f v) }.
Lemma inv1_inv2 f : inv1 n f -> inv2 0 f.
Proof.
  intros [B C Wf IA IB IN IL].
  assert (E : forall v, pend (U1 n) f v <-> pend (U2 0) f v).
  { intros v. split; intros (a & b & c); (split; [|auto]); unfold U1, U2 in *; lia. }
  constructor; auto.
  - eapply core_same; eauto.
  - intros v Hv q. apply IB; auto. apply E; auto.
  - intros v w Hv uv Yv Hw uw Yw. assert (Lv : inL v) by (unfold inL; lia). assert (Lw : inL w) by (unfold inL; lia).
    pose proof (b_real _ B _ Lv uv) as Rv. pose proof (b_real _ B _ Lw uw) as Rw.
    pose proof (real_ok _ Rv) as rv. pose proof (real_ok _ Rw) as rw. pose proof (IA v Hv uv) as Av.
    pose proof (IL v ltac:(lia) ltac:(lia) uv) as Pv.
    assert (P (f w) < P (f v)). { destruct (Z_lt_dec w 0); [specialize (IN w ltac:(lia) uw); lia|]. rewrite Pv, (IL w) by (auto; lia). lia. }
    pose proof (sorted _ _ Rw Rv H). lia.
Qed.
Lemma U2_dec i v : {U2 i v} + {~ U2 i v}.
Proof. unfold U2. destruct (Z_le_dec i v), (Z_lt_dec v k); (left; lia) || (right; lia). Qed.
Lemma goal2 i f : inv2 i f -> 0 <= i < k -> pend (U2 i) f i ->
  (exists dest, goal (U2 i) f i dest /\ (i < z0 /\ k < Y (f i) \/ i < z0 /\ dest < i \/ z0 < i /\ Y (f i) < 0 /\ dest < z0)) \/
  (i < z0 /\ Y (f i) < 0 /\ forall w, Y (f i) <= w < i -> is_used (f w)).
Proof.
  intros [B C Wf IA IB IM] Hi Pi. pose proof Pi as (_ & ui & Pi'). assert (Li : inL i) by (unfold inL; lia).
  pose proof (real_ok _ (b_real _ B _ Li ui)) as Re. assert (iz : i <> z0) by (intros ->; apply (b_z _ B z0); auto).
  destruct (Z_lt_dec i z0) as [a|a].
  - pose proof (IA i ltac:(lia) ui) as Ai. destruct (Z_lt_dec (Y (f i)) 0) as [y0|y0].
    + destruct (first_from (fun v => is_used (f v)) (fun v => used_dec (f v)) i (Y (f i)) ltac:(lia)) as [A|(dest & D1 & D2 & D3)]; [right; auto|].
      left. exists dest. split; [|lia]. constructor; try lia; auto.
      * intros w Hw. split; [apply D3; auto|]. intros (q & _). unfold U2 in q. lia.
      * intros _ v Hv q. unfold U2 in q. lia.
    + assert (Ye : Y (f i) = X (f i) + n) by (destruct (Wf i Li ui); lia). left.
      destruct (room (U2 i) f i z0 (z0 + n) n (U2_dec i) B C Li ui) as (dest & D1 & D2 & D3); try lia.
      { intros v Hv u. assert (Lv : inL v) by (unfold inL; lia). pose proof (real_ok _ (b_real _ B _ Lv u)). split; [lia|]. intros q. apply IB; auto. }
      exists dest. split; [|left; lia]. constructor; try lia; auto.
      intros w Hw. split; [apply D3; auto|]. intros (q & _). unfold U2 in q. lia.
  - assert (Yn : Y (f i) < 0). { destruct Pi' as [q|q]; auto. destruct (Wf i Li ui); lia. }
    assert (Ye : Y (f i) = X (f i)) by lia. left.
    destruct (room (U2 i) f i (z0 - n) z0 0 (U2_dec i) B C Li ui) as (dest & D1 & D2 & D3); try lia.
    { intros v Hv u. assert (Lv : inL v) by (unfold inL; lia). pose proof (real_ok _ (b_real _ B _ Lv u)). split; [lia|]. intros (q & _). unfold U2 in q. lia. }
    exists dest. split; [|right; right; lia]. constructor; try lia; auto.
    + intros w Hw. split; [apply D3; auto|]. intros (q & _). unfold U2 in q. lia.
    + intros _ v Hv q. unfold U2 in q. lia.
Qed.
Lemma keep2 i f dest d m f1 f2 : inv2 i f -> 0 <= i < k -> pend (U2 i) f i -> goal (U2 i) f i dest ->
  (i < z0 /\ k < Y (f i) \/ i < z0 /\ dest < i \/ z0 < i /\ Y (f i) < 0 /\ dest < z0) ->
  place f i dest d -> moved f i d dest f1 -> compacted f1 i m f2 ->
  inv2 i f2 /\ i + m < z0 + n /\ ~ is_used (f2 (i + m)) /\ (forall v, i < v <= i + m -> is_used (f v)).
Proof.
  intros Iv Hi Pi G Hf Pl M Cm. pose proof Iv as [B C Wf IA IB IM]. pose proof Pi as (Ui & ui & _). assert (Li : inL i) by (unfold inL; lia).
  destruct (keep (U2 i) f i dest d m f1 f2 B C Wf) as (B2 & C2 & W2 & im & im' & fr & Hh & Cu & Og); auto.
  { unfold U2. lia. }
  { unfold U2. lia. }
  { intros v Hv Lv Hz u Uv np. destruct (same_half _ f (v + 1) B C Lv u np) as [q|q]; [|lia].
    pose proof (IA (v + 1) ltac:(lia) u). pose proof (real_ok _ (b_real _ B _ Lv u)).
    destruct (Z_lt_dec (v + 1) k); [|lia]. destruct (Z_lt_dec (Y (f (v + 1))) 0); [|lia]. exfalso. apply np. split; [unfold U2; lia|auto]. }
  split; [|auto]. destruct G as [G1 G2 G3 G4 G5 G6]. pose proof Pl as (Hd & Gt & St).
  pose proof (real_ok _ (b_real _ B _ Li ui)) as Re.
  constructor; auto.
  - intros v Hv uv. assert (Lv : inL v) by (unfold inL; lia). destruct (Og v Lv uv) as [(-> & E)|[(Hv' & E)|[(Hv' & E & u1 & Ne)|(H1 & H2 & E)]]]; rewrite E in *; try lia.
    + specialize (IA (v + 1) ltac:(lia) u1). lia.
  - intros v Hv (Uv & uv & Pv). assert (Lv : inL v) by (unfold inL; lia). unfold U2 in Uv. destruct (Og v Lv uv) as [(-> & E)|[(Hv' & E)|[(Hv' & E & u1 & Ne)|(H1 & H2 & E)]]]; rewrite E in *; try lia.
    + assert (L1 : inL (v + 1)) by (unfold inL; lia). destruct (pend_dec _ f (U2_dec i) (v + 1)) as [q|q]; [specialize (IB (v + 1) ltac:(unfold inL in *; lia) q); lia|].
      exfalso. destruct (same_half _ f (v + 1) B C L1 u1 q) as [?|?]; [lia|]. destruct (C (v + 1) L1 u1 q) as (c & _). lia.
    + apply IB; auto. split; auto.
  - (* what is at v comes from v' >= i, and what is left of it from the left of v' *)
    intros v w Hv uv Yv Hw uw Yw. assert (Lv : inL v) by (unfold inL; lia). assert (Lw : inL w) by (unfold inL; lia).
    assert (Sv : exists v', i < v' < z0 /\ (v' = v \/ v' = v + 1) /\ f2 v = f v' /\ (v' = v -> i + m < v)).
    { destruct (Og v Lv uv) as [(-> & E)|[(Hv' & E)|[(Hv' & E & u1 & Ne)|(H1 & H2 & E)]]]; rewrite E in *; try lia.
      - exists (v + 1). repeat split; lia.
      - pose proof (proj1 Cm). exists v. repeat split; auto; lia. }
    destruct Sv as (v' & V1 & V2 & V3 & V4). rewrite V3 in *.
    assert (Sw : exists w', z0 - n < w' < v' /\ f2 w = f w').
    { destruct (Og w Lw uw) as [(-> & E)|[(Hw' & E)|[(Hw' & E & u1 & Ne)|(H1 & H2 & E)]]].
      - exists i. split; auto. unfold inL in *; lia.
      - exists (w - 1). split; auto. lia.
      - exists (w + 1). split; auto. unfold inL in *. lia.
      - exists w. split; auto. lia. }
    destruct Sw as (w' & W1 & W3). rewrite W3 in *. apply (IM v' w'); auto. lia.
Qed.
Lemma next2 i f : inv2 i f -> 0 <= i < k -> ~ pend (U2 i) f i -> inv2 (i + 1) f.
Proof.
  intros [B C Wf IA IB IM] Hi Np.
  assert (E : forall v, pend (U2 i) f v <-> pend (U2 (i + 1)) f v).
  { intros v. split; intros (a & b & c); (split; [|auto]); unfold U2 in *; [|lia]. destruct (Z.eq_dec v i) as [->|]; [|lia]. exfalso. apply Np. split; auto. }
  constructor; auto.
  - eapply core_same; eauto.
  - intros v Hv. apply IA. lia.
  - intros v Hv q. apply IB; auto. apply E; auto.
  - intros v w Hv. apply IM. lia.
Qed.
(** an entry that was left of slot 0 before, and cannot get there: it can be found where it is *)
Lemma stay2 i f : inv2 i f -> 0 <= i < k -> pend (U2 i) f i -> i < z0 -> Y (f i) < 0 -> (forall w, Y (f i) <= w < i -> is_used (f w)) -> inv2 (i + 1) f.
Proof.
  intros [B C Wf IA IB IM] Hi Pi iz Yi Fu. pose proof Pi as (_ & ui & _). assert (Li : inL i) by (unfold inL; lia).
  pose proof (Y_range _ (b_real _ B _ Li ui)) as Yr.
  assert (E : forall v, v <> i -> (pend (U2 i) f v <-> pend (U2 (i + 1)) f v)).
  { intros v Nv. split; intros (a & b & c); (split; [|auto]); unfold U2 in *; lia. }
  constructor; auto.
  - intros v Lv uv np. destruct (Z.eq_dec v i) as [->|Nv].
    + split; [lia|]. split; [intros w Hw; right; destruct (Z.eq_dec w i) as [->|]; [auto|apply Fu; lia]|].
      intros w Hw. right; right. assert (uw : is_used (f w)) by (apply Fu; lia). assert (Lw : inL w) by (unfold inL; lia).
      apply IM; auto; try lia. destruct (Wf w Lw uw) as [q|q]; [lia|]. exfalso.
      assert (Npw : ~ pend (U2 i) f w) by (intros (q' & _); unfold U2 in q'; lia). destruct (C w Lw uw Npw) as (c & _). lia.
    + rewrite <- E in np by auto. destruct (C v Lv uv np) as (c1 & c2 & c3). split; auto. split; auto.
      intros w Hw. destruct (Z.eq_dec w i) as [->|Nw].
      * right; right. destruct (Z_lt_dec (Y (f v)) 0) as [y0|y0]; [|lia]. exfalso.
        destruct (same_half _ f v B C Lv uv np) as [q|q]; [|lia]. pose proof (real_ok _ (b_real _ B _ Lv uv)). pose proof (IA v ltac:(lia) uv).
        apply np. split; [unfold U2; lia|auto].
      * destruct (c3 w Hw) as [[]|[q|q]]; auto. right; left. apply E; auto.
  - intros v Hv. apply IA. lia.
  - intros v Hv q. apply IB; auto. apply E; auto. lia.
  - intros v w Hv. apply IM. lia.
Qed.

(** ** At the end *)
Lemma end_order f : inv2 k f -> forall v, inL v -> is_used (f v) -> Y (f v) <= v /\ v - Y (f v) < k /\
  (Y (f v) = v \/ is_used (f (v - 1)) /\ Y (f (v - 1)) <= v - 1 /\ Y (f (v - 1)) <= Y (f v)).
Proof.
  intros [B C Wf IA IB IM] v Lv uv.
  assert (Np : forall w, ~ pend (U2 k) f w) by (intros w (q & _); unfold U2 in q; lia).
  destruct (C v Lv uv (Np v)) as (c1 & c2 & c3). split; auto. split.
  - destruct (same_half _ f v B C Lv uv (Np v)) as [(q1 & q2 & q3)|(q1 & q2 & q3)].
    + destruct (down_from (fun v => is_used (f v)) (fun v => used_dec (f v)) (z0 - n)) with (a := Y (f v)) as (c & d1 & d2 & d3); [apply (b_z _ B); auto|pose proof (real_ok _ (b_real _ B _ Lv uv)); lia|].
      assert (A : forall w, c <= w <= v -> is_used (f w)). { intros w Hw. destruct (Z_lt_dec w (Y (f v))); [apply d3; lia|]. destruct (c2 w) as [[]|]; [lia|auto]. }
      enough (v + 1 - c <= Y (f v) + k - c) by lia. apply (pigeon (fun w => P (f w))); [lia| |].
      * intros w Hw. assert (Lw : inL w) by (unfold inL in *; lia). assert (uw : is_used (f w)) by (apply A; lia). pose proof (real_ok _ (b_real _ B _ Lw uw)) as R.
        destruct (same_half _ f w B C Lw uw (Np w)) as [q4|q4]; [|lia]. destruct (C w Lw uw (Np w)) as (e1 & e2 & e3).
        assert (c <= Y (f w)) by (destruct (Z_le_dec c (Y (f w))); auto; destruct (e2 (c - 1) ltac:(lia)) as [[]|]; tauto).
        assert (Y (f w) <= Y (f v)); [|lia]. destruct (Z.eq_dec w v) as [->|]; [lia|].
        destruct (Z_le_dec (Y (f v)) w); [|lia]. destruct (c3 w ltac:(lia)) as [[]|[q|q]]; [exfalso; apply (Np _ q)|auto].
      * intros w w' Hw Hw' E. apply (b_inj _ B) in E; auto; try (apply A; lia); unfold inL in *; lia.
    + destruct (down_from (fun v => is_used (f v)) (fun v => used_dec (f v)) z0) with (a := Y (f v)) as (c & d1 & d2 & d3); [apply (b_z _ B); auto|lia|].
      assert (A : forall w, c <= w <= v -> is_used (f w)). { intros w Hw. destruct (Z_lt_dec w (Y (f v))); [apply d3; lia|]. destruct (c2 w) as [[]|]; [lia|auto]. }
      enough (v + 1 - c <= Y (f v) + k - c) by lia. apply (pigeon (fun w => P (f w) + n)); [lia| |].
      * intros w Hw. assert (Lw : inL w) by (unfold inL in *; lia). assert (uw : is_used (f w)) by (apply A; lia). pose proof (real_ok _ (b_real _ B _ Lw uw)) as R.
        destruct (same_half _ f w B C Lw uw (Np w)) as [q4|q4]; [lia|]. destruct (C w Lw uw (Np w)) as (e1 & e2 & e3).
        assert (c <= Y (f w)) by (destruct (Z_le_dec c (Y (f w))); auto; destruct (e2 (c - 1) ltac:(lia)) as [[]|]; tauto).
        assert (Y (f w) <= Y (f v)); [|lia]. destruct (Z.eq_dec w v) as [->|]; [lia|].
        destruct (Z_le_dec (Y (f v)) w); [|lia]. destruct (c3 w ltac:(lia)) as [[]|[q|q]]; [exfalso; apply (Np _ q)|auto].
      * intros w w' Hw Hw' E. assert (E' : P (f w) = P (f w')) by lia. apply (b_inj _ B) in E'; auto; try (apply A; lia); unfold inL in *; lia.
  - destruct (Z.eq_dec (Y (f v)) v) as [|Ny]; [left; auto|right]. pose proof (Y_range _ (b_real _ B _ Lv uv)) as Yr.
    destruct (c2 (v - 1) ltac:(lia)) as [[]|u]. split; auto. assert (L1 : inL (v - 1)) by (unfold inL in *; lia).
    destruct (C _ L1 u (Np _)) as (e1 & _). split; auto. destruct (c3 (v - 1) ltac:(lia)) as [[]|[q|q]]; [exfalso; apply (Np _ q)|auto].
Qed.
(** ** At the start *)
Lemma start f : base f -> (forall v, inL v -> is_used (f v) -> 0 <= v < n /\ (v < z0 -> P (f v) = v) /\ (z0 < v -> P (f v) + n = v)) ->
  (forall v w, inL v -> is_used (f v) -> X (f v) <= w <= P (f v) -> z0 - n < w -> is_used (f (if w <? 0 then w + n else w))) -> inv1 k f.
Proof.
  intros B H F.
  assert (Pr : forall v, inL v -> is_used (f v) -> ~ pend (U1 k) f v -> v < z0 /\ 0 <= X (f v) /\ Y (f v) = X (f v) \/ z0 < v /\ Y (f v) = X (f v) + n).
  { intros v Lv uv np. destruct (H v Lv uv) as (h1 & h2 & h3). assert (v <> z0) by (intros ->; apply (b_z _ B z0); auto).
    pose proof (real_ok _ (b_real _ B _ Lv uv)) as R. assert (Uv : U1 k v) by (unfold U1; lia).
    assert (np' : ~ (v < Y (f v) \/ Y (f v) < 0)) by (intros q; apply np; split; auto). lia. }
  constructor; auto.
  - intros v Lv uv np. destruct (H v Lv uv) as (h1 & h2 & h3). pose proof (real_ok _ (b_real _ B _ Lv uv)) as R.
    destruct (Pr v Lv uv np) as [(q1 & q2 & q3)|(q1 & q2)]; (split; [lia|]).
    + split.
      * intros w Hw. right. pose proof (F v w Lv uv ltac:(lia) ltac:(lia)) as G. destruct (Z.ltb_spec w 0); [lia|auto].
      * intros w Hw. pose proof (F v w Lv uv ltac:(lia) ltac:(lia)) as G. destruct (Z.ltb_spec w 0); [lia|].
        assert (Lw : inL w) by (unfold inL in *; lia). destruct (pend_dec (U1 k) f (U1_dec k) w) as [q|q]; [auto|]. right; right.
        destruct (Pr w Lw G q) as [(r1 & r2 & r3)|(r1 & r2)]; [|lia]. destruct (H w Lw G) as (h4 & h5 & h6).
        pose proof (sorted _ _ (b_real _ B _ Lw G) (b_real _ B _ Lv uv) ltac:(lia)). lia.
    + split.
      * intros w Hw. right. pose proof (F v (w - n) Lv uv ltac:(lia) ltac:(lia)) as G. destruct (Z.ltb_spec (w - n) 0); [|lia]. replace (w - n + n) with w in G by lia. auto.
      * intros w Hw. pose proof (F v (w - n) Lv uv ltac:(lia) ltac:(lia)) as G. destruct (Z.ltb_spec (w - n) 0); [|lia]. replace (w - n + n) with w in G by lia.
        assert (Lw : inL w) by (unfold inL in *; lia). destruct (pend_dec (U1 k) f (U1_dec k) w) as [q|q]; [auto|]. right; right.
        destruct (Pr w Lw G q) as [(r1 & r2 & r3)|(r1 & r2)]; [lia|]. destruct (H w Lw G) as (h4 & h5 & h6).
        pose proof (sorted _ _ (b_real _ B _ Lw G) (b_real _ B _ Lv uv) ltac:(lia)). lia.
  - intros v Lv uv. destruct (H v Lv uv) as (h1 & h2 & h3). pose proof (real_ok _ (b_real _ B _ Lv uv)) as R.
    assert (v <> z0) by (intros ->; apply (b_z _ B z0); auto). lia.
  - intros v Hv uv. destruct (H v ltac:(unfold inL; lia) uv) as (h1 & h2 & h3). lia.
  - intros v Hv (Uv & uv & _). destruct (H v ltac:(unfold inL; lia) uv) as (h1 & h2 & h3). lia.
  - intros v Hv uv. destruct (H v ltac:(unfold inL; lia) uv) as (h1 & h2 & h3). lia.
  - intros v Hv Hz uv. destruct (H v ltac:(unfold inL; lia) uv) as (h1 & h2 & h3). lia.
Qed.
End LINE.
