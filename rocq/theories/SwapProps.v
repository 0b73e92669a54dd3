(** C49: swapping two array ranges exchanges exactly their contents. *)
From Verif Require Import CommonLemmas SwapModel.

Section P.
Context {T : Type} (junk : T).
Local Lemma upd_mid (a b : list T) x y : upd (a ++ x :: b) (length a) y = Some (a ++ y :: b).
Proof. induction a as [|z a IH]; cbn; [reflexivity|]. rewrite IH. reflexivity. Qed.
Local Lemma memswap_spec (xa xb : list T) : length xa = length xb -> forall pa ra pb rb,
  memswap (length xa) (pa ++ xa ++ ra) (length pa) (pb ++ xb ++ rb) (length pb) = Some (pa ++ xb ++ ra, pb ++ xa ++ rb).
Proof.
  revert xb. induction xa as [|x xa IH]; intros [|y xb] e pa ra pb rb; cbn in e; try discriminate; [reflexivity|].
  cbn [length memswap app]. rewrite !nth_error_mid. cbn [obind]. rewrite upd_mid. cbn [obind]. rewrite upd_mid. cbn [obind].
  specialize (IH xb ltac:(lia) (pa ++ [y]) ra (pb ++ [x]) rb). rewrite !app_length in IH. cbn [length] in IH. rewrite !Nat.add_1_r in IH.
  rewrite <- !app_assoc in IH. exact IH.
Qed.
Local Lemma firstn_len (a b : list T) n : n = length a -> firstn n (a ++ b) = a.
Proof. intros ->. apply firstn_mid. Qed.
Local Lemma skipn_len (a b : list T) n : n = length a -> skipn n (a ++ b) = b.
Proof. intros ->. rewrite skipn_app, skipn_all, Nat.sub_diag. reflexivity. Qed.
Local Lemma memcpy_spec (pd xd rd ps xs rs : list T) d s n : d = length pd -> s = length ps -> n = length xs -> n = length xd ->
  memcpy (pd ++ xd ++ rd) d (ps ++ xs ++ rs) s n = Some (pd ++ xs ++ rd).
Proof.
  intros -> -> e1 e2. unfold memcpy. rewrite !app_length.
  rewrite (proj2 (Nat.leb_le _ _)) by lia. rewrite (proj2 (Nat.leb_le _ _)) by lia. cbn [andb].
  rewrite firstn_len by reflexivity. rewrite (skipn_len ps) by reflexivity. rewrite (firstn_len xs) by exact e1.
  rewrite (app_assoc pd xd rd). rewrite (skipn_len (pd ++ xd)) by (rewrite app_length; lia). reflexivity.
Qed.
Local Lemma swap_core_spec (ps ms rs pl ml rl : list T) : length ms <= length ml ->
  swap_core junk (ps ++ ms ++ rs) (length ps) (length rs) (pl ++ ml ++ rl) (length pl) (length rl) = Some (ps ++ ml ++ rs, pl ++ ms ++ rl).
Proof.
  intros le. unfold swap_core.
  assert (e1 : length (ps ++ ms ++ rs) - (length ps + length rs) = length ms) by (rewrite !app_length; lia).
  assert (e2 : length (pl ++ ml ++ rl) - (length pl + length rl) = length ml) by (rewrite !app_length; lia).
  rewrite e1, e2. destruct (Nat.ltb_spec (length ms) (length ml)) as [lt|ge].
  - unfold range_grow. rewrite e1. rewrite (app_assoc ps ms rs).
    rewrite firstn_len, skipn_len by (rewrite app_length; lia).
    (* split the longer one *)
    pose proof (firstn_skipn (length ms) ml) as sp. set (m1 := firstn (length ms) ml) in *. set (m2 := skipn (length ms) ml) in *.
    assert (l1 : length m1 = length ms) by (unfold m1; rewrite firstn_length; lia).
    assert (l2 : length m2 = length ml - length ms) by (unfold m2; rewrite skipn_length; lia).
    clearbody m1 m2. rewrite <- sp. rewrite <- !app_assoc.
    pose proof (memswap_spec ms m1 (eq_sym l1) ps (repeat junk (length (m1 ++ m2) - length ms) ++ rs) pl (m2 ++ rl)) as q.
    rewrite q. cbn [obind fst snd].
    pose proof (memcpy_spec (ps ++ m1) (repeat junk (length (m1 ++ m2) - length ms)) rs (pl ++ ms) m2 rl (length ps + length ms) (length pl + length ms) (length (m1 ++ m2) - length ms)) as q2.
    rewrite <- !app_assoc in q2. rewrite q2 by (rewrite ?app_length, ?repeat_length, ?app_length; lia). cbn [obind].
    destruct (Nat.eqb_spec (length rl) 0) as [z|nz].
    + destruct rl; [|discriminate]. cbn [obind length]. rewrite Nat.add_0_r.
      rewrite (app_assoc pl ms (m2 ++ [])). rewrite firstn_len by (rewrite app_length; lia). rewrite !app_nil_r. reflexivity.
    + unfold memmove, memcpy. rewrite !app_length.
      rewrite (proj2 (Nat.leb_le _ _)) by lia. rewrite (proj2 (Nat.leb_le _ _)) by lia. cbn [andb obind].
      rewrite (app_assoc pl ms (m2 ++ rl)). rewrite (firstn_len (pl ++ ms)) by (rewrite app_length; lia).
      rewrite (app_assoc (pl ++ ms) m2 rl). rewrite (skipn_len ((pl ++ ms) ++ m2)) by (rewrite !app_length; lia).
      rewrite firstn_all.
      set (tl := skipn (length pl + length ms + length rl) _).
      rewrite (app_assoc (pl ++ ms) rl tl). rewrite firstn_len by (rewrite !app_length; lia). rewrite <- !app_assoc. reflexivity.
  - rewrite (memswap_spec ms ml) by lia. cbn [obind fst snd]. reflexivity.
Qed.
End P.

(** swap(a[La .. -Ra], b[Lb .. -Rb]) of two different arrays, whichever of the ranges is longer, and whatever surrounds
    them: the ranges trade places, all else stays, nothing is read or written out of bounds and no junk is left. *)
Theorem swap_exchanges_the_ranges : forall T (junk : T) (pa ma ra pb mb rb : list T),
  swap_mut junk (pa ++ ma ++ ra) (length pa) (length ra) (pb ++ mb ++ rb) (length pb) (length rb) = Some (pa ++ mb ++ ra, pb ++ ma ++ rb).
Proof.
  intros T junk pa ma ra pb mb rb. unfold swap_mut.
  destruct (Nat.eqb_spec (length pa) 0) as [z1|]; cbn [andb].
  destruct (Nat.eqb_spec (length ra) 0) as [z2|]; cbn [andb].
  destruct (Nat.eqb_spec (length pb) 0) as [z3|]; cbn [andb].
  destruct (Nat.eqb_spec (length rb) 0) as [z4|]; cbn [andb].
  1: { apply length_zero_iff_nil in z1, z2, z3, z4. subst. cbn. rewrite !app_nil_r. reflexivity. }
  all: unfold swap_ranges;
    assert (e1 : length (pa ++ ma ++ ra) - (length pa + length ra) = length ma) by (rewrite !app_length; lia);
    assert (e2 : length (pb ++ mb ++ rb) - (length pb + length rb) = length mb) by (rewrite !app_length; lia);
    rewrite e1, e2; destruct (Nat.ltb_spec (length ma) (length mb)); rewrite swap_core_spec by lia; reflexivity.
Qed.
Print Assumptions swap_exchanges_the_ranges.

(** swap(a, i, j) (view_swap.h:11-14) exchanges two elements. *)
Theorem swap_exchanges_two_elements : forall T (l : list T) i j x y, nth_error l i = Some x -> nth_error l j = Some y ->
  exists l', swap_at i j l = Some l' /\ length l' = length l /\ nth_error l' i = Some y /\ nth_error l' j = Some x /\
    forall k, k <> i -> k <> j -> nth_error l' k = nth_error l k.
Proof.
  intros T l i j x y hi hj. unfold swap_at. rewrite hi, hj. cbn [obind].
  pose proof (nth_error_lt _ _ _ hi) as li. pose proof (nth_error_lt _ _ _ hj) as lj.
  destruct (upd_total l i y li) as [l1 e1]. rewrite e1. cbn [obind]. destruct (upd_Some _ _ _ _ e1) as (_ & n1 & s1 & o1).
  destruct (upd_total l1 j x ltac:(lia)) as [l2 e2]. exists l2. destruct (upd_Some _ _ _ _ e2) as (_ & n2 & s2 & o2).
  refine (conj e2 (conj _ (conj _ (conj s2 _)))).
  - lia.
  - destruct (Nat.eq_dec i j) as [->|n]; [congruence|]. rewrite o2 by congruence. exact s1.
  - intros k ki kj. rewrite o2 by congruence. apply o1. congruence.
Qed.
Print Assumptions swap_exchanges_two_elements.

Example swap_ex : swap_mut 0 [1; 2; 3; 4] 1 1 [5; 6; 7; 8; 9] 0 1 = Some ([1; 5; 6; 7; 8; 4], [2; 3; 9]).
Proof. reflexivity. Qed.
Example swap_ex2 : swap_at 0 2 [1; 2; 3] = Some [3; 2; 1].
Proof. reflexivity. Qed.
