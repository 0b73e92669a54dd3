(** C08: an edit through a mutable range changes exactly the elements of the range.

    [r] is a vec_range over variable [r_var r]; [within r l] says it lies inside a
    vec holding [l]; [denotes r l] are the elements it covers.  [rspec] (RangeSpec.v)
    is what the edit should do to those elements alone. *)
From Verif Require Import RangeSpec VecPackProofs CommonLemmas VecInv VecApi VecApi2 VecProofs VecMore WordsLemmas RangeProofs.
Open Scope nat_scope.

(** One edit, in any reachable state: the elements before and after the range stay,
    the range (same trims) now denotes the edited elements, and no other variable
    (except a moved-from source) changes.  Excluded: appending with a deletion count
    and the self-assignment shortcut, both refuted below. *)
Theorem range_edit_changes_exactly_the_range :
  forall (A : Type) (dflt : A) (e : elt) (ops : list (op A)) (s : vars A) m r o l mid',
    (0 < esz e < 2 ^ 31)%Z ->
    srun (SHAREABLE e) dflt ops [] = Some s -> run dflt e ops start = Ok m ->
    var s (r_var r) = Some l -> within r l ->
    rspec dflt (SHAREABLE e) (r_var r) s o (denotes r l) = Some mid' ->
    fitsb (length l + radd s o (denotes r l)) = true ->
    trimmed_append o = true -> whole_prefix r o l = false ->
    rexec dflt e o r m = Exit \/
    exists m' pre suf, rexec dflt e o r m = Ok m' /\
      l = pre ++ denotes r l ++ suf /\
      read_var e m' (r_var r) = Ok (map Some (pre ++ mid' ++ suf)) /\
      within r (pre ++ mid' ++ suf) /\ denotes r (pre ++ mid' ++ suf) = mid' /\
      forall k lk, ~ In k (rwrites (r_var r) o) -> var s k = Some lk -> read_var e m' k = Ok (map Some lk).
Proof.
  intros A dflt e ops s m r o l mid' He E X V W RS F TA WP.
  destruct (run_refines dflt e He ops _ _ _ (R_start e) E) as [Y|(m0 & Y & HR)]; [congruence|].
  assert (m0 = m) by congruence. subst m0.
  destruct (split_within r l W) as (pre & suf & EL & HL & HRt).
  pose proof W as (W0 & _). rewrite EL in V, WP. rewrite EL in F at 1.
  destruct (rexec_ok dflt e He m s r o pre (denotes r l) suf mid' HR W0 HL HRt V RS F TA WP)
    as [Z|(m' & Z & s' & HR' & V' & FR & _)]; [auto|].
  right. exists m', pre, suf. split; [exact Z|]. split; [exact EL|].
  split; [eapply R_read; eauto|]. split; [|split].
  - split; [exact W0|]. rewrite HL, HRt, !app_length. lia.
  - unfold denotes. rewrite HL, HRt, !Nat2Z.id, !app_length.
    rewrite skipn_app, skipn_all, Nat.sub_diag. cbn [app skipn].
    replace (length pre + (length mid' + length suf) - length pre - length suf) with (length mid') by lia.
    rewrite firstn_app, firstn_all, Nat.sub_diag, firstn_O. apply app_nil_r.
  - intros k lk N Vk. eapply R_read; eauto.
Qed.
Print Assumptions range_edit_changes_exactly_the_range.

Local Lemma cl_m0 q : max0 q = Z.max 0 q.
Proof. unfold max0; destruct (Z.ltb_spec 0 q); lia. Qed.
Local Lemma cl_m1 a b : (if (a <? b)%Z then a else b) = Z.min a b.
Proof. destruct (Z.ltb_spec a b); lia. Qed.
Local Lemma cl_m3 a : (if (0 <? a)%Z then 0 else - a)%Z = Z.max 0 (- a).
Proof. destruct (Z.ltb_spec 0 a); lia. Qed.
Local Lemma cl_m4 a b : (if (a <? b)%Z then b else a) = Z.max a b.
Proof. destruct (Z.ltb_spec a b); lia. Qed.
Local Lemma cl_min x n : (0 <= n)%Z -> clampZ x n = Z.min (Z.max 0 x) n.
Proof. unfold clampZ. lia. Qed.
Local Lemma cl_again x n : (0 <= n)%Z -> Z.min (Z.max 0 (Z.min (Z.max 0 x) n)) n = Z.min (Z.max 0 x) n.
Proof. lia. Qed.
Local Lemma cl_rest x n : (0 <= n)%Z -> (0 <= n - Z.min (Z.max 0 x) n)%Z.
Proof. lia. Qed.

(** Release build, arguments outside the contract: the edit is the one with every
    argument clamped into the range, so by the theorem above it still cannot touch an
    element outside the range.  (An out-of-range element write, [RSet], is the poison
    dereference, [UB] here.) *)
Theorem range_edit_clamps_its_arguments :
  forall (A : Type) (dflt : A) (e : elt) (m : machine A) (s : vars A) r o l,
    (0 < esz e < 2 ^ 31)%Z -> (exists ops, srun (SHAREABLE e) dflt ops [] = Some s /\ run dflt e ops start = Ok m) ->
    var s (r_var r) = Some l -> within r l ->
    rexec dflt e o r m = rexec dflt e (sanitized (Z.of_nat (length (denotes r l))) o) r m.
Proof.
  intros A dflt e m s r o l He (ops & E & X) V W.
  destruct (run_refines dflt e He ops _ _ _ (R_start e) E) as [Y|(m0 & Y & HR)]; [congruence|].
  assert (m0 = m) by congruence. subst m0.
  destruct (R_get e _ _ _ _ HR V) as (v & G & _ & _ & _ & I0).
  unfold rexec. rewrite G. cbn [rbind]. rewrite (Inv_size e He _ _ _ _ I0). clear V E X HR Y G I0.
  assert (EN : Z.of_nat (length (denotes r l)) = rsize (Z.of_nat (length l)) r).
  { destruct W as (_ & W1 & W2 & W3). unfold denotes, rsize. rewrite firstn_length, skipn_length. lia. }
  rewrite EN. assert (EP : (0 <= rsize (Z.of_nat (length l)) r)%Z) by lia.
  assert (SV : src_var (sanitized (rsize (Z.of_nat (length l)) r) o) = src_var o) by (destruct o; reflexivity).
  assert (C : forall nw, compile o (Z.of_nat (length l)) nw r = compile (sanitized (rsize (Z.of_nat (length l)) r) o) (Z.of_nat (length l)) nw r).
  { intros nw. destruct o; cbn [sanitized compile]; try reflexivity.
    all: revert EP; generalize (rsize (Z.of_nat (length l)) r) as nn; intros nn EP.
    all: rewrite ?cl_min by first [exact EP | rewrite cl_min by exact EP; apply cl_rest; exact EP].
    all: cbv zeta; rewrite ?cl_m3; repeat first [rewrite cl_m0 | rewrite cl_m1 | rewrite cl_m4].
    all: rewrite ?cl_min by (apply cl_rest; exact EP).
    all: rewrite ?(Z.min_comm nn (Z.max 0 _)).
    all: rewrite ?(Z.min_comm (nn - _) (Z.max 0 _)).
    all: rewrite ?cl_again by exact EP.
    all: rewrite ?cl_again by (apply cl_rest; exact EP).
    all: try reflexivity.
    all: f_equal; f_equal; first [reflexivity | clear -EP; lia]. }
  rewrite SV. destruct (match src_var o with Some j => _ | None => _ end) as [nw| |]; cbn [rbind]; [rewrite <- C|..]; reflexivity.
Qed.
Print Assumptions range_edit_clamps_its_arguments.

(** Any sequence of edits through one range. *)
Theorem range_edits_stay_inside_the_range :
  forall (A : Type) (dflt : A) (e : elt) (ops : list (op A)) (s : vars A) m r os pre mid suf mid',
    (0 < esz e < 2 ^ 31)%Z ->
    srun (SHAREABLE e) dflt ops [] = Some s -> run dflt e ops start = Ok m ->
    var s (r_var r) = Some (pre ++ mid ++ suf) -> within r (pre ++ mid ++ suf) ->
    Left r = Z.of_nat (length pre) -> Right r = Z.of_nat (length suf) ->
    rspecs dflt (SHAREABLE e) r s os pre mid suf = Some mid' ->
    rrun dflt e os r m = Exit \/
    exists m', rrun dflt e os r m = Ok m' /\
      read_var e m' (r_var r) = Ok (map Some (pre ++ mid' ++ suf)) /\
      forall k lk, k <> r_var r -> var s k = Some lk -> read_var e m' k = Ok (map Some lk).
Proof.
  intros A dflt e ops s m r os pre mid suf mid' He E X V (W & _) HL HRt RS.
  destruct (run_refines dflt e He ops _ _ _ (R_start e) E) as [Y|(m0 & Y & HR)]; [congruence|].
  assert (m0 = m) by congruence. subst m0.
  destruct (rrun_ok dflt e He r pre suf W HL HRt os m s mid mid' HR V RS) as [Z|(m' & Z & s' & HR' & V' & FR)]; [auto|].
  right. exists m'. split; [exact Z|]. split; [eapply R_read; eauto|].
  intros k lk N Vk. eapply R_read; eauto.
Qed.
Print Assumptions range_edits_stay_inside_the_range.

(** Taking a range of a vec or of a range.  For bounds in contract it denotes exactly
    the requested elements. *)
Theorem get_range_denotes_the_slice :
  forall (A : Type) (l : list A) (r : range) (a b : Z),
    (Z.of_nat (length l) < 2 ^ 31)%Z -> within r l ->
    (0 <= a <= b)%Z -> (b <= Z.of_nat (length (denotes r l)))%Z ->
    let n := Z.of_nat (length l) in let sub x y := firstn (Z.to_nat y - Z.to_nat x) (skipn (Z.to_nat x) (denotes r l)) in
    denotes (get_range_between n r a b) l = sub a b /\
    denotes (get_range_from n r a) l = sub a (Z.of_nat (length (denotes r l))) /\
    denotes (get_range_to n r b) l = sub 0%Z b.
Proof.
  intros A l r a b F W AB B n sub.
  assert (SZ : rsize n r = Z.of_nat (length (denotes r l))).
  { destruct W as (_ & L0 & R0 & LR). unfold rsize, denotes, n. rewrite firstn_length, skipn_length. lia. }
  unfold get_range_between, get_range_from, get_range_to. rewrite SZ.
  set (z := Z.of_nat (length (denotes r l))) in *.
  assert (Z31 : (z < 2 ^ 31)%Z) by (unfold z, denotes; rewrite firstn_length, skipn_length; lia).
  assert (M : forall x, (0 <= x)%Z -> max0 x = x) by (intros x Hx; unfold max0; destruct (Z.ltb_spec 0 x); lia).
  assert (WB : wrap 32 b = b) by (unfold wrap; apply Z.mod_small; lia).
  assert (WZ : wrap 32 z = z) by (unfold wrap; apply Z.mod_small; lia).
  rewrite !M by lia. rewrite !WB, !WZ.
  destruct (Z.leb_spec b z); [|lia].
  replace (if (a <? b)%Z then a else b) with a by (destruct (Z.ltb_spec a b); lia).
  replace (if (a <? z)%Z then a else z) with a by (destruct (Z.ltb_spec a z); lia).
  rewrite (lor_shl a (z - b)) by lia.
  replace (wrap 64 a) with (a + 2 ^ 32 * 0)%Z by (unfold wrap; rewrite Z.mod_small by lia; lia).
  replace (wshl 64 (wrap 64 (z - b)) 32) with (0 + 2 ^ 32 * (z - b))%Z.
  2:{ rewrite <- (lor_shl 0 (z - b)) by lia. unfold wrap at 1. rewrite Z.mod_0_l by lia. reflexivity. }
  assert (ZL : Z.to_nat z = length (denotes r l)) by (unfold z; apply Nat2Z.id).
  assert (SUB : forall x y, (0 <= x)%Z -> (0 <= y)%Z -> (x + y <= z)%Z ->
     denotes {| r_var := r_var r; r_trim := wadd 64 (r_trim r) (x + 2 ^ 32 * y) |} l = sub x (z - y)%Z).
  { intros x y X0 Y0 XY.
    destruct (trim_add r l x y W F X0 Y0) as (T1 & T2 & T3); [fold n; rewrite SZ; exact XY|].
    destruct (denotes_sub r _ l x y W X0 Y0 ltac:(fold n; rewrite SZ; exact XY) T2 T3 T1) as [_ D].
    rewrite D. unfold sub. f_equal. lia. }
  split; [rewrite SUB by lia; unfold sub; do 2 f_equal; lia|].
  split; [rewrite SUB by lia; unfold sub; do 2 f_equal; lia|].
  rewrite SUB by lia. unfold sub. do 2 f_equal. lia.
Qed.
Print Assumptions get_range_denotes_the_slice.

(** For arbitrary signed bounds (release build, assertions off) the result still lies
    inside the range it was taken from. *)
Theorem get_range_never_escapes :
  forall (A : Type) (l : list A) (r : range) (a b : Z),
    (Z.of_nat (length l) < 2 ^ 31)%Z -> within r l ->
    (- 2 ^ 31 <= a < 2 ^ 31)%Z -> (- 2 ^ 31 <= b < 2 ^ 31)%Z ->
    let n := Z.of_nat (length l) in
    Forall (fun r' => within r' l /\ (Left r <= Left r')%Z /\ (Right r <= Right r')%Z)
      [get_range_between n r a b; get_range_from n r a; get_range_to n r b].
Proof.
  intros A l r a b F W HA HB n.
  assert (SZ : (0 <= rsize n r < 2 ^ 31)%Z).
  { destruct W as (_ & L0 & R0 & LR). unfold rsize, n. lia. }
  assert (G : forall x y, (0 <= x)%Z -> (0 <= y)%Z -> (x + y <= rsize n r)%Z ->
     let r' := {| r_var := r_var r; r_trim := wadd 64 (r_trim r) (x + 2 ^ 32 * y) |} in
     within r' l /\ (Left r <= Left r')%Z /\ (Right r <= Right r')%Z).
  { intros x y X0 Y0 XY r'.
    destruct (trim_add r l x y W F X0 Y0 XY) as (T1 & T2 & T3). fold r' in T1, T2, T3.
    destruct (denotes_sub r r' l x y W X0 Y0 XY T2 T3 T1) as [D _]. split; [exact D|]. lia. }
  unfold get_range_between, get_range_from, get_range_to.
  set (z := rsize n r) in *. clearbody z.
  assert (M : forall x, (- 2 ^ 31 <= x < 2 ^ 31)%Z -> (0 <= max0 x < 2 ^ 31)%Z) by (intros x Hx; unfold max0; destruct (Z.ltb_spec 0 x); lia).
  pose proof (M a HA) as MA. pose proof (M b HB) as MB.
  set (a' := max0 a) in *. set (b' := max0 b) in *. clearbody a' b'.
  assert (WB : wrap 32 b' = b') by (unfold wrap; apply Z.mod_small; lia).
  assert (WZ : wrap 32 z = z) by (unfold wrap; apply Z.mod_small; lia).
  rewrite WB, WZ.
  set (b2 := if (b' <=? z)%Z then b' else z).
  assert (B2 : (0 <= b2 <= z)%Z) by (unfold b2; destruct (Z.leb_spec b' z); lia). clearbody b2.
  set (a2 := if (a' <? b2)%Z then a' else b2).
  assert (A2 : (0 <= a2 <= b2)%Z) by (unfold a2; destruct (Z.ltb_spec a' b2); lia). clearbody a2.
  set (a3 := if (a' <? z)%Z then a' else z).
  assert (A3 : (0 <= a3 <= z)%Z) by (unfold a3; destruct (Z.ltb_spec a' z); lia). clearbody a3.
  rewrite (lor_shl a2 (z - b2)) by lia.
  replace (wrap 64 a3) with (a3 + 2 ^ 32 * 0)%Z by (unfold wrap; rewrite Z.mod_small by lia; lia).
  replace (wshl 64 (wrap 64 (z - b2)) 32) with (0 + 2 ^ 32 * (z - b2))%Z.
  2:{ rewrite <- (lor_shl 0 (z - b2)) by lia. unfold wrap at 1. rewrite Z.mod_0_l by lia. reflexivity. }
  repeat constructor; try (apply G; lia).
Qed.
Print Assumptions get_range_never_escapes.

(** ** Where the code departs from the property *)
Definition e4 : elt := {| esz := 4; e_trivial := true; e_aligned := true; e_copiable := true |}.
Definition five : list (op nat) := [New [10; 11; 12; 13; 14]].
Definition mid3 : range := get_range_between 5 (whole 0) 1 3.     (* covers 11, 12 *)

Local Definition reads (m : machine nat) (i : nat) (l : list nat) : bool :=
  match read_var e4 m i with
  | Ok a => (fix go (a : list (option nat)) (b : list nat) :=
      match a, b with [], [] => true | Some x :: a, y :: b => Nat.eqb x y && go a b | _, _ => false end) a l
  | _ => false
  end.
Local Lemma reads_ok m i l : reads m i l = true -> read_var e4 m i = Ok (map Some l).
Proof.
  unfold reads. destruct (read_var e4 m i) as [a| |]; try discriminate. intros H. f_equal.
  revert l H. induction a as [|[x|] a IH]; intros [|y l] H; try discriminate; [reflexivity|].
  apply andb_true_iff in H. destruct H as [H1 H2]. apply Nat.eqb_eq in H1. subst. cbn. f_equal. apply IH. exact H2.
Qed.

(** Appending with a deletion count through a range removes elements after the range
    instead of the range's own tail: appending nothing with del = 1 to the range
    11,12 of 10..14 should leave 10 11 13 14, and leaves 10 11 12 14. *)
Theorem range_append_del_refuted :
  exists m m', run 0 e4 (five ++ [New []]) start = Ok m /\
    rexec 0 e4 (RAppendMove 1 1) mid3 m = Ok m' /\
    rspec 0 true 0 [Some [10; 11; 12; 13; 14]; Some []] (RAppendMove 1 1) [11; 12] = Some [11] /\
    read_var e4 m' 0 = Ok (map Some [10; 11; 12; 14]).
Proof.
  assert (C : match run 0 e4 (five ++ [New []]) start with
    | Ok m => match rexec 0 e4 (RAppendMove 1 1) mid3 m with Ok m' => reads m' 0 [10; 11; 12; 14] | _ => false end | _ => false end = true) by reflexivity.
  destruct (run 0 e4 (five ++ [New []]) start) as [m| |]; try discriminate. exists m.
  destruct (rexec 0 e4 (RAppendMove 1 1) mid3 m) as [m'| |]; try discriminate. exists m'.
  split; [reflexivity|]. split; [reflexivity|]. split; [reflexivity|]. apply reads_ok. exact C.
Qed.
Print Assumptions range_append_del_refuted.

(** ** Non-vacuity: a reachable state, a proper sub-range of a shared vec. *)
Definition shared_ops : list (op nat) := five ++ [Copy 0; New [7; 8]].
Example range_reachable :
  exists s m, srun true 0 shared_ops [] = Some s /\ run 0 e4 shared_ops start = Ok m /\
    var s 0 = Some [10; 11; 12; 13; 14] /\ within mid3 [10; 11; 12; 13; 14] /\ denotes mid3 [10; 11; 12; 13; 14] = [11; 12] /\
    rspec 0 true 0 s (RSpliceMove 1 1 2) [11; 12] = Some [11; 7; 8] /\
    exists m', rexec 0 e4 (RSpliceMove 1 1 2) mid3 m = Ok m' /\
      read_var e4 m' 0 = Ok (map Some [10; 11; 7; 8; 13; 14]) /\ read_var e4 m' 1 = Ok (map Some [10; 11; 12; 13; 14]).
Proof.
  assert (C : match run 0 e4 shared_ops start with
    | Ok m => match rexec 0 e4 (RSpliceMove 1 1 2) mid3 m with
              | Ok m' => reads m' 0 [10; 11; 7; 8; 13; 14] && reads m' 1 [10; 11; 12; 13; 14] | _ => false end | _ => false end = true) by reflexivity.
  exists [Some [10; 11; 12; 13; 14]; Some [10; 11; 12; 13; 14]; Some [7; 8]].
  destruct (run 0 e4 shared_ops start) as [m| |]; try discriminate. exists m.
  destruct (rexec 0 e4 (RSpliceMove 1 1 2) mid3 m) as [m'| |]; try discriminate.
  apply andb_true_iff in C. destruct C as [C1 C2]. apply reads_ok in C1. apply reads_ok in C2.
  split; [reflexivity|]. split; [reflexivity|]. split; [reflexivity|].
  split; [vm_compute; repeat split; discriminate|]. split; [reflexivity|]. split; [reflexivity|].
  exists m'. auto.
Qed.
Example range_sequence :
  rspecs 0 true mid3 [Some [10; 11; 12; 13; 14]] [RPush 9; RSet 0 5; RGrow 4; RSplice 1 1] [10] [11; 12] [13; 14]
  = Some [5; 9; 0].
Proof. reflexivity. Qed.
