(** Consequences of the refinement: framing, ownership, in-place pushes. *)
From Verif Require Import VecMachine VecPackProofs ArcProofs CommonLemmas VecMem VecInv VecSplice VecSplice2 VecSplice3 VecApi VecApi2 VecProofs WordsLemmas.
From Coq Require Import Permutation.
Open Scope nat_scope.

(** The variables an operation is allowed to change. *)
Definition writes {A} (o : op A) : list nat :=
  match o with
  | New _ | Copy _ => []
  | MoveNew j => [j]
  | AssignCopy i _ => [i]
  | AssignMove i j => [i; j]
  | Destroy i | Push i _ | Insert i _ _ | Unshift i _ | SetElem i _ _ | Resize i _ | Grow i _
  | Shrink i _ | Clear i | Pop i | SpliceDel i _ _ | SpliceEmpty i _ _ _ | ShiftPop i _ _ | Reserve i _ => [i]
  | SpliceMove i _ _ j | AppendMove i _ j => [i; j]
  | SpliceCopy i _ _ _ _ _ | AppendCopy i _ _ _ _ => [i]
  end.

(** Number of live variables whose storage is block [b]. *)
Definition owners {A} (m : machine A) (b : nat) : nat :=
  length (filter (fun o => match o with
                           | Some v => match v_data v with Some b' => b' =? b | None => false end
                           | None => false end) (m_vars m)).

Lemma require_inv {X} b (x : option X) y : require b x = Some y -> b = true /\ x = Some y.
Proof. destruct b; cbn; [auto|discriminate]. Qed.
Lemma obind_inv {X Y} (m : option X) (f : X -> option Y) y : obind m f = Some y -> exists x, m = Some x /\ f x = Some y.
Proof. destruct m; cbn; [eauto|discriminate]. Qed.

Section More.
Context {A : Type} (dflt : A) (e : elt) (He : (0 < esz e < 2 ^ 31)%Z).
Local Notation R := (R e).

Lemma var_lset (s : vars A) i x k : k <> i -> var (lset s i x) k = var s k.
Proof. intros N. unfold var. rewrite lset_neq by auto. reflexivity. Qed.
Lemma var_app (s : vars A) x k l : var s k = Some l -> var (s ++ [x]) k = Some l.
Proof.
  unfold var. destruct (nth_error s k) eqn:E; [|discriminate].
  rewrite nth_error_app1, E; auto. apply nth_error_Some. congruence.
Qed.

Lemma sstep_frame copiable o (s s' : vars A) k l :
  sstep copiable dflt o s = Some s' -> ~ In k (writes o) -> var s k = Some l -> var s' k = Some l.
Proof.
  intros E N V. destruct o; cbn in E, N;
  repeat match goal with
  | H : obind _ _ = Some _ |- _ => apply obind_inv in H as (? & ? & H)
  | H : require _ _ = Some _ |- _ => apply require_inv in H as (? & H)
  | H : Some _ = Some _ |- _ => injection H as <-
  end; try (apply var_app); repeat rewrite var_lset by (intros ?; subst; tauto); try exact V;
  try (match goal with H : obind _ _ = Some _ |- _ => idtac end);
  repeat match goal with
  | H : obind _ _ = Some _ |- _ => apply obind_inv in H as (? & ? & H)
  | H : require _ _ = Some _ |- _ => apply require_inv in H as (? & H)
  | H : Some _ = Some _ |- _ => injection H as <-
  end; repeat rewrite var_lset by (intros ?; subst; tauto); try exact V.
Qed.

Lemma owners_refs env s : Forall2 shape env s -> forall b,
  length (filter (fun o => match o with
                           | Some v => match v_data v with Some b' => b' =? b | None => false end
                           | None => false end) env) = refs (live (A:=A) env s) b.
Proof.
  induction 1 as [|a x env s H F IH]; intros b; [reflexivity|].
  destruct a as [v|], x as [l|]; cbn [filter live]; try (destruct H as [H1 H2]; (discriminate (H1 eq_refl) || discriminate (H2 eq_refl))).
  - rewrite refs_cons. cbn [fst]. unfold points_to.
    destruct (match v_data v with Some b' => b' =? b | None => false end); cbn; rewrite IH; reflexivity.
  - apply IH.
Qed.
Lemma R_owners (m : machine A) (s : vars A) b : R m s -> owners m b = refs (live (m_vars m) s) b.
Proof. intros [RS _ _]. apply owners_refs. exact RS. Qed.

Lemma R_blocks (m : machine A) (s : vars A) b : R m s ->
  (forall k, nth_error (m_heap m) b = Some (Some k) -> Z.of_nat (owners m b) = (b_arc k + 1)%Z /\ 1 <= owners m b) /\
  (nth_error (m_heap m) b = Some None \/ nth_error (m_heap m) b = None -> owners m b = 0).
Proof.
  intros HR. rewrite (R_owners _ _ _ HR). destruct HR as [RS RI RF]. split.
  - intros k K. pose proof (inv_arc _ _ _ RI b k K) as E. pose proof (inv_pos _ _ _ RI b k K). lia.
  - intros N. destruct (refs (live (m_vars m) s) b) as [|n] eqn:E; [reflexivity|exfalso].
    destruct (refs_pos (live (m_vars m) s) b) as (v & S & I & D); [lia|].
    pose proof (inv_rep _ _ _ RI _ _ I) as V.
    destruct V as [rest HS (W & Sm & Sz) Hd Hz Hb L|HS Hp Hd Hz Hb HS0|b' c sh k rest Hd Hz Hp B Hsh Hn Hs Hc RW Hb]; try congruence.
    rewrite Hd in D. injection D as ->. destruct N; congruence.
Qed.

(** ** In-place pushes *)
Definition keeps (v v' : vec (A:=A)) (h h' : heap (A:=A)) : Prop :=
  data e v' = data e v /\ vcapa e v' = vcapa e v /\ length h' = length h.

Lemma destroy_0 (v : vec (A:=A)) h p off : destroy_range e v h p off 0 = Ok (v, h).
Proof. unfold destroy_range. destruct (TRIVIAL e); reflexivity. Qed.

Lemma set_slots_keeps (v : vec (A:=A)) h p s v' h' : set_slots v h p s = Ok (v', h') ->
  v_data v' = v_data v /\ v_size v' = v_size v /\ v_pack v' = v_pack v /\ length h' = length h.
Proof.
  destruct p; cbn; intros E.
  - injection E as <- <-. cbn. auto.
  - destruct (get_block h b); cbn in E; try discriminate. unfold set_block in E.
    destruct (upd h b _) eqn:U; cbn in E; try discriminate. injection E as <- <-.
    destruct (upd_Some _ _ _ _ U) as (L1 & L2 & L3 & L4). auto.
  - discriminate.
Qed.
Lemma construct_keeps (v : vec (A:=A)) h p off l v' h' : construct_range e v h p off l = Ok (v', h') ->
  v_data v' = v_data v /\ v_size v' = v_size v /\ v_pack v' = v_pack v /\ length h' = length h.
Proof.
  unfold construct_range. intros E. destruct (read_range v h p off (length l)); cbn in E; try discriminate.
  destruct (_ || _); [|discriminate]. unfold write_range in E. destruct l; [injection E as <- <-; auto|].
  destruct (slots_at v h p); cbn [rbind] in E; try discriminate. destruct (_ <=? _); [|discriminate].
  eapply set_slots_keeps; eauto.
Qed.

Lemma push_in_place h v vs l x v' h' :
  Inv e h ((v, map Some l) :: vs) -> (Z.of_nat (length l + 1) <= vcapa e v)%Z ->
  push e x v h = Ok (v', h') -> Inv e h' ((v', map Some (l ++ [x])) :: vs) -> keeps v v' h h'.
Proof.
  intros I C E I'. unfold push, splice_ in E. pose proof (Inv_size e He _ _ _ _ I) as SZ.
  destruct (2 ^ 31 - 1 <=? _)%Z; [discriminate|]. rewrite SZ, !Nat.min_0_l in E.
  replace (length l + (0 + 1) - 0 - 0) with (length l + 1) in E by lia.
  rewrite (proj2 (Z.leb_le _ _) C) in E. unfold hold_ground in E. rewrite !destroy_0 in E.
  cbn [rbind] in E. rewrite destroy_0 in E. cbn [rbind Nat.eqb s_vec s_heap s_ptr s_old] in E.
  apply construct_keeps in E as (E1 & E2 & E3 & E4).
  pose proof (inv_rep _ _ _ I _ _ (or_introl eq_refl)) as V.
  pose proof (inv_rep _ _ _ I' _ _ (or_introl eq_refl)) as V'.
  unfold keeps. unfold write_size in *.
  destruct V as [rest HS (W & Sm & Sz) Hd Hz Hb L|HS Hp Hd Hz Hb HS0|b c sh k rest Hd Hz Hp B Hsh Hn Hs Hc RW Hb].
  - rewrite Sm in *. cbn in E1, E2, E3.
    destruct V' as [rest' HS' (W' & Sm' & Sz') Hd' Hz' Hb' L'|HS' Hp' Hd' Hz' Hb' HS0'|b' c' sh' k' rest' Hd' Hz' Hp' B' Hsh' Hn' Hs' Hc' RW' Hb']; try congruence.
    unfold data, vcapa, capa. rewrite Sm, Sm', HS. auto.
  - exfalso. unfold vcapa, capa in C. rewrite HS, Hp in C. cbn in C. lia.
  - rewrite Hp in *. rewrite bigword_not_small in * by (auto; lia). cbn in E1, E2, E3.
    unfold data, vcapa. rewrite E1, E3, Hp, Hd. auto.
Qed.

Lemma push_fits h v vs l x : Inv e h ((v, map Some l) :: vs) -> fits (length l + 1) ->
  (Z.of_nat (length l + 1) <= vcapa e v)%Z ->
  exists v' h', push e x v h = Ok (v', h') /\ Inv e h' ((v', map Some (l ++ [x])) :: vs) /\ keeps v v' h h'.
Proof.
  intros I F C. destruct (push_run e He _ _ _ _ x I F) as [E|([v' h'] & E & H)].
  - exfalso. unfold push, splice_ in E. pose proof (Inv_size e He _ _ _ _ I) as SZ.
    destruct (2 ^ 31 - 1 <=? _)%Z; [discriminate|]. rewrite SZ, !Nat.min_0_l in E.
    replace (length l + (0 + 1) - 0 - 0) with (length l + 1) in E by lia.
    rewrite (proj2 (Z.leb_le _ _) C) in E. unfold hold_ground in E. rewrite !destroy_0 in E.
    cbn [rbind] in E. rewrite destroy_0 in E. cbn [rbind Nat.eqb s_vec s_heap s_ptr s_old] in E.
    unfold construct_range, read_range, write_range in E. cbn [length Nat.eqb] in E.
    set (vv := write_size e (length l + 1) v) in *. clearbody vv.
    destruct (data e v) as [|b|]; cbn [slots_at rbind] in E.
    + destruct (_ <=? _); cbn [rbind] in E; [|discriminate].
      destruct (_ || _); discriminate.
    + unfold get_block in E. destruct (nth_error h b) as [[k|]|] eqn:K; cbn [rbind] in E; try discriminate.
      destruct (_ <=? _); cbn [rbind] in E; [|discriminate].
      destruct (_ || _); [|discriminate]. cbn [set_slots] in E. unfold get_block, set_block in E. rewrite K in E.
      cbn [rbind] in E. destruct (upd h b _); cbn [rbind] in E; discriminate.
    + discriminate.
  - exists v', h'. split; [exact E|]. split; [exact H|]. eapply push_in_place; eauto.
Qed.

Lemma pushes_in_place xs : forall (m : machine A) (s : vars A) i l v,
  R m s -> var s i = Some l -> getv m i = Ok v -> fits (length l + length xs) ->
  (Z.of_nat (length l + length xs) <= vcapa e v)%Z ->
  exists m' v', run dflt e (map (Push i) xs) m = Ok m' /\ R m' (lset s i (Some (l ++ xs))) /\
    getv m' i = Ok v' /\ keeps v v' (m_heap m) (m_heap m').
Proof.
  induction xs as [|x xs IH]; intros m s i l v HR V G F C.
  - exists m, v. cbn. rewrite app_nil_r, lset_id by (apply var_some; exact V). split; [reflexivity|]. split; [exact HR|]. split; [exact G|]. unfold keeps. auto.
  - cbn [length] in *. destruct (R_get e _ _ _ _ HR V) as (v0 & G0 & N & Li & LL & I).
    assert (v0 = v) by congruence. subst v0.
    assert (F1 : fits (length l + 1)) by (unfold fits in *; lia).
    destruct (push_fits _ _ _ _ x I F1 ltac:(lia)) as (v1 & h1 & E & I1 & (K1 & K2 & K3)).
    set (m1 := {| m_heap := h1; m_vars := lset (m_vars m) i (Some v1) |}).
    assert (HR1 : R m1 (lset s i (Some (l ++ [x])))).
    { unfold m1. apply R_put; auto. rewrite app_length. exact F1. }
    assert (G1 : getv m1 i = Ok v1).
    { unfold getv, m1; cbn. rewrite lset_eq by lia. reflexivity. }
    assert (V1 : var (lset s i (Some (l ++ [x]))) i = Some (l ++ [x])).
    { apply var_some, lset_eq. exact Li. }
    destruct (IH m1 _ i _ v1 HR1 V1 G1) as (m' & v' & E' & HR' & G' & (K1' & K2' & K3')).
    { rewrite app_length. cbn [length]. unfold fits in *. lia. }
    { rewrite K2, app_length. cbn [length]. lia. }
    exists m', v'. cbn [map run exec]. unfold on. rewrite G. cbn [rbind]. rewrite E. cbn [rbind].
    split; [exact E'|]. split; [rewrite lset_lset, <- app_assoc in HR'; exact HR'|]. split; [exact G'|].
    unfold keeps. cbn in *. intuition congruence.
Qed.

Lemma reserve_step (m : machine A) (s : vars A) i l n : R m s -> var s i = Some l -> fits n ->
  runs (exec dflt e (Reserve i n) m) (fun m' => R m' s /\ exists v, getv m' i = Ok v /\ (Z.of_nat n <= vcapa e v)%Z).
Proof.
  intros HR V F. destruct (R_get e _ _ _ _ HR V) as (v & G & N & Li & LL & I).
  cbn [exec]. unfold on. rewrite G. cbn [rbind].
  eapply runs_bind; [apply (reserve_run e He _ _ _ l n I); auto; apply (r_fit _ _ _ HR i l V)|].
  intros [v' h'] [H C]. apply runs_ok. split.
  - rewrite <- (lset_id s i (Some l)) by (apply var_some; exact V).
    apply R_put; auto. apply (r_fit _ _ _ HR i l V).
  - exists v'. unfold getv; cbn. rewrite lset_eq by lia. auto.
Qed.

Lemma R_unique (m : machine A) (s : vars A) i v b : R m s -> var s i <> None -> getv m i = Ok v -> (0 <= vcapa e v)%Z ->
  v_data v = Some b -> owners m b = 1.
Proof.
  intros HR V G C D. destruct (var s i) as [l|] eqn:E; [|congruence].
  destruct (R_get e _ _ _ _ HR E) as (v0 & G0 & N & Li & LL & I). assert (v0 = v) by congruence. subst v0.
  rewrite (R_owners _ _ _ HR). pose proof HR as [RS RI RF].
  eapply (inv_uniq _ _ _ RI v (map Some l) b); auto.
  eapply in_live; [exact LL|exact N|]. apply var_some. exact E.
Qed.

(** Whole replacement by a view of unrelated storage. *)
Lemma splice_copy_foreign (m : machine A) (s : vars A) i j l w off n at_ del v wv :
  R m s -> i <> j -> var s i = Some l -> var s j = Some w -> getv m i = Ok v -> getv m j = Ok wv ->
  (forall b, data e v = PBlk b -> data e wv <> PBlk b) ->
  at_ <= length l -> off + n <= length w -> fits (length l + n) ->
  runs (exec dflt e (SpliceCopy i at_ del j off n) m)
    (fun m' => R m' (lset s i (Some (firstn at_ l ++ firstn n (skipn off w) ++ skipn (at_ + del) l)))).
Proof.
  intros HR Nij Vi Vj G Gw NE L1 L2 F. cbn [exec]. rewrite Gw. cbn [rbind]. unfold on. rewrite G. cbn [rbind].
  destruct (R_get e _ _ _ _ HR Vi) as (v0 & G0 & N & Li & LL & I). assert (v0 = v) by congruence. subst v0.
  destruct (R_get e _ _ _ _ HR Vj) as (w0 & Gw0 & Nw & Lj & _ & _). assert (w0 = wv) by congruence. subst w0.
  rewrite (proj2 (Nat.eqb_neq i j) Nij).
  assert (IN : In (wv, map Some w) (live (lset (m_vars m) i None) (lset s i None))).
  { apply (in_live _ _ j); [rewrite !lset_length; exact LL| |]; rewrite lset_neq by auto; [exact Nw|].
    apply var_some. exact Vj. }
  destruct (src_facts dflt e He (m_heap m) v wv l w _ false off n IN I L2) as (S1 & S2 & S3 & S4).
  assert (OUT : src_inside e v (src_of dflt e false wv off) = false).
  { unfold src_inside, src_of. destruct (data e v) as [|b|] eqn:D, (data e wv) as [|b'|] eqn:D'; auto.
    destruct (Nat.eqb_spec b b') as [->|]; [|reflexivity]. exfalso. eapply NE; eauto. }
  eapply runs_bind; [apply (splice_copy_run e He _ _ _ l at_ del _ n _ I S1 S2 L1 F)|].
  { intros _ _ _ X. congruence. }
  intros [v' h'] H. apply runs_ok. apply R_put; auto.
  pose proof (firstn_le_length n (skipn off w)). rewrite !app_length, firstn_length, skipn_length.
  pose proof (firstn_length n (skipn off w)). unfold fits in *. lia.
Qed.
End More.
