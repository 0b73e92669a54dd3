(** C13, C14, C15: lib/hash.fu. *)
From Verif Require Import CommonLemmas HashModel HashSpec HashIndex HashProofs HashTop HashVerify HashGrowTwo HashRoomy.
From Coq Require Import Permutation.
Open Scope Z_scope.

Definition lawful {K} (eqb : K -> K -> bool) : Prop := forall a b, eqb a b = true <-> a = b.
Definition nothing {K V} : @fmap K V := fun _ => None.

(** Whatever the hash function: if growing always leaves the index in order, the results of any history of operations
    are those of a finite map, and nothing traps.  (Missing: growing does not always leave it in order - see below.) *)
Theorem hash_map_is_a_finite_map_partial : forall K V eqb hasher (default : V) (os : list (hop K V)),
  lawful eqb -> run_grows eqb hasher default empty_map os ->
  exists q, hm_run eqb hasher default empty_map os = Some q /\
    match q with None => True | Some (rs, m) => exists M, spec_run eqb default nothing os rs M end.
Proof.
  intros K V eqb hasher default os La Gr.
  destruct (run_ok eqb hasher default La os empty_map nothing (empty_state hasher) Gr) as (q & E & Hq).
  exists q. split; auto. destruct q as [[rs m]|]; auto. destruct Hq as (M & Hs & _). eauto.
Qed.
Print Assumptions hash_map_is_a_finite_map_partial.
(** ... every consistency check of the program (Verify) passes at the end of it ... *)
Theorem hash_map_is_consistent_partial : forall K V eqb hasher (default : V) (os : list (hop K V)) rs m,
  lawful eqb -> run_grows eqb hasher default empty_map os -> hm_run eqb hasher default empty_map os = Some (Some (rs, m)) ->
  Verify m = Some true /\ (hm_index m = [] \/ exists k, 1 <= k /\ lenz (hm_index m) = 2 ^ k) /\ in_order (hm_index m).
Proof.
  intros K V eqb hasher default os rs m La Gr E.
  destruct (run_ok eqb hasher default La os empty_map nothing (empty_state hasher) Gr) as (q & E' & Hq).
  rewrite E in E'. injection E' as <-. destruct Hq as (M & _ & [[I H] _]). split; [eapply verify_ok; eauto|].
  destruct I as [[X|(k & P & R)] _].
  - split; auto. rewrite X. intros i u. exfalso. apply u. unfold slot. destruct (Z.to_nat _); reflexivity.
  - split; [right; exists k; destruct P; split; [lia|auto]|]. apply (in_order_RH _ k); auto.
Qed.
Print Assumptions hash_map_is_consistent_partial.
(** ... and going over the map shows each key that is in it once, with its value; its size is how many there are. *)
Theorem hash_map_iteration_partial : forall K V eqb hasher (default : V) (os : list (hop K V)) rs m,
  lawful eqb -> run_grows eqb hasher default empty_map os -> hm_run eqb hasher default empty_map os = Some (Some (rs, m)) ->
  exists M, spec_run eqb default nothing os rs M /\
    forall visit, exists m' l, hm_each eqb visit m = Some (m', l) /\ lists M l /\ hm_len m = length l /\
      forall k, hm_get eqb hasher default m' k = Some
        (match M k with Some v => if snd (visit k v) then (default, false) else (fst (visit k v), true) | None => (default, false) end).
Proof.
  intros K V eqb hasher default os rs m La Gr E.
  destruct (run_ok eqb hasher default La os empty_map nothing (empty_state hasher) Gr) as (q & E' & Hq).
  rewrite E in E'. injection E' as <-. destruct Hq as (M & Hs & St). exists M. split; auto. intros visit.
  destruct (each_holds eqb hasher default La m M visit St) as (m' & l & Ee & Hl & Hm). exists m', l. split; auto. split; auto. split.
  - destruct (holds_lists _ _ _ (proj1 St)) as [N Ml]. unfold hm_len. rewrite <- (map_length pair_of). fold (kvs (hm_data m)).
    apply Permutation_length. destruct Hl as [N' Ml']. apply NoDup_Permutation; [eapply NoDup_map_inv; eauto..|]. intros [k v]. rewrite Ml, Ml'. reflexivity.
  - intros k. rewrite (get_ok eqb hasher default La m' _ k (proj1 Hm)). unfold get_or. destruct (M k) as [v|]; auto. destruct (snd (visit k v)); auto.
Qed.
Print Assumptions hash_map_iteration_partial.
(** Growing never loses or repeats an entry of the index, and doubles it *)
Theorem hash_map_growing_keeps_the_entries : forall ix ix', increase_capacity ix = Some ix' ->
  Permutation (filter (fun e => negb (ie_pos e =? 0)%nat) ix') (filter (fun e => negb (ie_pos e =? 0)%nat) ix) /\ lenz ix' = Z.max (lenz ix * 2) 2.
Proof. exact increase_keeps. Qed.
Print Assumptions hash_map_growing_keeps_the_entries.

(** Growing an index that is in order, with different hashes in its slots, and that has a free slot (or no more than two):
    it ends, nothing traps, and the index, twice as long, is in order again. *)
Theorem hash_map_growing_a_roomy_index : forall ix k, 1 <= k < 30 -> lenz ix = 2 ^ k -> in_order ix -> roomy ix ->
  NoDup (map ie_hash (filter (fun e => negb (ie_pos e =? 0)%nat) ix)) ->
  exists ix', increase_capacity ix = Some ix' /\ in_order ix' /\ lenz ix' = 2 ^ (k + 1) /\
    Permutation (filter (fun e => negb (ie_pos e =? 0)%nat) ix') (filter (fun e => negb (ie_pos e =? 0)%nat) ix).
Proof.
  intros ix k Hk L O Ro N. assert (P : pow2 ix k) by (split; [lia|auto]). apply (in_order_RH ix k P) in O.
  assert (M : lenz ix < MAX_INDEX) by (rewrite L; unfold MAX_INDEX; apply Z.pow_lt_mono_r; lia).
  destruct (grow_roomy ix) as (ix' & E & O'); auto; [right; exists k; auto|]. exists ix'. destruct (increase_keeps _ _ E) as [Pm L']. split; auto. split; auto. split; auto.
  rewrite L', L. pose proof (Z.pow_pos_nonneg 2 k). rewrite Z.pow_add_r by lia. change (2 ^ 1) with 2. lia.
Qed.
Print Assumptions hash_map_growing_a_roomy_index.
(** So a history in which every key that finds no place finds a roomy index behaves as a finite map, whatever the hash function ... *)
Theorem hash_map_is_a_finite_map_roomy_partial : forall K V eqb hasher (default : V) (os : list (hop K V)),
  lawful eqb -> run_roomy eqb hasher default empty_map os ->
  exists q, hm_run eqb hasher default empty_map os = Some q /\
    match q with None => True | Some (rs, m) => exists M, spec_run eqb default nothing os rs M end.
Proof.
  intros K V eqb hasher default os La Ro. apply hash_map_is_a_finite_map_partial; auto. eapply run_roomy_grows; eauto. apply empty_state.
Qed.
Print Assumptions hash_map_is_a_finite_map_roomy_partial.
(** ... with an index that is in order ... *)
Theorem hash_map_is_consistent_roomy_partial : forall K V eqb hasher (default : V) (os : list (hop K V)) rs m,
  lawful eqb -> run_roomy eqb hasher default empty_map os -> hm_run eqb hasher default empty_map os = Some (Some (rs, m)) ->
  Verify m = Some true /\ (hm_index m = [] \/ exists k, 1 <= k /\ lenz (hm_index m) = 2 ^ k) /\ in_order (hm_index m).
Proof.
  intros K V eqb hasher default os rs m La Ro E. eapply hash_map_is_consistent_partial; eauto. eapply run_roomy_grows; eauto. apply empty_state.
Qed.
Print Assumptions hash_map_is_consistent_roomy_partial.
(** ... and with each key once. *)
Theorem hash_map_iteration_roomy_partial : forall K V eqb hasher (default : V) (os : list (hop K V)) rs m,
  lawful eqb -> run_roomy eqb hasher default empty_map os -> hm_run eqb hasher default empty_map os = Some (Some (rs, m)) ->
  exists M, spec_run eqb default nothing os rs M /\
    forall visit, exists m' l, hm_each eqb visit m = Some (m', l) /\ lists M l /\ hm_len m = length l /\
      forall k, hm_get eqb hasher default m' k = Some
        (match M k with Some v => if snd (visit k v) then (default, false) else (fst (visit k v), true) | None => (default, false) end).
Proof.
  intros K V eqb hasher default os rs m La Ro E. eapply hash_map_iteration_partial; eauto. eapply run_roomy_grows; eauto. apply empty_state.
Qed.
Print Assumptions hash_map_iteration_roomy_partial.
(** A small map always is a finite map: new keys only set while the keys in it have fewer than four different hashes. *)
Theorem hash_map_small_is_a_finite_map : forall K V eqb hasher (default : V) (os : list (hop K V)),
  lawful eqb -> run_small eqb hasher default empty_map os ->
  exists q, hm_run eqb hasher default empty_map os = Some q /\
    match q with None => True | Some (rs, m) => Verify m = Some true /\ exists M, spec_run eqb default nothing os rs M end.
Proof.
  intros K V eqb hasher default os La Sm.
  assert (Ro : run_roomy eqb hasher default empty_map os) by (eapply run_small_roomy; eauto; apply empty_state).
  destruct (hash_map_is_a_finite_map_roomy_partial K V eqb hasher default os La Ro) as (q & E & H). exists q. split; auto. destruct q as [[rs m]|]; auto.
  split; auto. eapply hash_map_is_consistent_roomy_partial; eauto.
Qed.
Print Assumptions hash_map_small_is_a_finite_map.

(** Without that condition it is not a finite map: five keys, set one after the other; the first is lost. *)
Definition lost : list (hop Z Z) := [HSet 5 50; HSet 13 130; HSet 6 60; HSet 7 70; HSet 9 90].
Local Definition is_get (r : hres Z Z) (v : Z) (b : bool) : bool := match r with RGet w c => (w =? v) && Bool.eqb b c | _ => false end.
Local Lemma lost_run : exists rs m, hm_run Z.eqb (fun k => k) 0 empty_map (lost ++ [HGet 5]) = Some (Some (rs, m)) /\ nth 5 rs RNone = RGet 0 false.
Proof. eexists _, _. split; [vm_compute; reflexivity|reflexivity]. Qed.
Local Lemma spec_set M k v M' r : spec_op Z.eqb 0 M (HSet k v) M' r -> M' = upd_map Z.eqb M k (Some v) /\ r = RNone.
Proof. intros H. inversion H; subst; auto. Qed.
Theorem hash_map_is_a_finite_map_refuted : exists os rs m, hm_run Z.eqb (fun k => k) 0 empty_map os = Some (Some (rs, m)) /\
  ~ exists M, spec_run Z.eqb 0 nothing os rs M.
Proof.
  destruct lost_run as (rs & m & E & N). exists (lost ++ [HGet 5]), rs, m. split; auto. intros (M & H). clear E.
  repeat match goal with H : spec_run _ _ _ (lost ++ _) _ _ |- _ => unfold lost in H; cbn [app] in H
  | H : spec_run _ _ _ (_ :: _) _ _ |- _ => inversion H; clear H; subst
  | H : spec_op _ _ _ (HSet _ _) _ _ |- _ => apply spec_set in H; destruct H; subst
  | H : spec_op _ _ _ (HGet _) _ _ |- _ => inversion H; clear H; subst end.
  cbn in N. discriminate N.
Qed.
Print Assumptions hash_map_is_a_finite_map_refuted.
Theorem hash_map_is_consistent_refuted : exists rs m, hm_run Z.eqb (fun k => k) 0 empty_map lost = Some (Some (rs, m)) /\ Verify m = Some false.
Proof. eexists _, _. split; [vm_compute; reflexivity|vm_compute; reflexivity]. Qed.
Print Assumptions hash_map_is_consistent_refuted.
(** A key that was lost can be set again and be there twice. *)
Theorem hash_map_iteration_refuted : exists rs m l, hm_run Z.eqb (fun k => k) 0 empty_map (lost ++ [HRemove 13; HSet 5 55]) = Some (Some (rs, m)) /\
  hm_each Z.eqb (fun _ v => (v, false)) m = Some (m, l) /\ In (5, 50) l /\ In (5, 55) l.
Proof. eexists _, _, _. split; [vm_compute; reflexivity|]. split; [vm_compute; reflexivity|]. split; cbn; repeat (first [left; reflexivity|right]). Qed.
Print Assumptions hash_map_iteration_refuted.

(** Examples: histories that meet the condition; checked by deciding it *)
Local Definition slotb ix i := match slot ix i with IE _ p => negb (p =? 0)%nat end.
Local Definition in_orderb (ix : list ientry) : bool :=
  forallb (fun i => let i := Z.of_nat i in
    implb (slotb ix i) ((probe_distance ix i <? Z.log2 (lenz ix)) &&
      ((probe_distance ix i =? 0) || slotb ix (i - 1) && (probe_distance ix i <=? probe_distance ix (i - 1) + 1))))
    (seq 0 (length ix)).
Local Lemma slotb_ok ix i : slotb ix i = true <-> slot_used ix i.
Proof. unfold slotb, slot_used. destruct (slot ix i) as [h p]. cbn. destruct (Nat.eqb_spec p 0); cbn; intuition congruence. Qed.
Local Lemma in_orderb_ok ix : in_orderb ix = true -> in_order ix.
Proof.
  intros H i u. destruct ix as [|e l]; [exfalso; apply u; unfold slot; destruct (Z.to_nat _); reflexivity|]. set (ix := e :: l) in *.
  assert (n0 : 0 < lenz ix) by (unfold lenz, ix; cbn [length]; lia).
  unfold in_orderb in H. rewrite forallb_forall in H. specialize (H (Z.to_nat (i mod lenz ix))). pose proof (Z.mod_pos_bound i (lenz ix) n0) as b.
  rewrite Z2Nat.id in H by lia. cbv zeta in H.
  assert (S1 : slot ix (i mod lenz ix) = slot ix i) by (unfold slot; rewrite Zmod_mod; auto).
  assert (S2 : slot ix (i mod lenz ix - 1) = slot ix (i - 1)) by (unfold slot; rewrite Zminus_mod_idemp_l; auto).
  assert (D1 : probe_distance ix (i mod lenz ix) = probe_distance ix i) by (unfold probe_distance; rewrite S1, Zminus_mod_idemp_l; auto).
  assert (D2 : probe_distance ix (i mod lenz ix - 1) = probe_distance ix (i - 1)).
  { unfold probe_distance; rewrite S2. replace (i mod lenz ix - 1 - ie_hash (slot ix (i - 1))) with (i mod lenz ix - (1 + ie_hash (slot ix (i - 1)))) by lia.
    rewrite Zminus_mod_idemp_l. f_equal. lia. }
  assert (B1 : slotb ix (i mod lenz ix) = slotb ix i) by (unfold slotb; rewrite S1; auto).
  assert (B2 : slotb ix (i mod lenz ix - 1) = slotb ix (i - 1)) by (unfold slotb; rewrite S2; auto).
  rewrite D1, D2, B1, B2 in H. apply slotb_ok in u. rewrite u in H. cbn [implb] in H.
  assert (G : In (Z.to_nat (i mod lenz ix)) (seq 0 (length ix))) by (apply in_seq; unfold lenz in *; lia). specialize (H G).
  apply andb_true_iff in H. destruct H as [H1 H2]. apply Z.ltb_lt in H1. split; auto. apply orb_true_iff in H2. destruct H2 as [H2|H2]; [left; apply Z.eqb_eq; auto|right].
  apply andb_true_iff in H2. rewrite Z.leb_le in H2. rewrite <- slotb_ok. tauto.
Qed.
Local Fixpoint ref_growsb (fuel : nat) (m : hmap Z Z) (key hash : Z) : bool :=
  match fuel with
  | O => true
  | S f => match route Z.eqb m key hash with
           | Some Unavailable => match increase_capacity (hm_index m) with Some ix => in_orderb ix && ref_growsb f (HM ix (hm_data m)) key hash | None => false end
           | _ => true
           end
  end.
Local Lemma ref_growsb_ok : forall fuel m key hash, ref_growsb fuel m key hash = true -> ref_grows Z.eqb fuel m key hash.
Proof.
  induction fuel as [|f IH]; intros m key hash H; cbn [ref_growsb ref_grows] in *; [exact I|]. destruct (route Z.eqb m key hash) as [[| |]|]; try exact I.
  destruct (increase_capacity (hm_index m)) as [ix|]; [|discriminate]. apply andb_true_iff in H. destruct H as [H1 H2].
  right. exists ix. split; auto. split; [apply in_orderb_ok; auto|apply IH; auto].
Qed.
Local Fixpoint run_growsb (hasher : Z -> Z) (m : hmap Z Z) (os : list (hop Z Z)) : bool :=
  match os with
  | [] => true
  | o :: os => match o with HSet k _ | HRef k _ _ => ref_growsb 33 m k (hash_of hasher k) | _ => true end &&
      match hm_op Z.eqb hasher 0 m o with Some (Some (m, _)) => run_growsb hasher m os | _ => true end
  end.
Local Lemma run_growsb_ok hasher : forall os m, run_growsb hasher m os = true -> run_grows Z.eqb hasher 0 m os.
Proof.
  induction os as [|o os IH]; intros m H; cbn [run_growsb run_grows] in *; [exact I|]. apply andb_true_iff in H. destruct H as [H1 H2]. split.
  - destruct o; auto; apply ref_growsb_ok; auto.
  - destruct (hm_op Z.eqb hasher 0 m o) as [[[m' r]|]|]; auto.
Qed.
(** twelve keys with clashing hashes and places, among them two pairs of keys of the same hash; removals; keys set again *)
Definition history : list (hop Z Z) :=
  map (fun k => HSet k (k * k)) [3; 7; 11; 1; 2; 18; 35; 4; 20; 36; 19; 23] ++ [HRemove 11; HRemove 3; HSet 11 5; HRef 90 7 (fun v => v + 1); HIfRef 2 (fun v => v - 1); HEach (fun k v => (v, k =? 18))].
Example hash_map_history : run_grows Z.eqb (fun k => k mod 16) 0 empty_map history /\
  exists rs m, hm_run Z.eqb (fun k => k mod 16) 0 empty_map (history ++ [HGet 11; HGet 3; HGet 90; HGet 2; HGet 18; HLen]) = Some (Some (rs, m)) /\
    skipn 18 rs = [RGet 5 true; RGet 0 false; RGet 8 true; RGet 3 true; RGet 0 false; RLen 11] /\ lenz (hm_index m) = 16.
Proof. split; [apply run_growsb_ok; vm_compute; reflexivity|]. eexists _, _. split; [vm_compute; reflexivity|]. split; vm_compute; reflexivity. Qed.

(** the same history meets the roomy condition: it grows three times, once the index of eight slots with five used *)
Local Definition roomyb (ix : list ientry) : bool := (length ix <=? 2)%nat || existsb (fun e => (ie_pos e =? 0)%nat) ix.
Local Lemma roomyb_ok ix : roomyb ix = true -> roomy ix.
Proof.
  unfold roomyb, roomy. intros H. apply orb_true_iff in H. destruct H as [H|H]; [left; apply Nat.leb_le; auto|right]. apply existsb_exists in H.
  destruct H as (e & I & E). exists e. split; auto. apply Nat.eqb_eq; auto.
Qed.
Local Fixpoint run_roomyb (hasher : Z -> Z) (m : hmap Z Z) (os : list (hop Z Z)) : bool :=
  match os with
  | [] => true
  | o :: os => match o with HSet k _ | HRef k _ _ => match route Z.eqb m k (hash_of hasher k) with Some Unavailable => roomyb (hm_index m) | _ => true end | _ => true end &&
      match hm_op Z.eqb hasher 0 m o with Some (Some (m, _)) => run_roomyb hasher m os | _ => true end
  end.
Local Lemma run_roomyb_ok hasher : forall os m, run_roomyb hasher m os = true -> run_roomy Z.eqb hasher 0 m os.
Proof.
  induction os as [|o os IH]; intros m H; cbn [run_roomyb run_roomy] in *; [exact I|]. apply andb_true_iff in H. destruct H as [H1 H2]. split.
  - destruct o; auto; intros E; rewrite E in H1; apply roomyb_ok; auto.
  - destruct (hm_op Z.eqb hasher 0 m o) as [[[m' r]|]|]; auto.
Qed.
Example hash_map_roomy_history : run_roomy Z.eqb (fun k => k mod 16) 0 empty_map history.
Proof. apply run_roomyb_ok; vm_compute; reflexivity. Qed.
(** an index of eight slots, six of them used, two of the entries two away from their place *)
Local Definition six : list ientry := [IE 15 1; IE 23 2; IE 8 3; IE 0 0; IE 4 4; IE 12 5; IE 0 0; IE 7 6].
Local Definition distinctb (l : list Z) : bool := (length (nodup Z.eq_dec l) =? length l)%nat.
Example hash_map_roomy_index : in_orderb six = true /\ distinctb (map ie_hash (used six)) = true /\ roomyb six = true /\ lenz six = 2 ^ 3 /\
  match increase_capacity six with Some ix => in_orderb ix && (lenz ix =? 16) | None => false end = true.
Proof. repeat split; vm_compute; reflexivity. Qed.
(** a small map: five keys with three hashes, one removed, a fourth hash *)
Local Definition small : list (hop Z Z) := [HSet 1 10; HSet 17 20; HSet 2 30; HSet 33 40; HSet 7 50; HRemove 17; HSet 4 60; HRef 4 0 (fun v => v + 1); HGet 4; HGet 17; HLen].
Example hash_map_small : run_small Z.eqb (fun k => k mod 16) 0 empty_map small /\
  exists m, hm_run Z.eqb (fun k => k mod 16) 0 empty_map small = Some (Some ([RNone; RNone; RNone; RNone; RNone; RBool true; RNone; RNone; RGet 61 true; RGet 0 false; RLen 5], m)).
Proof. split; [vm_compute; intuition (discriminate || lia)|]. eexists. vm_compute. reflexivity. Qed.
