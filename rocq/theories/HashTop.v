(** lib/hash.fu: the operations of a Map do what HashSpec.v says, where the index grows soundly. *)
From Verif Require Import CommonLemmas HashModel HashIndex HashData HashProofs HashSpec.
From Coq Require Import Permutation.
Open Scope Z_scope.

(** ** Growing keeps the entries *)
Lemma setz_perm {A} (l l' : list A) i x y : getz l i = Some y -> setz l i x = Some l' -> Permutation (x :: l) (y :: l') /\ length l' = length l.
Proof.
  unfold getz, setz. destruct (Z.ltb_spec i 0); [discriminate|]. intros E F.
  pose proof (nth_error_split _ _ E) as (a & b & -> & La). rewrite <- La in F.
  assert (l' = a ++ x :: b) as ->. { rewrite upd_spec in F by (rewrite app_length; cbn; lia). injection F as <-. f_equal; [apply firstn_mid|f_equal].
    clear. induction a as [|c a IH]; [reflexivity|exact IH]. }
  split; [|rewrite !app_length; reflexivity].
  apply Permutation_trans with (x :: y :: a ++ b); [apply perm_skip; symmetry; apply Permutation_middle|].
  apply Permutation_trans with (y :: x :: a ++ b); [apply perm_swap|]. apply perm_skip, Permutation_middle.
Qed.
Lemma swapz_perm {A} (l l' : list A) i j : swapz i j l = Some l' -> Permutation l l' /\ length l' = length l.
Proof.
  unfold swapz. destruct (getz l i) as [x|] eqn:Ex; [|discriminate]. destruct (getz l j) as [y|] eqn:Ey; [|discriminate]. cbn [obind].
  destruct (setz l i y) as [l1|] eqn:E1; [|discriminate]. cbn [obind]. intros E2.
  destruct (setz_perm _ _ _ _ _ Ex E1) as [P1 L1].
  assert (G : exists z, getz l1 j = Some z /\ z = y).
  { unfold getz, setz in *. destruct (i <? 0) eqn:Ei; [discriminate|]. destruct (j <? 0) eqn:Ej; [discriminate|].
    destruct (upd_Some _ _ _ _ E1) as (_ & _ & U1 & U2). exists y. split; auto. destruct (Nat.eq_dec (Z.to_nat j) (Z.to_nat i)) as [->|N]; auto. rewrite U2; auto. }
  destruct G as (z & G & ->). destruct (setz_perm _ _ _ _ _ G E2) as [P2 L2]. split; [|lia].
  apply (Permutation_cons_inv (a := y)), (Permutation_cons_inv (a := x)).
  apply Permutation_trans with (x :: x :: l1); [apply perm_skip; exact P1|].
  apply Permutation_trans with (x :: y :: l'); [apply perm_skip; exact P2|]. apply Permutation_refl.
Qed.
Lemma compact_perm : forall fuel ix mask f ix', compact fuel ix mask f = Some ix' -> Permutation ix ix' /\ length ix' = length ix.
Proof.
  induction fuel as [|fuel IH]; intros ix mask f ix' E; [discriminate|]. cbn [compact] in E. destruct (getz ix _); [|discriminate]. cbn [obind] in E.
  destruct (_ || _); [injection E as <-; auto|]. destruct (swapz _ _ ix) as [ix1|] eqn:E1; [|discriminate]. cbn [obind] in E.
  apply swapz_perm in E1. apply IH in E. destruct E1, E. split; [eapply Permutation_trans; eauto|congruence].
Qed.
Lemma shift_back_perm : forall fuel ix mask y d ix' d', shift_back fuel ix mask y d = Some (ix', d') -> Permutation ix ix' /\ length ix' = length ix.
Proof.
  induction fuel as [|fuel IH]; intros ix mask y d ix' d' E; [discriminate|]. cbn [shift_back] in E. destruct (d =? y); [injection E as <- _; auto|].
  destruct (getz ix _); [|discriminate]. cbn [obind] in E. destruct (_ <? _); [|injection E as <- _; auto].
  destruct (swapz _ _ ix) as [ix1|] eqn:E1; [|discriminate]. cbn [obind] in E.
  apply swapz_perm in E1. apply IH in E. destruct E1, E. split; [eapply Permutation_trans; eauto|congruence].
Qed.
Lemma rehash_perm : forall fuel ix a b c d e p ix', rehash fuel ix a b c d e p = Some ix' -> Permutation ix ix' /\ length ix' = length ix.
Proof.
  induction fuel as [|fuel IH]; intros ix a b c d e p ix' E; [discriminate|]. cbn [rehash] in E. destruct (a <=? p); [injection E as <-; auto|].
  destruct (getz ix _) as [x|]; [|discriminate]. cbn [obind] in E. destruct (_ && _); [|eapply IH; eauto].
  destruct (find_dest _ _ _ _ _) as [[dest|]|]; [|eapply IH; eauto|discriminate]. cbn [obind] in E.
  destruct (shift_back _ _ _ _ _) as [[ix1 d1]|] eqn:E1; [|discriminate]. cbn [obind] in E.
  destruct (swapz _ _ ix1) as [ix2|] eqn:E2; [|discriminate]. cbn [obind] in E.
  destruct (compact _ ix2 _ _) as [ix3|] eqn:E3; [|discriminate]. cbn [obind] in E.
  apply shift_back_perm in E1. apply swapz_perm in E2. apply compact_perm in E3. apply IH in E. destruct E1, E2, E3, E.
  split; [|congruence]. eapply Permutation_trans; [eassumption|]. eapply Permutation_trans; [eassumption|]. eapply Permutation_trans; eassumption.
Qed.
Lemma used_app a b : used (a ++ b) = used a ++ used b.
Proof. unfold used. apply filter_app. Qed.
Lemma used_empty m : used (repeat (IE 0 0) m) = [].
Proof. induction m; cbn; auto. Qed.
Lemma grow_len ix : length (grow ix (Z.max (lenz ix * 2) 2)) = Z.to_nat (Z.max (lenz ix * 2) 2).
Proof. unfold grow. rewrite app_length, repeat_length. unfold lenz. lia. Qed.
Lemma increase_keeps ix ix' : increase_capacity ix = Some ix' -> Permutation (used ix') (used ix) /\ lenz ix' = Z.max (lenz ix * 2) 2.
Proof.
  unfold increase_capacity. intros E. apply rehash_perm in E. destruct E as [P L]. split.
  - apply (perm_filter usedb) in P. fold (used ix') in P. symmetry in P. eapply Permutation_trans; [exact P|]. 
    unfold grow. change (filter usedb) with used. rewrite used_app, used_empty, app_nil_r. auto.
  - unfold lenz at 1. rewrite L, grow_len. unfold lenz. lia.
Qed.
Lemma in_order_RH ix k : pow2 ix k -> (in_order ix <-> RH ix k).
Proof.
  intros [Hk L]. assert (E : Z.log2 (lenz ix) = k) by (rewrite L; apply Z.log2_pow2; lia).
  unfold in_order, RH. rewrite E. reflexivity.
Qed.
Definition sound_index (ix : list ientry) : Prop := ix = [] \/ exists k, pow2 ix k /\ RH ix k.
Lemma increase_sound ix ix' : sound_index ix -> lenz ix < MAX_INDEX -> increase_capacity ix = Some ix' -> in_order ix' ->
  exists k, pow2 ix' k /\ RH ix' k /\ lenz ix' <= MAX_INDEX /\ (ix = [] /\ k = 1 \/ pow2 ix (k - 1)).
Proof.
  intros Si M E O. destruct (increase_keeps _ _ E) as [_ L]. destruct Si as [->|(k & P & R)].
  - exists 1. cbn in L. assert (P : pow2 ix' 1) by (split; [lia|rewrite L; reflexivity]). split; auto. split; [apply in_order_RH; auto|].
    split; [unfold MAX_INDEX; lia|auto].
  - destruct P as [Hk Lk]. assert (2 <= 2 ^ k) by (pose proof (Z.pow_le_mono_r 2 1 k); lia).
    rewrite Lk in M. unfold MAX_INDEX in M. apply Z.pow_lt_mono_r_iff in M; [|lia..].
    exists (k + 1). assert (Lk' : lenz ix' = 2 ^ (k + 1)) by (rewrite L, Lk, Z.pow_add_r by lia; lia).
    assert (P : pow2 ix' (k + 1)) by (split; [lia|auto]). split; auto. split; [apply in_order_RH; auto|].
    split; [rewrite Lk'; unfold MAX_INDEX; apply Z.pow_le_mono_r; lia|]. right. split; [lia|]. rewrite Lk. f_equal. lia.
Qed.

Section TOP.
Context {K V : Type} (eqb : K -> K -> bool) (hasher : K -> Z) (default : V).
Hypothesis eqb_ok : forall a b, eqb a b = true <-> a = b.
Notation data := (list (dentry K V)).
Notation inv := (@inv K V hasher).

Definition pair_of (e : dentry K V) : K * V := (de_key e, de_value e).
Definition kvs (d : data) : list (K * V) := map pair_of d.
Lemma kv_kvs d p : kv d (S p) = nth_error (kvs d) p.
Proof. unfold kv, kvs, entry_at. rewrite nth_error_map. destruct (nth_error d p); auto. Qed.
Lemma in_kvs d k v : In (k, v) (kvs d) <-> exists p e, entry_at d p = Some e /\ de_key e = k /\ de_value e = v.
Proof.
  split.
  - intros I. apply In_nth_error in I. destruct I as [p E]. unfold kvs in E. rewrite nth_error_map in E.
    destruct (nth_error d p) as [e|] eqn:Ee; [|discriminate]. exists (S p), e. cbn in E. unfold pair_of in E. injection E as <- <-. auto.
  - intros (p & e & E & <- & <-). destruct p as [|p]; [discriminate|]. apply (nth_error_In _ p). unfold kvs. rewrite nth_error_map.
    cbn in E. rewrite E. reflexivity.
Qed.
Lemma key_kvs d k : key_in d k <-> exists v, In (k, v) (kvs d).
Proof.
  split; [intros (p & e & E & Ek)|intros (v & I)].
  - exists (de_value e). apply in_kvs. eauto.
  - apply in_kvs in I. destruct I as (p & e & E & Ek & _). exists p, e. auto.
Qed.
Lemma kvs_nodup us d : dinv hasher us d -> NoDup (map fst (kvs d)).
Proof.
  intros D. apply NoDup_nth_error. intros i j Hi E. unfold kvs in *. rewrite map_map, map_length in *. rewrite !nth_error_map in E.
  destruct (nth_error d i) as [e|] eqn:Ei; [|apply nth_error_None in Ei; lia].
  destruct (nth_error d j) as [e'|] eqn:Ej; [|discriminate]. cbn in E. injection E as E.
  assert (S i = S j); [|lia]. eapply (di_inj _ _ _ _ D (S i) (S j)); cbn; eauto.
Qed.
(** The pairs a map holds *)
Definition holds (m : hmap K V) (M : @fmap K V) : Prop := inv m /\ forall k v, In (k, v) (kvs (hm_data m)) <-> M k = Some v.
Lemma holds_lists m M : holds m M -> lists M (kvs (hm_data m)).
Proof. intros [[_ D] H]. split; auto. eapply kvs_nodup; eauto. Qed.
Lemma holds_ext m M M' : (forall k, M k = M' k) -> holds m M -> holds m M'.
Proof. intros E [I H]. split; auto. intros k v. rewrite H, E. reflexivity. Qed.
Lemma eqb_refl k : eqb k k = true. Proof. apply eqb_ok. reflexivity. Qed.
Lemma eqb_neq a b : a <> b -> eqb a b = false.
Proof. intros N. destruct (eqb a b) eqn:E; auto. apply eqb_ok in E. tauto. Qed.
Lemma holds_none m M k : holds m M -> ~ key_in (hm_data m) k -> M k = None.
Proof. intros [I H] N. destruct (M k) as [v|] eqn:E; auto. exfalso. apply N. apply key_kvs. exists v. apply H. auto. Qed.
Lemma holds_entry m M p e : holds m M -> entry_at (hm_data m) p = Some e -> M (de_key e) = Some (de_value e).
Proof. intros [I H] E. apply H. apply in_kvs. eauto. Qed.

(** get *)
Lemma get_ok m M k : holds m M -> hm_get eqb hasher default m k = Some (get_or M k default, some (M k)).
Proof.
  intros H. unfold hm_get. destruct (if_ref_ok eqb hasher eqb_ok m k (proj1 H)) as [(p & e & E & Ep & Ek)|[E N]]; rewrite E; cbn [obind].
  - rewrite Ep. cbn [obind]. unfold get_or. rewrite <- Ek, (holds_entry _ _ _ _ H Ep). reflexivity.
  - unfold get_or. rewrite (holds_none _ _ _ H N). reflexivity.
Qed.
(** Changing one value *)
Lemma write_holds m M p e v : holds m M -> entry_at (hm_data m) p = Some e ->
  exists d', set_entry (hm_data m) p (DE (de_key e) v (de_hash e) (de_collision e)) = Some d' /\
    holds (HM (hm_index m) d') (upd_map eqb M (de_key e) (Some v)).
Proof.
  intros H E. destruct (write_ok hasher m p e v (proj1 H) E) as (d' & E' & I & L & A). exists d'. split; auto. split; auto.
  cbn [hm_data]. intros k w. rewrite in_kvs. unfold upd_map. split.
  - intros (q & x & Ex & <- & <-). rewrite A in Ex. destruct (Nat.eqb_spec q p) as [->|Nq].
    + injection Ex as <-. cbn [de_key de_value]. rewrite eqb_refl. reflexivity.
    + rewrite eqb_neq; [eapply holds_entry; eauto|]. intros Ek. apply Nq. eapply (di_inj _ _ _ _ (proj2 (proj1 H))); eauto.
  - destruct (eqb k (de_key e)) eqn:Ek.
    + apply eqb_ok in Ek. subst k. intros X. injection X as <-. exists p. eexists. rewrite A, Nat.eqb_refl. split; [reflexivity|auto].
    + intros X. apply (proj2 H) in X. apply in_kvs in X. destruct X as (q & x & Ex & <- & <-). exists q, x. rewrite A.
      destruct (Nat.eqb_spec q p) as [->|Nq]; auto. exfalso. rewrite E in Ex. injection Ex as <-. rewrite eqb_refl in Ek. discriminate.
Qed.
Lemma if_ref_holds m M k f : holds m M -> exists m', hm_if_ref eqb hasher m k f = Some (m', some (M k)) /\ holds m' (upd_map eqb M k (option_map f (M k))).
Proof.
  intros H. unfold hm_if_ref. destruct (if_ref_ok eqb hasher eqb_ok m k (proj1 H)) as [(p & e & E & Ep & Ek)|[E N]]; rewrite E; cbn [obind].
  - rewrite Ep. cbn [obind]. destruct (write_holds m M p e (f (de_value e)) H Ep) as (d' & E' & H'). rewrite E'. cbn [obind].
    eexists. rewrite <- Ek, (holds_entry _ _ _ _ H Ep). split; [reflexivity|exact H'].
  - exists m. rewrite (holds_none _ _ _ H N). split; auto. apply (holds_ext m M); auto. intros k'. unfold upd_map. destruct (eqb k' k) eqn:Ek; auto.
    apply eqb_ok in Ek. subst. rewrite (holds_none _ _ _ H N). reflexivity.
Qed.

(** ref *)
Lemma empty_unavailable (m : hmap K V) k h : hm_index m = [] -> route eqb m k h = Some Unavailable.
Proof. intros E. unfold route, max_probes. rewrite E. reflexivity. Qed.
Lemma inv_unavailable m k : inv m -> forall r, route eqb m k (hash_of hasher k) = Some r ->
  match r with Found _ _ _ => True | _ => ~ key_in (hm_data m) k end.
Proof.
  intros [[X|(n & P & R)] D] r E.
  - rewrite empty_unavailable in E by auto. injection E as <-. apply (no_hash hasher); auto. rewrite X. intros ? [].
  - destruct (route_ok eqb hasher eqb_ok m k (hash_of hasher k) n P D) as (r' & Er & RR & XX). rewrite E in Er. injection Er as <-.
    eapply not_there; eauto.
Qed.
Lemma ref_loop_ok key init : let h := hash_of hasher key in
  forall fuel m, inv m -> ref_grows eqb fuel m key h ->
  (hm_index m = [] /\ (32 <= fuel)%nat) \/ (exists k, pow2 (hm_index m) k /\ 31 < k + Z.of_nat fuel) ->
  (lenz (hm_index m) <= MAX_INDEX) ->
  exists q, ref_loop eqb fuel m key h init = Some q /\
    match q with
    | None => True
    | Some (m', p) => inv m' /\ lenz (hm_index m') <= MAX_INDEX /\
        ((hm_data m' = hm_data m /\ exists e, entry_at (hm_data m) p = Some e /\ de_key e = key) \/
         (~ key_in (hm_data m) key /\ exists pos, hm_data m' = hm_data m ++ [DE key init h pos] /\ p = length (hm_data m')))
    end.
Proof.
  intros h. induction fuel as [|fuel IH]; intros m I Ro F Mx.
  { exfalso. destruct F as [[_ F]|(k & (P & _) & F)]; lia. }
  cbn [ref_loop].
  assert (Rt : exists r, route eqb m key h = Some r /\ (hm_index m <> [] -> forall k, pow2 (hm_index m) k -> route_result m key h k r) /\ (hm_index m = [] -> r = Unavailable)).
  { destruct I as [[X|(k & P & R)] D].
    - exists Unavailable. rewrite empty_unavailable by auto. split; auto. split; [tauto|auto].
    - destruct (route_ok eqb hasher eqb_ok m key h k P D) as (r & Er & RR & XX). exists r. split; auto. split.
      + intros _ k' [Pk' Lk']. destruct P as [Pk Lk]. assert (k' = k); [|subst; auto]. rewrite Lk in Lk'. apply (Z.pow_inj_r 2); lia.
      + intros E. pose proof (pow2_pos _ _ P). rewrite E in H. unfold lenz in H. cbn in H. lia. }
  destruct Rt as (r & Er & RR & E0). pose proof (inv_unavailable m key I r Er) as NT. rewrite Er. cbn [obind].
  assert (Ne : r <> Unavailable -> exists k, pow2 (hm_index m) k /\ RH (hm_index m) k /\ hm_index m <> []).
  { intros N. destruct I as [[X|(k & P & R)] D]; [tauto|]. exists k. split; [exact P|]. split; [exact R|]. intros E. apply N, E0, E. }
  destruct r as [i p coll|i f|].
  - eexists. split; [reflexivity|]. cbv beta iota zeta. split; auto. split; auto. left. split; auto.
    destruct (Ne ltac:(discriminate)) as (k & P & R & X). destruct (RR X k P) as (_ & _ & _ & l1 & l2 & e & _ & _ & Ee & Ek). eauto.
  - destruct (Ne ltac:(discriminate)) as (k & P & R & X).
    destruct (add_ok eqb hasher eqb_ok m k key init i f P R (proj2 I) (RR X k P) NT) as (m' & pos & E & I' & D' & L').
    unfold add_at in E. fold h in E. rewrite E. eexists. split; [reflexivity|]. cbv beta iota zeta. split; auto. split; [unfold lenz in *; lia|].
    right. split; auto. exists pos. auto.
  - destruct (Z.leb_spec MAX_INDEX (lenz (hm_index m))) as [Hm|Hm]; [exists None; auto|].
    cbn [ref_grows] in Ro. rewrite Er in Ro. destruct Ro as [Ro|(ix' & Ei & Or & Ro)]; [lia|].
    destruct (increase_sound _ _ (proj1 I) Hm Ei Or) as (k' & P' & R' & M' & C). destruct (increase_keeps _ _ Ei) as [Pm L'].
    rewrite Ei. cbn [obind]. destruct (IH (HM ix' (hm_data m))) as (q & Eq & Hq).
    + split; [right; eauto|]. cbn [hm_index hm_data]. eapply dinv_perm; [apply Permutation_sym; exact Pm|exact (proj2 I)].
    + exact Ro.
    + right. exists k'. split; [exact P'|]. destruct F as [[F1 F2]|(k & [Pk Lk] & F)].
      * destruct P' as [Pk' _]. lia.
      * destruct C as [[X _]|[Pk' Lk']]; [rewrite X in Lk; pose proof (Z.pow_pos_nonneg 2 k); unfold lenz in Lk; cbn in Lk; lia|].
        rewrite Lk in Lk'. apply Z.pow_inj_r in Lk'; lia.
    + exact M'.
    + exists q. split; [exact Eq|]. exact Hq.
Qed.
(** between operations *)
Definition state (m : hmap K V) (M : @fmap K V) : Prop := holds m M /\ lenz (hm_index m) <= MAX_INDEX.
Lemma ref_holds m M k init f : state m M -> ref_grows eqb 33 m k (hash_of hasher k) ->
  exists q, hm_ref eqb hasher m k init f = Some q /\
    match q with None => True | Some m' => state m' (upd_map eqb M k (Some (f (get_or M k init)))) end.
Proof.
  intros [H Mx] Ro. unfold hm_ref, ref.
  destruct (ref_loop_ok k init 33 m (proj1 H) Ro) as (q & E & Hq); [|auto|].
  { destruct (proj1 (proj1 H)) as [X|(n & P & _)]; [left; split; auto; lia|right; exists n; split; auto]. destruct P as [P _]. lia. }
  rewrite E. cbn [obind]. destruct q as [[m' p]|]; [|exists None; auto].
  destruct Hq as (I' & Mx' & C).
  assert (Hh : exists e, entry_at (hm_data m') p = Some e /\ de_key e = k /\ de_value e = get_or M k init /\
            holds m' (upd_map eqb M k (Some (get_or M k init)))).
  { destruct C as [(Ed & e & Ee & Ek)|(N & pos & Ed & Ep)].
    - exists e. rewrite Ed. split; auto. split; auto. unfold get_or. rewrite <- Ek, (holds_entry _ _ _ _ H Ee). split; auto.
      split; auto. rewrite Ed. intros k' v'. rewrite (proj2 H). unfold upd_map. destruct (eqb k' (de_key e)) eqn:X; [|reflexivity].
      apply eqb_ok in X. subst k'. rewrite (holds_entry _ _ _ _ H Ee). reflexivity.
    - pose proof (holds_none _ _ _ H N) as Mn. exists (DE k init (hash_of hasher k) pos).
      rewrite Ed, Ep, Ed, app_length, app_entry. cbn [length]. rewrite Nat.add_1_r, Nat.eqb_refl. unfold get_or. rewrite Mn. split; auto. split; auto. split; auto.
      split; auto. rewrite Ed. intros k' v'. unfold kvs. rewrite map_app, in_app_iff. fold (kvs (hm_data m)). rewrite (proj2 H). unfold upd_map. cbn [map In].
      destruct (eqb k' k) eqn:X.
      + apply eqb_ok in X. subst k'. rewrite Mn. split; [intros [Y|[Y|[]]]; [discriminate|]|intros Y; right; left]; unfold pair_of in *; cbn in *; congruence.
      + split; [intros [Y|[Y|[]]]; auto|auto]. exfalso. unfold pair_of in Y. cbn in Y. injection Y as -> _. rewrite eqb_refl in X. discriminate. }
  destruct Hh as (e & Ee & Ek & Ev & Hm). cbv beta iota zeta. rewrite Ee. cbn [obind].
  destruct (write_holds m' _ p e (f (de_value e)) Hm Ee) as (d' & E' & H'). rewrite E'. cbn [obind].
  eexists. split; [reflexivity|]. cbv beta iota. split; [|exact Mx'].
  eapply holds_ext; [|exact H']. intros k'. unfold upd_map. rewrite Ek, Ev. destruct (eqb k' k); reflexivity.
Qed.

(** remove *)
Lemma swap_list (A : list (K * V)) x B L : length L = (length A + length B)%nat ->
  (forall q, nth_error L q = if (q =? length A)%nat then (if (length A =? length A + length B)%nat then None else nth_error (A ++ x :: B) (length A + length B))
                             else if (q <? length A + length B)%nat then nth_error (A ++ x :: B) q else None) ->
  exists B', L = A ++ B' /\ Permutation B' B.
Proof.
  intros Ln H. destruct B as [|y B _] using rev_ind.
  - exists []. split; [|auto]. apply list_ext. intros q. rewrite H, app_nil_r. cbn [length]. rewrite Nat.add_0_r.
    destruct (Nat.eqb_spec q (length A)) as [->|N]; [rewrite Nat.eqb_refl; symmetry; apply nth_error_None; lia|].
    destruct (Nat.ltb_spec q (length A)) as [l|l]; [rewrite nth_error_app1; auto|symmetry; apply nth_error_None; lia].
  - exists (y :: B). split; [|apply Permutation_cons_append]. apply list_ext. intros q. rewrite H. rewrite app_length. cbn [length].
    destruct (Nat.eqb_spec q (length A)) as [->|N].
    + destruct (Nat.eqb_spec (length A) (length A + (length B + 1))) as [e|_]; [lia|].
      rewrite nth_error_app2 by lia. rewrite (nth_error_app2 A) by lia. replace (length A + (length B + 1) - length A)%nat with (S (length B)) by lia.
      rewrite Nat.sub_diag. cbn [nth_error]. rewrite nth_error_app2 by lia. rewrite Nat.sub_diag. reflexivity.
    + destruct (Nat.ltb_spec q (length A + (length B + 1))) as [l|l]; [|symmetry; apply nth_error_None; rewrite app_length; cbn; lia].
      destruct (Nat.lt_ge_cases q (length A)) as [g|g]; [rewrite !nth_error_app1; auto|].
      rewrite !(nth_error_app2 A) by lia. destruct (q - length A)%nat as [|r] eqn:Er; [lia|]. cbn [nth_error]. apply nth_error_app1. lia.
Qed.
Lemma remove_list m k : inv m -> forall A x B, kvs (hm_data m) = A ++ x :: B -> fst x = k ->
  exists m' B', remove eqb m k (hash_of hasher k) = Some (m', true) /\ inv m' /\ kvs (hm_data m') = A ++ B' /\ Permutation B' B /\
    lenz (hm_index m') = lenz (hm_index m).
Proof.
  intros I A x B E Ek. set (p := length A).
  assert (Ep : exists e, entry_at (hm_data m) (S p) = Some e /\ de_key e = k).
  { assert (X : nth_error (kvs (hm_data m)) p = Some x) by (rewrite E, nth_error_app2, Nat.sub_diag by lia; reflexivity).
    unfold kvs in X. rewrite nth_error_map in X. cbn. destruct (nth_error (hm_data m) p) as [e|]; [|discriminate]. exists e. split; auto.
    cbn in X. injection X as X. rewrite <- Ek, <- X. reflexivity. }
  destruct Ep as (e & Ee & Eke). destruct (found_there eqb hasher eqb_ok m k (hash_of hasher k) (S p) e I eq_refl Ee Eke) as (i & coll & Er).
  unfold remove. rewrite Er. cbn [obind]. pose proof I as [[X|(n & P & R)] D].
  { rewrite (empty_unavailable m k (hash_of hasher k) X) in Er. discriminate. }
  destruct (route_ok eqb hasher eqb_ok m k (hash_of hasher k) n P D) as (r & Er' & RR & _). rewrite Er in Er'. injection Er' as <-.
  destruct (remove_at_ok eqb hasher eqb_ok m n k (hash_of hasher k) i (S p) coll P R D RR) as (m' & E' & I' & L' & Li & Kv).
  assert (Ld : length (hm_data m) = (p + S (length B))%nat).
  { rewrite <- (map_length pair_of (hm_data m)). fold (kvs (hm_data m)). rewrite E, app_length. reflexivity. }
  destruct (swap_list A x B (kvs (hm_data m'))) as (B' & EB & PB).
  { unfold kvs. rewrite map_length. fold p. lia. }
  { intros q. rewrite <- kv_kvs, Kv. cbn [Nat.eqb]. fold p. rewrite Ld, <- E. rewrite <- !kv_kvs.
    replace (p + S (length B))%nat with (S (p + length B)) by lia. cbn [Nat.eqb]. unfold Nat.ltb. cbn [Nat.leb]. reflexivity. }
  rewrite E'. cbn [obind]. exists m', B'. split; [reflexivity|]. split; [exact I'|]. split; [exact EB|]. split; [exact PB|]. unfold lenz. lia.
Qed.
Lemma inv_nodup m : inv m -> NoDup (map fst (kvs (hm_data m))).
Proof. intros [_ D]. eapply kvs_nodup; eauto. Qed.
Lemma nodup_fst (L : list (K * V)) k v w : NoDup (map fst L) -> In (k, v) L -> In (k, w) L -> v = w.
Proof.
  induction L as [|[a b] L IH]; intros N I J; [destruct I|]. cbn in N. inversion_clear N as [|? ? N1 N2].
  destruct I as [I|I], J as [J|J]; try congruence; auto; exfalso; apply N1.
  - injection I as -> ->. apply (in_map fst) in J. exact J.
  - injection J as -> ->. apply (in_map fst) in I. exact I.
Qed.
Lemma remove_holds m M k : state m M -> exists m', hm_remove eqb hasher m k = Some (m', some (M k)) /\ state m' (upd_map eqb M k None).
Proof.
  intros [H Mx]. unfold hm_remove. destruct (M k) as [v|] eqn:E.
  - pose proof (proj2 (proj2 H k v) E) as I. apply in_split in I. destruct I as (A & B & EI).
    destruct (remove_list m k (proj1 H) A (k, v) B EI eq_refl) as (m' & B' & E' & I' & K' & P' & L'). exists m'. split; [exact E'|].
    split; [|lia]. split; auto. intros k' v'. rewrite K'. pose proof (inv_nodup m (proj1 H)) as N.
    transitivity (In (k', v') (A ++ B)).
    { rewrite !in_app_iff. split; intros [X|X]; auto; right; [eapply Permutation_in; [exact P'|auto]|eapply Permutation_in; [symmetry; exact P'|auto]]. }
    unfold upd_map. destruct (eqb k' k) eqn:Ek.
    + apply eqb_ok in Ek. subst k'. split; [|discriminate]. intros X. exfalso. rewrite EI, map_app in N. cbn in N. apply NoDup_remove_2 in N. apply N.
      rewrite <- map_app. apply (in_map fst) in X. exact X.
    + rewrite <- (proj2 H), EI, !in_app_iff. cbn [In]. split; [tauto|]. intros [X|[X|X]]; auto. exfalso. injection X as <- _. rewrite eqb_refl in Ek. discriminate.
  - exists m. assert (N : ~ key_in (hm_data m) k). { intros X. apply key_kvs in X. destruct X as [v X]. apply (proj2 H) in X. congruence. }
    split.
    + unfold remove. destruct (if_ref_ok eqb hasher eqb_ok m k (proj1 H)) as [(p & e & _ & Ep & Ek)|[X _]]; [exfalso; apply N; exists p, e; auto|].
      unfold if_ref in X. destruct (route eqb m k (hash_of hasher k)) as [r|] eqn:Er; [|discriminate]. cbn [obind] in *. destruct r; [discriminate|reflexivity..].
    + split; auto. eapply holds_ext; [|exact H]. intros k'. unfold upd_map. destruct (eqb k' k) eqn:Ek; auto. apply eqb_ok in Ek. congruence.
Qed.

(** each *)
Definition process (visit : K -> V -> V * bool) (x : K * V) : list (K * V) :=
  let q := visit (fst x) (snd x) in if snd q then [] else [(fst x, fst q)].
Lemma each_ok visit : forall fuel m A B, inv m -> kvs (hm_data m) = A ++ B -> (length B < fuel)%nat ->
  exists m' seen, each_loop eqb fuel visit m (length A) = Some (m', seen) /\ inv m' /\ lenz (hm_index m') = lenz (hm_index m) /\
    Permutation seen B /\ Permutation (kvs (hm_data m')) (A ++ flat_map (process visit) B).
Proof.
  induction fuel as [|fuel IH]; intros m A B I E L; [lia|]. cbn [each_loop].
  assert (Ne : nth_error (kvs (hm_data m)) (length A) = option_map pair_of (nth_error (hm_data m) (length A))) by (unfold kvs; apply nth_error_map).
  destruct B as [|x B].
  - rewrite E, app_nil_r in Ne. rewrite (proj2 (nth_error_None A (length A))) in Ne by lia.
    destruct (nth_error (hm_data m) (length A)); [discriminate|]. exists m, []. rewrite E. cbn [flat_map]. auto.
  - rewrite E, nth_error_app2, Nat.sub_diag in Ne by lia. cbn [nth_error] in Ne.
    destruct (nth_error (hm_data m) (length A)) as [e|] eqn:Ee; [|discriminate]. cbn [option_map] in Ne. injection Ne as ->.
    destruct (visit (de_key e) (de_value e)) as [v rem] eqn:Ev.
    destruct (write_ok hasher m (S (length A)) e v I Ee) as (d' & E' & I' & L' & At). cbn [set_entry] in E'. rewrite E'. cbn [obind].
    assert (Ek : kvs d' = A ++ (de_key e, v) :: B).
    { apply list_ext. intros q. rewrite <- kv_kvs. unfold kv. rewrite At. cbn [Nat.eqb]. destruct (Nat.eqb_spec q (length A)) as [->|N].
      - rewrite nth_error_app2, Nat.sub_diag by lia. reflexivity.
      - change (kv (hm_data m) (S q) = nth_error (A ++ (de_key e, v) :: B) q). rewrite kv_kvs, E.
        destruct (Nat.lt_ge_cases q (length A)) as [g|g]; [rewrite !nth_error_app1; auto|rewrite !nth_error_app2 by lia].
        destruct (q - length A)%nat eqn:Eq; [lia|reflexivity]. }
    destruct rem.
    + assert (Eh : de_hash e = hash_of hasher (de_key e)) by (eapply (di_key _ _ _ _ (proj2 I) (S (length A))); eauto).
      destruct (remove_list (HM (hm_index m) d') (de_key e) I' A (de_key e, v) B Ek eq_refl) as (m2 & B' & E2 & I2 & K2 & P2 & L2).
      rewrite Eh, E2. cbn [obind fst]. destruct (IH m2 A B' I2 K2) as (m3 & seen & E3 & I3 & L3 & P3 & K3).
      { apply Permutation_length in P2. cbn in L. lia. }
      rewrite E3. cbn [obind fst snd]. eexists _, _. split; [reflexivity|]. split; auto. cbn [hm_index] in L2. split; [lia|]. split.
      * unfold pair_of. apply perm_skip. exact (Permutation_trans P3 P2).
      * etransitivity; [exact K3|]. apply Permutation_app_head. cbn [flat_map]. unfold process at 2, pair_of. cbn [fst snd]. rewrite Ev. cbn [fst snd app].
        apply Permutation_flat_map; auto.
    + replace (S (length A)) with (length (A ++ [(de_key e, v)])) by (rewrite app_length; cbn; lia).
      destruct (IH (HM (hm_index m) d') (A ++ [(de_key e, v)]) B I') as (m3 & seen & E3 & I3 & L3 & P3 & K3).
      { cbn [hm_data]. rewrite Ek, <- app_assoc. reflexivity. }
      { cbn in L. lia. }
      rewrite E3. cbn [obind fst snd]. eexists _, _. split; [reflexivity|]. split; auto. split; [exact L3|]. split.
      * unfold pair_of. apply perm_skip. exact P3.
      * etransitivity; [exact K3|]. cbn [flat_map]. unfold process at 2, pair_of. cbn [fst snd]. rewrite Ev. cbn [fst snd]. rewrite <- app_assoc. reflexivity.
Qed.
Lemma each_holds m M visit : state m M -> exists m' l, hm_each eqb visit m = Some (m', l) /\ lists M l /\
  state m' (fun k => match M k with None => None | Some v => if snd (visit k v) then None else Some (fst (visit k v)) end).
Proof.
  intros [H Mx]. unfold hm_each. destruct (each_ok visit (S (length (hm_data m))) m [] (kvs (hm_data m)) (proj1 H) eq_refl) as (m' & l & E & I & L & P & Kv).
  { unfold kvs. rewrite map_length. lia. }
  exists m', l. split; [exact E|]. destruct (holds_lists m M H) as [N Ml]. split; [|split; [|lia]].
  - split.
    + eapply Permutation_NoDup; [apply Permutation_map; symmetry; exact P|exact N].
    + intros k v. rewrite <- Ml. split; apply Permutation_in; auto. symmetry. auto.
  - split; auto. intros k v. cbn [app] in Kv.
    transitivity (In (k, v) (flat_map (process visit) (kvs (hm_data m)))).
    { split; apply Permutation_in; auto. symmetry. auto. }
    rewrite in_flat_map. split.
    + intros ((k0 & v0) & I0 & J). apply Ml in I0. unfold process in J. cbn [fst snd] in J. destruct (snd (visit k0 v0)) eqn:S0; [destruct J|destruct J as [J|[]]].
      injection J as <- <-. rewrite I0, S0. reflexivity.
    + destruct (M k) as [w|] eqn:Ek; [|discriminate]. intros X. exists (k, w). split; [apply Ml; auto|]. unfold process. cbn [fst snd].
      destruct (snd (visit k w)); [discriminate|]. injection X as <-. left. reflexivity.
Qed.

Lemma empty_state : state empty_map (fun _ => None).
Proof.
  split; [|cbn; unfold MAX_INDEX; lia]. split; [|cbn; intuition discriminate]. split; [left; reflexivity|]. cbn [empty_map hm_index hm_data used filter].
  split; cbn; try tauto; try (intros; lia); [constructor|intros p ? E; destruct p as [|[|p]]; discriminate|intros p ? ? ? E; destruct p as [|[|p]]; discriminate].
Qed.
(** One operation, and a history *)
Lemma op_ok m M o : state m M -> (match o with HSet k _ | HRef k _ _ => ref_grows eqb 33 m k (hash_of hasher k) | _ => True end) ->
  exists q, hm_op eqb hasher default m o = Some q /\
    match q with None => True | Some (m', r) => exists M', spec_op eqb default M o M' r /\ state m' M' end.
Proof.
  intros St Ro. pose proof (holds_lists m M (proj1 St)) as Li. destruct o as [k|k v|k init f|k f|k|visit| |]; cbn [hm_op].
  - rewrite (get_ok m M k (proj1 St)). cbn [obind fst snd]. eexists. split; [reflexivity|]. cbv beta iota. exists M. split; auto. constructor.
  - unfold hm_set. destruct (ref_holds m M k default (fun _ => v) St Ro) as (q & E & Hq). rewrite E. cbn [obind]. eexists. split; [reflexivity|].
    destruct q as [m'|]; cbn; auto. eexists. split; [constructor|exact Hq].
  - destruct (ref_holds m M k init f St Ro) as (q & E & Hq). rewrite E. cbn [obind]. eexists. split; [reflexivity|].
    destruct q as [m'|]; cbn; auto. eexists. split; [constructor|exact Hq].
  - destruct (if_ref_holds m M k f (proj1 St)) as (m' & E & Hm). rewrite E. cbn [obind fst snd]. eexists. split; [reflexivity|]. cbv beta iota.
    eexists. split; [constructor|]. split; auto. 
    assert (hm_index m' = hm_index m) as ->; [|exact (proj2 St)].
    unfold hm_if_ref in E. destruct (if_ref eqb m k (hash_of hasher k)) as [[p|]|]; cbn [obind] in E; [|congruence|discriminate].
    destruct (entry_at (hm_data m) p); [|discriminate]. cbn [obind] in E. destruct (set_entry _ _ _) in E; [|discriminate]. cbn [obind] in E. injection E as <- _. reflexivity.
  - destruct (remove_holds m M k St) as (m' & E & Hm). rewrite E. cbn [obind fst snd]. eexists. split; [reflexivity|]. cbv beta iota.
    eexists. split; [constructor|exact Hm].
  - destruct (each_holds m M visit St) as (m' & l & E & Hl & Hm). rewrite E. cbn [obind fst snd]. eexists. split; [reflexivity|]. cbv beta iota.
    eexists. split; [constructor; exact Hl|exact Hm].
  - eexists. split; [reflexivity|]. cbv beta iota. eexists. split; [constructor|exact empty_state].
  - eexists. split; [reflexivity|]. cbv beta iota. exists M. split; auto. replace (hm_len m) with (length (kvs (hm_data m))) by (unfold kvs; apply map_length).
    constructor. exact Li.
Qed.
Lemma run_ok : forall os m M, state m M -> run_grows eqb hasher default m os ->
  exists q, hm_run eqb hasher default m os = Some q /\
    match q with None => True | Some (rs, m') => exists M', spec_run eqb default M os rs M' /\ state m' M' end.
Proof.
  induction os as [|o os IH]; intros m M St Ro; cbn [hm_run run_grows] in *.
  - eexists. split; [reflexivity|]. cbv beta iota. exists M. split; auto. constructor. auto.
  - destruct Ro as [R1 R2]. destruct (op_ok m M o St R1) as (q & E & Hq). rewrite E in *. cbn [obind]. destruct q as [[m1 r]|]; [|exists None; auto].
    destruct Hq as (M1 & S1 & St1). destruct (IH m1 M1 St1 R2) as (q & E2 & Hq). rewrite E2. cbn [obind]. eexists. split; [reflexivity|].
    destruct q as [[rs m2]|]; cbn; auto. destruct Hq as (M2 & S2 & St2). exists M2. split; auto. econstructor; eauto.
Qed.
End TOP.
