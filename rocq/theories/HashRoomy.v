(** lib/hash.fu: a map whose index is roomy whenever it has to grow, grows soundly. *)
From Verif Require Import CommonLemmas HashModel HashIndex HashData HashProofs HashSpec HashTop HashGrowTwo.
From Coq Require Import Permutation.
Open Scope Z_scope.

Lemma used_all ix : (forall e, In e ix -> ie_pos e <> 0%nat) -> used ix = ix.
Proof.
  induction ix as [|e ix IH]; intros H; auto. unfold used in *. cbn [filter]. rewrite (proj2 (usedb_true e)) by (apply H; left; auto).
  f_equal. apply IH. intros x I. apply H. right; auto.
Qed.
Lemma used_le ix : (length (used ix) <= length ix)%nat.
Proof. unfold used. induction ix as [|e ix IH]; cbn [filter length]; auto. destruct (usedb e); cbn [length]; lia. Qed.
Lemma roomy_or_full ix : roomy ix \/ used ix = ix /\ (2 < length ix)%nat.
Proof.
  destruct (le_lt_dec (length ix) 2) as [H|H]; [left; left; auto|].
  destruct (existsb (fun e => (ie_pos e =? 0)%nat) ix) eqn:E.
  - left. right. apply existsb_exists in E. destruct E as (e & I & E). exists e. split; auto. apply Nat.eqb_eq; auto.
  - right. split; auto. apply used_all. intros e I Z. assert (Q : existsb (fun e => (ie_pos e =? 0)%nat) ix = true) by (apply existsb_exists; exists e; split; auto; apply Nat.eqb_eq; auto). congruence.
Qed.
(** grown, it is roomy *)
Lemma grown_roomy ix ix' : increase_capacity ix = Some ix' -> roomy ix'.
Proof.
  intros E. destruct (increase_keeps _ _ E) as [P L]. destruct (roomy_or_full ix') as [|[F G]]; auto. exfalso.
  apply Permutation_length in P. rewrite F in P. pose proof (used_le ix). unfold lenz in L. lia.
Qed.

Section ROOMY.
Context {K V : Type} (eqb : K -> K -> bool) (hasher : K -> Z) (default : V).
Hypothesis eqb_ok : forall a b, eqb a b = true <-> a = b.
Notation inv := (@inv K V hasher).
Lemma roomy_grows key h : forall fuel m, inv m -> (route eqb m key h = Some Unavailable -> roomy (hm_index m)) -> ref_grows eqb fuel m key h.
Proof.
  induction fuel as [|fuel IH]; intros m I Ro; cbn [ref_grows]; [exact Logic.I|].
  destruct (route eqb m key h) as [[| |]|]; auto. specialize (Ro eq_refl).
  destruct (Z_le_dec MAX_INDEX (lenz (hm_index m))) as [|M]; [left; auto|right].
  destruct (grow_roomy (hm_index m) (proj1 I) (di_hash _ _ _ _ (proj2 I)) Ro ltac:(lia)) as (ix' & E & O). exists ix'. split; auto. split; auto.
  destruct (increase_sound _ _ (proj1 I) ltac:(lia) E O) as (k' & P' & R' & _). destruct (increase_keeps _ _ E) as [Pm _].
  apply IH.
  - split; [right; exists k'; auto|]. cbn [hm_index hm_data]. eapply dinv_perm; [apply Permutation_sym; exact Pm|exact (proj2 I)].
  - intros _. eapply grown_roomy; eauto.
Qed.
Lemma run_roomy_grows : forall os m M, state hasher m M -> run_roomy eqb hasher default m os -> run_grows eqb hasher default m os.
Proof.
  induction os as [|o os IH]; intros m M St H; cbn [run_roomy run_grows] in *; [exact Logic.I|]. destruct H as [H1 H2].
  assert (G : match o with HSet k _ | HRef k _ _ => ref_grows eqb 33 m k (hash_of hasher k) | _ => True end).
  { destruct o; auto; apply roomy_grows; auto; apply St. }
  split; auto. destruct (op_ok eqb hasher default eqb_ok m M o St G) as (q & E & Hq). rewrite E in *. destruct q as [[m1 r]|]; auto.
  destruct Hq as (M1 & _ & St1). eapply IH; eauto.
Qed.
(** as many slots are used as there are hashes *)
Lemma used_hashes m : inv m -> length (used (hm_index m)) = hashes_in hasher m.
Proof.
  intros [_ [nd ch co ke ij]]. unfold hashes_in. rewrite <- (map_length ie_hash (used (hm_index m))). apply Nat.le_antisymm.
  - apply NoDup_incl_length; auto. intros h I. apply in_map_iff in I. destruct I as (e & <- & I). apply nodup_In.
    destruct (ch e I) as (u & c & C & Q). destruct (chain_hd _ _ _ C u) as (c' & ->). destruct (Q (ie_pos e) (or_introl eq_refl)) as (_ & de & E & H).
    apply in_map_iff. exists de. split; [rewrite <- H; symmetry; eapply ke; eauto|]. destruct (ie_pos e); [discriminate|]. cbn in E. eapply nth_error_In; eauto.
  - apply NoDup_incl_length; [apply NoDup_nodup|]. intros h I. apply nodup_In in I. apply in_map_iff in I. destruct I as (de & <- & I).
    apply In_nth_error in I. destruct I as (p & E). assert (E' : entry_at (hm_data m) (S p) = Some de) by exact E.
    destruct (co (S p) (entry_at_range _ _ _ E') ltac:(tauto)) as (e & c & Ie & C & Ic). destruct (ch e Ie) as (u & c2 & C2 & Q).
    pose proof (chain_fun _ _ _ _ C C2) as <-. destruct (Q _ Ic) as (_ & de' & F & H). rewrite E' in F. injection F as <-.
    apply in_map_iff. exists e. split; auto. rewrite <- H. eapply ke; eauto.
Qed.
Lemma run_small_roomy : forall os m M, state hasher m M -> run_small eqb hasher default m os -> run_roomy eqb hasher default m os.
Proof.
  induction os as [|o os IH]; intros m M St H; cbn [run_roomy run_small] in *; [exact Logic.I|]. destruct H as [H1 H2].
  assert (R : match o with HSet k _ | HRef k _ _ => route eqb m k (hash_of hasher k) = Some Unavailable -> roomy (hm_index m) | _ => True end).
  { assert (Q : forall k, In k (map de_key (hm_data m)) \/ (hashes_in hasher m < 4)%nat -> route eqb m k (hash_of hasher k) = Some Unavailable -> roomy (hm_index m)).
    { intros k [H|H] E; pose proof (proj1 (proj1 St)) as I.
      - exfalso. apply (inv_unavailable eqb hasher eqb_ok m k I) in E. apply E. apply in_map_iff in H. destruct H as (e & <- & H). apply In_nth_error in H. destruct H as (p & H).
        exists (S p), e. split; [exact H|reflexivity].
      - destruct (roomy_or_full (hm_index m)) as [|[F G]]; auto. exfalso. rewrite <- (used_hashes m I), F in H.
        destruct I as [[X|(k' & [Pk Lk] & _)] _]; [rewrite X in G; cbn in G; lia|]. unfold lenz in Lk.
        assert (k' <> 1) by (intros ->; change (2 ^ 1) with 2 in Lk; lia). pose proof (Z.pow_le_mono_r 2 2 k'). lia. }
    destruct o; try exact Logic.I; cbv beta iota in H1; apply Q; exact H1. }
  split; [exact R|].
  assert (G : match o with HSet k _ | HRef k _ _ => ref_grows eqb 33 m k (hash_of hasher k) | _ => True end).
  { destruct o; auto; apply roomy_grows; auto; apply St. }
  destruct (op_ok eqb hasher default eqb_ok m M o St G) as (q & E & Hq). rewrite E in *. destruct q as [[m1 r]|]; auto.
  destruct Hq as (M1 & _ & St1). eapply IH; eauto.
Qed.
End ROOMY.
