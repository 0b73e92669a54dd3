(** lib/hash.fu:551-610: between operations, Verify passes. *)
From Verif Require Import CommonLemmas HashModel HashIndex HashData HashProofs.
From Coq Require Import Permutation.
Open Scope Z_scope.

Section VERIFY.
Context {K V : Type} (hasher : K -> Z).
Notation data := (list (dentry K V)).
Notation dinv := (@dinv K V hasher).
Notation inv := (@inv K V hasher).

Lemma bucket_verified (d : data) : forall c p fuel reach, chain d p c -> (length c <= fuel)%nat ->
  (forall q, In q c -> ~ In (q - 1)%nat reach) ->
  exists reach', verify_bucket fuel d p reach = Some (true, reach') /\ (NoDup reach -> NoDup reach') /\
    forall x, In x reach' <-> In x reach \/ exists q, In q c /\ x = (q - 1)%nat.
Proof.
  induction c as [|q c IH]; intros p fuel reach C L N; inversion C as [|? e ? E C']; subst.
  - destruct fuel; cbn; eexists; (split; [reflexivity|]); (split; [auto|]); intros x; split; auto; intros [X|(q & [] & _)]; auto.
  - pose proof (chain_nodup _ _ _ C) as ND. inversion_clear ND as [|? ? N1 N2].
    destruct q as [|i]; [discriminate E|]. destruct fuel as [|fuel]; [cbn in L; lia|]. cbn [verify_bucket]. rewrite E. cbn [obind].
    destruct (existsb (Nat.eqb i) reach) eqn:X.
    { exfalso. apply existsb_exists in X. destruct X as (y & Iy & Ey). apply Nat.eqb_eq in Ey. subst y. apply (N (S i)); [left; auto|]. cbn. rewrite Nat.sub_0_r. auto. }
    destruct (IH (de_collision e) fuel (i :: reach) C') as (r & Er & Lr & Ir); [cbn in L; lia| |].
    + intros q Iq [Y|Y]; [|apply (N q); [right; auto|auto]]. apply N1. destruct (chain_in _ _ _ _ C' Iq) as [eq Eq]. apply entry_at_range in Eq.
      assert (q = S i) as -> by lia. auto.
    + exists r. split; auto. split.
      { intros ND. apply Lr. constructor; auto. intros Y. apply (N (S i)); [left; auto|]. cbn. rewrite Nat.sub_0_r. auto. }
      intros x. rewrite Ir. cbn [In]. split.
      * intros [[<-|Y]|(q & Iq & ->)]; auto; right; [exists (S i)|exists q]; split; auto; try (cbn; lia).
      * intros [Y|(q & [<-|Iq] & ->)]; [auto|left; left; cbn; lia|right; exists q; auto].
Qed.
Definition seen (ix : list ientry) (d : data) (i : Z) (p : nat) : Prop :=
  exists x c, 0 <= x < i /\ is_used (at_ ix x) /\ chain d (ie_pos (at_ ix x)) c /\ In p c.
Lemma verify_loop_ok m k : pow2 (hm_index m) k -> RH (hm_index m) k -> dinv (used (hm_index m)) (hm_data m) ->
  forall fuel i max_dist reach, i + Z.of_nat fuel = lenz (hm_index m) -> 0 <= i ->
  (max_dist = if usedb (at_ (hm_index m) (i - 1)) then dist (hm_index m) (i - 1) + 1 else 0) ->
  NoDup reach -> (forall x, In x reach <-> seen (hm_index m) (hm_data m) i (S x)) ->
  verify_loop fuel m i max_dist reach = Some true.
Proof.
  intros P R D. pose proof (pow2_pos _ _ P) as n2. set (ix := hm_index m) in *. set (d := hm_data m) in *.
  induction fuel as [|fuel IH]; intros i md reach Hi H0 Em ND Hr; cbn [verify_loop].
  - f_equal. apply Nat.eqb_eq. fold d. replace i with (lenz ix) in * by lia.
    rewrite <- (seq_length (length d) 0). apply Permutation_length. apply NoDup_Permutation; [auto|apply seq_NoDup|].
    intros x. rewrite Hr, in_seq. split.
    + intros (y & c & _ & _ & C & I). destruct (chain_in _ _ _ _ C I) as [e E]. apply entry_at_range in E. lia.
    + intros Hx. destruct (di_cover _ _ _ _ D (S x)) as (e & c & I & C & Ic); [fold d; lia|tauto|].
      apply in_used in I; [|lia]. destruct I as (u & y & <-). exists (y mod lenz ix), c. rewrite at_mod by lia.
      split; [apply Z.mod_pos_bound; lia|auto].
  - fold ix. rewrite getz_at by lia. cbn [obind]. destruct (Nat.eqb_spec (ie_pos (at_ ix i)) 0) as [E0|E0].
    + apply IH; try lia; auto.
      * replace (i + 1 - 1) with i by lia. unfold usedb. rewrite E0. reflexivity.
      * intros x. rewrite Hr. split; intros (y & c & Hy & u & C & I); exists y, c; (split; [|auto]); [lia|].
        destruct (Z.eq_dec y i) as [->|]; [exfalso; exact (u E0)|lia].
    + rewrite !(pow2_mask _ _ _ P), (pow2_probes _ _ P). rewrite Zminus_mod_idemp_r. fold (dist ix i).
      destruct (R i E0) as [R1 R2].
      assert (dist ix i <=? md = true) as ->.
      { apply Z.leb_le. destruct R2 as [->|[u l]]; [rewrite Em; destruct (usedb _); pose proof (dist_range ix (i - 1)); lia|].
        apply usedb_true in u. rewrite Em, u. lia. }
      assert (dist ix i <? k = true) as -> by (apply Z.ltb_lt; auto). cbn [andb].
      assert (I : In (at_ ix i) (used ix)) by (apply in_used; [lia|eauto]).
      destruct (di_chain _ _ _ _ D _ I) as (_ & c & C & Hc). fold d in C.
      destruct (bucket_verified d c (ie_pos (at_ ix i)) (S (length d)) reach C) as (r & Er & Lr & Ir).
      { pose proof (chain_length _ _ _ C). lia. }
      { intros q Iq Y. apply Hr in Y. destruct Y as (x & c' & Hx & u & C' & Iq').
        destruct (chain_in _ _ _ _ C Iq) as [e E]. apply entry_at_range in E. replace (S (q - 1)) with q in Iq' by lia.
        assert (at_ ix i = at_ ix x) as EE.
        { eapply same_chain; eauto. apply in_used; [lia|eauto]. }
        assert (i mod lenz ix = x mod lenz ix) as M.
        { apply used_inj; auto; [lia|exact (di_hash _ _ _ _ D)|congruence]. }
        rewrite !Z.mod_small in M by lia. lia. }
      fold d. rewrite Er. cbn [obind fst snd]. apply IH; try lia.
      * replace (i + 1 - 1) with i by lia. assert (usedb (at_ ix i) = true) as -> by (apply usedb_true; auto). reflexivity.
      * auto.
      * intros x. rewrite Ir, Hr. split.
        -- intros [(y & c' & Hy & u & C' & Iy)|(q & Iq & ->)].
           ++ exists y, c'. split; [lia|auto].
           ++ exists i, c. destruct (chain_in _ _ _ _ C Iq) as [e E]. apply entry_at_range in E. replace (S (q - 1)) with q by lia. split; [lia|auto].
        -- intros (y & c' & Hy & u & C' & Iy). destruct (Z.eq_dec y i) as [->|N].
           ++ right. exists (S x). rewrite (chain_fun _ _ _ _ C' C) in Iy. split; auto. lia.
           ++ left. exists y, c'. split; [lia|auto].
Qed.
Lemma verify_ok m : inv m -> Verify m = Some true.
Proof.
  intros [[X|(k & P & R)] D].
  - unfold Verify. rewrite X. cbn. f_equal. destruct (hm_data m) as [|e l] eqn:E; [reflexivity|exfalso].
    destruct (di_cover _ _ _ _ D 1%nat) as (e' & c & I & _); [cbn; lia|tauto|]. rewrite X in I. destruct I.
  - pose proof (pow2_pos _ _ P) as n2. unfold Verify. destruct (Z.eqb_spec (lenz (hm_index m)) 0); [lia|].
    rewrite getz_at by lia. cbn [obind].
    assert (N : forall md, (md = if usedb (at_ (hm_index m) (0 - 1)) then dist (hm_index m) (0 - 1) + 1 else 0) ->
      verify_loop (length (hm_index m)) m 0 md [] = Some true).
    { intros md Em. eapply verify_loop_ok; eauto; try (unfold lenz; lia); [constructor|]. cbn. intros x. split; [tauto|]. intros (y & c & Hy & _). lia. }
    assert (M : (lenz (hm_index m) - 1) mod lenz (hm_index m) = (0 - 1) mod lenz (hm_index m)).
    { rewrite <- (Z_mod_plus_full (0 - 1) 1 (lenz (hm_index m))). f_equal. lia. }
    assert (A : at_ (hm_index m) (lenz (hm_index m) - 1) = at_ (hm_index m) (0 - 1)) by (apply at_eqm; exact M).
    rewrite A. unfold usedb in N. destruct (Nat.eqb_spec (ie_pos (at_ (hm_index m) (0 - 1))) 0) as [E0|E0]; cbn [obind negb] in *; apply N; auto.
    rewrite !(pow2_mask _ _ _ P), Zminus_mod_idemp_r. f_equal. unfold dist. rewrite <- (Zminus_mod_idemp_l (lenz _ - 1)), M, Zminus_mod_idemp_l. reflexivity.
Qed.
End VERIFY.
