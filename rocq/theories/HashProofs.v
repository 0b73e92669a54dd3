(** lib/hash.fu: what route finds, and what inserting and removing do to the map. *)
From Verif Require Import CommonLemmas HashModel HashIndex HashData.
From Coq Require Import Permutation.
Open Scope Z_scope.

Section PROOFS.
Context {K V : Type} (eqb : K -> K -> bool) (hasher : K -> Z).
Hypothesis eqb_ok : forall a b, eqb a b = true <-> a = b.
Notation data := (list (dentry K V)).
Notation dinv := (@dinv K V hasher).
Notation dinv_hole := (@dinv_hole K V hasher).

Definition key_in (d : data) (key : K) : Prop := exists p e, entry_at d p = Some e /\ de_key e = key.

(** ** route *)
Definition route_result (m : hmap K V) (key : K) (h k : Z) (r : routed) : Prop :=
  let ix := hm_index m in
  match r with
  | Found i p coll => 0 <= i < lenz ix /\ is_used (at_ ix i) /\ ie_hash (at_ ix i) = h /\
      exists l1 l2 e, chain (hm_data m) (ie_pos (at_ ix i)) (l1 ++ p :: l2) /\ coll = last l1 0%nat /\
        entry_at (hm_data m) p = Some e /\ de_key e = key
  | Available i f =>
      (i = f /\ 0 <= i < lenz ix /\ is_used (at_ ix i) /\ ie_hash (at_ ix i) = h) \/
      exists T F, i = (h + T) mod lenz ix /\ f = (h + F) mod lenz ix /\ 0 <= F <= T /\ T < k /\ ~ is_used (at_ ix (h + T)) /\
        (forall t, 0 <= t < T -> is_used (at_ ix (h + t)) /\ ie_hash (at_ ix (h + t)) <> h) /\
        (forall t, 0 <= t < F -> t <= dist ix (h + t)) /\ (F < T -> dist ix (h + F) < F)
  | Unavailable => forall t, 0 <= t < k -> is_used (at_ ix (h + t)) /\ ie_hash (at_ ix (h + t)) <> h
  end.
Lemma route_loop_ok (m : hmap K V) key h k : pow2 (hm_index m) k -> dinv (used (hm_index m)) (hm_data m) ->
  forall fuel probe fair, probe + Z.of_nat fuel = k -> 0 <= probe ->
  (forall t, 0 <= t < probe -> is_used (at_ (hm_index m) (h + t)) /\ ie_hash (at_ (hm_index m) (h + t)) <> h) ->
  match fair with
  | None => forall t, 0 <= t < probe -> t <= dist (hm_index m) (h + t)
  | Some f => exists F, 0 <= F < probe /\ f = (h + F) mod lenz (hm_index m) /\ dist (hm_index m) (h + F) < F /\
              forall t, 0 <= t < F -> t <= dist (hm_index m) (h + t)
  end ->
  exists r, route_loop eqb fuel m key h probe fair = Some r /\ route_result m key h k r /\
    forall i, r = Available i i -> is_used (at_ (hm_index m) i) ->
      forall c q e, chain (hm_data m) (ie_pos (at_ (hm_index m) i)) c -> In q c -> entry_at (hm_data m) q = Some e -> de_key e <> key.
Proof.
  intros P D. pose proof (pow2_pos _ _ P) as n2. pose proof (pow2_log _ _ P) as kn. set (ix := hm_index m) in *.
  assert (Hi : forall x, 0 <= x mod lenz ix < lenz ix) by (intros; apply Z.mod_pos_bound; lia).
  induction fuel as [|fuel IH]; intros probe fair Hk H0 U Fr; cbn [route_loop].
  { exists Unavailable. split; auto. split; [|discriminate]. cbn. fold ix. intros t Ht. apply U. lia. }
  fold ix. rewrite (pow2_mask _ _ _ P), getz_at by apply Hi. rewrite at_mod by lia. cbn [obind].
  destruct (Nat.eqb_spec (ie_pos (at_ ix (h + probe))) 0) as [E0|E0].
  { eexists. split; [reflexivity|]. split.
    - cbn. fold ix. right. destruct fair as [f|].
      + destruct Fr as (F & F1 & F2 & F3 & F4). exists probe, F. split; [auto|]. split; [auto|]. split; [lia|]. split; [lia|]. split; [intros C; exact (C E0)|]. auto.
      + exists probe, probe. split; [auto|]. split; [auto|]. split; [lia|]. split; [lia|]. split; [intros C; exact (C E0)|]. split; [auto|]. split; [auto|lia].
    - intros i E u. exfalso. injection E as E1 E2. subst i. rewrite at_mod in u by lia. exact (u E0). }
  destruct (Z.eqb_spec (ie_hash (at_ ix (h + probe))) h) as [Eh|Nh].
  { assert (I : In (at_ ix (h + probe)) (used ix)) by (apply in_used; [lia|eauto]).
    destruct (di_chain _ _ _ _ D _ I) as (_ & c & C & Hc).
    pose proof (chain_length _ _ _ C) as Lc.
    destruct (bucket_ok eqb hasher eqb_ok (hm_data m) key c (S (length (hm_data m))) _ 0%nat C E0 ltac:(lia)) as [[B1 B2]|(l1 & q & l2 & e & B1 & B2 & B3 & B4)].
    - rewrite B1. cbn [obind]. eexists. split; [reflexivity|]. split.
      + cbn. fold ix. left. split; auto. split; auto. rewrite at_mod by lia. auto.
      + intros i E u c' q e C' Iq Eq. injection E as E. subst i. rewrite at_mod in C' by lia.
        rewrite (chain_fun _ _ _ _ C' C) in Iq. eauto.
    - rewrite B2. cbn [obind]. eexists. split; [reflexivity|]. split; [|discriminate].
      cbn. fold ix. split; auto. rewrite at_mod by lia. split; auto. split; auto. exists l1, l2, e. subst c. auto. }
  rewrite (pow2_mask _ _ _ P), Zminus_mod_idemp_l. fold (dist ix (h + probe)).
  apply IH; try lia.
  - intros t Ht. destruct (Z.eq_dec t probe) as [->|]; [auto|apply U; lia].
  - destruct fair as [f|].
    + destruct Fr as (F & F1 & F2 & F3 & F4). exists F. split; [lia|]. auto.
    + destruct (Z.ltb_spec (dist ix (h + probe)) probe).
      * exists probe. split; [lia|]. auto.
      * intros t Ht. destruct (Z.eq_dec t probe) as [->|]; [auto|apply Fr; lia].
Qed.

(** The state between operations *)
Definition inv (m : hmap K V) : Prop :=
  (hm_index m = [] \/ exists k, pow2 (hm_index m) k /\ RH (hm_index m) k) /\ dinv (used (hm_index m)) (hm_data m).
Lemma route_ok m key h k : pow2 (hm_index m) k -> dinv (used (hm_index m)) (hm_data m) ->
  exists r, route eqb m key h = Some r /\ route_result m key h k r /\
    forall i, r = Available i i -> is_used (at_ (hm_index m) i) ->
      forall c q e, chain (hm_data m) (ie_pos (at_ (hm_index m) i)) c -> In q c -> entry_at (hm_data m) q = Some e -> de_key e <> key.
Proof.
  intros P D. unfold route. rewrite (pow2_probes _ _ P). pose proof P as [[P1 P2] _]. apply route_loop_ok; auto; try lia.
Qed.
(** No slot with this hash: the key is not there *)
Lemma no_hash m key : dinv (used (hm_index m)) (hm_data m) ->
  (forall e, In e (used (hm_index m)) -> ie_hash e <> hash_of hasher key) -> ~ key_in (hm_data m) key.
Proof.
  intros D H (p & e & E & Ek). destruct (di_cover _ _ _ _ D p) as (x & c & I & C & Ic); [eapply entry_at_range; eauto|tauto|].
  destruct (di_chain _ _ _ _ D x I) as (_ & c' & C' & Hc). rewrite (chain_fun _ _ _ _ C C') in Ic.
  destruct (Hc p Ic) as (_ & de & E2 & E3). rewrite E in E2. injection E2 as <-.
  apply (H x I). rewrite <- E3, (di_key _ _ _ _ D p e E), Ek. trivial.
Qed.
Lemma probes_no_hash ix k h T : pow2 ix k -> RH ix k -> 0 <= T <= k -> T = k \/ ~ is_used (at_ ix (h + T)) ->
  (forall t, 0 <= t < T -> is_used (at_ ix (h + t)) /\ ie_hash (at_ ix (h + t)) <> h) ->
  forall e, In e (used ix) -> ie_hash e <> h.
Proof.
  intros P R HT C U e I E. destruct (slot_of ix k e P R I) as (T0 & H0 & A & B). rewrite E in *.
  destruct (Z.lt_ge_cases T0 T) as [L|L].
  - destruct (U T0 ltac:(lia)) as [_ N]. rewrite A in N. tauto.
  - destruct C as [->|C]; [lia|]. destruct (Z.eq_dec T0 T) as [->|N].
    + rewrite A in C. apply C. apply in_used in I; [tauto|]. pose proof (pow2_pos _ _ P). lia.
    + apply C. apply B. lia.
Qed.
Lemma not_there m key h k r : pow2 (hm_index m) k -> RH (hm_index m) k -> dinv (used (hm_index m)) (hm_data m) ->
  h = hash_of hasher key -> route_result m key h k r ->
  (forall i, r = Available i i -> is_used (at_ (hm_index m) i) ->
      forall c q e, chain (hm_data m) (ie_pos (at_ (hm_index m) i)) c -> In q c -> entry_at (hm_data m) q = Some e -> de_key e <> key) ->
  match r with Found _ _ _ => True | _ => ~ key_in (hm_data m) key end.
Proof.
  intros P R D Hh RR X. pose proof (pow2_pos _ _ P) as n2. destruct r as [| i f|]; auto; cbn in RR.
  - destruct RR as [(<- & Hi & u & Eh)|(T & F & _ & _ & HF & HT & nu & U & _)].
    + intros (p & e & E & Ek). destruct (di_cover _ _ _ _ D p) as (x & c & I & C & Ic); [eapply entry_at_range; eauto|tauto|].
      destruct (di_chain _ _ _ _ D x I) as (_ & c' & C' & Hc). pose proof (chain_fun _ _ _ _ C C'). subst c'.
      destruct (Hc p Ic) as (_ & de & E2 & E3). rewrite E in E2. injection E2 as <-.
      assert (I' : In (at_ (hm_index m) i) (used (hm_index m))) by (apply in_used; [lia|eauto]).
      assert (x = at_ (hm_index m) i).
      { eapply same_hash; eauto. rewrite <- E3, (di_key _ _ _ _ D p e E), Ek. congruence. }
      subst x. eapply X; eauto.
    + apply no_hash; auto. rewrite <- Hh. apply (probes_no_hash _ k h T); auto. lia.
  - apply no_hash; auto. rewrite <- Hh. pose proof P as [P1 _]. apply (probes_no_hash _ k h k); auto; lia.
Qed.
(** ... and a key that is there is found, at its position *)
Lemma found_there m key h p e : inv m -> h = hash_of hasher key -> entry_at (hm_data m) p = Some e -> de_key e = key ->
  exists i coll, route eqb m key h = Some (Found i p coll).
Proof.
  intros [X D] Hh E Ek. destruct X as [X|(k & P & R)].
  { exfalso. apply (no_hash m key D); [|exists p, e; auto]. rewrite X. intros ? []. }
  destruct (route_ok m key h k P D) as (r & Er & RR & XX).
  pose proof (not_there _ _ _ _ _ P R D Hh RR XX) as NT.
  destruct r as [i q coll|i f|]; [|exfalso; apply NT; exists p, e; auto..].
  destruct RR as (_ & _ & _ & l1 & l2 & e' & C & _ & E' & Ek').
  assert (q = p) by (eapply (di_inj _ _ _ _ D); eauto; congruence). subst q. eauto.
Qed.
Lemma if_ref_ok m key : inv m ->
  (exists p e, if_ref eqb m key (hash_of hasher key) = Some (Some p) /\ entry_at (hm_data m) p = Some e /\ de_key e = key) \/
  (if_ref eqb m key (hash_of hasher key) = Some None /\ ~ key_in (hm_data m) key).
Proof.
  intros [X D]. unfold if_ref. destruct X as [X|(k & P & R)].
  { right. unfold route, max_probes. rewrite X. cbn. split; auto. apply no_hash; auto. rewrite X. intros ? []. }
  destruct (route_ok m key (hash_of hasher key) k P D) as (r & Er & RR & XX). rewrite Er. cbn [obind].
  pose proof (not_there _ _ _ _ _ P R D eq_refl RR XX) as NT.
  destruct r as [i q coll|i f|]; [|right; auto..].
  left. destruct RR as (_ & _ & _ & l1 & l2 & e' & C & _ & E' & Ek'). eauto.
Qed.

(** ** Inserting *)
Lemma dinv_app us d h key v pos us' :
  dinv us d -> h = hash_of hasher key -> ~ key_in d key ->
  (pos = 0%nat /\ (forall e, In e us -> ie_hash e <> h) /\ Permutation us' (IE h (S (length d)) :: us) \/
   (exists e0, In e0 us /\ ie_hash e0 = h /\ ie_pos e0 = pos /\ Permutation (IE h (S (length d)) :: us) (e0 :: us'))) ->
  dinv us' (d ++ [DE key v h pos]).
Proof.
  intros D Hh Nk C.
  assert (X : exists us0, Permutation us' (IE h (S (length d)) :: us0) /\
    (forall e, In e us0 -> In e us /\ ie_hash e <> h) /\
    (forall e, In e us -> In e us0 \/ ie_hash e = h /\ ie_pos e = pos) /\ NoDup (map ie_hash us0) /\
    (pos = 0%nat \/ exists e0, In e0 us /\ ie_hash e0 = h /\ ie_pos e0 = pos)).
  { destruct C as [(-> & N & P)|(e0 & I & E0 & Ep & P)].
    - exists us. split; auto. split; auto. split; auto. split; [|auto]. exact (di_hash _ _ _ _ D).
    - destruct (in_split _ _ I) as (a & b & ->). exists (a ++ b). 
      pose proof (di_hash _ _ _ _ D) as ND. rewrite map_app in ND. cbn in ND.
      assert (P' : Permutation us' (IE h (S (length d)) :: a ++ b)).
      { apply (Permutation_cons_inv (a := e0)). rewrite <- P. rewrite perm_swap. apply perm_skip. symmetry. apply Permutation_middle. }
      split; auto. split; [|split; [|split]].
      + intros e Ie. split; [apply in_app_iff; apply in_app_iff in Ie; cbn; tauto|]. intros C.
        apply NoDup_remove_2 in ND. apply ND. rewrite E0, <- C. rewrite <- map_app. apply in_map. auto.
      + intros e Ie. apply in_app_iff in Ie. cbn in Ie. destruct Ie as [Ie|[->|Ie]]; auto; left; apply in_app_iff; auto.
      + apply NoDup_remove_1 in ND. rewrite map_app. auto.
      + right. exists e0. auto. }
  destruct X as (us0 & P & S1 & S2 & S3 & S4).
  assert (Ext : forall p c, chain d p c -> chain (d ++ [DE key v h pos]) p c).
  { intros p c Cc. eapply chain_ext; [|exact Cc]. intros q Iq. rewrite app_entry.
    destruct (chain_in _ _ _ _ Cc Iq) as [e E]. apply entry_at_range in E. destruct (Nat.eqb_spec q (S (length d))); [lia|auto]. }
  assert (Nw : entry_at (d ++ [DE key v h pos]) (S (length d)) = Some (DE key v h pos)) by (rewrite app_entry, Nat.eqb_refl; auto).
  assert (Keep : forall q e, entry_at d q = Some e -> entry_at (d ++ [DE key v h pos]) q = Some e).
  { intros q e E. rewrite app_entry. pose proof (entry_at_range _ _ _ E). destruct (Nat.eqb_spec q (S (length d))); [lia|auto]. }
  apply (dinv_perm hasher (IE h (S (length d)) :: us0)); [symmetry; auto|]. split.
  - cbn. constructor; auto. intros I. apply in_map_iff in I. destruct I as (e & E & Ie). destruct (S1 _ Ie). tauto.
  - intros e [<-|Ie].
    + split; [cbn; discriminate|]. cbn [ie_pos ie_hash].
      assert (Y : exists c, chain d pos c /\ forall p, In p c -> exists de, entry_at d p = Some de /\ de_hash de = h).
      { destruct S4 as [->|(e0 & I0 & H0 & Hp)]; [exists []; split; [constructor|intros ? []]|].
        destruct (di_chain _ _ _ _ D e0 I0) as (_ & c & Cc & Hc). rewrite Hp in Cc. exists c. split; auto.
        intros p Ip. destruct (Hc p Ip) as (_ & de & ? & ?). exists de. split; auto. congruence. }
      destruct Y as (c & Cc & Hc). exists (S (length d) :: c). split; [eapply chain_cons; [exact Nw|]; cbn; auto|].
      intros p [<-|Ip]; (split; [tauto|]); [eexists; split; [exact Nw|auto]|].
      destruct (Hc p Ip) as (de & ? & ?). exists de. auto.
    + destruct (S1 _ Ie) as [I1 _]. destruct (di_chain _ _ _ _ D e I1) as (u & c & Cc & Hc). split; auto.
      exists c. split; auto. intros p Ip. destruct (Hc p Ip) as (x & de & ? & ?). split; auto. exists de. auto.
  - intros p Hp _. rewrite app_length in Hp. cbn in Hp. 
    assert (Y : exists c, chain d pos c) by (destruct S4 as [->|(e0 & I0 & H0 & Hp0)];
      [exists []; constructor|destruct (di_chain _ _ _ _ D e0 I0) as (_ & c & Cc & _); rewrite Hp0 in Cc; eauto]).
    destruct Y as [c0 Cc0]. pose proof (chain_cons _ _ _ _ Nw (Ext _ _ Cc0)) as Cn.
    destruct (Nat.eq_dec p (S (length d))) as [->|N].
    + exists (IE h (S (length d))), (S (length d) :: c0). split; [left; auto|]. split; [auto|left; auto].
    + destruct (di_cover _ _ _ _ D p) as (e & c & I & Cc & Ic); [lia|tauto|].
      destruct (S2 _ I) as [I0|[Eh Ep]].
      * exists e, c. split; [right; auto|]. auto.
      * exists (IE h (S (length d))), (S (length d) :: c0). split; [left; auto|]. split; auto. right.
        rewrite Ep in Cc. rewrite (chain_fun _ _ _ _ Cc0 Cc). auto.
  - intros p de E. rewrite app_entry in E. destruct (Nat.eqb_spec p (S (length d))).
    + injection E as <-. exact Hh.
    + exact (di_key _ _ _ _ D p de E).
  - intros p q de de' E E' Ek. rewrite app_entry in E, E'.
    destruct (Nat.eqb_spec p (S (length d))), (Nat.eqb_spec q (S (length d))); try congruence.
    + exfalso. apply Nk. injection E as <-. cbn in Ek. exists q, de'. auto.
    + exfalso. apply Nk. injection E' as <-. cbn in Ek. exists p, de. auto.
    + eapply (di_inj _ _ _ _ D); eauto.
Qed.

(** ** Removing *)
(** the bucket's head goes *)
Lemma unlink_head us us0 d e0 p l2 ep : dinv us d -> Permutation us (e0 :: us0) -> chain d (ie_pos e0) (p :: l2) ->
  entry_at d p = Some ep ->
  dinv_hole (if (de_collision ep =? 0)%nat then us0 else IE (ie_hash e0) (de_collision ep) :: us0) d (eq p).
Proof.
  intros D P C E. apply (dinv_perm hasher _ _ _ _ P) in D. inversion C as [|? e ? E' C']; subst. rewrite E in E'. injection E' as <-.
  destruct (di_chain _ _ _ _ D e0 ltac:(left; auto)) as (u0 & c0 & C0 & H0). pose proof (chain_fun _ _ _ _ C C0). subst c0.
  pose proof (chain_nodup _ _ _ C) as ND. inversion ND as [|? ? N1 N2]; subst.
  assert (Oth : forall e c q, In e us0 -> chain d (ie_pos e) c -> In q c -> In q (ie_pos e0 :: l2) -> False).
  { intros e c q Ie Cc Iq Iq'. destruct (same_chain hasher _ _ _ e e0 c (ie_pos e0 :: l2) q D) as [Ee _]; auto; [right; auto|left; auto|].
    subst e. pose proof (di_hash _ _ _ _ D) as Nd. cbn in Nd. inversion Nd; subst. apply H2. apply in_map. auto. }
  assert (G : NoDup (map ie_hash us0)) by (pose proof (di_hash _ _ _ _ D) as Nd; cbn in Nd; inversion Nd; auto).
  assert (Gc : forall e, In e us0 -> is_used e /\ exists c, chain d (ie_pos e) c /\
             forall q, In q c -> ~ ie_pos e0 = q /\ exists de, entry_at d q = Some de /\ de_hash de = ie_hash e).
  { intros e Ie. destruct (di_chain _ _ _ _ D e ltac:(right; auto)) as (u & c & Cc & Hc). split; auto. exists c. split; auto.
    intros q Iq. destruct (Hc q Iq) as (_ & X). split; auto. intros <-. eapply Oth; eauto. left; auto. }
  destruct (Nat.eqb_spec (de_collision ep) 0) as [Z|Z].
  - rewrite Z in C'. apply chain_0 in C'. subst l2. split; auto.
    + intros q Hq Nq. destruct (di_cover _ _ _ _ D q Hq ltac:(tauto)) as (e & c & [<-|Ie] & Cc & Iq).
      * exfalso. rewrite (chain_fun _ _ _ _ Cc C) in Iq. destruct Iq as [|[]]. auto.
      * exists e, c. auto.
    + exact (di_key _ _ _ _ D).
    + exact (di_inj _ _ _ _ D).
  - split.
    + cbn. pose proof (di_hash _ _ _ _ D) as Nd. cbn in Nd. exact Nd.
    + intros e [<-|Ie]; auto. split; [exact Z|]. exists l2. split; auto. intros q Iq. split.
      * intros <-. tauto.
      * destruct (H0 q ltac:(right; auto)) as (_ & X). exact X.
    + intros q Hq Nq. destruct (di_cover _ _ _ _ D q Hq ltac:(tauto)) as (e & c & [<-|Ie] & Cc & Iq).
      * exists (IE (ie_hash e0) (de_collision ep)), l2. split; [left; auto|]. split; auto.
        rewrite (chain_fun _ _ _ _ Cc C) in Iq. destruct Iq as [|]; auto. tauto.
      * exists e, c. split; [right; auto|]. auto.
    + exact (di_key _ _ _ _ D).
    + exact (di_inj _ _ _ _ D).
Qed.
(** another of the bucket goes *)
Lemma unlink_mid us d d1 e0 l1 x p l2 ex ep : dinv us d -> In e0 us -> chain d (ie_pos e0) (l1 ++ x :: p :: l2) ->
  entry_at d x = Some ex -> entry_at d p = Some ep -> length d1 = length d ->
  (forall q, entry_at d1 q = if (q =? x)%nat then Some (DE (de_key ex) (de_value ex) (de_hash ex) (de_collision ep)) else entry_at d q) ->
  dinv_hole us d1 (eq p).
Proof.
  intros D I C Ex Ep L A. pose proof (chain_nodup _ _ _ C) as ND.
  destruct (di_chain _ _ _ _ D e0 I) as (u0 & c0 & C0 & H0). pose proof (chain_fun _ _ _ _ C C0). subst c0.
  assert (Cp : chain d (de_collision ep) l2).
  { replace (l1 ++ x :: p :: l2) with ((l1 ++ [x]) ++ p :: l2) in C by (rewrite <- app_assoc; auto).
    apply chain_split in C. inversion C as [|? e ? E C']; subst. rewrite Ep in E. injection E as <-. auto. }
  assert (Nx : ~ In x l1 /\ ~ In x (p :: l2)).
  { apply NoDup_remove_2 in ND. rewrite in_app_iff in ND. tauto. }
  assert (Np : ~ In p (l1 ++ x :: l2)).
  { replace (l1 ++ x :: p :: l2) with ((l1 ++ [x]) ++ p :: l2) in ND by (rewrite <- app_assoc; auto).
    apply NoDup_remove_2 in ND. rewrite <- app_assoc in ND. exact ND. }
  assert (Cn : forall s l, ~ In x l -> chain d s (l ++ x :: p :: l2) -> chain d1 s (l ++ x :: l2)).
  { intros s l. revert s. induction l as [|y l IH]; cbn; intros s Hx Cs; inversion Cs as [|? e ? E C']; subst.
    - econstructor; [rewrite A, Nat.eqb_refl; reflexivity|]. cbn. eapply chain_ext; [|exact Cp].
      intros q Iq. rewrite A. destruct (Nat.eqb_spec q x); auto. subst. exfalso. apply (proj2 Nx). right. auto.
    - econstructor; [rewrite A; destruct (Nat.eqb_spec y x); [exfalso; auto|exact E]|]. apply IH; auto. }
  pose proof (Cn _ _ (proj1 Nx) C) as C1.
  assert (Ek : forall q de, entry_at d1 q = Some de -> exists de0, entry_at d q = Some de0 /\ de_key de0 = de_key de /\ de_hash de0 = de_hash de).
  { intros q de E. rewrite A in E. destruct (Nat.eqb_spec q x) as [->|]; [|eauto]. injection E as <-. exists ex. auto. }
  assert (Ek' : forall q de, entry_at d q = Some de -> exists de1, entry_at d1 q = Some de1 /\ de_key de1 = de_key de /\ de_hash de1 = de_hash de).
  { intros q de E. rewrite A. destruct (Nat.eqb_spec q x) as [->|]; [|eauto]. eexists. split; [reflexivity|]. rewrite Ex in E. injection E as <-. auto. }
  assert (Oth : forall e c, In e us -> e <> e0 -> chain d (ie_pos e) c -> chain d1 (ie_pos e) c /\ ~ In p c).
  { intros e c Ie Ne Cc.
    assert (Z : forall q, In q c -> ~ In q (l1 ++ x :: p :: l2)).
    { intros q Iq Iq'. destruct (same_chain hasher _ _ _ e e0 c _ q D Ie I Cc C Iq Iq'). tauto. }
    split.
    - eapply chain_ext; [|exact Cc]. intros q Iq. rewrite A. destruct (Nat.eqb_spec q x) as [->|]; auto.
      exfalso. eapply Z; eauto. apply in_app_iff. right. left. auto.
    - intros Ip. eapply Z; eauto. apply in_app_iff. right. right. left. auto. }
  assert (Dec : forall e, In e us -> e = e0 \/ e <> e0).
  { intros e Ie. destruct (Z.eq_dec (ie_hash e) (ie_hash e0)) as [Q|Q]; [left; eapply same_hash; eauto|right; congruence]. }
  split.
  - exact (di_hash _ _ _ _ D).
  - intros e Ie. destruct (di_chain _ _ _ _ D e Ie) as (u & c & Cc & Hc). split; auto.
    destruct (Dec e Ie) as [->|Ne].
    + exists (l1 ++ x :: l2). split; auto. intros q Iq. split; [intros <-; tauto|].
      destruct (H0 q) as (_ & de & E & Eh).
      { apply in_app_iff. apply in_app_iff in Iq. destruct Iq as [|[|]]; [auto|right; left; auto|right; right; right; auto]. }
      destruct (Ek' _ _ E) as (de1 & ? & ? & ?). exists de1. split; auto. congruence.
    + destruct (Oth e c Ie Ne Cc) as [X Y]. exists c. split; auto. intros q Iq. split; [intros <-; tauto|].
      destruct (Hc q Iq) as (_ & de & E & Eh). destruct (Ek' _ _ E) as (de1 & ? & ? & ?). exists de1. split; auto. congruence.
  - intros q Hq Nq. rewrite L in Hq. destruct (di_cover _ _ _ _ D q Hq ltac:(tauto)) as (e & c & Ie & Cc & Iq).
    destruct (Dec e Ie) as [->|Ne].
    + exists e0, (l1 ++ x :: l2). split; auto. split; auto. rewrite (chain_fun _ _ _ _ Cc C) in Iq.
      apply in_app_iff in Iq. apply in_app_iff. destruct Iq as [|[|[|]]]; [auto|right; left; auto|tauto|right; right; auto].
    + destruct (Oth e c Ie Ne Cc). exists e, c. auto.
  - intros q de E. destruct (Ek _ _ E) as (de0 & E0 & Q1 & Q2). rewrite <- Q1, <- Q2. eapply (di_key _ _ _ _ D); eauto.
  - intros q q' de de' E E' Q. destruct (Ek _ _ E) as (a & Ea & Q1 & _). destruct (Ek _ _ E') as (b & Eb & Q2 & _).
    eapply (di_inj _ _ _ _ D); eauto. congruence.
Qed.

(** The last item takes position p, which no bucket has *)
Definition rho (L p x : nat) : nat := if (x =? L)%nat then p else x.
Definition mc (L p : nat) (e : dentry K V) : dentry K V := DE (de_key e) (de_value e) (de_hash e) (rho L p (de_collision e)).
Definition me (L p : nat) (e : ientry) : ientry := IE (ie_hash e) (rho L p (ie_pos e)).
Definition moved (d d3 : data) (p : nat) : Prop :=
  forall q, entry_at d3 q = if (q =? p)%nat then (if (p =? length d)%nat then None else option_map (mc (length d) p) (entry_at d (length d)))
    else if (q <? length d)%nat then option_map (mc (length d) p) (entry_at d q) else None.
Lemma relabel us d d3 p : dinv_hole us d (eq p) -> (1 <= p <= length d)%nat -> moved d d3 p -> length d3 = (length d - 1)%nat ->
  dinv (map (me (length d) p) us) d3.
Proof.
  intros D Hp M L3. set (L := length d) in *.
  assert (At : forall q e, entry_at d q = Some e -> q <> p -> entry_at d3 (rho L p q) = Some (mc L p e)).
  { intros q e E N. pose proof (entry_at_range _ _ _ E) as R. fold L in R. rewrite M. fold L. unfold rho.
    destruct (Nat.eqb_spec q L) as [->|NL].
    - rewrite Nat.eqb_refl. destruct (Nat.eqb_spec p L); [congruence|]. rewrite E. auto.
    - destruct (Nat.eqb_spec q p); [tauto|]. destruct (Nat.ltb_spec q L); [|lia]. rewrite E. auto. }
  assert (Inv : forall q e3, entry_at d3 q = Some e3 -> exists q0 e, entry_at d q0 = Some e /\ q0 <> p /\ q = rho L p q0 /\ e3 = mc L p e).
  { intros q e3 E. rewrite M in E. fold L in E. destruct (Nat.eqb_spec q p) as [->|N].
    - destruct (Nat.eqb_spec p L); [discriminate|]. destruct (entry_at d L) as [e|] eqn:EL; [|discriminate].
      injection E as <-. exists L, e. unfold rho. rewrite Nat.eqb_refl. auto.
    - destruct (Nat.ltb_spec q L); [|discriminate]. destruct (entry_at d q) as [e|] eqn:EL; [|discriminate].
      injection E as <-. exists q, e. split; auto. split; auto. unfold rho. destruct (Nat.eqb_spec q L); [lia|]. auto. }
  assert (Ch : forall s c, chain d s c -> ~ In p c -> chain d3 (rho L p s) (map (rho L p) c)).
  { intros s c C. induction C as [|q e c E C IH]; cbn; intros N.
    - unfold rho. destruct (Nat.eqb_spec 0 L); [lia|]. constructor.
    - econstructor; [apply At; [exact E|]; intros ->; apply N; left; auto|]. cbn. apply IH. intros X. apply N. right. auto. }
  split.
  - rewrite map_map. cbn. exact (di_hash _ _ _ _ D).
  - intros e I. apply in_map_iff in I. destruct I as (e0 & <- & I). destruct (di_chain _ _ _ _ D e0 I) as (u & c & C & Hc). split.
    + unfold is_used, me, rho in *. cbn. destruct (Nat.eqb_spec (ie_pos e0) L); [lia|]. auto.
    + exists (map (rho L p) c). split. { cbn. apply Ch; auto. intros X. destruct (Hc p X). tauto. }
      intros q Iq. split; [tauto|]. apply in_map_iff in Iq. destruct Iq as (q0 & <- & Iq).
      destruct (Hc q0 Iq) as (N & de & E & Eh). exists (mc L p de). split; auto.
  - intros q Hq _. rewrite L3 in Hq. destruct (entry_at_ex d3 q ltac:(lia)) as [e3 E3]. destruct (Inv _ _ E3) as (q0 & e & E & N & -> & ->).
    destruct (di_cover _ _ _ _ D q0) as (x & c & I & C & Ic); [eapply entry_at_range; eauto|congruence|].
    exists (me L p x), (map (rho L p) c). split; [apply in_map; auto|]. split; [|apply in_map; auto]. cbn. apply Ch; auto.
    destruct (di_chain _ _ _ _ D x I) as (_ & c' & C' & Hc). rewrite (chain_fun _ _ _ _ C C'). intros X. destruct (Hc p X). tauto.
  - intros q e3 E3. destruct (Inv _ _ E3) as (q0 & e & E & N & -> & ->). cbn. eapply (di_key _ _ _ _ D); eauto.
  - intros q q' a b Ea Eb Q. destruct (Inv _ _ Ea) as (q0 & e & E & N & -> & ->). destruct (Inv _ _ Eb) as (q0' & e' & E' & N' & -> & ->).
    f_equal. eapply (di_inj _ _ _ _ D); eauto.
Qed.

Lemma nodup_pred {A} (x : A) l l' r r' q q' : NoDup (l ++ q :: x :: r) -> l ++ q :: x :: r = l' ++ q' :: x :: r' -> q = q'.
Proof.
  revert l'. induction l as [|a l IH]; intros [|a' l'] N E; cbn in *; try congruence.
  - injection E as -> E. destruct l' as [|b l']; cbn in E; [injection E as -> E|injection E as -> E].
    + inversion N; subst. inversion H2; subst. exfalso. apply H3. left. auto.
    + inversion N; subst. inversion H2; subst. exfalso. apply H3. apply in_app_iff. right. right. left. auto.
  - injection E as -> E. destruct l as [|b l]; cbn in E; [injection E as -> E|injection E as -> E].
    + inversion N; subst. inversion H2; subst. exfalso. apply H3. left. auto.
    + inversion N; subst. inversion H2; subst. exfalso. apply H3. apply in_app_iff. right. right. left. auto.
  - injection E as -> E. inversion N; subst. eauto.
Qed.
Lemma relink_ok (d ds : data) L p x l2 ex : forall l s fuel, chain d s (l ++ x :: L :: l2) -> NoDup (l ++ x :: L :: l2) ->
  (forall q, In q (l ++ [x]) -> entry_at ds q = entry_at d q) -> entry_at d x = Some ex -> (length l < fuel)%nat ->
  relink fuel ds s L p = set_entry ds x (DE (de_key ex) (de_value ex) (de_hash ex) p).
Proof.
  induction l as [|y l IH]; intros s fuel C N H E F; (destruct fuel as [|fuel]; [cbn in F; lia|]); cbn [relink];
    inversion C as [|? e ? E' C']; subst.
  - rewrite (H x ltac:(left; auto)), E. cbn [obind]. rewrite E in E'. injection E' as <-.
    inversion C' as [|? e' ? E2 C2]; subst. rewrite Nat.eqb_refl. auto.
  - rewrite (H y ltac:(left; auto)), E'. cbn [obind]. cbn in N. inversion N; subst.
    destruct (Nat.eqb_spec (de_collision e) L) as [Q|Q].
    { exfalso. rewrite Q in C'. destruct l as [|z l]; cbn in C', H3; inversion C'; subst; inversion H3 as [|? ? H8 H9]; subst; apply H8; [left|apply in_app_iff; right; right; left]; auto. }
    apply IH; auto. { intros q Iq. apply H. right. auto. } cbn in F. lia.
Qed.
Lemma repoint_loop_ok (m : hmap K V) k h T L p e : pow2 (hm_index m) k ->
  at_ (hm_index m) (h + T) = e -> is_used e -> ie_hash e = h ->
  (forall t, 0 <= t < T -> is_used (at_ (hm_index m) (h + t)) /\ ie_hash (at_ (hm_index m) (h + t)) <> h) ->
  forall fuel probe, 0 <= probe <= T -> T < probe + Z.of_nat fuel ->
  repoint fuel m h probe L p =
  if (ie_pos e =? L)%nat then do index <- setz (hm_index m) ((h + T) mod lenz (hm_index m)) (IE (ie_hash e) p); Some (HM index (hm_data m))
  else do d <- relink (S (length (hm_data m))) (hm_data m) (ie_pos e) L p; Some (HM (hm_index m) d).
Proof.
  intros P A u Eh U. pose proof (pow2_pos _ _ P) as n2.
  assert (Hi : forall x, 0 <= x mod lenz (hm_index m) < lenz (hm_index m)) by (intros; apply Z.mod_pos_bound; lia).
  induction fuel as [|fuel IH]; intros probe Hp Hf; [lia|]. cbn [repoint].
  rewrite (pow2_mask _ _ _ P), getz_at by apply Hi. rewrite at_mod by lia. cbn [obind].
  destruct (Z.eq_dec probe T) as [->|N].
  - rewrite A, Eh, Z.eqb_refl. cbn [negb orb]. destruct (Nat.eqb_spec (ie_pos e) 0); [exfalso; auto|]. auto.
  - destruct (U probe ltac:(lia)) as [_ N']. destruct (Z.eqb_spec (ie_hash (at_ (hm_index m) (h + probe))) h); [tauto|].
    cbn [negb orb]. apply IH; lia.
Qed.

Definition swap_step (index : list ientry) (d : data) (p : nat) : option (hmap K V) :=
  let last_pos := length d in
  if (last_pos =? p)%nat then Some (HM index d)
  else do data <- swap_at (p - 1) (last_pos - 1) d;
       do e <- entry_at data p;
       repoint (Z.to_nat (max_probes index)) (HM index data) (de_hash e) 0 last_pos p.
Lemma swap_step_ok ix d k p : pow2 ix k -> RH ix k -> dinv_hole (used ix) d (eq p) -> (1 <= p <= length d)%nat ->
  exists ix2 d2, swap_step ix d p = Some (HM ix2 d2) /\ length ix2 = length ix /\ RH ix2 k /\ length d2 = length d /\
    Permutation (used ix2) (map (me (length d) p) (used ix)) /\ moved d (removelast d2) p.
Proof.
  intros P R D Hp. pose proof (pow2_pos _ _ P) as n2. set (L := length d) in *. unfold swap_step. fold L.
  assert (Rid : forall x, rho L L x = x) by (intros x; unfold rho; destruct (Nat.eqb_spec x L); auto).
  destruct (Nat.eqb_spec L p) as [EL|NL].
  { subst p. exists ix, d. split; auto. split; auto. split; auto. split; auto. split.
    - rewrite (map_ext _ (fun e => e)); [rewrite map_id; auto|]. intros [a b]. unfold me. rewrite Rid. auto.
    - intros q. rewrite removelast_entry. fold L. rewrite Nat.eqb_refl. destruct (Nat.eqb_spec q L) as [->|].
      + rewrite Nat.ltb_irrefl. auto.
      + destruct (Nat.ltb_spec q L); auto. destruct (entry_at d q) as [[a b c e]|]; auto. cbn. unfold mc. cbn. rewrite Rid. auto. }
  destruct (swap_entry_ok d p L ltac:(unfold L in *; lia) ltac:(unfold L in *; lia)) as (ds & Es & Ls & As). rewrite Es. cbn [obind].
  destruct (entry_at_ex d L ltac:(unfold L in *; lia)) as [eL EL]. rewrite As, Nat.eqb_refl, EL. cbn [obind].
  destruct (di_cover _ _ _ _ D L ltac:(unfold L in *; lia) ltac:(congruence)) as (e & c & I & C & Ic).
  destruct (di_chain _ _ _ _ D e I) as (u & c' & C' & Hc). pose proof (chain_fun _ _ _ _ C C'). subst c'. clear C'.
  destruct (Hc L Ic) as (_ & eL' & EL' & Eh). rewrite EL in EL'. injection EL' as <-.
  pose proof (chain_nodup _ _ _ C) as ND.
  assert (Np : ~ In p c) by (intros X; destruct (Hc p X); tauto).
  assert (Uq : forall q eq, entry_at d q = Some eq -> q <> p -> de_collision eq = L -> exists a b, c = a ++ q :: L :: b).
  { intros q eq Eq Nq Cq. destruct (di_cover _ _ _ _ D q ltac:(eapply entry_at_range; eauto) ltac:(congruence)) as (e1 & c1 & I1 & C1 & Ic1).
    destruct (chain_next d _ _ q eq C1 Ic1 Eq ltac:(lia)) as (a & b & ->). rewrite Cq in *.
    destruct (same_chain hasher _ _ _ e1 e _ c L D I1 I C1 C) as [_ <-]; eauto.
    apply in_app_iff. right. right. left. auto. }
  assert (Ho : forall e', In e' (used ix) -> ie_pos e' = L -> e' = e).
  { intros e' I' Q. destruct (di_chain _ _ _ _ D e' I') as (_ & c1 & C1 & _). rewrite Q in C1.
    destruct (chain_hd _ _ _ C1 ltac:(lia)) as [c2 ->]. rewrite <- Q in C1 at 1.
    destruct (same_chain hasher _ _ _ e' e _ c L D I' I C1 C); auto. left. auto. }
  destruct (slot_of ix k e P R I) as (T & HT & AT & UT).
  assert (UT' : forall t, 0 <= t < T -> is_used (at_ ix (ie_hash e + t)) /\ ie_hash (at_ ix (ie_hash e + t)) <> ie_hash e).
  { intros t Ht. split; [apply UT; auto|]. intros X.
    assert (Q : at_ ix (ie_hash e + t) = e).
    { eapply same_hash; eauto. apply in_used; [lia|]. split; [apply UT; auto|eauto]. }
    assert (Q2 : (ie_hash e + t) mod lenz ix = (ie_hash e + T) mod lenz ix).
    { apply used_inj; [lia|exact (di_hash _ _ _ _ D)|rewrite Q; auto|rewrite AT; auto|congruence]. }
    revert Q2. replace (ie_hash e + T) with (ie_hash e + t + (T - t)) by lia. intros Q2. symmetry in Q2. revert Q2.
    apply mod_neq. pose proof (pow2_log _ _ P). lia. }
  rewrite Eh, (pow2_probes _ _ P).
  rewrite (repoint_loop_ok (HM ix ds) k (ie_hash e) T L p e P AT u eq_refl UT') by lia. cbn [hm_index hm_data].
  assert (Keep : forall q, q <> p -> q <> L -> entry_at ds q = entry_at d q).
  { intros q N1 N2. rewrite As. destruct (Nat.eqb_spec q p); [tauto|]. destruct (Nat.eqb_spec q L); tauto. }
  destruct (Nat.eqb_spec (ie_pos e) L) as [Q|Q].
  - (* the head of its bucket *)
    rewrite Q in C. destruct (chain_hd _ _ _ C ltac:(lia)) as [c2 ->].
    assert (Z : forall q eq, entry_at d q = Some eq -> q <> p -> de_collision eq <> L).
    { intros q eq Eq Nq Cq. destruct (Uq q eq Eq Nq Cq) as (a & b & X). inversion ND; subst. destruct a as [|y a]; cbn in X; injection X as X1 X2.
      - apply H1. rewrite X2. left. auto.
      - apply H1. rewrite X2. apply in_app_iff. right. right. left. auto. }
    assert (Hi : 0 <= (ie_hash e + T) mod lenz ix < lenz ix) by (apply Z.mod_pos_bound; lia).
    assert (Ai : at_ ix ((ie_hash e + T) mod lenz ix) = e) by (rewrite at_mod by lia; auto).
    destruct (set_same ix k _ (IE (ie_hash e) p) P Hi) as (ix2 & E2 & L2 & R2 & P2);
      [rewrite Ai; auto|unfold is_used; cbn; lia|rewrite Ai; auto|]. rewrite Ai in P2. rewrite E2. cbn [obind].
    exists ix2, ds. split; auto. split; auto. split; auto. split; auto. split.
    + destruct (in_split _ _ I) as (a & b & Sp).
      pose proof (di_hash _ _ _ _ D) as Nd. rewrite Sp in Nd, P2 |- *. rewrite map_app in Nd |- *. cbn [map] in *.
      assert (Out : forall x, In x (a ++ b) -> me L p x = x).
      { intros x Ix. unfold me, rho. destruct (Nat.eqb_spec (ie_pos x) L) as [Qx|]; [|destruct x; auto]. exfalso.
        assert (x = e) by (apply Ho; auto; rewrite Sp; apply in_app_iff; apply in_app_iff in Ix; destruct Ix; [auto|right; right; auto]).
        subst x. apply NoDup_remove_2 in Nd. apply Nd. rewrite <- map_app. apply in_map. auto. }
      rewrite (map_ext_in _ (fun x => x)) by (intros; apply Out; apply in_app_iff; auto). rewrite map_id.
      rewrite (map_ext_in _ (fun x => x) b) by (intros; apply Out; apply in_app_iff; auto). rewrite map_id.
      assert (Em : me L p e = IE (ie_hash e) p) by (unfold me, rho; rewrite Q, Nat.eqb_refl; auto). rewrite Em.
      apply (Permutation_cons_inv (a := e)). rewrite <- P2. rewrite <- !Permutation_middle. apply perm_swap.
    + intros q. rewrite removelast_entry, Ls. fold L. destruct (Nat.eqb_spec p L); [congruence|].
      destruct (Nat.eqb_spec q p) as [->|Nq].
      * destruct (Nat.ltb_spec p L); [|unfold L in *; lia]. rewrite As, Nat.eqb_refl, EL. cbn. f_equal. unfold mc, rho.
        destruct (Nat.eqb_spec (de_collision eL) L) as [X|]; [exfalso; eapply Z; eauto|]. destruct eL; auto.
      * destruct (Nat.ltb_spec q L); auto. rewrite Keep by lia. destruct (entry_at d q) as [eq|] eqn:Eq; auto. cbn. f_equal. unfold mc, rho.
        destruct (Nat.eqb_spec (de_collision eq) L) as [X|]; [exfalso; eapply Z; eauto|]. destruct eq; auto.
  - (* further on *)
    destruct (in_split _ _ Ic) as (l1 & l2 & ->). destruct l1 as [|y l1'] using rev_ind.
    { exfalso. cbn in C. inversion C; subst. tauto. }
    clear IHl1'. rewrite <- app_assoc in *. cbn [app] in *.
    destruct (chain_in _ _ _ y C) as [ey Ey]; [apply in_app_iff; right; left; auto|].
    assert (Ny : y <> p /\ y <> L).
    { split; [intros ->; apply Np; apply in_app_iff; right; left; auto|]. intros ->. apply NoDup_remove_2 in ND. apply ND. apply in_app_iff. right. left. auto. }
    rewrite (relink_ok d ds L p y l2 ey l1' _ _ C ND); auto.
    2: { intros q Iq. apply Keep.
         - intros ->. apply Np. apply in_app_iff. apply in_app_iff in Iq. destruct Iq as [|[|[]]]; [auto|right; left; auto].
         - intros ->. replace (l1' ++ y :: L :: l2) with ((l1' ++ [y]) ++ L :: l2) in ND by (rewrite <- app_assoc; auto).
           apply NoDup_remove_2 in ND. apply ND. apply in_app_iff. auto. }
    2: { pose proof (chain_length _ _ _ C) as X. rewrite app_length in X. cbn in X. fold L in X. rewrite Ls. fold L. lia. }
    destruct (set_entry_ok ds y (DE (de_key ey) (de_value ey) (de_hash ey) p)) as (d2 & E2 & L2 & A2).
    { rewrite Ls. eapply entry_at_range; eauto. }
    rewrite E2. cbn [obind]. exists ix, d2. split; auto. split; auto. split; auto. split; [lia|]. split.
    + rewrite (map_ext_in _ (fun e => e)); [rewrite map_id; auto|]. intros x Ix. unfold me, rho.
      destruct (Nat.eqb_spec (ie_pos x) L) as [Qx|]; [|destruct x; auto]. exfalso. apply Q. rewrite <- (Ho x Ix Qx). auto.
    + assert (Z : forall q eq, entry_at d q = Some eq -> q <> p -> q <> y -> de_collision eq <> L).
      { intros q eq Eq Nq Nqy Cq. destruct (Uq q eq Eq Nq Cq) as (a & b & X). apply Nqy. symmetry. eapply nodup_pred; [exact ND|exact X]. }
      intros q. rewrite removelast_entry, L2, Ls. fold L. destruct (Nat.eqb_spec p L); [congruence|].
      destruct (Nat.eqb_spec q p) as [->|Nq].
      * destruct (Nat.ltb_spec p L); [|unfold L in *; lia]. rewrite A2. destruct (Nat.eqb_spec p y); [exfalso; apply (proj1 Ny); auto|].
        rewrite As, Nat.eqb_refl, EL. cbn. f_equal. unfold mc, rho.
        destruct (Nat.eqb_spec (de_collision eL) L) as [X|]; [exfalso; eapply (Z L); eauto; intros ->; tauto|]. destruct eL; auto.
      * destruct (Nat.ltb_spec q L); auto. rewrite A2. destruct (Nat.eqb_spec q y) as [->|Nqy].
        -- rewrite Ey. cbn. f_equal. unfold mc, rho. destruct (chain_in _ _ _ y C) as [e1 E1]; [apply in_app_iff; right; left; auto|].
           assert (Cy : de_collision ey = L).
           { apply chain_split in C. inversion C as [|? e2 ? X1 X2]; subst. rewrite Ey in X1. injection X1 as <-. inversion X2; auto. }
           rewrite Cy, Nat.eqb_refl. auto.
        -- rewrite Keep by lia. destruct (entry_at d q) as [eq|] eqn:Eq; auto. cbn. f_equal. unfold mc, rho.
           destruct (Nat.eqb_spec (de_collision eq) L) as [X|]; [exfalso; eapply Z; eauto|]. destruct eq; auto.
Qed.

(** ** The contents *)
Definition kv (d : data) (p : nat) : option (K * V) := option_map (fun e => (de_key e, de_value e)) (entry_at d p).
Lemma kv_moved d d3 p : moved d d3 p -> forall q,
  kv d3 q = if (q =? p)%nat then (if (p =? length d)%nat then None else kv d (length d)) else if (q <? length d)%nat then kv d q else None.
Proof.
  intros M q. unfold kv. rewrite M. destruct (q =? p)%nat.
  - destruct (p =? length d)%nat; auto. destruct (entry_at d (length d)); auto.
  - destruct (q <? length d)%nat; auto. destruct (entry_at d q); auto.
Qed.

Lemma remove_at_ok (m : hmap K V) k key h i p coll : pow2 (hm_index m) k -> RH (hm_index m) k -> dinv (used (hm_index m)) (hm_data m) ->
  route_result m key h k (Found i p coll) ->
  exists m', remove_at m i p coll = Some m' /\ inv m' /\ length (hm_data m') = (length (hm_data m) - 1)%nat /\ length (hm_index m') = length (hm_index m) /\
    forall q, kv (hm_data m') q =
      if (q =? p)%nat then (if (p =? length (hm_data m))%nat then None else kv (hm_data m) (length (hm_data m)))
      else if (q <? length (hm_data m))%nat then kv (hm_data m) q else None.
Proof.
  intros P R D (Hi & u & Eh & l1 & l2 & ep & C & Ec & Ep & Ek).
  pose proof (pow2_pos _ _ P) as n2. destruct m as [ix d]. cbn [hm_index hm_data] in *.
  pose proof (entry_at_range _ _ _ Ep) as Rp.
  assert (FIN : forall ix1 d1, length ix1 = length ix -> RH ix1 k -> dinv_hole (used ix1) d1 (eq p) -> length d1 = length d ->
    (forall q, kv d1 q = kv d q) ->
    exists m', (do m <- swap_step ix1 d1 p; Some (HM (hm_index m) (removelast (hm_data m)))) = Some m' /\ inv m' /\
      length (hm_data m') = (length d - 1)%nat /\ length (hm_index m') = length ix /\
      forall q, kv (hm_data m') q = if (q =? p)%nat then (if (p =? length d)%nat then None else kv d (length d)) else if (q <? length d)%nat then kv d q else None).
  { intros ix1 d1 L1 R1 D1 Ld Kv. assert (P1 : pow2 ix1 k) by (eapply pow2_len; eauto).
    destruct (swap_step_ok ix1 d1 k p P1 R1 D1 ltac:(lia)) as (ix2 & d2 & E & L2 & R2 & Ld2 & Pm & M). rewrite E. cbn [obind hm_index hm_data].
    eexists. split; [reflexivity|]. cbn [hm_index hm_data]. assert (Lr : length (removelast d2) = (length d1 - 1)%nat) by (rewrite removelast_length; lia).
    split; [|split; [lia|split; [lia|]]].
    - split. { right. exists k. split; auto. eapply pow2_len; [|exact P1]. cbn [hm_index]. lia. }
      apply (dinv_perm hasher _ _ _ _ (Permutation_sym Pm)). apply relabel; [exact D1|lia|exact M|exact Lr].
    - intros q. cbn [hm_data]. rewrite (kv_moved _ _ _ M). rewrite Ld, !Kv. auto. }
  unfold remove_at. cbn [hm_index hm_data]. rewrite Ep. cbn [obind].
  assert (I : In (at_ ix i) (used ix)) by (apply in_used; [lia|eauto]).
  unfold unlink. cbn [hm_index hm_data].
  destruct l1 as [|x l1] using rev_ind.
  - cbn in Ec. subst coll. rewrite getz_at by auto. cbn [obind]. cbn [app] in C.
    destruct (Nat.eqb_spec (de_collision ep) 0) as [Z|Z]; cbn [andb Nat.eqb].
    + destruct (set_hole ix k i (IE (ie_hash (at_ ix i)) (de_collision ep)) P Hi u) as (ix1 & E1 & L1 & N1 & R1 & P1).
      { intros X. exact (X Z). }
      rewrite E1. cbn [obind hm_index hm_data]. assert (Pw : pow2 ix1 k) by (eapply pow2_len; eauto).
      assert (Hi1 : 0 <= i < lenz ix1) by (unfold lenz in *; lia).
      destruct (compact_ok (compact_fuel ix1) ix1 k i Pw Hi1 N1) as (ix2 & E2 & L2 & P2 & R2).
      { apply compact_fuel_ok. unfold lenz in *. lia. }
      rewrite E2. cbn [obind]. apply FIN; auto; [lia|].
      assert (Pu : Permutation (used ix) (at_ ix i :: used ix2)).
      { rewrite P1. apply perm_skip. apply perm_filter. auto. }
      pose proof (unlink_head _ _ _ _ _ _ _ D Pu C Ep) as U. rewrite Z in U. exact U.
    + destruct (set_same ix k i (IE (ie_hash (at_ ix i)) (de_collision ep)) P Hi u Z eq_refl) as (ix1 & E1 & L1 & R1 & P1).
      rewrite E1. cbn [obind hm_index hm_data]. apply FIN; auto.
      destruct (in_split _ _ I) as (a & b & Sp).
      assert (Pu : Permutation (used ix) (at_ ix i :: (a ++ b))) by (rewrite Sp; symmetry; apply Permutation_middle).
      pose proof (unlink_head _ _ _ _ _ _ _ D Pu C Ep) as U. destruct (Nat.eqb_spec (de_collision ep) 0); [tauto|].
      eapply dinv_perm; [|exact U]. apply (Permutation_cons_inv (a := at_ ix i)). rewrite <- P1. rewrite perm_swap. apply perm_skip. symmetry. auto.
  - clear IHl1. rewrite last_last in Ec. subst coll. rewrite <- app_assoc in C. cbn [app] in C.
    destruct (chain_in _ _ _ x C) as [ex Ex]; [apply in_app_iff; right; left; auto|].
    pose proof (entry_at_range _ _ _ Ex) as Rx. destruct x as [|x']; [lia|]. set (x := S x') in *.
    rewrite Ex. cbn [obind].
    destruct (set_entry_ok d x (DE (de_key ex) (de_value ex) (de_hash ex) (de_collision ep))) as (d1 & E1 & L1 & A1); [lia|].
    rewrite E1. cbn [obind hm_index hm_data]. unfold x at 1. cbn [Nat.eqb andb obind].
    apply FIN; auto.
    + eapply unlink_mid; eauto.
    + intros q. unfold kv. rewrite A1. destruct (Nat.eqb_spec q x) as [->|]; auto. rewrite Ex. auto.
Qed.

(** ** Inserting, without growing *)
Lemma make_fair_same ix mask i : make_fair ix mask i i = Some ix.
Proof. unfold make_fair. rewrite Z.eqb_refl. auto. Qed.
Definition add_at (m : hmap K V) (key : K) (h : Z) (init : V) (i f : Z) : option (option (hmap K V * nat)) :=
  do index <- make_fair (hm_index m) (hash_mask (hm_index m)) i f;
  do index_entry <- getz index f;
  let data := hm_data m ++ [DE key init h (ie_pos index_entry)] in
  let data_pos := length data in
  do index <- setz index f (IE h data_pos);
  Some (Some (HM index data, data_pos)).
Lemma add_ok (m : hmap K V) k key init i f : let h := hash_of hasher key in
  pow2 (hm_index m) k -> RH (hm_index m) k -> dinv (used (hm_index m)) (hm_data m) ->
  route_result m key h k (Available i f) -> ~ key_in (hm_data m) key ->
  exists m' pos, add_at m key h init i f = Some (Some (m', length (hm_data m'))) /\ inv m' /\
    hm_data m' = hm_data m ++ [DE key init h pos] /\ length (hm_index m') = length (hm_index m).
Proof.
  intros h P R D RR Nk. pose proof (pow2_pos _ _ P) as n2. destruct m as [ix d]. cbn [hm_index hm_data] in *. unfold add_at. cbn [hm_index hm_data].
  destruct RR as [(<- & Hi & u & Eh)|(T & F & Ei & Ef & HF & HT & nT & U & F1 & F2)]; cbn [hm_index hm_data] in *.
  - rewrite make_fair_same. cbn [obind]. rewrite getz_at by auto. cbn [obind].
    set (pos := ie_pos (at_ ix i)) in *. rewrite app_length. cbn [length]. rewrite Nat.add_1_r.
    destruct (set_same ix k i (IE h (S (length d))) P Hi u) as (ix1 & E1 & L1 & R1 & P1); [cbn; discriminate|cbn; congruence|].
    rewrite E1. cbn [obind]. eexists (HM ix1 (d ++ [DE key init h pos])), pos. cbn [hm_index hm_data]. split; [rewrite app_length; cbn [length]; rewrite Nat.add_1_r; reflexivity|].
    split; [|auto]. split. { right. exists k. split; auto. cbn. eapply pow2_len; eauto. }
    cbn [hm_index hm_data]. apply (dinv_app (used ix)); auto. right. exists (at_ ix i). split; [apply in_used; [lia|eauto]|]. auto.
  - destruct (insert_ok ix k h F T P R HF HT nT (fun t Ht => proj1 (U t Ht)) F1 F2) as (ix1 & e1 & E1 & G1 & Z1 & S1).
    subst i f. rewrite E1. cbn [obind]. rewrite G1. cbn [obind]. rewrite Z1. rewrite app_length. cbn [length]. rewrite Nat.add_1_r.
    destruct (S1 (IE h (S (length d)))) as (ix2 & E2 & L2 & R2 & P2); [cbn; discriminate|auto|]. rewrite E2. cbn [obind].
    exists (HM ix2 (d ++ [DE key init h 0])), 0%nat. cbn [hm_index hm_data]. split; [rewrite app_length; cbn [length]; rewrite Nat.add_1_r; reflexivity|].
    split; [|auto]. split. { right. exists k. split; auto. cbn. eapply pow2_len; eauto. }
    cbn [hm_index hm_data]. apply (dinv_app (used ix)); auto. left. split; auto. split; auto.
    apply (probes_no_hash ix k h T); auto. lia.
Qed.
(** ** Writing a value *)
Lemma write_ok (m : hmap K V) p e v : inv m -> entry_at (hm_data m) p = Some e ->
  exists d', set_entry (hm_data m) p (DE (de_key e) v (de_hash e) (de_collision e)) = Some d' /\ inv (HM (hm_index m) d') /\
    length d' = length (hm_data m) /\
    forall q, entry_at d' q = if (q =? p)%nat then Some (DE (de_key e) v (de_hash e) (de_collision e)) else entry_at (hm_data m) q.
Proof.
  intros [X D] E. destruct (set_entry_ok (hm_data m) p (DE (de_key e) v (de_hash e) (de_collision e))) as (d' & E' & L & A).
  { eapply entry_at_range; eauto. }
  exists d'. split; auto. split; auto. split; auto. cbn [hm_index hm_data].
  assert (To : forall q a, entry_at (hm_data m) q = Some a -> exists b, entry_at d' q = Some b /\ de_collision b = de_collision a /\ de_key b = de_key a /\ de_hash b = de_hash a).
  { intros q a Ea. rewrite A. destruct (Nat.eqb_spec q p) as [->|]; [|eauto]. eexists. split; [reflexivity|]. rewrite E in Ea. injection Ea as <-. auto. }
  assert (Fr : forall q b, entry_at d' q = Some b -> exists a, entry_at (hm_data m) q = Some a /\ de_key b = de_key a /\ de_hash b = de_hash a).
  { intros q b Eb. rewrite A in Eb. destruct (Nat.eqb_spec q p) as [->|]; [|eauto]. injection Eb as <-. eauto. }
  assert (Ch : forall s c, chain (hm_data m) s c -> chain d' s c).
  { intros s c. apply chain_coll. intros q a Ea. destruct (To q a Ea) as (b & ? & ? & _). eauto. }
  split.
  - exact (di_hash _ _ _ _ D).
  - intros x I. destruct (di_chain _ _ _ _ D x I) as (u & c & C & H). split; auto. exists c. split; auto. intros q Iq.
    destruct (H q Iq) as (N & a & Ea & Eh). split; auto. destruct (To q a Ea) as (b & Eb & _ & _ & Q). exists b. split; auto. congruence.
  - intros q Hq N. rewrite L in Hq. destruct (di_cover _ _ _ _ D q Hq N) as (x & c & I & C & Ic). exists x, c. auto.
  - intros q b Eb. destruct (Fr q b Eb) as (a & Ea & Q1 & Q2). rewrite Q1, Q2. eapply (di_key _ _ _ _ D); eauto.
  - intros q q' b b' Eb Eb' Q. destruct (Fr _ _ Eb) as (a & Ea & Q1 & _). destruct (Fr _ _ Eb') as (a' & Ea' & Q1' & _).
    eapply (di_inj _ _ _ _ D); eauto. congruence.
Qed.
End PROOFS.
