(** The dense array of lib/hash.fu: buckets as chains of positions. *)
From Verif Require Import CommonLemmas HashModel HashIndex.
From Coq Require Import Permutation.
Open Scope nat_scope.

Section DATA.
Context {K V : Type} (eqb : K -> K -> bool) (hasher : K -> Z).
Hypothesis eqb_ok : forall a b, eqb a b = true <-> a = b.
Notation data := (list (dentry K V)).

Inductive chain (d : data) : nat -> list nat -> Prop :=
| chain_nil : chain d 0 []
| chain_cons p e c : entry_at d p = Some e -> chain d (de_collision e) c -> chain d p (p :: c).

Lemma entry_at_range (d : data) p e : entry_at d p = Some e -> 1 <= p <= length d.
Proof. destruct p; cbn; [discriminate|]. intros H. apply nth_error_lt in H. lia. Qed.
Lemma entry_at_ex (d : data) p : 1 <= p <= length d -> exists e, entry_at d p = Some e.
Proof. destruct p; [lia|]. intros H. cbn. apply nth_error_ex. lia. Qed.
Lemma chain_0 (d : data) c : chain d 0 c -> c = [].
Proof. inversion 1; auto. discriminate. Qed.
Lemma chain_hd (d : data) p c : chain d p c -> p <> 0 -> exists c', c = p :: c'.
Proof. inversion 1; subst; eauto. tauto. Qed.
Lemma chain_fun (d : data) p c c' : chain d p c -> chain d p c' -> c = c'.
Proof.
  intros H. revert c'. induction H; intros c' H'.
  - symmetry. eapply chain_0. eauto.
  - inversion H' as [|q e' c2 E C]; subst; [discriminate|]. rewrite H in E. injection E as <-. f_equal. auto.
Qed.
Lemma chain_split (d : data) p l1 q l2 : chain d p (l1 ++ q :: l2) -> chain d q (q :: l2).
Proof.
  revert p. induction l1 as [|x l1 IH]; cbn; intros p H.
  - inversion H; subst. econstructor; eauto.
  - inversion H; subst. eauto.
Qed.
Lemma chain_in (d : data) p c q : chain d p c -> In q c -> exists e, entry_at d q = Some e.
Proof. intros H I. apply in_split in I. destruct I as (l1 & l2 & ->). apply chain_split in H. inversion H; subst; eauto. Qed.
Lemma chain_nodup (d : data) p c : chain d p c -> NoDup c.
Proof.
  induction 1 as [|p e c E C IH]; constructor; auto. intros I. apply in_split in I. destruct I as (l1 & l2 & ->).
  pose proof (chain_split _ _ _ _ _ C) as C'. pose proof (chain_cons _ _ _ _ E C) as C2.
  pose proof (chain_fun _ _ _ _ C' C2) as X. apply (f_equal (@length _)) in X. cbn in X. rewrite app_length in X. cbn in X. lia.
Qed.
Lemma chain_length (d : data) p c : chain d p c -> length c <= length d.
Proof.
  intros H. rewrite <- (seq_length (length d) 1). apply NoDup_incl_length; [eapply chain_nodup; eauto|].
  intros q I. destruct (chain_in _ _ _ _ H I) as [e E]. apply entry_at_range in E. apply in_seq. lia.
Qed.
(** An element followed by its collision *)
Lemma chain_next (d : data) p c q e : chain d p c -> In q c -> entry_at d q = Some e -> de_collision e <> 0 ->
  exists l1 l2, c = l1 ++ q :: de_collision e :: l2.
Proof.
  intros H I E N. apply in_split in I. destruct I as (l1 & l2 & ->). apply chain_split in H. inversion H as [|? e' ? E' C]; subst.
  rewrite E in E'. injection E' as <-. destruct (chain_hd _ _ _ C N) as [c' ->]. eauto.
Qed.

(** ** What the index and the array owe each other.  [hole]: positions no bucket has *)
Record dinv_hole (us : list ientry) (d : data) (hole : nat -> Prop) : Prop := {
  di_hash : NoDup (map ie_hash us);
  di_chain : forall e, In e us -> is_used e /\ exists c, chain d (ie_pos e) c /\
             forall p, In p c -> ~ hole p /\ exists de, entry_at d p = Some de /\ de_hash de = ie_hash e;
  di_cover : forall p, 1 <= p <= length d -> ~ hole p -> exists e c, In e us /\ chain d (ie_pos e) c /\ In p c;
  di_key : forall p de, entry_at d p = Some de -> de_hash de = hash_of hasher (de_key de);
  di_inj : forall p q de de', entry_at d p = Some de -> entry_at d q = Some de' -> de_key de = de_key de' -> p = q }.
Definition dinv (us : list ientry) (d : data) : Prop := dinv_hole us d (fun _ => False).

Lemma dinv_perm us us' d h : Permutation us us' -> dinv_hole us d h -> dinv_hole us' d h.
Proof.
  intros P [a b c e f]. split; auto.
  - eapply Permutation_NoDup; [apply Permutation_map; exact P|auto].
  - intros x I. apply b. eapply Permutation_in; [symmetry; exact P|auto].
  - intros p Hp Hh. destruct (c p Hp Hh) as (x & l & I & C). exists x, l. split; auto. eapply Permutation_in; eauto.
Qed.
Lemma same_hash us (d : data) h e e' : dinv_hole us d h -> In e us -> In e' us -> ie_hash e = ie_hash e' -> e = e'.
Proof.
  intros D I I' E. pose proof (di_hash _ _ _ D) as N. clear D. induction us as [|x us IH]; [destruct I|].
  cbn in N. inversion N; subst. destruct I as [->|I], I' as [->|I']; auto.
  - exfalso. apply H1. rewrite E. apply in_map. auto.
  - exfalso. apply H1. rewrite <- E. apply in_map. auto.
Qed.
(** a position is in one bucket only *)
Lemma same_chain us (d : data) h e e' c c' p : dinv_hole us d h -> In e us -> In e' us -> chain d (ie_pos e) c -> chain d (ie_pos e') c' ->
  In p c -> In p c' -> e = e' /\ c = c'.
Proof.
  intros D I I' C C' P P'.
  destruct (di_chain _ _ _ D e I) as (_ & c1 & C1 & H1). rewrite (chain_fun _ _ _ _ C C1) in P.
  destruct (di_chain _ _ _ D e' I') as (_ & c2 & C2 & H2). rewrite (chain_fun _ _ _ _ C' C2) in P'.
  destruct (H1 p P) as (_ & de & E1 & E2). destruct (H2 p P') as (_ & de' & E1' & E2').
  assert (e = e') by (eapply same_hash; eauto; congruence). subst e'. split; auto. eapply chain_fun; eauto.
Qed.

(** ** Array updates, by position *)
Lemma set_entry_ok (d : data) p e : 1 <= p <= length d -> exists d', set_entry d p e = Some d' /\ length d' = length d /\
  forall q, entry_at d' q = if q =? p then Some e else entry_at d q.
Proof.
  intros H. destruct p as [|p]; [lia|]. cbn. destruct (upd_total d p e ltac:(lia)) as [d' E]. exists d'. split; auto.
  destruct (upd_Some _ _ _ _ E) as (_ & L & A & B). split; auto. intros [|q]; cbn; auto.
  destruct (Nat.eqb_spec q p) as [->|]; auto.
Qed.
Lemma swap_entry_ok (d : data) p q : 1 <= p <= length d -> 1 <= q <= length d ->
  exists d', swap_at (p - 1) (q - 1) d = Some d' /\ length d' = length d /\
  forall x, entry_at d' x = if x =? p then entry_at d q else if x =? q then entry_at d p else entry_at d x.
Proof.
  intros Hp Hq. destruct p as [|p], q as [|q]; try lia. cbn [Nat.sub]. rewrite !Nat.sub_0_r.
  destruct (nth_error_ex d p ltac:(lia)) as [a A]. destruct (nth_error_ex d q ltac:(lia)) as [b B].
  destruct (swap_at_Some d p q a b A B) as (d' & E & L & X & Y & Z). exists d'. split; auto. split; auto.
  intros [|x]; cbn; auto. destruct (Nat.eqb_spec x p) as [->|]; [congruence|]. destruct (Nat.eqb_spec x q) as [->|]; [congruence|]. auto.
Qed.
Lemma removelast_nth {A} (l : list A) i : nth_error (removelast l) i = if S i <? length l then nth_error l i else None.
Proof.
  destruct l as [|a l] using rev_ind; [destruct i; auto|]. rewrite removelast_last, app_length. cbn [length].
  destruct (Nat.ltb_spec (S i) (length l + 1)).
  - symmetry. apply nth_error_app_l. lia.
  - apply nth_error_None. lia.
Qed.
Lemma removelast_entry (d : data) p : entry_at (removelast d) p = if p <? length d then entry_at d p else None.
Proof. destruct p; cbn [entry_at]; [destruct (0 <? length d); auto|]. apply removelast_nth. Qed.
Lemma removelast_length {A} (l : list A) : length (removelast l) = length l - 1.
Proof. destruct l as [|a l] using rev_ind; auto. rewrite removelast_last, app_length. cbn. lia. Qed.
Lemma app_entry (d : data) e p : entry_at (d ++ [e]) p = if p =? S (length d) then Some e else entry_at d p.
Proof.
  destruct p; cbn; auto. destruct (Nat.eqb_spec p (length d)) as [->|N].
  - rewrite nth_error_app_r, Nat.sub_diag; auto.
  - destruct (Nat.lt_ge_cases p (length d)). { apply nth_error_app_l; auto. }
    rewrite !(proj2 (nth_error_None _ _)); auto. rewrite app_length. cbn. lia.
Qed.

(** Chains that avoid the changed entries stay *)
Lemma chain_ext (d d' : data) p c : (forall q, In q c -> entry_at d' q = entry_at d q) -> chain d p c -> chain d' p c.
Proof.
  intros H C. induction C as [|p e c E C IH]; econstructor.
  - rewrite H; [eauto|left; auto].
  - apply IH. intros. apply H. right. auto.
Qed.
(** ... or keep the collisions *)
Lemma chain_coll (d d' : data) p c :
  (forall q e, entry_at d q = Some e -> exists e', entry_at d' q = Some e' /\ de_collision e' = de_collision e) -> chain d p c -> chain d' p c.
Proof.
  intros H C. induction C as [|p e c E C IH]; [constructor|]. destruct (H _ _ E) as (e' & E' & F). econstructor; eauto. rewrite F. auto.
Qed.

(** ** The bucket search *)
Lemma last_dflt {A} (l : list A) a x y : last (a :: l) x = last (a :: l) y.
Proof. revert a. induction l as [|b l IH]; intros a; auto. change (last (b :: l) x = last (b :: l) y). auto. Qed.
Lemma bucket_ok (d : data) key : forall c fuel p coll, chain d p c -> p <> 0 -> length c <= fuel ->
  (bucket eqb fuel d key p coll = Some None /\ forall q e, In q c -> entry_at d q = Some e -> de_key e <> key) \/
  exists l1 q l2 e, c = l1 ++ q :: l2 /\ bucket eqb fuel d key p coll = Some (Some (q, last l1 coll)) /\
    entry_at d q = Some e /\ de_key e = key.
Proof.
  induction c as [|p0 c IH]; intros fuel p coll C N F.
  { inversion C. congruence. }
  inversion C as [|? e ? E C']; subst. destruct fuel as [|fuel]; [cbn in F; lia|]. cbn [bucket]. rewrite E. cbn [obind].
  destruct (eqb (de_key e) key) eqn:Q.
  { right. apply eqb_ok in Q. exists [], p0, c, e. auto. }
  assert (Nk : de_key e <> key) by (intros X; apply eqb_ok in X; congruence).
  destruct (Nat.eqb_spec (de_collision e) 0) as [Z|Z].
  { left. rewrite Z in C'. apply chain_0 in C'. subst c. split; auto. intros q e' [<-|[]] E'. congruence. }
  destruct (IH fuel (de_collision e) p0 C' Z) as [[H1 H2]|(l1 & q & l2 & e' & H1 & H2 & H3 & H4)]; [cbn in F; lia| |].
  - left. split; auto. intros q e' [<-|I] E'; [congruence|eauto].
  - right. exists (p0 :: l1), q, l2, e'. subst c. split; auto. split; auto. rewrite H2. do 3 f_equal. destruct l1 as [|n l1]; auto. change (last (p0 :: n :: l1) coll) with (last (n :: l1) coll). apply last_dflt.
Qed.
End DATA.
