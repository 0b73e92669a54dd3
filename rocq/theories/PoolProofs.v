From Verif Require Import WordsLemmas PoolModel PoolSpec.
Open Scope Z_scope.

Section P.
Context {T : Type} (next : T -> Z) (set_next : Z -> T -> T) (dflt : T) (F : field_ok next set_next dflt) (DEBUG : bool).
Notation reach := (preach next set_next dflt DEBUG).

Inductive chain (its : list T) : Z -> list nat -> Prop :=
| c_nil : chain its 0 []
| c_cons : forall i fl t, nth_error its i = Some t -> set_next 0 t = dflt -> chain its (next t) fl ->
    chain its (Z.of_nat i + 1) (i :: fl).

Lemma chain_nonneg its n fl : chain its n fl -> 0 <= n.
Proof. destruct 1; lia. Qed.

Lemma chain_ext its its' n fl : chain its n fl ->
  (forall i, In i fl -> nth_error its' i = nth_error its i) -> chain its' n fl.
Proof.
  induction 1 as [|i fl t H1 H2 H3 IH]; intros E; [constructor|].
  apply c_cons with (t := t); auto.
  - rewrite E; [auto|left; auto].
  - apply IH. intros j Hj; apply E; right; auto.
Qed.

Record inv (p : pool T) (m : Z -> option T) : Prop := {
  i_fl : exists fl, chain (items p) (first_free p) fl /\ NoDup fl /\
         (forall i, (i < length (items p))%nat -> (In i fl <-> m (Z.of_nat i + 1) = None));
  i_dom : forall id x, m id = Some x -> exists i, id = Z.of_nat i + 1 /\ nth_error (items p) i = Some x;
  i_dbg : forall i, (i < 32)%nat -> DEBUG = true -> dbit p i = match m (Z.of_nat i + 1) with Some _ => true | None => false end
}.

Lemma chain_lt its n fl : chain its n fl -> forall i, In i fl -> (i < length its)%nat.
Proof.
  induction 1 as [|i fl t H1 H2 H3 IH]; intros j Hj; [destruct Hj|].
  destruct Hj as [<-|Hj]; [eapply nth_error_lt; eauto|auto].
Qed.

Lemma mset_eq {A} (m : Z -> option A) k v : mset m k v k = v.
Proof. unfold mset. rewrite Z.eqb_refl. reflexivity. Qed.
Lemma mset_ne {A} (m : Z -> option A) k v k' : k' <> k -> mset m k v k' = m k'.
Proof. intros H. unfold mset. apply Z.eqb_neq in H. rewrite H. reflexivity. Qed.

Lemma testbit_lor_pow z i j : Z.testbit (Z.lor z (2 ^ Z.of_nat i)) (Z.of_nat j) = (if Nat.eqb i j then true else Z.testbit z (Z.of_nat j)).
Proof.
  rewrite Z.lor_spec, Z.pow2_bits_eqb by lia.
  destruct (Nat.eqb_spec i j) as [->|H].
  - rewrite Z.eqb_refl. apply orb_true_r.
  - replace (Z.of_nat i =? Z.of_nat j) with false by lia. apply orb_false_r.
Qed.
Lemma testbit_ldiff_pow z i j : Z.testbit (Z.ldiff z (2 ^ Z.of_nat i)) (Z.of_nat j) = (if Nat.eqb i j then false else Z.testbit z (Z.of_nat j)).
Proof.
  rewrite Z.ldiff_spec, Z.pow2_bits_eqb by lia.
  destruct (Nat.eqb_spec i j) as [->|H].
  - rewrite Z.eqb_refl. apply andb_false_r.
  - replace (Z.of_nat i =? Z.of_nat j) with false by lia. apply andb_true_r.
Qed.

Lemma inv_empty : inv empty_pool (fun _ => None).
Proof.
  split.
  - exists []. split; [constructor|]. split; [constructor|]. cbn; intros; lia.
  - discriminate.
  - intros i Hi Hd. unfold dbit; cbn. apply Z.bits_0.
Qed.

(** [alloc_finish] on a pool whose bit for [i] is clear. *)
Lemma alloc_finish_ok (p : pool T) m i its ff : 
  (forall j, (j < 32)%nat -> DEBUG = true -> dbit p j = match m (Z.of_nat j + 1) with Some _ => true | None => false end) ->
  m (Z.of_nat i + 1) = None ->
  exists dbg', alloc_finish (T:=T) DEBUG {| items := its; first_free := ff; debug := debug p |} i
      = Some (Z.of_nat i + 1, {| items := its; first_free := ff; debug := dbg' |}) /\
    (forall j, (j < 32)%nat -> DEBUG = true -> Z.testbit dbg' (Z.of_nat j) = match mset m (Z.of_nat i + 1) (Some dflt) (Z.of_nat j + 1) with Some _ => true | None => false end).
Proof.
  intros Hd Hm. unfold alloc_finish, tracked. cbn [items first_free debug]. unfold dbit at 1; cbn [debug].
  destruct DEBUG eqn:ED; cbn [andb].
  - destruct (Nat.ltb_spec i 32) as [Hi|Hi].
    + pose proof (Hd i Hi eq_refl) as B. rewrite Hm in B. unfold dbit in B. rewrite B.
      eexists; split; [reflexivity|]. intros j Hj _. rewrite testbit_lor_pow.
      destruct (Nat.eqb_spec i j) as [->|Hne]; [rewrite mset_eq; reflexivity|].
      rewrite mset_ne by lia. apply Hd; auto.
    + eexists; split; [reflexivity|]. intros j Hj _. rewrite mset_ne by lia. apply Hd; auto.
  - eexists; split; [reflexivity|]. intros; discriminate.
Qed.

Lemma alloc_ok p m : inv p m ->
  exists id p', pool_alloc next set_next dflt DEBUG p = Some (id, p') /\ 0 < id /\ m id = None /\ inv p' (mset m id (Some dflt)) /\
    (Z.of_nat (length (items p)) < id -> forall k, 0 < k <= Z.of_nat (length (items p)) -> m k <> None).
Proof.
  intros [(fl & C & N & D) M B]. unfold pool_alloc.
  pose proof (chain_nonneg _ _ _ C) as Hn.
  destruct (Z.ltb_spec (first_free p) 0); [lia|].
  inversion C as [E1 E2|i fl' t Hi Ht C' E1 E2]; subst fl.
  - (* empty free list *)
    destruct (Z.ltb_spec 0 0); [lia|].
    assert (Hfresh : m (Z.of_nat (length (items p)) + 1) = None).
    { destruct (m _) as [x|] eqn:E; [|reflexivity]. destruct (M _ _ E) as (i & Hi & Hx).
      apply nth_error_lt in Hx. lia. }
    destruct (alloc_finish_ok p m (length (items p)) (items p ++ [dflt]) 0 B Hfresh) as (dbg' & EA & EB).
    eexists _, _. split; [exact EA|]. split; [lia|]. split; [exact Hfresh|]. split.
    + split; cbn [items first_free].
      * exists []. split; [constructor|]. split; [constructor|]. rewrite app_length; cbn [length].
        intros i Hi. split; [intros []|]. intros Hm.
        destruct (Nat.eq_dec i (length (items p))) as [->|Hne]; [rewrite mset_eq in Hm; discriminate|].
        rewrite mset_ne in Hm by lia. apply (D i); auto. lia.
      * intros id x Hx. destruct (Z.eq_dec id (Z.of_nat (length (items p)) + 1)) as [->|Hne].
        -- rewrite mset_eq in Hx. injection Hx as <-. eexists; split; [reflexivity|]. apply nth_error_mid.
        -- rewrite mset_ne in Hx by auto. destruct (M _ _ Hx) as (i & -> & Hi). exists i; split; [reflexivity|].
           rewrite nth_error_app_l; auto. eapply nth_error_lt; eauto.
      * intros i Hi Hd. unfold dbit; cbn [debug]. apply EB; auto.
    + intros _ k Hk Hm. assert (Hk' : (Z.to_nat (k - 1) < length (items p))%nat) by lia.
      apply (D _ Hk'). replace (Z.of_nat (Z.to_nat (k - 1)) + 1) with k by lia. auto.
  - (* reuse slot i *)
    destruct (Z.ltb_spec 0 (Z.of_nat i + 1)); [|lia].
    replace (Z.to_nat (Z.of_nat i + 1 - 1)) with i by lia.
    assert (Hlt : (i < length (items p))%nat) by (eapply nth_error_lt; eauto).
    rewrite Hi. cbn [obind]. pose proof (chain_nonneg _ _ _ C') as Hn'.
    destruct (Z.ltb_spec (next t) 0); [lia|].
    destruct (upd_total (items p) i (set_next 0 t) Hlt) as [its EU]. rewrite EU. cbn [obind].
    destruct (upd_Some _ _ _ _ EU) as (_ & L & S1 & S2).
    assert (Hfree : m (Z.of_nat i + 1) = None) by (apply D; auto; left; auto).
    destruct (alloc_finish_ok p m i its (next t) B Hfree) as (dbg' & EA & EB).
    eexists _, _. split; [exact EA|]. split; [lia|]. split; [exact Hfree|]. split; [|intros; lia].
    inversion N as [|? ? Hnin N']; subst.
    split; cbn [items first_free].
    + exists fl'. split.
      * apply (chain_ext (items p)); auto. intros j Hj. apply S2. intros ->; contradiction.
      * split; [exact N'|]. rewrite L. intros j Hj. destruct (Nat.eq_dec j i) as [->|Hne].
        -- rewrite mset_eq. split; [contradiction|discriminate].
        -- rewrite mset_ne by lia. rewrite <- D by auto. cbn. split; [auto|intros [E|]; [congruence|auto]].
    + intros id x Hx. destruct (Z.eq_dec id (Z.of_nat i + 1)) as [->|Hne].
      * rewrite mset_eq in Hx. injection Hx as <-. exists i; split; [reflexivity|]. rewrite S1. congruence.
      * rewrite mset_ne in Hx by auto. destruct (M _ _ Hx) as (j & -> & Hj). exists j; split; [reflexivity|].
        rewrite S2; auto. intros ->; lia.
    + intros j Hj Hd. unfold dbit; cbn [debug]. apply EB; auto.
Qed.

Lemma slot_live p m id x : inv p m -> m id = Some x ->
  exists i, id = Z.of_nat i + 1 /\ pool_slot DEBUG p id = Some i /\ nth_error (items p) i = Some x.
Proof.
  intros [_ M B] H. destruct (M _ _ H) as (i & -> & Hi). exists i. split; [reflexivity|]. split; [|exact Hi].
  unfold pool_slot. destruct (Z.ltb_spec 0 (Z.of_nat i + 1)); [|lia].
  replace (Z.to_nat (Z.of_nat i + 1 - 1)) with i by lia.
  assert (E : tracked DEBUG i && negb (dbit p i) = false).
  { unfold tracked. destruct DEBUG eqn:ED; [|reflexivity]. cbn [andb].
    destruct (Nat.ltb_spec i 32) as [H1|]; [|reflexivity]. rewrite (B i H1 eq_refl), H. reflexivity. }
  rewrite E. apply nth_error_lt in Hi. destruct (Nat.ltb_spec i (length (items p))); [reflexivity|lia].
Qed.

Lemma get_ok p m id x : inv p m -> m id = Some x -> pool_get DEBUG p id = Some x.
Proof.
  intros I H. destruct (slot_live p m id x I H) as (i & -> & S & N). unfold pool_get. rewrite S. exact N.
Qed.

Lemma set_ok p m id x y : inv p m -> m id = Some x ->
  exists p', pool_set DEBUG p id y = Some p' /\ inv p' (mset m id (Some y)).
Proof.
  intros I H. destruct (slot_live p m id x I H) as (i & -> & S & N). unfold pool_set. rewrite S. cbn [obind].
  destruct (upd_total (items p) i y (nth_error_lt _ _ _ N)) as [its EU]. rewrite EU. cbn [obind].
  eexists; split; [reflexivity|].
  destruct (upd_Some _ _ _ _ EU) as (Hlt & L & S1 & S2). destruct I as [(fl & C & ND & D) M B].
  assert (Hnin : ~ In i fl) by (rewrite D by auto; congruence).
  split; cbn [items first_free].
  - exists fl. split; [|split; auto].
    + apply (chain_ext (items p)); auto. intros j Hj. apply S2. intros ->; contradiction.
    + rewrite L. intros j Hj. destruct (Nat.eq_dec j i) as [->|Hne].
      * rewrite mset_eq. split; [contradiction|discriminate].
      * rewrite mset_ne by lia. apply D; auto.
  - intros id x' Hx. destruct (Z.eq_dec id (Z.of_nat i + 1)) as [->|Hne].
    + rewrite mset_eq in Hx. injection Hx as <-. exists i; auto.
    + rewrite mset_ne in Hx by auto. destruct (M _ _ Hx) as (j & -> & Hj). exists j; split; [reflexivity|].
      rewrite S2; auto. intros ->; lia.
  - intros j Hj Hd. unfold dbit; cbn [debug]. fold (dbit p j). destruct (Nat.eq_dec j i) as [->|Hne].
    + rewrite mset_eq. rewrite (B i Hj Hd), H. reflexivity.
    + rewrite mset_ne by lia. auto.
Qed.

Lemma free_ok p m id x : inv p m -> m id = Some x ->
  exists p', pool_free set_next dflt DEBUG p id = Some p' /\ inv p' (mset m id None) /\ first_free p' = id.
Proof.
  intros I H. destruct I as [(fl & C & ND & D) M B]. destruct (M _ _ H) as (i & -> & N).
  unfold pool_free. destruct (Z.ltb_spec 0 (Z.of_nat i + 1)); [|lia].
  replace (Z.to_nat (Z.of_nat i + 1 - 1)) with i by lia.
  destruct (upd_total (items p) i (set_next (first_free p) dflt) (nth_error_lt _ _ _ N)) as [its EU]. rewrite EU. cbn [obind].
  destruct (upd_Some _ _ _ _ EU) as (Hlt & L & S1 & S2).
  assert (Hnin : ~ In i fl) by (rewrite D by auto; congruence).
  assert (G : forall dbg', (forall j, (j < 32)%nat -> DEBUG = true -> Z.testbit dbg' (Z.of_nat j) = match mset m (Z.of_nat i + 1) None (Z.of_nat j + 1) with Some _ => true | None => false end) ->
     inv {| items := its; first_free := Z.of_nat i + 1; debug := dbg' |} (mset m (Z.of_nat i + 1) None)).
  { intros dbg' Hdbg. split; cbn [items first_free].
    - exists (i :: fl). split; [|split].
      + apply c_cons with (t := set_next (first_free p) dflt); auto.
        * rewrite (set_set _ _ _ F). apply (set_dflt _ _ _ F).
        * rewrite (get_set _ _ _ F). apply (chain_ext (items p)); auto. intros j Hj. apply S2. intros ->; contradiction.
      + constructor; auto.
      + rewrite L. intros j Hj. destruct (Nat.eq_dec j i) as [->|Hne].
        * rewrite mset_eq. split; [auto|left; auto].
        * rewrite mset_ne by lia. rewrite <- D by auto. cbn. split; [intros [E|]; [congruence|auto]|auto].
    - intros id x' Hx. destruct (Z.eq_dec id (Z.of_nat i + 1)) as [->|Hne]; [rewrite mset_eq in Hx; discriminate|].
      rewrite mset_ne in Hx by auto. destruct (M _ _ Hx) as (j & -> & Hj). exists j; split; [reflexivity|].
      rewrite S2; auto. intros ->; lia.
    - intros j Hj Hd. unfold dbit; cbn [debug]. apply Hdbg; auto. }
  unfold tracked. destruct DEBUG eqn:ED; cbn [andb].
  - destruct (Nat.ltb_spec i 32) as [Hi|Hi].
    + rewrite (B i Hi eq_refl), H. eexists; split; [reflexivity|]. split; [|reflexivity]. apply G.
      intros j Hj _. rewrite testbit_ldiff_pow. destruct (Nat.eqb_spec i j) as [->|Hne]; [rewrite mset_eq; reflexivity|].
      rewrite mset_ne by lia. apply B; auto.
    + eexists; split; [reflexivity|]. split; [|reflexivity]. apply G. intros j Hj _. rewrite mset_ne by lia. apply B; auto.
  - eexists; split; [reflexivity|]. split; [|reflexivity]. apply G. intros; discriminate.
Qed.

Lemma reach_inv p m : reach p m -> inv p m.
Proof.
  induction 1 as [|p m id p' H I E|p m id p' H I Hm E|p m id x p' H I Hm E].
  - apply inv_empty.
  - destruct (alloc_ok p m I) as (id2 & p2 & E2 & _ & _ & I2 & _). rewrite E in E2. injection E2 as <- <-. exact I2.
  - destruct (m id) as [x|] eqn:Ex; [|congruence]. destruct (free_ok p m id x I Ex) as (p2 & E2 & I2 & _).
    rewrite E in E2. injection E2 as <-. exact I2.
  - destruct (m id) as [y|] eqn:Ex; [|congruence]. destruct (set_ok p m id y x I Ex) as (p2 & E2 & I2).
    rewrite E in E2. injection E2 as <-. exact I2.
Qed.

Lemma alloc_first p m id p1 : inv p m -> first_free p = id -> 0 < id ->
  pool_alloc next set_next dflt DEBUG p = Some p1 -> fst p1 = id.
Proof.
  intros I E Hid H. unfold pool_alloc in H. rewrite E in H.
  destruct (Z.ltb_spec id 0); [lia|]. destruct (Z.ltb_spec 0 id); [|lia].
  destruct (nth_error _ _) as [t|]; [|discriminate]. cbn [obind] in H.
  destruct (next t <? 0); [discriminate|]. destruct (upd _ _ _) as [its|]; [|discriminate]. cbn [obind] in H.
  unfold alloc_finish in H. destruct (tracked _ _); [destruct (dbit _ _)|]; try discriminate; injection H as <-; cbn; lia.
Qed.

Lemma pool_history_proof p m : reach p m ->
  (exists id p', pool_alloc next set_next dflt DEBUG p = Some (id, p') /\ 0 < id /\ m id = None /\
     (Z.of_nat (length (items p)) < id -> forall k, 0 < k <= Z.of_nat (length (items p)) -> m k <> None)) /\
  (forall id x, m id = Some x ->
     pool_get DEBUG p id = Some x /\
     (forall y, exists p', pool_set DEBUG p id y = Some p') /\
     (exists p', pool_free set_next dflt DEBUG p id = Some p' /\
        exists p'', pool_alloc next set_next dflt DEBUG p' = Some (id, p'') /\ pool_get DEBUG p'' id = Some dflt)) /\
  (DEBUG = true -> forall id, id <= 32 -> m id = None ->
     pool_get DEBUG p id = None /\ pool_free set_next dflt DEBUG p id = None).
Proof.
  intros R. pose proof (reach_inv p m R) as I. split; [|split].
  - destruct (alloc_ok p m I) as (id & p' & E & P & M & _ & G). exists id, p'. auto.
  - intros id x Hx. split; [eapply get_ok; eauto|]. split.
    + intros y. destruct (set_ok p m id x y I Hx) as (p' & E & _). eauto.
    + destruct (free_ok p m id x I Hx) as (p' & E & I' & Ff). exists p'. split; [exact E|].
      destruct (alloc_ok p' _ I') as (id2 & p2 & E2 & P2 & _ & I2 & _).
      assert (Hpos : 0 < id) by (destruct I as [_ M _]; destruct (M _ _ Hx) as (i & -> & _); lia).
      pose proof (alloc_first p' _ id _ I' Ff Hpos E2) as E3. cbn in E3. subst id2.
      exists p2. split; [exact E2|]. eapply get_ok; eauto. apply mset_eq.
  - intros ED id Hid Hm. destruct I as [_ _ B]. unfold pool_get, pool_slot, pool_free.
    destruct (Z.ltb_spec 0 id); [|auto].
    assert (Hi : (Z.to_nat (id - 1) < 32)%nat) by lia.
    pose proof (B _ Hi ED) as Bi. replace (Z.of_nat (Z.to_nat (id - 1)) + 1) with id in Bi by lia. rewrite Hm in Bi.
    unfold tracked. rewrite ED, Bi. cbn [andb negb]. destruct (Nat.ltb_spec (Z.to_nat (id - 1)) 32); [|lia].
    split; [reflexivity|]. destruct (upd _ _ _); reflexivity.
Qed.
End P.
