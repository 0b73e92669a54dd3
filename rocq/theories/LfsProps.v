(** C10: the lock-free task stack (include/lockfree/stack.hpp). *)
From Verif Require Import WordsLemmas CommonLemmas LfsSpec LfsProofs.
Open Scope Z_scope.

(** Any number of threads pushing chains and popping, in any interleaving, while the clients overwrite the nodes
    they hold as they please: the calls and returns are those of an atomic stack, the nodes linked from head are
    that stack's contents, and every node is in exactly one place: with the clients, once in the stack, or in the
    hands of one operation. *)
Theorem lock_free_stack_is_atomic : forall a, 0 <= a < 48 -> forall H mem es s,
  run a (start H mem) es s ->
  exists st, atomic_run empty_stack es st /\
    untag a (head s) = hd0 (contents st) /\ linked (next s) (contents st) 0 /\ NoDup (contents st) /\
    (forall n, H n = true -> exists! p, located s (contents st) n p) /\
    (forall n p, located s (contents st) n p -> H n = true).
Proof.
  intros a Ha H mem es s R. destruct (run_inv a Ha H mem es s R) as (l & o & pl & [Ih Iok Ilk Ind Ipl Iall Ipc] & A).
  exists (abs l o). split; [exact A|]. cbn [contents abs]. split; [rewrite Ih; apply untag_enc; [exact Ha|apply hd0_ptr; assumption]|].
  split; [exact Ilk|]. split; [exact Ind|]. split.
  - intros n Hn. apply Iall in Hn. destruct (pl n) as [p|] eqn:E; [|congruence]. exists p. split; [apply Ipl; exact E|].
    intros q Q. apply Ipl in Q. congruence.
  - intros n p L. apply Iall. apply Ipl in L. congruence.
Qed.
Print Assumptions lock_free_stack_is_atomic.

(** Lock freedom: an exchange that fails because head changed means some operation succeeded since this
    one read head. *)
Theorem failed_exchange_means_progress : forall a, 0 <= a < 48 -> forall H mem es s t,
  run a (start H mem) es s ->
  (forall chain s0 v, pcs s t = PushCas chain s0 v -> head s <> s0 -> (v < updates s)%nat) /\
  (forall s0 s1 v, pcs s t = PopCas s0 s1 v -> head s <> s0 -> (v < updates s)%nat).
Proof.
  intros a Ha H mem es s t R. destruct (run_inv a Ha H mem es s R) as (l & o & pl & I & _). pose proof (i_pc _ _ _ _ _ _ I t) as P.
  split.
  - intros chain s0 v E N. rewrite E in P. destruct (o t); cbn in P; try contradiction. destruct P as (_ & _ & L & Q & _).
    destruct (Nat.eq_dec v (updates s)) as [->|]; [|lia]. exfalso. apply N. symmetry. auto.
  - intros s0 s1 v E N. rewrite E in P. destruct (o t); cbn in P; try contradiction. destruct P as (_ & (L & Q & _) & _).
    destruct (Nat.eq_dec v (updates s)) as [->|]; [|lia]. exfalso. apply N. symmetry. auto.
Qed.
Print Assumptions failed_exchange_means_progress.

(** The assertions of push (stack.hpp:40, 77) hold whenever push reaches them. *)
Local Lemma assert_is a n : 0 <= a < 48 -> node_ok a n -> tag_assert a n = true.
Proof.
  intros Ha [B M]. unfold tag_assert. apply Z.eqb_eq. apply Z.bits_inj'. intros k Hk. rewrite Z.bits_0, Z.land_spec.
  destruct (Z.lt_ge_cases k 48) as [K|K]; [|rewrite (word_testbit_high 48 n) by (try lia; unfold word; lia); reflexivity].
  rewrite Z.lxor_spec. replace (Z.testbit (2 ^ 64 - 1) k) with true.
  2:{ symmetry. change (2 ^ 64 - 1) with (Z.ones 64). apply Z.ones_spec_low. lia. }
  unfold PTR_4x. rewrite Z.land_spec. change PTR_48 with (Z.ones 48). rewrite Z.ones_spec_low by lia. cbn [andb].
  rewrite Z.lxor_spec. replace (Z.testbit (2 ^ 64 - 1) k) with true.
  2:{ symmetry. change (2 ^ 64 - 1) with (Z.ones 64). apply Z.ones_spec_low. lia. }
  assert (E : wsub 64 (wshl 64 1 a) 1 = Z.ones a).
  { unfold wsub, wshl. rewrite Z.shiftl_1_l. assert (0 < 2 ^ a < 2 ^ 64) by (split; [apply Z.pow_pos_nonneg; lia|apply Z.pow_lt_mono_r; lia]).
    rewrite (wrap_small 64 (2 ^ a)) by (unfold word; lia). rewrite wrap_small by (unfold word; lia). rewrite Z.ones_equiv. lia. }
  rewrite E. destruct (Z.lt_ge_cases k a) as [Q|Q].
  - replace (Z.testbit n k) with false; [reflexivity|]. rewrite <- (Z.mod_pow2_bits_low n a k) by lia. rewrite M. symmetry. apply Z.bits_0.
  - rewrite Z.ones_spec_high by lia. apply andb_false_r.
Qed.
Theorem push_assertions_hold : forall a, 0 <= a < 48 -> forall H mem es s t chain s0 v,
  run a (start H mem) es s -> pcs s t = PushCas chain s0 v ->
  tag_assert a (hd0 chain) = true /\ untag a (tag a (hd0 chain) (tagof a s0)) = hd0 chain.
Proof.
  intros a Ha H mem es s t chain s0 v R E. destruct (run_inv a Ha H mem es s R) as (l & o & pl & I & _). pose proof (i_pc _ _ _ _ _ _ I t) as P.
  rewrite E in P. destruct (o t); cbn in P; try contradiction. destruct P as (_ & (C1 & _ & C3 & _) & (_ & _ & (p & Pp & ->))).
  assert (N : node_ok a (hd0 chain)) by (destruct C3; [congruence|assumption]).
  split; [apply assert_is; assumption|]. rewrite tagof_enc, tag_enc by (try assumption; apply node_ptr; assumption). apply untag_enc; [assumption|apply node_ptr; assumption].
Qed.
Print Assumptions push_assertions_hold.

(** ** What does not hold *)
Local Ltac sf := cbn [pcs head next held updates]; apply setf_eq.
(** Building executions: one whole push or pop by one thread, the others standing still. *)
Definition room (a : Z) (s : state) : Prop :=
  forall t s0 s1 v, pcs s t = PopCas s0 s1 v -> Z.of_nat (updates s) - Z.of_nat v < 2 ^ (16 + a) - 1.
Local Lemma room_fresh a s t p : room a s -> (forall s0 s1 v, p = PopCas s0 s1 v -> v = updates s) -> 0 <= a ->
  forall hd nx he, fresh a {| head := hd; next := nx; held := he; pcs := setf (pcs s) t p; updates := updates s |}.
Proof.
  intros R Q Ha hd nx he u s0 s1 v. cbn [pcs updates]. destruct (Nat.eq_dec u t) as [->|N]; [rewrite setf_eq|rewrite setf_ne by exact N].
  - intros E. rewrite (Q _ _ _ E). rewrite Z.sub_diag. apply Z.pow_pos_nonneg; lia.
  - intros E. specialize (R _ _ _ _ E). lia.
Qed.
Local Lemma setf_setf {A} (f : nat -> A) t x y u : setf (setf f t x) t y u = setf f t y u.
Proof. unfold setf. destruct (Nat.eqb u t); reflexivity. Qed.
Local Lemma do_push a s0 es s t n : 0 <= a < 48 -> run a s0 es s -> room a s -> pcs s t = Idle -> held s n = true -> node_ok a n ->
  exists es' s', run a s0 es' s' /\ head s' = tag a n (tagof a (head s)) /\ updates s' = S (updates s) /\
    (forall m, next s' m = if m =? n then untag a (head s) else next s m) /\
    (forall m, held s' m = if m =? n then false else held s m) /\ pcs s' t = Idle /\ (forall u, u <> t -> pcs s' u = pcs s u).
Proof.
  intros Ha R Ro P Hd Ok.
  assert (Fr : fresh a s) by (intros u x y v E; specialize (Ro _ _ _ _ E); lia).
  eapply run_ev in R; [|exact Fr|apply (call_push a s t [n] (next s n)); [exact P|discriminate|constructor; [intros []|constructor]|intros m [<-|[]]; auto|reflexivity]].
  eapply run_tau in R; [|apply room_fresh; [exact Ro|discriminate|lia]|apply (push_load a _ t [n]); sf].
  cbn [head next held pcs updates] in R.
  eapply run_tau in R; [|intros u x y v; cbn [pcs updates]; rewrite setf_setf; revert u x y v; apply (room_fresh a s t (PushStore [n] (head s) (updates s)) Ro ltac:(discriminate) ltac:(lia) 0 (next s) (held s))|eapply (push_store a _ t [n]); sf].
  cbn [head next held pcs updates] in R.
  eapply run_tau in R; [|intros u x y v; cbn [pcs updates]; rewrite !setf_setf; revert u x y v; apply (room_fresh a s t (PushCas [n] (head s) (updates s)) Ro ltac:(discriminate) ltac:(lia) 0 (next s) (held s))|eapply (push_cas_ok a _ t [n]); cbn [pcs head next held updates]; [apply setf_eq|reflexivity]].
  cbn [head next held pcs updates] in R.
  eapply run_ev in R; [| |eapply (ret_push a _ t); sf].
  2:{ intros u x y v. cbn [pcs updates]. destruct (Nat.eq_dec u t) as [->|N]; [rewrite setf_eq; discriminate|]. rewrite !setf_ne by exact N. intros E. specialize (Ro _ _ _ _ E). lia. }
  do 2 eexists. split; [exact R|]. cbn. split; [reflexivity|]. split; [reflexivity|]. split; [|split; [|split]].
  - intros m. reflexivity.
  - intros m. unfold give_away. destruct (in_dec Z.eq_dec m [n]) as [[<-|[]]|N]; [rewrite Z.eqb_refl; reflexivity|]. destruct (Z.eqb_spec m n) as [->|]; [|reflexivity]. exfalso. apply N. left. reflexivity.
  - apply setf_eq.
  - intros u N. rewrite !setf_ne by exact N. reflexivity.
Qed.
Local Lemma do_pop a s0 es s t n : 0 <= a < 48 -> run a s0 es s -> room a s -> pcs s t = Idle -> untag a (head s) = n -> n <> 0 ->
  exists es' s', run a s0 es' s' /\ head s' = tag a (next s n) (tagof a (head s)) /\ updates s' = S (updates s) /\
    (forall m, next s' m = next s m) /\
    (forall m, held s' m = if m =? n then true else held s m) /\ pcs s' t = Idle /\ (forall u, u <> t -> pcs s' u = pcs s u).
Proof.
  intros Ha R Ro P Un Nz.
  assert (Fr : fresh a s) by (intros u x y v E; specialize (Ro _ _ _ _ E); lia).
  eapply run_ev in R; [|exact Fr|apply (call_pop a s t); exact P].
  eapply run_tau in R; [|apply room_fresh; [exact Ro|discriminate|lia]|apply (pop_load a _ t); sf].
  cbn [head next held pcs updates] in R.
  eapply run_tau in R; [|intros u x y v; cbn [pcs updates]; rewrite setf_setf; revert u x y v; apply (room_fresh a s t (PopNode (head s) (updates s)) Ro ltac:(discriminate) ltac:(lia) 0 (next s) (held s))|eapply (pop_next a _ t); cbn [pcs head next held updates]; [apply setf_eq|congruence]].
  cbn [head next held pcs updates] in R. rewrite Un in R.
  eapply run_tau in R; [|intros u x y v; cbn [pcs updates]; rewrite !setf_setf; revert u x y v;
      apply (room_fresh a s t (PopCas (head s) (tag a (next s n) (tagof a (head s))) (updates s)) Ro ltac:(intros ? ? ? E; injection E; auto) ltac:(lia) 0 (next s) (held s))|eapply (pop_cas_ok a _ t); cbn [pcs head next held updates]; [apply setf_eq|reflexivity]].
  cbn [head next held pcs updates] in R. rewrite Un in R.
  eapply run_ev in R; [| |eapply (ret_pop a _ t); sf].
  2:{ intros u x y v. cbn [pcs updates]. destruct (Nat.eq_dec u t) as [->|N]; [rewrite setf_eq; discriminate|]. rewrite !setf_ne by exact N. intros E. specialize (Ro _ _ _ _ E). lia. }
  do 2 eexists. split; [exact R|]. cbn. split; [reflexivity|]. split; [reflexivity|]. split; [|split; [|split]].
  - intros m. reflexivity.
  - intros m. destruct (Z.eqb_spec n 0); [congruence|]. reflexivity.
  - apply setf_eq.
  - intros u N. rewrite !setf_ne by exact N. reflexivity.
Qed.
Local Lemma no_pop_room a s : 0 <= a -> (forall t, pcs s t = Idle \/ exists x v, pcs s t = PopNode x v) -> room a s.
Proof. intros Ha H t s0 s1 v E. destruct (H t) as [Q|(x & w & Q)]; congruence. Qed.

(** Debug builds: pop's assertion (stack.hpp:40 through 99) can fail.  A slow pop reads the next field of a node
    that was popped meanwhile and whose memory its owner reuses. *)
Theorem pop_assertion_refuted : exists H mem es s t s0 v,
  run 3 (start H mem) es s /\ pcs s t = PopNode s0 v /\ untag 3 s0 <> 0 /\ tag_assert 3 (next s (untag 3 s0)) = false.
Proof.
  set (st := start (Z.eqb 16) (fun _ => 0)). exists (Z.eqb 16), (fun _ => 0). fold st.
  assert (A3 : 0 <= 3 < 48) by lia. assert (N16 : node_ok 3 16) by (split; [lia|reflexivity]).
  destruct (do_push 3 st [] st 0%nat 16 A3 (run_nil 3 st)) as (e1 & s1 & R1 & Hd1 & U1 & _ & He1 & P1 & Q1); [apply no_pop_room; [lia|]; auto|reflexivity|reflexivity|exact N16|].
  assert (Hd1' : head s1 = enc 3 16 1) by (rewrite Hd1; reflexivity). clear Hd1.
  assert (Id1 : forall t, pcs s1 t = Idle) by (intros t; destruct (Nat.eq_dec t 0) as [->|N]; [exact P1|rewrite Q1 by exact N; reflexivity]).
  pose proof R1 as R.
  eapply run_ev in R; [| |apply (call_pop 3 s1 1%nat); apply Id1].
  2:{ intros u x y v E. rewrite Id1 in E. discriminate. }
  eapply run_tau in R; [| |apply (pop_load 3 _ 1%nat); sf].
  2:{ intros u x y v. cbn. unfold setf. destruct (Nat.eqb u 1); [discriminate|]. rewrite Id1. discriminate. }
  cbn [head next held pcs updates] in R. set (s2 := {| head := head s1; next := next s1; held := held s1; pcs := _; updates := updates s1 |}) in R.
  destruct (do_pop 3 st _ s2 2%nat 16 A3 R) as (e3 & s3 & R3 & _ & _ & _ & He3 & P3 & Q3).
  - apply no_pop_room; [lia|]. intros t. cbn [s2 pcs]. unfold setf. destruct (Nat.eqb t 1); [right; eauto|left; apply Id1].
  - cbn [s2 pcs]. rewrite setf_setf, setf_ne by lia. apply Id1.
  - cbn [s2 head]. rewrite Hd1'. reflexivity.
  - lia.
  - assert (Q1' : pcs s3 1%nat = PopNode (enc 3 16 1) (updates s1)) by (rewrite Q3 by lia; cbn [s2 pcs]; rewrite <- Hd1'; apply setf_eq).
    eapply run_tau in R3; [| |apply (scribble 3 s3 16 7); [rewrite He3; reflexivity|unfold word; lia]].
    2:{ intros u x y v E. exfalso. destruct (Nat.eq_dec u 1) as [->|N1]; [congruence|]. destruct (Nat.eq_dec u 2) as [->|N2]; [congruence|].
        rewrite Q3 in E by exact N2. cbn [s2 pcs] in E. rewrite !setf_ne in E by exact N1. rewrite Id1 in E. discriminate. }
    do 2 eexists. exists 1%nat, (enc 3 16 1), (updates s1). split; [exact R3|]. split; [exact Q1'|]. split; [discriminate|reflexivity].
Qed.
Print Assumptions pop_assertion_refuted.

(** Without the assumption on the tag: a pop asleep during exactly 2^19 updates puts a node that the clients hold
    back into the stack. *)
Local Lemma run_any a s0 es s : run a s0 es s -> any_run a s0 s.
Proof. induction 1; [constructor|econstructor; eauto|econstructor; eauto]. Qed.
Definition mem3 : Z -> Z := fun n => if n =? 16 then 32 else if n =? 32 then 48 else 0.
Local Lemma loop_pairs s0 v1 : forall k es s,
  run 3 s0 es s -> head s = enc 3 16 (updates s) -> next s 16 = 0 -> pcs s 1%nat = PopCas (enc 3 16 v1) (enc 3 32 (S v1)) v1 ->
  (forall u, u <> 1%nat -> pcs s u = Idle) -> held s 32 = true -> (v1 <= updates s)%nat ->
  Z.of_nat (updates s) + 2 * Z.of_nat k - Z.of_nat v1 < 2 ^ 19 ->
  exists es' s', run 3 s0 es' s' /\ head s' = enc 3 16 (updates s') /\ updates s' = (updates s + 2 * k)%nat /\
    pcs s' 1%nat = PopCas (enc 3 16 v1) (enc 3 32 (S v1)) v1 /\ held s' 32 = true /\ next s' 16 = 0 /\ (forall u, u <> 1%nat -> pcs s' u = Idle).
Proof.
  assert (A3 : 0 <= 3 < 48) by lia. assert (P16 : ptr_ok 3 16) by (split; [lia|reflexivity]). pose proof (ptr0 3 A3) as P0.
  induction k as [|k IH]; intros es s R Hd Nx P1 Po He Lv Lt.
  - exists es, s. split; [exact R|]. split; [exact Hd|]. split; [lia|]. auto.
  - assert (Rm : forall s', updates s' = updates s \/ updates s' = S (updates s) -> (forall u, u <> 1%nat -> pcs s' u = Idle) -> pcs s' 1%nat = pcs s 1%nat -> room 3 s').
    { intros s' U I E1 u x y v E. destruct (Nat.eq_dec u 1) as [->|N]; [|rewrite I in E by exact N; discriminate].
      rewrite E1, P1 in E. injection E as _ _ <-. change (2 ^ (16 + 3)) with 524288. change (2 ^ 19) with 524288 in Lt. destruct U as [U|U]; rewrite U; lia. }
    destruct (do_pop 3 s0 es s 2%nat 16 A3 R) as (e1 & s1 & R1 & Hd1 & U1 & Nx1 & He1 & Q1 & O1); [apply Rm; auto|apply Po; lia|rewrite Hd; apply untag_enc; assumption|lia|].
    rewrite Nx, Hd, tagof_enc, tag_enc, <- U1 in Hd1 by assumption.
    assert (I1 : forall u, u <> 1%nat -> pcs s1 u = Idle) by (intros u N; destruct (Nat.eq_dec u 2) as [->|N2]; [exact Q1|rewrite O1 by exact N2; auto]).
    destruct (do_push 3 s0 e1 s1 2%nat 16 A3 R1) as (e2 & s2 & R2 & Hd2 & U2 & Nx2 & He2 & Q2 & O2); [apply Rm; [auto|exact I1|apply O1; lia]|exact Q1|rewrite He1; reflexivity|split; [lia|reflexivity]|].
    rewrite Hd1, tagof_enc, tag_enc, <- U2 in Hd2 by assumption.
    destruct (IH e2 s2) as (e3 & s3 & R3 & Hd3 & U3 & P3 & He3 & Nx3 & Po3); auto.
    + rewrite Nx2. cbn [Z.eqb Pos.eqb]. rewrite Hd1. apply untag_enc; assumption.
    + rewrite O2, O1 by lia. exact P1.
    + intros u N. destruct (Nat.eq_dec u 2) as [->|N2]; [exact Q2|]. rewrite O2 by exact N2. apply I1. exact N.
    + rewrite He2, He1. exact He.
    + lia.
    + lia.
    + exists e3, s3. split; [exact R3|]. split; [exact Hd3|]. split; [lia|]. auto.
Qed.
Theorem aba_without_the_tag_refuted : exists H mem s n,
  any_run 3 (start H mem) s /\ n <> 0 /\ held s n = true /\ untag 3 (head s) = n.
Proof.
  set (Hd0 := fun n => (n =? 16) || (n =? 32) || (n =? 48)). set (st := start Hd0 mem3). exists Hd0, mem3. fold st.
  assert (A3 : 0 <= 3 < 48) by lia. pose proof (ptr0 3 A3) as P0.
  assert (PP : forall n, n = 16 \/ n = 32 \/ n = 48 -> node_ok 3 n) by (intros n [->|[->| ->]]; (split; [lia|reflexivity])).
  assert (PT : forall n, n = 16 \/ n = 32 \/ n = 48 -> ptr_ok 3 n) by (intros n H; apply node_ptr, PP; exact H).
  (* push 48, 32, 16 one by one: the stack is 16, 32, 48 *)
  assert (Rm : forall s, (forall u, pcs s u = Idle) -> room 3 s) by (intros s I u x y v E; rewrite I in E; discriminate).
  destruct (do_push 3 st [] st 0%nat 48 A3 (run_nil 3 st)) as (e1 & s1 & R1 & H1 & U1 & N1 & D1 & I1 & O1); [apply Rm; reflexivity|reflexivity|reflexivity|auto|].
  assert (J1 : forall u, pcs s1 u = Idle) by (intros u; destruct (Nat.eq_dec u 0) as [->|N]; [exact I1|rewrite O1 by exact N; reflexivity]).
  change (head st) with (enc 3 0 0) in H1. rewrite tagof_enc, tag_enc in H1 by auto.
  destruct (do_push 3 st e1 s1 0%nat 32 A3 R1) as (e2 & s2 & R2 & H2 & U2 & N2 & D2 & I2 & O2); [apply Rm; exact J1|apply J1|rewrite D1; reflexivity|auto|].
  assert (J2 : forall u, pcs s2 u = Idle) by (intros u; destruct (Nat.eq_dec u 0) as [->|N]; [exact I2|rewrite O2 by exact N; apply J1]).
  rewrite H1, tagof_enc, tag_enc in H2 by auto.
  destruct (do_push 3 st e2 s2 0%nat 16 A3 R2) as (e3 & s3 & R3 & H3 & U3 & N3 & D3 & I3 & O3); [apply Rm; exact J2|apply J2|rewrite D2, D1; reflexivity|auto|].
  assert (J3 : forall u, pcs s3 u = Idle) by (intros u; destruct (Nat.eq_dec u 0) as [->|N]; [exact I3|rewrite O3 by exact N; apply J2]).
  rewrite H2, tagof_enc, tag_enc in H3 by auto.
  assert (U : updates s3 = 3%nat) by (rewrite U3, U2, U1; reflexivity).
  assert (X16 : next s3 16 = 32) by (rewrite N3; cbn [Z.eqb Pos.eqb]; rewrite H2; apply untag_enc; auto).
  assert (X32 : next s3 32 = 48) by (rewrite N3; cbn [Z.eqb Pos.eqb]; rewrite N2; cbn [Z.eqb Pos.eqb]; rewrite H1; apply untag_enc; auto).
  assert (X48 : next s3 48 = 0) by (rewrite N3; cbn [Z.eqb Pos.eqb]; rewrite N2; cbn [Z.eqb Pos.eqb]; rewrite N1; cbn [Z.eqb Pos.eqb]; apply (untag_enc 3 A3 0 0 P0)).
  (* thread 1 reads head and next, then sleeps *)
  pose proof R3 as R.
  eapply run_ev in R; [|intros u x y v E; rewrite J3 in E; discriminate|apply (call_pop 3 s3 1%nat); apply J3].
  eapply run_tau in R; [|intros u x y v; cbn [pcs]; unfold setf; destruct (Nat.eqb u 1); [discriminate|rewrite J3; discriminate]|apply (pop_load 3 _ 1%nat); sf].
  cbn [head next held pcs updates] in R.
  eapply run_tau in R; [|intros u x y v; cbn [pcs]; unfold setf; destruct (Nat.eqb u 1); [discriminate|rewrite J3; discriminate]|
     eapply (pop_next 3 _ 1%nat); cbn [pcs head next held updates]; [apply setf_eq|rewrite H3, untag_enc by auto; lia]].
  cbn [head next held pcs updates] in R. rewrite H3, untag_enc, X16, tagof_enc, tag_enc in R by auto.
  set (s4 := {| head := enc 3 16 3; next := next s3; held := held s3; pcs := _; updates := updates s3 |}) in R.
  assert (E4 : pcs s4 1%nat = PopCas (enc 3 16 3) (enc 3 32 4) 3) by (cbn [s4 pcs]; rewrite setf_eq, U; reflexivity).
  assert (J4 : forall u, u <> 1%nat -> pcs s4 u = Idle) by (intros u N; cbn [s4 pcs]; rewrite !setf_ne by exact N; apply J3).
  assert (Rm4 : forall s, (updates s <= 10)%nat -> (forall u, u <> 1%nat -> pcs s u = Idle) -> pcs s 1%nat = pcs s4 1%nat -> room 3 s).
  { intros s L I E1 u x y v E. destruct (Nat.eq_dec u 1) as [->|N]; [|rewrite I in E by exact N; discriminate].
    rewrite E1, E4 in E. injection E as _ _ <-. replace (2 ^ (16 + 3)) with 524288 by reflexivity. lia. }
  destruct (do_pop 3 st _ s4 2%nat 16 A3 R) as (e5 & s5 & R5 & H5 & U5 & N5 & D5 & I5 & O5); [apply Rm4; [cbn [s4 updates]; lia|exact J4|reflexivity]|apply J4; lia|cbn [s4 head]; apply untag_enc; auto|lia|].
  cbn [s4 head next] in H5. rewrite X16, tagof_enc, tag_enc in H5 by auto. cbn [s4 updates next held] in U5, N5, D5.
  assert (J5 : forall u, u <> 1%nat -> pcs s5 u = Idle) by (intros u N; destruct (Nat.eq_dec u 2) as [->|M]; [exact I5|rewrite O5 by exact M; auto]).
  destruct (do_pop 3 st _ s5 2%nat 32 A3 R5) as (e6 & s6 & R6 & H6 & U6 & N6 & D6 & I6 & O6); [apply Rm4; [lia|exact J5|apply O5; lia]|exact I5|rewrite H5; apply untag_enc; auto|lia|].
  rewrite N5, X32, H5, tagof_enc, tag_enc in H6 by auto.
  assert (J6 : forall u, u <> 1%nat -> pcs s6 u = Idle) by (intros u N; destruct (Nat.eq_dec u 2) as [->|M]; [exact I6|rewrite O6 by exact M; auto]).
  destruct (do_pop 3 st _ s6 2%nat 48 A3 R6) as (e7 & s7 & R7 & H7 & U7 & N7 & D7 & I7 & O7); [apply Rm4; [lia|exact J6|rewrite O6, O5 by lia; reflexivity]|exact I6|rewrite H6; apply untag_enc; auto|lia|].
  rewrite N6, N5, X48, H6, tagof_enc, tag_enc in H7 by auto.
  assert (J7 : forall u, u <> 1%nat -> pcs s7 u = Idle) by (intros u N; destruct (Nat.eq_dec u 2) as [->|M]; [exact I7|rewrite O7 by exact M; auto]).
  destruct (do_push 3 st _ s7 2%nat 16 A3 R7) as (e8 & s8 & R8 & H8 & U8 & N8 & D8 & I8 & O8); [apply Rm4; [lia|exact J7|rewrite O7, O6, O5 by lia; reflexivity]|exact I7|rewrite D7, D6, D5; reflexivity|auto|].
  rewrite H7, tagof_enc, tag_enc in H8 by auto.
  assert (U8' : updates s8 = 7%nat) by lia.
  destruct (loop_pairs st 3 (Z.to_nat (2 ^ 18 - 3)) e8 s8) as (e9 & s9 & R9 & H9 & U9 & P9 & D9 & X9 & J9).
  - exact R8.
  - rewrite H8, U8'. reflexivity.
  - rewrite N8. cbn [Z.eqb Pos.eqb]. rewrite H7. apply untag_enc; auto.
  - rewrite O8, O7, O6, O5 by lia. exact E4.
  - intros u N. destruct (Nat.eq_dec u 2) as [->|M]; [exact I8|rewrite O8 by exact M; auto].
  - rewrite D8, D7, D6. reflexivity.
  - lia.
  - rewrite U8', Z2Nat.id by lia. lia.
  - assert (Uz : Z.of_nat (updates s9) = 2 ^ 19 + 1) by (rewrite U9, U8', Nat2Z.inj_add, Nat2Z.inj_mul, Z2Nat.id by lia; reflexivity).
    destruct (do_pop 3 st e9 s9 2%nat 16 A3 R9) as (e10 & t0 & R10 & K0 & V0 & M0 & D10 & I10 & O10).
    { intros u x y v E. destruct (Nat.eq_dec u 1) as [->|N]; [|rewrite J9 in E by exact N; discriminate].
      rewrite P9 in E. injection E as _ _ <-. rewrite Uz. reflexivity. }
    { apply J9. lia. } { rewrite H9. apply untag_enc; auto. } { lia. }
    rewrite X9, H9, tagof_enc, tag_enc in K0 by auto.
    apply run_any in R10.
    eapply any_step in R10; [|apply (call_push 3 t0 2%nat [16] (next t0 16)); [exact I10|discriminate|constructor; [intros []|constructor]|intros m [<-|[]]; split; [rewrite D10; reflexivity|auto]|reflexivity]].
    eapply any_step in R10; [|apply (push_load 3 _ 2%nat [16]); sf]. cbn [head next held pcs updates] in R10.
    eapply any_step in R10; [|eapply (push_store 3 _ 2%nat [16]); sf]. cbn [head next held pcs updates] in R10.
    eapply any_step in R10; [|eapply (push_cas_ok 3 _ 2%nat [16]); [sf|reflexivity]]. cbn [head next held pcs updates] in R10.
    assert (Eq : tag 3 (hd0 [16]) (tagof 3 (head t0)) = enc 3 16 3).
    { rewrite K0, tagof_enc by auto. cbn [hd0]. rewrite tag_enc by auto. unfold enc. do 2 f_equal.
      replace (Z.of_nat (S (S (updates s9)))) with (Z.of_nat (updates s9) + 2) by lia. rewrite Uz. reflexivity. }
    eapply any_step in R10; [|eapply (pop_cas_ok 3 _ 1%nat (enc 3 16 3) (enc 3 32 4) 3); cbn [head next held pcs updates]; [rewrite !setf_ne by lia; rewrite O10 by lia; exact P9|exact Eq]].
    cbn [head next held pcs updates] in R10. eexists. exists 32. split; [exact R10|]. cbn [head held]. split; [lia|]. split; [|apply untag_enc; auto].
    unfold give_away. destruct (in_dec Z.eq_dec 32 [16]) as [[C|[]]|_]; [discriminate|]. rewrite D10. exact D9.
Qed.
Print Assumptions aba_without_the_tag_refuted.

(** ** Non-vacuity: two nodes pushed, one popped and returned, through the real word operations. *)
Example lfs_example : exists es s, run 3 (start (fun n => (n =? 16) || (n =? 32)) (fun _ => 0)) es s /\ head s = enc 3 16 3 /\ held s 32 = true /\ held s 16 = false.
Proof.
  set (st := start _ _). assert (A3 : 0 <= 3 < 48) by lia. pose proof (ptr0 3 A3) as P0.
  assert (P1 : node_ok 3 16) by (split; [lia|reflexivity]). assert (P2 : node_ok 3 32) by (split; [lia|reflexivity]).
  assert (Rm : forall s, (forall u, pcs s u = Idle) -> room 3 s) by (intros s I u x y v E; rewrite I in E; discriminate).
  destruct (do_push 3 st [] st 0%nat 16 A3 (run_nil 3 st)) as (e1 & s1 & R1 & H1 & U1 & N1 & D1 & I1 & O1); [apply Rm; reflexivity|reflexivity|reflexivity|auto|].
  assert (J1 : forall u, pcs s1 u = Idle) by (intros u; destruct (Nat.eq_dec u 0) as [->|N]; [exact I1|rewrite O1 by exact N; reflexivity]).
  change (head st) with (enc 3 0 0) in H1. rewrite tagof_enc, tag_enc in H1 by (auto; apply node_ptr; auto).
  destruct (do_push 3 st e1 s1 0%nat 32 A3 R1) as (e2 & s2 & R2 & H2 & U2 & N2 & D2 & I2 & O2); [apply Rm; exact J1|apply J1|rewrite D1; reflexivity|auto|].
  assert (J2 : forall u, pcs s2 u = Idle) by (intros u; destruct (Nat.eq_dec u 0) as [->|N]; [exact I2|rewrite O2 by exact N; apply J1]).
  rewrite H1, tagof_enc, tag_enc in H2 by (auto; apply node_ptr; auto).
  destruct (do_pop 3 st e2 s2 1%nat 32 A3 R2) as (e3 & s3 & R3 & H3 & U3 & N3 & D3 & I3 & O3); [apply Rm; exact J2|apply J2|rewrite H2; apply untag_enc; auto; apply node_ptr; auto|lia|].
  exists e3, s3. split; [exact R3|]. split; [|rewrite !D3, !D2, !D1; split; reflexivity].
  rewrite H3, H2, tagof_enc by (auto; apply node_ptr; auto). rewrite N2. cbn [Z.eqb Pos.eqb]. rewrite H1, untag_enc, tag_enc by (auto; apply node_ptr; auto). reflexivity.
Qed.
