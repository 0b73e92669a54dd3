(** The invariant of threads that share vec blocks, first part: references are counted,
    every vec's block is live and holds its value, and a load of the counter that says
    "not shared" is never outdated. *)
From Verif Require Import ArcThreads ArcThreadsBase.
From Coq Require Import List Arith ZArith Bool Lia.
Import ListNotations.
Set Implicit Arguments.
Open Scope nat_scope.

Section Inv.
Context {A : Type} (acq : bool).
Notation st := (st A).
Notation trace := (trace A).
Notation pknows := (@pknows A acq).
Notation dom := (@dom A acq).
Notation PP := (@PP A acq).

Definition hv (b : nat) (x : var) : nat :=
  match v_val x with Some (b', _) => if b' =? b then 1 else 0 | None => 0 end.
Definition hp (b : nat) (p : pc) : nat :=
  match p with Release b' => if b' =? b then 1 else 0 | _ => 0 end.
Definition hf (b : nat) (p : pc) : nat :=
  match p with Freeing b' => if b' =? b then 1 else 0 | _ => 0 end.
(** Number of references to a block, and of threads about to free it. *)
Definition refs (s : st) (b : nat) : nat := sumf (hv b) (vars s) + sumf (hp b) (pcs s).
Definition nfree (s : st) (b : nat) : nat := sumf (hf b) (pcs s).

Inductive hid := HV (v : nat) | HP (t : nat).
Definition ref (s : st) (h : hid) : option (nat * list party) :=
  match h with
  | HV v => match nth_error (vars s) v with
            | Some x => match v_val x with Some (b, _) => Some (b, parties x) | None => None end
            | None => None end
  | HP t => match nth_error (pcs s) t with Some (Release b) => Some (b, [PT t]) | _ => None end
  end.

Definition pc_ok (s : st) (t : nat) (p : pc) : Prop :=
  match p with
  | Copy1 v w b => v <> w /\ exists x y o, nth_error (vars s) v = Some x /\ nth_error (vars s) w = Some y
      /\ reader t x /\ sole t y /\ v_val x = Some (b, o) /\ v_val y = None
  | Copy2 v w b => v <> w /\ exists x y, nth_error (vars s) v = Some x /\ nth_error (vars s) w = Some y
      /\ reader t x /\ sole t y /\ v_val x = Some (b, false) /\ v_val y = None
  | _ => True
  end.

Definition stored (tr : trace) (i b : nat) : Prop :=
  exists e, nth_error tr i = Some e /\ stores (act e) b <> None.

Record inv (s : st) : Prop := {
  i_own : forall v x u i, nth_error (vars s) v = Some x -> v_own x = Transit u i ->
    v_lent x = [] /\ exists e, nth_error (tr s) i = Some e /\ act e = ASend v u;
  i_lend : forall v x l, nth_error (vars s) v = Some x -> In l (v_lent x) ->
    match l with
    | Offered u i => exists e, nth_error (tr s) i = Some e /\ act e = ALend v u
    | Held _ => True
    | Returned u i => exists e, nth_error (tr s) i = Some e /\ who e = u /\ act e = AGive v
    end;
  i_var : forall v x b o, nth_error (vars s) v = Some x -> v_val x = Some (b, o) ->
    exists k, nth_error (blks s) b = Some k /\ k_live k = true
      /\ values (tr s) v = Some (k_val k) /\ (o = true -> k_cnt k = 0%Z);
  i_pc : forall t p, nth_error (pcs s) t = Some p -> pc_ok s t p;
  i_blk : forall b k, nth_error (blks s) b = Some k ->
    if k_live k
    then k_cnt k = (Z.of_nat (refs s b) - 1)%Z
         /\ Z.of_nat (nfree s b) = (if Z.eqb (k_cnt k) (-1) then 1 else 0)%Z
    else refs s b = 0 /\ nfree s b = 0;
  i_fresh : forall b, length (blks s) <= b -> refs s b = 0 /\ nfree s b = 0
    /\ forall i e, nth_error (tr s) i = Some e -> ~ touches (act e) b /\ stores (act e) b = None;
  i_hist : forall b k, nth_error (blks s) b = Some k -> k_live k = true ->
    forall r er, nth_error (tr s) r = Some er -> stores (act er) b = Some 0%Z ->
      (k_cnt k = 0%Z /\ forall r', r < r' -> ~ stored (tr s) r' b)
      \/ (exists r' e v w, r < r' /\ nth_error (tr s) r' = Some e /\ act e = AIncr v w b 1)
      \/ k_cnt k = (-1)%Z;
  i_zero : forall b i e v w, nth_error (tr s) i = Some e -> act e = AIncr v w b 1 ->
    forall h P, ref s h = Some (b, P) ->
      exists p i', In p P /\ i <= i' /\ stored (tr s) i' b /\ pknows (tr s) p i'
}.

(** ** References *)
Lemma hv_val x b o b' : v_val x = Some (b, o) -> hv b' x = if b =? b' then 1 else 0.
Proof. unfold hv. intros ->. auto. Qed.
Lemma hv_none x b' : v_val x = None -> hv b' x = 0.
Proof. unfold hv. intros ->. auto. Qed.
Lemma refs_ge_var s v x b o : nth_error (vars s) v = Some x -> v_val x = Some (b, o) -> 1 <= refs s b.
Proof.
  intros H1 H2. pose proof (sum_ge (hv b) _ _ H1) as G. rewrite (hv_val _ b H2), Nat.eqb_refl in G.
  unfold refs. lia.
Qed.
Lemma refs_ge_pc s t b : nth_error (pcs s) t = Some (Release b) -> 1 <= refs s b.
Proof. intros H. pose proof (sum_ge (hp b) _ _ H) as G. cbn in G. rewrite Nat.eqb_refl in G. unfold refs. lia. Qed.
Lemma ref_ge s h b P : ref s h = Some (b, P) -> 1 <= refs s b.
Proof.
  destruct h as [v|t]; cbn.
  - destruct (nth_error (vars s) v) as [x|] eqn:E; [|discriminate].
    destruct (v_val x) as [[b' o]|] eqn:Q; [|discriminate]. intros H. injection H as -> <-.
    eapply refs_ge_var; eauto.
  - destruct (nth_error (pcs s) t) as [[]|] eqn:E; try discriminate. intros H. injection H as -> <-.
    eapply refs_ge_pc; eauto.
Qed.
Lemma ref_two s h1 h2 b P1 P2 : h1 <> h2 -> ref s h1 = Some (b, P1) -> ref s h2 = Some (b, P2) ->
  2 <= refs s b.
Proof.
  intros N H1 H2.
  assert (V : forall v P, ref s (HV v) = Some (b, P) -> exists x, nth_error (vars s) v = Some x /\ hv b x = 1).
  { intros v P. cbn. destruct (nth_error (vars s) v) as [x|] eqn:E; [|discriminate].
    destruct (v_val x) as [[b' o]|] eqn:Q; [|discriminate]. intros H. injection H as -> _.
    exists x. split; auto. rewrite (hv_val _ b Q), Nat.eqb_refl. auto. }
  assert (T : forall t P, ref s (HP t) = Some (b, P) -> exists p, nth_error (pcs s) t = Some p /\ hp b p = 1).
  { intros t P. cbn. destruct (nth_error (pcs s) t) as [[]|] eqn:E; try discriminate.
    intros H. injection H as -> _. eexists; split; [eauto|]. cbn. rewrite Nat.eqb_refl. auto. }
  unfold refs. destruct h1 as [v1|t1], h2 as [v2|t2].
  - destruct (V _ _ H1) as (x1 & E1 & Q1), (V _ _ H2) as (x2 & E2 & Q2).
    pose proof (sum_ge2 (hv b) (vars s) (fun e => N (f_equal HV e)) E1 E2). lia.
  - destruct (V _ _ H1) as (x1 & E1 & Q1), (T _ _ H2) as (x2 & E2 & Q2).
    pose proof (sum_ge (hv b) _ _ E1). pose proof (sum_ge (hp b) _ _ E2). lia.
  - destruct (T _ _ H1) as (x1 & E1 & Q1), (V _ _ H2) as (x2 & E2 & Q2).
    pose proof (sum_ge (hp b) _ _ E1). pose proof (sum_ge (hv b) _ _ E2). lia.
  - destruct (T _ _ H1) as (x1 & E1 & Q1), (T _ _ H2) as (x2 & E2 & Q2).
    pose proof (sum_ge2 (hp b) (pcs s) (fun e => N (f_equal HP e)) E1 E2). lia.
Qed.
Lemma ref_var s v x b o : nth_error (vars s) v = Some x -> v_val x = Some (b, o) ->
  ref s (HV v) = Some (b, parties x).
Proof. intros H1 H2. cbn. rewrite H1, H2. auto. Qed.
Lemma ref_pc s t b : nth_error (pcs s) t = Some (Release b) -> ref s (HP t) = Some (b, [PT t]).
Proof. intros H. cbn. rewrite H. auto. Qed.

Lemma ref_live s h b P : inv s -> ref s h = Some (b, P) ->
  exists k, nth_error (blks s) b = Some k /\ k_live k = true
    /\ k_cnt k = (Z.of_nat (refs s b) - 1)%Z /\ nfree s b = 0.
Proof.
  intros I H. pose proof (ref_ge _ _ H) as G.
  destruct (nth_error (blks s) b) as [k|] eqn:E.
  - exists k. split; auto. pose proof (i_blk I b E) as B. destruct (k_live k); [|lia].
    destruct B as [B1 B2]. split; auto. split; auto.
    destruct (Z.eqb_spec (k_cnt k) (-1)); lia.
  - apply nth_error_None in E. destruct (i_fresh I E) as (R & _). lia.
Qed.
(** If the counter is 0 there is only one reference. *)
Lemma ref_only s h1 h2 b P1 P2 k : inv s -> ref s h1 = Some (b, P1) -> ref s h2 = Some (b, P2) ->
  nth_error (blks s) b = Some k -> k_cnt k = 0%Z -> h1 = h2 /\ P1 = P2.
Proof.
  intros I H1 H2 E Z. destruct (ref_live h1 I H1) as (k' & E' & L & C & F).
  assert (k' = k) by congruence. subst k'.
  assert (D : h1 = h2 \/ h1 <> h2) by (destruct h1 as [a|a], h2 as [c|c]; destruct (Nat.eq_dec a c); try (left; congruence); right; congruence).
  destruct D as [->|N]; [split; [auto|congruence]|].
  pose proof (ref_two s N H1 H2). lia.
Qed.

(** ** The load that says "not shared" is up to date *)
Lemma check_last s t v x b o r er : inv s -> nth_error (vars s) v = Some x -> sole t x ->
  v_val x = Some (b, o) -> nth_error (tr s) r = Some er -> stores (act er) b = Some 0%Z ->
  (forall r' er', r < r' -> nth_error (tr s) r' = Some er' -> stores (act er') b <> None ->
     ~ known acq (tr s) t r') ->
  exists k, nth_error (blks s) b = Some k /\ k_cnt k = 0%Z /\ forall r', r < r' -> ~ stored (tr s) r' b.
Proof.
  intros I Hx Hs Hv Hr Hst Hc.
  destruct (ref_live (HV v) I (ref_var _ _ Hx Hv)) as (k & E & L & C & F).
  exists k. split; auto.
  destruct (i_hist I b E L r Hr Hst) as [H|[(r' & e & v' & w' & Q1 & Q2 & Q3)|H]]; auto.
  - exfalso. destruct (i_zero I r' Q2 Q3 (HV v) (ref_var _ _ Hx Hv)) as (p & i' & P1 & P2 & (e' & P3 & P4) & P5).
    rewrite (sole_parties Hs) in P1. destruct P1 as [<-|[]].
    apply (Hc i' e'); auto. lia.
  - pose proof (refs_ge_var _ _ Hx Hv). lia.
Qed.
End Inv.
