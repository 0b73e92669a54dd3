(** Every step keeps the second part of the invariant; conclusions for reachable states. *)
From Verif Require Import ArcThreads ArcThreadsBase ArcThreadsInv ArcThreadsStep ArcThreadsStep2 ArcThreadsStep3 ArcThreadsRace.
From Coq Require Import List Arith ZArith Bool Lia.
Import ListNotations.
Set Implicit Arguments.
Open Scope nat_scope.

Section Race.
Context {A : Type} (acq : bool).
Notation st := (st A).
Notation trace := (trace A).
Notation pknows := (@pknows A acq).
Notation dom := (@dom A acq).
Notation PP := (@PP A acq).
Notation inv := (@inv A acq).
Notation inv2 := (@inv2 A acq).
Notation step := (@step A acq).
Notation hb := (@hb A acq).
Notation released := (@released A acq).
Notation excused := (@excused A acq).

Lemma released_ext (tr r : trace) i b : released tr i b -> released (tr ++ r) i b.
Proof.
  intros (j & e & c & H1 & H2 & H3). exists j, e, c. split; [apply nth_app; auto|]. split; auto.
  destruct H3; auto. right. apply hb_ext; auto.
Qed.
Lemma excused_ext (tr r : trace) i a1 a2 l : excused tr i a1 a2 l -> excused (tr ++ r) i a1 a2 l.
Proof. destruct l; cbn; auto; intros (Q1 & Q2 & Q3); split; auto; split; auto; apply released_ext; auto. Qed.

Lemma W_pres s s' : inv s -> inv s' -> inv2 s -> step s s' ->
  forall i e b, nth_error (tr s') i = Some e -> writes (act e) b ->
    forall h P p, ref s' h = Some (b, P) -> In p P -> pknows (tr s') p i.
Proof.
  intros I I' J S i e b Hi Hw h P p HR Hp.
  destruct (step_evolves I S) as (t & a & Ht & EV & _).
  pose proof Hi as Hi0. rewrite Ht in Hi. apply nth_snoc_inv in Hi. destruct Hi as [[-> ->]|[LT Hi]].
  - cbn [act] in Hw.
    assert (NOW : pknows (tr s') (PT t) (length (tr s))) by (rewrite Ht; apply known_now).
    destruct (EV _ _ _ HR) as [(h0 & P0 & H1 & H2)|[(-> & _)|(-> & _)]];
      [|destruct Hp as [<-|[]]; auto|destruct Hp as [<-|[]]; auto].
    destruct Hw as [Hw|Hw].
    + destruct (touch_kind _ _ I S Ht b Wr (or_introl Hw)) as [->|[[-> F]|[[Q (v & x & X1 & X2 & X3)]|[Q _]]]].
      * exfalso. exact (fresh_noref h0 I H1).
      * exfalso. apply ref_ge in H1. destruct (freeing_live _ I F) as [_ Z]. lia.
      * destruct (i_var I _ X1 X3) as (k & E & L & V & C).
        destruct (ref_only h0 (HV v) I H1 (ref_var _ _ X1 X3) E (C eq_refl)) as [-> ->].
        (* the written block keeps its only reference *)
        destruct Q as [(v' & f & ->)|(v' & b' & f & ->)].
        -- destruct S; cbn [tr] in Ht; apply log_inj in Ht; destruct Ht as [-> Q]; try discriminate Q.
           assert (HR2 : ref s h = Some (b, P)) by exact HR.
           destruct (ref_only h (HV v) I HR2 (ref_var _ _ X1 X3) E (C eq_refl)) as [_ ->].
           rewrite (sole_parties X2) in Hp. destruct Hp as [<-|[]]. auto.
        -- exfalso. destruct S; cbn [tr] in Ht; apply log_inj in Ht; destruct Ht as [-> Q]; try discriminate Q.
           injection Q as <- <- <- <-.
           assert (LT : b0 < length (blks s)) by (eapply nth_lt; eauto).
           assert (DD : k_live {| k_live := false; k_cnt := k_cnt k0; k_val := k_val k0 |} = true).
           { eapply (dead_noref h I' HR). cbn [blks]. rewrite nth_error_app1 by (rewrite put_len; auto). eapply put_eq; eauto. }
           discriminate.
      * congruence.
    + destruct (touch_kind _ _ I S Ht b Wr (or_intror Hw)) as [->|[[-> F]|[[Q (v & x & X1 & X2 & X3)]|[Q _]]]].
      * exfalso. exact (fresh_noref h0 I H1).
      * exfalso. apply ref_ge in H1. destruct (freeing_live _ I F) as [_ Z]. lia.
      * destruct Q as [(v' & f & ->)|(v' & b' & f & ->)].
        -- cbn in Hw. destruct Hw as [Hw|[Hw|[]]]; discriminate.
        -- exfalso. destruct S; cbn [tr] in Ht; apply log_inj in Ht; destruct Ht as [-> Q]; try discriminate Q.
           injection Q as <- <- <- <-.
           assert (LT : b0 < length (blks s)) by (eapply nth_lt; eauto).
           assert (DD : k_live {| k_live := false; k_cnt := k_cnt k; k_val := k_val k |} = true).
           { eapply (dead_noref h I' HR). cbn [blks]. rewrite nth_error_app1 by (rewrite put_len; auto). eapply put_eq; eauto. }
           discriminate.
      * congruence.
  - destruct (EV _ _ _ HR) as [(h0 & P0 & H1 & H2)|[(-> & (h0 & P0 & H1 & H2) & _)|(-> & -> & F)]].
    + destruct H2 as [H2 _]. destruct (H2 _ Hp) as (p0 & Hp0 & D). apply D. eapply (i_W J); eauto.
    + destruct Hp as [<-|[]]. rewrite Ht. cbn. apply known_ext. apply (i_W J _ Hi Hw h0 _ H1 H2).
    + exfalso. destruct (F _ _ Hi) as [F1 _]. apply F1. apply touches_writes; auto.
Qed.

Lemma R_pres s s' : inv s -> inv s' -> inv2 s -> step s s' ->
  forall i e b k, nth_error (tr s') i = Some e -> touches (act e) b ->
    nth_error (blks s') b = Some k -> k_live k = true ->
    (exists h P p, ref s' h = Some (b, P) /\ In p P /\ pknows (tr s') p i) \/ released (tr s') i b.
Proof.
  intros I I' J S i e b k Hi Hw Hk HL.
  destruct (step_evolves I S) as (t & a & Ht & _ & EV).
  pose proof Hi as Hi0. rewrite Ht in Hi. apply nth_snoc_inv in Hi. destruct Hi as [[-> ->]|[LT Hi]].
  - cbn [act] in Hw. destruct (touch_post _ I S Ht Hw Hk HL) as [(h & P & H1 & H2)|(c & ->)].
    + left. exists h, P, (PT t). split; auto. split; auto. rewrite Ht. apply known_now.
    + right. exists (length (tr s)), {| who := t; act := ADecr b c |}, c. split; auto.
  - assert (LB : b < length (blks s)) by (eapply touched_lt; eauto).
    destruct (live_before I S LB Hk HL) as (k0 & E0 & L0).
    destruct (i_R J _ Hi Hw E0 L0) as [(h & P & p & H1 & H2 & H3)|H].
    + destruct (EV _ _ _ H1) as [(h' & P' & H4 & H5)|[(-> & c & ->)|(v & b' & f & ->)]].
      * left. destruct H5 as [_ H5]. destruct (H5 _ H2) as (p' & Hp' & D). exists h', P', p'. auto.
      * right. destruct H2 as [<-|[]]. exists (length (tr s)), {| who := t; act := ADecr b c |}, c.
        rewrite Ht. split; [apply nth_snoc|]. split; auto. right. apply hb_now. exact H3.
      * exfalso. destruct S; cbn [tr] in Ht; apply log_inj in Ht; destruct Ht as [-> Q]; try discriminate Q.
        injection Q as <- <- <- <-. cbn [blks] in Hk.
        rewrite nth_error_app1 in Hk by (rewrite put_len; auto).
        match goal with H : nth_error (blks s) b0 = Some _ |- _ => rewrite (put_eq _ _ _ H) in Hk end.
        injection Hk as <-. discriminate.
    + right. rewrite Ht. apply released_ext; auto.
Qed.

Lemma F_pres s s' : inv s -> inv s' -> inv2 s -> step s s' ->
  forall t b, nth_error (pcs s') t = Some (Freeing b) ->
    forall i e, nth_error (tr s') i = Some e -> touches (act e) b -> known acq (tr s') t i.
Proof.
  intros I I' J S u b Hu i e Hi Hw.
  destruct (step_tr S) as (t & a & Ht).
  assert (OLD : nth_error (pcs s) u = Some (Freeing b) -> known acq (tr s') u i).
  { intros Hu0. rewrite Ht in Hi. apply nth_snoc_inv in Hi. destruct Hi as [[-> ->]|[LT Hi]].
    - exfalso. cbn [act] in Hw. destruct Hw as (kk & Hw).
      destruct (freeing_live _ I Hu0) as [(k & E & L) Z].
      destruct (touch_kind _ _ I S Ht b kk Hw) as [->|[[-> F]|[[Q (v & x & X1 & X2 & X3)]|[Q (h & P & H1 & _)]]]].
      + apply nth_lt in E. unfold fresh in E. lia.
      + assert (u = t).
        { destruct (Nat.eq_dec u t) as [|N]; auto. exfalso.
          pose proof (sum_ge2 (hf b) (pcs s) N Hu0 F) as G. cbn in G. rewrite Nat.eqb_refl in G. fold (nfree s b) in G.
          pose proof (i_blk I b E) as B. rewrite L in B. destruct B as [_ B]. destruct (_ =? _)%Z; lia. }
        subst u. destruct S; cbn [tr] in Ht; apply log_inj in Ht; destruct Ht as [-> Q]; try discriminate Q.
        cbn [pcs] in Hu. rewrite (put_eq _ _ _ H) in Hu. discriminate.
      + pose proof (refs_ge_var _ _ X1 X3). lia.
      + apply ref_ge in H1. lia.
    - rewrite Ht. apply known_ext. eapply (i_F J); eauto. }
  destruct S; cbn [pcs tr] in *; auto;
    try (apply put_inv in Hu; destruct Hu as [(-> & Q & _)|(_ & Hu)]; [discriminate|auto]; fail).
  apply put_inv in Hu. destruct Hu as [(-> & Q & _)|(_ & Hu)]; [|auto].
  destruct (Z.eqb_spec (k_cnt k) 0) as [C|C]; [|discriminate]. injection Q as ->.
  apply nth_snoc_inv in Hi. destruct Hi as [[-> ->]|[LT Hi]]; [apply known_now|].
  destruct (ref_live (HP t0) I (ref_pc _ _ H)) as (k' & E' & L' & C' & F'). assert (k' = k) by congruence. subst k'.
  destruct (i_R J _ Hi Hw E' L') as [(h & P & p & H1 & H2 & H3)|(j & ej & c & H1 & H2 & H3)].
  - destruct (ref_only h (HP t0) I H1 (ref_pc _ _ H) E' C) as [-> ->]. destruct H2 as [<-|[]].
    apply known_ext. exact H3.
  - apply known_hb. eapply hb_sync; eauto. unfold syncs. rewrite H2. cbn. auto.
Qed.

Lemma O_pres s s' : inv s -> inv s' -> inv2 s -> step s s' ->
  acq = true -> forall v x b, nth_error (vars s') v = Some x -> v_val x = Some (b, true) ->
    forall i e, nth_error (tr s') i = Some e -> touches (act e) b ->
      exists p, In p (parties x) /\ pknows (tr s') p i.
Proof.
  intros I I' J S AQ v x b Hx Hv i e Hi Hw.
  destruct (step_tr S) as (t & a & Ht).
  destruct (i_var I' _ Hx Hv) as (k & E & L & V & C). specialize (C eq_refl).
  pose proof Hi as Hi0. rewrite Ht in Hi. apply nth_snoc_inv in Hi. destruct Hi as [[-> ->]|[LT Hi]].
  - cbn [act] in Hw. destruct (touch_post _ I S Ht Hw E L) as [(h & P & H1 & H2)|(c & ->)].
    + destruct (ref_only h (HV v) I' H1 (ref_var _ _ Hx Hv) E C) as [-> ->].
      exists (PT t). split; auto. rewrite Ht. apply known_now.
    + exfalso. destruct S; cbn [tr] in Ht; apply log_inj in Ht; destruct Ht as [-> Q]; try discriminate Q.
      injection Q as <- <-. cbn [vars] in Hx.
      destruct (i_var I _ Hx Hv) as (k1 & E1 & _ & _ & C1).
      destruct (ref_only (HV v) (HP t) I (ref_var _ _ Hx Hv) (ref_pc _ _ H) E1 (C1 eq_refl)) as [Z _]. discriminate.
  - destruct (own_origin _ _ I S Ht _ Hx Hv) as [(v0 & x0 & X1 & X2 & X3)|[[-> _]|(r & -> & P1 & (o & x0 & X1 & X2 & X3) & (k1 & K1 & K2) & LST)]].
    + destruct (i_O J AQ _ X1 X2 _ Hi Hw) as (p & Hp & Kp). destruct (X3 _ Hp) as (p' & Hp' & D). exists p'. auto.
    + exfalso. apply (fresh_untouched _ I Hi). assumption.
    + rewrite P1. exists (PT t). split; [left; auto|]. rewrite Ht. cbn [pknows].
      destruct (ref_live (HV v) I (ref_var _ _ X1 X2)) as (k2 & E2 & L2 & _). assert (k2 = k1) by congruence. subst k2.
      destruct (i_R J _ Hi Hw E2 L2) as [(h & P & p & H1 & H2 & H3)|(j & ej & c & H1 & H2 & H3)].
      * destruct (ref_only h (HV v) I H1 (ref_var _ _ X1 X2) E2 K2) as [-> ->]. rewrite X3 in H2.
        destruct H2 as [<-|[]]. apply known_ext. exact H3.
      * apply known_hb. eapply hb_sync; eauto. unfold syncs. rewrite H2. cbn. split; auto. split; auto.
        destruct (Nat.le_gt_cases j r) as [|G]; auto. exfalso. apply (LST j); auto.
        exists ej. split; auto. rewrite H2. cbn. rewrite Nat.eqb_refl. discriminate.
Qed.

Lemma race_new s s' t a : inv s -> inv2 s -> step s s' -> tr s' = log s t a ->
  forall i e l, nth_error (tr s) i = Some e -> conflict (act e) a l ->
    hb (tr s') i (length (tr s)) \/ excused (tr s') i (act e) a l.
Proof.
  intros I J S Ht i e l Hi (k1 & k2 & C1 & C2 & CL).
  assert (KN : known acq (tr s) t i -> hb (tr s') i (length (tr s)) \/ excused (tr s') i (act e) a l).
  { intros K. left. rewrite Ht. apply hb_now. auto. }
  assert (BLK : forall b, (l = LData b \/ l = LCount b) -> hb (tr s') i (length (tr s)) \/ excused (tr s') i (act e) a l).
  { intros b Hl.
    assert (T1 : touches (act e) b) by (exists k1; destruct Hl as [->| ->]; auto).
    assert (C2' : In (LData b, k2) (acc a) \/ In (LCount b, k2) (acc a)) by (destruct Hl as [->| ->]; auto).
    destruct (touch_kind _ _ I S Ht b k2 C2') as [->|[[-> F]|[[Q (v & x & X1 & X2 & X3)]|[Q (h & P & H1 & H2)]]]].
    - exfalso. apply (fresh_untouched _ I Hi). assumption.
    - apply KN. eapply (i_F J); eauto.
    - destruct (i_var I _ X1 X3) as (k & E & L & V & C). specialize (C eq_refl).
      assert (PX : parties x = [PT t]) by (apply sole_parties; auto).
      destruct (i_R J _ Hi T1 E L) as [(h & P & p & H1 & H2 & H3)|R].
      + destruct (ref_only h (HV v) I H1 (ref_var _ _ X1 X3) E C) as [-> ->]. rewrite PX in H2. destruct H2 as [<-|[]]. auto.
      + assert (AQ : acq = true \/ acq = false) by (destruct acq; auto). destruct AQ as [AQ|AQ].
        * destruct (i_O J AQ _ X1 X3 _ Hi T1) as (p & Hp & Kp). rewrite PX in Hp. destruct Hp as [<-|[]]. apply KN. exact Kp.
        * right. assert (R' : released (tr s') i b) by (rewrite Ht; apply released_ext; auto).
          destruct Hl as [->| ->]; cbn; auto.
    - assert (W : writes (act e) b).
      { assert (K : k1 = Wr).
        { destruct k1, k2; auto; try (destruct CL; fail); try congruence; exfalso;
          destruct Hl as [->| ->]; destruct (act e), a; cbn in C1, C2; 
          repeat match goal with
          | H : False |- _ => destruct H
          | H : _ \/ _ |- _ => destruct H
          | H : (_, _) = (_, _) |- _ => first [discriminate H | injection H; intros; subst; clear H]
          | H : LData _ = LCount _ |- _ => discriminate H
          | H : (if ?c then _ else _) = _ |- _ => destruct c; discriminate H
          end. }
        subst k1. destruct Hl as [->| ->]; [left|right]; auto. }
      apply KN. apply (i_W J _ Hi W h _ H1 H2). }
  destruct l as [b|b|v]; [eapply BLK; eauto|eapply BLK; eauto|].
  assert (MD : forall a0 : action A, ismark a0 v \/ ~ ismark a0 v).
  { intros a0. destruct a0; try (right; intros (bb & Q); discriminate).
    destruct (Nat.eq_dec v0 v) as [->|D]; [left; exists b; auto|right; intros (bb & Q); congruence]. }
  destruct (nth_error (vars s) v) as [x|] eqn:E.
  - destruct (word_pre _ _ I S Ht _ _ C2 E) as (N & P1 & P2).
    destruct k2; [| |congruence].
    + (* read *)
      destruct k1; [destruct CL| |].
      * destruct (MD (act e)) as [D|D]; [right; left; auto|].
        apply KN. exact (i_wordw J _ E Hi C1 D P1).
      * exfalso. destruct (act e); cbn in C1;
          repeat match goal with
          | H : False |- _ => destruct H
          | H : _ \/ _ |- _ => destruct H
          | H : (_, _) = (_, _) |- _ => first [discriminate H | injection H; intros; subst; clear H]
          | H : (if ?c then _ else _) = _ |- _ => destruct c; discriminate H
          end.
    + (* write *)
      destruct (MD a) as [D|D]; [right; right; auto|].
      apply KN. destruct (i_word J _ _ k1 E Hi C1) as (p & Hp & Kp). rewrite (P2 eq_refl D) in Hp. destruct Hp as [<-|[]]. exact Kp.
  - exfalso. clear - S Ht C2 E I.
    destruct S; cbn [tr] in Ht; apply log_inj in Ht; destruct Ht as [-> <-]; cbn [acc] in C2;
      repeat match goal with
      | H : In _ (_ :: _) |- _ => destruct H as [H|H]
      | H : In _ [] |- _ => destruct H
      | H : (_, _) = (_, _) |- _ => first [discriminate H | injection H; intros; subst; clear H]
      end; try congruence.
Qed.

Theorem inv2_step s s' : inv s -> inv2 s -> step s s' -> inv2 s'.
Proof.
  intros I J S. pose proof (inv_step I S) as I'. destruct (step_tr S) as (t & a & Ht).
  constructor.
  - exact (W_pres I I' J S).
  - exact (R_pres I I' J S).
  - exact (F_pres I I' J S).
  - exact (O_pres I I' J S).
  - (* no use after free *)
    intros i j ea eb b LT Hi HF Hj HT.
    rewrite Ht in Hi, Hj. apply nth_snoc_inv in Hj. destruct Hj as [[-> ->]|[LJ Hj]].
    + apply nth_snoc_inv in Hi. destruct Hi as [[-> _]|[LI Hi]]; [unfold log in *; lia|].
      destruct (i_gone J _ _ Hi HF) as (k & E & D).
      cbn [act] in HT. destruct HT as (kk & HT).
      destruct (touch_kind _ _ I S Ht b kk HT) as [->|[[-> F]|[[Q (v & x & X1 & X2 & X3)]|[Q (h & P & H1 & H2)]]]].
      * apply nth_lt in E. unfold fresh in E. lia.
      * destruct (freeing_live _ I F) as [(k' & E' & L') _]. congruence.
      * destruct (i_var I _ X1 X3) as (k' & E' & L' & _). congruence.
      * destruct (ref_live h I H1) as (k' & E' & L' & _). congruence.
    + apply nth_snoc_inv in Hi. destruct Hi as [[-> _]|[LI Hi]]; [unfold log in *; lia|].
      pose proof (i_dead J) as DD. exact (DD i j ea eb b LT Hi HF Hj HT).
  - intros i e b Hi HF. rewrite Ht in Hi. apply nth_snoc_inv in Hi. destruct Hi as [[-> ->]|[LI Hi]].
    + destruct S; cbn [tr] in Ht; apply log_inj in Ht; destruct Ht as [-> <-]; try (destruct HF; fail); cbn in HF; subst.
      * cbn [blks]. eexists. split; [eapply put_eq; eauto|auto].
      * cbn [blks]. eexists. split; [apply nth_app; eapply put_eq; eauto|auto].
    + destruct (i_gone J _ _ Hi HF) as (k & E & D). eapply dead_stays; eauto.
  - intros v x i e k Hx Hi Hin. pose proof Hi as Hi0. rewrite Ht in Hi. apply nth_snoc_inv in Hi.
    destruct Hi as [[-> ->]|[LI Hi]].
    + destruct (word_post _ _ I S Ht _ _ Hin Hx) as [Q _]. exists (PT t). split; auto. rewrite Ht. apply known_now.
    + destruct (step_parties I S _ Hx) as (x0 & E & [_ D]).
      destruct (i_word J _ _ k E Hi Hin) as (p & Hp & Kp). destruct (D _ Hp) as (p' & Hp' & D'). exists p'. auto.
  - intros v x i e Hx Hi Hin NM p Hp. pose proof Hi as Hi0. rewrite Ht in Hi. apply nth_snoc_inv in Hi.
    destruct Hi as [[-> ->]|[LI Hi]].
    + destruct (word_post _ _ I S Ht _ _ Hin Hx) as [_ Q]. rewrite (Q eq_refl NM) in Hp. destruct Hp as [<-|[]].
      rewrite Ht. apply known_now.
    + destruct (step_parties I S _ Hx) as (x0 & E & [D _]). destruct (D _ Hp) as (p0 & Hp0 & D0).
      apply D0. pose proof (i_wordw J) as DD. exact (DD v x0 i e E Hi Hin NM p0 Hp0).
  - intros i j ea eb l LT Hi Hj CF. rewrite Ht in Hi, Hj. apply nth_snoc_inv in Hj. destruct Hj as [[-> ->]|[LJ Hj]].
    + apply nth_snoc_inv in Hi. destruct Hi as [[-> _]|[LI Hi]]; [lia|].
      eapply race_new; eauto.
    + apply nth_snoc_inv in Hi. destruct Hi as [[-> _]|[LI Hi]]; [lia|].
      rewrite Ht. destruct (i_race J LT Hi Hj CF) as [H|H]; [left; apply hb_ext; auto|right; apply excused_ext; auto].
  - intros i e v b x Hi Ha. rewrite Ht in Hi |- *. apply nth_snoc_inv in Hi. destruct Hi as [[-> ->]|[LI Hi]].
    + cbn [act] in Ha. subst a. unfold log. rewrite firstn_app, Nat.sub_diag, firstn_all. cbn. rewrite app_nil_r.
      destruct S; cbn [tr] in Ht; apply log_inj in Ht; destruct Ht as [-> Q]; try discriminate Q.
      injection Q as <- <- <-. destruct (i_var I _ H0 H2) as (k' & E & _ & V & _). congruence.
    + unfold log. rewrite firstn_app. replace (i - length (tr s)) with 0 by lia. cbn. rewrite app_nil_r.
      pose proof (i_reads J) as DD. exact (DD i e v b x Hi Ha).
Qed.

Theorem inv2_start owners n : inv2 (start owners n).
Proof.
  constructor; cbn; intros;
    repeat match goal with H : nth_error [] ?i = Some _ |- _ => destruct i; discriminate H end.
Qed.

Theorem reach_inv owners n s : reach acq owners n s -> inv s /\ inv2 s.
Proof.
  induction 1 as [|s s' R [I J] S].
  - split; [apply inv_start|apply inv2_start].
  - split; [eapply inv_step; eauto|eapply inv2_step; eauto].
Qed.
End Race.
