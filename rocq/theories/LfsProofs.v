(** Invariants of the lock-free stack. *)
From Verif Require Import WordsLemmas CommonLemmas LfsSpec.
Open Scope Z_scope.

Section Lfs.
Context (a : Z) (Ha : 0 <= a < 48).

(** ** The tagged word *)
Definition enc (p : Z) (v : nat) : Z := p / 2 ^ a + (Z.of_nat v mod 2 ^ (16 + a)) * 2 ^ (48 - a).
Definition ptr_ok (p : Z) : Prop := 0 <= p < 2 ^ 48 /\ p mod 2 ^ a = 0.

Lemma pow_pos k : 0 <= k -> 0 < 2 ^ k. Proof. intros. apply Z.pow_pos_nonneg; lia. Qed.
Lemma p48 : 2 ^ 48 = 2 ^ a * 2 ^ (48 - a).
Proof. rewrite <- Z.pow_add_r by lia. f_equal. lia. Qed.
Lemma p64 : 2 ^ 64 = 2 ^ (16 + a) * 2 ^ (48 - a).
Proof. rewrite <- Z.pow_add_r by lia. f_equal. lia. Qed.
Lemma idx_bound p : ptr_ok p -> 0 <= p / 2 ^ a < 2 ^ (48 - a).
Proof.
  intros [H _]. pose proof (pow_pos a ltac:(lia)). split; [apply Z.div_pos; lia|]. apply Z.div_lt_upper_bound; [lia|]. rewrite <- p48. lia.
Qed.
Lemma mod_of_mod y : (y mod 2 ^ 64) mod 2 ^ 48 = y mod 2 ^ 48.
Proof.
  replace (2 ^ 64) with (2 ^ 48 * 2 ^ 16) by reflexivity. rewrite Z.rem_mul_r by (try apply Z.pow_nonzero; lia).
  rewrite (Z.mul_comm (2 ^ 48)), Z_mod_plus_full, Z.mod_mod by (apply Z.pow_nonzero; lia). reflexivity.
Qed.
Lemma untag_is w : untag a w = (w * 2 ^ a) mod 2 ^ 48.
Proof.
  unfold untag, wshl, wrap. rewrite Z.shiftl_mul_pow2 by lia. change PTR_48 with (Z.ones 48). rewrite Z.land_ones by lia. apply mod_of_mod.
Qed.
Lemma untag_enc p v : ptr_ok p -> untag a (enc p v) = p.
Proof.
  intros H. rewrite untag_is. unfold enc. pose proof (pow_pos a ltac:(lia)). destruct H as [B M].
  replace ((p / 2 ^ a + Z.of_nat v mod 2 ^ (16 + a) * 2 ^ (48 - a)) * 2 ^ a) with (p + (Z.of_nat v mod 2 ^ (16 + a)) * 2 ^ 48).
  - rewrite Z_mod_plus_full. apply Z.mod_small. exact B.
  - rewrite p48. rewrite (Z_div_mod_eq_full p (2 ^ a)) at 1. rewrite M. ring.
Qed.
Lemma tagof_enc p v : ptr_ok p -> tagof a (enc p v) = Z.of_nat v mod 2 ^ (16 + a).
Proof.
  intros H. unfold tagof, wshr. rewrite Z.shiftr_div_pow2 by lia. unfold enc. pose proof (pow_pos (48 - a) ltac:(lia)).
  rewrite Z.div_add by lia. rewrite Z.div_small by (apply idx_bound; exact H). lia.
Qed.
Lemma tag_enc p v : ptr_ok p -> tag a p (Z.of_nat v mod 2 ^ (16 + a)) = enc p (S v).
Proof.
  intros H. unfold tag, enc. pose proof (pow_pos (16 + a) ltac:(lia)) as P1. pose proof (pow_pos (48 - a) ltac:(lia)) as P2.
  pose proof (Z.mod_pos_bound (Z.of_nat v) (2 ^ (16 + a)) P1) as B.
  assert (L : 2 ^ (16 + a) < 2 ^ 64) by (apply Z.pow_lt_mono_r; lia).
  assert (E : wshl 64 (wadd 64 (Z.of_nat v mod 2 ^ (16 + a)) 1) (48 - a) = (Z.of_nat (S v) mod 2 ^ (16 + a)) * 2 ^ (48 - a)).
  { unfold wshl, wadd. rewrite (wrap_small 64 (_ + 1)) by (unfold word; lia). rewrite Z.shiftl_mul_pow2 by lia. unfold wrap. rewrite p64.
    rewrite Zmult_mod_distr_r. f_equal. rewrite Zplus_mod_idemp_l. f_equal. lia. }
  rewrite E. unfold wshr. rewrite Z.shiftr_div_pow2 by lia. pose proof (idx_bound p H) as I.
  set (x := p / 2 ^ a) in *. set (y := Z.of_nat (S v) mod 2 ^ (16 + a)) in *. clearbody x y.
  assert (N : Z.land x (y * 2 ^ (48 - a)) = 0).
  { apply Z.bits_inj'. intros n Hn. rewrite Z.land_spec, Z.bits_0. destruct (Z.lt_ge_cases n (48 - a)) as [Q|Q].
    - rewrite Z.mul_pow2_bits_low by exact Q. apply andb_false_r.
    - rewrite (word_testbit_high (48 - a) x) by (try exact I; lia). reflexivity. }
  rewrite <- Z.lxor_lor by exact N. rewrite <- Z.add_nocarry_lxor by exact N. reflexivity.
Qed.
Lemma ptr0 : ptr_ok 0.
Proof. split; [lia|]. apply Z.mod_0_l. apply Z.pow_nonzero; lia. Qed.
Lemma node_ptr n : node_ok a n -> ptr_ok n.
Proof. intros [H M]. split; [lia|exact M]. Qed.
Lemma hd0_ptr l : Forall (node_ok a) l -> ptr_ok (hd0 l).
Proof. intros F. destruct F; [apply ptr0|]. apply node_ptr. assumption. Qed.
Lemma hd0_nil l : Forall (node_ok a) l -> (hd0 l = 0 <-> l = []).
Proof. intros F. destruct F as [|n l [N _] _]; cbn; split; try congruence; lia. Qed.
Lemma enc_same_version p q v u : ptr_ok p -> ptr_ok q -> enc p v = enc q u -> (v <= u)%nat -> Z.of_nat u - Z.of_nat v < 2 ^ (16 + a) -> v = u.
Proof.
  intros Hp Hq E L D. apply (f_equal (tagof a)) in E. rewrite !tagof_enc in E by assumption.
  pose proof (pow_pos (16 + a) ltac:(lia)) as P.
  set (m := 2 ^ (16 + a)) in *. clearbody m.
  assert ((Z.of_nat u - Z.of_nat v) mod m = 0). { rewrite Zminus_mod, E, Z.sub_diag. apply Z.mod_0_l. lia. }
  rewrite Z.mod_small in H by lia. lia.
Qed.

(** ** Chains *)
Lemma linked_ext nx nx' c e : (forall n, In n c -> nx' n = nx n) -> linked nx c e -> linked nx' c e.
Proof.
  revert e. induction c as [|n c IH]; intros e X L; [exact I|]. destruct c as [|m c]; cbn [linked] in *; [rewrite X by (left; auto); exact L|].
  destruct L as [L1 L2]. split; [rewrite X by (left; auto); exact L1|]. apply IH; [|exact L2]. intros; apply X. right. auto.
Qed.
Lemma last0_in c : c <> [] -> In (last0 c) c.
Proof.
  unfold last0. induction c as [|n c IH]; [congruence|]. intros _. destruct c as [|m c]; [left; reflexivity|]. right. apply IH. discriminate.
Qed.
Lemma linked_store nx c e e' : c <> [] -> NoDup c -> linked nx c e -> linked (setz nx (last0 c) e') c e'.
Proof.
  induction c as [|n c IH]; [congruence|]. intros _ N L. destruct c as [|m c].
  - cbn. unfold setz. rewrite Z.eqb_refl. reflexivity.
  - cbn [linked] in *. inversion N; subst. destruct L as [L1 L2]. change (last0 (n :: m :: c)) with (last0 (m :: c)). split.
    + unfold setz. destruct (Z.eqb_spec n (last0 (m :: c))) as [E|_]; [|exact L1]. exfalso. apply H1. rewrite E. apply last0_in. discriminate.
    + apply IH; [discriminate|assumption|exact L2].
Qed.
Lemma linked_app nx c l e : linked nx c (hd0 l) -> l <> [] -> linked nx l e -> linked nx (c ++ l) e.
Proof.
  induction c as [|n c IH]; intros L NE Ll; [exact Ll|]. destruct c as [|m c].
  - cbn [app linked] in *. destruct l as [|x l]; [congruence|]. split; [exact L|exact Ll].
  - cbn [app linked] in *. destruct L as [L1 L2]. split; [exact L1|]. apply IH; assumption.
Qed.
Lemma linked_push nx c l : c <> [] -> linked nx c (hd0 l) -> linked nx l 0 -> linked nx (c ++ l) 0.
Proof. intros NE L Ll. destruct l as [|x l]; [rewrite app_nil_r; exact L|]. apply linked_app; [exact L|discriminate|exact Ll]. Qed.
Lemma linked_head nx n l : linked nx (n :: l) 0 -> nx n = hd0 l /\ linked nx l 0.
Proof. destruct l as [|m l]; cbn; [intros H; split; [exact H|exact I]|]. intros [H1 H2]. auto. Qed.
Lemma hd0_app c l : c <> [] -> hd0 (c ++ l) = hd0 c.
Proof. destruct c; [congruence|reflexivity]. Qed.

(** ** The invariant *)
Definition snap (hd : Z) (up : nat) (s0 : Z) (v : nat) : Prop :=
  (v <= up)%nat /\ (v = up -> s0 = hd) /\ exists p, ptr_ok p /\ s0 = enc p v.
Definition chain_ok (nx : Z -> Z) (c : list Z) (e : Z) : Prop :=
  c <> [] /\ NoDup c /\ Forall (node_ok a) c /\ linked nx c e.
Definition pc_ok (hd : Z) (nx : Z -> Z) (up : nat) (p : pc) (o : op) : Prop :=
  match p, o with
  | Idle, SIdle => True
  | PushLoad c, SPush c' => c' = c /\ exists e, chain_ok nx c e
  | PushStore c s0 v, SPush c' => c' = c /\ (exists e, chain_ok nx c e) /\ snap hd up s0 v
  | PushCas c s0 v, SPush c' => c' = c /\ chain_ok nx c (untag a s0) /\ snap hd up s0 v
  | PushDone, SPushed => True
  | PopLoad, SPop => True
  | PopNode s0 v, SPop => untag a s0 <> 0 /\ snap hd up s0 v
  | PopNode s0 v, SPopped n => untag a s0 = 0 /\ n = 0
  | PopCas s0 s1 v, SPop => untag a s0 <> 0 /\ snap hd up s0 v /\ (v = up -> s1 = tag a (nx (untag a s0)) (tagof a s0))
  | PopDone n, SPopped m => m = n
  | _, _ => False
  end.

Record Inv (H0 : Z -> bool) (s : state) (l : list Z) (o : nat -> op) (pl : Z -> option place) : Prop := {
  i_head : head s = enc (hd0 l) (updates s);
  i_ok : Forall (node_ok a) l;
  i_link : linked (next s) l 0;
  i_nodup : NoDup l;
  i_place : forall n p, located s l n p <-> pl n = Some p;
  i_all : forall n, H0 n = true <-> pl n <> None;
  i_pc : forall t, pc_ok (head s) (next s) (updates s) (pcs s t) (o t)
}.

Lemma setf_eq {A} (f : nat -> A) t x : setf f t x t = x.
Proof. unfold setf. rewrite Nat.eqb_refl. reflexivity. Qed.
Lemma setf_ne {A} (f : nat -> A) t x u : u <> t -> setf f t x u = f u.
Proof. intros H. unfold setf. destruct (Nat.eqb_spec u t); congruence. Qed.
Lemma setz_eq {A} (f : Z -> A) t x : setz f t x t = x.
Proof. unfold setz. rewrite Z.eqb_refl. reflexivity. Qed.
Lemma setz_ne {A} (f : Z -> A) t x u : u <> t -> setz f t x u = f u.
Proof. intros H. unfold setz. destruct (Z.eqb_spec u t); congruence. Qed.

Definition chain_of (p : pc) : list Z := match p with PushLoad c | PushStore c _ _ | PushCas c _ _ => c | _ => [] end.

(** What others rely on survives. *)
Lemma snap_same hd up s0 v : snap hd up s0 v -> forall hd', snap hd' (S up) s0 v.
Proof. intros (L & _ & P) hd'. split; [lia|]. split; [lia|exact P]. Qed.
Lemma pc_ok_next hd nx nx' up p o :
  (forall n, In n (chain_of p) -> nx' n = nx n) ->
  (forall s0 s1, p = PopCas s0 s1 up -> s0 = hd -> nx' (untag a s0) = nx (untag a s0)) ->
  pc_ok hd nx up p o -> pc_ok hd nx' up p o.
Proof.
  intros X Y. destruct p, o; cbn [pc_ok chain_of] in *; try tauto.
  - intros (E & e & C). split; [exact E|]. exists e. destruct C as (C1 & C2 & C3 & C4). refine (conj C1 (conj C2 (conj C3 _))). eapply linked_ext; eauto.
  - intros (E & (e & C) & Sn). split; [exact E|]. split; [|exact Sn]. exists e. destruct C as (C1 & C2 & C3 & C4). refine (conj C1 (conj C2 (conj C3 _))). eapply linked_ext; eauto.
  - intros (E & C & Sn). split; [exact E|]. split; [|exact Sn]. destruct C as (C1 & C2 & C3 & C4). refine (conj C1 (conj C2 (conj C3 _))). eapply linked_ext; eauto.
  - intros (U & Sn & T). split; [exact U|]. split; [exact Sn|]. intros ->. rewrite T by reflexivity. f_equal. symmetry. apply (Y state0 state1 eq_refl). destruct Sn as (_ & Sn & _). apply Sn. reflexivity.
Qed.
Lemma pc_ok_update hd hd' nx up p o : pc_ok hd nx up p o -> pc_ok hd' nx (S up) p o.
Proof.
  destruct p, o; cbn [pc_ok]; try tauto.
  - intros (E & C & Sn). refine (conj E (conj C _)). eapply snap_same; eauto.
  - intros (E & C & Sn). refine (conj E (conj C _)). eapply snap_same; eauto.
  - intros (U & Sn). split; [exact U|]. eapply snap_same; eauto.
  - intros (U & Sn & T). split; [exact U|]. split; [eapply snap_same; eauto|]. destruct Sn as (L & _). lia.
Qed.

(** Threads other than t do not move. *)
Lemma pcs_others (P : pc -> op -> Prop) f o t p q : (forall u, u <> t -> P (f u) (o u)) -> P p q -> forall u, P (setf f t p u) (setf o t q u).
Proof. intros A B u. destruct (Nat.eq_dec u t) as [->|N]; [rewrite !setf_eq; exact B|rewrite !setf_ne by exact N; auto]. Qed.
Lemma place_same s s' l pl t p : (forall n q, located s l n q <-> pl n = Some q) ->
  held s' = held s -> pcs s' = setf (pcs s) t p -> (forall n, in_hands n p <-> in_hands n (pcs s t)) ->
  forall n q, located s' l n q <-> pl n = Some q.
Proof.
  intros L H P X n q. rewrite <- L. destruct q; cbn [located]; [rewrite H; tauto|tauto|].
  rewrite P. destruct (Nat.eq_dec t0 t) as [->|N]; [rewrite setf_eq; apply X|rewrite setf_ne by exact N; tauto].
Qed.
Lemma setf_id {A} (f : nat -> A) t (P : nat -> A -> Prop) : (forall u, P u (f u)) -> forall u, P u (setf f t (f t) u).
Proof. intros H u. destruct (Nat.eq_dec u t) as [->|N]; [rewrite setf_eq; apply H|rewrite setf_ne by exact N; apply H]. Qed.

(** The abstract steps an implementation step is matched by. *)
Definition abs (l : list Z) (o : nat -> op) : atomic := {| contents := l; ops := o |}.
Definition matches (l : list Z) (o : nat -> op) (e : option event) (l' : list Z) (o' : nat -> op) : Prop :=
  match e with
  | Some e => atomic_step (abs l o) (Some e) (abs l' o')
  | None => (l' = l /\ o' = o) \/ atomic_step (abs l o) None (abs l' o')
  end.

Lemma snap_now hd l up : hd = enc (hd0 l) up -> Forall (node_ok a) l -> snap hd up hd up.
Proof. intros E F. split; [lia|]. split; [reflexivity|]. exists (hd0 l). split; [apply hd0_ptr; exact F|exact E]. Qed.

Lemma step_inv H0 s l o pl e s' : fresh a s -> Inv H0 s l o pl -> step a s e s' ->
  exists l' o' pl', Inv H0 s' l' o' pl' /\ matches l o e l' o'.
Proof.
  intros Fr [Ih Iok Ilk Ind Ipl Iall Ipc] St.
  assert (Spc : forall t, exists o1, o t = o1) by eauto.
  assert (Hands : forall t n, in_hands n (pcs s t) -> held s n = false /\ ~ In n l /\ forall u, in_hands n (pcs s u) -> u = t).
  { intros t n Hh. assert (Q : pl n = Some (InHandsOf t)) by (apply Ipl; exact Hh). repeat split.
    - destruct (held s n) eqn:E; [|reflexivity]. apply (Ipl n WithClients) in E. congruence.
    - intros I. apply (Ipl n InStack) in I. congruence.
    - intros u Hu. apply (Ipl n (InHandsOf u)) in Hu. congruence. }
  assert (InSt : forall n, In n l -> held s n = false /\ forall u, ~ in_hands n (pcs s u)).
  { intros n I. assert (Q : pl n = Some InStack) by (apply Ipl; exact I). split.
    - destruct (held s n) eqn:E; [|reflexivity]. apply (Ipl n WithClients) in E. congruence.
    - intros u Hu. apply (Ipl n (InHandsOf u)) in Hu. congruence. }
  assert (Chain : forall t, forall n, In n (chain_of (pcs s t)) -> in_hands n (pcs s t)).
  { intros t n. destruct (pcs s t); cbn; tauto. }
  inversion St as [t chain e0 Hp Hne Hnd Hc Hl|t chain Hp|t chain s0 v Hp|t chain s0 v Hp Hh|t chain s0 v Hp|t Hp|t Hp|t Hp|t s0 v Hp Hu|t s0 v Hp Hu|t s0 s1 v Hp Hh|t s0 s1 v Hp|t n Hp|n x Hh Hx]; subst.
  - (* call_push *)
    exists l, (setf o t (SPush chain)), (fun n => if in_dec Z.eq_dec n chain then Some (InHandsOf t) else pl n).
    pose proof (Ipc t) as Pt. rewrite Hp in Pt. destruct (o t) eqn:Ot; cbn in Pt; try contradiction.
    assert (Hw : forall n, In n chain -> pl n = Some WithClients). { intros n I. apply Ipl. cbn. apply Hc. exact I. }
    split; [|cbn; constructor; exact Ot]. constructor; cbn [head next held pcs updates]; auto.
    + intros n q. destruct q; cbn [located held pcs]; unfold give_away; destruct (in_dec Z.eq_dec n chain) as [I|I].
      * split; discriminate.
      * exact (Ipl n WithClients).
      * split; [|discriminate]. intros J. apply (Ipl n InStack) in J. rewrite (Hw n I) in J. discriminate.
      * exact (Ipl n InStack).
      * destruct (Nat.eq_dec t0 t) as [->|N]; [rewrite setf_eq; cbn; split; auto|]. rewrite setf_ne by exact N.
        split; [|intros E; injection E as ->; congruence]. intros J. apply (Ipl n (InHandsOf t0)) in J. rewrite (Hw n I) in J. discriminate.
      * destruct (Nat.eq_dec t0 t) as [->|N]; [|rewrite setf_ne by exact N; exact (Ipl n (InHandsOf t0))]. rewrite setf_eq. cbn [in_hands].
        split; [contradiction|]. intros J. apply (Ipl n (InHandsOf t)) in J. cbn in J. rewrite Hp in J. destruct J.
    + intros n. destruct (in_dec Z.eq_dec n chain) as [I|I]; [|apply Iall]. split; [discriminate|]. intros _. apply Iall. rewrite (Hw n I). discriminate.
    + apply pcs_others; [intros u _; apply Ipc|]. cbn. split; [reflexivity|]. exists e0. split; [exact Hne|]. split; [exact Hnd|]. split; [|exact Hl].
      apply Forall_forall. intros n I. apply Hc. exact I.
  - (* push_load *)
    exists l, o, pl. pose proof (Ipc t) as Pt. rewrite Hp in Pt. split; [|left; auto]. constructor; cbn [head next held pcs updates]; auto.
    + apply (place_same s _ l pl t (PushStore chain (head s) (updates s))); auto. intros n. rewrite Hp. reflexivity.
    + intros u. destruct (Nat.eq_dec u t) as [->|N]; [rewrite setf_eq|rewrite setf_ne by exact N; apply Ipc].
      destruct (o t); cbn in Pt |- *; try contradiction. destruct Pt as (E & C). refine (conj E (conj C _)). eapply snap_now; eauto.
  - (* push_store *)
    exists l, o, pl. pose proof (Ipc t) as Pt. rewrite Hp in Pt. split; [|left; auto].
    destruct (o t) as [|c'| | |] eqn:Ot; cbn in Pt; try contradiction. destruct Pt as (-> & (e0 & C1 & C2 & C3 & C4) & Sn).
    assert (Lh : in_hands (last0 chain) (pcs s t)) by (rewrite Hp; apply last0_in; exact C1).
    destruct (Hands t _ Lh) as (Ls1 & Ls2 & Ls3).
    constructor; cbn [head next held pcs updates]; auto.
    + eapply linked_ext; [|exact Ilk]. intros n I. apply setz_ne. intros ->. contradiction.
    + apply (place_same s _ l pl t (PushCas chain s0 v)); auto. intros n. rewrite Hp. reflexivity.
    + intros u. destruct (Nat.eq_dec u t) as [->|N]; [rewrite setf_eq, Ot; cbn|rewrite setf_ne by exact N].
      * split; [reflexivity|]. split; [|exact Sn]. refine (conj C1 (conj C2 (conj C3 _))). eapply linked_store; eauto.
      * apply (pc_ok_next _ (next s)); [| |apply Ipc].
        -- intros n I. apply setz_ne. intros ->. apply N. apply Ls3. apply Chain. exact I.
        -- intros q0 q1 Eu Eq. apply setz_ne. intros E. apply Ls2. rewrite <- E, Eq, Ih, untag_enc by (apply hd0_ptr; exact Iok).
           pose proof (Ipc u) as Pu. rewrite Eu in Pu. destruct (o u); cbn in Pu; try contradiction. destruct Pu as (NZ & _).
           rewrite Eq, Ih, untag_enc in NZ by (apply hd0_ptr; exact Iok). destruct l; [cbn in NZ; congruence|left; reflexivity].
  - (* push_cas_ok *)
    pose proof (Ipc t) as Pt. rewrite Hp in Pt. destruct (o t) as [|c'| | |] eqn:Ot; cbn in Pt; try contradiction. destruct Pt as (-> & (C1 & C2 & C3 & C4) & Sn).
    exists (chain ++ l), (setf o t SPushed), (fun n => if in_dec Z.eq_dec n chain then Some InStack else pl n).
    assert (Hw : forall n, In n chain -> pl n = Some (InHandsOf t)). { intros n I. apply Ipl. cbn. rewrite Hp. exact I. }
    split; [|cbn; right; apply (a_push (abs l o) t chain); exact Ot].
    constructor; cbn [head next held pcs updates].
    + rewrite hd0_app by exact C1. rewrite Ih, tagof_enc by (apply hd0_ptr; exact Iok). apply tag_enc. apply hd0_ptr. exact C3.
    + apply Forall_app. auto.
    + apply linked_push; [exact C1| |exact Ilk]. rewrite Ih, untag_enc in C4 by (apply hd0_ptr; exact Iok). exact C4.
    + clear - C2 Ind Hw Ipl. induction chain as [|n c IH]; [exact Ind|]. cbn. inversion C2; subst. constructor.
      * intros I. apply in_app_or in I. destruct I as [I|I]; [contradiction|]. apply (Ipl n InStack) in I. rewrite (Hw n) in I by (left; auto). discriminate.
      * apply IH; [assumption|]. intros m I. apply Hw. right. exact I.
    + intros n q. destruct q; cbn [located held pcs]; destruct (in_dec Z.eq_dec n chain) as [I|I].
      * split; [|discriminate]. intros J. apply (Ipl n WithClients) in J. rewrite (Hw n I) in J. discriminate.
      * exact (Ipl n WithClients).
      * split; [reflexivity|]. intros _. apply in_or_app. left. exact I.
      * rewrite <- (Ipl n InStack). cbn [located]. rewrite in_app_iff. tauto.
      * split; [|discriminate]. destruct (Nat.eq_dec t0 t) as [->|N]; [rewrite setf_eq; intros []|]. rewrite setf_ne by exact N.
        intros J. apply (Ipl n (InHandsOf t0)) in J. rewrite (Hw n I) in J. congruence.
      * destruct (Nat.eq_dec t0 t) as [->|N]; [|rewrite setf_ne by exact N; exact (Ipl n (InHandsOf t0))]. rewrite setf_eq. cbn [in_hands].
        split; [contradiction|]. intros J. apply (Ipl n (InHandsOf t)) in J. cbn in J. rewrite Hp in J. contradiction.
    + intros n. destruct (in_dec Z.eq_dec n chain) as [I|I]; [|apply Iall]. split; [discriminate|]. intros _. apply Iall. rewrite (Hw n I). discriminate.
    + apply pcs_others; [|exact I]. intros u _. eapply pc_ok_update. apply Ipc.
  - (* push_cas_fail *)
    exists l, o, pl. pose proof (Ipc t) as Pt. rewrite Hp in Pt. split; [|left; auto]. constructor; cbn [head next held pcs updates]; auto.
    + apply (place_same s _ l pl t (PushStore chain (head s) (updates s))); auto. intros n. rewrite Hp. reflexivity.
    + intros u. destruct (Nat.eq_dec u t) as [->|N]; [rewrite setf_eq|rewrite setf_ne by exact N; apply Ipc].
      destruct (o t); cbn in Pt |- *; try contradiction. destruct Pt as (E & C & _). split; [exact E|]. split; [eauto|]. eapply snap_now; eauto.
  - (* ret_push *)
    exists l, (setf o t SIdle), pl. pose proof (Ipc t) as Pt. rewrite Hp in Pt. destruct (o t) eqn:Ot; cbn in Pt; try contradiction.
    split; [|cbn; apply (a_ret_push (abs l o)); exact Ot]. constructor; cbn [head next held pcs updates]; auto.
    + apply (place_same s _ l pl t Idle); auto. intros n. rewrite Hp. reflexivity.
    + apply pcs_others; [intros; apply Ipc|exact I].
  - (* call_pop *)
    exists l, (setf o t SPop), pl. pose proof (Ipc t) as Pt. rewrite Hp in Pt. destruct (o t) eqn:Ot; cbn in Pt; try contradiction.
    split; [|cbn; apply (a_call_pop (abs l o)); exact Ot]. constructor; cbn [head next held pcs updates]; auto.
    + apply (place_same s _ l pl t PopLoad); auto. intros n. rewrite Hp. reflexivity.
    + apply pcs_others; [intros; apply Ipc|exact I].
  - (* pop_load *)
    pose proof (Ipc t) as Pt. rewrite Hp in Pt. destruct (o t) eqn:Ot; cbn in Pt; try contradiction.
    assert (Pl' : forall n q, located {| head := head s; next := next s; held := held s; pcs := setf (pcs s) t (PopNode (head s) (updates s)); updates := updates s |} l n q <-> pl n = Some q).
    { apply (place_same s _ l pl t (PopNode (head s) (updates s))); auto. intros n. rewrite Hp. reflexivity. }
    assert (Un : untag a (head s) = hd0 l) by (rewrite Ih; apply untag_enc, hd0_ptr; exact Iok).
    destruct l as [|n0 l0] eqn:El.
    + exists [], (setf o t (SPopped 0)), pl. split; [|cbn; right; apply (a_pop_empty (abs [] o)); auto].
      constructor; cbn [head next held pcs updates]; auto. apply pcs_others; [intros; apply Ipc|]. cbn. auto.
    + rewrite <- El in *. exists l, o, pl. split; [|left; auto]. constructor; cbn [head next held pcs updates]; auto.
      intros u. destruct (Nat.eq_dec u t) as [->|N]; [rewrite setf_eq, Ot|rewrite setf_ne by exact N; apply Ipc].
      cbn. split; [rewrite Un; rewrite hd0_nil by exact Iok; rewrite El; discriminate|]. eapply snap_now; eauto.
  - (* pop_null *)
    pose proof (Ipc t) as Pt. rewrite Hp in Pt. exists l, o, pl. split; [|left; auto]. constructor; cbn [head next held pcs updates]; auto.
    + apply (place_same s _ l pl t (PopDone 0)); auto. intros n. rewrite Hp. cbn. split; [intros [-> C]; congruence|intros []].
    + intros u. destruct (Nat.eq_dec u t) as [->|N]; [rewrite setf_eq|rewrite setf_ne by exact N; apply Ipc].
      destruct (o t); cbn in Pt |- *; try contradiction; tauto.
  - (* pop_next *)
    pose proof (Ipc t) as Pt. rewrite Hp in Pt. exists l, o, pl. split; [|left; auto]. constructor; cbn [head next held pcs updates]; auto.
    + match goal with |- context [setf (pcs s) t ?p] => apply (place_same s _ l pl t p); auto end. intros n. rewrite Hp. reflexivity.
    + intros u. destruct (Nat.eq_dec u t) as [->|N]; [rewrite setf_eq|rewrite setf_ne by exact N; apply Ipc].
      destruct (o t); cbn in Pt |- *; try contradiction; tauto.
  - (* pop_cas_ok *)
    pose proof (Ipc t) as Pt. rewrite Hp in Pt. destruct (o t) eqn:Ot; cbn in Pt; try contradiction. destruct Pt as (NZ & Sn & T).
    destruct Sn as (Lv & _ & (p & Pp & Ep)).
    assert (v = updates s). { rewrite Ih in Ep. symmetry in Ep. eapply enc_same_version; [exact Pp|apply hd0_ptr; exact Iok|exact Ep|exact Lv|]. eapply Fr. exact Hp. }
    subst v. specialize (T eq_refl). rewrite Ih, untag_enc in NZ, T by (apply hd0_ptr; exact Iok). rewrite tagof_enc in T by (apply hd0_ptr; exact Iok).
    destruct l as [|n0 l0]; [cbn in NZ; congruence|]. cbn [hd0] in *. destruct (linked_head _ _ _ Ilk) as [Nx Lk0].
    inversion Iok as [|? ? Ok0 Okr]; subst. inversion Ind as [|? ? Nd0 Ndr]; subst.
    assert (Un : untag a (head s) = n0) by (rewrite Ih; apply untag_enc, node_ptr; exact Ok0).
    assert (Q0 : pl n0 = Some InStack) by (apply Ipl; left; reflexivity).
    exists l0, (setf o t (SPopped n0)), (fun n => if Z.eq_dec n n0 then Some (InHandsOf t) else pl n).
    split; [|cbn; right; apply (a_pop (abs (n0 :: l0) o) t n0 l0); auto].
    constructor; cbn [head next held pcs updates].
    + rewrite Nx. apply tag_enc. apply hd0_ptr. exact Okr.
    + exact Okr.
    + exact Lk0.
    + exact Ndr.
    + intros n q. rewrite Un. destruct q; cbn [located held pcs]; destruct (Z.eq_dec n n0) as [->|Nn].
      * split; [|discriminate]. intros J. apply (Ipl n0 WithClients) in J. congruence.
      * exact (Ipl n WithClients).
      * split; [contradiction|discriminate].
      * rewrite <- (Ipl n InStack). cbn [located In]. split; [tauto|]. intros [E|J]; [congruence|exact J].
      * destruct (Nat.eq_dec t0 t) as [->|N]; [rewrite setf_eq; cbn; tauto|]. rewrite setf_ne by exact N.
        split; [|intros E; injection E as ->; congruence]. intros J. apply (Ipl n0 (InHandsOf t0)) in J. congruence.
      * destruct (Nat.eq_dec t0 t) as [->|N]; [|rewrite setf_ne by exact N; exact (Ipl n (InHandsOf t0))]. rewrite setf_eq. cbn [in_hands].
        split; [intros [E _]; congruence|]. intros J. apply (Ipl n (InHandsOf t)) in J. cbn in J. rewrite Hp in J. destruct J.
    + intros n. destruct (Z.eq_dec n n0) as [->|]; [|apply Iall]. split; [discriminate|]. intros _. apply Iall. rewrite Q0. discriminate.
    + rewrite Un. apply pcs_others; [|cbn; reflexivity]. intros u _. eapply pc_ok_update. apply Ipc.
  - (* pop_cas_fail *)
    pose proof (Ipc t) as Pt. rewrite Hp in Pt. destruct (o t) eqn:Ot; cbn in Pt; try contradiction.
    assert (Pl' : forall n q, located {| head := head s; next := next s; held := held s; pcs := setf (pcs s) t (PopNode (head s) (updates s)); updates := updates s |} l n q <-> pl n = Some q).
    { apply (place_same s _ l pl t (PopNode (head s) (updates s))); auto. intros n. rewrite Hp. reflexivity. }
    assert (Un : untag a (head s) = hd0 l) by (rewrite Ih; apply untag_enc, hd0_ptr; exact Iok).
    destruct l as [|n0 l0] eqn:El.
    + exists [], (setf o t (SPopped 0)), pl. split; [|cbn; right; apply (a_pop_empty (abs [] o)); auto].
      constructor; cbn [head next held pcs updates]; auto. apply pcs_others; [intros; apply Ipc|]. cbn. auto.
    + rewrite <- El in *. exists l, o, pl. split; [|left; auto]. constructor; cbn [head next held pcs updates]; auto.
      intros u. destruct (Nat.eq_dec u t) as [->|N]; [rewrite setf_eq, Ot|rewrite setf_ne by exact N; apply Ipc].
      cbn. split; [rewrite Un; rewrite hd0_nil by exact Iok; rewrite El; discriminate|]. eapply snap_now; eauto.
  - (* ret_pop *)
    pose proof (Ipc t) as Pt. rewrite Hp in Pt. destruct (o t) as [| | | |m] eqn:Ot; cbn in Pt; try contradiction. subst m.
    exists l, (setf o t SIdle), (fun m => if Z.eq_dec m n then if Z.eq_dec n 0 then pl m else Some WithClients else pl m).
    split; [|cbn; apply (a_ret_pop (abs l o)); exact Ot].
    assert (Q0 : n <> 0 -> pl n = Some (InHandsOf t)) by (intros; apply Ipl; cbn; rewrite Hp; cbn; auto).
    constructor; cbn [head next held pcs updates]; auto.
    + intros m q. destruct (Z.eqb_spec n 0) as [E0|Nz].
      * subst n. destruct (Z.eq_dec 0 0) as [_|]; [|congruence]. replace (if Z.eq_dec m 0 then pl m else pl m) with (pl m) by (destruct (Z.eq_dec m 0); reflexivity).
        rewrite <- Ipl. destruct q; cbn [located held pcs]; try tauto.
        destruct (Nat.eq_dec t0 t) as [->|N]; [rewrite setf_eq, Hp; cbn; split; [intros []|intros [<- C]; congruence]|rewrite setf_ne by exact N; tauto].
      * destruct (Z.eq_dec n 0) as [|_]; [congruence|]. specialize (Q0 Nz). destruct q; cbn [located held pcs]; destruct (Z.eq_dec m n) as [->|Nm].
        -- rewrite setz_eq. tauto.
        -- rewrite setz_ne by exact Nm. exact (Ipl m WithClients).
        -- split; [|discriminate]. intros J. apply (Ipl n InStack) in J. congruence.
        -- exact (Ipl m InStack).
        -- split; [|discriminate]. destruct (Nat.eq_dec t0 t) as [->|N]; [rewrite setf_eq; intros []|]. rewrite setf_ne by exact N.
           intros J. apply (Ipl n (InHandsOf t0)) in J. congruence.
        -- destruct (Nat.eq_dec t0 t) as [->|N]; [|rewrite setf_ne by exact N; exact (Ipl m (InHandsOf t0))]. rewrite setf_eq. cbn [in_hands].
           split; [intros []|]. intros J. apply (Ipl m (InHandsOf t)) in J. cbn in J. rewrite Hp in J. cbn in J. destruct J; congruence.
    + intros m. destruct (Z.eq_dec m n) as [->|]; [|apply Iall]. destruct (Z.eq_dec n 0) as [->|Nz]; [apply Iall|]. split; [discriminate|]. intros _. apply Iall. rewrite (Q0 Nz). discriminate.
    + apply pcs_others; [intros; apply Ipc|exact I].
  - (* scribble *)
    exists l, o, pl. split; [|left; auto]. constructor; cbn [head next held pcs updates]; auto.
    + eapply linked_ext; [|exact Ilk]. intros m I. apply setz_ne. intros ->. destruct (InSt _ I). congruence.
    + intros u. apply (pc_ok_next _ (next s)); [| |apply Ipc].
      * intros m I. apply setz_ne. intros ->. destruct (Hands u n (Chain u n I)). congruence.
      * intros q0 q1 Eu Eq. apply setz_ne. intros E.
        pose proof (Ipc u) as Pu. rewrite Eu in Pu. destruct (o u); cbn in Pu; try contradiction. destruct Pu as (NZ & _).
        rewrite Eq, Ih, untag_enc in NZ, E by (apply hd0_ptr; exact Iok). destruct l as [|n0 l0]; [cbn in NZ; congruence|]. cbn [hd0] in E. subst n0.
        destruct (InSt n (or_introl eq_refl)). congruence.
Qed.

Lemma start_inv H mem : Inv H (start H mem) [] (fun _ => SIdle) (fun n => if H n then Some WithClients else None).
Proof.
  constructor; cbn [head next held pcs updates start hd0]; auto.
  - exact I.
  - constructor.
  - intros n q. destruct q; cbn; destruct (H n); split; try tauto; try discriminate; intros [].
  - intros n. destruct (H n); split; congruence.
  - intros t. exact I.
Qed.

Lemma run_inv H mem es s : run a (start H mem) es s ->
  exists l o pl, Inv H s l o pl /\ atomic_run empty_stack es (abs l o).
Proof.
  induction 1 as [|es s s' R (l & o & pl & I & A) Fr St|es e s s' R (l & o & pl & I & A) Fr St].
  - exists [], (fun _ => SIdle), (fun n => if H n then Some WithClients else None). split; [apply start_inv|]. constructor.
  - destruct (step_inv _ _ _ _ _ _ _ Fr I St) as (l' & o' & pl' & I' & M). exists l', o', pl'. split; [exact I'|].
    destruct M as [[-> ->]|M]; [exact A|]. eapply ar_tau; eauto.
  - destruct (step_inv _ _ _ _ _ _ _ Fr I St) as (l' & o' & pl' & I' & M). exists l', o', pl'. split; [exact I'|]. eapply ar_ev; eauto.
Qed.
End Lfs.
