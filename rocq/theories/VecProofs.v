(** Refinement of the list specification by the vec machine. *)
From Verif Require Import VecMachine VecPackProofs ArcProofs CommonLemmas VecMem VecInv VecSplice VecSplice2 VecSplice3 VecApi VecApi2 WordsLemmas.
From Coq Require Import Permutation.
Open Scope nat_scope.

(** ** lset *)
Lemma lset_length {X} (l : list X) i x : length (lset l i x) = length l.
Proof. revert i; induction l as [|y l IH]; intros [|i]; cbn; auto. Qed.
Lemma lset_eq {X} (l : list X) i x : i < length l -> nth_error (lset l i x) i = Some x.
Proof. revert i; induction l as [|y l IH]; intros [|i] H; cbn in *; try lia; auto. apply IH. lia. Qed.
Lemma lset_neq {X} (l : list X) i x k : k <> i -> nth_error (lset l i x) k = nth_error l k.
Proof.
  revert i k; induction l as [|y l IH]; intros [|i] [|k] H; cbn; auto; try congruence.
Qed.
Lemma lset_lset {X} (l : list X) i x y : lset (lset l i x) i y = lset l i y.
Proof. revert i; induction l as [|z l IH]; intros [|i]; cbn; auto. rewrite IH. reflexivity. Qed.
Lemma lset_comm {X} (l : list X) i j x y : i <> j -> lset (lset l i x) j y = lset (lset l j y) i x.
Proof.
  revert i j; induction l as [|z l IH]; intros [|i] [|j] H; cbn; auto; try congruence.
  rewrite IH by congruence. reflexivity.
Qed.
Lemma lset_id {X} (l : list X) i x : nth_error l i = Some x -> lset l i x = l.
Proof.
  revert i; induction l as [|z l IH]; intros [|i] H; cbn in *; try congruence. rewrite IH; auto.
Qed.

Section Proofs.
Context {A : Type} (dflt : A) (e : elt) (He : (0 < esz e < 2 ^ 31)%Z).
Local Notation vec := (vec (A:=A)).
Local Notation heap := (heap (A:=A)).
Local Notation Inv := (Inv (A:=A) e).
Local Notation exec := (exec dflt e).
Local Notation run := (run dflt e).

Fixpoint live (env : list (option vec)) (s : vars A) : list (vec * list (option A)) :=
  match env, s with
  | Some v :: t, Some l :: t' => (v, map Some l) :: live t t'
  | _ :: t, _ :: t' => live t t'
  | _, _ => []
  end.

Definition shape (a : option vec) (b : option (list A)) : Prop := a = None <-> b = None.

Definition fitsall (s : vars A) : Prop := forall i l, var s i = Some l -> fits (length l).
Record R (m : machine A) (s : vars A) : Prop := {
  r_shape : Forall2 shape (m_vars m) s;
  r_inv : Inv (m_heap m) (live (m_vars m) s);
  r_fit : fitsall s
}.

Lemma shape_length env s : Forall2 shape env s -> length env = length s.
Proof. induction 1; cbn; auto. Qed.

Lemma live_app env s env' s' : length env = length s -> live (env ++ env') (s ++ s') = live env s ++ live env' s'.
Proof.
  revert s; induction env as [|[v|] env IH]; intros [|[l|] s] L; cbn in *; try lia; auto;
    rewrite IH by lia; reflexivity.
Qed.

Lemma live_take env s i v l : length env = length s ->
  nth_error env i = Some (Some v) -> nth_error s i = Some (Some l) ->
  Permutation (live env s) ((v, map Some l) :: live (lset env i None) (lset s i None)).
Proof.
  revert s i; induction env as [|o env IH]; intros [|o' s] [|i] L E1 E2; cbn in *; try discriminate; try lia.
  - injection E1 as ->. injection E2 as ->. apply Permutation_refl.
  - specialize (IH s i ltac:(lia) E1 E2).
    destruct o, o'; cbn; auto. rewrite IH. apply perm_swap.
Qed.

Lemma live_put env s i v l : length env = length s -> i < length s ->
  Permutation (live (lset env i (Some v)) (lset s i (Some l))) ((v, map Some l) :: live (lset env i None) (lset s i None)).
Proof.
  intros L H. etransitivity; [apply (live_take _ _ i v l)|].
  - rewrite !lset_length. exact L.
  - apply lset_eq. lia.
  - apply lset_eq. lia.
  - rewrite !lset_lset. reflexivity.
Qed.

Lemma Forall2_lset {X Y} (P : X -> Y -> Prop) l l' i x y : Forall2 P l l' -> P x y -> Forall2 P (lset l i x) (lset l' i y).
Proof.
  intros H. revert i; induction H as [|a b l l' Hab H IH]; intros [|i] Hxy; cbn; constructor; auto.
Qed.
Lemma Forall2_lset_l {X Y} (P : X -> Y -> Prop) l l' i x y : Forall2 P l l' -> nth_error l' i = Some y -> P x y ->
  Forall2 P (lset l i x) l'.
Proof. intros H N Hx. rewrite <- (lset_id l' i y N). apply Forall2_lset; auto. Qed.

Lemma var_some (s : vars A) i l : var s i = Some l <-> nth_error s i = Some (Some l).
Proof. unfold var. destruct (nth_error s i) as [[x|]|]; split; congruence. Qed.

Lemma R_get m s i l : R m s -> var s i = Some l ->
  exists v, getv m i = Ok v /\ nth_error (m_vars m) i = Some (Some v) /\ i < length s /\
    length (m_vars m) = length s /\
    Inv (m_heap m) ((v, map Some l) :: live (lset (m_vars m) i None) (lset s i None)).
Proof.
  intros [RS RI RF] V. apply var_some in V. pose proof (shape_length _ _ RS) as L.
  assert (Li : i < length s) by (apply nth_error_lt in V; exact V).
  destruct (nth_error (m_vars m) i) as [o|] eqn:E.
  2:{ apply nth_error_None in E. lia. }
  destruct o as [v|].
  2:{ exfalso. clear - RS E V. revert i E V. induction RS as [|a b env s' Hab H IH]; intros [|i] E V; cbn in *; try discriminate.
      - injection E as ->. injection V as ->. destruct Hab as [Hab _]. specialize (Hab eq_refl). discriminate.
      - eapply IH; eauto. }
  exists v. unfold getv. rewrite E. split; [reflexivity|]. split; [reflexivity|]. split; [exact Li|]. split; [exact L|].
  eapply Inv_perm; [apply live_take; auto|exact RI].
Qed.

Lemma fitsall_set s i l : fitsall s -> fits (length l) -> fitsall (lset s i (Some l)).
Proof.
  intros RF F k l' V. apply var_some in V. destruct (Nat.eq_dec k i) as [->|N].
  - assert (i < length s) by (apply nth_error_lt in V; rewrite lset_length in V; exact V).
    rewrite lset_eq in V by auto. injection V as <-. exact F.
  - rewrite lset_neq in V by exact N. apply (RF k). apply var_some. exact V.
Qed.
Lemma fitsall_kill s i : fitsall s -> fitsall (lset s i None).
Proof.
  intros RF k l' V. apply var_some in V. destruct (Nat.eq_dec k i) as [->|N].
  - assert (i < length s) by (apply nth_error_lt in V; rewrite lset_length in V; exact V).
    rewrite lset_eq in V by auto. discriminate.
  - rewrite lset_neq in V by exact N. apply (RF k). apply var_some. exact V.
Qed.
Lemma fitsall_app s l : fitsall s -> fits (length l) -> fitsall (s ++ [Some l]).
Proof.
  intros RF F k l' V. apply var_some in V. destruct (Nat.lt_ge_cases k (length s)).
  - rewrite nth_error_app1 in V by auto. apply (RF k). apply var_some. exact V.
  - rewrite nth_error_app2 in V by auto. destruct (k - length s) as [|k'] eqn:Ek; cbn in V.
    + injection V as <-. exact F.
    + destruct k'; discriminate.
Qed.
Lemma shape_set env s i v l : Forall2 shape env s -> Forall2 shape (lset env i (Some v)) (lset s i (Some l)).
Proof. intros H. apply Forall2_lset; [exact H|]. split; discriminate. Qed.
Lemma shape_kill env s i : Forall2 shape env s -> Forall2 shape (lset env i None) (lset s i None).
Proof. intros H. apply Forall2_lset; [exact H|]. split; auto. Qed.
Lemma shape_app env s v l : Forall2 shape env s -> Forall2 shape (env ++ [Some v]) (s ++ [Some l]).
Proof. intros H. apply Forall2_app; [exact H|]. constructor; [split; discriminate|constructor]. Qed.

Lemma live_put2 env s i j v l w k : length env = length s -> i < length s -> j < length s -> i <> j ->
  Permutation (live (lset (lset env i (Some v)) j (Some w)) (lset (lset s i (Some l)) j (Some k)))
    ((v, map Some l) :: (w, map Some k) :: live (lset (lset env i None) j None) (lset (lset s i None) j None)).
Proof.
  intros L Li Lj N. rewrite (live_put _ _ j w k) by (rewrite !lset_length; auto).
  rewrite perm_swap. apply perm_skip.
  rewrite (lset_comm env i j), (lset_comm s i j) by auto.
  rewrite live_put by (rewrite !lset_length; auto).
  rewrite (lset_comm env j i), (lset_comm s j i) by auto. reflexivity.
Qed.

Lemma R_put m s i v l h : R m s -> i < length s -> fits (length l) ->
  Inv h ((v, map Some l) :: live (lset (m_vars m) i None) (lset s i None)) ->
  R {| m_heap := h; m_vars := lset (m_vars m) i (Some v) |} (lset s i (Some l)).
Proof.
  intros [RS RI RF] L F I. pose proof (shape_length _ _ RS) as LL. constructor; cbn.
  - apply shape_set; exact RS.
  - eapply Inv_perm; [apply Permutation_sym, live_put; auto|exact I].
  - apply fitsall_set; auto.
Qed.

Lemma fitsb_fits n : fitsb n = true -> fits n.
Proof. unfold fitsb, fits. intros H. apply Z.ltb_lt in H. exact H. Qed.

(** Single-variable operations. *)
Lemma on_run m s s' i f (g : list A -> option (list A)) :
  R m s ->
  (do l <- var s i; do l' <- g l; require (fitsb (length l')) (Some (lset s i (Some l')))) = Some s' ->
  (forall h v vs l l', Inv h ((v, map Some l) :: vs) -> fits (length l) -> fits (length l') ->
     g l = Some l' -> runs (f v h) (holds e vs l')) ->
  runs (on m i f) (fun m' => R m' s').
Proof.
  intros HR E H. apply obind_Some in E as (l & V & E). apply obind_Some in E as (l' & G & E).
  unfold require in E. destruct (fitsb (length l')) eqn:F; [|discriminate]. injection E as <-.
  apply fitsb_fits in F.
  destruct (R_get _ _ _ _ HR V) as (v & Gv & N & Li & LL & I).
  unfold on. rewrite Gv. cbn [rbind].
  eapply runs_bind; [eapply (H _ _ _ l l' I); auto; apply (r_fit _ _ HR i l V)|].
  intros [v' h'] I'. apply runs_ok. apply R_put; auto.
Qed.

Lemma removelast_fits (l : list A) : True. Proof. exact I. Qed.

Lemma require_Some b {X} (x : option X) y : require b x = Some y -> b = true /\ x = Some y.
Proof. unfold require. destruct b; [auto|discriminate]. Qed.

Lemma R_step_simple m s s' o i f g :
  R m s -> exec o m = on m i f ->
  sstep (SHAREABLE e) dflt o s =
    (do l <- var s i; do l' <- g l; require (fitsb (length l')) (Some (lset s i (Some l')))) ->
  sstep (SHAREABLE e) dflt o s = Some s' ->
  (forall h v vs l l', Inv h ((v, map Some l) :: vs) -> fits (length l) -> fits (length l') ->
     g l = Some l' -> runs (f v h) (holds e vs l')) ->
  runs (exec o m) (fun m' => R m' s').
Proof. intros HR -> Es E H. rewrite Es in E. eapply on_run; eauto. Qed.

(** Two distinct variables. *)
Lemma R_get2 m s i j l w : R m s -> i <> j -> var s i = Some l -> var s j = Some w ->
  exists v src, getv m i = Ok v /\ getv m j = Ok src /\
    nth_error (m_vars m) i = Some (Some v) /\ nth_error (m_vars m) j = Some (Some src) /\
    i < length s /\ j < length s /\ length (m_vars m) = length s /\
    Inv (m_heap m) ((v, map Some l) :: (src, map Some w) ::
       live (lset (lset (m_vars m) i None) j None) (lset (lset s i None) j None)).
Proof.
  intros HR N Vi Vj. destruct (R_get _ _ _ _ HR Vi) as (v & Gv & Nv & Li & LL & I).
  destruct (R_get _ _ _ _ HR Vj) as (src & Gs & Ns & Lj & _ & _).
  exists v, src. do 7 (split; [assumption|]).
  eapply Inv_perm; [|exact I]. apply perm_skip. apply live_take.
  - rewrite !lset_length. exact LL.
  - rewrite lset_neq by auto. exact Ns.
  - rewrite lset_neq by auto. apply var_some. exact Vj.
Qed.

(** ** Sources of copies *)
Lemma prefix_eq h (v w : vec) (lv lw : list A) b : vrep e h v (map Some lv) -> vrep e h w (map Some lw) ->
  v_data v = Some b -> v_data w = Some b -> length lv <= length lw -> firstn (length lv) lw = lv.
Proof.
  intros Vv Vw Dv Dw L.
  destruct (vrep_block e _ _ _ _ Vv Dv) as (k & r & K & SL & _).
  destruct (vrep_block e _ _ _ _ Vw Dw) as (k' & r' & K' & SL' & _).
  replace k' with k in SL' by congruence. rewrite SL in SL'.
  assert (E : map Some (firstn (length lv) lw) = map Some lv).
  { rewrite <- firstn_map. apply (f_equal (firstn (length lv))) in SL'.
    rewrite !firstn_app, !map_length in SL'. rewrite Nat.sub_diag, firstn_O, app_nil_r in SL'.
    replace (length lv - length lw) with 0 in SL' by lia. rewrite firstn_O, app_nil_r in SL'.
    rewrite firstn_all2 in SL' by (rewrite map_length; lia). symmetry. exact SL'. }
  clear - E. revert E. generalize (firstn (length lv) lw). induction lv as [|x lv IH]; intros [|y l] E; cbn in *; try discriminate; auto.
  injection E as -> E. rewrite (IH _ E). reflexivity.
Qed.

Lemma data_cases h (v : vec) l : vrep e h v (map Some l) ->
  (data e v = PThis /\ v_data v = None /\ exists rest, v_buf v = map Some l ++ rest) \/
  (data e v = PNull /\ l = []) \/ (exists b, data e v = PBlk b /\ v_data v = Some b).
Proof.
  intros V. pose proof V as V0.
  destruct V as [rest HS (W & Sm & Sz) Hd Hz Hb L|HS Hp Hd Hz Hb HS0|b c sh k rest Hd Hz Hp B Hsh Hn Hs Hc RW Hb].
  - left. unfold data. rewrite Sm. eauto.
  - right; left. unfold data, is_small. rewrite HS, Hd. split; [reflexivity|]. apply map_eq_nil in HS0. exact HS0.
  - right; right. exists b. split; [|exact Hd]. eapply vrep_data_big; eauto.
Qed.

Lemma src_facts h (v w : vec) l lw vs (same : bool) off n :
  (if same then w = v /\ lw = l else In (w, map Some lw) vs) ->
  Inv h ((v, map Some l) :: vs) -> off + n <= length lw ->
  let src := src_of dflt e same w off in let k := firstn n (skipn off lw) in
  src_is e v ((v, map Some l) :: vs) src n k /\
  (src_inside e v src = false -> forall o, src_is e o vs src n k) /\
  (src_at_start src = true -> src_inside e v src = true -> off = 0) /\
  (src_inside e v src = true -> off = 0 -> l = [] \/ n = length l -> k = l).
Proof.
  intros HW I L src k.
  assert (IW : In (w, map Some lw) ((v, map Some l) :: vs)).
  { destruct same; [destruct HW as [-> ->]; left; reflexivity|right; exact HW]. }
  pose proof (inv_rep _ _ _ I _ _ IW) as VW.
  pose proof (inv_rep _ _ _ I _ _ (or_introl eq_refl)) as VV.
  assert (SZ : size e v = length l) by (eapply Inv_size; eauto).
  unfold src, src_of.
  destruct (data_cases _ _ _ VW) as [(D & DN & rest & B)|[(D & E0)|(b & D & Db)]]; rewrite D.
  - destruct same.
    + destruct HW as [-> ->]. cbn. split; [|split; [|split]].
      * exists l. auto.
      * unfold src_inside. rewrite D, SZ. intros E. apply Nat.leb_gt in E. lia.
      * intros E _. apply Nat.eqb_eq in E. exact E.
      * intros _ -> [->| ->]; unfold k; [cbn [skipn]; apply firstn_nil|apply firstn_all].
    + cbn. assert (X : n <= length (map (fun o => match o with Some a => a | None => dflt end) (skipn off (v_buf w))) /\
        k = firstn n (map (fun o => match o with Some a => a | None => dflt end) (skipn off (v_buf w)))).
      { rewrite map_length, skipn_length, B, app_length, map_length. split; [lia|].
        rewrite skipn_app, map_app, firstn_app, map_length, map_length, skipn_length.
        rewrite map_length. replace (n - (length lw - off)) with 0 by lia. rewrite firstn_O, app_nil_r.
        rewrite skipn_map, map_map. cbn. rewrite map_id. reflexivity. }
      split; [exact X|]. split; [intros _ _; exact X|]. split; [discriminate|].
      unfold src_inside. destruct (data e v); discriminate.
  - subst lw. cbn in L. assert (off = 0 /\ n = 0) as [-> ->] by lia. cbn.
    split; [auto|]. split; [auto|]. split; [auto|].
    unfold src_inside. destruct (data e v); discriminate.
  - cbn. split; [|split; [|split]].
    + exists w, lw. auto.
    + intros IN o. destruct same.
      * destruct HW as [-> ->]. exfalso. unfold src_inside in IN. rewrite D, Nat.eqb_refl, SZ in IN.
        cbn in IN. apply Nat.leb_gt in IN. lia.
      * exists w, lw. auto.
    + intros E _. apply Nat.eqb_eq in E. exact E.
    + intros IN -> EL. unfold src_inside in IN. destruct (data_cases _ _ _ VV) as [(Dv & _)|[(Dv & _)|(bv & Dv & Dbv)]];
        rewrite Dv in IN; try discriminate.
      apply andb_prop in IN as [IN _]. apply Nat.eqb_eq in IN. subst bv.
      unfold k. cbn [skipn]. destruct EL as [->| ->]; [|apply (prefix_eq h v w l lw b); auto].
      assert (Ew : map Some lw = []).
      { apply (inv_empt _ _ _ I v (map Some []) w (map Some lw) b); auto. left; reflexivity. }
      apply map_eq_nil in Ew. subst lw. apply firstn_nil.
Qed.

Lemma in_live env s i v l : length env = length s ->
  nth_error env i = Some (Some v) -> nth_error s i = Some (Some l) -> In (v, map Some l) (live env s).
Proof.
  intros L E1 E2. eapply Permutation_in; [apply Permutation_sym, live_take; eauto|]. left; reflexivity.
Qed.

Lemma on_run_src m s s' i j w off f (g : list A -> list A -> option (list A)) :
  R m s -> var s j = Some w ->
  (do l <- var s i; do l' <- g l w; require (fitsb (length l')) (Some (lset s i (Some l')))) = Some s' ->
  (forall h v vs l l' wv, Inv h ((v, map Some l) :: vs) -> fits (length l) -> fits (length l') ->
     g l w = Some l' ->
     (if i =? j then wv = v /\ w = l else In (wv, map Some w) vs) ->
     runs (f (src_of dflt e (i =? j) wv off) v h) (holds e vs l')) ->
  runs (let! wv := getv m j in on m i (f (src_of dflt e (i =? j) wv off))) (fun m' => R m' s').
Proof.
  intros HR Vj E H. apply obind_Some in E as (l & V & E). apply obind_Some in E as (l' & G & E).
  unfold require in E. destruct (fitsb (length l')) eqn:F; [|discriminate]. injection E as <-.
  apply fitsb_fits in F.
  destruct (R_get _ _ _ _ HR V) as (v & Gv & N & Li & LL & I).
  destruct (R_get _ _ _ _ HR Vj) as (wv & Gw & Nw & Lj & _ & _).
  rewrite Gw. cbn [rbind]. unfold on. rewrite Gv. cbn [rbind].
  eapply runs_bind; [eapply (H _ _ _ l l' wv I); auto; [apply (r_fit _ _ HR i l V)|]|].
  - destruct (Nat.eqb_spec i j) as [->|Nij].
    + split; congruence.
    + apply (in_live _ _ j); [rewrite !lset_length; exact LL| |]; rewrite lset_neq by auto; [exact Nw|].
      apply var_some. exact Vj.
  - intros [v' h'] I'. apply runs_ok. apply R_put; auto.
Qed.

Lemma app_fits_l (a b : list A) : fits (length (a ++ b)) -> fits (length a).
Proof. rewrite app_length. unfold fits. lia. Qed.

Theorem step_refines m s o s' :
  R m s -> sstep (SHAREABLE e) dflt o s = Some s' -> runs (exec o m) (fun m' => R m' s').
Proof.
  intros HR E. destruct o.
  - (* New *) cbn in E. apply require_Some in E as [F E]. injection E as <-. apply fitsb_fits in F. cbn.
    eapply runs_bind; [apply of_list_run; [exact He|apply (r_inv _ _ HR)|exact F]|].
    intros [v h] I. apply runs_ok. constructor; cbn.
    + apply shape_app, (r_shape _ _ HR).
    + rewrite live_app by apply shape_length, (r_shape _ _ HR). cbn. eapply Inv_perm; [apply Permutation_cons_append|exact I].
    + apply fitsall_app; [apply (r_fit _ _ HR)|exact F].
  - (* Copy *) cbn in E. apply obind_Some in E as (l & V & E). apply require_Some in E as [C E]. injection E as <-.
    destruct (R_get _ _ _ _ HR V) as (w & Gv & N & Lj & LL & I). cbn. rewrite Gv. cbn [rbind].
    destruct (copy_run e He _ _ _ _ I C) as (c & v & h & -> & I'). cbn [rbind]. apply runs_ok.
    rewrite <- (lset_id s j (Some l)) by (apply var_some; exact V). constructor; cbn.
    + apply shape_app, shape_set, (r_shape _ _ HR).
    + rewrite live_app by (rewrite !lset_length; exact LL). cbn. eapply Inv_perm; [apply Permutation_cons_append|].
      eapply Inv_perm; [apply perm_skip, Permutation_sym, live_put; auto|].
      eapply Inv_perm; [apply perm_swap|exact I'].
    + apply fitsall_app; [apply fitsall_set; [apply (r_fit _ _ HR)|]|]; apply (r_fit _ _ HR j l V).
  - (* MoveNew *) cbn in E. apply obind_Some in E as (l & V & E). injection E as <-.
    destruct (R_get _ _ _ _ HR V) as (w & Gv & N & Lj & LL & I). cbn. rewrite Gv. cbn [rbind]. apply runs_ok.
    constructor; cbn.
    + apply shape_app, shape_set, (r_shape _ _ HR).
    + rewrite live_app by (rewrite !lset_length; exact LL). cbn. eapply Inv_perm; [apply Permutation_cons_append|].
      eapply Inv_perm; [apply perm_skip, Permutation_sym, live_put; auto|].
      eapply Inv_perm; [apply perm_swap|]. apply Inv_add_nodata; auto. apply vrep_vec0.
    + apply fitsall_app; [apply fitsall_set; [apply (r_fit _ _ HR)|]|]; [unfold fits; cbn; lia|apply (r_fit _ _ HR j l V)].
  - (* AssignCopy *) cbn in E. apply obind_Some in E as (l & Vi & E). apply obind_Some in E as (w & Vj & E).
    apply require_Some in E as [C E]. apply andb_prop in C as [C Nij]. apply negb_true_iff, Nat.eqb_neq in Nij. injection E as <-.
    destruct (R_get2 _ _ _ _ _ _ HR Nij Vi Vj) as (v & src & Gv & Gs & Nv & Ns & Li & Lj & LL & I).
    cbn. rewrite Gv, Gs. cbn [rbind].
    eapply Inv_perm in I; [|apply perm_swap].
    destruct (copy_run e He _ _ _ _ I C) as (c & t & h & -> & I1). cbn [rbind].
    assert (I2 : Inv h ((v, map Some l) :: (t, map Some w) :: (c, map Some w) ::
       live (lset (lset (m_vars m) i None) j None) (lset (lset s i None) j None))).
    { eapply Inv_perm; [|exact I1]. etransitivity; [apply perm_skip, perm_swap|].
      etransitivity; [apply perm_swap|]. apply perm_skip, perm_swap. }
    destruct (dtor_run e He _ _ _ _ I2) as (h2 & -> & I3). cbn [rbind]. apply runs_ok.
    rewrite <- (lset_id s j (Some w)) at 1 by (apply var_some; exact Vj). constructor; cbn.
    + apply shape_set, shape_set, (r_shape _ _ HR).
    + rewrite (lset_comm _ j i), (lset_comm s j i) by auto. eapply Inv_perm; [apply Permutation_sym, live_put2; auto|exact I3].
    + apply fitsall_set; [apply fitsall_set; [apply (r_fit _ _ HR)|]|]; apply (r_fit _ _ HR j w Vj).
  - (* AssignMove *) cbn in E. apply obind_Some in E as (l & Vi & E). apply obind_Some in E as (w & Vj & E).
    apply require_Some in E as [Nij E]. apply negb_true_iff, Nat.eqb_neq in Nij. injection E as <-.
    destruct (R_get2 _ _ _ _ _ _ HR Nij Vi Vj) as (v & src & Gv & Gs & Nv & Ns & Li & Lj & LL & I).
    cbn. rewrite Gv, Gs. cbn [rbind].
    destruct (dtor_run e He _ _ _ _ I) as (h2 & -> & I3). cbn [rbind]. apply runs_ok. constructor; cbn.
    + apply shape_set, shape_set, (r_shape _ _ HR).
    + eapply Inv_perm; [apply Permutation_sym, live_put2; auto|]. eapply Inv_perm; [apply perm_swap|].
      apply Inv_add_nodata; auto. apply vrep_vec0.
    + apply fitsall_set; [apply fitsall_set; [apply (r_fit _ _ HR)|]|]; [apply (r_fit _ _ HR j w Vj)|unfold fits; cbn; lia].
  - (* Destroy *) cbn in E. apply obind_Some in E as (l & V & E). injection E as <-.
    destruct (R_get _ _ _ _ HR V) as (w & Gv & N & Lj & LL & I). cbn. rewrite Gv. cbn [rbind].
    destruct (dtor_run e He _ _ _ _ I) as (h2 & -> & I3). cbn [rbind]. apply runs_ok. constructor; cbn.
    + apply shape_kill, (r_shape _ _ HR).
    + exact I3.
    + apply fitsall_kill, (r_fit _ _ HR).
  - eapply on_run; [exact HR|exact E|]. intros h v vs l l' I Fl Fl' G. injection G as <-.
    apply push_run; auto. rewrite app_length in Fl'. exact Fl'.
  - eapply on_run; [exact HR|exact E|]. intros h v vs l l' I Fl Fl' G. apply require_Some in G as [C G]. injection G as <-.
    apply Nat.leb_le in C. apply insert_run; auto. rewrite app_length in Fl'. cbn [length] in Fl'.
    rewrite firstn_length, skipn_length in Fl'. unfold fits in *. lia.
  - eapply on_run; [exact HR|exact E|]. intros h v vs l l' I Fl Fl' G. injection G as <-.
    apply unshift_run; auto. cbn [length] in Fl'. unfold fits in *. lia.
  - eapply on_run; [exact HR|exact E|]. intros h v vs l l' I Fl Fl' G. apply require_Some in G as [C G]. injection G as <-.
    apply Nat.ltb_lt in C. apply set_elem_run; auto.
  - eapply on_run; [exact HR|exact E|]. intros h v vs l l' I Fl Fl' G. apply require_Some in G as [C G]. injection G as <-.
    apply fitsb_fits in C. apply resize_run; auto.
  - eapply on_run; [exact HR|exact E|]. intros h v vs l l' I Fl Fl' G. apply require_Some in G as [C G]. injection G as <-.
    apply fitsb_fits in C. apply grow_run; auto.
  - eapply on_run; [exact HR|exact E|]. intros h v vs l l' I Fl Fl' G. injection G as <-. apply shrink_run; auto.
  - eapply on_run; [exact HR|exact E|]. intros h v vs l l' I Fl Fl' G. injection G as <-. eapply clear_run; eauto.
  - eapply on_run; [exact HR|exact E|]. intros h v vs l l' I Fl Fl' G. injection G as <-. apply pop_run; auto.
  - eapply on_run; [exact HR|exact E|]. intros h v vs l l' I Fl Fl' G. injection G as <-. apply splice_del_run; auto.
  - eapply on_run; [exact HR|exact E|]. intros h v vs l l' I Fl Fl' G. apply require_Some in G as [C G]. injection G as <-.
    apply andb_prop in C as [C1 C2]. apply Nat.leb_le in C1. apply fitsb_fits in C2. apply splice_empty_run; auto.
  - eapply on_run; [exact HR|exact E|]. intros h v vs l l' I Fl Fl' G. injection G as <-. apply shift_pop_run; auto.
  - eapply on_run; [exact HR|exact E|]. intros h v vs l l' I Fl Fl' G. apply require_Some in G as [C G]. injection G as <-.
    apply fitsb_fits in C. eapply runs_mono; [apply reserve_run; eauto|]. intros x [H _]. exact H.
  - (* SpliceMove *) cbn in E. apply obind_Some in E as (w & Vj & E). apply obind_Some in E as (s1 & E & E').
    injection E' as <-. apply obind_Some in E as (l & Vi & E). apply obind_Some in E as (l' & G & E).
    apply require_Some in G as [C G]. injection G as <-. apply require_Some in E as [F E]. injection E as <-.
    apply andb_prop in C as [C C3]. apply andb_prop in C as [C1 C2]. apply negb_true_iff, Nat.eqb_neq in C1.
    apply Nat.leb_le in C2. apply fitsb_fits in C3, F.
    destruct (R_get2 _ _ _ _ _ _ HR C1 Vi Vj) as (v & src & Gv & Gs & Nv & Ns & Li & Lj & LL & I).
    cbn. rewrite Gv, Gs. cbn [rbind].
    eapply runs_bind; [apply (splice_move_run e He _ _ _ _ _ _ at_ del I C2 C3)|].
    intros [[v' src'] h'] (ls' & I1 & _). cbn [fst snd] in I1.
    eapply Inv_perm in I1; [|apply perm_swap].
    destruct (dtor_run e He _ _ _ _ I1) as (h2 & -> & I3). cbn [rbind]. apply runs_ok. constructor; cbn.
    + apply shape_kill, shape_set, (r_shape _ _ HR).
    + rewrite (lset_comm _ i j), (lset_comm s i j) by auto. eapply Inv_perm; [apply Permutation_sym, live_put; rewrite ?lset_length; auto|].
      rewrite (lset_comm _ j i), (lset_comm s j i) by auto. exact I3.
    + apply fitsall_kill, fitsall_set; [apply (r_fit _ _ HR)|exact F].
  - (* AppendMove *) cbn in E. apply obind_Some in E as (w & Vj & E). apply obind_Some in E as (s1 & E & E').
    injection E' as <-. apply obind_Some in E as (l & Vi & E). apply obind_Some in E as (l' & G & E).
    apply require_Some in G as [C G]. injection G as <-. apply require_Some in E as [F E]. injection E as <-.
    apply andb_prop in C as [C C3]. apply andb_prop in C as [C1 C2]. apply negb_true_iff, Nat.eqb_neq in C1.
    apply Nat.leb_le in C2. apply fitsb_fits in C3, F.
    destruct (R_get2 _ _ _ _ _ _ HR C1 Vi Vj) as (v & src & Gv & Gs & Nv & Ns & Li & Lj & LL & I).
    cbn. rewrite Gv, Gs. cbn [rbind].
    eapply runs_bind; [apply (append_move_run e He _ _ _ _ _ _ del I C2 C3)|].
    intros [[v' src'] h'] (ls' & I1 & _). cbn [fst snd] in I1.
    eapply Inv_perm in I1; [|apply perm_swap].
    destruct (dtor_run e He _ _ _ _ I1) as (h2 & -> & I3). cbn [rbind]. apply runs_ok. constructor; cbn.
    + apply shape_kill, shape_set, (r_shape _ _ HR).
    + rewrite (lset_comm _ i j), (lset_comm s i j) by auto. eapply Inv_perm; [apply Permutation_sym, live_put; rewrite ?lset_length; auto|].
      rewrite (lset_comm _ j i), (lset_comm s j i) by auto. exact I3.
    + apply fitsall_kill, fitsall_set; [apply (r_fit _ _ HR)|exact F].
  - (* SpliceCopy *) cbn in E. apply obind_Some in E as (w & Vj & E).
    apply (on_run_src m s s' i j w off (fun src => splice_copy e at_ del src n)
      (fun l w => require (SHAREABLE e && (at_ <=? length l) && (off + n <=? length w) && fitsb (length l + n)
            && negb (negb (length l =? 0) && (at_ =? 0) && (del =? length l) && (off =? 0) && negb (n =? length l)))
          (Some (firstn at_ l ++ firstn n (skipn off w) ++ skipn (at_ + del) l))) HR Vj E).
    intros h v vs l l' wv I Fl Fl' G HW. apply require_Some in G as [C G]. injection G as <-.
    apply andb_prop in C as [C C5]. apply andb_prop in C as [C C4]. apply andb_prop in C as [C C3]. apply andb_prop in C as [C1 C2].
    apply Nat.leb_le in C2, C3. apply fitsb_fits in C4.
    destruct (src_facts h v wv l w vs (i =? j) off n HW I C3) as (S1 & S2 & S3 & S4).
    apply splice_copy_run; auto.
    intros E1 E2 ST IN. apply S4; auto. specialize (S3 ST IN). subst.
    rewrite !Nat.eqb_refl in C5. rewrite ?andb_true_r in C5.
    destruct l as [|x l]; [left; reflexivity|right]. cbn [length Nat.eqb negb andb] in C5.
    apply negb_true_iff, negb_false_iff, Nat.eqb_eq in C5. exact C5.
  - (* AppendCopy *) cbn in E. apply obind_Some in E as (w & Vj & E).
    apply (on_run_src m s s' i j w off (fun src => append_copy e del src n)
      (fun l w => require (SHAREABLE e && (del <=? length l) && (off + n <=? length w) && fitsb (length l + n)
            && negb (negb (length l =? 0) && (del =? length l) && (off =? 0) && negb (n =? length l)))
          (Some (firstn (length l - del) l ++ firstn n (skipn off w)))) HR Vj E).
    intros h v vs l l' wv I Fl Fl' G HW. apply require_Some in G as [C G]. injection G as <-.
    apply andb_prop in C as [C C5]. apply andb_prop in C as [C C4]. apply andb_prop in C as [C C3]. apply andb_prop in C as [C1 C2].
    apply Nat.leb_le in C2, C3. apply fitsb_fits in C4.
    destruct (src_facts h v wv l w vs (i =? j) off n HW I C3) as (S1 & S2 & S3 & S4).
    apply append_copy_run; auto.
    intros E1 E2 ST IN. apply S4; auto. specialize (S3 ST IN). subst.
    rewrite !Nat.eqb_refl in C5. rewrite ?andb_true_r in C5.
    destruct l as [|x l]; [left; reflexivity|right]. cbn [length Nat.eqb negb andb] in C5.
    apply negb_true_iff, negb_false_iff, Nat.eqb_eq in C5. exact C5.
Qed.

Lemma R_start : R start [].
Proof.
  constructor; cbn; [constructor|apply Inv_nil|]. intros i l V. apply var_some in V. destruct i; discriminate.
Qed.

Theorem run_refines ops : forall m s s', R m s -> srun (SHAREABLE e) dflt ops s = Some s' ->
  runs (run ops m) (fun m' => R m' s').
Proof.
  induction ops as [|o ops IH]; intros m s s' HR E; cbn in *.
  - injection E as <-. apply runs_ok. exact HR.
  - apply obind_Some in E as (s1 & E1 & E2). eapply runs_bind; [eapply step_refines; eauto|].
    intros m1 HR1. cbn beta in HR1. exact (IH m1 s1 s' HR1 E2).
Qed.

Lemma R_read m s i l : R m s -> var s i = Some l -> read_var e m i = Ok (map Some l).
Proof.
  intros HR V. destruct (R_get _ _ _ _ HR V) as (v & Gv & _ & _ & _ & I).
  unfold read_var. rewrite Gv. cbn [rbind]. eapply Inv_view; eauto.
Qed.

(** With no live variable, no live block. *)
Lemma R_no_leak m s : R m s -> (forall i, var s i = None) -> forall b k, nth_error (m_heap m) b = Some k -> k = None.
Proof.
  intros [RS RI RF] N b [k|] K; [exfalso|reflexivity].
  pose proof (inv_arc _ _ _ RI b k K) as AR. pose proof (inv_pos _ _ _ RI b k K) as PO.
  destruct (refs_pos (live (m_vars m) s) b) as (v & S & H & _); [lia|].
  clear - N H. revert s N H. generalize (m_vars m). induction l as [|[w|] env IH]; intros [|[x|] s] N H; cbn in H; try contradiction.
  - specialize (N 0). cbn in N. discriminate.
  - apply (IH s); auto. intros i. apply (N (Datatypes.S i)).
  - apply (IH s); auto. intros i. apply (N (Datatypes.S i)).
  - apply (IH s); auto. intros i. apply (N (Datatypes.S i)).
Qed.
End Proofs.
