(** Proofs about atomic_write, any number of them at once. *)
From Verif Require Import PosixSpec PosixModel PosixLemmas.
From Coq Require Import List Arith ZArith Bool Lia.
Import ListNotations.
Open Scope Z_scope.

Definition job_prog (j : job) : prog Z := atomic_write (j_tmp j) (j_dest j) (j_data j) (fun e => Ret e).

Section Jobs.
Variables (m : mood) (jobs : list job).
Hypothesis SW : some_written m = true.
Hypothesis Apart : forall j j', In j jobs -> In j' jobs -> j_tmp j <> j_dest j'.

Definition finish (j : job) (err : Z) : prog Z :=
  if negb (err =? 0) then Sys (CUnlink (j_tmp j)) (fun _ => Ret err) else Ret err.
Definition rename_it (j : job) (e : Z) : prog Z :=
  if negb (e =? 0) then finish j e
  else Sys (CRename (j_tmp j) (j_dest j)) (fun r => finish j (if ret r =? 0 then 0 else errno r)).
Definition close_it (j : job) (fd : Z) (err : Z) : prog Z :=
  Sys (CClose fd) (fun r' => rename_it j (if negb (ret r' =? 0) && (err =? 0) then errno r' else err)).

(** The contents of a destination is that of some job for it. *)
Definition by_a_job (s : os) (q : path) : Prop :=
  exists j, In j jobs /\ j_dest j = q /\ content s q = Some (j_data j).

Inductive stage (s : os) (j : job) : prog Z -> option Z -> Prop :=
| St_start : stage s j (job_prog j) None
| St_write fd i w buf n : names s (j_tmp j) = Some i -> files s i = w -> fds s fd = Some (i, length w) ->
    j_data j = w ++ buf -> (length buf <= n)%nat ->
    stage s j (write_loop n fd buf (close_it j fd)) (Some fd)
| St_close fd i w e x : names s (j_tmp j) = Some i -> files s i = w -> fds s fd = Some x ->
    (e = 0 -> w = j_data j) -> stage s j (close_it j fd e) (Some fd)
| St_rename i : names s (j_tmp j) = Some i -> files s i = j_data j ->
    stage s j (rename_it j 0) None
| St_unlink e : e <> 0 -> stage s j (finish j e) None
| St_done e : (e = 0 -> by_a_job s (j_dest j)) ->
    (e = 0 \/ may_fail m (CUnlink (j_tmp j)) = false -> names s (j_tmp j) = None) -> stage s j (Ret e) None.

(** What one step of a job may do to the rest of the system. *)
Record effect (j : job) (o o' : option Z) (s s' : os) : Prop := {
  ef_tidy : tidy s';
  ef_names : forall q, q <> j_tmp j -> q <> j_dest j -> names s' q = names s q;
  ef_files : forall x, names s (j_tmp j) <> Some x -> (x < fresh s)%nat -> files s' x = files s x;
  ef_fds : forall d, o <> Some d -> o' <> Some d -> fds s' d = fds s d;
  ef_open : forall d, o' = Some d -> o = Some d \/ fds s d = None;
  ef_closed : forall d, o = Some d -> o' <> Some d -> fds s' d = None;
  ef_content : forall q, q <> j_tmp j -> content s' q = content s q
                 \/ (q = j_dest j /\ content s' q = Some (j_data j)) }.

Lemma effect_none j o s : tidy s -> effect j o o s s.
Proof. intros T. split; auto. intros d H H'. congruence. Qed.

Lemma stage_finish s j e : e <> 0 -> stage s j (finish j e) None.
Proof. apply St_unlink. Qed.

Lemma content_same s s' q : (names s' q = names s q) -> (forall i, names s q = Some i -> files s' i = files s i) ->
  content s' q = content s q.
Proof. intros H1 H2. unfold content. rewrite H1. destruct (names s q); cbn; auto. f_equal. auto. Qed.

Lemma close_step s j fd i w e x r s' : tidy s ->
  names s (j_tmp j) = Some i -> files s i = w -> fds s fd = Some x -> (e = 0 -> w = j_data j) ->
  os_step m s (CClose fd) r s' ->
  exists o', stage s' j (rename_it j (if negb (ret r =? 0) && (e =? 0) then errno r else e)) o' /\ effect j (Some fd) o' s s'.
Proof.
  intros T N F D E H.
  assert (S1 : s' = {| names := names s; files := files s; fresh := fresh s; fds := set_fd (fds s) fd None; dirs := dirs s |}
     /\ ((ret r = 0) \/ (ret r <> 0 /\ errno r > 0))).
  { inversion H; subst; cbn; auto; [exfalso; match goal with H : forall d, CClose _ <> CClose d |- _ => exact (H _ eq_refl) end|].
    split; auto. right. split; [discriminate|lia]. }
  destruct S1 as [-> RR]. exists None. split.
  - set (e' := if _ && _ then _ else _). destruct (Z.eq_dec e' 0) as [E0|E0].
    + rewrite E0. apply St_rename with i; cbn; auto. rewrite F. apply E. unfold e' in E0.
      destruct RR as [RR|[RR R1]]; [rewrite RR in E0; cbn in E0; auto|].
      apply Z.eqb_neq in RR. rewrite RR in E0. cbn in E0. destruct (Z.eqb_spec e 0); [auto|auto].
    + unfold rename_it. apply Z.eqb_neq in E0. rewrite E0. cbn. apply stage_finish. apply Z.eqb_neq. auto.
  - split; cbn; auto; try discriminate.
    + intros d H1 _. rewrite set_fd_other; auto. congruence.
    + intros d H1 _. injection H1 as <-. apply set_fd_same.
Qed.

Lemma write_step s j n fd buf i w (Hj : In j jobs) : tidy s ->
  names s (j_tmp j) = Some i -> files s i = w -> fds s fd = Some (i, length w) ->
  j_data j = w ++ buf -> (length buf <= n)%nat ->
  forall c k r s', write_loop n fd buf (close_it j fd) = Sys c k -> os_step m s c r s' ->
  exists o', stage s' j (k r) o' /\ effect j (Some fd) o' s s'.
Proof.
  intros T N F D E L c k r s' P H.
  assert (Cl : forall n', buf = [] -> write_loop n' fd buf (close_it j fd) = close_it j fd 0) by (intros [|n'] ->; auto).
  destruct buf as [|b buf].
  { rewrite Cl in P by auto. unfold close_it in P. injection P as <- <-. rewrite app_nil_r in E.
    apply (close_step s j fd i w 0 (i, length w) r s'); auto. }
  destruct n as [|n]; [cbn in L; lia|]. cbn [write_loop] in P. injection P as <- <-.
  set (buf' := b :: buf) in *.
  inversion H; subst; clear H.
  - (* the write fails *)
    cbn [ret fail errno]. cbn [Z.leb Z.ltb Z.compare]. exists (Some fd). split; [|apply effect_none; auto].
    apply St_close with (i := i) (w := files s' i) (x := (i, length (files s' i))); auto. lia.
  - match goal with H : fds s fd = Some _ |- _ => rewrite D in H; injection H as <- <- end.
    match goal with H : some_written m = true -> _ |- _ => specialize (H SW ltac:(discriminate)); rename H into POS end.
    rewrite firstn_all, skipn_all2, app_nil_r by lia. set (s1 := {| names := _ |}).
    cbn [ret ok]. destruct (Z.leb_spec (Z.of_nat n0) 0); [lia|]. rewrite Nat2Z.id.
    exists (Some fd). split.
    + apply St_write with (i := i) (w := files s i ++ firstn n0 buf'); cbn; auto.
      * apply set_file_same.
      * rewrite set_fd_same, app_length, firstn_length. repeat f_equal. lia.
      * rewrite <- app_assoc, firstn_skipn. auto.
      * rewrite skipn_length. unfold buf' in *. cbn [length] in *. lia.
    + destruct T as [T1 T2]. split; cbn; auto.
      * split; auto.
      * intros x Hx _. rewrite set_file_other; auto. congruence.
      * intros d H1 _. rewrite set_fd_other; auto. congruence.
      * intros d H1 H2. congruence.
      * intros q Hq. left. apply content_same; cbn; auto. intros x Hx. rewrite set_file_other; auto.
        intros ->. apply Hq. eapply T1; eauto.
Qed.

Lemma job_step s j p o (Hj : In j jobs) : tidy s -> stage s j p o -> forall c k r s', p = Sys c k -> os_step m s c r s' ->
  exists o', stage s' j (k r) o' /\ effect j o o' s s'.
Proof.
  intros T St c k r s' P H. pose proof T as [T1 T2].
  assert (AP : j_tmp j <> j_dest j) by (apply Apart; auto).
  destruct St as [|fd i w buf n N F D E L|fd i w e x N F D E|i N F|e NE|e Dn De].
  - (* open *)
    unfold job_prog, atomic_write, file_write in P. injection P as <- <-.
    assert (GO : forall d i s1, fds s d = None -> d > 2 ->
       names s1 (j_tmp j) = Some i -> files s1 i = [] -> fds s1 d = Some (i, 0%nat) ->
       stage s1 j (if d =? -1 then rename_it j 0 else
          write_loop (length (j_data j)) d (j_data j) (close_it j d)) (Some d)).
    { intros d i s1 H1 H2 H3 H4 H5. destruct (Z.eqb_spec d (-1)); [lia|].
      apply St_write with (i := i) (w := []); auto. }
    inversion H; subst; clear H.
    + cbn [ret fail errno Z.eqb Pos.eqb]. exists None. split; [|apply effect_none; auto].
      cbn. assert (X : (e =? 0) = false) by (apply Z.eqb_neq; lia). rewrite X. pose proof (stage_finish s' j e ltac:(lia)) as SF. unfold finish in SF. rewrite X in SF. exact SF.
    + cbn [ret ok errno]. exists (Some d). set (s1 := {| names := _ |}). split.
      * assert (Q1 : (d =? -1) = false) by (apply Z.eqb_neq; lia). rewrite Q1.
        specialize (GO d (fresh s) s1). rewrite Q1 in GO. apply GO; auto; cbn;
          [apply set_name_same|apply set_file_same|apply set_fd_same].
      * split; cbn; auto; try discriminate.
        -- split; cbn.
           ++ intros p q i. unfold set_name. destruct (path_eqb p (j_tmp j)) eqn:Ep, (path_eqb q (j_tmp j)) eqn:Eq; intros X Y.
              ** apply path_eqb_eq in Ep, Eq. congruence.
              ** injection X as <-. apply T2 in Y. lia.
              ** injection Y as <-. apply T2 in X. lia.
              ** eapply T1; eauto.
           ++ intros p i. unfold set_name. destruct (path_eqb p (j_tmp j)); intros X; [injection X as <-; lia|apply T2 in X; lia].
        -- intros q Hq _. apply set_name_other. auto.
        -- intros x _ Hx. apply set_file_other. lia.
        -- intros e _ Hd1. apply set_fd_other. congruence.
        -- intros e Hd1. injection Hd1 as <-. auto.
        -- intros q Hq. left. apply content_same; cbn; [apply set_name_other; auto|].
           intros x Hx. apply set_file_other. apply T2 in Hx. lia.
    + cbn [ret ok errno]. exists (Some d). set (s1 := {| names := _ |}). split.
      * assert (Q1 : (d =? -1) = false) by (apply Z.eqb_neq; lia). rewrite Q1.
        specialize (GO d i s1). rewrite Q1 in GO. apply GO; auto; cbn;
          [apply set_file_same|apply set_fd_same].
      * split; cbn; auto; try discriminate.
        -- intros x Hx _. apply set_file_other. congruence.
        -- intros e _ Hd1. apply set_fd_other. congruence.
        -- intros e Hd1. injection Hd1 as <-. auto.
        -- intros q Hq. left. apply content_same; cbn; auto. intros x Hx. apply set_file_other. intros ->. apply Hq. eapply T1; eauto.
  - eapply write_step; eauto.
  - unfold close_it in P. injection P as <- <-. eapply close_step; eauto.
  - unfold rename_it in P. cbn in P. injection P as <- <-.
    inversion H; subst; clear H.
    + cbn [ret fail errno]. exists None. split; [|apply effect_none; auto]. cbn. apply stage_finish. lia.
    + cbn [ret ok]. exists None. assert (i0 = i) by congruence. subst i0. set (s1 := {| names := _ |}).
      assert (C : content s1 (j_dest j) = Some (j_data j)).
      { unfold content. cbn. rewrite set_name_other by auto. rewrite set_name_same. cbn. congruence. }
      split.
      * cbn. apply St_done; intros _; [exists j; auto|]. cbn. apply set_name_same.
      * split; cbn; auto; try discriminate.
        -- split; cbn.
           ++ intros p q x. unfold set_name.
              destruct (path_eqb p (j_tmp j)) eqn:E1; [discriminate|]. destruct (path_eqb q (j_tmp j)) eqn:E2; [discriminate|].
              destruct (path_eqb p (j_dest j)) eqn:E3, (path_eqb q (j_dest j)) eqn:E4; intros X Y.
              ** apply path_eqb_eq in E3, E4. congruence.
              ** injection X as <-. assert (q = j_tmp j) by (eapply T1; eauto). subst q. rewrite path_eqb_refl in E2. discriminate.
              ** injection Y as <-. assert (p = j_tmp j) by (eapply T1; eauto). subst p. rewrite path_eqb_refl in E1. discriminate.
              ** eapply T1; eauto.
           ++ intros p x. unfold set_name. destruct (path_eqb p (j_tmp j)); [discriminate|].
              destruct (path_eqb p (j_dest j)); intros X; [injection X as <-; eapply T2; eauto|eapply T2; eauto].
        -- intros q Hq1 Hq2. rewrite !set_name_other; auto.
        -- intros q Hq. destruct (list_eq_dec Z.eq_dec q (j_dest j)) as [->|NQ]; [right; auto|].
           left. apply content_same; cbn; auto. rewrite !set_name_other; auto.
    + congruence.
  - unfold finish in P. apply Z.eqb_neq in NE. rewrite NE in P. cbn in P. injection P as <- <-.
    exists None. apply Z.eqb_neq in NE. split.
    { apply St_done; [intros; contradiction|]. intros [|NU]; [contradiction|]. inversion H; subst; cbn; auto; [congruence|].
      apply set_name_same. }
    inversion H; subst; clear H.
    + apply effect_none; auto.
    + apply effect_none; auto.
    + split; cbn; auto; try discriminate.
      * split; cbn.
        -- intros p q x. unfold set_name. destruct (path_eqb p (j_tmp j)); [discriminate|]. destruct (path_eqb q (j_tmp j)); [discriminate|]. eauto.
        -- intros p x. unfold set_name. destruct (path_eqb p (j_tmp j)); [discriminate|]. eauto.
      * intros q Hq1 Hq2. rewrite set_name_other; auto.
      * intros q Hq. left. apply content_same; cbn; auto. rewrite set_name_other; auto.
  - discriminate.
Qed.

(** The others do not notice. *)
Lemma stage_stable s s' j j' p o o' o2 : tidy s -> In j jobs -> In j' jobs -> j_tmp j <> j_tmp j' ->
  stage s j p o -> effect j' o' o2 s s' -> (forall d, o = Some d -> o' <> Some d /\ fds s d <> None) ->
  stage s' j p o.
Proof.
  intros [T1 T2] Hj Hj' NT St E FD.
  assert (NM : names s' (j_tmp j) = names s (j_tmp j)) by (apply (ef_names _ _ _ _ _ E); auto).
  assert (FL : forall i, names s (j_tmp j) = Some i -> files s' i = files s i).
  { intros i Hi. apply (ef_files _ _ _ _ _ E); [intros X; apply NT; eapply T1; eauto|eapply T2; eauto]. }
  assert (FS : forall d, o = Some d -> fds s' d = fds s d).
  { intros d Hd. destruct (FD d Hd) as [A B]. apply (ef_fds _ _ _ _ _ E); auto.
    intros C. destruct (ef_open _ _ _ _ _ E d C); congruence. }
  destruct St as [|fd i w buf n N F D E1 L|fd i w e x N F D E1|i N F|e NE|e Dn De].
  - apply St_start.
  - apply St_write with (i := i) (w := w); auto; [congruence|rewrite FL; auto|rewrite FS; auto].
  - apply St_close with (i := i) (w := w) (x := x); auto; [congruence|rewrite FL; auto|rewrite FS; auto].
  - apply St_rename with i; [congruence|rewrite FL; auto].
  - apply St_unlink. auto.
  - apply St_done; [|intros E0; rewrite NM; auto]. intros E0. destruct (Dn E0) as (j0 & A & B & C).
    destruct (ef_content _ _ _ _ _ E (j_dest j)) as [Y|[Y1 Y2]].
    + intros Y. symmetry in Y. revert Y. apply Apart; auto.
    + exists j0. rewrite Y. auto.
    + exists j'. auto.
Qed.

Record all_ok (s0 s : os) (ps : list (prog Z)) (os_ : list (option Z)) : Prop := {
  ok_tidy : tidy s;
  ok_len : length ps = length jobs /\ length os_ = length jobs;
  ok_stage : forall a j p o, nth_error jobs a = Some j -> nth_error ps a = Some p -> nth_error os_ a = Some o -> stage s j p o;
  ok_fd : forall a d, nth_error os_ a = Some (Some d) -> fds s d <> None /\ fds s0 d = None;
  ok_fd1 : forall a b d, nth_error os_ a = Some (Some d) -> nth_error os_ b = Some (Some d) -> a = b;
  ok_fds : forall d, (forall a, nth_error os_ a <> Some (Some d)) -> fds s d = fds s0 d;
  ok_content : forall q, (forall j, In j jobs -> q <> j_tmp j) -> content s q = content s0 q \/ by_a_job s q }.

Fixpoint set_at {X} (l : list X) (a : nat) (x : X) : list X :=
  match l, a with [], _ => [] | _ :: t, O => x :: t | h :: t, S b => h :: set_at t b x end.
Lemma set_at_same {X} (l : list X) a x : (a < length l)%nat -> nth_error (set_at l a x) a = Some x.
Proof. revert a. induction l as [|h t IH]; intros [|a] H; cbn in *; try lia; auto. apply IH. lia. Qed.
Lemma set_at_other {X} (l : list X) a b x : a <> b -> nth_error (set_at l a x) b = nth_error l b.
Proof. revert a b. induction l as [|h t IH]; intros [|a] [|b] H; cbn; auto; try congruence. Qed.
Lemma set_at_length {X} (l : list X) a x : length (set_at l a x) = length l.
Proof. revert a. induction l as [|h t IH]; intros [|a]; cbn; auto. Qed.
Lemma nth_mid {X} (l1 l2 : list X) x y b : b <> length l1 -> nth_error (l1 ++ x :: l2) b = nth_error (l1 ++ y :: l2) b.
Proof.
  intros H. destruct (Nat.lt_ge_cases b (length l1)); [rewrite !nth_error_app1 by auto; auto|].
  rewrite !nth_error_app2 by lia. destruct (b - length l1)%nat eqn:E; [lia|]. auto.
Qed.

Hypothesis Tmps : NoDup (map j_tmp jobs).

Lemma opt_dec (x y : option Z) : {x = y} + {x <> y}.
Proof. decide equality. apply Z.eq_dec. Qed.
Lemma owner_fd s j p d : stage s j p (Some d) -> fds s d <> None.
Proof. intros H. inversion H; subst; congruence. Qed.

Lemma all_ok_step s0 s l1 c k l2 r s' os_ : all_ok s0 s (l1 ++ Sys c k :: l2) os_ -> os_step m s c r s' ->
  exists os', all_ok s0 s' (l1 ++ k r :: l2) os'.
Proof.
  intros [T [L1 L2] St Fd Fd1 Fds Ct] H.
  set (a := length l1).
  assert (La : (a < length jobs)%nat) by (rewrite <- L1, app_length; cbn; unfold a; lia).
  destruct (nth_error jobs a) as [j|] eqn:Ej; [|apply nth_error_None in Ej; lia].
  destruct (nth_error os_ a) as [o|] eqn:Eo; [|apply nth_error_None in Eo; lia].
  assert (Ep : nth_error (l1 ++ Sys c k :: l2) a = Some (Sys c k)) by (unfold a; rewrite nth_error_app2, Nat.sub_diag by lia; auto).
  assert (Hj : In j jobs) by (eapply nth_error_In; eauto).
  destruct (job_step s j _ o Hj T (St a j _ o Ej Ep Eo) c k r s' eq_refl H) as (o' & St' & Ef).
  exists (set_at os_ a o').
  assert (NT : forall b j', nth_error jobs b = Some j' -> b <> a -> j_tmp j' <> j_tmp j).
  { intros b j' Hb Nb X. apply Nb. eapply (proj1 (NoDup_nth_error _) Tmps).
    - rewrite map_length. apply nth_error_Some. congruence.
    - rewrite !nth_error_map, Hb, Ej. cbn. congruence. }
  assert (Own : forall b d, nth_error os_ b = Some (Some d) -> b <> a -> o <> Some d /\ o' <> Some d).
  { intros b d Hb Nb. assert (O1 : o <> Some d) by (intros ->; apply Nb; eapply Fd1; eauto). split; auto.
    intros O2. destruct (ef_open _ _ _ _ _ Ef d O2) as [|X]; [auto|]. destruct (Fd b d Hb). congruence. }
  split.
  - apply (ef_tidy _ _ _ _ _ Ef).
  - rewrite set_at_length. rewrite app_length in *. cbn in *. auto.
  - intros b j' p o1 Hb Hp Ho. destruct (Nat.eq_dec b a) as [->|Nb].
    + rewrite set_at_same in Ho by lia. injection Ho as <-. unfold a in Hp. rewrite nth_error_app2, Nat.sub_diag in Hp by lia. cbn in Hp. injection Hp as <-.
      assert (j' = j) by congruence. subst j'. auto.
    + rewrite set_at_other in Ho by auto. rewrite (nth_mid l1 l2 _ (Sys c k)) in Hp by auto.
      assert (Hj' : In j' jobs) by (eapply nth_error_In; eauto).
      apply (stage_stable s s' j' j p o1 o o' T Hj' Hj (NT b j' Hb Nb) (St b j' p o1 Hb Hp Ho) Ef).
      intros d ->. destruct (Own b d Ho Nb). split; auto. apply (Fd b d Ho).
  - intros b d Hb. destruct (Nat.eq_dec b a) as [->|Nb].
    + rewrite set_at_same in Hb by lia. injection Hb as ->. split; [eapply owner_fd; eauto|].
      destruct (ef_open _ _ _ _ _ Ef d eq_refl) as [->|X]; [apply (Fd a d); auto|].
      destruct (In_dec opt_dec (Some d) os_) as [I|I].
      * apply In_nth_error in I. destruct I as [b Hb]. apply (Fd b d). auto.
      * rewrite <- Fds; auto. intros b Hb. apply I. eapply nth_error_In; eauto.
    + rewrite set_at_other in Hb by auto. destruct (Fd b d Hb) as [X Y]. split; auto.
      destruct (Own b d Hb Nb). rewrite (ef_fds _ _ _ _ _ Ef); auto.
  - intros b1 b2 d H1 H2. destruct (Nat.eq_dec b1 a) as [->|N1], (Nat.eq_dec b2 a) as [->|N2]; auto.
    + rewrite set_at_same in H1 by lia. injection H1 as ->. rewrite set_at_other in H2 by auto. destruct (Own b2 d H2 N2). congruence.
    + rewrite set_at_same in H2 by lia. injection H2 as ->. rewrite set_at_other in H1 by auto. destruct (Own b1 d H1 N1). congruence.
    + rewrite set_at_other in H1, H2 by auto. eapply Fd1; eauto.
  - intros d Hd. assert (O' : o' <> Some d) by (intros ->; apply (Hd a); apply set_at_same; lia).
    destruct o as [e|].
    + destruct (Z.eq_dec e d) as [->|Ne].
      * rewrite (ef_closed _ _ _ _ _ Ef d); auto. symmetry. apply (Fd a d). auto.
      * rewrite (ef_fds _ _ _ _ _ Ef); auto; [|congruence]. apply Fds. intros b Hb.
        destruct (Nat.eq_dec b a) as [->|Nb]; [congruence|]. apply (Hd b). rewrite set_at_other; auto.
    + rewrite (ef_fds _ _ _ _ _ Ef); auto; [|discriminate]. apply Fds. intros b Hb.
      destruct (Nat.eq_dec b a) as [->|Nb]; [congruence|]. apply (Hd b). rewrite set_at_other; auto.
  - intros q Hq. destruct (ef_content _ _ _ _ _ Ef q (Hq j Hj)) as [X|[X1 X2]].
    + destruct (Ct q Hq) as [Y|(j0 & A & B & C)]; [left; congruence|right; exists j0; rewrite X; auto].
    + right. exists j. auto.
Qed.

Lemma all_ok_together s0 s ps s' ps' : together m s ps s' ps' -> forall os_, all_ok s0 s ps os_ -> exists os', all_ok s0 s' ps' os'.
Proof.
  induction 1; intros os_ A; eauto. destruct (all_ok_step _ _ _ _ _ _ _ _ _ A H) as [os' A']. eauto.
Qed.

Lemma all_ok_start s0 : tidy s0 -> all_ok s0 s0 (map job_prog jobs) (map (fun _ => None) jobs).
Proof.
  intros T. split; auto.
  - rewrite !map_length. auto.
  - intros a j p o H1 H2 H3. rewrite nth_error_map, H1 in H2, H3. cbn in *. injection H2 as <-. injection H3 as <-. apply St_start.
  - intros a d H. rewrite nth_error_map in H. destruct (nth_error jobs a); discriminate.
  - intros a b d H. rewrite nth_error_map in H. destruct (nth_error jobs a); discriminate.
Qed.
End Jobs.

Lemma stage_ret m jobs s j e o : stage m jobs s j (Ret e) o ->
  (e = 0 -> by_a_job jobs s (j_dest j)) /\ (e = 0 \/ may_fail m (CUnlink (j_tmp j)) = false -> names s (j_tmp j) = None).
Proof.
  intros H. inversion H as [|fd i w buf n N F D E L X|fd i w e' x N F D E X|i N F X|e' NE X|e' Dn De X]; subst; auto.
  - exfalso. destruct n, buf; cbn in X; discriminate X.
  - exfalso. unfold finish in X. apply Z.eqb_neq in NE. rewrite NE in X. discriminate X.
Qed.
Lemma stage_ret_fd m jobs s j e o : stage m jobs s j (Ret e) o -> o = None.
Proof.
  intros H. inversion H as [|fd i w buf n N F D E L X|fd i w e' x N F D E X|i N F X|e' NE X|e' Dn De X]; subst; auto.
  exfalso. destruct n, buf; cbn in X; discriminate X.
Qed.
Lemma run_together {R} m s (p : prog R) s' p' : run m s p s' p' -> together m s [p] s' [p'].
Proof.
  induction 1; [apply To_here|]. apply To_call with (l1 := []) (l2 := []) (1 := H). exact IHrun.
Qed.

(** ** Temporary names *)
Lemma tmp_char_inj a b : 0 <= a < 32 -> 0 <= b < 32 ->
  (if a <? 10 then 48 + a else 97 + a - 10) = (if b <? 10 then 48 + b else 97 + b - 10) -> a = b.
Proof. intros A B. destruct (Z.ltb_spec a 10), (Z.ltb_spec b 10); lia. Qed.
Lemma land31 r : Z.land r 31 = r mod 32.
Proof. change 31 with (Z.ones 5). rewrite Z.land_ones by lia. reflexivity. Qed.
Lemma tmp_digits_inj n : forall r1 r2, tmp_digits n r1 = tmp_digits n r2 <-> r1 mod 2 ^ (5 * Z.of_nat n) = r2 mod 2 ^ (5 * Z.of_nat n).
Proof.
  induction n as [|n IH]; intros r1 r2; [cbn [tmp_digits]; change (2 ^ (5 * Z.of_nat 0)) with 1; rewrite !Z.mod_1_r; tauto|].
  cbn [tmp_digits]. rewrite !land31, !Z.shiftr_div_pow2 by lia. change (2 ^ 5) with 32.
  pose proof (Z.mod_pos_bound r1 32 ltac:(lia)) as B1. pose proof (Z.mod_pos_bound r2 32 ltac:(lia)) as B2.
  assert (P : 2 ^ (5 * Z.of_nat (S n)) = 32 * 2 ^ (5 * Z.of_nat n)).
  { replace (5 * Z.of_nat (S n)) with (5 + 5 * Z.of_nat n) by lia. rewrite Z.pow_add_r by lia. reflexivity. }
  rewrite P. assert (PP : 0 < 2 ^ (5 * Z.of_nat n)) by (apply Z.pow_pos_nonneg; lia).
  rewrite !Z.rem_mul_r by lia. specialize (IH (r1 / 32) (r2 / 32)).
  set (q1 := (r1 / 32) mod 2 ^ (5 * Z.of_nat n)) in *. set (q2 := (r2 / 32) mod 2 ^ (5 * Z.of_nat n)) in *.
  split.
  - intros H. injection H as H1 H2. apply tmp_char_inj in H1; auto. apply IH in H2. lia.
  - intros H. assert (r1 mod 32 = r2 mod 32 /\ q1 = q2) as [H1 H2] by lia. rewrite H1. f_equal. apply IH. auto.
Qed.
Lemma tmp_digits_chars n : forall r, Forall (fun c => 48 <= c <= 57 \/ 97 <= c <= 118) (tmp_digits n r).
Proof.
  induction n as [|n IH]; intros r; cbn [tmp_digits]; constructor; auto.
  rewrite land31. pose proof (Z.mod_pos_bound r 32 ltac:(lia)). destruct (Z.ltb_spec (r mod 32) 10); lia.
Qed.

(** ** Failures are reported *)
(** [never0 p]: no way through [p] ends in success; [honest p]: none that a call failed on does. *)
Section Honest.
Context {R : Type} (result_of : R -> Z).
Definition failed (r : res) : Prop := ret r = -1 /\ errno r > 0.
Definition fine (c : call) (r : res) : Prop := ret r >= 0 /\ errno r = 0 /\ ((exists p, c = CStat p) -> ret r = 0).
Fixpoint never0 (p : prog R) : Prop :=
  match p with Ret x => result_of x <> 0 | Sys c k => forall r, failed r \/ fine c r -> never0 (k r) end.
Fixpoint honest (p : prog R) : Prop :=
  match p with
  | Ret x => True
  | Sys c k => forall r, (failed r -> never0 (k r)) /\ (fine c r -> honest (k r))
  end.
Lemma step_answers m s c r s' : os_step m s c r s' -> failed r \/ fine c r.
Proof.
  intros H. destruct H; try (left; split; cbn; [reflexivity|unfold ENOENT, EEXIST; lia]);
    right; unfold fine; cbn; repeat apply conj; try lia; try reflexivity; intros [? X]; discriminate X.
Qed.
Lemma never0_run m s p s' p' : run m s p s' p' -> never0 p -> never0 p'.
Proof. induction 1; auto. intros N. apply IHrun. apply N. eapply step_answers; eauto. Qed.
Lemma never0_honest p : never0 p -> honest p.
Proof. induction p; cbn; auto. Qed.
Lemma honest_run m s p s' p' : run m s p s' p' -> honest p -> honest p'.
Proof.
  induction 1; auto. intros N. apply IHrun. destruct (N r) as [A B].
  destruct (step_answers _ _ _ _ _ H) as [F|F]; [apply never0_honest; auto|exact (B F)].
Qed.
Lemma honest_reports m s p s1 c k r s2 s' x : honest p ->
  run m s p s1 (Sys c k) -> os_step m s1 c r s2 -> ret r = -1 -> run m s2 (k r) s' (Ret x) -> result_of x <> 0.
Proof.
  intros Hp R1 St F R2. pose proof (honest_run _ _ _ _ _ R1 Hp) as Hs. cbn in Hs.
  destruct (step_answers _ _ _ _ _ St) as [Fr|[Fr _]]; [|lia].
  exact (never0_run _ _ _ _ _ R2 (proj1 (Hs r) Fr)).
Qed.
Lemma honest_write_loop n fd : forall buf k, honest (k 0) -> (forall e, e > 0 -> never0 (k e)) -> honest (write_loop n fd buf k).
Proof.
  induction n as [|n IH]; intros buf k K1 K2; cbn; auto. destruct buf as [|b buf]; cbn; auto.
  intros r. split.
  - intros [F1 F2]. rewrite F1. cbn. auto.
  - intros [P _]. destruct (Z.leb_spec (ret r) 0); [|apply IH; auto]. destruct (Z.ltb_spec (ret r) 0); [lia|]. auto.
Qed.
Lemma honest_read_loop fd base check len1 n : forall mem len0 k,
  (forall mem' len', honest (k 0 mem' len')) -> (forall e mem' len', e > 0 -> never0 (k e mem' len')) ->
  honest (read_loop n fd base check len1 mem len0 k).
Proof.
  induction n as [|n IH]; intros mem len0 k K1 K2; cbn.
  - destruct (_ <=? _); auto.
  - destruct (_ <=? _); auto. cbn. intros r. split.
    + intros [F1 F2]. rewrite F1. cbn. auto.
    + intros [P _]. destruct (Z.leb_spec (ret r) 0); [|apply IH; auto]. destruct (Z.ltb_spec (ret r) 0); [lia|]. auto.
Qed.
Lemma closes c (r : res) (e : Z) : 0 <= e -> failed r \/ fine c r ->
  (if negb (ret r =? 0) && (e =? 0) then errno r else e) >= e /\ (failed r -> (if negb (ret r =? 0) && (e =? 0) then errno r else e) > 0)
  /\ (fine c r -> (if negb (ret r =? 0) && (e =? 0) then errno r else e) = e).
Proof.
  intros E A. destruct (Z.eqb_spec (ret r) 0) as [Z0|Z0]; cbn.
  - split; [lia|]. split; [intros [B _]; lia|auto].
  - destruct (Z.eqb_spec e 0) as [->|]; [|split; [lia|split; [lia|auto]]]. unfold failed, fine in *. lia.
Qed.
Lemma honest_file_write p data k : honest (k 0) -> (forall e, e > 0 -> never0 (k e)) -> honest (file_write p data k).
Proof.
  intros K1 K2. cbn. intros r. split.
  - intros [F1 F2]. rewrite F1. cbn. auto.
  - intros [P _]. destruct (Z.eqb_spec (ret r) (-1)); [lia|]. apply honest_write_loop.
    + intros r'. split; intros A; destruct (closes (CClose (ret r)) r' 0 ltac:(lia) ltac:(auto)) as (B & C & D); [apply K2; auto|rewrite D; auto].
    + intros e E r' A. destruct (closes (CClose (ret r)) r' e ltac:(lia) A) as (B & C & D). apply K2. lia.
Qed.
Lemma honest_file_read p output size junk k :
  (forall out, honest (k 0 out)) -> (forall e out, e > 0 -> never0 (k e out)) -> honest (file_read p output size junk k).
Proof.
  intros K1 K2.
  assert (Go : forall len0 len1 n, honest (if int_max - 16 <? len1 then k EFBIG output
    else Sys (COpenR p) (fun r =>
      if ret r =? -1 then k (errno r) output
      else
        let fd := ret r in
        let mem := output ++ junk in
        let check := if len1 <? Z.of_nat (length mem) then 1 else 0 in
        read_loop n fd (length output) check len1 mem len0 (fun err mem' len0' =>
          Sys (CClose fd) (fun r' =>
            let err' := if negb (ret r' =? 0) && (err =? 0) then errno r' else err in
            if len0' =? len1 then k err' (firstn (Z.to_nat len1) mem')
            else k ERANGE (firstn (Z.to_nat len0') mem')))))).
  { intros len0 len1 n. destruct (_ <? len1); [apply never0_honest; apply K2; unfold EFBIG; lia|].
    cbn. intros r. split.
    - intros [F1 F2]. rewrite F1. cbn. auto.
    - intros [P _]. destruct (Z.eqb_spec (ret r) (-1)); [lia|]. apply honest_read_loop.
      + intros mem' len' r'. split; intros A; destruct (closes (CClose (ret r)) r' 0 ltac:(lia) ltac:(auto)) as (B & C & D); cbv zeta.
        * destruct (len' =? len1); apply K2; auto. unfold ERANGE. lia.
        * rewrite D by auto. destruct (len' =? len1); auto. apply never0_honest. apply K2. unfold ERANGE. lia.
      + intros e mem' len' E r' A. destruct (closes (CClose (ret r)) r' e ltac:(lia) A) as (B & C & D). cbv zeta.
        destruct (len' =? len1); apply K2; [lia|unfold ERANGE; lia]. }
  unfold file_read. cbv zeta. destruct (size <=? 0).
  - intros r. split.
    + intros [F1 F2]. rewrite F1. cbn. apply K2. auto.
    + intros [P1 P2]. destruct (Z.eqb_spec (ret r) 0); [apply Go|].
      exfalso. apply n. apply P2. eauto.
  - apply Go.
Qed.
Lemma honest_atomic_write tmp dest data k : honest (k 0) -> (forall e, e > 0 -> never0 (k e)) ->
  honest (atomic_write tmp dest data k).
Proof.
  intros K1 K2.
  assert (Fin : forall e, e > 0 -> never0 (if negb (e =? 0) then Sys (CUnlink tmp) (fun _ => k e) else k e)).
  { intros e E. destruct (Z.eqb_spec e 0); [lia|]. cbn. auto. }
  unfold atomic_write. apply honest_file_write.
  - cbn [negb Z.eqb]. intros r. split.
    + intros [F1 F2]. rewrite F1. cbn [Z.eqb Pos.eqb]. apply Fin. auto.
    + intros (P & Q & _). destruct (ret r =? 0); [|rewrite Q]; cbn; auto.
  - intros e E. pose proof (Fin e E) as F. destruct (Z.eqb_spec e 0); [lia|]. exact F.
Qed.
End Honest.
