(** Proofs about the programs of PosixModel.v run alone. *)
From Verif Require Import PosixSpec PosixModel.
From Coq Require Import List Arith ZArith Bool Lia.
Import ListNotations.
Open Scope Z_scope.

(** [wp I p Q s]: whatever the system answers, [I] holds in every state passed through and
    [Q] at the end. *)
Fixpoint wp {R} (m : mood) (I : os -> Prop) (p : prog R) (Q : R -> os -> Prop) (s : os) : Prop :=
  I s /\ match p with
         | Ret r => Q r s
         | Sys c k => forall r s', os_step m s c r s' -> wp m I (k r) Q s'
         end.
Lemma wp_run {R} m I (p : prog R) Q s s2 p2 : run m s p s2 p2 -> wp m I p Q s -> wp m I p2 Q s2.
Proof. intros H. induction H; auto. intros [_ W]. apply IHrun. apply W. auto. Qed.
Lemma wp_end {R} m I (p : prog R) Q s s2 r : run m s p s2 (Ret r) -> wp m I p Q s -> Q r s2.
Proof. intros H W. destruct (wp_run _ _ _ _ _ _ _ H W) as [_ W']. exact W'. Qed.
Lemma wp_inv {R} m I (p : prog R) Q s s2 p2 : run m s p s2 p2 -> wp m I p Q s -> I s2.
Proof. intros H W. pose proof (wp_run _ _ _ _ _ _ _ H W) as X. destruct p2; apply X. Qed.

Lemma path_eqb_refl p : path_eqb p p = true.
Proof. unfold path_eqb. destruct list_eq_dec; congruence. Qed.
Lemma path_eqb_eq p q : path_eqb p q = true -> p = q.
Proof. unfold path_eqb. destruct list_eq_dec; congruence. Qed.
Lemma path_eqb_neq p q : p <> q -> path_eqb p q = false.
Proof. unfold path_eqb. destruct list_eq_dec; congruence. Qed.
Lemma set_name_same f p x : set_name f p x p = x.
Proof. unfold set_name. rewrite path_eqb_refl. auto. Qed.
Lemma set_name_other f p x q : q <> p -> set_name f p x q = f q.
Proof. intros H. unfold set_name. rewrite path_eqb_neq; auto. Qed.
Lemma set_fd_same f d x : set_fd f d x d = x.
Proof. unfold set_fd. rewrite Z.eqb_refl. auto. Qed.
Lemma set_fd_other f d x e : e <> d -> set_fd f d x e = f e.
Proof. intros H. unfold set_fd. destruct (Z.eqb_spec e d); congruence. Qed.
Lemma set_file_same f d x : set_file f d x d = x.
Proof. unfold set_file. rewrite Nat.eqb_refl. auto. Qed.
Lemma set_file_other f d x e : e <> d -> set_file f d x e = f e.
Proof. intros H. unfold set_file. destruct (Nat.eqb_spec e d); congruence. Qed.


(** ** Writing *)
(** While the file [p] is open as [fd]: [w] has been written to it. *)
Record writing (s0 : os) (p : path) (fd : Z) (i : nat) (w : bytes) (s : os) : Prop := {
  wr_name : names s p = Some i;
  wr_file : files s i = w;
  wr_fd : fds s fd = Some (i, length w);
  wr_fds : forall e, e <> fd -> fds s e = fds s0 e;
  wr_new : fds s0 fd = None;
  wr_names : forall q, q <> p -> names s q = names s0 q /\ names s q <> Some i;
  wr_files : forall q j, q <> p -> names s q = Some j -> files s j = files s0 j }.

Definition prefix_of (w d : bytes) : Prop := exists r, d = w ++ r.
Definition intact (s0 : os) (p : path) (s : os) : Prop := forall q, q <> p -> content s q = content s0 q.
Definition half (s0 : os) (p : path) (data : bytes) (s : os) : Prop :=
  (content s p = content s0 p \/ exists w, content s p = Some w /\ prefix_of w data) /\ intact s0 p s.

Lemma writing_half s0 p data fd i w s : writing s0 p fd i w s -> prefix_of w data -> half s0 p data s.
Proof.
  intros [N F D DS W NS FS] P. split.
  - right. exists w. split; auto. unfold content. rewrite N. cbn. congruence.
  - intros q Hq. unfold content. destruct (NS q Hq) as [E X]. rewrite <- E. destruct (names s q) eqn:Q; auto.
    cbn. f_equal. eapply FS; eauto.
Qed.

Lemma fail_ret_nz e : ret (fail e) <> 0. Proof. cbn. lia. Qed.

Lemma wp_write_loop {R} m s0 p data fd i (k : Z -> prog R) Q n : forall buf w s,
  writing s0 p fd i w s -> data = w ++ buf -> (length buf <= n)%nat ->
  (forall e w' s', writing s0 p fd i w' s' -> prefix_of w' data ->
     (e = 0 -> some_written m = true -> w' = data) -> 0 <= e ->
     wp m (half s0 p data) (k e) Q s') ->
  wp m (half s0 p data) (write_loop n fd buf k) Q s.
Proof.
  induction n as [|n IH]; intros buf w s W E L K.
  - destruct buf; [|cbn in L; lia]. rewrite app_nil_r in E. subst w. apply (K 0 data s); auto; [exists []; rewrite app_nil_r; auto|lia].
  - destruct buf as [|b buf]; [rewrite app_nil_r in E; subst w; apply (K 0 data s); auto; [exists []; rewrite app_nil_r; auto|lia]|].
    assert (P : prefix_of w data) by (eexists; eauto).
    cbn [write_loop]. split; [eapply writing_half; eauto|].
    intros r s' H. inversion H; subst; clear H.
    + cbn [ret fail errno]. cbn. apply (K e w s'); auto; lia.
    + match goal with H : fds s fd = Some _ |- _ => rewrite (wr_fd _ _ _ _ _ _ W) in H; injection H as <- <- end.
      match goal with H : some_written m = true -> _ |- _ => rename H into SWH end.
      destruct W as [N F D DS W NS FS].
      set (buf' := b :: buf) in *.
      assert (X : firstn (length w) (files s i) ++ firstn n0 buf' ++ skipn (length w + n0) (files s i) = w ++ firstn n0 buf').
      { rewrite F, firstn_all, skipn_all2 by lia. rewrite app_nil_r. auto. }
      rewrite X.
      set (s1 := {| names := _ |}).
      assert (W1 : writing s0 p fd i (w ++ firstn n0 buf') s1).
      { split; cbn; auto.
        - apply set_file_same.
        - rewrite set_fd_same. rewrite app_length, firstn_length. repeat f_equal. lia.
        - intros e He. rewrite set_fd_other; auto.
        - intros q j Hq Hj. rewrite set_file_other; eauto. intros ->. destruct (NS q Hq) as [_ C]. congruence. }
      assert (P1 : prefix_of (w ++ firstn n0 buf') (w ++ buf')).
      { exists (skipn n0 buf'). rewrite <- app_assoc. rewrite firstn_skipn. auto. }
      cbn [ret ok errno]. destruct (Z.leb_spec (Z.of_nat n0) 0) as [Z0|Z0].
      * destruct (Z.ltb_spec (Z.of_nat n0) 0); [lia|]. apply (K 0 (w ++ firstn n0 buf') s1); auto; [|lia].
        intros _ SW. exfalso. assert (X0 : buf' <> []) by discriminate. specialize (SWH SW X0). lia.
      * rewrite Nat2Z.id. apply (IH (skipn n0 buf') (w ++ firstn n0 buf') s1); auto.
        -- rewrite <- app_assoc. rewrite firstn_skipn. auto.
        -- rewrite skipn_length. unfold buf' in *. cbn [length] in *. lia.
Qed.

(** After the file was closed. *)
Record written (s0 : os) (p : path) (data w : bytes) (s : os) : Prop := {
  wn_content : content s p = Some w;
  wn_fds : forall e, fds s e = fds s0 e;
  wn_half : half s0 p data s;
  wn_names : forall q, q <> p -> names s q = names s0 q }.

Lemma wp_file_write {R} m s0 p data (k : Z -> prog R) Q : tidy s0 ->
  (forall e s', (e = 0 -> some_written m = true -> written s0 p data data s') ->
     half s0 p data s' -> (forall d, fds s' d = fds s0 d) -> (forall q, q <> p -> names s' q = names s0 q) -> 0 <= e ->
     (e = 0 -> exists w, written s0 p data w s') ->
     wp m (half s0 p data) (k e) Q s') ->
  wp m (half s0 p data) (file_write p data k) Q s0.
Proof.
  intros [T1 T2] K.
  assert (H0 : half s0 p data s0) by (split; [auto|intros q _; auto]).
  assert (C : forall fd i s, writing s0 p fd i [] s -> fd > 2 ->
    wp m (half s0 p data) (write_loop (length data) fd data (fun err =>
        Sys (CClose fd) (fun r' => k (if negb (ret r' =? 0) && (err =? 0) then errno r' else err)))) Q s).
  { intros fd i s W G. apply wp_write_loop with (s0 := s0) (i := i) (w := []); auto.
    intros e w' s' W' P E N. split; [eapply writing_half; eauto|].
    intros r s2 H.
    assert (S2 : s2 = {| names := names s'; files := files s'; fresh := fresh s'; fds := set_fd (fds s') fd None; dirs := dirs s' |}
       /\ ((ret r = 0) \/ (ret r <> 0 /\ errno r > 0))).
    { inversion H; subst; cbn; auto; [exfalso; match goal with H : forall d, CClose _ <> CClose d |- _ => exact (H _ eq_refl) end|split; auto; right; split; [discriminate|lia]]. }
    destruct S2 as [S2 RR].
    assert (Fd : forall d, fds s2 d = fds s0 d).
    { intros d. subst s2. cbn. destruct (Z.eq_dec d fd) as [->|Hd].
      - rewrite set_fd_same. symmetry. apply (wr_new _ _ _ _ _ _ W').
      - rewrite set_fd_other; auto. apply (wr_fds _ _ _ _ _ _ W'); auto. }
    assert (Hf : half s0 p data s2).
    { pose proof (writing_half _ _ _ _ _ _ _ W' P) as X. subst s2. exact X. }
    assert (Wn : written s0 p data w' s2).
    { split; auto; subst s2; cbn.
      - unfold content. cbn. rewrite (wr_name _ _ _ _ _ _ W'). cbn. rewrite (wr_file _ _ _ _ _ _ W'). auto.
      - intros q Hq. apply (wr_names _ _ _ _ _ _ W' q Hq). }
    apply K; auto.
    - intros E0 SW. destruct RR as [RR|[RR RR']].
      + rewrite RR in E0. cbn in E0. rewrite (E E0 SW) in Wn. auto.
      + apply Z.eqb_neq in RR. rewrite RR in E0. cbn in E0. destruct (Z.eqb_spec e 0); [lia|]. congruence.
    - intros q Hq. apply (wn_names _ _ _ _ _ Wn); auto.
    - destruct (negb (ret r =? 0)) eqn:B; cbn; [|lia]. destruct (e =? 0); [|lia]. destruct RR as [RR|RR]; [rewrite RR in B; discriminate|lia].
    - intros _. eauto. }
  cbn. split; auto. intros r s' H. inversion H; subst; clear H.
  - cbn. apply K; auto; lia.
  - cbn [ret ok]. assert (Q1 : (d =? -1) = false) by (apply Z.eqb_neq; lia). rewrite Q1. apply (C d (fresh s0)); auto.
    split; cbn; auto.
    + apply set_name_same.
    + apply set_file_same.
    + rewrite set_fd_same. auto.
    + intros e He. rewrite set_fd_other; auto.
    + intros q Hq. rewrite set_name_other; auto. split; auto. intros X. apply T2 in X. lia.
    + intros q j Hq Hj. rewrite set_name_other in Hj; auto. rewrite set_file_other; auto. apply T2 in Hj. lia.
  - cbn [ret ok]. assert (Q1 : (d =? -1) = false) by (apply Z.eqb_neq; lia). rewrite Q1. apply (C d i); auto.
    split; cbn; auto.
    + apply set_file_same.
    + rewrite set_fd_same. auto.
    + intros e He. rewrite set_fd_other; auto.
    + intros q Hq. split; auto. intros X. apply Hq. eapply T1; eauto.
    + intros q j Hq Hj. rewrite set_file_other; auto. intros ->. apply Hq. eapply T1; eauto.
Qed.

(** ** Reading *)
Record reading (s0 : os) (fd : Z) (i o : nat) (s : os) : Prop := {
  rd_names : names s = names s0;
  rd_files : files s = files s0;
  rd_fd : fds s fd = Some (i, o);
  rd_fds : forall e, e <> fd -> fds s e = fds s0 e;
  rd_new : fds s0 fd = None }.
Definition unchanged (s0 s : os) : Prop := names s = names s0 /\ files s = files s0.

Lemma overlay_length mem b d : (b + length d <= length mem)%nat -> length (overlay mem b d) = length mem.
Proof. intros H. unfold overlay. rewrite !app_length, firstn_length, skipn_length. lia. Qed.
Lemma overlay_before mem b d : (b + length d <= length mem)%nat -> firstn b (overlay mem b d) = firstn b mem.
Proof.
  intros H. unfold overlay. rewrite firstn_app, firstn_firstn, firstn_length.
  replace (b - Nat.min b (length mem))%nat with 0%nat by lia. cbn. rewrite app_nil_r. f_equal. lia.
Qed.

Section Read.
Context {R : Type}.
Variables (m : mood) (s0 : os) (fd : Z) (i : nat) (output mem0 : bytes) (size check : nat).
Let base := length output.
Hypothesis Hmem : (base + size + check <= length mem0)%nat.

Definition got_so_far (o : nat) (mem : bytes) : Prop :=
  firstn base mem = output /\ length mem = length mem0
  /\ (o <= size + check)%nat /\ (o <= length (files s0 i))%nat
  /\ (full_reads m = true -> (o = 0%nat /\ mem = mem0)
        \/ (mem = overlay mem0 base (firstn o (files s0 i)) /\ (o = length (files s0 i) \/ o = (size + check)%nat))).

Lemma wp_read_loop (k : Z -> bytes -> Z -> prog R) Q n : forall mem o s,
  reading s0 fd i o s -> got_so_far o mem -> (size - o <= n)%nat ->
  (forall e mem' o' s', reading s0 fd i o' s' -> got_so_far o' mem' -> 0 <= e ->
     (e = 0 -> (size <= o')%nat \/ (o' = length (files s0 i))) ->
     wp m (unchanged s0) (k e mem' (Z.of_nat (base + o'))) Q s') ->
  wp m (unchanged s0)
    (read_loop n fd base (Z.of_nat check) (Z.of_nat (base + size)) mem (Z.of_nat (base + o)) k) Q s.
Proof.
  induction n as [|n IH]; intros mem o s Rd G L K.
  - cbn. destruct (Z.leb_spec (Z.of_nat (base + size) - Z.of_nat (base + o)) 0) as [X|X]; [|exfalso; lia].
    apply K; auto; intros; lia.
  - cbn. destruct (Z.leb_spec (Z.of_nat (base + size) - Z.of_nat (base + o)) 0) as [X|X].
    { apply K; auto; intros; lia. }
    split; [split; apply Rd|]. intros r s' H. inversion H; subst; clear H.
    + cbn. apply K; auto; lia.
    + match goal with H : fds s fd = Some _ |- _ => rewrite (rd_fd _ _ _ _ _ Rd) in H; injection H as <- <- end.
      rewrite (rd_files _ _ _ _ _ Rd) in *. rename k0 into q.
      match goal with H : full_reads m = true -> Z.of_nat q = _ \/ _ |- _ => rename H into FR end.
      match goal with H : _ -> (o < length (files s0 i))%nat -> _ |- _ => rename H into PR end.
      cbn [ret got errno].
      set (s1 := {| names := _ |}).
      assert (R1 : reading s0 fd i (o + q) s1).
      { destruct Rd as [A B C D F]. split; cbn; auto; try apply set_fd_same;
        intros e He; rewrite set_fd_other; auto. }
      destruct (Z.leb_spec (Z.of_nat q) 0) as [Z0|Z0].
      * destruct (Z.ltb_spec (Z.of_nat q) 0); [lia|]. assert (q = 0%nat) by lia. subst q.
        replace (o + 0)%nat with o in R1 by lia. apply K; auto. intros _. right.
        destruct G as (_ & _ & _ & G & _). destruct (Nat.eq_dec o (length (files s0 i))); auto. exfalso.
        assert (0 < 0)%nat by (apply PR; lia). lia.
      * destruct G as (G1 & G2 & G3 & G4 & G5).
        assert (LQ : length (firstn q (skipn o (files s0 i))) = q) by (rewrite firstn_length, skipn_length; lia).
        assert (OL : (base + length (firstn q (skipn o (files s0 i))) <= length mem)%nat) by lia.
        replace (Z.of_nat (base + o) + Z.of_nat q) with (Z.of_nat (base + (o + q))) by lia.
        apply (IH _ (o + q)%nat s1); auto; [|lia].
        split; [rewrite overlay_before; auto|]. split; [rewrite overlay_length; auto; lia|]. split; [lia|]. split; [lia|].
        intros FL. right. specialize (G5 FL). specialize (FR FL). destruct G5 as [(-> & ->)|(-> & [E|E])]; [|lia|lia].
        cbn [Nat.add skipn]. split; auto. lia.
Qed.
End Read.

(** What [file_read] comes to, for a file [i] and a size. *)
Definition read_result (m : mood) (s0 : os) (i : nat) (output junk : bytes) (size : nat) (e : Z) (out : bytes) : Prop :=
  firstn (length output) out = output
  /\ (e = 0 -> length out = (length output + size)%nat)
  /\ (e = 0 -> full_reads m = true -> (size <= length (files s0 i))%nat
       /\ out = output ++ firstn size (files s0 i)
       /\ ((0 < size < length junk)%nat -> length (files s0 i) = size)).

Lemma wp_read_file {R} m s0 p i output junk size (k : Z -> bytes -> prog R) Q s1 :
  unchanged s0 s1 -> (forall d, fds s1 d = fds s0 d) ->
  names s0 p = Some i -> (size <= length junk)%nat ->
  let len0 := Z.of_nat (length output) in
  let len1 := len0 + Z.of_nat size in
  let mem := output ++ junk in
  (forall e out s', unchanged s0 s' -> (forall d, fds s' d = fds s0 d) -> 0 <= e ->
     read_result m s0 i output junk size e out -> wp m (unchanged s0) (k e out) Q s') ->
  wp m (unchanged s0) (Sys (COpenR p) (fun r =>
      if ret r =? -1 then k (errno r) output
      else
        let fd := ret r in
        let check := if len1 <? Z.of_nat (length mem) then 1 else 0 in
        read_loop (Z.to_nat (Z.of_nat size)) fd (length output) check len1 mem len0 (fun err mem' len0' =>
          Sys (CClose fd) (fun r' =>
            let err' := if negb (ret r' =? 0) && (err =? 0) then errno r' else err in
            if len0' =? len1 then k err' (firstn (Z.to_nat len1) mem')
            else k ERANGE (firstn (Z.to_nat len0') mem'))))) Q s1.
Proof.
  intros [U1 U2] UF Hi HJ len0 len1 mem K.
  assert (Bad : forall e, e > 0 -> read_result m s0 i output junk size e output).
  { intros e He. split; [apply firstn_all|]. split; intros; lia. }
  split; [split; auto|]. intros r s' H. inversion H; subst; clear H.
  - cbn. apply K; auto; try lia; try (split; auto; fail); apply Bad; auto.
  - rewrite U1 in *. match goal with H : names s0 p = Some ?j |- _ => assert (j = i) by congruence; subst j end.
    cbn [ret ok]. destruct (Z.eqb_spec d (-1)) as [->|_]; [lia|]. cbv zeta. rewrite Nat2Z.id.
    set (chk := if (Z.of_nat (length output) + Z.of_nat size <? Z.of_nat (length mem)) then 1%nat else 0%nat).
    assert (CE : (if len1 <? Z.of_nat (length mem) then 1 else 0) = Z.of_nat chk).
    { unfold chk, len1, len0. destruct (_ <? _); auto. }
    rewrite CE.
    assert (ML : length mem = (length output + length junk)%nat) by (unfold mem; apply app_length).
    assert (CK : (size + chk <= length junk)%nat /\ (chk = 0%nat -> (length junk <= size)%nat) /\ (chk <= 1)%nat).
    { unfold chk. destruct (Z.ltb_spec (Z.of_nat (length output) + Z.of_nat size) (Z.of_nat (length mem))); lia. }
    replace len1 with (Z.of_nat (length output + size)) by (unfold len1, len0; lia).
    replace len0 with (Z.of_nat (length output + 0)) by (unfold len0; lia).
    set (s2 := {| names := _ |}).
    apply (wp_read_loop m s0 d i output mem size chk ltac:(lia) _ Q size mem 0%nat s2).
    + split; cbn; auto; try apply set_fd_same.
      * intros e He. rewrite set_fd_other; auto.
      * rewrite <- UF. auto.
    + split; [unfold mem; rewrite firstn_app, firstn_all, Nat.sub_diag; cbn; apply app_nil_r|].
      split; auto. split; [lia|]. split; [lia|]. auto.
    + lia.
    + intros e mem' o' s3 Rd (G1 & G2 & G3 & G4 & G5) He Hz. split; [split; apply Rd|].
      intros r s4 H.
      assert (S4 : unchanged s0 s4 /\ (forall x, fds s4 x = fds s0 x) /\ ((ret r = 0) \/ (ret r <> 0 /\ errno r > 0))).
      { destruct Rd as [A B C D F]. inversion H; subst; cbn; try (exfalso; match goal with H : forall d, CClose _ <> CClose d |- _ => exact (H _ eq_refl) end).
        - split; [split; auto|]. split; [|right; split; [discriminate|lia]].
          intros x. destruct (Z.eq_dec x d) as [->|Hx]; [rewrite set_fd_same; auto|rewrite set_fd_other; auto].
        - split; [split; auto|]. split; [|left; auto].
          intros x. destruct (Z.eq_dec x d) as [->|Hx]; [rewrite set_fd_same; auto|rewrite set_fd_other; auto]. }
      destruct S4 as (S4 & S5 & RR). clear H.
      destruct (Z.eqb_spec (Z.of_nat (length output + o')) (Z.of_nat (length output + size))) as [E|E].
      * assert (o' = size) by lia. subst o'. rewrite Nat2Z.id. apply K; auto.
        -- destruct (negb (ret r =? 0)) eqn:B; cbn; [|lia]. destruct (e =? 0); [|lia]. destruct RR as [RR|RR]; [rewrite RR in B; discriminate|lia].
        -- split; [rewrite firstn_firstn; rewrite Nat.min_l by lia; auto|].
           split; [intros _; rewrite firstn_length; lia|].
           intros Ez FL. split; [lia|]. specialize (G5 FL).
           destruct G5 as [(-> & ->)|(-> & X)].
           ++ split; [|lia]. unfold mem. rewrite firstn_app. rewrite firstn_all2 by lia.
              replace (length output + 0 - length output)%nat with 0%nat by lia. reflexivity.
           ++ split.
              ** unfold overlay, mem. rewrite firstn_app, firstn_firstn, firstn_length, app_length, Nat.min_r by lia.
                 rewrite firstn_app, firstn_all, Nat.sub_diag. cbn [firstn]. rewrite app_nil_r.
                 f_equal. replace (length output + size - Nat.min (length output) (length output + length junk))%nat with size by lia.
                 rewrite firstn_app. rewrite firstn_firstn, Nat.min_id, firstn_length.
                 replace (size - Nat.min size (length (files s0 i)))%nat with 0%nat by lia. cbn [firstn]. apply app_nil_r.
              ** intros HL. lia.
      * apply K; auto; [unfold ERANGE; lia|]. split; [|split; intros X; discriminate X].
        rewrite Nat2Z.id, firstn_firstn, Nat.min_l by lia. auto.
  - exfalso. rewrite U1 in *. congruence.
Qed.

Lemma wp_file_read {R} m s0 p output z junk (k : Z -> bytes -> prog R) Q :
  (forall i, names s0 p = Some i -> (Z.of_nat (length (files s0 i)) <= Z.of_nat (length junk) \/ 0 < z)) ->
  z <= Z.of_nat (length junk) ->
  (forall e out s', unchanged s0 s' -> (forall d, fds s' d = fds s0 d) -> 0 <= e ->
     (names s0 p = None -> out = output /\ e <> 0) ->
     (forall i, names s0 p = Some i ->
        read_result m s0 i output junk (if z <=? 0 then length (files s0 i) else Z.to_nat z) e out) ->
     wp m (unchanged s0) (k e out) Q s') ->
  wp m (unchanged s0) (file_read p output z junk k) Q s0.
Proof.
  intros HJ HZ K.
  assert (U : unchanged s0 s0) by (split; auto).
  assert (Bad : forall e, e > 0 -> wp m (unchanged s0) (k e output) Q s0).
  { intros e He. apply K; auto; try lia; [split; auto; lia|]. intros i _. split; [apply firstn_all|]. split; intros; lia. }
  assert (Go : forall i size, names s0 p = Some i -> (size = if z <=? 0 then length (files s0 i) else Z.to_nat z) ->
    (size <= length junk)%nat ->
    wp m (unchanged s0) (let len0 := Z.of_nat (length output) in
    let len1 := len0 + Z.of_nat size in
    if int_max - 16 <? len1 then k EFBIG output
    else Sys (COpenR p) (fun r =>
      if ret r =? -1 then k (errno r) output
      else
        let fd := ret r in
        let mem := output ++ junk in
        let check := if len1 <? Z.of_nat (length mem) then 1 else 0 in
        read_loop (Z.to_nat (Z.of_nat size)) fd (length output) check len1 mem len0 (fun err mem' len0' =>
          Sys (CClose fd) (fun r' =>
            let err' := if negb (ret r' =? 0) && (err =? 0) then errno r' else err in
            if len0' =? len1 then k err' (firstn (Z.to_nat len1) mem')
            else k ERANGE (firstn (Z.to_nat len0') mem'))))) Q s0).
  { intros i size Hi Hs HL. cbv zeta. destruct (int_max - 16 <? _); [apply Bad; unfold EFBIG; lia|].
    apply (wp_read_file m s0 p i output junk size k Q s0); auto.
    intros e out s' U' F' He Rr. apply K; auto; [congruence|]. intros j Hj. assert (j = i) by congruence. subst j.
    rewrite <- Hs. auto. }
  unfold file_read. cbv zeta. destruct (Z.leb_spec z 0) as [Hz|Hz].
  - split; auto. intros r s' H. inversion H; subst; clear H; try (cbn; apply Bad; auto; unfold ENOENT; lia).
    cbn [ret got hd]. match goal with H : names _ p = Some ?i |- _ => apply (Go i); auto end.
    match goal with H : names _ p = Some ?i |- _ => destruct (HJ i H); lia end.
  - destruct (names s0 p) as [i|] eqn:Hi.
    + pose proof (Go i (Z.to_nat z) eq_refl eq_refl ltac:(lia)) as X. rewrite !Z2Nat.id in X by lia. exact X.
    + destruct (int_max - 16 <? _); [apply Bad; unfold EFBIG; lia|]. split; auto.
      intros r s' H. inversion H; subst; clear H; try (cbn; apply Bad; auto; unfold ENOENT; lia). congruence.
Qed.
