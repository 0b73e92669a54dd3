(** Proofs about mkdir_p. *)
From Verif Require Import PosixSpec PosixModel PosixLemmas.
From Coq Require Import List Arith ZArith Bool Lia.
Import ListNotations.
Open Scope Z_scope.

(** The text of a path: every component followed by a slash, a slash first if absolute. *)

Lemma comps_plain c : ~ In slash c -> forall q cur, comps (c ++ q) cur = comps q (cur ++ c).
Proof.
  induction c as [|x c IH]; intros H q cur; [rewrite app_nil_r; auto|].
  cbn. destruct (Z.eqb_spec x slash) as [->|N]; [exfalso; apply H; left; auto|].
  rewrite IH; [|intros X; apply H; right; auto]. rewrite <- app_assoc. auto.
Qed.
Lemma comps_text cs : Forall plain cs -> forall q, comps (flat_map (fun c => c ++ [slash]) cs ++ q) [] = cs ++ comps q [].
Proof.
  induction cs as [|c cs IH]; intros F q; auto. inversion F as [|? ? [N1 N2] F']; subst. cbn [flat_map].
  rewrite <- !app_assoc. rewrite comps_plain by auto. cbn [app].
  cbn [comps]. rewrite Z.eqb_refl. cbn [app]. destruct c; [congruence|]. rewrite IH; auto.
Qed.
Lemma text_snoc a cs c : text a (cs ++ [c]) = text a cs ++ c ++ [slash].
Proof. unfold text. rewrite flat_map_app. cbn. rewrite app_nil_r, app_assoc. auto. Qed.
Lemma absolute_text a cs c : Forall plain (cs ++ [c]) -> absolute (text a cs ++ c) = a.
Proof.
  intros F. unfold text. destruct a; [reflexivity|]. cbn.
  destruct cs as [|d cs]; cbn.
  - apply Forall_app in F. destruct F as [_ F]. inversion F as [|? ? [N1 N2]]; subst. destruct c; [congruence|]. cbn.
    apply Z.eqb_neq. intros ->. apply N2. left; auto.
  - inversion F as [|? ? [N1 N2]]; subst. destruct d; [congruence|]. cbn. apply Z.eqb_neq. intros ->. apply N2. left; auto.
Qed.
Lemma dir_of_text a cs c : Forall plain (cs ++ [c]) -> dir_of (text a cs ++ c) = (a, cs ++ [c]).
Proof.
  intros F. unfold dir_of. rewrite absolute_text by auto. f_equal.
  assert (X : comps (text a cs ++ c) [] = comps (flat_map (fun c => c ++ [slash]) cs ++ c) []).
  { unfold text. destruct a; auto. }
  rewrite X. apply Forall_app in F. destruct F as [F1 F2]. inversion F2 as [|? ? [N1 N2]]; subst.
  rewrite comps_text by auto. f_equal. rewrite <- (app_nil_r c) at 1. rewrite comps_plain by auto. cbn. destruct c; congruence.
Qed.

Lemma last_slash_plain c : forall q i, ~ In slash c -> (length q <= i <= length q + length c)%nat -> (1 <= length q)%nat ->
  last_slash i (q ++ c ++ [slash]) = last_slash (length q) (q ++ c ++ [slash]).
Proof.
  intros q i H L L1. induction i as [|i IH]; [lia|].
  destruct (Nat.eq_dec (S i) (length q)) as [->|N]; auto.
  cbn [last_slash]. destruct i as [|i]; [lia|].
  assert (X : nth (S i) (q ++ c ++ [slash]) 0 <> slash).
  { rewrite app_nth2 by lia. rewrite app_nth1 by lia. intros E. apply H. rewrite <- E. apply nth_In. lia. }
  apply Z.eqb_neq in X. rewrite X. apply IH. lia.
Qed.
Lemma last_slash_here q r : (2 <= length (q ++ [slash]))%nat ->
  last_slash (length (q ++ [slash])) ((q ++ [slash]) ++ r) = Some (length q).
Proof.
  intros H. rewrite app_length in *. cbn in *. replace (length q + 1)%nat with (S (length q)) by lia. cbn.
  destruct (length q) eqn:E; [lia|]. rewrite <- E. rewrite <- app_assoc. rewrite app_nth2, Nat.sub_diag by lia. cbn.
  reflexivity.
Qed.
Lemma text_long a cs : Forall plain cs -> cs <> [] -> (2 <= length (text a cs))%nat.
Proof.
  intros F N. destruct cs as [|c cs]; [congruence|]. inversion F as [|? ? [N1 N2]]; subst.
  unfold text. rewrite app_length. cbn. rewrite !app_length. cbn. destruct c; [congruence|]. cbn. lia.
Qed.
Lemma text_last a cs c : exists q, text a (cs ++ [c]) = q ++ [slash].
Proof. exists (text a cs ++ c). rewrite text_snoc, app_assoc. auto. Qed.

(** The parent that [visit] goes to. *)
Lemma parent_of a cs c : Forall plain (cs ++ [c]) ->
  let p := text a (cs ++ [c]) in let N := (length p - 1)%nat in
  firstn N p = text a cs ++ c
  /\ match cs with
     | [] => last_slash N p = None
     | _ => exists i, last_slash N p = Some i /\ firstn (i + 1) p = text a cs
     end.
Proof.
  intros F p N.
  assert (HN : N = length (text a cs ++ c)).
  { unfold N, p. rewrite text_snoc, !app_length. cbn. lia. }
  assert (Hp : p = text a (cs ++ [c])) by reflexivity. clearbody N. clearbody p.
  split; [rewrite Hp; rewrite text_snoc, app_assoc, HN, firstn_app, firstn_all, Nat.sub_diag; cbn; apply app_nil_r|].
  assert (F' := F). apply Forall_app in F'. destruct F' as [F1 F2]. pose proof (Forall_inv F2) as [N1 N2].
  destruct cs as [|d ds] eqn:Ecs.
  - rewrite HN, Hp. unfold text. cbn. destruct a; cbn.
    + rewrite app_nil_r.
      assert (G : forall i, (i <= S (length c))%nat -> last_slash i (slash :: c ++ [slash]) = None).
      { induction i as [|i IH]; intros L; auto. cbn [last_slash]. destruct i as [|i]; auto.
        assert (X : nth (S i) (slash :: c ++ [slash]) 0 <> slash).
        { cbn. rewrite app_nth1 by lia. intros E. apply N2. rewrite <- E. apply nth_In. lia. }
        apply Z.eqb_neq in X. rewrite X. apply IH. lia. }
      exact (G (S (length c)) (le_n _)).
    + rewrite app_nil_r.
      assert (G : forall i, (i <= length c)%nat -> last_slash i (c ++ [slash]) = None).
      { induction i as [|i IH]; intros L; auto. cbn [last_slash]. destruct i as [|i]; auto.
        assert (X : nth (S i) (c ++ [slash]) 0 <> slash).
        { rewrite app_nth1 by lia. intros E. apply N2. rewrite <- E. apply nth_In. lia. }
        apply Z.eqb_neq in X. rewrite X. apply IH. lia. }
      exact (G (length c) (le_n _)).
  - rewrite <- Ecs in *. assert (NE : cs <> []) by (rewrite Ecs; discriminate).
    pose proof (text_long a cs F1 NE) as LL.
    destruct (exists_last NE) as (cs' & x & Ex).
    destruct (text_last a cs' x) as [q Hq]. rewrite <- Ex in Hq.
    exists (length q). split.
    + rewrite HN, app_length. rewrite Hp, text_snoc. rewrite (last_slash_plain c (text a cs) (length (text a cs) + length c)%nat N2); try lia.
      rewrite Hq. apply last_slash_here. rewrite Hq in LL. exact LL.
    + rewrite Hp, text_snoc, Hq. replace (length q + 1)%nat with (length (q ++ [slash])) by (rewrite app_length; reflexivity).
      rewrite firstn_app, firstn_all, Nat.sub_diag. cbn. apply app_nil_r.
Qed.

(** ** What mkdir_p does *)
Definition mk (s : os) (d : bool * list path) : os :=
  {| names := names s; files := files s; fresh := fresh s; fds := fds s; dirs := add_dir (dirs s) d |}.
Lemma dir_eqb_refl d : dir_eqb d d = true.
Proof. unfold dir_eqb. destruct list_eq_dec; [apply Bool.eqb_reflx|congruence]. Qed.
Lemma dir_eqb_eq d e : dir_eqb d e = true -> d = e.
Proof.
  unfold dir_eqb. destruct list_eq_dec as [E|]; [|discriminate]. intros H. apply Bool.eqb_prop in H.
  destruct d, e; cbn in *; congruence.
Qed.
Lemma mk_same s d : dirs (mk s d) d = true. Proof. cbn. unfold add_dir. rewrite dir_eqb_refl. auto. Qed.
Lemma mk_other s d e : e <> d -> dirs (mk s d) e = dirs s e.
Proof. intros H. cbn. unfold add_dir. destruct (dir_eqb e d) eqn:E; auto. apply dir_eqb_eq in E. congruence. Qed.

Definition result (missing : list path) : Z :=
  match missing with [] => EEXIST | [_] => 0 | _ => ENOENT end.
Definition after (s : os) (a : bool) (there missing : list path) : os :=
  match missing with
  | [] => s
  | [x] => mk s (a, there ++ [x])
  | x :: y :: _ => mk (mk s (a, there ++ [x])) (a, there ++ [x; y])
  end.

Lemma app_snoc_inj {X} (l1 l2 : list X) x y : l1 ++ [x] = l2 ++ [y] -> l1 = l2 /\ x = y.
Proof. apply app_inj_tail. Qed.

Lemma wp_visit {R} m a there Q (I : os -> Prop) : (forall c, may_fail m c = false) -> (forall s, I s) ->
  forall missing n s,
  dirs s (a, there) = true ->
  (forall j, (1 <= j <= length missing)%nat -> dirs s (a, there ++ firstn j missing) = false) ->
  Forall plain (there ++ missing) -> there ++ missing <> [] ->
  (length missing < n)%nat ->
  forall k : Z -> prog R,
  wp m I (k (result missing)) Q (after s a there missing) ->
  wp m I (visit n (text a (there ++ missing)) k) Q s.
Proof.
  intros NF HI missing. induction missing as [|c miss IH] using rev_ind; intros n s HT HM F NE L k K.
  - destruct n as [|n]; [cbn in L; lia|]. rewrite app_nil_r in *.
    destruct (exists_last NE) as (cs & c & ->). destruct (parent_of a cs c F) as [P1 P2].
    cbn [visit]. cbv zeta in P1. rewrite P1. pose proof (dir_of_text a cs c F) as DO.
    split; auto. intros r s' H. inversion H; subst; clear H; try congruence.
    rewrite DO in *. cbn. exact K.
  - destruct n as [|n]; [lia|]. rewrite app_assoc in *. destruct (parent_of a (there ++ miss) c F) as [P1 P2].
    cbn [visit]. cbv zeta in P1, P2. rewrite P1. pose proof (dir_of_text a (there ++ miss) c F) as DO.
    assert (HS : dirs s (a, (there ++ miss) ++ [c]) = false).
    { specialize (HM (length (miss ++ [c]))). rewrite firstn_all in HM. rewrite <- app_assoc. apply HM. rewrite app_length. cbn. lia. }
    split; auto. intros r s' H.
    destruct miss as [|x miss'].
    + (* only the last is missing *)
      rewrite !app_nil_r in *. cbn [app] in *.
      inversion H; subst; clear H; try congruence.
      * rewrite DO in *. cbn. exact K.
      * rewrite DO in *. match goal with H : (_, _) = (_, _) |- _ => injection H as <- E end.
        apply app_snoc_inj in E. destruct E as [<- <-]. congruence.
    + assert (HP : dirs s (a, there ++ x :: miss') = false).
      { specialize (HM (length (x :: miss'))). rewrite firstn_app, firstn_all, Nat.sub_diag in HM. cbn [firstn] in HM. rewrite app_nil_r in HM.
        apply HM. rewrite app_length. cbn. lia. }
      destruct (there ++ x :: miss') as [|d ds] eqn:EQ; [destruct there; discriminate|]. rewrite <- EQ in *.
      destruct P2 as (i & P2 & P3). rewrite P2, P3.
      inversion H; subst; clear H; try congruence.
      * rewrite DO in *. match goal with H : (_, _) = (_, _) |- _ => injection H as <- E end.
        apply app_snoc_inj in E. destruct E as [<- <-]. congruence.
      * cbn [ret errno fail]. cbn [Z.eqb negb andb ENOENT Pos.eqb].
        apply IH; auto.
        -- intros j Hj. specialize (HM j). rewrite app_length in HM. rewrite firstn_app in HM.
           replace (j - length (x :: miss'))%nat with 0%nat in HM by (cbn [length] in *; lia). cbn [firstn] in HM. rewrite app_nil_r in HM.
           apply HM. cbn [length] in *. lia.
        -- apply Forall_app in F. apply F.
        -- intros X. rewrite X in EQ. discriminate.
        -- rewrite app_length in L. cbn [length] in *. lia.
        -- destruct miss' as [|y miss''].
           ++ (* two are missing: the parent has been made *)
              cbn [result after Z.eqb]. split; auto. intros r s2 H. cbn [result after app] in *.
              assert (D1 : dirs (mk s' (a, there ++ [x])) (a, (there ++ [x]) ++ [c]) = false).
              { rewrite mk_other; auto. intros X. injection X as X. apply (f_equal (@length _)) in X. rewrite !app_length in X. cbn in X. lia. }
              inversion H; subst; clear H; try congruence.
              ** cbn [ret ok]. cbn [Z.eqb]. rewrite DO. rewrite <- app_assoc. exact K.
              ** rewrite DO in *.
                 match goal with H4 : (_, _) = (?a1, ?cs0 ++ [_]), H5 : dirs (mk _ _) (?a1, ?cs0) = false |- _ =>
                   injection H4 as <- E; apply app_snoc_inj in E; destruct E as [<- _]; rewrite mk_same in H5; discriminate end.
           ++ cbn [result after]. cbn [Z.eqb ENOENT Pos.eqb]. exact K.
Qed.

(** Whatever fails: only the directories on the way to the path are made, and nothing else happens. *)
Definition on_the_way (s0 : os) (a : bool) (cs : list path) (s : os) : Prop :=
  names s = names s0 /\ files s = files s0 /\ fds s = fds s0
  /\ (forall d, dirs s0 d = true -> dirs s d = true)
  /\ (forall d, dirs s d = true -> dirs s0 d = true \/ exists n, (0 < n)%nat /\ d = (a, firstn n cs)).

Lemma on_the_way_mk s0 a cs s cs' : on_the_way s0 a cs s -> (exists n, (0 < n)%nat /\ cs' = firstn n cs) ->
  on_the_way s0 a cs (mk s (a, cs')).
Proof.
  intros (A & B & C & D & E) (n & Hn & ->). repeat split; auto.
  - intros d Hd. cbn. unfold add_dir. destruct dir_eqb; auto.
  - intros d Hd. cbn in Hd. unfold add_dir in Hd. destruct (dir_eqb d (a, firstn n cs)) eqn:X; auto.
    apply dir_eqb_eq in X. eauto.
Qed.

Lemma wp_visit_any {R} m s0 a cs Q : Forall plain cs -> forall n j s (k : Z -> prog R),
  on_the_way s0 a cs s -> (0 < j <= length cs)%nat -> (j <= n)%nat ->
  (forall e s', on_the_way s0 a cs s' -> 0 <= e -> (e = 0 -> dirs s' (a, firstn j cs) = true) ->
     wp m (on_the_way s0 a cs) (k e) Q s') ->
  wp m (on_the_way s0 a cs) (visit n (text a (firstn j cs)) k) Q s.
Proof.
  intros F n. induction n as [|n IH]; intros j s k I0 J L K; [lia|].
  assert (LJ : length (firstn j cs) = j) by (rewrite firstn_length; lia).
  assert (NE : firstn j cs <> []) by (intros X; rewrite X in LJ; cbn in LJ; lia).
  destruct (exists_last NE) as (ds & c & Ec).
  assert (Lds : length ds = (j - 1)%nat) by (rewrite Ec, app_length in LJ; cbn in LJ; lia).
  assert (Eds : ds = firstn (j - 1) cs).
  { assert (X : firstn (j - 1) (firstn j cs) = ds) by (rewrite Ec, firstn_app, <- Lds, firstn_all, Nat.sub_diag; cbn; apply app_nil_r).
    rewrite firstn_firstn, Nat.min_l in X by lia. auto. }
  assert (F' : Forall plain (ds ++ [c])).
  { rewrite <- Ec. rewrite <- (firstn_skipn j cs) in F. apply Forall_app in F. apply F. }
  destruct (parent_of a ds c F') as [P1 P2]. cbv zeta in P1, P2.
  pose proof (dir_of_text a ds c F') as DO.
  rewrite Ec. cbn [visit]. rewrite P1.
  assert (MK : forall s1 r s2, on_the_way s0 a cs s1 -> os_step m s1 (CMkdir (text a ds ++ c)) r s2 ->
     on_the_way s0 a cs s2 /\ ((ret r = 0 /\ dirs s2 (a, firstn j cs) = true) \/ (ret r <> 0 /\ errno r > 0))).
  { intros s1 r s2 I1 H. rewrite Ec. inversion H; subst; clear H; try (split; [auto|right; split; cbn; [lia|unfold EEXIST, ENOENT; lia]]).
    rewrite DO. split; [|left; split; auto; apply mk_same].
    apply on_the_way_mk; auto. exists j. split; [lia|]. auto. }
  split; auto. intros r s1 H. destruct (MK s r s1 I0 H) as (I1 & [(R0 & HD)|(R0 & R1)]).
  - rewrite R0. cbn. apply K; auto. lia.
  - apply Z.eqb_neq in R0. rewrite R0. cbn [negb andb].
    assert (Bad : forall s' e, on_the_way s0 a cs s' -> e > 0 -> wp m (on_the_way s0 a cs) (k e) Q s').
    { intros s' e X He. apply K; auto; [lia|]. intros; lia. }
    destruct (Z.eqb_spec (errno r) ENOENT) as [EN|EN]; [|apply Bad; auto].
    destruct ds as [|d ds'] eqn:Ed.
    + rewrite P2. apply Bad; auto.
    + rewrite <- Ed in *. destruct P2 as (i & P2 & P3). rewrite P2, P3, Eds.
      apply IH; auto; [rewrite Ed in Lds; cbn in Lds; lia|lia|].
      intros e s2 I2 He Hd. destruct (e =? 0); [|apply Bad; auto].
      split; auto. intros r' s3 H'. destruct (MK s2 r' s3 I2 ltac:(rewrite Eds; exact H')) as (I3 & [(R2 & _)|(R2 & R3)]).
      * rewrite R2. cbn. apply Bad; auto.
      * apply Z.eqb_neq in R2. rewrite R2. apply Bad; auto.
Qed.

(** The string given to mkdir_p, with or without a slash at the end. *)
Lemma mkdir_p_text {R} a cs p (k : Z -> prog R) : Forall plain cs -> cs <> [] ->
  p = text a cs \/ p ++ [slash] = text a cs ->
  exists n, (length cs < n)%nat /\ mkdir_p p k = visit n (text a cs) k.
Proof.
  intros F NE Hp. destruct (exists_last NE) as (ds & c & Ec).
  assert (LT : (length cs < length (text a cs))%nat).
  { assert (X : (2 * length cs <= length (flat_map (fun c => c ++ [slash]) cs))%nat).
    { clear - F. induction F as [|c cs [N1 N2] F IH]; cbn; [lia|]. rewrite !app_length. cbn.
      destruct c; [congruence|]. cbn. lia. }
    unfold text. rewrite app_length. destruct cs; [congruence|]. cbn [length] in *. lia. }
  exists (length (text a cs)). split; auto.
  assert (E : text a cs = (text a ds ++ c) ++ [slash]) by (rewrite Ec, text_snoc, app_assoc; auto).
  unfold mkdir_p. destruct Hp as [->|Hp].
  - assert (RV : rev (text a cs) = slash :: rev (text a ds ++ c)) by (rewrite E, rev_app_distr; auto).
    rewrite RV, Z.eqb_refl. auto.
  - rewrite E in Hp. apply app_snoc_inj in Hp. destruct Hp as [-> _].
    assert (Fc : plain c) by (rewrite Ec in F; apply Forall_app in F; destruct F as [_ F]; inversion F; auto).
    destruct Fc as [N1 N2]. destruct (exists_last N1) as (c' & x & Ex). 
    assert (RV : rev (text a ds ++ c) = x :: rev (text a ds ++ c')) by (rewrite Ex, app_assoc, rev_app_distr; auto).
    assert (X : (x =? slash) = false). { apply Z.eqb_neq. intros ->. apply N2. rewrite Ex. apply in_or_app. right. left. auto. }
    rewrite RV, X, E. auto.
Qed.
