(** Watch mode: what is pruned, and histories of rebuilds. *)
From Verif Require Export CompileProofs.
Open Scope nat_scope.

Lemma mem_spec : forall i l, reflect (In i l) (existsb (Nat.eqb i) l).
Proof.
  intros i l. destruct (existsb (Nat.eqb i) l) eqn:E; constructor.
  - apply existsb_exists in E. destruct E as (j & J & H). apply Nat.eqb_eq in H. subst. assumption.
  - intros H. apply Bool.not_true_iff_false in E. apply E. apply existsb_exists. exists i. split; [assumption|apply Nat.eqb_refl].
Qed.

Lemma same_nth : forall A (l l' : list A), (forall i, nth_error l i = nth_error l' i) -> l = l'.
Proof.
  induction l as [|x l IH]; intros [|y l'] H; [reflexivity|specialize (H 0); discriminate|specialize (H 0); discriminate|]. pose proof (H 0) as H0. cbn in H0. injection H0 as ->.
  f_equal. apply IH. intros i. exact (H (S i)).
Qed.

Section WATCH.
Context {Pat Ast Out : Type}.
Variable parse : name -> list Z -> option (Ast * list Pat).
Variable resolve : (name -> list Z) -> name -> Pat -> name.
Variable solve : nat -> name -> Ast -> list nat -> (nat -> option Out) -> option Out.
Notation module := (@module Pat Ast Out).
Notation state := (@state Pat Ast Out).

(** ** Pruning *)
Section PRUNE.
Variable ms1 : list module.
Record pruned (ms : list module) (inv : list nat) : Prop := {
  p_len : length ms = length ms1;
  p_nodup : NoDup inv;
  p_range : forall i, In i inv -> 1 <= i < length ms1;
  p_zero : nth_error ms 0 = nth_error ms1 0;
  p_nth : forall i m, 1 <= i -> nth_error ms1 i = Some m -> (In i inv /\ nth_error ms i = Some (clear m)) \/ (~ In i inv /\ nth_error ms i = Some m);
  p_keep : forall i m, 1 <= i -> nth_error ms1 i = Some m -> ~ In i inv -> m_out m <> None;
  p_stale : forall i, In i inv -> stale ms1 i }.
Lemma clear_at_nth : forall (ms : list module) i j, nth_error (clear_at ms i) j = if i =? j then option_map clear (nth_error ms j) else nth_error ms j.
Proof.
  intros ms i j. unfold clear_at. destruct (nth_error ms i) as [m|] eqn:N.
  - destruct (Nat.eqb_spec i j) as [<-|Ne]; [|apply set_nth_other; assumption]. rewrite N. apply set_nth_same. apply nth_error_Some. congruence.
  - destruct (Nat.eqb_spec i j) as [<-|Ne]; [rewrite N; reflexivity|reflexivity].
Qed.
Lemma clear_at_len : forall (ms : list module) i, length (clear_at ms i) = length ms.
Proof. intros ms i. unfold clear_at. destruct (nth_error ms i); [apply set_nth_length|reflexivity]. Qed.
Lemma prune_add : forall ms inv i m, pruned ms inv -> 1 <= i -> nth_error ms i = Some m -> m_in m <> None -> (exists j, In j (m_imports m) /\ In j inv) -> pruned (clear_at ms i) (i :: inv).
Proof.
  intros ms inv i m P I1 N Hin (j & J1 & J2).
  assert (Li : i < length ms1). { rewrite <- (p_len _ _ P). apply nth_error_Some. congruence. }
  destruct (nth_error ms1 i) as [m1|] eqn:N1; [|apply nth_error_None in N1; lia].
  destruct (p_nth _ _ P i m1 I1 N1) as [(A & B)|(A & B)]; [rewrite N in B; injection B as ->; exfalso; apply Hin; reflexivity|].
  rewrite N in B. injection B as ->. constructor.
  - rewrite clear_at_len. apply (p_len _ _ P).
  - constructor; [assumption|apply (p_nodup _ _ P)].
  - intros k [<-|K]; [lia|apply (p_range _ _ P); assumption].
  - rewrite clear_at_nth. destruct (Nat.eqb_spec i 0); [lia|apply (p_zero _ _ P)].
  - intros k mk K Nk. rewrite clear_at_nth. destruct (Nat.eqb_spec i k) as [<-|Ne].
    + left. split; [left; reflexivity|]. rewrite N. assert (m1 = mk) by congruence. subst mk. reflexivity.
    + destruct (p_nth _ _ P k mk K Nk) as [(X & Y)|(X & Y)]; [left; split; [right; assumption|assumption]|right; split; [|assumption]]. intros [E|E]; [congruence|contradiction].
  - intros k mk K Nk X. apply (p_keep _ _ P k mk K Nk). intros Y. apply X. right. assumption.
  - intros k [<-|K]; [|apply (p_stale _ _ P); assumption]. eapply stale_import; [exact I1|exact N1|exact J1|apply (p_stale _ _ P); assumption].
Qed.
Lemma prune_round_ok : forall l ms inv rep, (forall i, In i l -> 1 <= i) -> pruned ms inv ->
  let '(ms', inv', rep') := prune_round ms inv rep l in
  pruned ms' inv' /\ ((rep' = true /\ (length inv < length inv' \/ rep = true /\ inv' = inv)) \/ (rep' = false /\ rep = false /\ inv' = inv /\ ms' = ms /\
     forall i m j, In i l -> nth_error ms i = Some m -> In j (m_imports m) -> ~ In j inv)).
Proof.
  induction l as [|i l IH]; intros ms inv rep Hl P; cbn [prune_round].
  - split; [assumption|]. destruct rep; [left; auto|right]. split; [reflexivity|]. split; [reflexivity|]. split; [reflexivity|]. split; [reflexivity|]. intros i m j H. destruct H.
  - assert (Hl' : forall k, In k l -> 1 <= k) by (intros k K; apply Hl; right; assumption).
    destruct (existsb (fun j => existsb (Nat.eqb j) inv) (match nth_error ms i with Some m => m_imports m | None => [] end)) eqn:E.
    + apply existsb_exists in E. destruct E as (j & J1 & J2). destruct (mem_spec j inv) as [J|J]; [|discriminate]. destruct (nth_error ms i) as [m|] eqn:N; [|destruct J1].
      assert (P' : pruned (clear_at ms i) (i :: inv)). { eapply prune_add; eauto; [apply Hl; left; reflexivity|]. unfold m_imports in J1. destruct (m_in m); [discriminate|destruct J1]. }
      specialize (IH _ _ true Hl' P'). destruct (prune_round (clear_at ms i) (i :: inv) true l) as ((ms', inv'), rep'). destruct IH as (A & [(B & C)|(_ & B & _)]); [|discriminate].
      split; [assumption|]. left. split; [assumption|]. left. destruct C as [C|(_ & ->)]; cbn in *; lia.
    + specialize (IH ms inv rep Hl' P). destruct (prune_round ms inv rep l) as ((ms', inv'), rep'). destruct IH as (A & [B|(B1 & B2 & B3 & B4 & B5)]); (split; [assumption|]); [left; assumption|right].
      split; [assumption|]. split; [assumption|]. split; [assumption|]. split; [assumption|]. intros k m j [<-|K] N J; [|eapply B5; eauto]. rewrite N in E. intros X.
      apply Bool.not_true_iff_false in E. apply E. apply existsb_exists. exists j. split; [assumption|]. destruct (mem_spec j inv); [reflexivity|contradiction].
Qed.
Definition closed (ms : list module) (inv : list nat) : Prop := forall i m j, 1 <= i -> nth_error ms i = Some m -> In j (m_imports m) -> ~ In j inv.
Lemma prune_loop_ok : forall fuel ms inv, pruned ms inv -> length ms1 < fuel + length inv -> exists ms' inv', prune_loop fuel ms inv = Some ms' /\ pruned ms' inv' /\ closed ms' inv'.
Proof.
  induction fuel as [|fuel IH]; intros ms inv P H.
  - exfalso. assert (length inv <= length (seq 0 (length ms1))). { apply NoDup_incl_length; [apply (p_nodup _ _ P)|]. intros i Hi. apply in_seq. apply (p_range _ _ P) in Hi. lia. } rewrite seq_length in *. lia.
  - cbn [prune_loop]. pose proof (prune_round_ok (seq 1 (length ms - 1)) ms inv false ltac:(intros i Hi; apply in_seq in Hi; lia) P) as R.
    destruct (prune_round ms inv false (seq 1 (length ms - 1))) as ((ms', inv'), rep'). destruct R as (P' & [(-> & [C|(C & _)])|(-> & _ & -> & -> & C)]); [|discriminate|].
    + apply IH; [assumption|lia].
    + exists ms, inv. split; [reflexivity|]. split; [assumption|]. intros i m j I1 N J. eapply C; eauto. apply in_seq. assert (i < length ms) by (apply nth_error_Some; congruence). lia.
Qed.
Lemma clear_all_nth : forall l (ms : list module) j, nth_error (fold_left clear_at l ms) j = if existsb (Nat.eqb j) l then option_map clear (nth_error ms j) else nth_error ms j.
Proof.
  induction l as [|i l IH]; intros ms j; cbn [fold_left existsb]; [reflexivity|]. rewrite IH, clear_at_nth. rewrite (Nat.eqb_sym j i). destruct (i =? j); cbn [orb]; [|reflexivity].
  destruct (existsb (Nat.eqb j) l); destruct (nth_error ms j) as [m|]; reflexivity.
Qed.
Lemma clear_all_len : forall l (ms : list module), length (fold_left clear_at l ms) = length ms.
Proof. induction l as [|i l IH]; intros ms; cbn; [reflexivity|]. rewrite IH. apply clear_at_len. Qed.
Lemma no_out_in : forall i, In i (no_out ms1) <-> 1 <= i /\ exists m, nth_error ms1 i = Some m /\ m_out m = None.
Proof.
  intros i. unfold no_out. rewrite filter_In, in_seq. unfold has_out, out_of. split.
  - intros (A & B). split; [lia|]. destruct (nth_error ms1 i) as [m|] eqn:N; [|apply nth_error_None in N; lia]. exists m. split; [reflexivity|]. destruct (m_out m); [discriminate|reflexivity].
  - intros (A & m & N & O). assert (i < length ms1) by (apply nth_error_Some; congruence). split; [lia|]. rewrite N, O. reflexivity.
Qed.
Lemma prune_start : pruned (fold_left clear_at (no_out ms1) ms1) (no_out ms1).
Proof.
  constructor.
  - apply clear_all_len.
  - apply NoDup_filter, seq_NoDup.
  - intros i H. apply no_out_in in H. destruct H as (A & m & N & _). split; [assumption|]. apply nth_error_Some. congruence.
  - rewrite clear_all_nth. destruct (mem_spec 0 (no_out ms1)) as [H|H]; [apply no_out_in in H; lia|reflexivity].
  - intros i m I1 N. rewrite clear_all_nth. destruct (mem_spec i (no_out ms1)) as [H|H]; [left|right]; (split; [assumption|]); rewrite N; reflexivity.
  - intros i m I1 N H O. apply H. apply no_out_in. split; [assumption|]. exists m. auto.
  - intros i H. apply no_out_in in H. destruct H as (A & m & N & O). eapply stale_out; eauto.
Qed.
Lemma prune_ok : forall c, exists s inv, watch_pruneModules (State ms1 c) = Some s /\ files s = c /\ pruned (modules s) inv /\ closed (modules s) inv.
Proof.
  intros c. unfold watch_pruneModules. cbn [modules files]. pose proof prune_start as P. destruct (no_out ms1) as [|i l] eqn:E.
  - exists (State (fold_left clear_at [] ms1) c), []. split; [reflexivity|]. split; [reflexivity|]. split; [exact P|]. intros a b j _ _ _ H. destruct H.
  - destruct (prune_loop_ok (S (length (fold_left clear_at (i :: l) ms1))) _ _ P) as (ms' & inv' & -> & P' & C'); [rewrite clear_all_len; lia|]. exists (State ms' c), inv'. auto.
Qed.
Lemma pruned_stale : forall ms inv, pruned ms inv -> closed ms inv -> forall i, 1 <= i < length ms1 -> In i inv <-> stale ms1 i.
Proof.
  intros ms inv P C i Hi. split; [apply (p_stale _ _ P)|]. intros S. clear Hi. induction S as [i m I1 N O|i m j I1 N J S IH].
  - destruct (in_dec Nat.eq_dec i inv) as [H|H]; [assumption|]. destruct (p_keep _ _ P i m I1 N H O).
  - destruct (p_nth _ _ P i m I1 N) as [(A & _)|(A & B)]; [assumption|]. destruct (C i m j I1 B J IH).
Qed.
End PRUNE.

(** ** What changed on disk *)
Definition changed (s : state) (d' : name -> list Z) (m : module) : bool := negb (name_eqb (shown (files s (m_fname m))) (shown (Some (d' (m_fname m))))).
Lemma getFile_at : forall d (s : state) f, cached d s -> snd (getFile d s f) = d f /\ modules (fst (getFile d s f)) = modules s /\ cached d (fst (getFile d s f)) /\ files (fst (getFile d s f)) f <> None /\ (forall g, files s g <> None -> files (fst (getFile d s f)) g <> None).
Proof.
  intros d s f C. unfold getFile. destruct (files s f) as [x|] eqn:X; cbn.
  - split; [apply C; assumption|]. split; [reflexivity|]. split; [assumption|]. split; [congruence|auto].
  - split; [reflexivity|]. split; [reflexivity|]. split; [|split; [destruct (name_eqb_spec f f); congruence|]].
    + intros g y. cbn. destruct (name_eqb_spec f g) as [<-|]; [|apply C]. congruence.
    + intros g H. destruct (name_eqb_spec f g); congruence.
Qed.
Definition needs_step (d' : name -> list Z) (s : state) : state * bool -> nat -> state * bool :=
  fun '(t, some) i =>
    match nth_error (modules t) i with
    | None => (t, some)
    | Some m => let (t, src) := getFile d' t (m_fname m) in
                if name_eqb (shown (files s (m_fname m))) (shown (Some src)) then (t, some) else (State (clear_at (modules t) i) (files t), true)
    end.
Lemma needs_fold : forall d' s l acc, cached d' (fst acc) -> (forall i m, nth_error (modules s) i = Some m -> exists m', nth_error (modules (fst acc)) i = Some m' /\ m_fname m' = m_fname m) ->
  let t := fst (fold_left (needs_step d' s) l acc) in
  cached d' t /\ (forall g, files (fst acc) g <> None -> files t g <> None) /\
  (forall i, In i l -> forall m, nth_error (modules s) i = Some m -> files t (m_fname m) <> None) /\
  forall i, nth_error (modules t) i = option_map (fun m => if existsb (Nat.eqb i) l && changed s d' m then clear m else m) (nth_error (modules (fst acc)) i).
Proof.
  intros d' s. induction l as [|i l IH]; intros (t0, some) C F; cbn [fold_left fst].
  - split; [assumption|]. split; [auto|]. split; [intros i H; destruct H|]. intros i. cbn. destruct (nth_error (modules t0) i); reflexivity.
  - cbn [fst] in *. set (acc1 := needs_step d' s (t0, some) i).
    assert (X : cached d' (fst acc1) /\ (forall g, files t0 g <> None -> files (fst acc1) g <> None) /\ (forall m, nth_error (modules t0) i = Some m -> files (fst acc1) (m_fname m) <> None) /\
                forall j, nth_error (modules (fst acc1)) j = option_map (fun m => if (j =? i) && changed s d' m then clear m else m) (nth_error (modules t0) j)).
    { unfold acc1, needs_step. destruct (nth_error (modules t0) i) as [m|] eqn:N.
      - pose proof (getFile_at d' t0 (m_fname m) C) as (G1 & G2 & G3 & G4 & G5). destruct (getFile d' t0 (m_fname m)) as (t1, src). cbn [fst snd] in *. subst src.
        assert (Ch : changed s d' m = negb (name_eqb (shown (files s (m_fname m))) (shown (Some (d' (m_fname m)))))) by reflexivity.
        destruct (name_eqb (shown (files s (m_fname m))) (shown (Some (d' (m_fname m))))); cbn [fst modules files negb] in *.
        + split; [assumption|]. split; [assumption|]. split; [intros m' E; injection E as <-; assumption|]. intros j. rewrite G2. destruct (nth_error (modules t0) j) as [mj|] eqn:Nj; [|reflexivity]. cbn [option_map].
          destruct (Nat.eqb_spec j i) as [->|Ne]; [|reflexivity]. assert (mj = m) by congruence. subst mj. rewrite Ch. reflexivity.
        + split; [exact G3|]. split; [assumption|]. split; [intros m' E; injection E as <-; assumption|]. intros j. rewrite clear_at_nth, G2, (Nat.eqb_sym j i). destruct (nth_error (modules t0) j) as [mj|] eqn:Nj; [|destruct (i =? j); reflexivity]. cbn [option_map].
          destruct (Nat.eqb_spec i j) as [->|Ne]; [|reflexivity]. assert (mj = m) by congruence. subst mj. rewrite Ch. reflexivity.
      - cbn. split; [assumption|]. split; [auto|]. split; [discriminate|]. intros j. destruct (nth_error (modules t0) j) as [mj|] eqn:Nj; [|reflexivity]. cbn. destruct (Nat.eqb_spec j i) as [->|Ne]; [congruence|reflexivity]. }
    destruct X as (X1 & X2 & X3 & X4).
    destruct (IH acc1 X1) as (A & B & D & E).
    { intros j m N. destruct (F _ _ N) as (m' & N' & F'). rewrite X4, N'. cbn. destruct ((j =? i) && changed s d' m'); eexists; split; try reflexivity; assumption. }
    split; [assumption|]. split; [intros g H; apply B; apply X2; assumption|]. split.
    + intros j [<-|J] m N; [|eapply D; eauto]. destruct (F _ _ N) as (m' & N' & F'). apply B. rewrite <- F'. apply X3. assumption.
    + intros j. rewrite E, X4. destruct (nth_error (modules t0) j) as [mj|]; [|reflexivity]. cbn. rewrite (Nat.eqb_sym j i). destruct (i =? j); cbn [orb andb].
      * destruct (changed s d' mj) eqn:Ch.
        -- destruct (existsb (Nat.eqb j) l && changed s d' (clear mj)); reflexivity.
        -- rewrite Ch, andb_false_r. reflexivity.
      * reflexivity.
Qed.
Lemma needs_ok : forall d' s, let t := fst (watch_needsRebuild d' s) in
  cached d' t /\ (forall i m, 1 <= i -> nth_error (modules s) i = Some m -> files t (m_fname m) <> None) /\
  forall i, nth_error (modules t) i = option_map (fun m => if (1 <=? i) && changed s d' m then clear m else m) (nth_error (modules s) i).
Proof.
  intros d' s. pose proof (needs_fold d' s (seq 1 (length (modules s) - 1)) (State (modules s) (fun _ => None), false)) as H. cbn [fst modules files] in H.
  destruct H as (A & _ & B & C). { intros f x. discriminate. } { intros i m N. exists m. auto. }
  split; [exact A|]. split.
  - intros i m I1 N. apply (B i); [|assumption]. apply in_seq. assert (i < length (modules s)) by (apply nth_error_Some; congruence). lia.
  - intros i. specialize (C i). unfold watch_needsRebuild. change (fun '(t, some) i0 => _) with (needs_step d' s). rewrite C. destruct (nth_error (modules s) i) as [m|] eqn:N; [|reflexivity]. cbn [option_map].
    assert (L : i < length (modules s)) by (apply nth_error_Some; congruence).
    replace (existsb (Nat.eqb i) (seq 1 (length (modules s) - 1))) with (1 <=? i); [reflexivity|]. destruct (mem_spec i (seq 1 (length (modules s) - 1))) as [X|X]; rewrite in_seq in X; destruct (Nat.leb_spec 1 i); try reflexivity; lia.
Qed.

(** ** What is kept is up to date *)
Variable pre : module.
Hypothesis Hpre : prelude_ok resolve pre.
Notation inv d := (inv parse resolve solve d pre).
Lemma survive : forall d d' st ms0 ms2, inv d st ms0 -> same_resolution resolve d d' -> length ms2 = length ms0 -> nth_error ms2 0 = Some pre ->
  (forall i m, 1 <= i -> nth_error ms0 i = Some m -> nth_error ms2 i = Some (clear m) \/
     (nth_error ms2 i = Some m /\ m_out m <> None /\ d' (m_fname m) = d (m_fname m) /\ forall j, In j (m_imports m) -> out_of ms2 j <> None)) ->
  inv d' [] ms2.
Proof.
  intros d d' st ms0 ms2 I SR Len Z H.
  assert (Same : forall j, out_of ms2 j <> None -> nth_error ms2 j = nth_error ms0 j).
  { intros j O. destruct (Nat.eq_dec j 0) as [->|Nj]; [rewrite Z; symmetry; apply (i_pre _ _ _ _ _ _ _ I)|]. unfold out_of in O. destruct (nth_error ms2 j) as [m2|] eqn:N2; [|congruence].
    destruct (nth_error ms0 j) as [m0|] eqn:N0; [|apply nth_error_None in N0; rewrite <- Len in N0; apply nth_error_None in N0; congruence].
    destruct (H j m0 ltac:(lia) N0) as [E|(E & _)]; [|congruence]. rewrite N2 in E. injection E as ->. exfalso. apply O. reflexivity. }
  assert (Names : map m_fname ms2 = map m_fname ms0).
  { apply same_nth. intros i. rewrite !nth_error_map. destruct (nth_error ms0 i) as [m0|] eqn:N0.
    - destruct (Nat.eq_dec i 0) as [->|Ni]; [rewrite Z; rewrite (i_pre _ _ _ _ _ _ _ I) in N0; injection N0 as <-; reflexivity|]. destruct (H i m0 ltac:(lia) N0) as [E|(E & _)]; rewrite E; reflexivity.
    - apply nth_error_None in N0. rewrite <- Len in N0. apply nth_error_None in N0. rewrite N0. reflexivity. }
  constructor.
  - assumption.
  - rewrite Names. apply (i_nodup _ _ _ _ _ _ _ I).
  - intros i m I1 N2. assert (Li : i < length ms0). { rewrite <- Len. apply nth_error_Some. congruence. } destruct (nth_error ms0 i) as [m0|] eqn:N0; [|apply nth_error_None in N0; lia].
    destruct (H i m0 I1 N0) as [E|(E & O & Ed & Im)]; rewrite N2 in E; injection E as ->; [apply s_blank; reflexivity|].
    apply s_done. destruct (i_status _ _ _ _ _ _ _ I _ _ I1 N0) as [A B C|A B C D|(ast & l & (Hin & Df & P & Dp & Hl) & Ho)]; [contradiction|contradiction|].
    destruct (m_out m0) as [o|] eqn:Om; [|congruence]. destruct (Ho _ eq_refl) as (_ & v & V & S). unfold m_imports in Im. rewrite Hin in Im.
    exists ast, l. split.
    + split; [rewrite Hin, Ed; reflexivity|]. split; [congruence|]. split; [rewrite Ed; assumption|]. split; [assumption|]. intros p j J. destruct (Hl _ _ J) as (J1 & mj & Nj & Fj & Dj). split; [assumption|]. exists mj.
      split; [rewrite Same; [assumption|]|split; [rewrite Fj; apply SR|assumption]]. apply Im. apply in_map_iff. exists (p, j). auto.
    + intros o' Eo'. assert (o' = o) by congruence. subst o'. split; [intros p j J; apply Im; apply in_map_iff; exists (p, j); auto|]. exists v. split; [|assumption].
      (* what is used *)
      assert (Cl : forall k mk, 1 <= k -> nth_error ms2 k = Some mk -> m_out mk <> None -> forall j, In j (m_imports mk) -> out_of ms2 j <> None).
      { intros k mk K Nk Ok j J. assert (N0k : nth_error ms0 k = Some mk) by (rewrite <- Same; [assumption|unfold out_of; rewrite Nk; assumption]). destruct (H k mk K N0k) as [E|(_ & _ & _ & E)]; [|auto]. rewrite Nk in E. injection E as E. rewrite E in Ok. exfalso. apply Ok. reflexivity. }
      assert (Dl : forall j, In j (map snd l) -> 1 <= j /\ out_of ms2 j <> None). { intros j J. split; [|auto]. apply in_map_iff in J. destruct J as ((p & j') & <- & J). apply (Hl _ _ J). }
      assert (Dk : forall k mk, 1 <= k -> nth_error ms2 k = Some mk -> m_out mk <> None -> forall j, In j (m_imports mk) -> 1 <= j /\ out_of ms2 j <> None).
      { intros k mk K Nk Ok j J. split; [|eapply Cl; eauto]. assert (N0k : nth_error ms0 k = Some mk) by (rewrite <- Same; [assumption|unfold out_of; rewrite Nk; assumption]).
        destruct (i_status _ _ _ _ _ _ _ I _ _ K N0k) as [A B C|A B C D|Dn]; [congruence|congruence|]. apply done_imports in Dn. rewrite Forall_forall in Dn. apply (Dn _ J). }
      assert (U1 : forall li j, uses ms2 li j -> (forall k, In k li -> 1 <= k /\ out_of ms2 k <> None) -> uses ms0 li j /\ out_of ms2 j <> None).
      { intros li j U. induction U as [li j Hj|li k mk j Hk Nk U IH]; intros F; [split; [apply uses_in; assumption|apply F; assumption]|]. destruct (F _ Hk) as (K & Ok). destruct IH as (X & Y).
        - apply (Dk k mk K Nk). unfold out_of in Ok. rewrite Nk in Ok. assumption.
        - split; [|assumption]. apply uses_more with (i := k) (m := mk); auto. rewrite <- Same; assumption. }
      assert (U2 : forall li j, uses ms0 li j -> (forall k, In k li -> 1 <= k /\ out_of ms2 k <> None) -> uses ms2 li j).
      { intros li j U. induction U as [li j Hj|li k mk j Hk Nk U IH]; intros F; [apply uses_in; assumption|]. destruct (F _ Hk) as (K & Ok). assert (Nk2 : nth_error ms2 k = Some mk) by (rewrite Same; assumption).
        apply uses_more with (i := k) (m := mk); auto. apply IH. apply (Dk k mk K Nk2). unfold out_of in Ok. rewrite Nk2 in Ok. assumption. }
      intros j. destruct (V j) as (V1 & V2). split; intros X.
      * assert (O2 : out_of ms2 j <> None). { destruct X as [->|X]; [unfold out_of; rewrite Z; apply Hpre|]. apply (U1 _ _ X Dl). }
        assert (Eo : out_of ms2 j = out_of ms0 j) by (unfold out_of; rewrite Same by assumption; reflexivity).
        rewrite Eo. apply V1. destruct X as [->|X]; [left; reflexivity|right]. apply (U1 _ _ X Dl).
      * apply V2. intros Y. apply X. destruct Y as [->|Y]; [left; reflexivity|right]. apply U2; assumption.
  - intros f F. destruct F.
Qed.
Definition sound (d : name -> list Z) (s : state) : Prop := (exists st, inv d st (modules s)) /\ cached d s /\ read s.
Lemma prepare : forall d d' s, sound d s -> same_resolution resolve d d' -> no_vtab d -> no_vtab d' ->
  exists s1, watch_pruneModules (fst (watch_needsRebuild d' s)) = Some s1 /\ inv d' [] (modules s1) /\ cached d' s1 /\ read s1 /\ map m_fname (modules s1) = map m_fname (modules s).
Proof.
  intros d d' s ((st & I) & C & R) SR NV NV'. pose proof (needs_ok d' s) as (A & B & E). set (t := fst (watch_needsRebuild d' s)) in *.
  destruct (prune_ok (modules t) (files t)) as (s1 & iv & W & Fs & P & Cl). exists s1.
  assert (Wt : watch_pruneModules t = Some s1) by (destruct t; exact W). split; [assumption|].
  assert (Lt : length (modules t) = length (modules s)).
  { apply Nat.le_antisymm.
    - destruct (Nat.le_gt_cases (length (modules t)) (length (modules s))) as [L|L]; [assumption|]. apply nth_error_Some in L. rewrite E in L. replace (nth_error (modules s) (length (modules s))) with (@None module) in L by (symmetry; apply nth_error_None; lia). exfalso. apply L. reflexivity.
    - destruct (Nat.le_gt_cases (length (modules s)) (length (modules t))) as [L|L]; [assumption|]. apply nth_error_Some in L. pose proof (E (length (modules t))) as X. destruct (nth_error (modules s) (length (modules t))); [|congruence]. cbn in X. assert (Y : nth_error (modules t) (length (modules t)) <> None) by congruence. apply nth_error_Some in Y. lia. }
  assert (Z : nth_error (modules s1) 0 = Some pre). { rewrite (p_zero _ _ _ P), E, (i_pre _ _ _ _ _ _ _ I). reflexivity. }
  assert (I1 : inv d' [] (modules s1)).
  { eapply survive; eauto. { rewrite (p_len _ _ _ P). assumption. }
    intros i m Hi N. pose proof (E i) as Ei. rewrite N in Ei. cbn [option_map] in Ei. destruct (Nat.leb_spec 1 i); [|lia]. cbn [andb] in Ei.
    destruct (changed s d' m) eqn:Ch.
    - left. destruct (p_nth _ _ _ P i _ Hi Ei) as [(_ & X)|(_ & X)]; exact X.
    - destruct (p_nth _ _ _ P i _ Hi Ei) as [(_ & X)|(Ni & X)]; [left; exact X|right]. split; [assumption|]. pose proof (p_keep _ _ _ P i _ Hi Ei Ni) as O. split; [assumption|]. split.
      + destruct (i_status _ _ _ _ _ _ _ I _ _ Hi N) as [Q1 Q2 Q3|Q1 Q2 Q3 Q4|Dn]; [contradiction|contradiction|]. destruct Dn as (ast & l & (Hin & Df & _) & _).
        assert (Fm : files s (m_fname m) = Some (d (m_fname m))). { destruct (files s (m_fname m)) as [x|] eqn:X2; [rewrite (C _ _ X2); reflexivity|]. exfalso. apply (R i m Hi N); [congruence|assumption]. }
        unfold changed in Ch. rewrite Fm in Ch. apply negb_false_iff in Ch. destruct (name_eqb_spec (shown (Some (d (m_fname m)))) (shown (Some (d' (m_fname m))))) as [Sh|]; [|discriminate]. cbn in Sh.
        destruct (d (m_fname m)) as [|c x] eqn:Dm; [congruence|]. destruct (d' (m_fname m)) as [|c' x']; [|congruence]. exfalso. apply (NV (m_fname m)). congruence.
      + intros j J. pose proof (Cl i m j Hi X J) as Nj. unfold out_of. destruct (i_status _ _ _ _ _ _ _ I _ _ Hi N) as [Q1 Q2 Q3|Q1 Q2 Q3 Q4|Dn]; [contradiction|contradiction|]. apply done_imports in Dn. rewrite Forall_forall in Dn. destruct (Dn _ J) as (J1 & mj & Nj0 & _).
        pose proof (E j) as Ej. rewrite Nj0 in Ej. cbn [option_map] in Ej. destruct (p_nth _ _ _ P j _ J1 Ej) as [(Q & _)|(_ & Q)]; [contradiction|]. rewrite Q. eapply (p_keep _ _ _ P j); eauto. }
  split; [assumption|]. split; [intros f x; rewrite Fs; apply A|].
  assert (Nm : map m_fname (modules s1) = map m_fname (modules s)).
  { apply same_nth. intros i. rewrite !nth_error_map. destruct (nth_error (modules s) i) as [m|] eqn:N.
    - pose proof (E i) as Ei. rewrite N in Ei. cbn [option_map] in Ei. destruct (Nat.eq_dec i 0) as [->|Ni]; [rewrite Z; rewrite (i_pre _ _ _ _ _ _ _ I) in N; injection N as <-; reflexivity|].
      destruct (p_nth _ _ _ P i _ ltac:(lia) Ei) as [(_ & X)|(_ & X)]; rewrite X; cbn [option_map]; f_equal; destruct (_ && _); reflexivity.
    - replace (nth_error (modules s1) i) with (@None module); [reflexivity|]. symmetry. apply nth_error_None. rewrite (p_len _ _ _ P), Lt. apply nth_error_None. assumption. }
  split; [|assumption]. intros i m Hi N _. rewrite Fs. assert (Li : i < length (modules s)). { rewrite <- Lt, <- (p_len _ _ _ P). apply nth_error_Some. congruence. }
  destruct (nth_error (modules s) i) as [m0|] eqn:N0; [|apply nth_error_None in N0; lia]. replace (m_fname m) with (m_fname m0); [eapply B; eauto|].
  assert (X : nth_error (map m_fname (modules s1)) i = nth_error (map m_fname (modules s)) i) by (rewrite Nm; reflexivity). rewrite !nth_error_map, N, N0 in X. cbn in X. congruence.
Qed.
Hypothesis Hlk : looks_up solve.
Lemma rebuild_ok : forall d d' s fs fuel b main, sound d s -> same_resolution resolve d d' -> no_vtab d -> no_vtab d' -> finite_disk d' fs -> length fs < fuel -> main <> m_fname pre ->
  exists s1 s' r, rebuild parse resolve solve fuel b main s d' = Some (s', r) /\ sound d' s' /\ map m_fname (modules s1) = map m_fname (modules s) /\ inv d' [] (modules s1) /\ compile_post parse resolve solve d' pre b fuel s1 main s' r.
Proof.
  intros d d' s fs fuel b main So SR NV NV' FD Fu Mn. destruct (prepare d d' s So SR NV NV') as (s1 & W & I1 & C1 & R1 & Nm).
  pose proof (compile_ok parse resolve solve d' pre Hpre fs FD Hlk b fuel s1 main Fu I1 C1 R1 Mn) as Po.
  exists s1, (fst (compile parse resolve solve fuel b d' s1 main)), (snd (compile parse resolve solve fuel b d' s1 main)). split.
  - unfold rebuild. destruct (watch_needsRebuild d' s) as (t, x). cbn [fst] in W. rewrite W. cbn [option_map]. destruct (compile parse resolve solve fuel b d' s1 main); reflexivity.
  - split; [|auto]. destruct Po as (A & B & C & _). split; [assumption|]. auto.
Qed.
End WATCH.

Section HISTORY.
Context {Pat Ast Out : Type}.
Variable parse : name -> list Z -> option (Ast * list Pat).
Variable resolve : (name -> list Z) -> name -> Pat -> name.
Variable solve : nat -> name -> Ast -> list nat -> (nat -> option Out) -> option Out.
Notation module := (@module Pat Ast Out).
Notation state := (@state Pat Ast Out).
Variable pre : module.
Hypothesis Hpre : prelude_ok resolve pre.
Hypothesis Hlk : looks_up solve.
Variable main : name.
Hypothesis Hmain : main <> m_fname pre.
Notation sound := (sound parse resolve solve pre).

Lemma start_sound : forall d, inv parse resolve solve d pre [] (modules (start pre)) /\ cached d (start pre) /\ read (start pre).
Proof.
  intros d. split; [|split].
  - constructor; cbn; [reflexivity|repeat constructor; intros []| |intros f []]. intros [|[|i]] m I1 N; cbn in N; [lia|discriminate|discriminate].
  - intros f x. discriminate.
  - intros [|[|i]] m I1 N; cbn in N; [lia|discriminate|discriminate].
Qed.
Definition verdict (d : name -> list Z) (s : state) (r : outcome unit) : Prop :=
  match r with
  | Done _ => all_up_to_date parse resolve solve d (modules s) /\ good parse resolve d main /\ exists i m, 1 <= i /\ nth_error (modules s) i = Some m /\ m_fname m = main
  | Error Bug => good parse resolve d main /\ exists i m, 1 <= i /\ nth_error (modules s) i = Some m /\ m_in m = None /\ ~ reaches parse resolve d main (m_fname m)
  | Error SolveError => good parse resolve d main
  | Error e => blames parse resolve d e main
  | Trap => False
  end.
Lemma post_verdict : forall b fuel d s s' r, compile_post parse resolve solve d pre b fuel s main s' r -> verdict d s' r.
Proof.
  intros b fuel d s s' r (_ & _ & _ & _ & _ & P). unfold verdict. destruct r as [u|e|]; [| |assumption].
  - destruct P as (A & B & C & _). auto.
  - destruct e; try assumption; [apply P|]. destruct P as (A & i & m & I1 & _ & B & C & D). split; [assumption|]. exists i, m. auto.
Qed.
Lemma kept_trans : forall a b c : list module, names_kept a b -> names_kept b c -> names_kept a c.
Proof. intros a b c H1 H2 i m N. destruct (H1 _ _ N) as (m1 & N1 & E1). destruct (H2 _ _ N1) as (m2 & N2 & E2). exists m2. split; [assumption|congruence]. Qed.
Lemma kept_map : forall a b : list module, map m_fname a = map m_fname b -> names_kept a b.
Proof.
  intros a b E i m N. assert (X : nth_error (map m_fname a) i = nth_error (map m_fname b) i) by (rewrite E; reflexivity). rewrite !nth_error_map, N in X. cbn in X. destruct (nth_error b i) as [m'|]; [|discriminate].
  exists m'. split; [reflexivity|]. cbn in X. congruence.
Qed.
Lemma last_cons : forall A (l : list A) x y, last (x :: l) y = last l x.
Proof. induction l as [|z l IH]; intros x y; [reflexivity|]. change (last (x :: z :: l) y) with (last (z :: l) y). rewrite IH, (IH z x). reflexivity. Qed.
Definition fits (fuel : nat) (d d' : name -> list Z) : Prop := same_resolution resolve d d' /\ no_vtab d' /\ exists fs, finite_disk d' fs /\ length fs < fuel.
Lemma fits_next : forall fuel d d' ds, fits fuel d d' -> (forall x, In x ds -> fits fuel d x) -> forall x, In x ds -> fits fuel d' x.
Proof. intros fuel d d' ds (A & _) H x Hx. destruct (H _ Hx) as (X & Y). split; [|assumption]. intros f p. rewrite <- A. apply X. Qed.
Lemma rebuilds_ok : forall fuel b ds d s r, sound d s -> no_vtab d -> (forall d', In d' ds -> fits fuel d d') ->
  exists s' r', rebuilds parse resolve solve fuel b main s r ds = Some (s', r') /\ sound (last ds d) s' /\ names_kept (modules s) (modules s') /\
  ((ds = [] /\ s' = s /\ r' = r) \/ verdict (last ds d) s' r').
Proof.
  intros fuel b. induction ds as [|d1 ds IH]; intros d s r So NV F.
  - exists s, r. split; [reflexivity|]. split; [assumption|]. split; [intros i m N; exists m; auto|]. left. auto.
  - destruct (F d1 ltac:(left; reflexivity)) as (SR & NV1 & fs & FD & Fu). destruct (rebuild_ok parse resolve solve pre Hpre Hlk d d1 s fs fuel b main So SR NV NV1 FD Fu Hmain) as (s1 & s2 & r2 & E & So2 & Nm & _ & Po).
    cbn [rebuilds]. rewrite E. rewrite last_cons.
    destruct (IH d1 s2 r2 So2 NV1) as (s3 & r3 & E3 & So3 & Kn & V). { eapply fits_next; [apply F; left; reflexivity|]. intros x Hx. apply F. right. assumption. }
    exists s3, r3. split; [assumption|]. split; [assumption|]. split.
    + eapply kept_trans; [apply kept_map; symmetry; exact Nm|]. eapply kept_trans; [|exact Kn]. apply Po.
    + right. destruct V as [(-> & -> & ->)|V]; [|assumption]. cbn [last]. eapply post_verdict; eauto.
Qed.
Lemma first_ok : forall fuel b d fs, finite_disk d fs -> length fs < fuel -> exists s r, compile parse resolve solve fuel b d (start pre) main = (s, r) /\ sound d s /\ compile_post parse resolve solve d pre b fuel (start pre) main s r.
Proof.
  intros fuel b d fs FD Fu. destruct (start_sound d) as (I & C & R). pose proof (compile_ok parse resolve solve d pre Hpre fs FD Hlk b fuel (start pre) main Fu I C R Hmain) as Po.
  destruct (compile parse resolve solve fuel b d (start pre) main) as (s, r). cbn [fst snd] in Po. exists s, r. split; [reflexivity|]. split; [|assumption]. destruct Po as (A & B & C1 & _). split; [assumption|]. auto.
Qed.
Lemma watch_ok : forall fuel b d ds, fits fuel d d -> (forall d', In d' ds -> fits fuel d d') ->
  exists s r, watch parse resolve solve fuel b main pre d ds = Some (s, r) /\ sound (last ds d) s /\ verdict (last ds d) s r.
Proof.
  intros fuel b d ds F0 F. destruct F0 as (_ & NV & fs & FD & Fu). destruct (first_ok fuel b d fs FD Fu) as (s & r & E & So & Po). unfold watch. rewrite E.
  destruct (rebuilds_ok fuel b ds d s r So NV F) as (s' & r' & E' & So' & _ & V). exists s', r'. split; [assumption|]. split; [assumption|]. destruct V as [(-> & -> & ->)|V]; [|assumption]. eapply post_verdict; eauto.
Qed.
Lemma rebuilds_app : forall fuel b ds ds' (s : state) r, rebuilds parse resolve solve fuel b main s r (ds ++ ds') = match rebuilds parse resolve solve fuel b main s r ds with Some (s, r) => rebuilds parse resolve solve fuel b main s r ds' | None => None end.
Proof. intros fuel b. induction ds as [|d ds IH]; intros ds' s r; cbn [rebuilds app]; [reflexivity|]. destruct (rebuild parse resolve solve fuel b main s d) as [(s1, r1)|]; [apply IH|reflexivity]. Qed.
Lemma watch_app : forall fuel b d ds ds', watch parse resolve solve fuel b main pre d (ds ++ ds') = match watch parse resolve solve fuel b main pre d ds with Some (s, r) => rebuilds parse resolve solve fuel b main s r ds' | None => None end.
Proof. intros fuel b d ds ds'. unfold watch. destruct (compile parse resolve solve fuel b d (start pre) main) as (s, r). apply rebuilds_app. Qed.
Lemma last_app : forall A (l l' : list A) x, last (l ++ l') x = last l' (last l x).
Proof. induction l as [|y l IH]; intros l' x; [reflexivity|]. cbn [app]. rewrite !last_cons. apply IH. Qed.

(** ** A table which is up to date is determined by the names *)
Lemma current_inv : forall d ms, nth_error ms 0 = Some pre -> NoDup (map m_fname ms) -> all_up_to_date parse resolve solve d ms -> inv parse resolve solve d pre [] ms.
Proof.
  intros d ms Z ND U. constructor; auto; [|intros f []]. intros i m I1 N. destruct (U _ _ I1 N) as (ast & l & o & v & L & O & V & S). apply s_done. exists ast, l. split; [assumption|]. intros o' E. assert (o' = o) by congruence. subst o'.
  split; [|exists v; auto]. intros p j J. destruct L as (_ & _ & _ & _ & L). destruct (L _ _ J) as (J1 & mj & Nj & _). unfold out_of. rewrite Nj. destruct (U _ _ J1 Nj) as (_ & _ & oj & _ & _ & Oj & _). congruence.
Qed.
Lemma same_in : forall d ms ms', nth_error ms 0 = Some pre -> nth_error ms' 0 = Some pre -> NoDup (map m_fname ms) -> map m_fname ms = map m_fname ms' -> all_up_to_date parse resolve solve d ms -> all_up_to_date parse resolve solve d ms' ->
  forall i m m', 1 <= i -> nth_error ms i = Some m -> nth_error ms' i = Some m' -> m_in m = m_in m' /\ m_fname m = m_fname m'.
Proof.
  intros d ms ms' Z Z' ND Nm U U' i m m' I1 N N'.
  assert (F : m_fname m = m_fname m'). { assert (X : nth_error (map m_fname ms) i = nth_error (map m_fname ms') i) by (rewrite Nm; reflexivity). rewrite !nth_error_map, N, N' in X. cbn in X. congruence. }
  split; [|assumption]. destruct (U _ _ I1 N) as (ast & l & _ & _ & (A & B & P & _ & L) & _). destruct (U' _ _ I1 N') as (ast' & l' & _ & _ & (A' & B' & P' & _ & L') & _).
  rewrite F in *. rewrite P in P'. injection P' as -> Ml. rewrite A, A'. do 2 f_equal. clear - L L' Ml ND Nm.
  revert l' L' Ml. induction l as [|(p, j) l IH]; intros [|(p', j') l'] L' Ml; cbn in Ml; try discriminate; [reflexivity|]. injection Ml as <- Ml. f_equal.
  - f_equal. destruct (L p j ltac:(left; reflexivity)) as (_ & mj & Nj & Fj & _). destruct (L' p j' ltac:(left; reflexivity)) as (_ & mj' & Nj' & Fj' & _).
    eapply (NoDup_nth_error (map m_fname ms)); [assumption|rewrite map_length; apply nth_error_Some; congruence|]. rewrite nth_error_map, Nj, Nm, nth_error_map, Nj'. cbn. congruence.
  - apply IH; auto; intros q k H; [apply L|apply L']; right; assumption.
Qed.
Lemma same_outs : forall d ms ms', nth_error ms 0 = Some pre -> nth_error ms' 0 = Some pre -> NoDup (map m_fname ms) -> map m_fname ms = map m_fname ms' -> all_up_to_date parse resolve solve d ms -> all_up_to_date parse resolve solve d ms' ->
  forall k i m m', m_depth m < k -> 1 <= i -> nth_error ms i = Some m -> nth_error ms' i = Some m' -> m_out m = m_out m'.
Proof.
  intros d ms ms' Z Z' ND Nm U U'.
  pose proof (current_inv d ms Z ND U) as I. pose proof (current_inv d ms' Z' ltac:(rewrite <- Nm; exact ND) U') as I'.
  pose proof (same_in d ms ms' Z Z' ND Nm U U') as Si.
  assert (Ex : forall i m, nth_error ms i = Some m -> exists m', nth_error ms' i = Some m'). { intros i m N. destruct (kept_map _ _ Nm i m N) as (m' & N' & _). exists m'. assumption. }
  assert (Ex' : forall i m, nth_error ms' i = Some m -> exists m', nth_error ms i = Some m'). { intros i m N. destruct (kept_map _ _ (eq_sym Nm) i m N) as (m' & N' & _). exists m'. assumption. }
  assert (Us : forall l j, uses ms l j -> Forall (deep ms) l -> uses ms' l j).
  { intros l j H. induction H as [l j H|l i m j H N H' IH]; intros F; [apply uses_in; assumption|]. rewrite Forall_forall in F. destruct (F _ H) as (I1 & m0 & N0 & D0). assert (m0 = m) by congruence. subst m0. destruct (Ex _ _ N) as (m' & N').
    apply uses_more with (i := i) (m := m'); auto. destruct (Si _ _ _ I1 N N') as (E & _). unfold m_imports in *. rewrite <- E. apply IH. apply (deep_imports _ _ _ _ _ _ _ _ _ I I1 N D0). }
  assert (Us' : forall l j, uses ms' l j -> Forall (deep ms) l -> uses ms l j).
  { intros l j H. induction H as [l j H|l i m' j H N' H' IH]; intros F; [apply uses_in; assumption|]. rewrite Forall_forall in F. destruct (F _ H) as (I1 & m & N & D).
    apply uses_more with (i := i) (m := m); auto. destruct (Si _ _ _ I1 N N') as (E & _). pose proof (deep_imports _ _ _ _ _ _ _ _ _ I I1 N D) as Fi. unfold m_imports in *. rewrite E. apply IH. rewrite <- E. assumption. }
  induction k as [|k IH]; intros i m m' Dk I1 N N'; [lia|].
  destruct (U _ _ I1 N) as (ast & l & o & v & L & O & V & S). destruct (U' _ _ I1 N') as (ast' & l' & o' & v' & L' & O' & V' & S').
  destruct (Si _ _ _ I1 N N') as (E & F). assert (X : ast' = ast /\ l' = l). { destruct L as (A & _), L' as (A' & _). rewrite E, A' in A. injection A as _ -> ->. auto. } destruct X as (-> & ->).
  assert (Dl : Forall (deep ms) (map snd l)). { destruct L as (_ & _ & _ & _ & L). apply Forall_forall. intros j J. apply in_map_iff in J. destruct J as ((p & j') & <- & J). destruct (L _ _ J) as (J1 & mj & Nj & _ & Dj). split; [assumption|]. exists mj. split; [assumption|lia]. }
  assert (Less : forall a, In a (map snd l) -> 1 <= a /\ exists ma, nth_error ms a = Some ma /\ 1 <= m_depth ma < m_depth m).
  { destruct L as (_ & _ & _ & _ & L). intros j J. apply in_map_iff in J. destruct J as ((p & j') & <- & J). destruct (L _ _ J) as (J1 & mj & Nj & _ & Dj). split; [assumption|]. exists mj. auto. }
  rewrite O, O'. rewrite <- F in S'. rewrite <- S, <- S'. apply Hlk. intros j. destruct (V j) as (V1 & V2), (V' j) as (V1' & V2').
  destruct (Nat.eq_dec j 0) as [->|Nj]; [rewrite V1, V1' by (left; reflexivity); unfold out_of; rewrite Z, Z'; reflexivity|].
  destruct (sees (m_depth m) ms (map snd l) j) eqn:Se.
  - apply sees_uses in Se. rewrite V1 by (right; assumption). rewrite V1' by (right; apply Us; assumption).
    destruct (uses_less _ _ _ _ _ _ _ I _ _ Se _ Less) as (mj & Nmj & Dj). destruct (uses_deep _ _ _ _ _ _ _ I _ _ Se Dl) as (J1 & _). destruct (Ex _ _ Nmj) as (mj' & Nmj').
    unfold out_of. rewrite Nmj, Nmj'. apply (IH j); auto. lia.
  - assert (Nu : ~ uses ms (map snd l) j).
    { intros H. rewrite (uses_sees _ _ _ _ _ _ _ I _ _ H) in Se; [discriminate|]. intros a Ha. destruct (Less _ Ha) as (A1 & ma & Na & Da). split; [assumption|]. exists ma. split; [assumption|lia]. }
    rewrite V2 by tauto. rewrite V2'; [reflexivity|]. intros [H|H]; [contradiction|]. apply Nu. apply Us'; assumption.
Qed.
End HISTORY.
