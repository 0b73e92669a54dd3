(** Proofs about compiler.fu: loading, solving by levels, pruning, histories of rebuilds. *)
From Coq Require Import Sorting.Permutation.
From Verif Require Export CompileSpec.
Open Scope nat_scope.

Lemma name_eqb_spec : forall a b, reflect (a = b) (name_eqb a b).
Proof. intros a b. unfold name_eqb. destruct (list_eq_dec Z.eq_dec a b); constructor; assumption. Qed.
Lemma set_nth_length : forall A (l : list A) i x, length (set_nth l i x) = length l.
Proof. induction l as [|y l IH]; intros [|i] x; cbn; auto. Qed.
Lemma set_nth_same : forall A (l : list A) i x, i < length l -> nth_error (set_nth l i x) i = Some x.
Proof. induction l as [|y l IH]; intros [|i] x H; cbn in *; try lia; auto. apply IH; lia. Qed.
Lemma set_nth_other : forall A (l : list A) i j x, i <> j -> nth_error (set_nth l i x) j = nth_error l j.
Proof. induction l as [|y l IH]; intros [|i] [|j] x H; cbn; auto; try lia. Qed.
Lemma map_set_nth : forall A B (f : A -> B) l i x, map f (set_nth l i x) = set_nth (map f l) i (f x).
Proof. induction l as [|y l IH]; intros [|i] x; cbn; auto. rewrite IH; reflexivity. Qed.
Lemma set_nth_id : forall A (l : list A) i x, nth_error l i = Some x -> set_nth l i x = l.
Proof. induction l as [|y l IH]; intros [|i] x H; cbn in *; try discriminate; [congruence|]. rewrite IH by assumption; reflexivity. Qed.

Section PROOFS.
Context {Pat Ast Out : Type}.
Variable parse : name -> list Z -> option (Ast * list Pat).
Variable resolve : (name -> list Z) -> name -> Pat -> name.
Variable solve : nat -> name -> Ast -> list nat -> (nat -> option Out) -> option Out.
Notation module := (@module Pat Ast Out).
Notation state := (@state Pat Ast Out).
Notation imports := (imports parse resolve).
Notation reaches := (reaches parse resolve).
Notation circular := (circular parse resolve).
Notation good := (good parse resolve).
Notation loaded := (loaded parse resolve).
Notation load := (load parse resolve).

Lemma index_of_some : forall (ms : list module) f k i, index_of ms f k = Some i -> exists j m, i = k + j /\ nth_error ms j = Some m /\ m_fname m = f.
Proof.
  induction ms as [|m ms IH]; intros f k i H; cbn in H; [discriminate|].
  destruct (name_eqb_spec (m_fname m) f).
  - injection H as <-. exists 0, m. auto with arith.
  - destruct (IH _ _ _ H) as (j & m' & E & N & F). exists (S j), m'. split; [lia|]. auto.
Qed.
Lemma index_of_none : forall (ms : list module) f k, index_of ms f k = None -> forall i m, nth_error ms i = Some m -> m_fname m <> f.
Proof.
  induction ms as [|m ms IH]; intros f k H i m' N; [destruct i; discriminate|]. cbn in H.
  destruct (name_eqb_spec (m_fname m) f); [discriminate|]. destruct i; cbn in N; [congruence|]. eapply IH; eauto.
Qed.

Section DISK.
Variable d : name -> list Z.
Variable pre : module.
Hypothesis Hpre : prelude_ok resolve pre.
Variable fs : list name.
Hypothesis Hfs : finite_disk d fs.

(** Mod [m], number [i], was loaded; if it has an output, then all its imports have one, and it is up to date *)
Definition done (ms : list module) (i : nat) (m : module) : Prop :=
  exists ast l, loaded d ms m ast l /\
    forall o, m_out m = Some o -> (forall p j, In (p, j) l -> out_of ms j <> None) /\
      exists v, view ms (map snd l) v /\ solve i (m_fname m) ast (map snd l) v = Some o.
Inductive status (st : list name) (ms : list module) (i : nat) (m : module) : Prop :=
| s_blank : m_in m = None -> m_depth m = 0 -> m_out m = None -> status st ms i m
| s_open : m_in m <> None -> m_depth m = 0 -> m_out m = None -> In (m_fname m) st -> status st ms i m
| s_done : done ms i m -> status st ms i m.
Record inv (st : list name) (ms : list module) : Prop := {
  i_pre : nth_error ms 0 = Some pre;
  i_nodup : NoDup (map m_fname ms);
  i_status : forall i m, 1 <= i -> nth_error ms i = Some m -> status st ms i m;
  i_stack : forall f, In f st -> exists i m, 1 <= i /\ nth_error ms i = Some m /\ m_fname m = f /\ m_in m <> None }.
Definition deep (ms : list module) (j : nat) : Prop := 1 <= j /\ exists m, nth_error ms j = Some m /\ 1 <= m_depth m.

Lemma names_unique : forall (ms : list module) i j m m', NoDup (map m_fname ms) -> nth_error ms i = Some m -> nth_error ms j = Some m' -> m_fname m = m_fname m' -> i = j.
Proof.
  intros ms i j m m' ND Hi Hj E. eapply (NoDup_nth_error (map m_fname ms)); auto.
  - rewrite map_length. apply nth_error_Some; congruence.
  - rewrite !nth_error_map, Hi, Hj. cbn. congruence.
Qed.
Lemma status_done : forall st ms i m, status st ms i m -> 1 <= m_depth m -> done ms i m.
Proof. intros st ms i m H D. destruct H; auto; lia. Qed.
Lemma done_depth : forall ms i m, done ms i m -> 1 <= m_depth m /\ m_in m <> None.
Proof. intros ms i m (ast & l & (I & _ & _ & D & _) & _). split; [assumption|congruence]. Qed.
Lemma done_imports : forall ms i m, done ms i m -> Forall (deep ms) (m_imports m).
Proof.
  intros ms i m (ast & l & (I & _ & _ & D & H) & _). unfold m_imports. rewrite I. apply Forall_forall. intros j J.
  apply in_map_iff in J. destruct J as ((p, j') & <- & J). destruct (H _ _ J) as (J1 & mj & N & _ & Dj). split; [assumption|]. exists mj. split; [assumption|lia].
Qed.
Lemma deep_done : forall st ms j, inv st ms -> deep ms j -> exists m, nth_error ms j = Some m /\ done ms j m.
Proof. intros st ms j I (J & m & N & D). exists m. split; [assumption|]. eapply status_done; eauto. eapply i_status; eauto. Qed.

Lemma deep_imports : forall st ms i m, inv st ms -> 1 <= i -> nth_error ms i = Some m -> 1 <= m_depth m -> Forall (deep ms) (m_imports m).
Proof. intros st ms i m I I1 N D. apply done_imports with (i := i). apply status_done with (st := st); [|assumption]. apply (i_status _ _ I); assumption. Qed.

(** ** Modules which are done do not depend on the others *)
Definition grows (ms ms' : list module) : Prop :=
  nth_error ms' 0 = Some pre /\ forall i m, nth_error ms i = Some m -> exists m', nth_error ms' i = Some m' /\ m_fname m' = m_fname m /\ (1 <= m_depth m -> m' = m).
Lemma uses_grow : forall st ms ms', inv st ms -> grows ms ms' -> forall l j, Forall (deep ms) l -> uses ms l j <-> uses ms' l j.
Proof.
  intros st ms ms' I (G0 & G). split.
  - intros U. revert H. induction U as [l j H|l i m j H N U IH]; intros F.
    + apply uses_in; assumption.
    + rewrite Forall_forall in F. destruct (F _ H) as (I1 & m0 & N0 & D0). assert (m0 = m) by congruence. subst m0.
      destruct (G _ _ N) as (m' & N' & _ & E). rewrite (E D0) in N'. eapply uses_more; [eassumption|eassumption|]. apply IH. eapply deep_imports with (i := i); eauto.
  - intros U. revert H. induction U as [l j H|l i m j H N U IH]; intros F.
    + apply uses_in; assumption.
    + rewrite Forall_forall in F. destruct (F _ H) as (I1 & m0 & N0 & D0).
      destruct (G _ _ N0) as (m' & N' & _ & E). rewrite (E D0) in N'. assert (m0 = m) by congruence. subst m0. eapply uses_more; [eassumption|eassumption|]. apply IH. eapply deep_imports with (i := i); eauto.
Qed.
Lemma uses_deep : forall st ms, inv st ms -> forall l j, uses ms l j -> Forall (deep ms) l -> deep ms j.
Proof.
  intros st ms I l j U. induction U as [l j H|l i m j H N U IH]; intros F; rewrite Forall_forall in F.
  - auto.
  - apply IH. destruct (F _ H) as (I1 & m0 & N0 & D0). assert (m0 = m) by congruence. subst m0. eapply deep_imports with (i := i); eauto.
Qed.
Lemma view_grow : forall st ms ms', inv st ms -> grows ms ms' -> forall l v, Forall (deep ms) l -> view ms l v <-> view ms' l v.
Proof.
  intros st ms ms' I G l v F. pose proof (uses_grow _ _ _ I G l) as U. destruct G as (G0 & G).
  assert (O : forall j, j = 0 \/ uses ms l j -> out_of ms j = out_of ms' j).
  { intros j [->|J]; unfold out_of; [rewrite (i_pre _ _ I), G0; reflexivity|].
    destruct (uses_deep _ _ I _ _ J F) as (_ & m & N & D). destruct (G _ _ N) as (m' & N' & _ & E). rewrite N, N', (E D). reflexivity. }
  split; intros V j; destruct (V j) as (A & B); specialize (U j F); split; intros H.
  - rewrite <- O by tauto. apply A; tauto.
  - apply B; tauto.
  - rewrite O by tauto. apply A; tauto.
  - apply B; tauto.
Qed.
Lemma done_grow : forall st ms ms' i m, inv st ms -> grows ms ms' -> done ms i m -> done ms' i m.
Proof.
  intros st ms ms' i m I G Dn. pose proof (done_imports _ _ _ Dn) as F. destruct Dn as (ast & l & (Hin & Hf & Hp & Hd & Him) & Ho).
  unfold m_imports in F. rewrite Hin in F. exists ast, l. split.
  - split; [assumption|]. split; [assumption|]. split; [assumption|]. split; [assumption|]. intros p j J. destruct (Him _ _ J) as (J1 & mj & N & E & Dj). split; [assumption|].
    destruct (proj2 G _ _ N) as (m' & N' & _ & Em). rewrite Em in N' by lia. exists mj. auto.
  - intros o O. destruct (Ho _ O) as (A & v & V & S). split.
    + intros p j J. specialize (A _ _ J). destruct (Him _ _ J) as (J1 & mj & N & _ & Dj). destruct (proj2 G _ _ N) as (m' & N' & _ & Em). rewrite Em in N' by lia.
      unfold out_of in *. rewrite N in A. rewrite N'. assumption.
    + exists v. split; [|assumption]. apply (view_grow st ms ms' I G _ _ F); assumption.
Qed.
Lemma inv_grow : forall st st' ms ms', inv st ms -> grows ms ms' -> NoDup (map m_fname ms') ->
  (forall f, In f st' -> exists i m, 1 <= i /\ nth_error ms' i = Some m /\ m_fname m = f /\ m_in m <> None) ->
  (forall i m, 1 <= i -> nth_error ms' i = Some m -> (nth_error ms i = Some m /\ (m_in m <> None -> m_depth m = 0 -> In (m_fname m) st')) \/ status st' ms' i m) -> inv st' ms'.
Proof.
  intros st st' ms ms' I G ND St H. constructor; auto. { apply G. }
  intros i m I1 N. destruct (H _ _ I1 N) as [(N0 & Op)|S]; [|assumption]. destruct (i_status _ _ I _ _ I1 N0) as [A B C|A B C E|Dn].
  - apply s_blank; assumption.
  - apply s_open; auto.
  - apply s_done. eapply done_grow; eauto.
Qed.

(** ** Loading *)
Definition keeps (ms ms' : list module) : Prop :=
  forall i m, nth_error ms i = Some m -> exists m', nth_error ms' i = Some m' /\ m_fname m' = m_fname m /\ (m_in m <> None -> m' = m).
Definition cached (s : state) : Prop := forall f src, files s f = Some src -> src = d f.
(** What has an input was read, now *)
Definition read (s : state) : Prop := forall i m, 1 <= i -> nth_error (modules s) i = Some m -> m_in m <> None -> files s (m_fname m) <> None.
Lemma keeps_refl : forall ms, keeps ms ms.
Proof. intros ms i m H. exists m. auto. Qed.
Lemma keeps_trans : forall a b c, keeps a b -> keeps b c -> keeps a c.
Proof.
  intros a b c H1 H2 i m N. destruct (H1 _ _ N) as (m1 & N1 & F1 & E1). destruct (H2 _ _ N1) as (m2 & N2 & F2 & E2). exists m2. split; [assumption|]. split; [congruence|].
  intros X. rewrite <- (E1 X). apply E2. rewrite (E1 X). assumption.
Qed.
Fixpoint chain (st : list name) (f : name) : Prop := match st with [] => True | g :: st => imports d g f /\ chain st g end.
Lemma chain_in : forall st f g, chain st f -> In g st -> clos_trans name (imports d) g f.
Proof.
  induction st as [|h st IH]; intros f g C H; [destruct H|]. destruct C as (C1 & C2). destruct H as [<-|H].
  - apply t_step; assumption.
  - eapply t_trans; [eapply IH; eauto|]. apply t_step; assumption.
Qed.
Definition blames (e : cerror) (f : name) : Prop :=
  match e with
  | Circle => exists g, reaches d f g /\ circular d g
  | NoFile => exists g, reaches d f g /\ d g = []
  | ParseError => exists g, reaches d f g /\ d g <> [] /\ parse g (d g) = None
  | SolveError | Bug => False
  end.
Lemma blames_import : forall e f g, imports d f g -> blames e g -> blames e f.
Proof.
  intros e f g I. assert (R : forall h, reaches d g h -> reaches d f h). { intros h H. eapply rt_trans; [apply rt_step; exact I|exact H]. }
  destruct e; cbn; firstorder.
Qed.
Definition newly (f : name) (ms ms' : list module) : Prop := forall i m, nth_error ms' i = Some m -> nth_error ms i = Some m \/ reaches d f (m_fname m).
Definition load_post (T : Prop) (st : list name) (s : state) (f : name) (s' : state) (r : outcome (nat * nat)) : Prop :=
  cached s' /\ read s' /\ keeps (modules s) (modules s') /\ newly f (modules s) (modules s') /\
  match r with
  | Done (i, dep) => inv st (modules s') /\ 1 <= i /\ 1 <= dep /\ exists m, nth_error (modules s') i = Some m /\ m_fname m = f /\ m_depth m = dep
  | Error e => (exists st', inv st' (modules s')) /\ blames e f
  | Trap => T
  end.
Definition pre_ok (st : list name) (s : state) (f : name) : Prop := inv st (modules s) /\ cached s /\ read s /\ chain st f /\ f <> m_fname pre /\ NoDup st /\ incl st fs.

Definition imports_post (T : Prop) (st : list name) (s : state) (f : name) (pats : list Pat) (dep0 : nat) (s' : state) (r : outcome (list (Pat * nat) * nat)) : Prop :=
  cached s' /\ read s' /\ keeps (modules s) (modules s') /\ newly f (modules s) (modules s') /\
  match r with
  | Done (l, dep) => inv st (modules s') /\ map fst l = pats /\ dep0 <= dep /\
      forall p j, In (p, j) l -> 1 <= j /\ exists mj, nth_error (modules s') j = Some mj /\ m_fname mj = resolve d f p /\ 1 <= m_depth mj < dep
  | Error e => (exists st', inv st' (modules s')) /\ blames e f
  | Trap => T
  end.
Lemma load_imports_ok : forall T rec st f pats, NoDup st -> incl st fs ->
  (forall s g, In g (map (resolve d f) pats) -> pre_ok st s g -> load_post T st s g (fst (rec s g)) (snd (rec s g))) ->
  (forall p, In p pats -> imports d f (resolve d f p)) ->
  forall s dep, inv st (modules s) -> cached s -> read s -> (forall g, In g (map (resolve d f) pats) -> chain st g) ->
  imports_post T st s f pats dep (fst (load_imports resolve rec d f s pats dep)) (snd (load_imports resolve rec d f s pats dep)).
Proof.
  intros T rec st f pats ND Inc. induction pats as [|p pats IH]; intros Rec Im s dep I C R Ch.
  - cbn. unfold imports_post. split; [assumption|]. split; [assumption|]. split; [apply keeps_refl|]. split; [intros i m H; left; assumption|]. split; [assumption|].
    split; [reflexivity|]. split; [lia|]. intros p j H. destruct H.
  - cbn [load_imports].
    assert (L : load_post T st s (resolve d f p) (fst (rec s (resolve d f p))) (snd (rec s (resolve d f p)))).
    { apply Rec; [left; reflexivity|]. split; [assumption|]. split; [assumption|]. split; [assumption|]. split; [apply Ch; left; reflexivity|]. split; [apply Hpre|]. auto. }
    assert (If : imports d f (resolve d f p)) by (apply Im; left; reflexivity).
    destruct (rec s (resolve d f p)) as (s1, r1). cbn [fst snd] in L. destruct L as (C1 & R1 & K1 & N1 & L).
    assert (N1' : newly f (modules s) (modules s1)).
    { intros i m H. destruct (N1 _ _ H) as [H'|H']; [left; assumption|right]. eapply rt_trans; [apply rt_step; exact If|exact H']. }
    destruct r1 as [(j, dj)|e|]; cbn.
    + destruct L as (I1 & J & Dj & mj & Nj & Fj & Ej). destruct (Nat.eqb_spec j 0); [lia|].
      specialize (IH ltac:(intros s2 g Hg; apply Rec; right; assumption) ltac:(intros q Hq; apply Im; right; assumption) s1 (if dep <=? dj then S dj else dep) I1 C1 R1 ltac:(intros g Hg; apply Ch; right; assumption)).
      destruct (load_imports resolve rec d f s1 pats (if dep <=? dj then S dj else dep)) as (s2, r2). cbn [fst snd] in IH. destruct IH as (C2 & R2 & K2 & N2 & IH).
      assert (K : keeps (modules s) (modules s2)) by (eapply keeps_trans; eauto).
      assert (N : newly f (modules s) (modules s2)). { intros i m H. destruct (N2 _ _ H) as [H'|H']; [apply N1'; assumption|right; assumption]. }
      destruct r2 as [(l, dep2)|e|]; cbn [fst snd]; split; auto; split; auto; split; auto; split; auto.
      destruct IH as (I2 & M & Le & Hl). split; [assumption|]. split; [cbn; congruence|].
      assert (X : dep <= dep2 /\ dj < dep2). { destruct (Nat.leb_spec dep dj); lia. } split; [lia|].
      intros q k [E|H]; [injection E as <- <-|auto]. split; [assumption|].
      destruct (K2 _ _ Nj) as (mj' & Nj' & Fj' & Ej'). rewrite Ej' in Nj'.
      2:{ pose proof (i_status _ _ I1 _ _ J Nj) as S. apply status_done in S; [|lia]. apply done_depth in S. apply S. }
      exists mj. split; [assumption|]. split; [assumption|]. lia.
    + destruct L as (I1 & B). split; auto. split; auto. split; auto. split; auto. split; [assumption|]. eapply blames_import; eauto.
    + split; auto.
Qed.

Lemma keeps_grows : forall st ms ms', inv st ms -> nth_error ms' 0 = Some pre -> keeps ms ms' -> grows ms ms'.
Proof.
  intros st ms ms' I Z K. split; [assumption|]. intros i m N. destruct (K _ _ N) as (m' & N' & F & E). exists m'. split; [assumption|]. split; [assumption|]. intros D.
  destruct i as [|i].
  - rewrite (i_pre _ _ I) in N. congruence.
  - apply E. assert (S : status st ms (S i) m) by (apply (i_status _ _ I); [lia|assumption]). apply status_done in S; [|assumption]. apply done_depth in S. apply S.
Qed.
Lemma getModule_ok : forall st s f s' i, pre_ok st s f -> getModule s f = (s', i) ->
  inv st (modules s') /\ cached s' /\ read s' /\ keeps (modules s) (modules s') /\ newly f (modules s) (modules s') /\ 1 <= i /\ exists m, nth_error (modules s') i = Some m /\ m_fname m = f.
Proof.
  intros st s f s' i (I & C & R & _ & P & _) G. unfold getModule in G. destruct (index_of (modules s) f 0) as [k|] eqn:X; injection G as <- <-.
  - destruct (index_of_some _ _ _ _ X) as (j & m & -> & N & F). cbn. split; [assumption|]. split; [assumption|]. split; [assumption|]. split; [apply keeps_refl|]. split; [intros a b H; left; assumption|].
    split; [|exists m; auto]. destruct j; [|lia]. rewrite (i_pre _ _ I) in N. congruence.
  - pose proof (index_of_none _ _ _ X) as No. cbn [modules files].
    assert (Z : nth_error (modules s ++ [blank f]) 0 = Some pre). { rewrite nth_error_app1; [apply (i_pre _ _ I)|]. apply nth_error_Some. rewrite (i_pre _ _ I). discriminate. }
    assert (Len : 1 <= length (modules s)). { pose proof (i_pre _ _ I) as Y. destruct (modules s); [discriminate|cbn; lia]. }
    assert (K : keeps (modules s) (modules s ++ [blank f])). { intros a m N. exists m. split; [|auto]. rewrite nth_error_app1; [assumption|]. apply nth_error_Some. congruence. }
    assert (New : forall a m, nth_error (modules s ++ [blank f]) a = Some m -> nth_error (modules s) a = Some m \/ m = blank f).
    { intros a m N. destruct (Nat.lt_ge_cases a (length (modules s))) as [L|L]; [rewrite nth_error_app1 in N by assumption; auto|].
      rewrite nth_error_app2 in N by assumption. destruct (a - length (modules s)) as [|[|b]]; cbn in N; [|discriminate|discriminate]. right. congruence. }
    split; [|split; [|split; [|split; [assumption|split; [|split; [assumption|]]]]]].
    + eapply inv_grow; [exact I| | | |].
      * eapply keeps_grows; eauto.
      * rewrite map_app. cbn. eapply Permutation.Permutation_NoDup; [apply Permutation.Permutation_cons_append|]. constructor; [|apply (i_nodup _ _ I)]. intros H. apply in_map_iff in H. destruct H as (m & E & H). apply In_nth_error in H. destruct H as (a & H). exact (No _ _ H E).
      * intros g H. destruct (i_stack _ _ I _ H) as (a & m & A1 & N & F & In). destruct (K _ _ N) as (m' & N' & _ & E). exists a, m'. rewrite (E In) in *. auto.
      * intros a m A1 N. destruct (New _ _ N) as [N0| ->]; [left|right; apply s_blank; reflexivity]. split; [assumption|]. intros In D. destruct (i_status _ _ I _ _ A1 N0) as [X1 X2 X3|X1 X2 X3 X4|X1]; [contradiction|assumption|].
        apply done_depth in X1. lia.
    + exact C.
    + intros a m A1 N In. destruct (New _ _ N) as [N0| ->]; [cbn; eapply R; eauto|]. exfalso. apply In. reflexivity.
    + intros a m N. destruct (New _ _ N) as [N0| ->]; [left; assumption|right; apply rt_refl].
    + exists (blank f). split; [|reflexivity]. rewrite nth_error_app2 by lia. rewrite Nat.sub_diag. reflexivity.
Qed.
Lemma getFile_ok : forall s f s' src, cached s -> read s -> getFile d s f = (s', src) -> modules s' = modules s /\ src = d f /\ cached s' /\ files s' f <> None /\ (forall g, files s g <> None -> files s' g <> None).
Proof.
  intros s f s' src C R G. unfold getFile in G. destruct (files s f) as [x|] eqn:X; injection G as <- <-.
  - split; [reflexivity|]. split; [apply C; assumption|]. split; [assumption|]. split; [congruence|auto].
  - cbn. split; [reflexivity|]. split; [reflexivity|]. split.
    + intros g y. cbn. destruct (name_eqb_spec f g); [|apply C]. congruence.
    + split; [destruct (name_eqb_spec f f); congruence|]. intros g H. destruct (name_eqb_spec f g); congruence.
Qed.
Lemma nodup_set : forall (ms : list module) i m m', NoDup (map m_fname ms) -> nth_error ms i = Some m -> m_fname m' = m_fname m -> NoDup (map m_fname (set_nth ms i m')).
Proof. intros ms i m m' ND N E. rewrite map_set_nth, E, set_nth_id; [assumption|]. rewrite nth_error_map, N. reflexivity. Qed.
Lemma inv_open : forall st ms i f m x, inv st ms -> 1 <= i -> nth_error ms i = Some m -> m_fname m = f -> m_in m = None ->
  inv (f :: st) (set_nth ms i (Mod f (Some x) 0 None)) /\ keeps ms (set_nth ms i (Mod f (Some x) 0 None)).
Proof.
  intros st ms i f m x I I1 N F B.
  assert (Li : i < length ms) by (apply nth_error_Some; congruence).
  assert (K : keeps ms (set_nth ms i (Mod f (Some x) 0 None))).
  { intros a ma Na. destruct (Nat.eq_dec i a) as [<-|Ne].
    - rewrite set_nth_same by assumption. eexists. split; [reflexivity|]. cbn. split; [congruence|]. intros X. exfalso. apply X. congruence.
    - rewrite set_nth_other by assumption. exists ma. auto. }
  split; [|assumption]. eapply inv_grow; [exact I| | | |].
  - eapply keeps_grows; eauto. rewrite set_nth_other by lia. apply (i_pre _ _ I).
  - eapply nodup_set; [apply (i_nodup _ _ I)|exact N|]. cbn. congruence.
  - intros g [<-|H].
    + exists i, (Mod f (Some x) 0 None). split; [assumption|]. split; [apply set_nth_same; assumption|]. split; [reflexivity|]. discriminate.
    + destruct (i_stack _ _ I _ H) as (a & ma & A1 & Na & Fa & Ia). destruct (K _ _ Na) as (m' & N' & _ & E). rewrite (E Ia) in N'. exists a, ma. auto.
  - intros a ma A1 Na. destruct (Nat.eq_dec i a) as [<-|Ne].
    + rewrite set_nth_same in Na by assumption. injection Na as <-. right. apply s_open; try reflexivity; [discriminate|left; reflexivity].
    + rewrite set_nth_other in Na by assumption. left. split; [assumption|]. intros X1 X2. right.
      destruct (i_status _ _ I _ _ A1 Na) as [Y1 Y2 Y3|Y1 Y2 Y3 Y4|Y1]; [contradiction|assumption|]. apply done_depth in Y1. lia.
Qed.
Lemma inv_close : forall st ms i f m ast l dep, inv (f :: st) ms -> ~ In f st -> 1 <= i -> nth_error ms i = Some m -> m_fname m = f -> m_depth m = 0 -> d f <> [] -> 1 <= dep ->
  parse f (d f) = Some (ast, map fst l) ->
  (forall p j, In (p, j) l -> 1 <= j /\ exists mj, nth_error ms j = Some mj /\ m_fname mj = resolve d f p /\ 1 <= m_depth mj < dep) ->
  inv st (set_nth ms i (Mod f (Some (d f, ast, l)) dep None)).
Proof.
  intros st ms i f m ast l dep I NI I1 N F D Df Dep P Hl.
  assert (Li : i < length ms) by (apply nth_error_Some; congruence).
  eapply inv_grow; [exact I| | | |].
  - split; [rewrite set_nth_other by lia; apply (i_pre _ _ I)|]. intros a ma Na. destruct (Nat.eq_dec i a) as [<-|Ne].
    + rewrite set_nth_same by assumption. eexists. split; [reflexivity|]. cbn. split; [congruence|]. intros X. assert (ma = m) by congruence. subst ma. lia.
    + rewrite set_nth_other by assumption. exists ma. auto.
  - eapply nodup_set; [apply (i_nodup _ _ I)|exact N|]. cbn. congruence.
  - intros g H. destruct (i_stack _ _ I g ltac:(right; assumption)) as (a & ma & A1 & Na & Fa & Ia). exists a. rewrite set_nth_other.
    2:{ intros ->. assert (ma = m) by congruence. subst ma. apply NI. congruence. }
    exists ma. auto.
  - intros a ma A1 Na. destruct (Nat.eq_dec i a) as [<-|Ne].
    + rewrite set_nth_same in Na by assumption. injection Na as <-. right. apply s_done. exists ast, l. split; [|cbn; discriminate].
      split; [reflexivity|]. split; [assumption|]. split; [assumption|]. split; [assumption|]. cbn. intros p j J. destruct (Hl _ _ J) as (J1 & mj & Nj & Fj & Dj). split; [assumption|]. exists mj.
      rewrite set_nth_other; [auto|]. intros ->. assert (mj = m) by congruence. subst mj. lia.
    + rewrite set_nth_other in Na by assumption. left. split; [assumption|]. intros X1 X2.
      destruct (i_status _ _ I _ _ A1 Na) as [Y1 Y2 Y3|Y1 Y2 Y3 Y4|Y1]; [contradiction| |apply done_depth in Y1; lia].
      destruct Y4 as [Y4|Y4]; [|assumption]. exfalso. apply Ne. eapply names_unique; [apply (i_nodup _ _ I)|exact N|exact Na|congruence].
Qed.
Lemma load_ok : forall fuel st s f, pre_ok st s f -> load_post (fuel + length st <= length fs) st s f (fst (load fuel d s f)) (snd (load fuel d s f)).
Proof.
  induction fuel as [|fuel IH]; intros st s f PO.
  { cbn. destruct PO as (I & C & R & _ & _ & ND & Inc). split; [assumption|]. split; [assumption|]. split; [apply keeps_refl|]. split; [intros a b H; left; assumption|]. apply NoDup_incl_length; assumption. }
  cbn [CompileModel.load]. destruct (getModule s f) as (s1, i) eqn:G. destruct (getModule_ok _ _ _ _ _ PO G) as (I1 & C1 & R1 & K1 & N1 & Li & m & Nm & Fm).
  rewrite Nm. pose proof (i_status _ _ I1 _ _ Li Nm) as St. destruct PO as (I & C & R & Ch & P & ND & Inc).
  destruct (m_in m) as [x|] eqn:Im.
  { destruct (Nat.eqb_spec (m_depth m) 0) as [D|D]; cbn; (split; [assumption|]); (split; [assumption|]); (split; [assumption|]); (split; [assumption|]).
    - split; [exists st; assumption|]. destruct St as [A B|A B E H|Dn]; [congruence| |apply done_depth in Dn; lia].
      exists f. split; [apply rt_refl|]. rewrite Fm in H. exact (chain_in _ _ _ Ch H).
    - split; [assumption|]. split; [assumption|]. split; [lia|]. exists m. auto. }
  assert (B : m_out m = None /\ m_depth m = 0).
  { destruct St as [A1 B1 E1|A1 B1 E1 H1|Dn]; [auto|auto|]. apply done_depth in Dn. destruct Dn; congruence. }
  destruct B as (Bo & Bd). rewrite Bo, Bd. destruct (getFile d s1 f) as (s2, src) eqn:Gf. destruct (getFile_ok _ _ _ _ C1 R1 Gf) as (M2 & -> & C2 & Cf & Cm).
  assert (R2 : read s2). { intros a ma A1 Na X. rewrite M2 in Na. apply Cm. eapply R1; eauto. }
  destruct (d f) as [|b src] eqn:Df.
  { cbn. rewrite <- M2 in *. split; [assumption|]. split; [assumption|]. split; [assumption|]. split; [assumption|]. split; [exists st; assumption|].
    exists f. split; [apply rt_refl|assumption]. }
  rewrite <- Df in *. assert (Nf : d f <> []) by congruence. clear b src Df.
  destruct (parse f (d f)) as [(ast, pats)|] eqn:Pa.
  2:{ cbn. rewrite <- M2 in *. split; [assumption|]. split; [assumption|]. split; [assumption|]. split; [assumption|]. split; [exists st; assumption|].
      exists f. split; [apply rt_refl|]. split; assumption. }
  cbn [Nat.eqb negb].
  set (x := (d f, ast, map (fun p => (p, 0)) pats)).
  assert (SM : setModule s2 i (Mod f (Some x) 0 None) = State (set_nth (modules s1) i (Mod f (Some x) 0 None)) (files s2)) by (unfold setModule; rewrite M2; reflexivity).
  rewrite SM. clear SM. destruct (inv_open st (modules s1) i f m x I1 Li Nm Fm Im) as (I3 & K3).
  set (ms3 := set_nth (modules s1) i (Mod f (Some x) 0 None)) in *.
  assert (Nms3 : nth_error ms3 i = Some (Mod f (Some x) 0 None)). { apply set_nth_same. apply nth_error_Some. congruence. }
  assert (R3 : read (State ms3 (files s2))).
  { intros a ma A1 Na X. cbn in *. destruct (Nat.eq_dec i a) as [<-|Ne]; [rewrite Nms3 in Na; injection Na as <-; exact Cf|]. unfold ms3 in Na. rewrite set_nth_other in Na by assumption. eapply (R2 a); eauto. rewrite M2. assumption. }
  assert (Imp : forall p, In p pats -> imports d f (resolve d f p)). { intros p Hp. exists ast, pats, p. auto. }
  assert (NI : ~ In f st).
  { intros H. destruct (i_stack _ _ I1 _ H) as (a & ma & A1 & Na & Fa & Ia). assert (a = i) by (eapply names_unique; [apply (i_nodup _ _ I1)|exact Na|exact Nm|congruence]). subst a. congruence. }
  pose proof (load_imports_ok (fuel + length (f :: st) <= length fs) (load fuel d) (f :: st) f pats ltac:(constructor; assumption) ltac:(intros g [<-|H]; [apply Hfs; assumption|apply Inc; assumption]) (fun s0 g _ H => IH (f :: st) s0 g H) Imp (State ms3 (files s2)) 1 I3 C2 R3) as L.
  specialize (L ltac:(intros g H; apply in_map_iff in H; destruct H as (p & <- & H); split; [apply Imp; assumption|assumption])).
  destruct (load_imports resolve (load fuel d) d f (State ms3 (files s2)) pats 1) as (s4, r4). cbn [fst snd] in L. destruct L as (C4 & R4 & K4 & N4 & L). cbn [modules] in *.
  assert (K : keeps (modules s) (modules s4)). { eapply keeps_trans; [exact K1|]. eapply keeps_trans; eauto. }
  assert (N : newly f (modules s) (modules s4)).
  { intros a ma Na. destruct (N4 _ _ Na) as [H|H]; [|right; assumption]. destruct (Nat.eq_dec i a) as [<-|Ne].
    - right. rewrite Nms3 in H. injection H as <-. apply rt_refl.
    - unfold ms3 in H. rewrite set_nth_other in H by assumption. apply N1; assumption. }
  destruct r4 as [(l, dep)|e|]; cbn [fst snd].
  - destruct L as (I4 & Ml & Le & Hl). destruct (K4 _ _ Nms3) as (m4 & Nm4 & _ & E4). rewrite E4 in Nm4 by discriminate.
    assert (Li4 : i < length (modules s4)) by (apply nth_error_Some; congruence).
    unfold load_post, setModule. cbn [modules files]. split; [exact C4|]. split; [|split; [|split; [|split; [|split; [assumption|]; split; [lia|]]]]].
    + intros a ma A1 Na X. cbn in *. destruct (Nat.eq_dec i a) as [<-|Ne].
      * rewrite set_nth_same in Na by assumption. injection Na as <-. cbn. apply (R4 i _ A1 Nm4). discriminate.
      * rewrite set_nth_other in Na by assumption. eapply R4; eauto.
    + intros a ma Na. destruct (K _ _ Na) as (m' & N' & F' & E'). destruct (Nat.eq_dec i a) as [<-|Ne].
      * rewrite set_nth_same by assumption. eexists. split; [reflexivity|]. rewrite Nm4 in N'. injection N' as <-. cbn in *. split; [assumption|]. intros X. exfalso.
        destruct (K1 _ _ Na) as (m1 & Nm1 & _ & Em1). rewrite (Em1 X) in Nm1. congruence.
      * rewrite set_nth_other by assumption. exists m'. auto.
    + intros a ma Na. destruct (Nat.eq_dec i a) as [<-|Ne].
      * rewrite set_nth_same in Na by assumption. injection Na as <-. right. apply rt_refl.
      * rewrite set_nth_other in Na by assumption. apply N; assumption.
    + eapply inv_close; try eassumption; try reflexivity. rewrite Ml. assumption.
    + eexists. rewrite set_nth_same by assumption. split; [reflexivity|]. auto.
  - destruct L as (I4 & Bl). split; [assumption|]. split; [assumption|]. split; [assumption|]. split; [assumption|]. split; assumption.
  - split; [assumption|]. split; [assumption|]. split; [assumption|]. split; [assumption|]. cbn [length] in L. lia.
Qed.

(** ** What was loaded *)
Lemma deep_step : forall st ms i m g, inv st ms -> 1 <= i -> nth_error ms i = Some m -> 1 <= m_depth m -> imports d (m_fname m) g ->
  exists j mj, 1 <= j /\ nth_error ms j = Some mj /\ m_fname mj = g /\ 1 <= m_depth mj < m_depth m.
Proof.
  intros st ms i m g I I1 N D (ast & pats & p & Df & P & Ip & R).
  destruct (status_done _ _ _ _ (i_status _ _ I _ _ I1 N) D) as (ast' & l & (Hin & _ & P' & _ & Hl) & _). rewrite P in P'. injection P' as -> ->.
  apply in_map_iff in Ip. destruct Ip as ((p', j) & <- & Ip). destruct (Hl _ _ Ip) as (J & mj & Nj & F & Dj). exists j, mj. cbn in R. split; [assumption|]. split; [assumption|]. split; [congruence|assumption].
Qed.
Lemma deep_trans : forall st ms, inv st ms -> forall f g, clos_trans name (imports d) f g -> forall i m, 1 <= i -> nth_error ms i = Some m -> 1 <= m_depth m -> m_fname m = f ->
  exists j mj, 1 <= j /\ nth_error ms j = Some mj /\ m_fname mj = g /\ 1 <= m_depth mj < m_depth m.
Proof.
  intros st ms I f g T. induction T as [f g H|f h g T1 IH1 T2 IH2]; intros i m I1 N D F.
  - rewrite <- F in H. eapply deep_step with (i := i); eauto.
  - destruct (IH1 i m I1 N D F) as (j & mj & J & Nj & Fj & Dj). destruct (IH2 j mj J Nj ltac:(lia) Fj) as (k & mk & K & Nk & Fk & Dk). exists k, mk. split; [assumption|]. split; [assumption|]. split; [assumption|lia].
Qed.
Lemma deep_reaches : forall st ms, inv st ms -> forall f g, reaches d f g -> forall i m, 1 <= i -> nth_error ms i = Some m -> 1 <= m_depth m -> m_fname m = f ->
  exists j mj, 1 <= j /\ nth_error ms j = Some mj /\ m_fname mj = g /\ 1 <= m_depth mj <= m_depth m.
Proof.
  intros st ms I f g T. induction T as [f g H|f|f h g T1 IH1 T2 IH2]; intros i m I1 N D F.
  - rewrite <- F in H. destruct (deep_step _ _ i m g I I1 N D H) as (j & mj & J & Nj & Fj & Dj). exists j, mj. split; [assumption|]. split; [assumption|]. split; [assumption|lia].
  - exists i, m. auto.
  - destruct (IH1 i m I1 N D F) as (j & mj & J & Nj & Fj & Dj). destruct (IH2 j mj J Nj ltac:(lia) Fj) as (k & mk & K & Nk & Fk & Dk). exists k, mk. split; [assumption|]. split; [assumption|]. split; [assumption|lia].
Qed.
Lemma deep_good : forall st ms i m, inv st ms -> 1 <= i -> nth_error ms i = Some m -> 1 <= m_depth m -> good d (m_fname m).
Proof.
  intros st ms i m I I1 N D f R. destruct (deep_reaches _ _ I _ _ R i m I1 N D eq_refl) as (j & mj & J & Nj & Fj & Dj).
  destruct (status_done _ _ _ _ (i_status _ _ I _ _ J Nj) ltac:(lia)) as (ast & l & (_ & Df & P & _) & _). rewrite Fj in *.
  split; [assumption|]. split; [congruence|]. intros C. destruct (deep_trans _ _ I _ _ C j mj J Nj ltac:(lia) Fj) as (k & mk & K & Nk & Fk & Dk).
  assert (k = j) by (eapply names_unique; [apply (i_nodup _ _ I)|exact Nk|exact Nj|congruence]). subst k. assert (mk = mj) by congruence. subst mk. lia.
Qed.
Lemma good_blames : forall e f, good d f -> ~ blames e f.
Proof.
  intros e f G. destruct e; cbn; auto.
  - intros (g & R & C). destruct (G _ R) as (A & B & D); contradiction.
  - intros (g & R & C). destruct (G _ R) as (A & B & D); contradiction.
  - intros (g & R & _ & C). destruct (G _ R) as (A & B & D); contradiction.
Qed.

(** ** What the solver sees *)
Lemma sees_uses : forall k ms l j, sees k ms l j = true -> @uses Pat Ast Out ms l j.
Proof.
  induction k as [|k IH]; intros ms l j H; cbn [sees] in H; [discriminate|].
  apply existsb_exists in H. destruct H as (i & Hi & H). apply orb_prop in H. destruct H as [H|H].
  - apply Nat.eqb_eq in H. subst. apply uses_in; assumption.
  - apply IH in H. destruct (nth_error ms i) as [m|] eqn:N.
    + eapply uses_more; eauto.
    + inversion H; subst; contradiction.
Qed.
Lemma uses_sees : forall st ms, inv st ms -> forall l j, uses ms l j -> forall k, (forall i, In i l -> 1 <= i /\ exists m, nth_error ms i = Some m /\ 1 <= m_depth m <= k) -> sees k ms l j = true.
Proof.
  intros st ms I l j U. induction U as [l j H|l i m j H N U IH]; intros k F.
  - destruct (F _ H) as (J & m & N & D). destruct k as [|k]; [lia|]. cbn [sees]. apply existsb_exists. exists j. split; [assumption|]. rewrite Nat.eqb_refl. reflexivity.
  - destruct (F _ H) as (I1 & m' & N' & D). assert (m' = m) by congruence. subst m'. destruct k as [|k]; [lia|]. cbn [sees]. apply existsb_exists. exists i. split; [assumption|]. apply orb_true_intro. right.
    rewrite N. apply IH. intros a Ha. destruct (status_done _ _ _ _ (i_status _ _ I _ _ I1 N) ltac:(lia)) as (ast & li & (Hin & _ & _ & _ & Hl) & _).
    unfold m_imports in Ha. rewrite Hin in Ha. apply in_map_iff in Ha. destruct Ha as ((p & a') & <- & Ha). destruct (Hl _ _ Ha) as (A & ma & Na & _ & Da). split; [assumption|]. exists ma. split; [assumption|lia].
Qed.
Lemma depth_max : forall (ms : list module) i m, nth_error ms i = Some m -> m_depth m <= list_max (map m_depth ms).
Proof.
  intros ms i m N. assert (H : list_max (map m_depth ms) <= list_max (map m_depth ms)) by lia. apply list_max_le in H. rewrite Forall_forall in H. apply H. apply in_map. eapply nth_error_In; eauto.
Qed.
Lemma visible_view : forall st ms l, inv st ms -> Forall (deep ms) l -> view ms l (visible ms l).
Proof.
  intros st ms l I F j. unfold visible. split; intros H.
  - destruct H as [->|H]; [reflexivity|]. rewrite (uses_sees _ _ I _ _ H); [rewrite orb_true_r; reflexivity|]. intros i Hi. rewrite Forall_forall in F. destruct (F _ Hi) as (I1 & m & N & D). split; [assumption|].
    exists m. split; [assumption|]. pose proof (depth_max _ _ _ N). lia.
  - destruct (Nat.eqb_spec j 0); [exfalso; auto|]. destruct (sees (S (list_max (map m_depth ms))) ms l j) eqn:E; [|reflexivity]. apply sees_uses in E. exfalso; auto.
Qed.
Lemma uses_out : forall st ms, inv st ms -> forall l j, uses ms l j -> (forall i, In i l -> deep ms i /\ out_of ms i <> None) -> deep ms j /\ out_of ms j <> None.
Proof.
  intros st ms I l j U. induction U as [l j H|l i m j H N U IH]; intros F.
  - auto.
  - apply IH. intros a Ha. destruct (F _ H) as ((I1 & m' & N' & D) & O). assert (m' = m) by congruence. subst m'.
    pose proof (deep_imports _ _ _ _ I I1 N D) as Fd. rewrite Forall_forall in Fd. split; [auto|].
    destruct (status_done _ _ _ _ (i_status _ _ I _ _ I1 N) D) as (ast & li & (Hin & _) & Ho). unfold out_of in O. rewrite N in O. destruct (m_out m) as [o|] eqn:Om; [|congruence].
    destruct (Ho _ eq_refl) as (A & _). unfold m_imports in Ha. rewrite Hin in Ha. apply in_map_iff in Ha. destruct Ha as ((p & a') & <- & Ha). exact (A _ _ Ha).
Qed.

(** ** Storing an output *)
Lemma set_out_nth : forall (ms : list module) i o m j, nth_error ms i = Some m -> nth_error (set_out ms i o) j = if i =? j then Some (with_out m o) else nth_error ms j.
Proof.
  intros ms i o m j N. unfold set_out. rewrite N. destruct (Nat.eqb_spec i j) as [<-|Ne]; [apply set_nth_same; apply nth_error_Some; congruence|apply set_nth_other; assumption].
Qed.
Lemma uses_set_out : forall (ms : list module) i o m, nth_error ms i = Some m -> forall l j, uses ms l j <-> uses (set_out ms i o) l j.
Proof.
  intros ms i o m N l j. split; intros U.
  - induction U as [l j H|l k mk j H Nk U IH]; [apply uses_in; assumption|]. destruct (Nat.eqb_spec i k) as [<-|Ne].
    + eapply uses_more with (i := i); [exact H|rewrite (set_out_nth _ _ _ _ _ N), Nat.eqb_refl; reflexivity|]. assert (mk = m) by congruence. subst mk. exact IH.
    + eapply uses_more with (i := k); [exact H| |exact IH]. rewrite (set_out_nth _ _ _ _ _ N). destruct (Nat.eqb_spec i k); [contradiction|assumption].
  - induction U as [l j H|l k mk j H Nk U IH]; [apply uses_in; assumption|]. rewrite (set_out_nth _ _ _ _ _ N) in Nk. destruct (Nat.eqb_spec i k) as [<-|Ne].
    + injection Nk as <-. eapply uses_more with (i := i); [exact H|exact N|exact IH].
    + eapply uses_more with (i := k); eauto.
Qed.
Lemma out_set_out : forall (ms : list module) i o m j, nth_error ms i = Some m -> out_of (set_out ms i o) j = if i =? j then Some o else out_of ms j.
Proof. intros ms i o m j N. unfold out_of. rewrite (set_out_nth _ _ _ _ _ N). destruct (i =? j); reflexivity. Qed.
Lemma deep_set_out : forall (ms : list module) i o m j, nth_error ms i = Some m -> deep ms j -> deep (set_out ms i o) j.
Proof.
  intros ms i o m j N (J & mj & Nj & D). split; [assumption|]. rewrite (set_out_nth _ _ _ _ _ N). destruct (Nat.eqb_spec i j) as [<-|Ne].
  - assert (mj = m) by congruence. subst mj. eexists. split; [reflexivity|assumption].
  - exists mj. auto.
Qed.
Lemma view_set_out : forall st ms i o m l v, inv st ms -> nth_error ms i = Some m -> 1 <= i -> m_out m = None -> (forall j, In j l -> deep ms j /\ out_of ms j <> None) -> view ms l v -> view (set_out ms i o) l v.
Proof.
  intros st ms i o m l v I N I1 O F V j. destruct (V j) as (A & B). pose proof (uses_set_out _ _ o _ N l j) as U. rewrite (out_set_out _ _ _ _ _ N). split; intros H.
  - rewrite A by tauto. destruct (Nat.eqb_spec i j) as [<-|Ne]; [|reflexivity]. exfalso. destruct H as [->|H]; [lia|]. apply U in H. apply (uses_out _ _ I) in H; [|assumption]. unfold out_of in H. rewrite N in H. tauto.
  - apply B; tauto.
Qed.
Lemma loaded_set_out : forall (ms : list module) i (o : Out) m mk ast l, nth_error ms i = Some m -> loaded d ms mk ast l -> loaded d (set_out ms i o) mk ast l.
Proof.
  intros ms i o m mk ast l N (A & B & C & D & E). split; [assumption|]. split; [assumption|]. split; [assumption|]. split; [assumption|].
  intros p j J. destruct (E _ _ J) as (J1 & mj & Nj & X). split; [assumption|]. rewrite (set_out_nth _ _ _ _ _ N). destruct (Nat.eqb_spec i j) as [<-|Ne].
  - assert (mj = m) by congruence. subst mj. eexists. split; [reflexivity|exact X].
  - exists mj. auto.
Qed.
Lemma done_outs : forall (ms : list module) m ast l, loaded d ms m ast l -> (forall p j, In (p, j) l -> out_of ms j <> None) -> forall j, In j (map snd l) -> deep ms j /\ out_of ms j <> None.
Proof.
  intros ms m ast l (_ & _ & _ & _ & L) O j J. apply in_map_iff in J. destruct J as ((p & j') & <- & J). cbn. split; [|eapply O; eauto].
  destruct (L _ _ J) as (J1 & mj & Nj & _ & D). split; [assumption|]. exists mj. split; [assumption|lia].
Qed.
Lemma inv_set_out : forall st ms i o m ast l, inv st ms -> 1 <= i -> nth_error ms i = Some m -> m_out m = None -> loaded d ms m ast l ->
  (forall p j, In (p, j) l -> out_of ms j <> None) -> solve i (m_fname m) ast (map snd l) (visible ms (map snd l)) = Some o -> inv st (set_out ms i o).
Proof.
  intros st ms i o m ast l I I1 N O L Ho S.
  assert (OutK : forall j, out_of ms j <> None -> out_of (set_out ms i o) j <> None). { intros j X. rewrite (out_set_out _ _ _ _ _ N). destruct (i =? j); [discriminate|assumption]. }
  constructor.
  - rewrite (set_out_nth _ _ _ _ _ N). destruct (Nat.eqb_spec i 0); [lia|]. apply (i_pre _ _ I).
  - unfold set_out. rewrite N. eapply nodup_set; [apply (i_nodup _ _ I)|exact N|reflexivity].
  - intros k mk K Nk. rewrite (set_out_nth _ _ _ _ _ N) in Nk. destruct (Nat.eqb_spec i k) as [<-|Ne].
    + injection Nk as <-. apply s_done. exists ast, l. split; [apply (loaded_set_out _ _ o _ m _ _ N L)|]. cbn. intros o' E. injection E as <-. split; [intros p j J; apply OutK; eapply Ho; eauto|].
      exists (visible ms (map snd l)). split; [|assumption]. pose proof (done_outs ms m ast l L Ho) as F. eapply view_set_out; eauto. eapply visible_view; eauto. apply Forall_forall. intros j J. apply F. assumption.
    + destruct (i_status _ _ I _ _ K Nk) as [A B C|A B C D|(astk & lk & Lk & Ok)]; [apply s_blank; assumption|apply s_open; assumption|]. apply s_done. exists astk, lk. split; [eapply loaded_set_out; eauto|].
      intros ok Eo. destruct (Ok _ Eo) as (A & v & V & Sv). split; [intros p j J; apply OutK; eapply A; eauto|]. exists v. split; [|assumption]. eapply view_set_out; eauto. eapply done_outs; eauto.
  - intros f H. destruct (i_stack _ _ I _ H) as (a & ma & A1 & Na & Fa & Ia). exists a. rewrite (set_out_nth _ _ _ _ _ N). destruct (Nat.eqb_spec i a) as [<-|Ne].
    + assert (ma = m) by congruence. subst ma. eexists. split; [assumption|]. split; [reflexivity|]. auto.
    + exists ma. auto.
Qed.

(** ** Levels *)
Definition shape (ms ms' : list module) : Prop :=
  forall i, match nth_error ms i, nth_error ms' i with
            | Some m, Some m' => m_fname m' = m_fname m /\ m_in m' = m_in m /\ m_depth m' = m_depth m /\ (m_out m <> None -> m_out m' = m_out m)
            | None, None => True
            | _, _ => False
            end.
Definition level (D : nat) (ms : list module) (i : nat) : Prop := exists m, nth_error ms i = Some m /\ m_depth m = D.
Definition ready (D : nat) (ms : list module) : Prop := forall i m, 1 <= i -> nth_error ms i = Some m -> 1 <= m_depth m < D -> m_out m <> None.
Lemma shape_refl : forall ms, shape ms ms.
Proof. intros ms i. destruct (nth_error ms i); auto. Qed.
Lemma shape_trans : forall a b c, shape a b -> shape b c -> shape a c.
Proof.
  intros a b c H1 H2 i. specialize (H1 i). specialize (H2 i). destruct (nth_error a i), (nth_error b i), (nth_error c i); try contradiction; auto.
  destruct H1 as (A & B & C & D), H2 as (A' & B' & C' & D'). split; [congruence|]. split; [congruence|]. split; [congruence|]. intros X. rewrite <- (D X). apply D'. rewrite (D X). assumption.
Qed.
Lemma shape_set_out : forall (ms : list module) i m o, nth_error ms i = Some m -> m_out m = None -> shape ms (set_out ms i o).
Proof.
  intros ms i m o N O j. rewrite (set_out_nth _ _ _ _ _ N). destruct (Nat.eqb_spec i j) as [<-|Ne].
  - rewrite N. cbn. split; [reflexivity|]. split; [reflexivity|]. split; [reflexivity|]. congruence.
  - destruct (nth_error ms j); auto.
Qed.
Lemma shape_level : forall ms ms' D i, shape ms ms' -> level D ms i <-> level D ms' i.
Proof.
  intros ms ms' D i H. specialize (H i). unfold level. split; intros (m & N & E); rewrite N in H.
  - destruct (nth_error ms' i) as [m'|]; [|contradiction]. exists m'. split; [reflexivity|]. destruct H as (_ & _ & X & _). congruence.
  - destruct (nth_error ms i) as [m'|]; [|contradiction]. exists m'. split; [reflexivity|]. destruct H as (_ & _ & X & _). congruence.
Qed.
Lemma shape_ready : forall ms ms' D, shape ms ms' -> ready D ms -> ready D ms'.
Proof.
  intros ms ms' D H R i m I1 N Dm. specialize (H i). rewrite N in H. destruct (nth_error ms i) as [m0|] eqn:N0; [|contradiction]. destruct H as (_ & _ & X & O).
  assert (Y : m_out m0 <> None) by (apply (R i m0 I1 N0); lia). rewrite (O Y). assumption.
Qed.
Lemma shape_out : forall ms ms' i, shape ms ms' -> out_of ms i <> None -> out_of ms' i <> None.
Proof.
  intros ms ms' i H O. specialize (H i). unfold out_of in *. destruct (nth_error ms i) as [m|]; [|congruence]. destruct (nth_error ms' i) as [m'|]; [|contradiction]. destruct H as (_ & _ & _ & X). rewrite X; assumption.
Qed.
Definition fails (ms : list module) (i : nat) : Prop :=
  exists m ast l v, 1 <= i /\ nth_error ms i = Some m /\ loaded d ms m ast l /\ (forall j, In j (map snd l) -> out_of ms j <> None) /\ view ms (map snd l) v /\ solve i (m_fname m) ast (map snd l) v = None.
Lemma step_ok : forall st ms D i m, inv st ms -> ready D ms -> 1 <= D -> nth_error ms i = Some m -> m_depth m = D -> m_out m = None ->
  1 <= i /\ exists ast l, loaded d ms m ast l /\ (forall p j, In (p, j) l -> out_of ms j <> None) /\
  compile_solveCodegen solve ms i = match solve i (m_fname m) ast (map snd l) (visible ms (map snd l)) with Some o => Done o | None => Error SolveError end.
Proof.
  intros st ms D i m I R D1 N E O.
  assert (I1 : 1 <= i). { destruct i; [|lia]. rewrite (i_pre _ _ I) in N. injection N as <-. destruct Hpre as (_ & X & _). lia. }
  split; [assumption|]. destruct (status_done _ _ _ _ (i_status _ _ I _ _ I1 N) ltac:(lia)) as (ast & l & L & _). exists ast, l. split; [assumption|].
  split.
  - intros p j J. destruct L as (_ & _ & _ & _ & L). destruct (L _ _ J) as (J1 & mj & Nj & _ & Dj). unfold out_of. rewrite Nj. apply (R j); auto. lia.
  - unfold compile_solveCodegen. rewrite N, O. destruct L as (Hin & _). rewrite Hin. reflexivity.
Qed.
Lemma has_out_spec : forall (ms : list module) i, has_out ms i = true <-> out_of ms i <> None.
Proof. intros ms i. unfold has_out. destruct (out_of ms i); split; congruence. Qed.
Lemma step_inv : forall st ms D i m o, inv st ms -> ready D ms -> 1 <= D -> nth_error ms i = Some m -> m_depth m = D -> m_out m = None -> compile_solveCodegen solve ms i = Done o ->
  inv st (set_out ms i o) /\ shape ms (set_out ms i o) /\ ready D (set_out ms i o).
Proof.
  intros st ms D i m o I R D1 N E O C. destruct (step_ok _ _ _ _ _ I R D1 N E O) as (I1 & ast & l & L & Ho & S). rewrite C in S.
  destruct (solve i (m_fname m) ast (map snd l) (visible ms (map snd l))) as [o'|] eqn:So; [|discriminate]. injection S as <-.
  assert (Sh : shape ms (set_out ms i o)) by (eapply shape_set_out; eauto). split; [eapply inv_set_out; eauto|]. split; [assumption|]. eapply shape_ready; eauto.
Qed.
Definition each_post (st : list name) (ms : list module) (l : list nat) (ms' : list module) (r : outcome unit) : Prop :=
  inv st ms' /\ shape ms ms' /\
  match r with
  | Done _ => forall i, In i l -> out_of ms' i <> None
  | Error e => e = SolveError /\ exists i, In i l /\ fails ms' i
  | Trap => False
  end.
Lemma each_ok : forall st D, 1 <= D -> forall l ms, inv st ms -> ready D ms -> (forall i, In i l -> level D ms i) -> each_post st ms l (fst (solve_each solve ms l)) (snd (solve_each solve ms l)).
Proof.
  intros st D D1. induction l as [|i l IH]; intros ms I R Lv.
  - cbn. split; [assumption|]. split; [apply shape_refl|]. intros i H. destruct H.
  - cbn [solve_each]. destruct (has_out ms i) eqn:HO.
    + destruct (IH ms I R ltac:(intros k K; apply Lv; right; assumption)) as (I2 & Sh & Po). split; [assumption|]. split; [assumption|]. apply has_out_spec in HO.
      destruct (snd (solve_each solve ms l)) as [u|e|]; [|destruct Po as (P1 & k & K & Fk); split; [assumption|]; exists k; split; [right; assumption|assumption]|assumption].
      intros k [<-|K]; [|auto]. eapply shape_out; eauto.
    + assert (X : out_of ms i = None) by (unfold has_out in HO; destruct (out_of ms i); [discriminate|reflexivity]).
      destruct (Lv i ltac:(left; reflexivity)) as (m & N & E). assert (O : m_out m = None) by (unfold out_of in X; rewrite N in X; assumption).
      destruct (step_ok _ _ _ _ _ I R D1 N E O) as (I1 & ast & li & L & Ho & S). rewrite S.
      destruct (solve i (m_fname m) ast (map snd li) (visible ms (map snd li))) as [o|] eqn:So.
      * destruct (step_inv _ _ _ _ _ o I R D1 N E O S) as (I2 & Sh & R2).
        destruct (IH (set_out ms i o) I2 R2 ltac:(intros k K; apply (shape_level _ _ D k Sh); apply Lv; right; assumption)) as (I3 & Sh3 & Po).
        split; [assumption|]. split; [eapply shape_trans; eauto|].
        destruct (snd (solve_each solve (set_out ms i o) l)) as [u|e|]; [|destruct Po as (P1 & k & K & Fk); split; [assumption|]; exists k; split; [right; assumption|assumption]|assumption].
        intros k [<-|K]; [|auto]. eapply shape_out; eauto. rewrite (out_set_out _ _ _ _ _ N), Nat.eqb_refl. discriminate.
      * cbn. split; [assumption|]. split; [apply shape_refl|]. split; [reflexivity|]. exists i. split; [left; reflexivity|]. exists m, ast, li, (visible ms (map snd li)).
        pose proof (done_outs _ _ _ _ L Ho) as F. split; [assumption|]. split; [assumption|]. split; [assumption|]. split; [intros j J; apply F; assumption|]. split; [|assumption]. eapply visible_view; [exact I|]. apply Forall_forall. intros j J. apply F. assumption.
Qed.

(** ** In parallel *)
Lemma sees_set_out : forall k (ms : list module) i o m, nth_error ms i = Some m -> forall l j, sees k (set_out ms i o) l j = sees k ms l j.
Proof.
  induction k as [|k IH]; intros ms i o m N l j; [reflexivity|]. cbn [sees]. induction l as [|a l IHl]; [reflexivity|]. cbn [existsb]. rewrite IHl, (IH _ _ _ _ N), (set_out_nth _ _ _ _ _ N).
  destruct (Nat.eqb_spec i a) as [<-|Ne]; [|reflexivity]. rewrite N. reflexivity.
Qed.
Lemma depths_set_out : forall (ms : list module) i o m, nth_error ms i = Some m -> map m_depth (set_out ms i o) = map m_depth ms.
Proof. intros ms i o m N. unfold set_out. rewrite N, map_set_nth. apply set_nth_id. rewrite nth_error_map, N. reflexivity. Qed.
Lemma visible_set_out : forall (ms : list module) i o m l, nth_error ms i = Some m -> 1 <= i -> ~ uses ms l i -> forall j, visible (set_out ms i o) l j = visible ms l j.
Proof.
  intros ms i o m l N I1 U j. unfold visible. rewrite (sees_set_out _ _ _ _ _ N), (depths_set_out _ _ _ _ N), (out_set_out _ _ _ _ _ N).
  destruct (Nat.eqb_spec i j) as [<-|Ne]; [|reflexivity]. destruct (Nat.eqb_spec i 0); [lia|]. destruct (sees (S (list_max (map m_depth ms))) ms l i) eqn:E; [|reflexivity]. exfalso. apply U. eapply sees_uses; eauto.
Qed.
Lemma uses_less : forall st ms, inv st ms -> forall l j, uses ms l j -> forall D, (forall i, In i l -> 1 <= i /\ exists m, nth_error ms i = Some m /\ 1 <= m_depth m < D) -> exists m, nth_error ms j = Some m /\ m_depth m < D.
Proof.
  intros st ms I l j U. induction U as [l j H|l i m j H N U IH]; intros D F.
  - destruct (F _ H) as (_ & m & N & X). exists m. split; [assumption|lia].
  - apply IH. intros a Ha. destruct (F _ H) as (I1 & m' & N' & X). assert (m' = m) by congruence. subst m'.
    destruct (status_done _ _ _ _ (i_status _ _ I _ _ I1 N) ltac:(lia)) as (ast & li & (Hin & _ & _ & _ & Hl) & _). unfold m_imports in Ha. rewrite Hin in Ha. apply in_map_iff in Ha. destruct Ha as ((p & a') & <- & Ha).
    destruct (Hl _ _ Ha) as (A & ma & Na & _ & Da). split; [assumption|]. exists ma. split; [assumption|lia].
Qed.
Hypothesis Hlk : looks_up solve.
Lemma codegen_set_out : forall st ms D i k o, inv st ms -> 1 <= D -> level D ms i -> level D ms k -> i <> k -> compile_solveCodegen solve (set_out ms k o) i = compile_solveCodegen solve ms i.
Proof.
  intros st ms D i k o I D1 (mi & Ni & Di) (mk & Nk & Dk) Ne. unfold compile_solveCodegen. rewrite (set_out_nth _ _ _ _ _ Nk). destruct (Nat.eqb_spec k i); [congruence|]. rewrite Ni.
  assert (Z : forall a m, nth_error ms a = Some m -> m_depth m = D -> 1 <= a). { intros a m N E. destruct a; [|lia]. rewrite (i_pre _ _ I) in N. injection N as <-. destruct Hpre as (_ & X & _). lia. }
  destruct (m_out mi); [reflexivity|]. destruct (status_done _ _ _ _ (i_status _ _ I _ _ (Z _ _ Ni Di) Ni) ltac:(lia)) as (ast & l & (Hin & _ & _ & _ & Hl) & _). rewrite Hin.
  erewrite Hlk; [reflexivity|]. apply (visible_set_out _ _ _ _ _ Nk (Z _ _ Nk Dk)). intros U. apply (uses_less _ _ I) with (D := D) in U.
  - destruct U as (m' & N' & X). assert (m' = mk) by congruence. subst m'. lia.
  - intros a Ha. apply in_map_iff in Ha. destruct Ha as ((p & a') & <- & Ha). destruct (Hl _ _ Ha) as (A & ma & Na & _ & Da). split; [assumption|]. exists ma. split; [assumption|lia].
Qed.
Lemma results_cons : forall (ms : list module) i l, results solve ms (i :: l) = if has_out ms i then results solve ms l else (i, compile_solveCodegen solve ms i) :: results solve ms l.
Proof. intros ms i l. unfold results. cbn. destruct (has_out ms i); reflexivity. Qed.
Lemma par_each : forall st D, 1 <= D -> forall l ms ms0, NoDup l -> inv st ms -> ready D ms -> (forall i, In i l -> level D ms i) ->
  (forall i, In i l -> nth_error ms i = nth_error ms0 i /\ compile_solveCodegen solve ms i = compile_solveCodegen solve ms0 i) ->
  inv st (fst (store ms (results solve ms0 l))) /\ shape ms (fst (store ms (results solve ms0 l))) /\
  snd (store ms (results solve ms0 l)) = snd (solve_each solve ms l) /\ (forall u, snd (solve_each solve ms l) = Done u -> fst (store ms (results solve ms0 l)) = fst (solve_each solve ms l)).
Proof.
  intros st D D1. induction l as [|i l IH]; intros ms ms0 ND I R Lv Eq.
  - cbn. split; [assumption|]. split; [apply shape_refl|]. auto.
  - apply NoDup_cons_iff in ND. destruct ND as (Ni & ND). rewrite results_cons. cbn [solve_each].
    destruct (Eq i ltac:(left; reflexivity)) as (En & Ec). assert (Eh : has_out ms0 i = has_out ms i) by (unfold has_out, out_of; rewrite En; reflexivity). rewrite Eh.
    assert (Lv' : forall k, In k l -> level D ms k) by (intros k K; apply Lv; right; assumption).
    assert (Eq' : forall k, In k l -> nth_error ms k = nth_error ms0 k /\ compile_solveCodegen solve ms k = compile_solveCodegen solve ms0 k) by (intros k K; apply Eq; right; assumption).
    destruct (has_out ms i) eqn:HO; [apply IH; assumption|]. rewrite <- Ec.
    destruct (Lv i ltac:(left; reflexivity)) as (m & N & E).
    assert (O : m_out m = None). { unfold has_out, out_of in HO. rewrite N in HO. destruct (m_out m); [discriminate|reflexivity]. }
    destruct (compile_solveCodegen solve ms i) as [o|e|] eqn:C; cbn [store fst snd].
    + destruct (step_inv _ _ _ _ _ o I R D1 N E O C) as (I2 & Sh & R2).
      destruct (IH (set_out ms i o) ms0 ND I2 R2) as (A & B & F & G).
      * intros k K. apply (shape_level _ _ D k Sh). auto.
      * intros k K. destruct (Eq' _ K) as (En' & Ec'). assert (k <> i) by (intros ->; contradiction). rewrite (set_out_nth _ _ _ _ _ N). destruct (Nat.eqb_spec i k); [congruence|]. split; [assumption|].
        rewrite <- Ec'. eapply codegen_set_out; eauto. exists m. auto.
      * split; [assumption|]. split; [eapply shape_trans; eauto|]. split; assumption.
    + destruct (IH ms ms0 ND I R Lv' Eq') as (A & B & _). split; [assumption|]. split; [assumption|]. split; [reflexivity|discriminate].
    + destruct (IH ms ms0 ND I R Lv' Eq') as (A & B & _). split; [assumption|]. split; [assumption|]. split; [reflexivity|discriminate].
Qed.
Definition solve_one (b : bool) (ms : list module) (l : list nat) := if b then solve_par solve ms l else solve_each solve ms l.
(** Level 0: the prelude; and what was not loaded *)
Definition blank_at (ms : list module) (i : nat) : Prop := exists m, 1 <= i /\ nth_error ms i = Some m /\ m_in m = None.
Lemma level0 : forall b l ms, inv [] ms -> (forall i, In i l -> level 0 ms i) ->
  fst (solve_one b ms l) = ms /\ ((snd (solve_one b ms l) = Done tt /\ forall i, In i l -> out_of ms i <> None) \/ (snd (solve_one b ms l) = Error Bug /\ exists i, In i l /\ blank_at ms i)).
Proof.
  intros b l ms I Lv.
  assert (X : forall i, level 0 ms i -> has_out ms i = true \/ (has_out ms i = false /\ compile_solveCodegen solve ms i = Error Bug /\ blank_at ms i)).
  { intros i (m & N & E). destruct i as [|i].
    - left. rewrite (i_pre _ _ I) in N. injection N as <-. unfold has_out, out_of. rewrite (i_pre _ _ I). destruct (m_out pre) eqn:O; [reflexivity|]. destruct Hpre as (Y & _). congruence.
    - right. destruct (i_status _ _ I (S i) m ltac:(lia) N) as [A B C|A B C D|Dn]; [|destruct D|apply done_depth in Dn; lia].
      unfold has_out, out_of, compile_solveCodegen. rewrite N, C, A. split; [reflexivity|]. split; [reflexivity|]. exists m. split; [lia|]. auto. }
  unfold solve_one, solve_par. induction l as [|i l IH].
  - destruct b; cbn; (split; [reflexivity|]); left; (split; [reflexivity|]); intros i H; destruct H.
  - destruct (IH ltac:(intros k K; apply Lv; right; assumption)) as (A & B). destruct (X i (Lv i ltac:(left; reflexivity))) as [H|(H1 & H2 & H3)].
    + assert (Y : (if b then store ms (results solve ms (i :: l)) else solve_each solve ms (i :: l)) = (if b then store ms (results solve ms l) else solve_each solve ms l)).
      { destruct b; [rewrite results_cons, H; reflexivity|cbn [solve_each]; rewrite H; reflexivity]. }
      rewrite Y. split; [assumption|]. destruct B as [(B1 & B2)|(B1 & k & K & Bk)]; [left|right]; (split; [assumption|]).
      * intros k [<-|K]; [|auto]. apply has_out_spec; assumption.
      * exists k. split; [right; assumption|assumption].
    + assert (Y : fst (if b then store ms (results solve ms (i :: l)) else solve_each solve ms (i :: l)) = ms /\ snd (if b then store ms (results solve ms (i :: l)) else solve_each solve ms (i :: l)) = Error Bug).
      { destruct b; [rewrite results_cons, H1, H2; cbn; split; [exact A|reflexivity]|cbn [solve_each]; rewrite H1, H2; split; reflexivity]. }
      destruct Y as (Y1 & Y2). split; [assumption|]. right. split; [assumption|]. exists i. split; [left; reflexivity|assumption].
Qed.
Definition levels_post (b : bool) (k : nat) (ms : list module) (levels : list (list nat)) (ms' : list module) (r : outcome unit) : Prop :=
  inv [] ms' /\ shape ms ms' /\
  match r with
  | Done _ => ready (k + length levels) ms'
  | Error e => e = SolveError /\ (b = false -> exists i, fails ms' i)
  | Trap => False
  end.
Lemma levels_ok : forall b levels k ms, 1 <= k -> inv [] ms -> ready k ms -> (forall x i, In i (nth x levels []) <-> x < length levels /\ level (k + x) ms i) -> (forall x, NoDup (nth x levels [])) ->
  levels_post b k ms levels (fst (solve_levels solve b ms levels)) (snd (solve_levels solve b ms levels)) /\
  snd (solve_levels solve true ms levels) = snd (solve_levels solve false ms levels) /\
  (forall u, snd (solve_levels solve false ms levels) = Done u -> fst (solve_levels solve true ms levels) = fst (solve_levels solve false ms levels)).
Proof.
  intros b. induction levels as [|l levels IH]; intros k ms K I R Lv ND.
  - cbn. split; [|auto]. split; [assumption|]. split; [apply shape_refl|]. rewrite Nat.add_0_r. assumption.
  - assert (Lv0 : forall i, In i l -> level k ms i). { intros i H. specialize (Lv 0 i). cbn in Lv. rewrite Nat.add_0_r in Lv. apply Lv. assumption. }
    pose proof (each_ok [] k K l ms I R Lv0) as (Ie & She & Pe).
    pose proof (par_each [] k K l ms ms (ND 0) I R Lv0 ltac:(auto)) as (Ip & Shp & Sp & Fp). fold (solve_par solve ms l) in Ip, Shp, Sp, Fp.
    cbn [solve_levels]. destruct (solve_each solve ms l) as (m1, r1) eqn:E1. destruct (solve_par solve ms l) as (m2, r2) eqn:E2. cbn [fst snd] in *. subst r2.
    destruct r1 as [[]|e|]; [| |contradiction].
    + rewrite (Fp tt eq_refl) in *. assert (Rn : ready (S k) m1).
      { intros i m I1 N D. destruct (Nat.eq_dec (m_depth m) k) as [Ek|Nk].
        - assert (Hi : In i l). { apply (Lv 0 i). split; [cbn; lia|]. rewrite Nat.add_0_r. apply (shape_level _ _ k i She). exists m. auto. }
          specialize (Pe _ Hi). unfold out_of in Pe. rewrite N in Pe. assumption.
        - eapply (shape_ready _ _ _ She R); eauto. lia. }
      destruct (IH (S k) m1 ltac:(lia) Ie Rn) as (A & B & C).
      * intros x i. specialize (Lv (S x) i). cbn [nth length] in Lv. rewrite Lv. replace (k + S x) with (S k + x) by lia. rewrite (shape_level _ _ (S k + x) i She). split; intros (X & Y); (split; [lia|assumption]).
      * intros x. apply (ND (S x)).
      * split; [|destruct b; auto]. destruct A as (A1 & A2 & A3).
        assert (Q : levels_post b k ms (l :: levels) (fst (solve_levels solve b m1 levels)) (snd (solve_levels solve b m1 levels))).
        { split; [assumption|]. split; [eapply shape_trans; eauto|]. destruct (snd (solve_levels solve b m1 levels)); auto. cbn [length]. replace (k + S (length levels)) with (S k + length levels) by lia. assumption. }
        destruct b; exact Q.
    + destruct Pe as (-> & i & Hi & Fi). destruct b; cbn; (split; [|split; [reflexivity|discriminate]]).
      * split; [assumption|]. split; [assumption|]. split; [reflexivity|discriminate].
      * split; [assumption|]. split; [assumption|]. split; [reflexivity|]. intros _. exists i. assumption.
Qed.

(** ** dep_order *)
Lemma nth_push_at : forall dp i L k, nth k (push_at dp i L) [] = nth k L [] ++ (if dp =? k then [i] else []).
Proof.
  induction dp as [|dp IH]; intros i [|x L] [|k]; cbn [push_at nth Nat.eqb]; rewrite ?app_nil_r; try reflexivity.
  - destruct k; reflexivity.
  - rewrite IH. destruct k; reflexivity.
  - apply IH.
Qed.
Lemma length_push_at : forall dp i L, length (push_at dp i L) = Nat.max (S dp) (length L).
Proof. induction dp as [|dp IH]; intros i [|x L]; cbn [push_at length]; try lia; rewrite IH; cbn [length]; lia. Qed.
Lemma dep_order_fold : forall (l : list (nat * module)) L k,
  nth k (fold_left (fun l '(i, m) => push_at (m_depth m) i l) l L) [] = nth k L [] ++ map fst (filter (fun x => m_depth (snd x) =? k) l).
Proof.
  induction l as [|(i, m) l IH]; intros L k; cbn [fold_left filter map]; [rewrite app_nil_r; reflexivity|]. rewrite IH, nth_push_at, <- app_assoc. cbn [snd]. destruct (m_depth m =? k); reflexivity.
Qed.
Lemma dep_order_len : forall (l : list (nat * module)) L i m, In (i, m) l \/ m_depth m < length L -> m_depth m < length (fold_left (fun l '(i, m) => push_at (m_depth m) i l) l L).
Proof.
  induction l as [|(j, mj) l IH]; intros L i m H; cbn [fold_left].
  - destruct H as [[]|H]; assumption.
  - apply (IH _ i m). rewrite length_push_at. destruct H as [[H|H]|H]; [injection H as -> ->; right; lia|left; assumption|right; lia].
Qed.
Lemma in_indexed : forall A (l : list A) k i x, In (i, x) (combine (seq k (length l)) l) <-> exists j, i = k + j /\ nth_error l j = Some x.
Proof.
  induction l as [|y l IH]; intros k i x; cbn [length seq combine In].
  - split; [intros []|intros (j & _ & H); destruct j; discriminate].
  - rewrite IH. split.
    + intros [H|(j & -> & H)]; [injection H as -> ->; exists 0; split; [lia|reflexivity]|exists (S j); split; [lia|assumption]].
    + intros (j & -> & H). destruct j as [|j]; [left; cbn in H; injection H as ->; rewrite Nat.add_0_r; reflexivity|right; exists j; split; [lia|assumption]].
Qed.
Lemma combine_fst : forall A B (a : list A) (b : list B), length a = length b -> map fst (combine a b) = a.
Proof. induction a as [|x a IH]; intros [|y b] H; cbn in *; try discriminate; [reflexivity|]. rewrite IH by lia. reflexivity. Qed.
Lemma nodup_map_filter : forall A B (f : A -> B) g l, NoDup (map f l) -> NoDup (map f (filter g l)).
Proof.
  induction l as [|x l IH]; intros H; cbn in *; [constructor|]. apply NoDup_cons_iff in H. destruct H as (H1 & H2). destruct (g x); [|auto]. cbn. constructor; [|auto].
  intros X. apply H1. apply in_map_iff in X. destruct X as (y & E & Y). apply filter_In in Y. apply in_map_iff. exists y. tauto.
Qed.
Lemma dep_order_level : forall (ms : list module) k i, In i (nth k (dep_order ms) []) <-> level k ms i.
Proof.
  intros ms k i. unfold dep_order. rewrite dep_order_fold. cbn. destruct k; cbn [nth app]; rewrite in_map_iff; split.
  all: try (intros ((a & m) & <- & H); apply filter_In in H; destruct H as (H & E); apply in_indexed in H; destruct H as (j & -> & N); cbn in *; exists m; apply Nat.eqb_eq in E; auto).
  all: intros (m & N & E); exists (i, m); split; [reflexivity|]; apply filter_In; split; [apply in_indexed; exists i; auto|cbn; apply Nat.eqb_eq; assumption].
Qed.
Lemma dep_order_nodup : forall (ms : list module) k, NoDup (nth k (dep_order ms) []).
Proof.
  intros ms k. unfold dep_order. rewrite dep_order_fold. replace (nth k ([] : list (list nat)) []) with (@nil nat) by (destruct k; reflexivity). cbn [app].
  apply nodup_map_filter. rewrite combine_fst by apply seq_length. apply seq_NoDup.
Qed.
Lemma dep_order_all : forall (ms : list module) i m, nth_error ms i = Some m -> m_depth m < length (dep_order ms).
Proof. intros ms i m N. unfold dep_order. apply (dep_order_len _ _ i). left. apply in_indexed. exists i. auto. Qed.

Lemma solve_all : forall b ms, inv [] ms ->
  inv [] (fst (solve_levels solve b ms (dep_order ms))) /\ shape ms (fst (solve_levels solve b ms (dep_order ms))) /\
  match snd (solve_levels solve b ms (dep_order ms)) with
  | Done _ => forall i m, nth_error (fst (solve_levels solve b ms (dep_order ms))) i = Some m -> m_out m <> None
  | Error SolveError => (forall i, ~ blank_at ms i) /\ (b = false -> exists i, fails (fst (solve_levels solve b ms (dep_order ms))) i)
  | Error Bug => exists i, blank_at ms i
  | _ => False
  end /\
  snd (solve_levels solve true ms (dep_order ms)) = snd (solve_levels solve false ms (dep_order ms)) /\
  (forall u, snd (solve_levels solve false ms (dep_order ms)) = Done u -> fst (solve_levels solve true ms (dep_order ms)) = fst (solve_levels solve false ms (dep_order ms))).
Proof.
  intros b ms I. pose proof (dep_order_level ms) as Lv. pose proof (dep_order_nodup ms) as ND. pose proof (dep_order_all ms) as Al. destruct (dep_order ms) as [|l0 levels] eqn:E.
  { specialize (Al 0 pre (i_pre _ _ I)). cbn in Al. lia. }
  assert (Lv0 : forall i, In i l0 -> level 0 ms i) by (intros i H; apply (Lv 0 i); assumption).
  pose proof (level0 true l0 ms I Lv0) as (T1 & T2). pose proof (level0 false l0 ms I Lv0) as (F1 & F2). cbn [solve_one] in *.
  cbn [solve_levels]. destruct (solve_par solve ms l0) as (mt, rt) eqn:Et. destruct (solve_each solve ms l0) as (mf, rf) eqn:Ef. cbn [fst snd] in *. subst mt mf.
  assert (Bl : (exists i, In i l0 /\ blank_at ms i) -> ~ (forall i, In i l0 -> out_of ms i <> None)).
  { intros (i & Hi & m & I1 & N & B) H. specialize (H _ Hi). unfold out_of in H. rewrite N in H. destruct (i_status _ _ I _ _ I1 N) as [A B' C|A B' C D|Dn]; [congruence|congruence|]. apply done_depth in Dn. tauto. }
  destruct F2 as [(-> & O)|(-> & Bk)].
  - destruct T2 as [(-> & _)|(_ & Bk)]; [|destruct (Bl Bk O)].
    destruct (levels_ok b levels 1 ms ltac:(lia) I) as (A & B & C).
    + intros i m _ _ X. lia.
    + intros x i. rewrite <- (Lv (S x) i). cbn [nth]. split; [|tauto]. intros H. split; [|assumption]. destruct (Nat.lt_ge_cases x (length levels)) as [X|X]; [assumption|]. rewrite nth_overflow in H by assumption. destruct H.
    + intros x. apply (ND (S x)).
    + assert (Bb : (if b then (ms, Done tt) else (ms, Done tt)) = (ms, @Done unit tt)) by (destruct b; reflexivity). rewrite Bb. destruct A as (A1 & A2 & A3). split; [assumption|]. split; [assumption|]. split; [|auto].
      assert (NB : forall i, ~ blank_at ms i).
      { intros i Bi. apply Bl in O; [assumption|]. exists i. split; [|assumption]. destruct Bi as (m & I1 & N & Bm). apply (Lv 0 i). exists m. split; [assumption|]. destruct (i_status _ _ I _ _ I1 N) as [P Q S|P Q S D|Dn]; [assumption|assumption|]. apply done_depth in Dn. tauto. }
      destruct (snd (solve_levels solve b ms levels)) as [u|e|]; [|destruct A3 as (-> & A3); auto|contradiction].
      intros i m N. destruct (Nat.eq_dec i 0) as [->|Ni]; [rewrite (i_pre _ _ A1) in N; injection N as <-; apply Hpre|].
      specialize (A2 i). rewrite N in A2. destruct (nth_error ms i) as [m0|] eqn:N0; [|contradiction]. destruct A2 as (_ & Ein & Ed & _).
      apply (A3 i m); [lia|assumption|]. specialize (Al i m0 N0). cbn [length] in Al.
      destruct (i_status _ _ I i m0 ltac:(lia) N0) as [P Q S|P Q S D|Dn]; [|destruct D|apply done_depth in Dn; lia]. exfalso. apply (NB i). exists m0. split; [lia|]. auto.
  - destruct T2 as [(_ & O)|(-> & _)]; [destruct (Bl Bk O)|]. destruct Bk as (i & _ & Bk).
    destruct b; cbn; (split; [assumption|]); (split; [apply shape_refl|]); (split; [exists i; assumption|]); auto.
Qed.

(** ** A build *)
Definition names_kept (ms ms' : list module) : Prop := forall i m, nth_error ms i = Some m -> exists m', nth_error ms' i = Some m' /\ m_fname m' = m_fname m.
Definition compile_post (b : bool) (fuel : nat) (s : state) (main : name) (s' : state) (r : outcome unit) : Prop :=
  cached s' /\ read s' /\ (exists st, inv st (modules s')) /\ names_kept (modules s) (modules s') /\ newly main (modules s) (modules (fst (load fuel d s main))) /\
  match r with
  | Done _ => all_up_to_date parse resolve solve d (modules s') /\ good d main /\ (exists i m, 1 <= i /\ nth_error (modules s') i = Some m /\ m_fname m = main) /\ shape (modules (fst (load fuel d s main))) (modules s')
  | Error Bug => good d main /\ exists i m, 1 <= i /\ nth_error (modules s) i = Some m /\ nth_error (modules s') i = Some m /\ m_in m = None /\ ~ reaches d main (m_fname m)
  | Error SolveError => good d main /\ (b = false -> exists i, fails (modules s') i)
  | Error e => blames e main
  | Trap => False
  end.
Lemma read_shape : forall ms ms' c, shape ms ms' -> read (State ms c) -> read (State ms' c).
Proof.
  intros ms ms' c H R i m I1 N X. cbn in *. specialize (H i). rewrite N in H. destruct (nth_error ms i) as [m0|] eqn:N0; [|contradiction]. destruct H as (F & J & _). rewrite F. apply (R i m0 I1 N0). congruence.
Qed.
Lemma compile_ok : forall b fuel s main, length fs < fuel -> inv [] (modules s) -> cached s -> read s -> main <> m_fname pre -> compile_post b fuel s main (fst (compile parse resolve solve fuel b d s main)) (snd (compile parse resolve solve fuel b d s main)).
Proof.
  intros b fuel s main Hfuel I C R P. assert (PO : pre_ok [] s main). { split; [assumption|]. split; [assumption|]. split; [assumption|]. split; [exact Logic.I|]. split; [assumption|]. split; [constructor|]. intros x H. destruct H. }
  pose proof (load_ok fuel [] s main PO) as L. unfold compile, compile_post. destruct (load fuel d s main) as (s1, r1) eqn:E. cbn [fst snd] in *. destruct L as (C1 & R1 & K1 & N1 & L).
  assert (Kn : names_kept (modules s) (modules s1)). { intros i m N. destruct (K1 _ _ N) as (m' & N' & F & _). exists m'. auto. }
  destruct r1 as [(i, dep)|e|].
  - destruct L as (I1 & Ii & Dp & m & Nm & Fm & Em). assert (G : good d main). { rewrite <- Fm. eapply deep_good with (i := i); eauto. lia. }
    destruct (solve_all b _ I1) as (I2 & Sh & Po & _). destruct (solve_levels solve b (modules s1) (dep_order (modules s1))) as (ms2, r2) eqn:E2. cbn [fst snd modules files] in *.
    split; [exact C1|]. split; [apply (read_shape (modules s1)); [assumption|]; destruct s1; exact R1|]. split; [exists []; assumption|].
    assert (Kn2 : names_kept (modules s) ms2).
    { intros a ma Na. destruct (Kn _ _ Na) as (m' & N' & F'). specialize (Sh a). rewrite N' in Sh. destruct (nth_error ms2 a) as [m2|]; [|contradiction]. exists m2. split; [reflexivity|]. destruct Sh. congruence. }
    split; [assumption|]. split; [assumption|]. destruct r2 as [u|e|]; [|destruct e; try contradiction|contradiction].
    + split; [|split; [assumption|]; split; [|assumption]].
      * intros a ma A1 Na. specialize (Po _ _ Na). destruct (i_status _ _ I2 _ _ A1 Na) as [X Y Z|X Y Z W|(ast & l & Ld & Ho)]; [congruence|congruence|]. destruct (m_out ma) as [o|] eqn:O; [|congruence].
        destruct (Ho _ eq_refl) as (_ & v & V & S). exists ast, l, o, v. auto.
      * specialize (Sh i). rewrite Nm in Sh. destruct (nth_error ms2 i) as [m2|] eqn:N2; [|contradiction]. exists i, m2. split; [assumption|]. split; [assumption|]. destruct Sh. congruence.
    + split; [assumption|]. apply Po.
    + split; [assumption|]. destruct Po as (a & ma & A1 & Na & Ba). 
      assert (NR : ~ reaches d main (m_fname ma)).
      { intros Re. destruct (deep_reaches _ _ I1 _ _ Re i m Ii Nm ltac:(lia) Fm) as (j & mj & J & Nj & Fj & Dj). assert (j = a) by (eapply names_unique; [apply (i_nodup _ _ I1)|exact Nj|exact Na|assumption]). subst j.
        assert (mj = ma) by congruence. subst mj. pose proof (status_done _ _ _ _ (i_status _ _ I1 _ _ A1 Na) ltac:(lia)) as Dn. apply done_depth in Dn. tauto. }
      exists a, ma. split; [assumption|]. destruct (N1 _ _ Na) as [Na0|Re]; [|contradiction]. split; [assumption|]. split; [|auto]. specialize (Sh a). rewrite Na in Sh. destruct (nth_error ms2 a) as [m2|] eqn:N2; [|contradiction].
      destruct Sh as (S1 & S2 & S3 & S4). f_equal. destruct (i_status _ _ I2 _ _ A1 N2) as [X Y Z|X Y Z W|Dn]; [|destruct W|apply done_depth in Dn; exfalso; destruct Dn as (_ & Dn); congruence].
      destruct (i_status _ _ I1 _ _ A1 Na) as [X' Y' Z'|X' Y' Z' W'|Dn]; [|destruct W'|apply done_depth in Dn; tauto]. destruct m2, ma; cbn in *; congruence.
  - cbn. destruct L as (Ie & B). split; [assumption|]. split; [assumption|]. split; [assumption|]. split; [assumption|]. split; [assumption|]. destruct e; try assumption; destruct B.
  - exfalso. cbn in L. lia.
Qed.
End DISK.
End PROOFS.
