(** Proofs about spawn. *)
From Verif Require Import SpawnSpec SpawnModel.
From Coq Require Import List Arith Bool Lia.
Import ListNotations.

Lemma put_same t f v : put t f v f = v.
Proof. unfold put. rewrite Nat.eqb_refl. auto. Qed.
Lemma put_other t f v g : g <> f -> put t f v g = t g.
Proof. intros H. unfold put. destruct (Nat.eqb_spec g f); congruence. Qed.
Lemma acts_app l1 l2 t : acts (l1 ++ l2) t = match acts l1 t with Some t' => acts l2 t' | None => None end.
Proof. revert t. induction l1 as [|a l IH]; intros t; cbn; auto. destruct (act a t); auto. Qed.

(** One stream. *)
Lemma lowest_below t s : (forall g, g < s -> t g <> None) -> t s = None -> lowest t s = s.
Proof.
  intros H N. unfold lowest. rewrite seq_S. cbn [plus].
  assert (F : forall l, (forall g, In g l -> t g <> None) ->
    find (fun g => match t g with None => true | Some _ => false end) (l ++ [s]) = Some s).
  { induction l as [|x l IH]; intros Hl; cbn. { rewrite N. auto. }
    destruct (t x) eqn:E; [|exfalso; apply (Hl x (or_introl eq_refl) E)]. apply IH. intros g Hg. apply Hl. right. auto. }
  rewrite F; auto. intros g Hg. apply in_seq in Hg. apply H. lia.
Qed.
Lemma ignored_actions t s : (forall g, g < s -> t g <> None) ->
  exists t', acts (pipe_actions no_pipe s) t = Some t' /\ t' s = Some (DevNull, true) /\ forall g, g <> s -> t' g = t g.
Proof.
  intros H. cbn [pipe_actions truthy no_pipe p_r p_w Nat.eqb negb orb acts act].
  rewrite lowest_below.
  - rewrite Nat.eqb_refl. eexists. split; [reflexivity|]. split; [apply put_same|]. intros g N. rewrite !put_other by auto. auto.
  - intros g L. rewrite put_other by lia. auto.
  - apply put_same.
Qed.
Lemma parent_actions t s o : 0 < s -> option_map fst (t s) = Some o ->
  exists t', acts (pipe_actions {| p_r := 0; p_w := s |} s) t = Some t' /\ t' s = Some (o, false) /\ forall g, g <> s -> t' g = t g.
Proof.
  intros L E. unfold pipe_actions, truthy. cbn [p_r p_w]. destruct (Nat.eqb_spec s 0) as [|N]; [lia|]. cbn [Nat.eqb negb orb app].
  rewrite Nat.eqb_refl. cbn [acts act app]. destruct (t s) as [[o' b]|]; [|discriminate]. injection E as ->.
  eexists. split; [reflexivity|]. split; [apply put_same|]. intros g Ng. apply put_other. auto.
Qed.
Lemma piped_actions t s r w o b : 2 < r -> 2 < w -> r <> w -> s <= 2 ->
  t (if Nat.eqb s 0 then r else w) = Some (o, b) ->
  exists t', acts (pipe_actions {| p_r := r; p_w := w |} s) t = Some t' /\ t' s = Some (o, false)
    /\ t' r = None /\ t' w = None /\ forall g, g <> s -> g <> r -> g <> w -> t' g = t g.
Proof.
  intros Lr Lw N Ls E. unfold pipe_actions, truthy. cbn [p_r p_w].
  destruct (Nat.eqb_spec r 0); [lia|]. destruct (Nat.eqb_spec w 0); [lia|]. cbn [negb orb].
  destruct (Nat.eqb_spec s 0) as [->|Ns]; cbn [app acts act].
  - rewrite put_other by auto. rewrite E. eexists. split; [reflexivity|].
    split; [rewrite put_other by lia; apply put_same|]. split; [apply put_same|].
    split; [rewrite !put_other by lia; apply put_same|]. intros g A B C. rewrite !put_other by auto. auto.
  - destruct (Nat.eqb_spec w s); [lia|]. cbn [app acts act]. rewrite put_other by auto. rewrite E. eexists. split; [reflexivity|].
    split; [rewrite put_other by lia; apply put_same|].
    split; [rewrite !put_other by lia; apply put_same|]. split; [apply put_same|].
    intros g A B C. rewrite !put_other by auto. auto.
Qed.

(** What the pipe of stream [s] is, and what holds of the table it is made in. *)
Definition pipe_of (m : mode) (s : nat) (answer : option (nat * nat)) : pipe_t :=
  match m, answer with
  | Pipe, Some (r, w) => {| p_r := r; p_w := w |}
  | Parent, _ => if Nat.eqb s 0 then no_pipe else {| p_r := 0; p_w := s |}
  | _, _ => no_pipe
  end.
Definition holds (t : table) (m : mode) (s : nat) (answer : option (nat * nat)) : Prop :=
  match m, answer with
  | Pipe, Some (r, w) => t r = Some (ReadEnd s, true) /\ t w = Some (WriteEnd s, true) /\ 2 < r /\ 2 < w /\ r <> w
  | Pipe, None => False
  | _, _ => True
  end.
(** What the stream becomes in the child. *)
Definition becomes (t : table) (m : mode) (s : nat) : option (obj * bool) :=
  match m with
  | Ignore => Some (DevNull, true)
  | Parent => if Nat.eqb s 0 then Some (DevNull, true) else option_map (fun v => (fst v, false)) (t s)
  | Pipe => Some (if Nat.eqb s 0 then ReadEnd 0 else WriteEnd s, false)
  end.
Lemma stream_actions t m s a : s <= 2 -> (forall g, g <= 2 -> t g <> None) -> holds t m s a ->
  exists t', acts (pipe_actions (pipe_of m s a) s) t = Some t' /\ t' s = becomes t m s
    /\ (forall g, In g (pipe_fds m a) -> t' g = None)
    /\ forall g, g <> s -> ~ In g (pipe_fds m a) -> t' g = t g.
Proof.
  intros L O H. destruct m; cbn [pipe_of becomes pipe_fds].
  - destruct (ignored_actions t s) as (t' & A & B & C); [intros; apply O; lia|]. exists t'. split; auto. split; auto. split; [intros g []|auto].
  - destruct (Nat.eqb_spec s 0) as [->|N].
    + destruct (ignored_actions t 0) as (t' & A & B & C); [intros; lia|]. exists t'. split; auto. split; auto. split; [intros g []|auto].
    + destruct (t s) as [[o b]|] eqn:E; [|exfalso; apply (O s L E)].
      destruct (parent_actions t s o) as (t' & A & B & C); [lia|rewrite E; auto|]. exists t'. split; auto. split; auto. split; [intros g []|auto].
  - destruct a as [[r w]|]; [|destruct H]. destruct H as (H1 & H2 & H3 & H4 & H5).
    destruct (piped_actions t s r w (if Nat.eqb s 0 then ReadEnd s else WriteEnd s) true) as (t' & A & B & C & D & E); auto.
    { destruct (Nat.eqb_spec s 0); auto. }
    exists t'. split; auto. split. { rewrite B. destruct (Nat.eqb_spec s 0); congruence. }
    split. { intros g [<-|[<-|[]]]; auto. } intros g N1 N2. apply E; auto; intros ->; apply N2; cbn; auto.
Qed.

Lemma NoDup_app_l {A} (l1 l2 : list A) : NoDup (l1 ++ l2) -> NoDup l1 /\ NoDup l2 /\ forall x, In x l1 -> ~ In x l2.
Proof.
  induction l1 as [|a l1 IH]; cbn. { intros H. split; [constructor|]. split; auto. }
  intros H. inversion H as [|x l Nx Nl]; subst. destruct (IH Nl) as (A1 & A2 & A3).
  split. { constructor; auto. intros X. apply Nx. apply in_or_app. auto. }
  split; auto. intros x [<-|X]; auto. intros Y. apply Nx. apply in_or_app. auto.
Qed.

Section Spawn.
Variables (a : answers_t) (om em im : mode) (t : table).
Let fo := pipe_fds om (a_out a).
Let fe := pipe_fds em (a_err a).
Let fi := pipe_fds im (a_in a).
Hypothesis (Hs : has_streams t) (Hf : all_free t (fo ++ fe ++ fi)).

(** The table with the pipes of a stream opened. *)
Definition opened (m : mode) (s : nat) (ans : option (nat * nat)) (t : table) : table :=
  match m, ans with
  | Pipe, Some (r, w) => put (put t r (Some (ReadEnd s, true))) w (Some (WriteEnd s, true))
  | _, _ => t
  end.
Definition gives (m : mode) (ans : option (nat * nat)) : bool := match m, ans with Pipe, None => false | _, _ => true end.
Definition plain (m : mode) (ans : option (nat * nat)) : pipe_t :=
  match m, ans with Pipe, Some (r, w) => {| p_r := r; p_w := w |} | _, _ => no_pipe end.
Lemma make_pipe_opened m s ans u :
  (if is_pipe m then make_pipe s ans u else Some (no_pipe, u)) = if gives m ans then Some (plain m ans, opened m s ans u) else None.
Proof. destruct m; auto. destruct ans as [[r w]|]; auto. Qed.
Lemma opened_other m s ans u g : ~ In g (pipe_fds m ans) -> opened m s ans u g = u g.
Proof.
  intros H. destruct m; auto. destruct ans as [[r w]|]; auto. cbn [opened]. rewrite !put_other; auto; intros ->; apply H; cbn; auto.
Qed.
Lemma closed_opened m ans u g : gives m ans = true ->
  when (is_pipe m) (close_both (plain m ans)) u g = if in_dec Nat.eq_dec g (pipe_fds m ans) then None else u g.
Proof.
  intros G. destruct m; cbn [is_pipe when]; try (destruct (in_dec _ _ _) as [[]|]; reflexivity).
  destruct ans as [[r w]|]; [|discriminate]. cbn [plain close_both p_r p_w pipe_fds]. unfold close_both. cbn [p_r p_w].
  destruct (in_dec Nat.eq_dec g [r; w]) as [[<-|[<-|[]]]|N].
  - destruct (Nat.eq_dec r w) as [->|]; [apply put_same|]. rewrite put_other by auto. apply put_same.
  - apply put_same.
  - rewrite !put_other; auto; intros ->; apply N; cbn; auto.
Qed.
Lemma disjoint : (NoDup fo /\ NoDup fe /\ NoDup fi) /\
  (forall g, In g fo -> ~ In g fe /\ ~ In g fi) /\ (forall g, In g fe -> ~ In g fi).
Proof.
  destruct Hf as [N _]. apply NoDup_app_l in N. destruct N as (N1 & N2 & N3). apply NoDup_app_l in N2. destruct N2 as (N4 & N5 & N6).
  split; auto. split; auto. intros g H. specialize (N3 g H). split; intros X; apply N3; apply in_or_app; auto.
Qed.
Lemma free g : In g fo \/ In g fe \/ In g fi -> t g = None.
Proof. intros H. apply Hf. apply in_or_app. destruct H as [H|[H|H]]; auto; right; apply in_or_app; auto. Qed.
Lemma above g : In g fo \/ In g fe \/ In g fi -> 2 < g.
Proof.
  intros H. pose proof (free g H) as F. destruct Hs as (A & B & C). 
  destruct g as [|[|[|g]]]; try lia; congruence.
Qed.
Lemma holds_opened m s ans u : NoDup (pipe_fds m ans) -> (forall g, In g (pipe_fds m ans) -> 2 < g) -> gives m ans = true ->
  holds (opened m s ans u) m s ans.
Proof.
  intros N L G. destruct m; cbn; auto. destruct ans as [[r w]|]; [|discriminate]. cbn in *.
  assert (r <> w) by (inversion N as [|x l Nx _]; subst; intros ->; apply Nx; left; auto).
  split. { rewrite put_other by auto. apply put_same. } split; [apply put_same|]. split; [apply L; auto|]. split; [apply L; auto|auto].
Qed.
Lemma holds_ext m s ans u u' : (forall g, In g (pipe_fds m ans) -> u g = u' g) -> holds u m s ans -> holds u' m s ans.
Proof.
  intros E. destruct m; cbn; auto. destruct ans as [[r w]|]; auto. cbn in E. rewrite !E by auto. auto.
Qed.

Definition t3 : table := opened im 0 (a_in a) (opened em 2 (a_err a) (opened om 1 (a_out a) t)).

(** The three streams, one after another. *)
Lemma all_actions : gives om (a_out a) = true -> gives em (a_err a) = true -> gives im (a_in a) = true ->
  exists c, acts (pipe_actions (pipe_of im 0 (a_in a)) 0 ++ pipe_actions (pipe_of om 1 (a_out a)) 1 ++ pipe_actions (pipe_of em 2 (a_err a)) 2) t3 = Some c
    /\ c 0 = becomes t im 0 /\ c 1 = becomes t om 1 /\ c 2 = becomes t em 2
    /\ forall g, 2 < g -> c g = t g.
Proof.
  intros Go Ge Gi. destruct disjoint as ((No & Ne & Ni) & D1 & D2).
  assert (T3 : forall g, ~ In g fo -> ~ In g fe -> ~ In g fi -> t3 g = t g).
  { intros g A B C. unfold t3. rewrite !opened_other; auto. }
  assert (Low : forall g, g <= 2 -> ~ In g fo /\ ~ In g fe /\ ~ In g fi).
  { intros g L. repeat split; intros X; pose proof (above g); intuition lia. }
  assert (O3 : forall g, g <= 2 -> t3 g <> None).
  { intros g L. destruct (Low g L) as (A & B & C). rewrite T3 by auto. destruct Hs as (S0 & S1 & S2). destruct g as [|[|[|g]]]; auto. lia. }
  assert (Hi : holds t3 im 0 (a_in a)). { apply holds_opened; auto. intros g Hg. apply above. auto. }
  assert (He : holds t3 em 2 (a_err a)).
  { apply holds_ext with (opened em 2 (a_err a) (opened om 1 (a_out a) t)).
    - intros g Hg. symmetry. unfold t3. apply opened_other. apply (D2 g Hg).
    - apply holds_opened; auto. intros g Hg. apply above. auto. }
  assert (Ho : holds t3 om 1 (a_out a)).
  { apply holds_ext with (opened om 1 (a_out a) t).
    - intros g Hg. symmetry. unfold t3. destruct (D1 g Hg). rewrite (opened_other im), (opened_other em); auto.
    - apply holds_opened; auto. intros g Hg. apply above. auto. }
  destruct (stream_actions t3 im 0 (a_in a) ltac:(lia) O3 Hi) as (c0 & A0 & B0 & C0 & E0).
  assert (N0 : forall m, becomes t3 m 0 <> None) by (intros []; cbn; discriminate).
  assert (Nb : forall u m s, u s <> None -> becomes u m s <> None).
  { intros u m s Hu. destruct m; cbn; try discriminate. destruct (Nat.eqb s 0); [discriminate|]. destruct (u s); [discriminate|congruence]. }
  assert (O0 : forall g, g <= 2 -> c0 g <> None).
  { intros g L. destruct (Nat.eq_dec g 0) as [->|N]; [rewrite B0; auto|]. rewrite E0; auto. apply (Low g L). }
  assert (Ho0 : holds c0 om 1 (a_out a)).
  { apply holds_ext with t3; auto. intros g Hg. symmetry. apply E0; [pose proof (above g (or_introl Hg)); lia|]. apply (D1 g Hg). }
  destruct (stream_actions c0 om 1 (a_out a) ltac:(lia) O0 Ho0) as (c1 & A1 & B1 & C1 & E1).
  assert (O1 : forall g, g <= 2 -> c1 g <> None).
  { intros g L. destruct (Nat.eq_dec g 1) as [->|N]; [rewrite B1; apply Nb; apply O0; lia|]. rewrite E1; auto. apply (Low g L). }
  assert (He1 : holds c1 em 2 (a_err a)).
  { apply holds_ext with t3; auto. intros g Hg. pose proof (above g (or_intror (or_introl Hg))).
    assert (~ In g fo) by (intros X; destruct (D1 g X); auto).
    rewrite E1 by (auto; lia). symmetry. apply E0; [lia|]. apply (D2 g Hg). }
  destruct (stream_actions c1 em 2 (a_err a) ltac:(lia) O1 He1) as (c2 & A2 & B2 & C2 & E2).
  exists c2. rewrite acts_app, A0, acts_app, A1, A2. split; auto.
  destruct (Low 0 ltac:(lia)) as (L00 & L01 & L02). destruct (Low 1 ltac:(lia)) as (L10 & L11 & L12). destruct (Low 2 ltac:(lia)) as (L20 & L21 & L22).
  assert (BE : forall u m s, u s = t s -> becomes u m s = becomes t m s) by (intros u m s Hu; destruct m; cbn; auto; rewrite Hu; auto).
  split. { rewrite E2, E1, B0 by auto. destruct im; reflexivity. }
  split. { rewrite E2, B1 by auto. apply BE. rewrite E0, T3 by auto. auto. }
  split. { rewrite B2. apply BE. rewrite E1, E0, T3 by auto. auto. }
  intros g L. destruct (in_dec Nat.eq_dec g fe) as [X|Xe]. { rewrite C2 by auto. symmetry. apply free. auto. }
  rewrite E2 by (auto; lia). destruct (in_dec Nat.eq_dec g fo) as [X|Xo]. { rewrite C1 by auto. symmetry. apply free. auto. }
  rewrite E1 by (auto; lia). destruct (in_dec Nat.eq_dec g fi) as [X|Xi]. { rewrite C0 by auto. symmetry. apply free. auto. }
  rewrite E0 by (auto; lia). apply T3; auto.
Qed.

Lemma restored u : (forall g, ~ In g fo -> ~ In g fe -> ~ In g fi -> u g = t g) ->
  forall g, (if in_dec Nat.eq_dec g fi then None else if in_dec Nat.eq_dec g fe then None else if in_dec Nat.eq_dec g fo then None else u g) = t g.
Proof.
  intros H g. destruct (in_dec _ _ _); [symmetry; apply free; auto|]. destruct (in_dec _ _ _); [symmetry; apply free; auto|].
  destruct (in_dec _ _ _); [symmetry; apply free; auto|]. apply H; auto.
Qed.

(** What the parent keeps of a pipe. *)
Definition kept (m : mode) (s : nat) (ans : option (nat * nat)) : list (nat * obj) :=
  match m, ans with Pipe, Some (r, w) => if Nat.eqb s 0 then [(w, WriteEnd 0)] else [(r, ReadEnd s)] | _, _ => [] end.
Definition fd_kept (m : mode) (s : nat) (ans : option (nat * nat)) : nat :=
  match m, ans with Pipe, Some (r, w) => if Nat.eqb s 0 then w else r | _, _ => 0 end.

Lemma spawn_child_result :
  let '(t', r) := spawn_child a om em im t in
  match r with
  | None => same t' t
  | Some (ch, c) =>
      gives om (a_out a) = true /\ gives em (a_err a) = true /\ gives im (a_in a) = true
      /\ ch = {| in_fd := fd_kept im 0 (a_in a); out_fd := fd_kept om 1 (a_out a); err_fd := fd_kept em 2 (a_err a) |}
      /\ (exists c0, c = exec c0 /\ c0 0 = becomes t im 0 /\ c0 1 = becomes t om 1 /\ c0 2 = becomes t em 2 /\ forall g, 2 < g -> c0 g = t g)
      /\ (forall g, ~ In g fo -> ~ In g fe -> ~ In g fi -> t' g = t g)
      /\ (forall r w, om = Pipe -> a_out a = Some (r, w) -> t' r = Some (ReadEnd 1, true) /\ t' w = None)
      /\ (forall r w, em = Pipe -> a_err a = Some (r, w) -> t' r = Some (ReadEnd 2, true) /\ t' w = None)
      /\ (forall r w, im = Pipe -> a_in a = Some (r, w) -> t' w = Some (WriteEnd 0, true) /\ t' r = None)
  end.
Proof.
  destruct disjoint as ((No & Ne & Ni) & D1 & D2).
  unfold spawn_child. rewrite make_pipe_opened. destruct (gives om (a_out a)) eqn:Go; [|intros g; reflexivity].
  rewrite make_pipe_opened. destruct (gives em (a_err a)) eqn:Ge.
  2: { intros g. rewrite closed_opened by auto. pose proof (restored (opened om 1 (a_out a) t)) as R.
    destruct (in_dec _ _ _); [symmetry; apply free; auto|]. apply opened_other. auto. }
  rewrite make_pipe_opened. destruct (gives im (a_in a)) eqn:Gi.
  2: { intros g. rewrite !closed_opened by auto. destruct (in_dec _ _ _); [symmetry; apply free; auto|].
    destruct (in_dec _ _ _); [symmetry; apply free; auto|]. rewrite !opened_other; auto. }
  fold t3.
  assert (Eo : (if is_parent om then {| p_r := p_r (plain om (a_out a)); p_w := 1 |} else plain om (a_out a)) = pipe_of om 1 (a_out a)).
  { destruct om; auto. }
  assert (Ee : (if is_parent em then {| p_r := p_r (plain em (a_err a)); p_w := 2 |} else plain em (a_err a)) = pipe_of em 2 (a_err a)).
  { destruct em; auto. }
  assert (Ei : (if is_parent im then {| p_r := 0; p_w := p_w (plain im (a_in a)) |} else plain im (a_in a)) = pipe_of im 0 (a_in a)).
  { destruct im; auto. }
  cbv zeta. rewrite Eo, Ee, Ei.
  assert (T3 : forall g, ~ In g fo -> ~ In g fe -> ~ In g fi -> t3 g = t g).
  { intros g A B C. unfold t3. rewrite !opened_other; auto. }
  assert (Po : is_pipe om = true -> pipe_of om 1 (a_out a) = plain om (a_out a)) by (destruct om; auto; discriminate).
  assert (Pe : is_pipe em = true -> pipe_of em 2 (a_err a) = plain em (a_err a)) by (destruct em; auto; discriminate).
  assert (Pi : is_pipe im = true -> pipe_of im 0 (a_in a) = plain im (a_in a)) by (destruct im; auto; discriminate).
  assert (W : forall A (b : bool) (f h : A -> A) x, (b = true -> f = h) -> when b f x = when b h x).
  { intros A b f h x E. destruct b; cbn; auto. rewrite E; auto. }
  destruct (spawn_fds _ _ _ _ _ _) as [c|] eqn:Es.
  2: { intros g. rewrite (W _ (is_pipe im) _ (close_both (plain im (a_in a)))) by (intros X; rewrite Pi; auto).
    rewrite (W _ (is_pipe em) _ (close_both (plain em (a_err a)))) by (intros X; rewrite Pe; auto).
    rewrite (W _ (is_pipe om) _ (close_both (plain om (a_out a)))) by (intros X; rewrite Po; auto).
    rewrite !closed_opened by auto. apply restored. auto. }
  assert (Ec : exists c0, c = exec c0 /\ c0 0 = becomes t im 0 /\ c0 1 = becomes t om 1 /\ c0 2 = becomes t em 2 /\ forall g, 2 < g -> c0 g = t g).
  { unfold spawn_fds in Es. destruct (a_empty a); [discriminate|]. destruct (a_works a); [|discriminate].
    destruct (all_actions Go Ge Gi) as (c0 & A & B). rewrite A in Es. injection Es as <-. exists c0. split; auto. }
  set (t4 := when (is_pipe om) _ t3). set (t5 := when (is_pipe em) _ t4). set (t6 := when (is_pipe im) _ t5).
  assert (K4 : forall g, ~ In g fo -> t4 g = t3 g).
  { intros g N. unfold t4. destruct om; cbn [is_pipe when]; auto. unfold fo in N. destruct (a_out a) as [[r w]|]; [|discriminate].
    cbn [pipe_of p_w]. apply put_other. intros ->. apply N. cbn. auto. }
  assert (K5 : forall g, ~ In g fe -> t5 g = t4 g).
  { intros g N. unfold t5. destruct em; cbn [is_pipe when]; auto. unfold fe in N. destruct (a_err a) as [[r w]|]; [|discriminate].
    cbn [pipe_of p_w]. apply put_other. intros ->. apply N. cbn. auto. }
  assert (K6 : forall g, ~ In g fi -> t6 g = t5 g).
  { intros g N. unfold t6. destruct im; cbn [is_pipe when]; auto. unfold fi in N. destruct (a_in a) as [[r w]|]; [|discriminate].
    cbn [pipe_of p_r]. apply put_other. intros ->. apply N. cbn. auto. }
  split; auto. split; auto. split; auto. split. { destruct om, em, im; cbn; f_equal; try reflexivity; destruct (a_out a) as [[]|], (a_err a) as [[]|], (a_in a) as [[]|]; reflexivity. }
  split; auto. split. { intros g A B C. rewrite K6, K5, K4 by auto. apply T3; auto. }
  split; [|split].
  - intros r w Em Ea. assert (Hr : In r fo /\ In w fo) by (unfold fo; rewrite Em, Ea; cbn; auto). destruct Hr as [Hr Hw].
    assert (Nrw : r <> w). { unfold fo in No. rewrite Em, Ea in No. inversion No as [|x l Nx _]; subst. intros ->. apply Nx. left. auto. }
    destruct (D1 r Hr), (D1 w Hw). rewrite !K6, !K5 by auto. unfold t4. rewrite Em, Ea. cbn [is_pipe when pipe_of p_w].
    rewrite put_same. rewrite put_other by auto. split; auto. unfold t3. rewrite !opened_other by auto. rewrite Em, Ea. cbn [opened].
    rewrite put_other by auto. apply put_same.
  - intros r w Em Ea. assert (Hr : In r fe /\ In w fe) by (unfold fe; rewrite Em, Ea; cbn; auto). destruct Hr as [Hr Hw].
    assert (Nrw : r <> w). { unfold fe in Ne. rewrite Em, Ea in Ne. inversion Ne as [|x l Nx _]; subst. intros ->. apply Nx. left. auto. }
    assert (~ In r fo) by (intros X; destruct (D1 r X); auto).
    rewrite !K6 by auto. unfold t5. rewrite Em, Ea. cbn [is_pipe when pipe_of p_w].
    rewrite put_same. rewrite put_other by auto. split; auto. rewrite K4 by auto. unfold t3. rewrite opened_other by auto. rewrite Em, Ea. cbn [opened].
    rewrite put_other by auto. apply put_same.
  - intros r w Em Ea. assert (Hr : In r fi /\ In w fi) by (unfold fi; rewrite Em, Ea; cbn; auto). destruct Hr as [Hr Hw].
    assert (Nrw : r <> w). { unfold fi in Ni. rewrite Em, Ea in Ni. inversion Ni as [|x l Nx _]; subst. intros ->. apply Nx. left. auto. }
    assert (~ In w fo) by (intros X; destruct (D1 w X); auto). assert (~ In w fe) by (intros X; apply (D2 w X); auto).
    unfold t6. rewrite Em, Ea. cbn [is_pipe when pipe_of p_r]. rewrite put_same. rewrite put_other by auto. split; auto.
    rewrite K5, K4 by auto. unfold t3. rewrite Em, Ea. cbn [opened]. apply put_same.
Qed.
End Spawn.
