(** * C73: proofs about the nesting of statements *)

From Coq Require Import List ZArith Bool Lia.
From Verif Require Import StmtSpec StmtModel.
Import ListNotations.

(** ** Induction *)

Lemma st_ind' (P : st -> Prop)
  (h0 : P SEmpty) (h1 : forall t, P (SExpr t)) (h2 : forall l, P (SGoto l)) (h3 : forall t l, P (SGive t l))
  (h4 : forall c a b, P a -> P b -> P (SIf c a b))
  (h5 : forall cs a, P a -> P (SAnd cs a)) (h6 : forall cs a, P a -> P (SOr cs a))
  (h7 : forall l ss, Forall P ss -> P (SBlock l ss))
  (h8 : forall c a l, P a -> P (SWhile c a l)) (h9 : forall c a l, P a -> P (SFor c a l))
  (h10 : forall a c l, P a -> P (SDo a c l)) (h11 : forall a b, P a -> P b -> P (STry a b)) :
  forall s, P s.
Proof.
  fix go 1. intros s. destruct s.
  - exact h0.
  - apply h1.
  - apply h2.
  - apply h3.
  - apply h4; apply go.
  - apply h5, go.
  - apply h6, go.
  - apply h7. induction ss; constructor; [apply go|exact IHss].
  - apply h8, go.
  - apply h9, go.
  - apply h10, go.
  - apply h11; apply go.
Qed.

(** ** Tokens *)

Lemma strip_app : forall a b, strip (a ++ b) = strip a ++ strip b.
Proof. intros. apply filter_app. Qed.
Lemma has_goto_app : forall l a b, has_goto l (a ++ b) = (has_goto l a || has_goto l b)%bool.
Proof. intros. apply existsb_app. Qed.
Lemma has_brace_app : forall a b, has_brace (a ++ b) = (has_brace a || has_brace b)%bool.
Proof. intros. apply existsb_app. Qed.
Lemma has_if_app : forall a b, has_if (a ++ b) = (has_if a || has_if b)%bool.
Proof. intros. apply existsb_app. Qed.

Lemma last_app : forall a b, b <> [] -> last_is_semi (a ++ b) = last_is_semi b.
Proof.
  intros a b N. unfold last_is_semi. rewrite rev_app_distr.
  destruct (rev b) eqn:E; [|reflexivity].
  apply (f_equal (@rev tok)) in E. rewrite rev_involutive in E. contradiction.
Qed.

Lemma last_cons : forall x b, b <> [] -> last_is_semi (x :: b) = last_is_semi b.
Proof. intros x b N. apply (last_app [x] b N). Qed.

Definition tail_of (ts : list tok) : list tok := if last_is_semi ts then [] else [TSemi].

Lemma tail_cases : forall ts, tail_of ts = [] \/ tail_of ts = [TSemi].
Proof. intros ts. unfold tail_of. destruct (last_is_semi ts); auto. Qed.

Lemma strip_put : forall line, line <> [] -> strip (put line) = strip line ++ tail_of line.
Proof.
  intros line N. unfold put, tail_of. destruct line as [|x line]; [contradiction|].
  cbn [strip filter is_nl negb]. fold strip. rewrite filter_app.
  destruct (last_is_semi (x :: line)); reflexivity.
Qed.

Lemma put_goto : forall l line, has_goto l (put line) = has_goto l line.
Proof.
  intros l line. unfold put. destruct line as [|x line]; [reflexivity|].
  change (TNL :: (x :: line) ++ ?e) with ([TNL] ++ (x :: line) ++ e).
  rewrite !has_goto_app. destruct (last_is_semi (x :: line)); cbn [has_goto existsb]; rewrite !orb_false_r; reflexivity.
Qed.

Lemma put_brace : forall line, has_brace (put line) = has_brace line.
Proof.
  intros line. unfold put. destruct line as [|x line]; [reflexivity|].
  change (TNL :: (x :: line) ++ ?e) with ([TNL] ++ (x :: line) ++ e).
  rewrite !has_brace_app. destruct (last_is_semi (x :: line)); cbn [has_brace existsb]; rewrite !orb_false_r; reflexivity.
Qed.

Lemma put_if : forall line, has_if (put line) = has_if line.
Proof.
  intros line. unfold put. destruct line as [|x line]; [reflexivity|].
  change (TNL :: (x :: line) ++ ?e) with ([TNL] ++ (x :: line) ++ e).
  rewrite !has_if_app. destruct (last_is_semi (x :: line)); cbn [has_if existsb]; rewrite !orb_false_r; reflexivity.
Qed.

Lemma statements_app : forall a b, statements (a ++ b) = statements a ++ statements b.
Proof. intros. apply flat_map_app. Qed.

Lemma curlies_goto : forall l opt n lines name,
  has_goto l (curlies opt n lines name) = has_goto l (statements lines).
Proof.
  intros l opt n lines name. unfold curlies.
  destruct (negb opt || _ || _ || _ || _ || _)%bool; [|reflexivity].
  destruct name as [k|]; [destruct (has_goto k (statements lines))|];
    unfold has_goto; cbn [existsb orb]; rewrite existsb_app; cbn; rewrite orb_false_r; reflexivity.
Qed.

(** ** Jumps *)

Lemma goto_temps : forall l n, has_goto l (statements (repeat [TDecl] n)) = false.
Proof. intros l n. induction n as [|n IH]; [reflexivity|]. cbn. exact IH. Qed.

Lemma goto_lines_of : forall l n line, has_goto l (statements (lines_of n line)) = has_goto l line.
Proof.
  intros l n line. unfold lines_of. rewrite statements_app, has_goto_app, goto_temps.
  cbn [statements flat_map orb]. rewrite app_nil_r. apply put_goto.
Qed.

Lemma goto_lines : forall l ss, Forall (fun x => has_goto l (fst (gen x)) = jumps l x) ss ->
  has_goto l (statements (flat_map (fun x => lines_of (own_temps x) (fst (gen x))) ss)) = existsb (jumps l) ss.
Proof.
  intros l ss F. induction F as [|x ss E F IH]; [reflexivity|].
  cbn [flat_map existsb]. rewrite statements_app, has_goto_app, goto_lines_of, E, IH. reflexivity.
Qed.

Lemma goto_break : forall l k b, has_goto l (break_label k b) = false.
Proof. intros l k b. unfold break_label. destruct (has_goto k b); reflexivity. Qed.

Lemma gen_goto : forall l s,
  has_goto l (fst (gen s)) = jumps l s /\ has_goto l (snd (gen s)) = jumps l s.
Proof.
  intros l. assert (B : forall n line j, has_goto l line = j ->
    has_goto l (fst (line, sub_of n line)) = j /\ has_goto l (snd (line, sub_of n line)) = j).
  { intros n line j E. cbn [fst snd]. unfold sub_of. rewrite curlies_goto, goto_lines_of. auto. }
  induction s using st_ind'; cbn [gen jumps]; try apply B.
  - reflexivity.
  - reflexivity.
  - cbn. rewrite orb_false_r. reflexivity.
  - cbn. rewrite orb_false_r. reflexivity.
  - change (TIf (One c) :: ?x) with ([TIf (One c)] ++ x). rewrite !has_goto_app.
    rewrite (proj2 IHs1). cbn [has_goto existsb orb]. f_equal.
    set (alt := match s2 with SIf _ _ _ | SAnd _ _ => fst (gen s2) | _ => snd (gen s2) end).
    assert (E : has_goto l alt = jumps l s2) by (subst alt; destruct s2; tauto).
    destruct alt; [exact E|]. exact E.
  - change (TIf (All cs) :: ?x) with ([TIf (All cs)] ++ x). rewrite has_goto_app. cbn. tauto.
  - change (TIf (NoneOf cs) :: ?x) with ([TIf (NoneOf cs)] ++ x). rewrite has_goto_app. cbn. tauto.
  - cbn [fst snd]. rewrite !curlies_goto, goto_lines; [auto|].
    eapply Forall_impl; [|exact H]. cbn. tauto.
  - change (TWhile c :: ?x) with ([TWhile c] ++ x). rewrite !has_goto_app, goto_break, (proj2 IHs), orb_false_r. reflexivity.
  - change (TFor c :: ?x) with ([TFor c] ++ x). rewrite !has_goto_app, goto_break, (proj2 IHs), orb_false_r. reflexivity.
  - change (TDo :: ?x ++ TNL :: TWhile c :: ?y) with ([TDo] ++ x ++ [TNL; TWhile c] ++ y).
    rewrite !has_goto_app, goto_break, (proj2 IHs). cbn. rewrite orb_false_r. reflexivity.
  - change (TNL :: TTry :: TNL :: TOpen :: ?x ++ TNL :: TClose :: TNL :: TCatch :: TNL :: TOpen :: ?y ++ ?z)
      with ([TNL; TTry; TNL; TOpen] ++ x ++ [TNL; TClose; TNL; TCatch; TNL; TOpen] ++ y ++ z).
    rewrite !has_goto_app, (proj2 IHs1), (proj2 IHs2). cbn. rewrite orb_false_r. reflexivity.
Qed.

(** ** Reading *)

Lemma reads_no_else : forall ts s r, reads ts s r -> no_else ts.
Proof. intros ts s r R. inversion R; subst; intros q E; discriminate. Qed.

Lemma reads_all_no_else : forall ts ss r, reads_all ts ss r -> no_else r -> no_else ts.
Proof. intros ts ss r R N. inversion R; subst; [exact N|]. eapply reads_no_else; eassumption. Qed.

Lemma reads_all_app : forall ss ts ss' r1 r,
  reads_all ts ss r1 -> reads_all r1 ss' r -> reads_all ts (ss ++ ss') r.
Proof.
  induction ss as [|s ss IH]; intros ts ss' r1 r A B; inversion A; subst; [exact B|].
  cbn. econstructor; [eassumption|]. eapply IH; eassumption.
Qed.

Lemma no_else_cons : forall t r, t <> TElse -> no_else (t :: r).
Proof. intros t r N q E. injection E as E _. contradiction. Qed.

(** what may be left over of a line *)
Inductive left_over (s : st) : list tok -> list cst -> Prop :=
| lo_nil : left_over s [] []
| lo_semi : left_over s [TSemi] [CNop]
| lo_label : forall l, is_loop s = true -> left_over s [TLabel l; TSemi] [CLabel l].

Lemma left_over_reads : forall s k ks r, left_over s k ks -> reads_all (k ++ r) ks r.
Proof.
  intros s k ks r L. inversion L; subst; cbn.
  - constructor.
  - econstructor; [constructor|constructor].
  - econstructor; [constructor|constructor].
Qed.

Lemma left_over_tail : forall s ts, left_over s (tail_of ts) (if last_is_semi ts then [] else [CNop]).
Proof. intros s ts. unfold tail_of. destruct (last_is_semi ts); constructor. Qed.

Definition nf_all (ss : list cst) : list nf := flat_map cpp_nf ss.

Lemma tail_nf : forall ts, nf_all (if last_is_semi ts then [] else [CNop]) = [].
Proof. intros ts. destruct (last_is_semi ts); reflexivity. Qed.

Lemma no_else_tail : forall ts r, no_else r -> no_else (tail_of ts ++ r).
Proof.
  intros ts r N. destruct (tail_cases ts) as [-> | ->]; [exact N|]. apply no_else_cons. discriminate.
Qed.

(** A line. *)
Definition line_ok (s : st) : Prop :=
  (fst (gen s) = [] -> src_nf s = []) /\
  (fst (gen s) <> [] -> exists c k ks, left_over s k ks /\ cpp_nf c ++ nf_all ks = src_nf s /\
    forall r, no_else r -> reads (strip (fst (gen s)) ++ tail_of (fst (gen s)) ++ r) c (k ++ r)).

(** A substatement: one statement, whatever follows. *)
Definition sub_ok (s : st) : Prop :=
  (snd (gen s) = [] <-> blank s = true) /\
  (snd (gen s) <> [] -> exists c, cpp_nf c = src_nf s /\ forall r, reads (strip (snd (gen s)) ++ r) c r).

Lemma blank_nf : forall s, blank s = true -> src_nf s = [].
Proof.
  intros s B. destruct s; try discriminate; [reflexivity|].
  destruct ss as [|[] [|? ?]]; try discriminate. reflexivity.
Qed.

Lemma temps_read : forall n, exists cs, nf_all cs = [] /\
  forall r, reads_all (strip (statements (repeat [TDecl] n)) ++ r) cs r.
Proof.
  induction n as [|n IH].
  - exists []. split; [reflexivity|constructor].
  - destruct IH as (cs & E & R). exists (CDecl :: cs). split; [exact E|]. intros r.
    cbn [repeat statements flat_map]. fold (statements (repeat [TDecl] n)). rewrite strip_app.
    cbn. econstructor; [constructor|apply R].
Qed.

Lemma one_reads : forall s, line_ok s -> forall n,
  exists cs, nf_all cs = src_nf s /\
    forall r, no_else r -> reads_all (strip (statements (lines_of n (fst (gen s)))) ++ r) cs r.
Proof.
  intros s [L0 L] n. unfold lines_of.
  destruct (temps_read n) as (cs & E & R).
  assert (S : forall r, strip (statements (repeat [TDecl] n ++ [fst (gen s)])) ++ r =
    strip (statements (repeat [TDecl] n)) ++ strip (put (fst (gen s))) ++ r).
  { intros r. rewrite statements_app, strip_app, <- app_assoc. cbn [statements flat_map].
    rewrite app_nil_r. reflexivity. }
  destruct (fst (gen s)) as [|x line] eqn:G.
  - exists cs. rewrite L0 by reflexivity. split; [exact E|]. intros r N. rewrite S. apply R.
  - destruct L as (c & k & ks & Lo & En & Rd); [discriminate|].
    exists (cs ++ c :: ks). split.
    + unfold nf_all in *. rewrite flat_map_app, E. exact En.
    + intros r N. rewrite S. eapply reads_all_app; [apply R|].
      rewrite strip_put by discriminate. rewrite <- app_assoc.
      econstructor; [apply Rd, N|]. eapply left_over_reads, Lo.
Qed.

Lemma lines_read : forall ss, Forall line_ok ss ->
  exists cs, nf_all cs = flat_map src_nf ss /\
    forall r, no_else r ->
    reads_all (strip (statements (flat_map (fun x => lines_of (own_temps x) (fst (gen x))) ss)) ++ r) cs r.
Proof.
  intros ss F. induction F as [|s ss L F IH].
  - exists []. split; [reflexivity|]. intros r N. constructor.
  - destruct IH as (cs & E & R).
    destruct (one_reads s L (own_temps s)) as (cs1 & E1 & R1).
    exists (cs1 ++ cs). split.
    + unfold nf_all in *. rewrite flat_map_app. cbn [flat_map]. congruence.
    + intros r N. cbn [flat_map]. rewrite statements_app, strip_app, <- app_assoc.
      eapply reads_all_app; [apply R1|apply R, N].
      eapply reads_all_no_else; [apply R, N|exact N].
Qed.

Lemma close_no_else : forall r, no_else (TClose :: r).
Proof. intros r. apply no_else_cons. discriminate. Qed.

(** *** Substatements with braces *)

Definition needs (nodes : nat) (lines : list (list tok)) (name : option nat) : bool :=
  (negb (Nat.eqb nodes 1) || negb (Nat.eqb (length lines) 1)
   || match name with Some l => has_goto l (statements lines) | None => false end
   || has_brace (statements lines) || has_if (statements lines))%bool.

Lemma curlies_opt : forall n lines name,
  curlies true n lines name = if needs n lines name then curlies false n lines name else statements lines.
Proof. reflexivity. Qed.

Lemma curlies_none : forall n lines, curlies false n lines None = TNL :: TOpen :: statements lines ++ [TNL; TClose].
Proof. reflexivity. Qed.

Lemma curlies_some : forall n lines l, curlies false n lines (Some l) =
  if has_goto l (statements lines)
  then TNL :: TOpen :: TOpen :: statements lines ++ [TNL; TClose; TLabel l; TSemi; TNL; TClose]
  else TNL :: TOpen :: statements lines ++ [TNL; TClose].
Proof. reflexivity. Qed.

Lemma block_reads : forall l ss n, Forall line_ok ss ->
  exists c, cpp_nf c = src_nf (SBlock l ss) /\
    forall r, reads (strip (curlies false n
      (flat_map (fun x => lines_of (own_temps x) (fst (gen x))) ss) (Some l)) ++ r) c r.
Proof.
  intros l ss n F.
  assert (G : has_goto l (statements (flat_map (fun x => lines_of (own_temps x) (fst (gen x))) ss)) = existsb (jumps l) ss).
  { apply goto_lines. apply Forall_forall. intros x _. apply gen_goto. }
  destruct (lines_read ss F) as (cs & E & R). unfold nf_all in E.
  rewrite curlies_some. cbn [src_nf]. unfold end_label. rewrite <- G.
  set (src := statements _) in *.
  destruct (has_goto l src).
  - exists (CBlock [CBlock cs; CLabel l]). split; [cbn; rewrite E; reflexivity|].
    intros r.
    replace (strip (TNL :: TOpen :: TOpen :: src ++ [TNL; TClose; TLabel l; TSemi; TNL; TClose]) ++ r)
      with (TOpen :: TOpen :: strip src ++ TClose :: TLabel l :: TSemi :: TClose :: r)
      by (cbn [strip filter is_nl negb app]; fold strip; rewrite filter_app, <- app_assoc; reflexivity).
    apply r_block. econstructor; [apply r_block, R, close_no_else|].
    econstructor; constructor.
  - exists (CBlock cs). split; [cbn; rewrite app_nil_r; exact E|].
    intros r.
    replace (strip (TNL :: TOpen :: src ++ [TNL; TClose]) ++ r) with (TOpen :: strip src ++ TClose :: r)
      by (cbn [strip filter is_nl negb app]; fold strip; rewrite filter_app, <- app_assoc; reflexivity).
    apply r_block, R, close_no_else.
Qed.

Lemma wrapped_reads : forall s n, line_ok s ->
  exists c, cpp_nf c = src_nf s /\
    forall r, reads (strip (curlies false 1 (lines_of n (fst (gen s))) None) ++ r) c r.
Proof.
  intros s n L. destruct (one_reads s L n) as (cs & E & R). unfold nf_all in E.
  rewrite curlies_none. set (src := statements _) in *.
  exists (CBlock cs). split; [exact E|]. intros r.
  replace (strip (TNL :: TOpen :: src ++ [TNL; TClose]) ++ r) with (TOpen :: strip src ++ TClose :: r)
    by (cbn [strip filter is_nl negb app]; fold strip; rewrite filter_app, <- app_assoc; reflexivity).
  apply r_block, R, close_no_else.
Qed.

(** *** Substatements without *)

Lemma not_needs : forall n lines name, needs n lines name = false ->
  n = 1 /\ length lines = 1 /\ (forall l, name = Some l -> has_goto l (statements lines) = false) /\
  has_brace (statements lines) = false /\ has_if (statements lines) = false.
Proof.
  intros n lines name E. unfold needs in E.
  apply orb_false_elim in E as [E E5]. apply orb_false_elim in E as [E E4].
  apply orb_false_elim in E as [E E3]. apply orb_false_elim in E as [E1 E2].
  apply negb_false_iff, Nat.eqb_eq in E1, E2. repeat split; try assumption.
  intros l ->. exact E3.
Qed.

Lemma lines_of_one : forall n line, length (lines_of n line) = 1 -> n = 0.
Proof. intros n line E. unfold lines_of in E. rewrite app_length, repeat_length in E. cbn in E. lia. Qed.

Definition is_block (s : st) : bool := match s with SBlock _ _ => true | _ => false end.

Lemma gen_sub : forall s, is_block s = false -> snd (gen s) = sub_of (own_temps s) (fst (gen s)).
Proof. intros s B. destruct s; try reflexivity. discriminate. Qed.

(** a substatement without braces *)
Lemma bare_sub : forall s, is_block s = false -> needs 1 (lines_of (own_temps s) (fst (gen s))) None = false ->
  snd (gen s) = put (fst (gen s)) /\ has_brace (fst (gen s)) = false /\ has_if (fst (gen s)) = false.
Proof.
  intros s B N. rewrite gen_sub by exact B. unfold sub_of. rewrite curlies_opt, N.
  apply not_needs in N as (_ & L & _ & N4 & N5). apply lines_of_one in L.
  rewrite L in *. cbn [lines_of repeat app statements flat_map] in *. rewrite app_nil_r in *.
  rewrite put_brace in N4. rewrite put_if in N5. auto.
Qed.

Lemma braced_sub : forall s, is_block s = false -> needs 1 (lines_of (own_temps s) (fst (gen s))) None = true ->
  snd (gen s) = curlies false 1 (lines_of (own_temps s) (fst (gen s))) None.
Proof.
  intros s B N. rewrite gen_sub by exact B. unfold sub_of. rewrite curlies_opt, N. reflexivity.
Qed.

Lemma curlies_brace : forall n lines name, has_brace (curlies false n lines name) = true.
Proof.
  intros n lines [l|]; [rewrite curlies_some; destruct (has_goto _ _)|]; reflexivity.
Qed.

Lemma curlies_last : forall n lines name, last_is_semi (curlies false n lines name) = false.
Proof.
  intros n lines [l|]; [rewrite curlies_some; destruct (has_goto _ _)|rewrite curlies_none].
  - change (TNL :: TOpen :: TOpen :: ?x ++ ?y) with ((TNL :: TOpen :: TOpen :: x) ++ y). rewrite last_app by discriminate. reflexivity.
  - change (TNL :: TOpen :: ?x ++ ?y) with ((TNL :: TOpen :: x) ++ y). rewrite last_app by discriminate. reflexivity.
  - change (TNL :: TOpen :: ?x ++ ?y) with ((TNL :: TOpen :: x) ++ y). rewrite last_app by discriminate. reflexivity.
Qed.

Definition jump_only (l : nat) (s : st) : bool :=
  match s with SGoto k => Nat.eqb k l | SBlock _ [SGoto k] => Nat.eqb k l | _ => false end.

(** the body of a loop, without braces *)
Lemma bare_simple : forall x, is_block x = false -> is_loop x = false ->
  has_brace (fst (gen x)) = false -> has_if (fst (gen x)) = false ->
  fst (gen x) = [] \/ (last_is_semi (put (fst (gen x))) = true /\
    forall l, jumps l x = true -> x = SGoto l).
Proof.
  intros x B L HB HI. destruct x; try discriminate; cbn in HB, HI |- *.
  - left. reflexivity.
  - right. split; [reflexivity|]. intros l E. discriminate.
  - right. split; [reflexivity|]. intros k E. apply Nat.eqb_eq in E. congruence.
Qed.

Lemma bare_body : forall a, lone_loop a = false ->
  has_brace (snd (gen a)) = false -> has_if (snd (gen a)) = false ->
  snd (gen a) = [] \/ (last_is_semi (snd (gen a)) = true /\
    forall l, jumps l a = true -> jump_only l a = true).
Proof.
  intros a LL HB HI. destruct (is_block a) eqn:B.
  - destruct a; try discriminate. cbn [gen snd] in *. rewrite curlies_opt in *.
    set (lines := flat_map _ ss) in *.
    destruct (needs (length ss) lines (Some l)) eqn:N; [rewrite curlies_brace in HB; discriminate|].
    apply not_needs in N as (N1 & N2 & N3 & N4 & N5).
    destruct ss as [|x [|y ss]]; try discriminate.
    subst lines. cbn [flat_map] in *. rewrite app_nil_r in *. apply lines_of_one in N2.
    rewrite N2 in *. cbn [lines_of repeat app statements flat_map] in *. rewrite app_nil_r in *.
    rewrite put_brace in HB. rewrite put_if in HI. cbn [lone_loop] in LL.
    destruct (is_block x) eqn:Bx.
    { destruct x; try discriminate. cbn [gen fst] in HB. rewrite curlies_brace in HB. discriminate. }
    destruct (bare_simple x Bx LL HB HI) as [-> | [E J]]; [left; reflexivity|right].
    split; [exact E|]. intros k Q. cbn [jumps existsb] in Q. rewrite orb_false_r in Q.
    apply J in Q. subst x. cbn. apply Nat.eqb_refl.
  - destruct (needs 1 (lines_of (own_temps a) (fst (gen a))) None) eqn:N.
    { rewrite (braced_sub a B N), curlies_brace in HB. discriminate. }
    destruct (bare_sub a B N) as (E & HB' & HI'). rewrite E.
    assert (LL' : is_loop a = false) by (destruct a; try reflexivity; discriminate).
    destruct (bare_simple a B LL' HB' HI') as [Q | [Q J]]; [rewrite Q; left; reflexivity|right].
    split; [exact Q|]. intros l Jl. apply J in Jl. subst a. cbn. apply Nat.eqb_refl.
Qed.

(** ** Statements *)

Lemma fst_nil : forall s, fst (gen s) = [] <-> s = SEmpty.
Proof.
  intros s. split; [|intros ->; reflexivity].
  destruct s; try discriminate; [reflexivity|]. cbn [gen fst]. rewrite curlies_some.
  destruct (has_goto _ _); discriminate.
Qed.

Lemma sub_nil : forall s, snd (gen s) = [] <-> blank s = true.
Proof.
  intros s. split.
  - intros E. destruct (is_block s) eqn:B.
    + destruct s; try discriminate. cbn [gen snd] in E. rewrite curlies_opt in E.
      destruct (needs _ _ _) eqn:N.
      * rewrite curlies_some in E. destruct (has_goto _ _); discriminate.
      * apply not_needs in N as (N1 & N2 & _). destruct ss as [|x [|y ss]]; try discriminate.
        cbn [flat_map] in *. rewrite app_nil_r in *. apply lines_of_one in N2. rewrite N2 in E.
        cbn [lines_of repeat app statements flat_map] in E. rewrite app_nil_r in E.
        destruct (fst (gen x)) eqn:G; [|discriminate]. apply fst_nil in G. subst x. reflexivity.
    + destruct (needs 1 (lines_of (own_temps s) (fst (gen s))) None) eqn:N.
      * rewrite (braced_sub s B N) in E. discriminate.
      * destruct (bare_sub s B N) as (Q & _). rewrite Q in E.
        destruct (fst (gen s)) eqn:G; [|discriminate]. apply fst_nil in G. subst s. reflexivity.
  - intros B. destruct s; try discriminate; [reflexivity|].
    destruct ss as [|[] [|? ?]]; try discriminate. reflexivity.
Qed.

Lemma tail_nonempty : forall a b, b <> [] -> tail_of (a ++ b) = tail_of b.
Proof. intros a b N. unfold tail_of. rewrite last_app by exact N. reflexivity. Qed.

Lemma break_eq : forall l a, break_label l (snd (gen a)) = if jumps l a then [TLabel l; TSemi] else [].
Proof. intros l a. unfold break_label. rewrite (proj2 (gen_goto l a)). reflexivity. Qed.

(** a loop's line: the head [h], which makes [f] of the body *)
Lemma loop_line : forall (s : st) (h : tok) (f : cst -> cst) (g : list nf -> nf) a l,
  h <> TNL -> h <> TSemi -> is_loop s = true -> sub_ok a ->
  (forall ts c r, reads ts c r -> reads (h :: ts) (f c) r) ->
  (forall c, cpp_nf (f c) = [g (cpp_nf c)]) ->
  src_nf s = g (src_nf a) :: end_label l (jumps l a) ->
  fst (gen s) = h :: snd (gen a) ++ break_label l (snd (gen a)) ->
  line_ok s.
Proof.
  intros s h f g a l Hn Hs Ls [A0 A] Hf Hg Es Eg. split; [rewrite Eg; discriminate|]. intros _.
  rewrite Eg, break_eq. unfold end_label in Es.
  assert (Sh : forall ts, strip (h :: ts) = h :: strip ts) by (intros ts; destruct h; try reflexivity; contradiction).
  destruct (snd (gen a)) as [|x sub] eqn:G.
  - assert (B : blank a = true) by (apply A0; reflexivity).
    assert (J : jumps l a = false) by (rewrite <- (proj2 (gen_goto l a)), G; reflexivity).
    rewrite J in *. exists (f CNop), [], []. split; [constructor|]. split.
    + rewrite Hg, Es, (blank_nf a B), app_nil_r. reflexivity.
    + intros r N. cbn [app]. rewrite Sh. unfold tail_of, last_is_semi. cbn [rev app].
      destruct h; try contradiction; cbn [app strip filter]; apply Hf; constructor.
  - destruct A as (c & E & R); [discriminate|].
    destruct (jumps l a).
    + exists (f c), [TLabel l; TSemi], [CLabel l]. split; [constructor; exact Ls|]. split.
      * rewrite Hg, Es, E. reflexivity.
      * intros r N. rewrite Sh, strip_app.
        replace (tail_of (h :: (x :: sub) ++ [TLabel l; TSemi])) with (@nil tok)
          by (change (h :: (x :: sub) ++ [TLabel l; TSemi]) with ((h :: x :: sub) ++ [TLabel l; TSemi]);
              rewrite tail_nonempty by discriminate; reflexivity).
        cbn [app]. rewrite <- app_assoc. apply Hf, R.
    + exists (f c), (tail_of (x :: sub)), (if last_is_semi (x :: sub) then [] else [CNop]).
      split; [apply left_over_tail|]. split.
      * rewrite Hg, Es, E, tail_nf. reflexivity.
      * intros r N. rewrite app_nil_r, Sh.
        change (h :: x :: sub) with ([h] ++ x :: sub). rewrite tail_nonempty by discriminate.
        cbn [app]. apply Hf, R.
Qed.

(** a loop as a substatement *)
Lemma loop_bare : forall (s : st) (h : tok) (f : cst -> cst) (g : list nf -> nf) a l,
  h <> TNL -> h <> TSemi -> sub_ok a ->
  (forall ts c r, reads ts c r -> reads (h :: ts) (f c) r) ->
  (forall c, cpp_nf (f c) = [g (cpp_nf c)]) ->
  src_nf s = g (src_nf a) :: end_label l (jumps l a) ->
  fst (gen s) = h :: snd (gen a) ++ break_label l (snd (gen a)) ->
  lone_loop a = false -> jump_only l a = false ->
  has_brace (fst (gen s)) = false -> has_if (fst (gen s)) = false ->
  exists c, cpp_nf c = src_nf s /\ forall r, reads (strip (put (fst (gen s))) ++ r) c r.
Proof.
  intros s h f g a l Hn Hs [A0 A] Hf Hg Es Eg LL JO HB HI.
  assert (Sh : forall ts, strip (h :: ts) = h :: strip ts) by (intros ts; destruct h; try reflexivity; contradiction).
  rewrite Eg in HB, HI.
  assert (HB' : has_brace (snd (gen a)) = false).
  { change (h :: ?x) with ([h] ++ x) in HB. rewrite !has_brace_app in HB.
    apply orb_false_elim in HB as [_ HB]. apply orb_false_elim in HB as [HB _]. exact HB. }
  assert (HI' : has_if (snd (gen a)) = false).
  { change (h :: ?x) with ([h] ++ x) in HI. rewrite !has_if_app in HI.
    apply orb_false_elim in HI as [_ HI]. apply orb_false_elim in HI as [HI _]. exact HI. }
  assert (J : jumps l a = false).
  { destruct (jumps l a) eqn:J; [|reflexivity]. exfalso.
    destruct (bare_body a LL HB' HI') as [E | [_ Q]].
    - rewrite <- (proj2 (gen_goto l a)), E in J. discriminate.
    - apply Q in J. congruence. }
  rewrite strip_put by (rewrite Eg; discriminate).
  rewrite Eg, break_eq, Es, J, app_nil_r. cbn [end_label].
  destruct (bare_body a LL HB' HI') as [E | [Q _]].
  - rewrite E. assert (B : blank a = true) by (apply A0, E).
    exists (f CNop). split; [rewrite Hg, (blank_nf a B); reflexivity|].
    intros r. rewrite Sh. unfold tail_of, last_is_semi. cbn [rev app].
    destruct h; try contradiction; cbn [app strip filter]; apply Hf; constructor.
  - destruct A as (c & En & R); [intros E; rewrite E in Q; discriminate|].
    exists (f c). split; [rewrite Hg, En; reflexivity|].
    intros r. rewrite Sh. unfold tail_of. rewrite last_cons by (intros E; rewrite E in Q; discriminate).
    rewrite Q, app_nil_r. cbn [app]. apply Hf, R.
Qed.

Lemma strip_if : forall c ts, strip (TIf c :: ts) = TIf c :: strip ts.
Proof. reflexivity. Qed.

(** an [if] without an alternative *)
Lemma if_line : forall (s : st) c a, sub_ok a -> is_block s = false ->
  fst (gen s) = TIf c :: snd (gen a) -> src_nf s = [NIf c (src_nf a) []] -> line_ok s.
Proof.
  intros s c a [A0 A] _ Eg Es. split; [rewrite Eg; discriminate|]. intros _. rewrite Eg, Es.
  destruct (snd (gen a)) as [|x sub] eqn:G.
  - exists (CIf c CNop CNop), [], []. split; [constructor|]. split.
    + cbn. rewrite (blank_nf a); [reflexivity|]. apply A0. reflexivity.
    + intros r N. cbn. apply r_if; [constructor|exact N].
  - destruct A as (ca & E & R); [discriminate|].
    exists (CIf c ca CNop), (tail_of (x :: sub)), (if last_is_semi (x :: sub) then [] else [CNop]).
    split; [apply left_over_tail|]. split.
    + rewrite tail_nf. cbn. rewrite E. reflexivity.
    + intros r N. rewrite strip_if. change (TIf c :: x :: sub) with ([TIf c] ++ x :: sub).
      rewrite tail_nonempty by discriminate. cbn [app]. apply r_if; [apply R|apply no_else_tail, N].
Qed.

(** the substatement of what is not a block and has a good line *)
Lemma sub_from_line : forall s, is_block s = false -> line_ok s ->
  (has_brace (fst (gen s)) = false -> has_if (fst (gen s)) = false -> fst (gen s) <> [] ->
   exists c, cpp_nf c = src_nf s /\ forall r, reads (strip (put (fst (gen s))) ++ r) c r) ->
  sub_ok s.
Proof.
  intros s B L H. split; [apply sub_nil|]. intros Ne.
  destruct (needs 1 (lines_of (own_temps s) (fst (gen s))) None) eqn:N.
  - rewrite (braced_sub s B N). apply wrapped_reads, L.
  - destruct (bare_sub s B N) as (E & HB & HI). rewrite E in *. apply H; try assumption.
    intros Q. rewrite Q in Ne. contradiction.
Qed.

Lemma sub_reads : forall a, sub_ok a -> exists cs, nf_all cs = src_nf a /\
  forall r, reads_all (strip (snd (gen a)) ++ r) cs r.
Proof.
  intros a [A0 A]. destruct (snd (gen a)) as [|x sub] eqn:G.
  - exists []. split; [symmetry; apply blank_nf, A0; reflexivity|constructor].
  - destruct A as (c & E & R); [discriminate|]. exists [c]. split.
    + cbn. rewrite app_nil_r. exact E.
    + intros r. econstructor; [apply R|constructor].
Qed.

Theorem statement_ok : forall s, tame s = true -> line_ok s /\ sub_ok s.
Proof.
  induction s using st_ind'; intros T.
  - assert (L : line_ok SEmpty) by (split; [reflexivity|intros N; exfalso; apply N; reflexivity]).
    split; [exact L|]. apply sub_from_line; [reflexivity|exact L|]. intros _ _ N. exfalso. apply N. reflexivity.
  - assert (L : line_ok (SExpr t)).
    { split; [discriminate|]. intros _. exists (CText t), [], []. split; [constructor|].
      split; [reflexivity|]. intros r N. cbn. constructor. }
    split; [exact L|]. apply sub_from_line; [reflexivity|exact L|]. intros _ _ _.
    exists (CText t). split; [reflexivity|]. intros r. cbn. constructor.
  - assert (L : line_ok (SGoto l)).
    { split; [discriminate|]. intros _. exists (CGoto l), [], []. split; [constructor|].
      split; [reflexivity|]. intros r N. cbn. constructor. }
    split; [exact L|]. apply sub_from_line; [reflexivity|exact L|]. intros _ _ _.
    exists (CGoto l). split; [reflexivity|]. intros r. cbn. constructor.
  - assert (L : line_ok (SGive t l)).
    { split; [discriminate|]. intros _. exists (CBlock [CText t; CGoto l]), [TSemi], [CNop]. split; [constructor|].
      split; [reflexivity|]. intros r N. cbn. apply r_block.
      econstructor; [constructor|]. econstructor; [constructor|constructor]. }
    split; [exact L|]. apply sub_from_line; [reflexivity|exact L|]. intros HB. discriminate.
  - cbn [tame] in T. apply andb_prop in T as [T T3]. apply andb_prop in T as [T1 T2].
    destruct (IHs1 T1) as [_ S1]. destruct (IHs2 T2) as [L2 S2].
    assert (L : line_ok (SIf c s1 s2)).
    { destruct (blank s2) eqn:Bb.
      { assert (E : fst (gen (SIf c s1 s2)) = TIf (One c) :: snd (gen s1)).
        { cbn [gen fst]. assert (E2 : snd (gen s2) = []) by (apply sub_nil, Bb).
          destruct s2; try discriminate; rewrite E2, app_nil_r; reflexivity. }
        apply (if_line (SIf c s1 s2) (One c) s1 S1 eq_refl E). cbn [src_nf]. rewrite (blank_nf s2 Bb). reflexivity. }
      rewrite orb_false_r in T3. apply negb_true_iff in T3.
      destruct S1 as [A0 A]. destruct A as (ca & Ea & Ra); [rewrite A0, T3; discriminate|].
      set (alt := match s2 with SIf _ _ _ | SAnd _ _ => fst (gen s2) | _ => snd (gen s2) end).
      assert (X : alt <> [] /\ exists cb k ks, left_over (SIf c s1 s2) k ks /\ nf_all ks = [] /\ cpp_nf cb = src_nf s2 /\
        forall r, no_else r -> reads (strip alt ++ tail_of alt ++ r) cb (k ++ r)).
      { destruct (match s2 with SIf _ _ _ | SAnd _ _ => true | _ => false end) eqn:K.
        - assert (Q : alt = fst (gen s2)) by (subst alt; destruct s2; try discriminate; reflexivity).
          rewrite Q. assert (Ne : fst (gen s2) <> []) by (rewrite fst_nil; intros ->; discriminate).
          split; [exact Ne|]. destruct L2 as [_ L2]. destruct (L2 Ne) as (cb & k & ks & Lo & En & R).
          exists cb, k, ks. inversion Lo; subst.
          + repeat split; [constructor|rewrite app_nil_r in En; exact En|exact R].
          + cbn in En. rewrite app_nil_r in En. repeat split; [constructor|exact En|exact R].
          + destruct s2; discriminate.
        - assert (Q : alt = snd (gen s2)) by (subst alt; destruct s2; try discriminate; reflexivity).
          rewrite Q. destruct S2 as [B0 B]. assert (Ne : snd (gen s2) <> []) by (rewrite B0, Bb; discriminate).
          split; [exact Ne|]. destruct (B Ne) as (cb & Eb & Rb).
          exists cb, (tail_of (snd (gen s2))), (if last_is_semi (snd (gen s2)) then [] else [CNop]).
          split; [apply left_over_tail|]. split; [apply tail_nf|]. split; [exact Eb|].
          intros r N. apply Rb. }
      destruct X as [Ne (cb & k & ks & Lo & Ek & Eb & R)].
      assert (E : fst (gen (SIf c s1 s2)) = TIf (One c) :: snd (gen s1) ++ TNL :: TElse :: alt).
      { cbn [gen fst]. fold alt. destruct alt; [contradiction|reflexivity]. }
      split; [rewrite E; discriminate|]. intros _. rewrite E.
      exists (CIf (One c) ca cb), k, ks. split; [exact Lo|]. split.
      - rewrite Ek. cbn. rewrite Ea, Eb. reflexivity.
      - intros r N.
        replace (tail_of (TIf (One c) :: snd (gen s1) ++ TNL :: TElse :: alt)) with (tail_of alt).
        2: { change (TIf (One c) :: snd (gen s1) ++ TNL :: TElse :: alt)
               with ((TIf (One c) :: snd (gen s1)) ++ [TNL; TElse] ++ alt).
             rewrite app_assoc, tail_nonempty by exact Ne. reflexivity. }
        rewrite strip_if, strip_app. cbn [strip filter is_nl negb]. fold strip.
        cbn [app]. rewrite <- app_assoc. cbn [app].
        apply r_ifelse with (r1 := strip alt ++ tail_of alt ++ r); [apply Ra|apply R, N]. }
    split; [exact L|]. apply sub_from_line; [reflexivity|exact L|]. intros _ HI. cbn in HI. discriminate.
  - destruct (IHs T) as [_ S1].
    assert (L : line_ok (SAnd cs s)) by (apply (if_line _ (All cs) s S1); reflexivity).
    split; [exact L|]. apply sub_from_line; [reflexivity|exact L|]. intros _ HI. cbn in HI. discriminate.
  - destruct (IHs T) as [_ S1].
    assert (L : line_ok (SOr cs s)) by (apply (if_line _ (NoneOf cs) s S1); reflexivity).
    split; [exact L|]. apply sub_from_line; [reflexivity|exact L|]. intros _ HI. cbn in HI. discriminate.
  - cbn [tame] in T. rewrite forallb_forall in T.
    assert (F : Forall line_ok ss).
    { apply Forall_forall. intros x I. rewrite Forall_forall in H. apply (H x I (T x I)). }
    assert (F2 : Forall sub_ok ss).
    { apply Forall_forall. intros x I. rewrite Forall_forall in H. apply (H x I (T x I)). }
    destruct (block_reads l ss (length ss) F) as (c & E & R).
    split.
    + split; [cbn [gen fst]; rewrite curlies_some; destruct (has_goto _ _); discriminate|]. intros _.
      exists c, [TSemi], [CNop]. split; [constructor|]. split; [cbn; rewrite app_nil_r; exact E|].
      intros r N. cbn [gen fst]. unfold tail_of. rewrite curlies_last. apply R.
    + split; [apply sub_nil|]. intros Ne. cbn [gen snd] in *. rewrite curlies_opt in *.
      destruct (needs _ _ _) eqn:Nd; [exists c; split; [exact E|exact R]|].
      apply not_needs in Nd as (N1 & N2 & N3 & N4 & N5).
      destruct ss as [|x [|y ss]]; try discriminate.
      cbn [flat_map] in *. rewrite app_nil_r in *.
      assert (Bx : is_block x = false).
      { destruct x; try reflexivity. exfalso. apply lines_of_one in N2. cbn [own_temps] in N4.
        cbn [lines_of repeat app statements flat_map] in N4. rewrite app_nil_r, put_brace in N4.
        cbn [gen fst] in N4. rewrite curlies_brace in N4. discriminate. }
      assert (Es : snd (gen x) = statements (lines_of (own_temps x) (fst (gen x)))).
      { rewrite gen_sub by exact Bx. unfold sub_of. rewrite curlies_opt. unfold needs.
        rewrite N2, N4, N5. reflexivity. }
      rewrite <- Es in *. inversion F2; subst.
      match goal with H : sub_ok x |- _ => destruct H as [_ Q] end.
      destruct (Q Ne) as (cx & Ex & Rx). exists cx. split; [|exact Rx].
      cbn [src_nf flat_map existsb]. rewrite app_nil_r, orb_false_r, <- (proj2 (gen_goto l x)), (N3 l eq_refl).
      cbn. rewrite app_nil_r. exact Ex.
  - cbn [tame] in T. apply andb_prop in T as [T T3]. apply andb_prop in T as [T1 T2].
    apply negb_true_iff in T2, T3. destruct (IHs T1) as [_ S1].
    assert (L : line_ok (SWhile c s l)).
    { apply (loop_line _ (TWhile c) (CWhile c) (NWhile c) s l); try discriminate; try reflexivity; [exact S1|].
      intros ts c0 r. apply r_while. }
    split; [exact L|]. apply sub_from_line; [reflexivity|exact L|]. intros HB HI _.
    apply (loop_bare _ (TWhile c) (CWhile c) (NWhile c) s l); try discriminate; try reflexivity; try assumption.
    intros ts c0 r. apply r_while.
  - cbn [tame] in T. apply andb_prop in T as [T T3]. apply andb_prop in T as [T1 T2].
    apply negb_true_iff in T2, T3. destruct (IHs T1) as [_ S1].
    assert (L : line_ok (SFor c s l)).
    { apply (loop_line _ (TFor c) (CFor c) (NFor c) s l); try discriminate; try reflexivity; [exact S1|].
      intros ts c0 r. apply r_for. }
    split; [exact L|]. apply sub_from_line; [reflexivity|exact L|]. intros HB HI _.
    apply (loop_bare _ (TFor c) (CFor c) (NFor c) s l); try discriminate; try reflexivity; try assumption.
    intros ts c0 r. apply r_for.
  - cbn [tame] in T. apply andb_prop in T as [T T4]. apply andb_prop in T as [T T3]. apply andb_prop in T as [T1 T2].
    apply negb_true_iff in T2, T3, T4. destruct (IHs T1) as [_ [A0 A]].
    destruct A as (ca & Ea & Ra); [rewrite A0, T3; discriminate|].
    assert (E : fst (gen (SDo s c l)) = TDo :: snd (gen s) ++ [TNL; TWhile c]).
    { cbn [gen fst]. rewrite break_eq, T4. reflexivity. }
    assert (Tl : tail_of (TDo :: snd (gen s) ++ [TNL; TWhile c]) = [TSemi]).
    { change (TDo :: snd (gen s) ++ [TNL; TWhile c]) with ((TDo :: snd (gen s)) ++ [TNL; TWhile c]).
      rewrite tail_nonempty by discriminate. reflexivity. }
    assert (Rd : forall r, reads (strip (TDo :: snd (gen s) ++ [TNL; TWhile c]) ++ [TSemi] ++ r) (CDo ca c) r).
    { intros r. cbn [strip filter is_nl negb app]. fold strip. rewrite filter_app. cbn [filter is_nl negb].
      rewrite <- app_assoc. apply r_do, Ra. }
    assert (L : line_ok (SDo s c l)).
    { split; [discriminate|]. intros _. rewrite E, Tl. exists (CDo ca c), [], []. split; [constructor|].
      split; [cbn; rewrite T4, Ea; reflexivity|]. intros r N. apply Rd. }
    split; [exact L|]. apply sub_from_line; [reflexivity|exact L|]. intros HB HI _.
    rewrite strip_put by discriminate. rewrite E, Tl. exists (CDo ca c). split; [cbn; rewrite T4, Ea; reflexivity|].
    intros r. rewrite <- app_assoc. apply Rd.
  - cbn [tame] in T. apply andb_prop in T as [T1 T2]. destruct (IHs1 T1) as [_ S1]. destruct (IHs2 T2) as [_ S2].
    destruct (sub_reads _ S1) as (c1 & E1 & R1). destruct (sub_reads _ S2) as (c2 & E2 & R2). unfold nf_all in *.
    assert (L : line_ok (STry s1 s2)).
    { split; [discriminate|]. intros _. exists (CTry c1 c2), [TSemi], [CNop]. split; [constructor|].
      split; [cbn; rewrite E1, E2; reflexivity|]. intros r N. cbn [gen fst].
      set (line := TNL :: TTry :: _).
      assert (Tl : tail_of line = [TSemi]).
      { subst line.
        change (TNL :: TTry :: TNL :: TOpen :: ?x ++ TNL :: TClose :: TNL :: TCatch :: TNL :: TOpen :: ?y ++ ?z)
          with ([TNL; TTry; TNL; TOpen] ++ x ++ [TNL; TClose; TNL; TCatch; TNL; TOpen] ++ y ++ z).
        rewrite !app_assoc, tail_nonempty by discriminate. reflexivity. }
      rewrite Tl. subst line.
      cbn [strip filter is_nl negb]. fold strip. rewrite filter_app. cbn [filter is_nl negb]. rewrite filter_app.
      cbn [filter is_nl negb app]. rewrite <- !app_assoc. cbn [app]. rewrite <- !app_assoc.
      eapply r_try; [apply R1|]. apply R2. }
    split; [exact L|]. apply sub_from_line; [reflexivity|exact L|]. intros HB. cbn in HB. discriminate.
Qed.

Lemma program_ok : forall ss, forallb tame ss = true ->
  exists cs, reads_all (strip (cg_statements ss)) cs [] /\ nf_all cs = flat_map src_nf ss.
Proof.
  intros ss T. rewrite forallb_forall in T.
  destruct (lines_read ss) as (cs & E & R).
  { apply Forall_forall. intros x I. apply statement_ok, T, I. }
  exists cs. split; [|exact E]. specialize (R []). rewrite app_nil_r in R. apply R. intros r Q. discriminate.
Qed.

(** ** Only one reading *)

Scheme reads_ind2 := Induction for reads Sort Prop
  with reads_all_ind2 := Induction for reads_all Sort Prop.

(** where a list of statements ends *)
Definition stop (r : list tok) : Prop := r = [] \/ exists q, r = TClose :: q.

Lemma stop_close : forall q, stop (TClose :: q).
Proof. intros q. right. eauto. Qed.

Lemma stop_reads : forall r s q, stop r -> reads r s q -> False.
Proof. intros r s q [-> | [x ->]] R; inversion R. Qed.

Lemma reads_det : forall ts s r, reads ts s r -> forall s' r', reads ts s' r' -> s = s' /\ r = r'.
Proof.
  apply (reads_ind2
    (fun ts s r _ => forall s' r', reads ts s' r' -> s = s' /\ r = r')
    (fun ts ss r _ => stop r -> forall ss' r', stop r' -> reads_all ts ss' r' -> ss = ss' /\ r = r')).
  - intros r s' r' R. inversion R; subst; auto.
  - intros t r s' r' R. inversion R; subst; auto.
  - intros l r s' r' R. inversion R; subst; auto.
  - intros l r s' r' R. inversion R; subst; auto.
  - intros r s' r' R. inversion R; subst; auto.
  - intros ts ss r _ IH s' r' R. inversion R; subst.
    match goal with H : reads_all _ _ _ |- _ => destruct (IH (stop_close _) _ _ (stop_close _) H) as [-> Q] end.
    injection Q as ->. auto.
  - intros c ts s r _ IH N s' r' R. inversion R; subst.
    + match goal with H : reads ts _ _ |- _ => destruct (IH _ _ H) as [-> ->] end. auto.
    + match goal with H : reads ts _ _ |- _ => destruct (IH _ _ H) as [-> Q] end.
      exfalso. eapply N. exact Q.
  - intros c ts s1 s2 r1 r _ IH1 _ IH2 s' r' R. inversion R; subst.
    + match goal with H : reads ts _ _ |- _ => destruct (IH1 _ _ H) as [-> Q] end.
      subst r'. match goal with H : no_else _ |- _ => exfalso; eapply H; reflexivity end.
    + match goal with H : reads ts _ _ |- _ => destruct (IH1 _ _ H) as [-> Q] end.
      injection Q as <-. match goal with H : reads r1 _ _ |- _ => destruct (IH2 _ _ H) as [-> ->] end. auto.
  - intros c ts s r _ IH s' r' R. inversion R; subst.
    match goal with H : reads ts _ _ |- _ => destruct (IH _ _ H) as [-> ->] end. auto.
  - intros c ts s r _ IH s' r' R. inversion R; subst.
    match goal with H : reads ts _ _ |- _ => destruct (IH _ _ H) as [-> ->] end. auto.
  - intros c ts s r _ IH s' r' R. inversion R; subst.
    match goal with H : reads ts _ _ |- _ => destruct (IH _ _ H) as [-> Q] end. injection Q as -> ->. auto.
  - intros ts ss1 ss2 r1 r _ IH1 _ IH2 s' r' R. inversion R; subst.
    match goal with H : reads_all ts _ _ |- _ => destruct (IH1 (stop_close _) _ _ (stop_close _) H) as [-> Q] end.
    injection Q as <-.
    match goal with H : reads_all r1 _ _ |- _ => destruct (IH2 (stop_close _) _ _ (stop_close _) H) as [-> Q2] end.
    injection Q2 as ->. auto.
  - intros r St ss' r' St' R. inversion R; subst; [auto|].
    exfalso. eapply (stop_reads _ _ _ St); eassumption.
  - intros ts s ss r1 r R1 IH1 R2 IH2 St ss' r' St' R. inversion R; subst.
    + exfalso. eapply (stop_reads _ _ _ St'); eassumption.
    + match goal with H : reads ts _ _ |- _ => destruct (IH1 _ _ H) as [-> ->] end.
      match goal with H : reads_all _ _ r' |- _ => destruct (IH2 St _ _ St' H) as [-> ->] end. auto.
Qed.

Lemma reads_all_det : forall ss ts ss', reads_all ts ss [] -> reads_all ts ss' [] -> ss = ss'.
Proof.
  induction ss as [|s ss IH]; intros ts ss' A B.
  - inversion A; subst. inversion B; subst; [reflexivity|].
    match goal with H : reads [] _ _ |- _ => inversion H end.
  - inversion A; subst. inversion B; subst.
    + match goal with H : reads [] _ _ |- _ => inversion H end.
    + match goal with H1 : reads ts s _, H2 : reads ts _ _ |- _ => destruct (reads_det _ _ _ H1 _ _ H2) as [-> ->] end.
      f_equal. eapply IH; eassumption.
Qed.
