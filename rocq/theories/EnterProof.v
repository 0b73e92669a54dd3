(** * C76: proofs about loops with something to be done on entry *)

From Coq Require Import List Arith Bool Lia.
From Verif Require Import LoopSpec EnterSpec LoopModel LoopProof EnterModel.
Import ListNotations.

Section P.

Variable W : Type.

Lemma rounds_eq : forall fuel c pre hb body post until (w : W),
  rounds (S fuel) c pre hb body post until w =
      let (w1, t) := test c w in
      if t then
        match match pre with Some (h, ss) => leaves h (exec_all fuel ss w1) | None => Some (Done, w1) end with
        | Some (Done, w2) =>
            match leaves hb (exec_all fuel body w2) with
            | Some (Done, w3) =>
                let (w4, again) := test until (act post w3) in
                if again then rounds fuel c None hb body post until w4 else Some (Done, w4)
            | r => r
            end
        | r => r
        end
      else Some (Done, w1).
Proof. reflexivity. Qed.

Lemma exec_if : forall fuel c ha a hb b (w : W),
  exec (S fuel) (If c ha a hb b) w =
  let (w1, t) := c w in
  if t then leaves ha (exec_all fuel a w1) else leaves hb (exec_all fuel b w1).
Proof. reflexivity. Qed.

Lemma exec_block : forall fuel h ss (w : W), exec (S fuel) (Block h ss) w = leaves h (exec_all fuel ss w).
Proof. reflexivity. Qed.

Lemma exec_loop : forall fuel h init c pre hb body post until (w : W),
  exec (S fuel) (Loop h init c pre hb body post until) w =
  leaves (Some h) (rounds fuel c pre hb body post until (act init w)).
Proof. reflexivity. Qed.

Lemma leaves_some : forall h (r : option (outcome * W)) o w,
  leaves h r = Some (o, w) <-> exists o1, r = Some (o1, w) /\ o = caught h o1.
Proof.
  intros h [[o1 w1]|] o w; cbn; split.
  - intros [= <- <-]. eauto.
  - intros (o2 & [= <- <-] & ->). reflexivity.
  - discriminate.
  - intros (o2 & D & _). discriminate D.
Qed.

(** ** More steps *)

Lemma more : forall fuel,
  (forall x (w : W) r, exec fuel x w = Some r -> exec (S fuel) x w = Some r) /\
  (forall ss (w : W) r, exec_all fuel ss w = Some r -> exec_all (S fuel) ss w = Some r) /\
  (forall c pre hb body post until (w : W) r, rounds fuel c pre hb body post until w = Some r ->
    rounds (S fuel) c pre hb body post until w = Some r).
Proof.
  induction fuel as [|fuel (IH1 & IH2 & IH3)]; [repeat split; discriminate|].
  assert (L : forall h ss (w : W) r, leaves h (exec_all fuel ss w) = Some r -> leaves h (exec_all (S fuel) ss w) = Some r).
  { intros h ss w [o w1] E. apply leaves_some in E. destruct E as (o1 & E & ->). apply leaves_some. eauto. }
  split; [|split].
  - intros x w r E. destruct x; try exact E.
    + rewrite exec_if in E |- *. destruct (c w) as [w1 [|]]; apply L, E.
    + rewrite exec_block in E |- *. apply L, E.
    + rewrite exec_loop in E |- *. destruct r as [o w1]. apply leaves_some in E. destruct E as (o1 & E & ->).
      apply leaves_some. exists o1. split; [|reflexivity]. apply IH3, E.
  - intros ss w r E. destruct ss as [|x ss]; [exact E|]. rewrite exec_all_cons in E |- *.
    destruct (exec fuel x w) as [[o w1]|] eqn:F; [|discriminate E]. rewrite (IH1 _ _ _ F).
    destruct o; try exact E. apply IH2, E.
  - intros c pre hb body post until w r E. rewrite rounds_eq in E |- *. destruct (test c w) as [w1 [|]]; [|exact E].
    assert (Q : forall o w2,
      match pre with Some (h, ss) => leaves h (exec_all fuel ss w1) | None => Some (Done, w1) end = Some (o, w2) ->
      match pre with Some (h, ss) => leaves h (exec_all (S fuel) ss w1) | None => Some (Done, w1) end = Some (o, w2)).
    { intros o w2 F. destruct pre as [[h ss]|]; [apply L, F|exact F]. }
    destruct (match pre with Some (h, ss) => leaves h (exec_all fuel ss w1) | None => Some (Done, w1) end)
      as [[o w2]|] eqn:F; [|discriminate E].
    rewrite (Q _ _ eq_refl). destruct o; try exact E.
    destruct (leaves hb (exec_all fuel body w2)) as [[o w3]|] eqn:G; [|discriminate E].
    rewrite (L _ _ _ _ G). destruct o; try exact E.
    destruct (test until (act post w3)) as [w4 [|]]; [|exact E]. apply IH3, E.
Qed.

Lemma more_le : forall n m, n <= m ->
  (forall x (w : W) r, exec n x w = Some r -> exec m x w = Some r) /\
  (forall ss (w : W) r, exec_all n ss w = Some r -> exec_all m ss w = Some r) /\
  (forall c pre hb body post until (w : W) r, rounds n c pre hb body post until w = Some r ->
    rounds m c pre hb body post until w = Some r).
Proof.
  induction 1 as [|m L (A & B & C)]; [auto|]. destruct (more m) as (A2 & B2 & C2). repeat split; auto.
Qed.

(** ** Big steps *)

Definition ev (x : st W) (w : W) (o : outcome) (w' : W) : Prop := exists n, exec n x w = Some (o, w').
Definition ev_all (ss : list (st W)) (w : W) (o : outcome) (w' : W) : Prop := exists n, exec_all n ss w = Some (o, w').
Definition ev_block (h : option nat) (ss : list (st W)) (w : W) (o : outcome) (w' : W) : Prop :=
  exists o1, ev_all ss w o1 w' /\ o = caught h o1.

Lemma ev_nil : forall w o w', ev_all [] w o w' <-> o = Done /\ w' = w.
Proof.
  intros w o w'. split.
  - intros [[|n] E]; [discriminate|]. cbn in E. injection E as <- <-. auto.
  - intros [-> ->]. exists 1. reflexivity.
Qed.

Lemma ev_cons : forall x ss w o w', ev_all (x :: ss) w o w' <->
  (exists w1, ev x w Done w1 /\ ev_all ss w1 o w') \/ (ev x w o w' /\ o <> Done).
Proof.
  intros x ss w o w'. split.
  - intros [[|n] E]; [discriminate|]. rewrite exec_all_cons in E.
    destruct (exec n x w) as [[o1 w1]|] eqn:F; [|discriminate E]. destruct o1.
    + left. exists w1. split; exists n; assumption.
    + right. injection E as <- <-. split; [exists n; assumption|discriminate].
    + right. injection E as <- <-. split; [exists n; assumption|discriminate].
  - intros [(w1 & [n A] & [m B])|[[n A] N]].
    + exists (S (n + m)). rewrite exec_all_cons.
      rewrite (proj1 (more_le n (n + m) ltac:(lia)) _ _ _ A).
      apply (proj1 (proj2 (more_le m (n + m) ltac:(lia))) _ _ _ B).
    + exists (S n). rewrite exec_all_cons, A. destruct o; [contradiction|reflexivity|reflexivity].
Qed.

Lemma ev_app : forall a b w o w', ev_all (a ++ b) w o w' <->
  (exists w1, ev_all a w Done w1 /\ ev_all b w1 o w') \/ (ev_all a w o w' /\ o <> Done).
Proof.
  induction a as [|x a IH]; intros b w o w'; cbn [app].
  - split.
    + intros E. left. exists w. split; [apply ev_nil; auto|exact E].
    + intros [(w1 & A & B)|[A N]]; apply ev_nil in A; destruct A as [? ?]; subst; [exact B|contradiction].
  - rewrite ev_cons. split.
    + intros [(w1 & A & B)|[A N]].
      * apply IH in B. destruct B as [(w2 & B & C)|[B N]].
        -- left. exists w2. split; [apply ev_cons; left; eauto|exact C].
        -- right. split; [apply ev_cons; left; eauto|exact N].
      * right. split; [apply ev_cons; right; auto|exact N].
    + intros [(w1 & A & B)|[A N]]; apply ev_cons in A.
      * destruct A as [(w2 & A & C)|[_ D]]; [|contradiction]. left. exists w2. split; [exact A|].
        apply IH. left. eauto.
      * destruct A as [(w2 & A & C)|[A _]]; [|right; auto]. left. exists w2. split; [exact A|].
        apply IH. right. auto.
Qed.

Lemma ev_blk : forall h ss w o w', ev (Block h ss) w o w' <-> ev_block h ss w o w'.
Proof.
  intros h ss w o w'. split.
  - intros [[|n] E]; [discriminate|]. rewrite exec_block in E. apply leaves_some in E.
    destruct E as (o1 & E & ->). exists o1. split; [exists n; exact E|reflexivity].
  - intros (o1 & [n E] & ->). exists (S n). rewrite exec_block. apply leaves_some. eauto.
Qed.

Lemma ev_if : forall c ha a hb b w o w', ev (If c ha a hb b) w o w' <->
  if snd (c w) then ev_block ha a (fst (c w)) o w' else ev_block hb b (fst (c w)) o w'.
Proof.
  intros c ha a hb b w o w'. destruct (c w) as [w1 t] eqn:F. cbn [fst snd]. split.
  - intros [[|n] E]; [discriminate|]. rewrite exec_if, F in E.
    destruct t; apply leaves_some in E; destruct E as (o1 & E & ->); exists o1; (split; [exists n; exact E|reflexivity]).
  - intros E. destruct t; destruct E as (o1 & [n E] & ->); exists (S n); rewrite exec_if, F; apply leaves_some; eauto.
Qed.

Lemma ev_act : forall f w o w', ev (Act f) w o w' <-> o = Done /\ w' = f w.
Proof.
  intros f w o w'. split.
  - intros [[|n] E]; [discriminate|]. cbn in E. injection E as <- <-. auto.
  - intros [-> ->]. exists 1. reflexivity.
Qed.

(** The rounds of a loop, given what the body does. *)
Inductive turns (B : W -> outcome -> W -> Prop) (c : option (cond W)) (post : option (W -> W))
    (until : option (cond W)) : W -> outcome -> W -> Prop :=
| t_stop : forall w w1, test c w = (w1, false) -> turns B c post until w Done w1
| t_out : forall w w1 o w2, test c w = (w1, true) -> B w1 o w2 -> o <> Done -> turns B c post until w o w2
| t_last : forall w w1 w2 w3, test c w = (w1, true) -> B w1 Done w2 ->
    test until (act post w2) = (w3, false) -> turns B c post until w Done w3
| t_next : forall w w1 w2 w3 o w', test c w = (w1, true) -> B w1 Done w2 ->
    test until (act post w2) = (w3, true) -> turns B c post until w3 o w' -> turns B c post until w o w'.

(** The first round after the test and what is done on entry. *)
Definition first (B : W -> outcome -> W -> Prop) (c : option (cond W)) (post : option (W -> W))
    (until : option (cond W)) (w : W) (o : outcome) (w' : W) : Prop :=
  (B w o w' /\ o <> Done) \/
  exists w1 w2 t, B w Done w1 /\ test until (act post w1) = (w2, t) /\
    if t then turns B c post until w2 o w' else o = Done /\ w' = w2.

Lemma turns_first : forall B c post until w o w',
  turns B c post until w o w' <->
  let (w1, t) := test c w in if t then first B c post until w1 o w' else o = Done /\ w' = w1.
Proof.
  intros B c post until w o w'. split.
  - intros T. inversion T; subst; match goal with H : test c w = _ |- _ => rewrite H end; auto.
    + left. auto.
    + right. exists w2, w', false. auto.
    + right. exists w2, w3, true. auto.
  - destruct (test c w) as [w1 [|]] eqn:F.
    + intros [[A N]|(w2 & w3 & t & A & T & R)].
      * eapply t_out; eassumption.
      * destruct t; [eapply t_next; eassumption|]. destruct R as [-> ->]. eapply t_last; eassumption.
    + intros [-> ->]. apply t_stop, F.
Qed.

Definition ev_rounds c pre hb body post until (w : W) o w' : Prop :=
  exists n, rounds n c pre hb body post until w = Some (o, w').

Lemma ev_loop : forall h init c pre hb body post until w o w',
  ev (Loop h init c pre hb body post until) w o w' <->
  exists o1, ev_rounds c pre hb body post until (act init w) o1 w' /\ o = caught (Some h) o1.
Proof.
  intros. split.
  - intros [[|n] E]; [discriminate|]. rewrite exec_loop in E. apply leaves_some in E.
    destruct E as (o1 & E & ->). exists o1. split; [exists n; exact E|reflexivity].
  - intros (o1 & [n E] & ->). exists (S n). rewrite exec_loop. apply leaves_some. eauto.
Qed.

Lemma ev_turns : forall c hb body post until w o w',
  ev_rounds c None hb body post until w o w' <-> turns (ev_block hb body) c post until w o w'.
Proof.
  intros c hb body post until w o w'. split.
  - intros [n E]. revert w E. induction n as [|n IH]; intros w E; [discriminate|]. rewrite rounds_eq in E.
    destruct (test c w) as [w1 [|]] eqn:F; [|injection E as <- <-; apply t_stop, F].
    destruct (leaves hb (exec_all n body w1)) as [[o1 w2]|] eqn:G; [|discriminate E].
    assert (B : ev_block hb body w1 o1 w2).
    { apply leaves_some in G. destruct G as (o2 & G & ->). exists o2. split; [exists n; exact G|reflexivity]. }
    destruct o1; [|injection E as <- <-; eapply t_out; [exact F|exact B|discriminate]..].
    destruct (test until (act post w2)) as [w3 [|]] eqn:H.
    + eapply t_next; [exact F|exact B|exact H|]. apply IH, E.
    + injection E as <- <-. eapply t_last; eassumption.
  - intros T. induction T as [w w1 F|w w1 o w2 F B N|w w1 w2 w3 F B H|w w1 w2 w3 o w' F B H T IH].
    + exists 1. rewrite rounds_eq, F. reflexivity.
    + destruct B as (o1 & [n B] & E). exists (S n). rewrite rounds_eq, F, (proj2 (leaves_some hb _ o w2)) by eauto.
      destruct o; [contradiction|reflexivity|reflexivity].
    + destruct B as (o1 & [n B] & E). exists (S n).
      rewrite rounds_eq, F, (proj2 (leaves_some hb _ Done w2)) by eauto. rewrite H. reflexivity.
    + destruct B as (o1 & [n B] & E). destruct IH as [m IH]. exists (S (n + m)).
      rewrite rounds_eq, F, (proj2 (leaves_some hb _ Done w2)).
      * rewrite H. apply (proj2 (proj2 (more_le m (n + m) ltac:(lia))) _ _ _ _ _ _ _ _ IH).
      * exists o1. split; [|exact E]. apply (proj1 (proj2 (more_le n (n + m) ltac:(lia))) _ _ _ B).
Qed.

Lemma ev_enter : forall c hp ss hb body post until w o w',
  ev_rounds c (Some (hp, ss)) hb body post until w o w' <->
  let (w1, t) := test c w in
  if t then (ev_block hp ss w1 o w' /\ o <> Done) \/
            exists w2, ev_block hp ss w1 Done w2 /\ first (ev_block hb body) c post until w2 o w'
  else o = Done /\ w' = w1.
Proof.
  intros c hp ss hb body post until w o w'. destruct (test c w) as [w1 t] eqn:F. split.
  - intros [[|n] E]; [discriminate|]. rewrite rounds_eq, F in E.
    destruct t; [|injection E as <- <-; auto].
    destruct (leaves hp (exec_all n ss w1)) as [[o1 w2]|] eqn:G; [|discriminate E].
    assert (P : ev_block hp ss w1 o1 w2).
    { apply leaves_some in G. destruct G as (o2 & G & ->). exists o2. split; [exists n; exact G|reflexivity]. }
    destruct o1; [|injection E as <- <-; left; split; [exact P|discriminate]..].
    right. exists w2. split; [exact P|].
    destruct (leaves hb (exec_all n body w2)) as [[o1 w3]|] eqn:K; [|discriminate E].
    assert (B : ev_block hb body w2 o1 w3).
    { apply leaves_some in K. destruct K as (o2 & K & ->). exists o2. split; [exists n; exact K|reflexivity]. }
    destruct o1; [|injection E as <- <-; left; split; [exact B|discriminate]..].
    destruct (test until (act post w3)) as [w4 [|]] eqn:H.
    + right. exists w3, w4, true. split; [exact B|]. split; [exact H|]. apply ev_turns. exists n. exact E.
    + right. exists w3, w4, false. injection E as <- <-. auto.
  - destruct t; [|intros [-> ->]; exists 1; rewrite rounds_eq, F; reflexivity].
    intros [[(o1 & [n P] & E) N]|(w2 & (o1 & [n P] & E) & R)].
    + exists (S n). rewrite rounds_eq, F, (proj2 (leaves_some hp _ o w')) by eauto.
      destruct o; [contradiction|reflexivity|reflexivity].
    + destruct R as [[(o2 & [m B] & E2) N]|(w3 & w4 & t & (o2 & [m B] & E2) & H & R)].
      * exists (S (n + m)). rewrite rounds_eq, F, (proj2 (leaves_some hp _ Done w2)).
        -- rewrite (proj2 (leaves_some hb _ o w')).
           ++ destruct o; [contradiction|reflexivity|reflexivity].
           ++ exists o2. split; [|exact E2]. apply (proj1 (proj2 (more_le m (n + m) ltac:(lia))) _ _ _ B).
        -- exists o1. split; [|exact E]. apply (proj1 (proj2 (more_le n (n + m) ltac:(lia))) _ _ _ P).
      * assert (K : exists k, if t then rounds k c None hb body post until w4 = Some (o, w') else o = Done /\ w' = w4).
        { destruct t; [|exists 0; exact R]. apply ev_turns in R. exact R. }
        destruct K as [k K]. exists (S (n + m + k)). rewrite rounds_eq, F, (proj2 (leaves_some hp _ Done w2)).
        -- rewrite (proj2 (leaves_some hb _ Done w3)).
           ++ rewrite H. destruct t; [|destruct K as [-> ->]; reflexivity].
              apply (proj2 (proj2 (more_le k (n + m + k) ltac:(lia))) _ _ _ _ _ _ _ _ K).
           ++ exists o2. split; [|exact E2]. apply (proj1 (proj2 (more_le m (n + m + k) ltac:(lia))) _ _ _ B).
        -- exists o1. split; [|exact E]. apply (proj1 (proj2 (more_le n (n + m + k) ltac:(lia))) _ _ _ P).
Qed.

(** ** Testing at the end instead *)

Lemma shift : forall B c post w o w',
  turns B (Some c) post None w o w' <->
  let (w1, t) := c w in if t then turns B None post (Some c) w1 o w' else o = Done /\ w' = w1.
Proof.
  intros B c post w o w'. split.
  - intros T. induction T as [w w1 F|w w1 o w2 F N1 N|w w1 w2 w3 F N1 H|w w1 w2 w3 o w' F N1 H T IH]; cbn in F.
    + rewrite F. auto.
    + rewrite F. eapply t_out; [reflexivity|exact N1|exact N].
    + discriminate H.
    + rewrite F. cbn in H. injection H as <-. destruct (c (act post w2)) as [w4 [|]] eqn:E.
      * eapply t_next; [reflexivity|exact N1|exact E|exact IH].
      * destruct IH as [-> ->]. eapply t_last; [reflexivity|exact N1|exact E].
  - destruct (c w) as [w1 [|]] eqn:F; [|intros [-> ->]; apply t_stop; exact F].
    intros T. revert w F.
    induction T as [w0 w1 F1|w0 w1 o w2 F1 N1 N|w0 w1 w2 w3 F1 N1 H|w0 w1 w2 w3 o w' F1 N1 H T IH];
      intros w F; [discriminate F1|injection F1 as <-..].
    + eapply t_out; [exact F|exact N1|exact N].
    + eapply t_next; [exact F|exact N1|reflexivity|]. apply t_stop. exact H.
    + eapply t_next; [exact F|exact N1|reflexivity|]. apply IH. exact H.
Qed.

(** ** One loop *)

Lemma caught_other : forall h o, o <> To h -> caught (Some h) o = o.
Proof.
  intros h [|k|] N; cbn; try reflexivity. destruct (Nat.eqb_spec k h); [congruence|reflexivity].
Qed.

Lemma caught_none : forall o, caught None o = o.
Proof. reflexivity. Qed.

Lemma ev_block_none : forall ss w o w', ev_block None ss w o w' <-> ev_all ss w o w'.
Proof.
  intros. split; [intros (o1 & A & ->); exact A|]. intros A. exists o. auto.
Qed.

Lemma ev_one : forall x w o w', ev_all [x] w o w' <-> ev x w o w'.
Proof.
  intros x w o w'. rewrite ev_cons. split.
  - intros [(w1 & A & B)|[A _]]; [|exact A]. apply ev_nil in B. destruct B as [-> ->]. exact A.
  - intros A. destruct o; [|right; split; [exact A|discriminate]..]. left. exists w'. split; [exact A|]. apply ev_nil. auto.
Qed.

Lemma ev_init : forall init ss w o w', ev_all (init_st init ++ ss) w o w' <-> ev_all ss (act init w) o w'.
Proof.
  intros [f|] ss w o w'; cbn; [|reflexivity]. rewrite ev_cons. split.
  - intros [(w1 & A & B)|[A N]]; apply ev_act in A; destruct A as [D ->]; [exact B|contradiction].
  - intros B. left. exists (f w). split; [apply ev_act; auto|exact B].
Qed.

Lemma first_turns : forall B post until w o w',
  first B None post until w o w' <-> turns B None post until w o w'.
Proof. intros. rewrite turns_first. reflexivity. Qed.

Lemma first_shift : forall B c post w o w',
  first B (Some c) post None w o w' <-> turns B None post (Some c) w o w'.
Proof.
  intros B c post w o w'. rewrite (turns_first B None). unfold first. cbn [test].
  split; (intros [A|(w1 & w2 & t & A & T & R)]; [left; exact A|right]).
  - injection T as <- <-. cbn in R. apply shift in R.
    destruct (c (act post w1)) as [w3 [|]] eqn:E; [exists w1, w3, true|exists w1, w3, false]; auto.
  - exists w1, (act post w1), true. split; [exact A|]. split; [reflexivity|]. apply shift. rewrite T. exact R.
Qed.

Lemma lower_loop_ok : forall h init c ss hb body post until y,
  (forall w w', ~ ev_all ss w (To h) w') ->
  lower_loop h init c None ss hb body post until = Some y ->
  forall w o w', ev (Loop h init c (Some (None, ss)) hb body post until) w o w' <-> ev y w o w'.
Proof.
  intros h init c ss hb body post until y N E w o w'. rewrite ev_loop.
  assert (T : forall w0, ev_all (ss ++ [Loop h None None None hb body post (match c with Some c => Some c | None => until end)]) w0 o w' <->
    exists o1, ((ev_all ss w0 o1 w' /\ o1 <> Done) \/
      exists w2, ev_all ss w0 Done w2 /\
        turns (ev_block hb body) None post (match c with Some c => Some c | None => until end) w2 o1 w') /\
      o = caught (Some h) o1).
  { intros w0. rewrite ev_app. split.
    - intros [(w1 & A & B)|[A D]].
      + apply ev_one, ev_loop in B. destruct B as (o1 & B & ->). apply ev_turns in B. eauto 8.
      + exists o. split; [left; auto|]. symmetry. apply caught_other. intros ->. apply (N _ _ A).
    - intros (o1 & [[A D]|(w2 & A & B)] & ->).
      + rewrite caught_other; [right; auto|]. intros ->. apply (N _ _ A).
      + left. exists w2. split; [exact A|]. apply ev_one, ev_loop. exists o1. split; [|reflexivity]. apply ev_turns, B. }
  destruct c as [c|].
  - destruct until; [discriminate E|]. injection E as <-.
    rewrite ev_blk, ev_block_none, ev_init, ev_one, ev_if.
    destruct (c (act init w)) as [w1 [|]] eqn:F; cbn [fst snd].
    + rewrite ev_block_none, T. split; intros (o1 & R & ->); exists o1; (split; [|reflexivity]).
      * apply ev_enter in R. cbn [test] in R. rewrite F in R.
        destruct R as [[A D]|(w2 & A & R)]; apply ev_block_none in A; [left; auto|right].
        exists w2. split; [exact A|]. apply first_shift, R.
      * apply ev_enter. cbn [test]. rewrite F.
        destruct R as [[A D]|(w2 & A & R)]; apply ev_block_none in A; [left; auto|right].
        exists w2. split; [exact A|]. apply first_shift, R.
    + rewrite ev_block_none, ev_nil. split.
      * intros (o1 & R & ->). apply ev_enter in R. cbn [test] in R. rewrite F in R. destruct R as [-> ->]. auto.
      * intros [-> ->]. exists Done. split; [|reflexivity]. apply ev_enter. cbn [test]. rewrite F. auto.
  - injection E as <-. rewrite ev_blk, ev_block_none, ev_init, T.
    split; intros (o1 & R & ->); exists o1; (split; [|reflexivity]).
    + apply ev_enter in R. cbn [test] in R.
      destruct R as [[A D]|(w2 & A & R)]; apply ev_block_none in A; [left; auto|right].
      exists w2. split; [exact A|]. apply first_turns, R.
    + apply ev_enter. cbn [test].
      destruct R as [[A D]|(w2 & A & R)]; apply ev_block_none in A; [left; auto|right].
      exists w2. split; [exact A|]. apply first_turns, R.
Qed.

(** ** Congruence *)

Definition same (a b : list (st W)) : Prop := forall w o w', ev_all a w o w' <-> ev_all b w o w'.

Lemma same_block : forall a b, same a b -> forall h w o w', ev_block h a w o w' <-> ev_block h b w o w'.
Proof. intros a b S h w o w'. split; intros (o1 & A & ->); exists o1; (split; [apply S, A|reflexivity]). Qed.

Lemma turns_iff : forall (B B2 : W -> outcome -> W -> Prop) c post until, (forall w o w', B w o w' -> B2 w o w') ->
  forall w o w', turns B c post until w o w' -> turns B2 c post until w o w'.
Proof.
  intros B B2 c post until H w o w' T. induction T.
  - apply t_stop. assumption.
  - eapply t_out; eauto.
  - eapply t_last; eauto.
  - eapply t_next; eauto.
Qed.

Lemma first_iff : forall (B B2 : W -> outcome -> W -> Prop) c post until, (forall w o w', B w o w' -> B2 w o w') ->
  forall w o w', first B c post until w o w' -> first B2 c post until w o w'.
Proof.
  intros B B2 c post until H w o w' [[A N]|(w1 & w2 & t & A & T & R)]; [left; auto|].
  right. exists w1, w2, t. split; [auto|]. split; [exact T|]. destruct t; [|exact R]. eapply turns_iff; eassumption.
Qed.

Lemma cong_rounds : forall c pre pre2 hb body body2 post until, same body body2 ->
  match pre, pre2 with Some (h, a), Some (h2, b) => h = h2 /\ same a b | None, None => True | _, _ => False end ->
  forall w o w', ev_rounds c pre hb body post until w o w' -> ev_rounds c pre2 hb body2 post until w o w'.
Proof.
  intros c pre pre2 hb body body2 post until S P w o w' R.
  assert (H : forall w o w', ev_block hb body w o w' -> ev_block hb body2 w o w') by (intros; apply (same_block body body2 S); assumption).
  destruct pre as [[h a]|]; destruct pre2 as [[h2 b]|]; try contradiction.
  - destruct P as [<- P]. apply ev_enter. apply ev_enter in R. destruct (test c w) as [w1 [|]]; [|exact R].
    destruct R as [[A N]|(w2 & A & R)].
    + left. split; [apply (same_block a b P), A|exact N].
    + right. exists w2. split; [apply (same_block a b P), A|]. eapply first_iff; eassumption.
  - apply ev_turns. apply ev_turns in R. eapply turns_iff; eassumption.
Qed.

Lemma same_sym : forall a b, same a b -> same b a.
Proof. intros a b S w o w'. symmetry. apply S. Qed.

Lemma cong_loop : forall h init c pre pre2 hb body body2 post until, same body body2 ->
  match pre, pre2 with Some (h, a), Some (h2, b) => h = h2 /\ same a b | None, None => True | _, _ => False end ->
  forall w o w', ev (Loop h init c pre hb body post until) w o w' <-> ev (Loop h init c pre2 hb body2 post until) w o w'.
Proof.
  intros h init c pre pre2 hb body body2 post until S P w o w'. rewrite !ev_loop.
  split; intros (o1 & R & ->); exists o1; (split; [|reflexivity]).
  - eapply cong_rounds; eassumption.
  - eapply cong_rounds; [apply same_sym; exact S| |exact R].
    destruct pre as [[k a]|]; destruct pre2 as [[k2 b]|]; try contradiction; try exact I.
    destruct P as [<- P]. split; [reflexivity|]. apply same_sym, P.
Qed.

(** ** Jumps are seen *)

Lemma caught_to : forall h o k, caught h o = To k -> o = To k.
Proof.
  intros [h|] o k E; [|exact E]. destruct o; cbn in E; try discriminate E.
  destruct (Nat.eqb h0 h); [discriminate E|exact E].
Qed.

Lemma jump_seen : forall fuel,
  (forall (x : st W) w k w', exec fuel x w = Some (To k, w') -> jumps k x = true) /\
  (forall (ss : list (st W)) w k w', exec_all fuel ss w = Some (To k, w') -> existsb (jumps k) ss = true) /\
  (forall c pre hb body post until (w : W) k w', rounds fuel c pre hb body post until w = Some (To k, w') ->
    existsb (jumps k) body || match pre with Some (_, ss) => existsb (jumps k) ss | None => false end = true).
Proof.
  induction fuel as [|fuel (IH1 & IH2 & IH3)]; [repeat split; discriminate|].
  assert (L : forall h ss (w : W) k w', leaves h (exec_all fuel ss w) = Some (To k, w') -> existsb (jumps k) ss = true).
  { intros h ss w k w' E. apply leaves_some in E. destruct E as (o & E & Q). symmetry in Q. apply caught_to in Q.
    subst o. apply (IH2 _ _ _ _ E). }
  split; [|split].
  - intros x w k w' E. destruct x; try discriminate.
    + cbn in E. injection E as <- <-. cbn. apply Nat.eqb_refl.
    + rewrite exec_if in E. cbn [jumps]. destruct (c w) as [w1 [|]]; apply L in E; rewrite E; [reflexivity|apply orb_true_r].
    + rewrite exec_block in E. apply (L _ _ _ _ _ E).
    + rewrite exec_loop in E. apply leaves_some in E. destruct E as (o & E & Q). symmetry in Q. apply caught_to in Q.
      subst o. apply (IH3 _ _ _ _ _ _ _ _ _ E).
  - intros ss w k w' E. destruct ss as [|x ss]; [discriminate|]. rewrite exec_all_cons in E. cbn [existsb].
    destruct (exec fuel x w) as [[o w1]|] eqn:F; [|discriminate E]. destruct o; try discriminate E.
    + rewrite (IH2 _ _ _ _ E). apply orb_true_r.
    + injection E as -> ->. rewrite (IH1 _ _ _ _ F). reflexivity.
  - intros c pre hb body post until w k w' E. rewrite rounds_eq in E. destruct (test c w) as [w1 [|]]; [|discriminate E].
    destruct (match pre with Some (h, ss) => leaves h (exec_all fuel ss w1) | None => Some (Done, w1) end)
      as [[o w2]|] eqn:F; [|discriminate E].
    destruct o; try discriminate E.
    + destruct (leaves hb (exec_all fuel body w2)) as [[o w3]|] eqn:G; [|discriminate E].
      destruct o; try discriminate E.
      * destruct (test until (act post w3)) as [w4 [|]]; [|discriminate E].
        apply IH3 in E. rewrite orb_false_r in E. rewrite E. reflexivity.
      * injection E as -> ->. rewrite (L _ _ _ _ _ G). reflexivity.
    + injection E as -> ->. destruct pre as [[h ss]|]; [|discriminate F].
      rewrite (L _ _ _ _ _ F). apply orb_true_r.
Qed.

(** ** All of a program *)

Scheme neat_ind2 := Minimality for neat Sort Prop
  with neat_all_ind2 := Minimality for neat_all Sort Prop.
Combined Scheme neat_mut from neat_ind2, neat_all_ind2.

Lemma lower_if : forall c ha a hb b, lower (@If W c ha a hb b) =
  match lowers a, lowers b with Some a, Some b => Some (If c ha a hb b) | _, _ => None end.
Proof. reflexivity. Qed.

Lemma lower_block : forall h ss, lower (@Block W h ss) =
  match lowers ss with Some ss => Some (Block h ss) | None => None end.
Proof. reflexivity. Qed.

Lemma lower_lp : forall h init c pre hb body post until, lower (@Loop W h init c pre hb body post until) =
  match lowers body with
  | None => None
  | Some body' =>
      match pre with
      | None => Some (Loop h init c None hb body' post until)
      | Some (hp, ss) =>
          match lowers ss with
          | None => None
          | Some ss' => lower_loop h init c (pre_label hp ss) ss' hb body' post until
          end
      end
  end.
Proof. reflexivity. Qed.

Lemma plain_label : forall h (p : option nat * list (st W)), plain h p -> fst p = None /\ pre_label (fst p) (snd p) = None.
Proof.
  intros h [hp ss] (A & _ & B). cbn in *. subst hp. split; [reflexivity|].
  destruct ss as [|x [|y ss]]; [reflexivity| |destruct x; reflexivity]. destruct x; try reflexivity; contradiction.
Qed.

Lemma lower_ok :
  (forall x : st W, neat x -> forall y, lower x = Some y -> forall w o w', ev x w o w' <-> ev y w o w') /\
  (forall ss : list (st W), neat_all ss -> forall ss', lowers ss = Some ss' -> same ss ss').
Proof.
  apply neat_mut.
  - intros f y [= <-] w o w'. reflexivity.
  - intros h y [= <-] w o w'. reflexivity.
  - intros y [= <-] w o w'. reflexivity.
  - intros c ha a hb b _ IHa _ IHb y E w o w'. rewrite lower_if in E.
    destruct (lowers a) as [a'|]; [|discriminate E]. destruct (lowers b) as [b'|]; [|discriminate E].
    injection E as <-. rewrite !ev_if.
    destruct (snd (c w)); apply same_block; [apply (IHa _ eq_refl)|apply (IHb _ eq_refl)].
  - intros h ss _ IH y E w o w'. rewrite lower_block in E. destruct (lowers ss) as [ss'|]; [|discriminate E].
    injection E as <-. rewrite !ev_blk. apply same_block, IH. reflexivity.
  - intros h init c hb body post until _ IH y E w o w'. rewrite lower_lp in E.
    destruct (lowers body) as [body'|]; [|discriminate E]. injection E as <-.
    apply cong_loop; [apply IH; reflexivity|exact I].
  - intros h init c [hp ss] hb body post until P _ IHs _ IHb y E w o w'. rewrite lower_lp in E.
    destruct (lowers body) as [body'|]; [|discriminate E]. cbn [snd] in IHs.
    destruct (lowers ss) as [ss'|]; [|discriminate E].
    pose proof (plain_label _ _ P) as [Q1 Q2]. cbn [fst snd] in Q1, Q2. rewrite Q2 in E. subst hp.
    rewrite <- (lower_loop_ok h init c ss' hb body' post until y).
    + apply cong_loop; [apply IHb; reflexivity|]. split; [reflexivity|]. apply IHs. reflexivity.
    + intros w0 w1 R. apply (IHs _ eq_refl) in R. destruct R as [n R].
      apply (proj1 (proj2 (jump_seen n))) in R. destruct P as (_ & P & _). cbn in P. congruence.
    + exact E.
  - intros ss' [= <-] w o w'. reflexivity.
  - intros x ss _ IHx _ IHs ss' E w o w'. cbn [lowers] in E.
    destruct (lower x) as [x'|]; [|discriminate E]. destruct (lowers ss) as [ss2|]; [|discriminate E].
    injection E as <-. rewrite !ev_cons. specialize (IHx _ eq_refl). specialize (IHs _ eq_refl).
    split; (intros [(w1 & A & B)|[A N]]; [left; exists w1; split; [apply IHx, A|apply IHs, B]|right; split; [apply IHx, A|exact N]]).
Qed.

(** ** Names stay distinct *)

Lemma weaken_block : forall ss : list (st W),
  (forall hs hs2, incl hs hs2 -> scoped_all hs2 ss -> scoped_all hs ss) ->
  forall h hs hs2, incl hs hs2 -> scoped_block hs2 h ss -> scoped_block hs h ss.
Proof.
  intros ss H [h|] hs hs2 I S; cbn in *; [|eapply H; eassumption]. destruct S as [N S]. split; [auto|].
  eapply H; [|exact S]. intros k [<-|K]; [left; reflexivity|right; auto].
Qed.

Lemma weaken :
  (forall x : st W, neat x -> forall hs hs2, incl hs hs2 -> scoped hs2 x -> scoped hs x) /\
  (forall ss : list (st W), neat_all ss -> forall hs hs2, incl hs hs2 -> scoped_all hs2 ss -> scoped_all hs ss).
Proof.
  assert (C : forall (h : nat) hs hs2, incl hs hs2 -> incl (h :: hs) (h :: hs2)).
  { intros h hs hs2 I k [<-|K]; [left; reflexivity|right; auto]. }
  apply neat_mut.
  - intros; exact I.
  - intros; exact I.
  - intros; exact I.
  - intros c ha a hb b _ IHa _ IHb hs hs2 I S. apply (proj2 (scoped_if _ _ _ _ _ _ _)).
    destruct (proj1 (scoped_if _ _ _ _ _ _ _) S) as [S1 S2].
    split; eapply weaken_block; eassumption.
  - intros h ss _ IH hs hs2 I S. apply (proj2 (scoped_blk _ _ _ _)).
    eapply weaken_block; [exact IH|exact I|apply (proj1 (scoped_blk _ _ _ _) S)].
  - intros h init c hb body post until _ IH hs hs2 I S. apply (proj2 (scoped_loop _ _ _ _ _ _ _ _ _ _)).
    destruct (proj1 (scoped_loop _ _ _ _ _ _ _ _ _ _) S) as (N & S1 & _).
    split; [auto|]. split; [|exact Logic.I]. eapply weaken_block; [exact IH|apply C, I|exact S1].
  - intros h init c [hp ss] hb body post until P _ IHs _ IHb hs hs2 I S. apply (proj2 (scoped_loop _ _ _ _ _ _ _ _ _ _)).
    destruct (proj1 (scoped_loop _ _ _ _ _ _ _ _ _ _) S) as (N & S1 & S2).
    split; [auto|]. split; eapply weaken_block; try (apply C, I); eassumption.
  - intros; exact I.
  - intros x ss _ IHx _ IHs hs hs2 I [S1 S2]. split; eauto.
Qed.

Lemma scoped_app : forall hs (a b : list (st W)), scoped_all hs (a ++ b) <-> scoped_all hs a /\ scoped_all hs b.
Proof. intros hs. induction a as [|x a IH]; intros b; cbn; [tauto|]. rewrite IH. tauto. Qed.

Lemma scoped_init : forall hs init, @scoped_all W hs (init_st init).
Proof. intros hs [f|]; cbn; auto. Qed.

Lemma block_mono : forall (a b : list (st W)), (forall hs, scoped_all hs a -> scoped_all hs b) ->
  forall h hs, scoped_block hs h a -> scoped_block hs h b.
Proof. intros a b H [h|] hs S; cbn in *; [destruct S; auto|auto]. Qed.

Lemma lower_scoped :
  (forall x : st W, neat x -> forall y hs, lower x = Some y -> scoped hs x -> scoped hs y) /\
  (forall ss : list (st W), neat_all ss -> forall ss', lowers ss = Some ss' -> forall hs, scoped_all hs ss -> scoped_all hs ss').
Proof.
  apply neat_mut.
  - intros f y hs [= <-] S. exact S.
  - intros h y hs [= <-] S. exact S.
  - intros y hs [= <-] S. exact S.
  - intros c ha a hb b _ IHa _ IHb y hs E S. rewrite lower_if in E.
    destruct (lowers a) as [a'|]; [|discriminate E]. destruct (lowers b) as [b'|]; [|discriminate E].
    injection E as <-. destruct (proj1 (scoped_if _ _ _ _ _ _ _) S) as [S1 S2]. apply (proj2 (scoped_if _ _ _ _ _ _ _)).
    split; eapply block_mono; [exact (IHa _ eq_refl)|exact S1|exact (IHb _ eq_refl)|exact S2].
  - intros h ss _ IH y hs E S. rewrite lower_block in E. destruct (lowers ss) as [ss'|]; [|discriminate E].
    injection E as <-. apply (proj2 (scoped_blk _ _ _ _)). eapply block_mono; [exact (IH _ eq_refl)|exact S].
  - intros h init c hb body post until _ IH y hs E S. rewrite lower_lp in E.
    destruct (lowers body) as [body'|]; [|discriminate E]. injection E as <-.
    destruct (proj1 (scoped_loop _ _ _ _ _ _ _ _ _ _) S) as (N & S1 & _).
    apply (proj2 (scoped_loop _ _ _ _ _ _ _ _ _ _)). split; [exact N|]. split; [|exact I].
    eapply block_mono; [exact (IH _ eq_refl)|exact S1].
  - intros h init c [hp ss] hb body post until P NS IHs _ IHb y hs E S. rewrite lower_lp in E.
    destruct (lowers body) as [body'|]; [|discriminate E]. cbn [snd] in IHs, NS.
    destruct (lowers ss) as [ss'|]; [|discriminate E].
    pose proof (plain_label _ _ P) as [Q1 Q2]. cbn [fst snd] in Q1, Q2. rewrite Q2 in E. subst hp.
    destruct (proj1 (scoped_loop _ _ _ _ _ _ _ _ _ _) S) as (N & S1 & S2). cbn [scoped_block] in S2.
    assert (S3 : scoped_all hs ss').
    { apply (IHs _ eq_refl). apply (proj2 weaken ss NS hs (h :: hs)); [intros k K; right; exact K|exact S2]. }
    assert (S4 : forall u, scoped hs (Loop h None None None hb body' post u)).
    { intros u. apply (proj2 (scoped_loop _ _ _ _ _ _ _ _ _ _)). split; [exact N|]. split; [|exact I].
      eapply block_mono; [exact (IHb _ eq_refl)|exact S1]. }
    unfold lower_loop in E. destruct c as [c|].
    + destruct until; [discriminate E|]. injection E as <-. apply (proj2 (scoped_blk _ _ _ _)). cbn [scoped_block].
      apply scoped_app. split; [apply scoped_init|]. split; [|exact I].
      apply (proj2 (scoped_if _ _ _ _ _ _ _)). split; [|exact I].
      cbn [scoped_block]. apply scoped_app. split; [exact S3|]. split; [apply S4|exact I].
    + injection E as <-. apply (proj2 (scoped_blk _ _ _ _)). cbn [scoped_block].
      apply scoped_app. split; [apply scoped_init|]. apply scoped_app. split; [exact S3|]. split; [apply S4|exact I].
  - intros ss' [= <-] hs S. exact S.
  - intros x ss _ IHx _ IHs ss' E hs [S1 S2]. cbn [lowers] in E.
    destruct (lower x) as [x'|]; [|discriminate E]. destruct (lowers ss) as [ss2|]; [|discriminate E].
    injection E as <-. split; [apply (IHx _ _ eq_refl S1)|apply (IHs _ eq_refl _ S2)].
Qed.

End P.
