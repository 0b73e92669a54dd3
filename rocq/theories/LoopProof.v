(** * C75: proofs about loops and jumps *)

From Coq Require Import List Arith Bool Lia.
From Verif Require Import LoopSpec LoopModel.
Import ListNotations.

Section P.

Variable W : Type.

(** ** Equations *)

Lemma gen_if : forall e c ha a hb b n,
  gen e (@If W c ha a hb b) n =
  match gen_block e ha a n with
  | None => None
  | Some (ca, la, n) =>
      match gen_block e hb b n with
      | None => None
      | Some (cb, lb, n) => Some (CIf c ca la cb lb, n)
      end
  end.
Proof. reflexivity. Qed.

Lemma gen_blk : forall e h ss n,
  gen e (@Block W h ss) n =
  match gen_block e h ss n with
  | None => None
  | Some (code, l, n) => Some (CBlock code l, n)
  end.
Proof. reflexivity. Qed.

Lemma gen_loop : forall e h init c pre hb body post until n,
  gen e (@Loop W h init c pre hb body post until) n =
  match pre, gen_block (Env (Some h) hb ((Some h, n) :: blocks e)) hb body (S n) with
  | None, Some (code, lb, m) =>
      match until with
      | None => Some (CFor init c post code lb (label n code), m)
      | Some u =>
          match init, c with
          | None, None => Some (CDo code lb post u (label n code), m)
          | _, _ => None
          end
      end
  | _, _ => None
  end.
Proof. reflexivity. Qed.

Lemma scoped_if : forall hs c ha a hb b,
  scoped hs (@If W c ha a hb b) <-> scoped_block hs ha a /\ scoped_block hs hb b.
Proof. reflexivity. Qed.

Lemma scoped_blk : forall hs h ss, scoped hs (@Block W h ss) <-> scoped_block hs h ss.
Proof. reflexivity. Qed.

Lemma scoped_loop : forall hs h init c pre hb body post until,
  scoped hs (@Loop W h init c pre hb body post until) <->
  ~ In h hs /\ scoped_block (h :: hs) hb body /\
  match pre with Some (hp, ss) => scoped_block (h :: hs) hp ss | None => True end.
Proof. intros. destruct pre as [[hp ss]|]; reflexivity. Qed.

Lemma cexec_all_cons : forall fuel (x : cst W) ss w,
  cexec_all (S fuel) (x :: ss) w =
  match cexec fuel x w with Some (CDone, w1) => cexec_all fuel ss w1 | r => r end.
Proof. reflexivity. Qed.

Lemma exec_all_cons : forall fuel (x : st W) ss w,
  exec_all (S fuel) (x :: ss) w =
  match exec fuel x w with Some (Done, w1) => exec_all fuel ss w1 | r => r end.
Proof. reflexivity. Qed.

Lemma crounds_S : forall fuel c body lb post until w,
  crounds (S fuel) c body lb post until w =
      let (w1, t) := test c w in
      if t then
        match cleaves lb (cexec_all fuel body w1) with
        | Some (CDone, w3) | Some (CCnt, w3) =>
            let (w4, again) := test until (act post w3) in
            if again then crounds fuel c body lb post until w4 else Some (CDone, w4)
        | Some (CBrk, w3) => Some (CDone, w3)
        | r => r : option (cout * W)
        end
      else Some (CDone, w1).
Proof. reflexivity. Qed.

Lemma rounds_S : forall fuel c hb body post until w,
  rounds (S fuel) c None hb body post until w =
      let (w1, t) := test c w in
      if t then
            match leaves hb (exec_all fuel body w1) with
            | Some (Done, w3) =>
                let (w4, again) := test until (act post w3) in
                if again then rounds fuel c None hb body post until w4 else Some (Done, w4)
            | r => r : option (outcome * W)
            end
      else Some (Done, w1).
Proof. reflexivity. Qed.

(** ** A goto is seen *)

Lemma goto_used : forall fuel,
  (forall (x : cst W) w m w', cexec fuel x w = Some (CGo m, w') -> uses m x = true) /\
  (forall (ss : list (cst W)) w m w', cexec_all fuel ss w = Some (CGo m, w') -> existsb (uses m) ss = true) /\
  (forall c body lb post until (w : W) m w', crounds fuel c body lb post until w = Some (CGo m, w') ->
    existsb (uses m) body = true).
Proof.
  induction fuel as [|fuel (IH1 & IH2 & IH3)]; [repeat split; discriminate|].
  assert (L : forall l ss (w : W) m w', cleaves l (cexec_all fuel ss w) = Some (CGo m, w') -> existsb (uses m) ss = true).
  { intros l ss w m w' E. destruct (cexec_all fuel ss w) as [[o w1]|] eqn:F; [|discriminate].
    cbn in E. injection E as E <-. apply (IH2 ss w m w1). rewrite F. f_equal. f_equal.
    destruct l as [l|]; cbn in E; [|exact E]. destruct o; try discriminate.
    destruct (Nat.eqb n l); [discriminate|exact E]. }
  assert (L2 : forall l c body lb post until (w : W) m w',
    cleaves l (crounds fuel c body lb post until w) = Some (CGo m, w') -> existsb (uses m) body = true).
  { intros l c body lb post until w m w' E.
    destruct (crounds fuel c body lb post until w) as [[o w1]|] eqn:F; [|discriminate].
    cbn in E. injection E as E <-. apply (IH3 c body lb post until w m w1). rewrite F. f_equal. f_equal.
    destruct l as [l|]; cbn in E; [|exact E]. destruct o; try discriminate.
    destruct (Nat.eqb n l); [discriminate|exact E]. }
  split; [|split].
  - intros x w m w' E. destruct x; try discriminate.
    + cbn in E. injection E as <- <-. cbn. apply Nat.eqb_refl.
    + change ((let (w1, t) := c w in if t then cleaves la (cexec_all fuel a w1) else cleaves lb (cexec_all fuel b w1))
              = Some (CGo m, w')) in E.
      cbn [uses]. destruct (c w) as [w1 [|]]; apply L in E; rewrite E; [reflexivity|apply orb_true_r].
    + apply (L _ _ _ _ _ E).
    + apply (L2 _ _ _ _ _ _ _ _ _ E).
    + apply (L2 _ _ _ _ _ _ _ _ _ E).
  - intros ss w m w' E. destruct ss as [|x ss]; [discriminate|]. rewrite cexec_all_cons in E. cbn [existsb].
    destruct (cexec fuel x w) as [[o w1]|] eqn:F; [|discriminate E]. destruct o; try discriminate E.
    + rewrite (IH2 _ _ _ _ E). apply orb_true_r.
    + injection E as -> ->. rewrite (IH1 _ _ _ _ F). reflexivity.
  - intros c body lb post until w m w' E. rewrite crounds_S in E.
    destruct (test c w) as [w1 [|]]; [|discriminate E].
    destruct (cleaves lb (cexec_all fuel body w1)) as [[o w3]|] eqn:F; [|discriminate E].
    destruct o; try discriminate E.
    + destruct (test until (act post w3)) as [w4 [|]]; [|discriminate E]. apply (IH3 _ _ _ _ _ _ _ _ E).
    + destruct (test until (act post w3)) as [w4 [|]]; [|discriminate E]. apply (IH3 _ _ _ _ _ _ _ _ E).
    + injection E as -> ->. apply (L _ _ _ _ _ F).
Qed.

(** ** The simulation *)

Definition rel (e : env) (o : outcome) (c : cout) : Prop :=
  match o, c with
  | Done, CDone => True
  | Returned, CRet => True
  | To h, CBrk => brk e = Some h
  | To h, CCnt => cnt e = Some h
  | To h, CGo m => find_block h (blocks e) = Some m
  | _, _ => False
  end.

Definition agree (R : outcome -> cout -> Prop) (r : option (outcome * W)) (s : option (cout * W)) : Prop :=
  match r, s with
  | Some (o, w1), Some (c, w2) => w1 = w2 /\ R o c
  | None, None => True
  | _, _ => False
  end.

Record ok (e : env) (n : nat) (hs : list nat) : Prop := Ok {
  ok_brk : forall h, brk e = Some h -> In h hs;
  ok_cnt : forall h, cnt e = Some h -> In h hs;
  ok_name : forall h m, find_block h (blocks e) = Some m -> m < n }.

Lemma is_true : forall h o, is h o = true <-> o = Some h.
Proof.
  intros h [k|]; cbn; [|split; discriminate]. rewrite Nat.eqb_eq. split; congruence.
Qed.

Lemma gen_mono : forall (x : st W) e n code m, gen e x n = Some (code, m) -> n <= m.
Proof.
  fix IH 1. intros x.
  assert (A : forall ss, (forall y, In y ss -> forall e n code m, gen e y n = Some (code, m) -> n <= m) ->
    forall e n code m, @gens W e ss n = Some (code, m) -> n <= m).
  { induction ss as [|y ss IHss]; intros H e n code m E; cbn in E.
    - injection E as _ <-. lia.
    - destruct (gen e y n) as [[c k]|] eqn:F; [|discriminate E].
      destruct (gens e ss k) as [[cs k2]|] eqn:G; [|discriminate E]. injection E as _ <-.
      apply H in F; [|left; reflexivity]. apply IHss in G; [lia|]. intros z Iz. apply H. right. exact Iz. }
  assert (B : forall ss, (forall y, In y ss -> forall e n code m, gen e y n = Some (code, m) -> n <= m) ->
    forall e h n code l m, @gen_block W e h ss n = Some (code, l, m) -> n <= m).
  { intros ss H e h n code l m E. unfold gen_block in E.
    destruct (gens (push (h, n) e) ss (S n)) as [[cs k]|] eqn:F; [|discriminate E].
    injection E as _ _ <-. apply (A ss H) in F. lia. }
  assert (K : forall ss : list (st W), (forall y, In y ss -> forall e n code m, gen e y n = Some (code, m) -> n <= m) ->
    forall e h n code l m, @gen_block W e h ss n = Some (code, l, m) -> n <= m) by exact B.
  destruct x; intros e n code m E.
  - cbn in E. injection E as _ <-. lia.
  - cbn in E. destruct (find_block h (blocks e)); [|discriminate E]. injection E as _ <-. lia.
  - cbn in E. injection E as _ <-. lia.
  - rewrite gen_if in E. destruct (gen_block e ha a n) as [[[ca la] n1]|] eqn:F; [|discriminate E].
    destruct (gen_block e hb b n1) as [[[cb lb] n2]|] eqn:G; [|discriminate E]. injection E as _ <-.
    apply B in F; [apply B in G; [lia|]|].
    + clear F G A B K. induction b as [|y b IHb]; intros z Iz; [destruct Iz|].
      destruct Iz as [<-|Iz]; [apply IH|apply (IHb z Iz)].
    + clear F G A B K. induction a as [|y a IHb]; intros z Iz; [destruct Iz|].
      destruct Iz as [<-|Iz]; [apply IH|apply (IHb z Iz)].
  - rewrite gen_blk in E. destruct (gen_block e h ss n) as [[[ca la] n1]|] eqn:F; [|discriminate E].
    injection E as _ <-. apply B in F; [lia|].
    clear F A B K. induction ss as [|y b IHb]; intros z Iz; [destruct Iz|].
    destruct Iz as [<-|Iz]; [apply IH|apply (IHb z Iz)].
  - rewrite gen_loop in E. destruct pre; [discriminate E|].
    destruct (gen_block _ hb body (S n)) as [[[ca la] n1]|] eqn:F; [|discriminate E].
    assert (Q : n1 = m).
    { destruct until; [destruct init, c|]; try discriminate E; injection E as _ <-; reflexivity. }
    subst n1. apply B in F; [lia|].
    clear E F A B K. induction body as [|y b IHb]; intros z Iz; [destruct Iz|].
    destruct Iz as [<-|Iz]; [apply IH|apply (IHb z Iz)].
Qed.

Lemma gen_block_inv : forall e h (ss : list (st W)) n code l m,
  gen_block e h ss n = Some (code, l, m) ->
  gens (push (h, n) e) ss (S n) = Some (code, m) /\ l = label n code.
Proof.
  intros e h ss n code l m E. unfold gen_block in E.
  destruct (gens (push (h, n) e) ss (S n)) as [[cs k]|]; [|discriminate E].
  injection E as <- <- <-. auto.
Qed.

Lemma gens_mono : forall (ss : list (st W)) e n code m, gens e ss n = Some (code, m) -> n <= m.
Proof.
  induction ss as [|y ss IH]; intros e n code m E; cbn in E.
  - injection E as _ <-. lia.
  - destruct (gen e y n) as [[c k]|] eqn:F; [|discriminate E].
    destruct (gens e ss k) as [[cs k2]|] eqn:G; [|discriminate E]. injection E as _ <-.
    apply gen_mono in F. apply IH in G. lia.
Qed.

Lemma ok_le : forall e n m hs, n <= m -> ok e n hs -> ok e m hs.
Proof. intros e n m hs L [A B C]. constructor; auto. intros h k F. apply C in F. lia. Qed.

Definition names (h : option nat) (hs : list nat) : list nat := match h with Some h => h :: hs | None => hs end.

Lemma scoped_block_inv : forall hs h (ss : list (st W)), scoped_block hs h ss ->
  (forall k, h = Some k -> ~ In k hs) /\ scoped_all (names h hs) ss.
Proof.
  intros hs [h|] ss S; cbn in *; [|split; [discriminate|exact S]].
  destruct S as [N S]. split; [|exact S]. intros k [= <-]. exact N.
Qed.

Lemma in_names : forall h hs k, In k hs -> In k (names h hs).
Proof. intros [h|] hs k I; [right|]; exact I. Qed.

(** entering a block *)
Lemma ok_push : forall e n hs h, ok e n hs -> ok (push (h, n) e) (S n) (names h hs).
Proof.
  intros e n hs h [A B C]. constructor; cbn.
  - intros k E. apply in_names, A, E.
  - intros k E. apply in_names, B, E.
  - intros k m E. destruct (is k h); [injection E as <-; lia|]. apply C in E. lia.
Qed.

(** leaving one *)
Lemma leave_block : forall e n hs h code fuel w r,
  ok e n hs -> (forall k, h = Some k -> ~ In k hs) ->
  agree (rel (push (h, n) e)) r (cexec_all fuel code w) ->
  agree (rel e) (leaves h r) (cleaves (label n code) (cexec_all fuel code w)).
Proof.
  intros e n hs h code fuel w r O N A.
  destruct (cexec_all fuel code w) as [[c w2]|] eqn:F; destruct r as [[o w1]|]; cbn in A; try contradiction; [|exact I].
  destruct A as [<- R]. cbn [leaves cleaves agree]. split; [reflexivity|].
  destruct o as [|k|]; destruct c as [| | |m|]; cbn [rel] in R; try contradiction.
  - destruct h; destruct (label n code); exact I.
  - assert (Q : h <> Some k). { intros ->. apply (N k eq_refl), (ok_brk _ _ _ O k R). }
    replace (ccaught (label n code) CBrk) with CBrk by (destruct (label n code); reflexivity).
    replace (caught h (To k)) with (To k); [exact R|].
    destruct h as [h|]; [|reflexivity]. cbn. destruct (Nat.eqb_spec k h); [congruence|reflexivity].
  - assert (Q : h <> Some k). { intros ->. apply (N k eq_refl), (ok_cnt _ _ _ O k R). }
    replace (ccaught (label n code) CCnt) with CCnt by (destruct (label n code); reflexivity).
    replace (caught h (To k)) with (To k); [exact R|].
    destruct h as [h|]; [|reflexivity]. cbn. destruct (Nat.eqb_spec k h); [congruence|reflexivity].
  - cbn [push blocks find_block] in R. destruct (is k h) eqn:E.
    + apply is_true in E. subst h. injection R as <-.
      unfold label. rewrite (proj1 (proj2 (goto_used fuel)) _ _ _ _ F). cbn. rewrite !Nat.eqb_refl. exact I.
    + assert (L : m < n) by (apply (ok_name _ _ _ O k m R)).
      assert (Q : caught h (To k) = To k).
      { destruct h as [h|]; [|reflexivity]. cbn in *. rewrite E. reflexivity. }
      rewrite Q. assert (Q2 : ccaught (label n code) (CGo m) = CGo m).
      { unfold label. destruct (existsb (uses n) code); [|reflexivity]. cbn.
        destruct (Nat.eqb_spec m n); [lia|reflexivity]. }
      rewrite Q2. exact R.
  - destruct h; destruct (label n code); exact I.
Qed.

Definition loop_env (e : env) (h : nat) (hb : option nat) (n : nat) : env := Env (Some h) hb ((Some h, n) :: blocks e).

Lemma ok_body : forall e n hs h hb, ok e n hs ->
  ok (push (hb, S n) (loop_env e h hb n)) (S (S n)) (names hb (h :: hs)).
Proof.
  intros e n hs h hb [A B C]. constructor; cbn.
  - intros k [= <-]. apply in_names. left. reflexivity.
  - intros k ->. left. reflexivity.
  - intros k m E. destruct (is k hb); [injection E as <-; lia|].
    destruct (Nat.eqb k h); [injection E as <-; lia|]. apply C in E. lia.
Qed.

(** what comes out of the rounds: no [break] or [continue] *)
Definition loop_rel (e : env) (h n : nat) (o : outcome) (c : cout) : Prop :=
  match o, c with
  | Done, CDone => True
  | Returned, CRet => True
  | To k, CDone => k = h
  | To k, CGo m => find_block k ((Some h, n) :: blocks e) = Some m
  | _, _ => False
  end.

Lemma leave_body : forall e n hs h hb code fuel w r,
  (forall k, hb = Some k -> ~ In k (h :: hs)) -> ok e n hs ->
  agree (rel (push (hb, S n) (loop_env e h hb n))) r (cexec_all fuel code w) ->
  match leaves hb r, cleaves (label (S n) code) (cexec_all fuel code w) with
  | Some (Done, w1), Some (CDone, w2) => w1 = w2
  | Some (Done, w1), Some (CCnt, w2) => w1 = w2
  | Some (To k, w1), Some (CBrk, w2) => w1 = w2 /\ k = h
  | Some (To k, w1), Some (CGo m, w2) => w1 = w2 /\ find_block k ((Some h, n) :: blocks e) = Some m
  | Some (Returned, w1), Some (CRet, w2) => w1 = w2
  | None, None => True
  | _, _ => False
  end.
Proof.
  intros e n hs h hb code fuel w r N O A.
  destruct (cexec_all fuel code w) as [[c w2]|] eqn:F; destruct r as [[o w1]|]; cbn in A; try contradiction; [|exact I].
  destruct A as [<- R]. cbn [leaves cleaves].
  destruct o as [|k|]; destruct c as [| | |m|]; cbn [rel] in R; try contradiction.
  - destruct hb; destruct (label (S n) code); reflexivity.
  - cbn in R. injection R as ->.
    replace (ccaught (label (S n) code) CBrk) with CBrk by (destruct (label (S n) code); reflexivity).
    replace (caught hb (To k)) with (To k); [auto|].
    destruct hb as [b|]; [|reflexivity]. cbn. destruct (Nat.eqb_spec k b) as [->|]; [|reflexivity].
    exfalso. apply (N b eq_refl). left. reflexivity.
  - cbn in R. subst hb. cbn [caught]. rewrite Nat.eqb_refl.
    replace (ccaught (label (S n) code) CCnt) with CCnt by (destruct (label (S n) code); reflexivity). reflexivity.
  - cbn [push loop_env blocks find_block] in R. destruct (is k hb) eqn:E.
    + apply is_true in E. subst hb. injection R as <-. unfold label.
      rewrite (proj1 (proj2 (goto_used fuel)) _ _ _ _ F). cbn. rewrite !Nat.eqb_refl. reflexivity.
    + assert (Q : caught hb (To k) = To k).
      { destruct hb as [b|]; [|reflexivity]. cbn in *. rewrite E. reflexivity. }
      rewrite Q. change (find_block k ((Some h, n) :: blocks e) = Some m) in R.
      assert (L : m <> S n).
      { cbn in R. destruct (Nat.eqb k h); [injection R as <-; lia|]. apply (ok_name _ _ _ O) in R. lia. }
      assert (Q2 : ccaught (label (S n) code) (CGo m) = CGo m).
      { unfold label. destruct (existsb (uses (S n)) code); [|reflexivity]. cbn.
        destruct (Nat.eqb_spec m (S n)); [congruence|reflexivity]. }
      rewrite Q2. auto.
  - destruct hb; destruct (label (S n) code); reflexivity.
Qed.

Lemma leave_loop : forall e n hs h code fuel c lb post until w r,
  ok e n hs ->
  agree (loop_rel e h n) r (crounds fuel c code lb post until w) ->
  agree (rel e) (leaves (Some h) r) (cleaves (label n code) (crounds fuel c code lb post until w)).
Proof.
  intros e n hs h code fuel c lb post until w r O A.
  destruct (crounds fuel c code lb post until w) as [[c2 w2]|] eqn:F; destruct r as [[o w1]|]; cbn in A;
    try contradiction; [|exact I].
  destruct A as [<- R]. cbn [leaves cleaves agree]. split; [reflexivity|].
  destruct o as [|k|]; destruct c2 as [| | |m|]; cbn [loop_rel] in R; try contradiction.
  - destruct (label n code); exact I.
  - subst k. cbn. rewrite Nat.eqb_refl. destruct (label n code); exact I.
  - cbn [find_block is] in R. cbn [caught]. destruct (Nat.eqb k h).
    + injection R as <-. unfold label. rewrite (proj2 (proj2 (goto_used fuel)) _ _ _ _ _ _ _ _ F).
      cbn. rewrite Nat.eqb_refl. exact I.
    + assert (L : m < n) by (apply (ok_name _ _ _ O k m R)).
      assert (Q2 : ccaught (label n code) (CGo m) = CGo m).
      { unfold label. destruct (existsb (uses n) code); [|reflexivity]. cbn.
        destruct (Nat.eqb_spec m n); [lia|reflexivity]. }
      rewrite Q2. exact R.
  - destruct (label n code); exact I.
Qed.

Lemma simulation : forall fuel,
  (forall x e n code m hs (w : W), gen e x n = Some (code, m) -> ok e n hs -> scoped hs x ->
    agree (rel e) (exec fuel x w) (cexec fuel code w)) /\
  (forall ss e n code m hs (w : W), gens e ss n = Some (code, m) -> ok e n hs -> scoped_all hs ss ->
    agree (rel e) (exec_all fuel ss w) (cexec_all fuel code w)) /\
  (forall e n h hb body code m hs c post until (w : W),
    gens (push (hb, S n) (loop_env e h hb n)) body (S (S n)) = Some (code, m) ->
    ok e n hs -> (forall k, hb = Some k -> ~ In k (h :: hs)) -> scoped_all (names hb (h :: hs)) body ->
    agree (loop_rel e h n) (rounds fuel c None hb body post until w)
      (crounds fuel c code (label (S n) code) post until w)).
Proof.
  induction fuel as [|fuel (IH1 & IH2 & IH3)].
  { split; [|split]; intros; exact I. }
  assert (B : forall e h ss n code l m hs (w : W), gen_block e h ss n = Some (code, l, m) ->
    ok e n hs -> scoped_block hs h ss ->
    agree (rel e) (leaves h (exec_all fuel ss w)) (cleaves l (cexec_all fuel code w))).
  { intros e h ss n code l m hs w E O S. apply gen_block_inv in E. destruct E as [E ->].
    apply scoped_block_inv in S. destruct S as [N S].
    eapply leave_block; [exact O|exact N|]. eapply IH2; [exact E|apply ok_push; exact O|exact S]. }
  split; [|split].
  - intros x e n code m hs w E O S. destruct x.
    + cbn in E. injection E as <- _. cbn. auto.
    + cbn [gen] in E. destruct (find_block h (blocks e)) as [k|] eqn:F; [|discriminate E]. injection E as <- _.
      destruct (is h (brk e)) eqn:Eb; [apply is_true in Eb; cbn; auto|].
      destruct (is h (cnt e)) eqn:Ec; [apply is_true in Ec; cbn; auto|]. cbn. auto.
    + cbn in E. injection E as <- _. cbn. auto.
    + rewrite gen_if in E. destruct (gen_block e ha a n) as [[[ca la] n1]|] eqn:F; [|discriminate E].
      destruct (gen_block e hb b n1) as [[[cb lb] n2]|] eqn:G; [|discriminate E]. injection E as <- _.
      destruct (proj1 (scoped_if _ _ _ _ _ _) S) as [S1 S2].
      assert (L : n <= n1). { apply gen_block_inv in F. destruct F as [F _]. apply gens_mono in F. lia. }
      change (agree (rel e)
        (let (w1, t) := c w in if t then leaves ha (exec_all fuel a w1) else leaves hb (exec_all fuel b w1))
        (let (w1, t) := c w in if t then cleaves la (cexec_all fuel ca w1) else cleaves lb (cexec_all fuel cb w1))).
      destruct (c w) as [w1 [|]].
      * eapply B; eassumption.
      * eapply B; [exact G|apply (ok_le _ n); eassumption|exact S2].
    + rewrite gen_blk in E. destruct (gen_block e h ss n) as [[[ca la] n1]|] eqn:F; [|discriminate E].
      injection E as <- _. 
      apply (B e h ss n ca la n1 hs w F O (proj1 (scoped_blk _ _ _) S)).
    + rewrite gen_loop in E. destruct pre; [discriminate E|].
      destruct (gen_block _ hb body (Datatypes.S n)) as [[[ca la] n1]|] eqn:F; [|discriminate E].
      apply gen_block_inv in F. destruct F as [F ->].
      destruct (proj1 (scoped_loop _ _ _ _ _ _ _ _ _) S) as (N & S3 & _).
      apply scoped_block_inv in S3. destruct S3 as [N2 S3].
      assert (A : forall w0, agree (rel e) (leaves (Some h) (rounds fuel c None hb body post until w0))
                  (cleaves (label n ca) (crounds fuel c ca (label (Datatypes.S n) ca) post until w0))).
      { intros w0. eapply leave_loop; [exact O|]. eapply IH3; [exact F|exact O|exact N2|exact S3]. }
      destruct until as [u|].
      * destruct init; [discriminate E|]. destruct c; [discriminate E|]. injection E as <- _. apply (A w).
      * injection E as <- _. apply (A (act init w)).
  - intros ss e n code m hs w E O S. destruct ss as [|x ss].
    + cbn in E. injection E as <- _. cbn. auto.
    + cbn [gens] in E. destruct (gen e x n) as [[c k]|] eqn:F; [|discriminate E].
      destruct (gens e ss k) as [[cs k2]|] eqn:G; [|discriminate E]. injection E as <- _.
      destruct S as [S1 S2]. rewrite exec_all_cons, cexec_all_cons.
      pose proof (IH1 x e n c k hs w F O S1) as A.
      destruct (exec fuel x w) as [[o w1]|]; destruct (cexec fuel c w) as [[c2 w2]|]; cbn in A;
        try contradiction; [|exact I].
      destruct A as [<- R]. destruct o as [|h|]; destruct c2; cbn in R; try contradiction; try (cbn; auto; fail).
      eapply IH2; [exact G| |exact S2]. apply (ok_le _ n); [apply gen_mono in F; exact F|exact O].
  - intros e n h hb body code m hs c post until w E O N S. rewrite rounds_S, crounds_S.
    destruct (test c w) as [w1 [|]]; [|cbn; auto].
    pose proof (leave_body e n hs h hb code fuel w1 (exec_all fuel body w1) N O
      (IH2 _ _ _ _ _ _ w1 E (ok_body e n hs h hb O) S)) as A.
    destruct (leaves hb (exec_all fuel body w1)) as [[o w3]|];
      destruct (cleaves (label (Datatypes.S n) code) (cexec_all fuel code w1)) as [[c2 w4]|];
      try contradiction; try (destruct o; contradiction); [|exact I].
    destruct o as [|k|]; destruct c2; try contradiction.
    + subst w4. destruct (test until (act post w3)) as [w4 [|]]; [|cbn; auto].
      eapply IH3; eassumption.
    + subst w4. destruct (test until (act post w3)) as [w4 [|]]; [|cbn; auto].
      eapply IH3; eassumption.
    + destruct A as [<- ->]. cbn. auto.
    + destruct A as [<- A]. cbn. auto.
    + subst w4. cbn. auto.
Qed.

Definition out (o : outcome) : cout := match o with Done => CDone | Returned => CRet | To h => CGo h end.

Lemma fn_ok : forall (ss : list (st W)) code, gen_fn ss = Some code -> scoped_all [] ss ->
  forall fuel w,
    (exec_all fuel ss w = None /\ cexec_all fuel code w = None) \/
    (exists w', exec_all fuel ss w = Some (Done, w') /\ cexec_all fuel code w = Some (CDone, w')) \/
    (exists w', exec_all fuel ss w = Some (Returned, w') /\ cexec_all fuel code w = Some (CRet, w')).
Proof.
  intros ss code E S fuel w. unfold gen_fn in E.
  destruct (gens (Env None None []) ss 0) as [[cs k]|] eqn:F; [|discriminate E]. injection E as <-.
  assert (O : ok (Env None None []) 0 []) by (constructor; discriminate).
  pose proof (proj1 (proj2 (simulation fuel)) ss _ _ _ _ _ w F O S) as A.
  destruct (exec_all fuel ss w) as [[o w1]|]; destruct (cexec_all fuel cs w) as [[c w2]|]; cbn in A;
    try contradiction; [|left; auto].
  destruct A as [<- R]. destruct o; destruct c; cbn in R; try contradiction; try discriminate;
    right; [left|right]; eauto.
Qed.

End P.
