(** * C75: loops run as written, and break, continue and jumps to labels reach
    what they name. *)

From Coq Require Import List Arith Bool Lia.
From Verif Require Import LoopSpec LoopModel LoopProof.
Import ListNotations.

(** The C++ for a function body does what the body says, step by step: it ends
    when the body ends, the same way and in the same state, and goes on when the
    body goes on; no jump is left over. *)
Theorem C75_jumps : forall (W : Type) (ss : list (st W)) code,
  gen_fn ss = Some code -> scoped_all [] ss ->
  forall fuel w,
    (exec_all fuel ss w = None /\ cexec_all fuel code w = None) \/
    (exists w', exec_all fuel ss w = Some (Done, w') /\ cexec_all fuel code w = Some (CDone, w')) \/
    (exists w', exec_all fuel ss w = Some (Returned, w') /\ cexec_all fuel code w = Some (CRet, w')).
Proof. intros W ss code E S fuel w. exact (fn_ok W ss code E S fuel w). Qed.
Print Assumptions C75_jumps.

(** Code is generated if jumps name something around them, nothing is to be done
    on entry to a loop, and a loop with a test at its end has no other test and
    no initial statement. *)
Local Definition inside (hs : list nat) (h : option nat) : list nat := match h with Some h => h :: hs | None => hs end.

Inductive fine {W : Type} : list nat -> st W -> Prop :=
| f_act : forall hs f, fine hs (Act f)
| f_return : forall hs, fine hs Return
| f_jump : forall hs h, In h hs -> fine hs (Jump h)
| f_if : forall hs c ha a hb b, fine_all (inside hs ha) a -> fine_all (inside hs hb) b -> fine hs (If c ha a hb b)
| f_block : forall hs h ss, fine_all (inside hs h) ss -> fine hs (Block h ss)
| f_for : forall hs h init c hb body post, fine_all (inside (h :: hs) hb) body ->
    fine hs (Loop h init c None hb body post None)
| f_do : forall hs h hb body post u, fine_all (inside (h :: hs) hb) body ->
    fine hs (Loop h None None None hb body post (Some u))
with fine_all {W : Type} : list nat -> list (st W) -> Prop :=
| f_nil : forall hs, fine_all hs []
| f_cons : forall hs x ss, fine hs x -> fine_all hs ss -> fine_all hs (x :: ss).

Scheme fine_ind2 := Minimality for fine Sort Prop
  with fine_all_ind2 := Minimality for fine_all Sort Prop.
Combined Scheme fine_mut from fine_ind2, fine_all_ind2.

Local Definition knows (hs : list nat) (e : env) : Prop := forall h, In h hs -> find_block h (blocks e) <> None.

Local Lemma knows_push : forall hs e h n, knows hs e -> knows (inside hs h) (push (h, n) e).
Proof.
  intros hs e h n K k I. cbn. destruct (is k h) eqn:E; [discriminate|]. apply K.
  destruct h as [h|]; [|exact I]. destruct I as [<-|I]; [|exact I]. cbn in E. rewrite Nat.eqb_refl in E. discriminate.
Qed.

Local Lemma block_some : forall W e h (ss : list (st W)) n hs,
  (forall e n, knows (inside hs h) e -> gens e ss n <> None) -> knows hs e -> gen_block e h ss n <> None.
Proof.
  intros W e h ss n hs H K. unfold gen_block.
  specialize (H (push (h, n) e) (S n) (knows_push hs e h n K)).
  destruct (gens (push (h, n) e) ss (S n)) as [[cs m]|]; [discriminate|contradiction].
Qed.

Local Lemma fine_gen : forall W,
  (forall hs (x : st W), fine hs x -> forall e n, knows hs e -> gen e x n <> None) /\
  (forall hs (ss : list (st W)), fine_all hs ss -> forall e n, knows hs e -> gens e ss n <> None).
Proof.
  intros W. apply fine_mut.
  - intros hs f e n _. discriminate.
  - intros hs e n _. discriminate.
  - intros hs h I e n K. cbn. specialize (K h I). destruct (find_block h (blocks e)); [discriminate|contradiction].
  - intros hs c ha a hb b _ IHa _ IHb e n K. rewrite gen_if.
    pose proof (block_some W e ha a n hs IHa K) as A.
    destruct (gen_block e ha a n) as [[[ca la] n1]|]; [|contradiction].
    pose proof (block_some W e hb b n1 hs IHb K) as B.
    destruct (gen_block e hb b n1) as [[[cb lb] n2]|]; [discriminate|contradiction].
  - intros hs h ss _ IH e n K. rewrite gen_blk. pose proof (block_some W e h ss n hs IH K) as A.
    destruct (gen_block e h ss n) as [[[ca la] n1]|]; [discriminate|contradiction].
  - intros hs h init c hb body post _ IH e n K. rewrite gen_loop.
    assert (K2 : knows (h :: hs) (Env (Some h) hb ((Some h, n) :: blocks e))).
    { intros k I. cbn. destruct (Nat.eqb_spec k h); [discriminate|]. apply K. destruct I as [->|I]; [contradiction|exact I]. }
    pose proof (block_some W _ hb body (S n) (h :: hs) IH K2) as A.
    destruct (gen_block _ hb body (S n)) as [[[ca la] n1]|]; [discriminate|contradiction].
  - intros hs h hb body post u _ IH e n K. rewrite gen_loop.
    assert (K2 : knows (h :: hs) (Env (Some h) hb ((Some h, n) :: blocks e))).
    { intros k I. cbn. destruct (Nat.eqb_spec k h); [discriminate|]. apply K. destruct I as [->|I]; [contradiction|exact I]. }
    pose proof (block_some W _ hb body (S n) (h :: hs) IH K2) as A.
    destruct (gen_block _ hb body (S n)) as [[[ca la] n1]|]; [discriminate|contradiction].
  - intros hs e n _. discriminate.
  - intros hs x ss _ IHx _ IHs e n K. cbn [gens]. specialize (IHx e n K).
    destruct (gen e x n) as [[c m]|]; [|contradiction]. specialize (IHs e m K).
    destruct (gens e ss m) as [[cs m2]|]; [discriminate|contradiction].
Qed.

Theorem C75_generated : forall (W : Type) (ss : list (st W)), fine_all [] ss -> exists code, gen_fn ss = Some code.
Proof.
  intros W ss F. pose proof (proj2 (fine_gen W) [] ss F (Env None None []) 0 (fun h I => match I with end)) as G.
  unfold gen_fn. destruct (gens (Env None None []) ss 0) as [[cs m]|]; [eauto|contradiction].
Qed.
Print Assumptions C75_generated.

(** ** An example: [break], [continue] and both out of a loop in a loop *)

Local Definition add (x : nat) : st (list nat) := Act (fun w => w ++ [x]).
Local Definition len (n : nat) : cond (list nat) := fun w => (w, Nat.eqb (length w) n).
Local Definition when (n : nat) (x : st (list nat)) : st (list nat) := If (len n) None [x] None [].

Local Definition prog : list (st (list nat)) :=
  [Loop 1 (Some (fun w => w ++ [100])) None None (Some 2)
     [add 10;
      Loop 3 None (Some (fun w => (w, Nat.ltb (length w) 40))) None (Some 4)
        [add 20; when 3 (Jump 4); add 30; when 6 (Jump 2); when 10 (Jump 3); when 15 (Jump 1); add 40]
        (Some (fun w => w ++ [50])) None;
      add 60]
     (Some (fun w => w ++ [70])) None; add 80].

Example C75_ex_scoped : fine_all [] prog /\ scoped_all [] prog.
Proof.
  split.
  - repeat first [apply f_nil | apply f_cons | apply f_act | apply f_for | apply f_if
                 | apply f_jump; cbn; tauto].
  - cbn. repeat split; intuition discriminate.
Qed.

Example C75_ex_runs : exists w, exec_all 90 prog [] = Some (Done, w) /\
  (exists code, gen_fn prog = Some code /\ cexec_all 90 code [] = Some (CDone, w)) /\
  existsb (Nat.eqb 50) w = true /\ existsb (Nat.eqb 60) w = true /\ existsb (Nat.eqb 70) w = true.
Proof.
  eexists. split; [vm_compute; reflexivity|]. split; [|repeat split; reflexivity].
  eexists. split; [reflexivity|]. vm_compute. reflexivity.
Qed.
