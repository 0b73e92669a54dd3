(** * C72: arguments are evaluated in fu's order

    Arguments are visited from left to right, mutable references last; the
    solver marks the arguments whose order matters and the code generator moves
    them into temporaries, so that whatever order C++ picks for what is left in
    the call, the outcome is the one of fu's order. *)

From Coq Require Import List ZArith Bool Permutation Sorting.Sorted Lia.
From Verif Require Import OrderSpec OrderModel OrderProof.
Import ListNotations.

(** ** The order *)

(** Left to right, mutable references last: each argument exactly once, and no
    other list is in that order. *)
Theorem C72_order : forall lates o,
  fu_order (length lates) (fun i => nth i lates false) o
  <-> o = indices (args_forward false lates 0).
Proof.
  intros lates o. rewrite indices_forward. cbn [skipn]. split.
  - intros [P S]. destruct (order_ltr lates) as [P' S'].
    apply (sorted_unique _ _ _ (Permutation_trans P (Permutation_sym P')) S S').
  - intros ->. apply order_ltr.
Qed.
Print Assumptions C72_order.

(** Assignments and the like: the first argument last. *)
Theorem C72_order_right_to_left : forall l lates,
  indices (args_forward true (l :: lates) 0) = seq 1 (length lates) ++ [0].
Proof. intros l lates. rewrite indices_forward. apply order_rtl. Qed.
Print Assumptions C72_order_right_to_left.

(** Arguments are numbered as they are visited, and only the last one visited is
    said to be last. *)
Theorem C72_numbering : forall rtl lates k i s last,
  nth_error (args_forward rtl lates 0) k = Some (i, s, last) ->
  s = k /\ (last = true <-> S k = length lates).
Proof.
  intros rtl lates k i s last E. rewrite args_forward_eq in E. cbn [skipn] in E.
  assert (L : k < length lates).
  { assert (E' : nth_error (number (order rtl lates) 0 (length lates)) k <> None) by congruence.
    apply nth_error_Some in E'.
    rewrite number_length in E'. rewrite (Permutation_length (order_perm rtl lates)), seq_length in E'. exact E'. }
  apply number_nth in E as (_ & -> & ->). split; [reflexivity|].
  cbn [plus]. rewrite Nat.eqb_eq. lia.
Qed.
Print Assumptions C72_numbering.

(** Starting from some point visits what is left from there on. *)
Theorem C72_resume : forall rtl lates start,
  args_forward rtl lates start = skipn start (args_forward rtl lates 0).
Proof. intros rtl lates start. rewrite !args_forward_eq, skipn_number. reflexivity. Qed.
Print Assumptions C72_resume.

(** The reverse traversal is the forward one backwards: it numbers arguments
    from the last, and says which is the last in evaluation order. *)
Theorem C72_reverse : forall rtl lates,
  indices (args_reverse rtl lates) = rev (indices (args_forward rtl lates 0)) /\
  forall k i s last, nth_error (args_reverse rtl lates) k = Some (i, s, last) ->
    s = k /\ (last = true <-> k = 0).
Proof.
  intros rtl lates. rewrite args_reverse_eq, indices_numr, indices_forward. split; [reflexivity|].
  intros k i s last E. apply numr_nth in E as (_ & -> & ->). split; [reflexivity|].
  destruct k; split; intros; congruence.
Qed.
Print Assumptions C72_reverse.

(** ** The mask *)

(** If an argument's bit is not set, nothing it changes is read by an argument
    evaluated after it, and nothing those change is read by it — for any number
    of arguments, though the mask has 32 bits. *)
Theorem C72_mask : forall lates fp i j,
  i < length lates -> j < length lates -> before (fun k => nth k lates false) i j ->
  Z.land (mustseq_mask false lates fp) (bit i) = 0%Z ->
  (forall r, In r (changes (fp i)) -> ~ In r (reads (fp j))) /\
  (forall r, In r (changes (fp j)) -> ~ In r (reads (fp i))).
Proof.
  intros lates fp i j Li Lj B M.
  destruct (order_ltr lates) as [P S].
  destruct (in_sorted_split _ _ i j S (proj2 (order_in false lates i) Li) (proj2 (order_in false lates j) Lj) B)
    as (a & b & E & J).
  apply (mask_sound lates fp a i b E); [|exact J].
  unfold marked. rewrite M. reflexivity.
Qed.
Print Assumptions C72_mask.

(** ** Calls *)

(** Whatever order C++ evaluates the arguments of the generated call in, values
    and state come out as in fu's order; every argument that is not an empty
    placeholder is evaluated, once.

    Missing: arguments that print or otherwise act outside the program's
    variables, and fields and variables that are passed by value (below: both
    make it false). *)
Theorem C72_call_partial : forall lates args f fp header inline o,
  (forall i, i < length lates -> within (f i) (fp i)) ->
  (forall i, i < length lates -> chain (args i) = true -> names_a_place (f i)) ->
  cg_args false lates args (mustseq_mask false lates fp) = Some (header, inline) ->
  fu_order (length lates) (fun i => nth i lates false) o ->
  let evaluated := filter (fun i => negb (discard (args i) && junk (args i))) o in
  Permutation (header ++ inline) evaluated /\
  forall c c', cpp_may f header inline c c' -> same_conf (evals f evaluated c) c'.
Proof.
  intros lates args f fp header inline o W N P O.
  apply C72_order in O. rewrite indices_forward in O. cbn [skipn] in O. subst o.
  unfold cg_args in P. rewrite args_forward_eq in P. cbn [skipn] in P.
  destruct (plan_sound f args _ lates fp (length lates) (order false lates) [] 0 header inline
    W N eq_refl eq_refl eq_refl P) as [Pm H].
  split; [exact Pm|]. intros c c' (p & Pp & ->). rewrite <- evals_app. apply H, Pp.
Qed.
Print Assumptions C72_call_partial.

(** ** Where it fails *)

Definition x : region := Local 1.
Definition with_reg (s : state) (v : Z) : state :=
  {| reg := fun r => if region_eqb r x then v else reg s r; out := out s |}.
Definition says (v : Z) : comp := fun s => (v, {| reg := reg s; out := out s ++ [v] |}).
Definition plain : arg := {| discard := false; junk := false; chain := false; slice := false |}.
Definition field : arg := {| discard := false; junk := false; chain := true; slice := false |}.
Definition start : conf := (fun _ => 0%Z, {| reg := fun _ => 5%Z; out := [] |}).

(** [f(say(1), say(2))]: nothing is written or moved, so nothing is sequenced,
    and C++ may print 2 first. *)
Theorem C72_printing_refuted :
  exists lates args f fp header inline c',
    (forall i, fp i = nothing) /\
    cg_args false lates args (mustseq_mask false lates fp) = Some (header, inline) /\
    cpp_may f header inline start c' /\
    out (snd c') = [2; 1]%Z /\
    out (snd (evals f (indices (args_forward false lates 0)) start)) = [1; 2]%Z.
Proof.
  exists [false; false], (fun _ => plain), (fun i => says (Z.of_nat (S i))), (fun _ => nothing), [], [0; 1],
    (evals (fun i => says (Z.of_nat (S i))) [1; 0] start).
  split; [reflexivity|]. split; [vm_compute; reflexivity|]. split.
  - exists [1; 0]. split; [apply perm_swap|reflexivity].
  - split; vm_compute; reflexivity.
Qed.
Print Assumptions C72_printing_refuted.

(** [i++] *)
Definition bump : comp := fun s => (reg s x, with_reg s (reg s x + 1)).
(** [i], passed by value *)
Definition value_of_x : comp := fun s => (reg s x, s).
Definition fp_bump : footprint := {| reads := [x]; writes := [x]; moves := [] |}.
Definition fp_x : footprint := {| reads := [x]; writes := []; moves := [] |}.
Definition ff (i : nat) : comp := match i with 0 => bump | _ => value_of_x end.
Definition ffp (i : nat) : footprint := match i with 0 => fp_bump | _ => fp_x end.
Definition fargs (i : nat) : arg := match i with 0 => plain | _ => field end.

Local Lemma bump_within : within bump fp_bump.
Proof.
  constructor.
  - intros s r N. cbn. destruct (region_eqb r x) eqn:E; [|reflexivity].
    apply region_eqb_spec in E. subst r. exfalso. apply N. left. reflexivity.
  - intros s s' E. assert (E1 : reg s x = reg s' x) by (apply E; left; reflexivity).
    split; [exact E1|]. intros r [<-|[]]. cbn. rewrite E1. reflexivity.
  - intros r I. exact I.
  - reflexivity.
Qed.

Local Lemma value_within : within value_of_x fp_x.
Proof.
  constructor.
  - reflexivity.
  - intros s s' E. split; [apply E; left; reflexivity|intros r []].
  - intros r [].
  - reflexivity.
Qed.

(** [f(i++, i)] with [i] passed by value: the solver asks for a temporary for
    [i++], the code generator drops it because what follows is only a variable —
    and C++ may then read [i] first: [f(5, 5)] instead of [f(5, 6)]. *)
Theorem C72_by_value_refuted :
  exists lates args f fp header inline c',
    (forall i, within (f i) (fp i)) /\
    Z.land (mustseq_mask false lates fp) (bit 0) <> 0%Z /\
    cg_args false lates args (mustseq_mask false lates fp) = Some (header, inline) /\
    cpp_may f header inline start c' /\
    fst c' 1 = 5%Z /\
    fst (evals f (indices (args_forward false lates 0)) start) 1 = 6%Z.
Proof.
  exists [false; false], fargs, ff, ffp, [], [0; 1], (evals ff [1; 0] start).
  split; [intros [|i]; [apply bump_within|apply value_within]|].
  split; [vm_compute; discriminate|]. split; [vm_compute; reflexivity|]. split.
  - exists [1; 0]. split; [apply perm_swap|reflexivity].
  - split; vm_compute; reflexivity.
Qed.
Print Assumptions C72_by_value_refuted.

(** ** A case that meets the hypotheses *)

(** [f(i, i++, i + 0)] where the first names [i] and is passed as a mutable
    reference: [i++] goes into a temporary, what is left may go in any order. *)
Definition the_place : comp := fun s => (77%Z, s).
Definition gf (i : nat) : comp := match i with 0 => the_place | 1 => bump | _ => value_of_x end.
Definition gfp (i : nat) : footprint := match i with 1 => fp_bump | _ => fp_x end.
Definition gargs (i : nat) : arg := match i with 0 => field | _ => plain end.
Definition glates : list bool := [true; false; false].

Example C72_ex_order : indices (args_forward false glates 0) = [1; 2; 0].
Proof. reflexivity. Qed.

Example C72_ex_call :
  (forall i, within (gf i) (gfp i)) /\
  (forall i, chain (gargs i) = true -> names_a_place (gf i)) /\
  cg_args false glates gargs (mustseq_mask false glates gfp) = Some ([1], [2; 0]) /\
  fst (evals gf [1; 2; 0] start) 2 = 6%Z.
Proof.
  split; [|split; [|split; vm_compute; reflexivity]].
  - intros [|[|i]]; [|apply bump_within|apply value_within].
    constructor; [reflexivity| |intros r []|reflexivity].
    intros s s' E. split; [reflexivity|intros r []].
  - intros [|[|i]] E; try discriminate. split; reflexivity.
Qed.

(** without the mask C++ may read [i] before it is incremented *)
Example C72_ex_needed : exists c', cpp_may gf [] [1; 2; 0] start c' /\ fst c' 2 = 5%Z.
Proof.
  exists (evals gf [2; 1; 0] start). split; [|vm_compute; reflexivity].
  exists [2; 1; 0]. split; [apply perm_swap|reflexivity].
Qed.
