(** C01, C02, C03, C05: fu::vec programs behave like programs over immutable lists.

    Throughout: [e] is any element type (size, trivially destructible?, copiable?),
    [srun (SHAREABLE e) dflt ops [] = Some s] says the program [ops] is in contract and
    computes the lists [s] (VecSpec.v); [run dflt e ops start] is the vec
    implementation (VecModel.v) executing it on a heap of refcounted blocks, where
    [UB] stands for any invalid memory access, double construction or destruction,
    double free, freeing live elements, or arithmetic overflow, and [Exit] for the
    allocator aborting the process. *)
From Verif Require Import VecMachine VecInv VecApi VecProofs VecMore.
Open Scope nat_scope.

(** C02. *)
Theorem vec_programs_compute_the_lists :
  forall (A : Type) (dflt : A) (e : elt) (ops : list (op A)) (s : vars A),
    (0 < esz e < 2 ^ 31)%Z ->
    srun (SHAREABLE e) dflt ops [] = Some s ->
    run dflt e ops start = Exit \/
    exists m, run dflt e ops start = Ok m /\
      forall i l, var s i = Some l ->
        read_var e m i = Ok (map Some l) /\
        exists v, getv m i = Ok v /\ size e v = length l /\
          forall k, get_elem e k v (m_heap m) = match nth_error l k with Some x => Ok x | None => UB end.
Proof.
  intros A dflt e ops s He E. destruct (run_refines dflt e He ops _ _ _ (R_start e) E) as [X|(m & X & HR)]; [auto|].
  right. exists m. split; [exact X|]. intros i l V. split; [eapply R_read; eauto|].
  destruct (R_get e _ _ _ _ HR V) as (v & G & _ & _ & _ & I). exists v. split; [exact G|].
  pose proof (Inv_size e He _ _ _ _ I) as SZ. split; [exact SZ|].
  intros k. unfold get_elem. rewrite SZ. destruct (Nat.ltb_spec k (length l)) as [L|L].
  - rewrite (Inv_read e He _ _ _ _ k 1 I) by lia. cbn [rbind].
    destruct (nth_error l k) as [x|] eqn:N; [|apply nth_error_None in N; lia].
    apply nth_error_split in N as (a & b & -> & <-). rewrite skipn_app, skipn_all, Nat.sub_diag. reflexivity.
  - apply nth_error_None in L. rewrite L. reflexivity.
Qed.
Print Assumptions vec_programs_compute_the_lists.

(** C01: an operation leaves every variable it does not name exactly as it was,
    whoever shares storage with whom. *)
Theorem vec_mutation_is_invisible_elsewhere :
  forall (A : Type) (dflt : A) (e : elt) (ops : list (op A)) (s s' : vars A) (o : op A) m m' k l,
    (0 < esz e < 2 ^ 31)%Z ->
    srun (SHAREABLE e) dflt ops [] = Some s -> run dflt e ops start = Ok m ->
    sstep (SHAREABLE e) dflt o s = Some s' -> exec dflt e o m = Ok m' ->
    ~ In k (writes o) -> read_var e m k = Ok (map Some l) -> var s k <> None ->
    read_var e m' k = Ok (map Some l).
Proof.
  intros A dflt e ops s s' o m m' k l He E X E' X' W V L.
  destruct (run_refines dflt e He ops _ _ _ (R_start e) E) as [Y|(m0 & Y & HR)]; [congruence|].
  assert (m0 = m) by congruence. subst m0.
  destruct (step_refines dflt e He _ _ _ _ HR E') as [Y'|(m1 & Y' & HR')]; [congruence|].
  assert (m1 = m') by congruence. subst m1.
  destruct (var s k) as [l0|] eqn:Vk; [|congruence].
  rewrite (R_read e He _ _ _ _ HR Vk) in V. injection V as V.
  assert (l0 = l). { clear - V. revert l V. induction l0; intros [|]; cbn; intros H; try discriminate; [reflexivity|]. injection H as -> H. f_equal. auto. }
  subst l0. eapply R_read; eauto. eapply sstep_frame; eauto.
Qed.
Print Assumptions vec_mutation_is_invisible_elsewhere.

(** C03, first half: no in-contract program performs an invalid access, a double
    free or a double destruction, and at every point of every history a block is
    allocated iff some live variable refers to it, with its count exactly the
    number of those variables. *)
Theorem vec_refcounts_are_exact :
  forall (A : Type) (dflt : A) (e : elt) (ops : list (op A)) (s : vars A),
    (0 < esz e < 2 ^ 31)%Z ->
    srun (SHAREABLE e) dflt ops [] = Some s ->
    run dflt e ops start <> UB /\
    forall m, run dflt e ops start = Ok m -> forall b,
      match nth_error (m_heap m) b with
      | Some (Some k) => Z.of_nat (owners m b) = (b_arc k + 1)%Z /\ 1 <= owners m b
      | _ => owners m b = 0
      end.
Proof.
  intros A dflt e ops s He E. destruct (run_refines dflt e He ops _ _ _ (R_start e) E) as [X|(m & X & HR)].
  - rewrite X. split; [discriminate|]. intros m Y. discriminate.
  - rewrite X. split; [discriminate|]. intros m' Y b. injection Y as <-.
    destruct (R_blocks e _ _ b HR) as [H1 H2].
    destruct (nth_error (m_heap m) b) as [[k|]|] eqn:K; [apply H1; reflexivity|apply H2; auto|apply H2; auto].
Qed.
Print Assumptions vec_refcounts_are_exact.

(** C03, second half: once every variable is gone, nothing is allocated. *)
Theorem vec_programs_do_not_leak :
  forall (A : Type) (dflt : A) (e : elt) (ops : list (op A)) (s : vars A) m,
    (0 < esz e < 2 ^ 31)%Z ->
    srun (SHAREABLE e) dflt ops [] = Some s -> run dflt e ops start = Ok m ->
    (forall i, var s i = None) ->
    forall b k, nth_error (m_heap m) b = Some k -> k = None.
Proof.
  intros A dflt e ops s m He E X N. destruct (run_refines dflt e He ops _ _ _ (R_start e) E) as [Y|(m0 & Y & HR)]; [congruence|].
  assert (m0 = m) by congruence. subst m0. exact (R_no_leak e _ _ HR N).
Qed.
Print Assumptions vec_programs_do_not_leak.

(** C05: after [reserve n] in any reachable state the contents are unchanged, the
    capacity is at least n, a heap block, if any, has this variable as its only
    owner, and pushing up to n elements in total never allocates (nor aborts), nor
    moves the storage. *)
Theorem vec_reserve_then_push_in_place :
  forall (A : Type) (dflt : A) (e : elt) (ops : list (op A)) (s : vars A) m i l n,
    (0 < esz e < 2 ^ 31)%Z ->
    srun (SHAREABLE e) dflt ops [] = Some s -> run dflt e ops start = Ok m ->
    var s i = Some l -> fitsb n = true ->
    exec dflt e (Reserve i n) m = Exit \/
    exists m' v, exec dflt e (Reserve i n) m = Ok m' /\ getv m' i = Ok v /\
      (forall j lj, var s j = Some lj -> read_var e m' j = Ok (map Some lj)) /\
      (Z.of_nat n <= vcapa e v)%Z /\
      (forall b, v_data v = Some b -> owners m' b = 1) /\
      forall xs, length l + length xs <= n ->
        exists m2 v2, run dflt e (map (Push i) xs) m' = Ok m2 /\ getv m2 i = Ok v2 /\
          read_var e m2 i = Ok (map Some (l ++ xs)) /\
          data e v2 = data e v /\ length (m_heap m2) = length (m_heap m').
Proof.
  intros A dflt e ops s m i l n He E X V F.
  destruct (run_refines dflt e He ops _ _ _ (R_start e) E) as [Y|(m0 & Y & HR)]; [congruence|].
  assert (m0 = m) by congruence. subst m0. apply fitsb_fits in F.
  destruct (reserve_step dflt e He _ _ _ _ n HR V F) as [Z|(m' & Z & HR' & v & G & C)]; [auto|].
  right. exists m', v. split; [exact Z|]. split; [exact G|].
  split; [intros j lj; apply R_read; auto|]. split; [exact C|].
  split. { intros b. eapply R_unique; eauto; [congruence|lia]. }
  intros xs L. destruct (pushes_in_place dflt e He xs _ _ _ _ _ HR' V G) as (m2 & v2 & E2 & HR2 & G2 & (K1 & K2 & K3)).
  - unfold fits in *. lia.
  - lia.
  - exists m2, v2. split; [exact E2|]. split; [exact G2|]. split; [|auto].
    eapply R_read; eauto. apply var_some, lset_eq.
    destruct (R_get e _ _ _ _ HR V) as (_ & _ & _ & Li & _). exact Li.
Qed.
Print Assumptions vec_reserve_then_push_in_place.

(** C02: splicing in a copy of (part of) another variable that does not share its
    storage, with no restriction on how much is replaced. *)
Theorem vec_splice_copy_of_unrelated_storage :
  forall (A : Type) (dflt : A) (e : elt) (ops : list (op A)) (s : vars A) m i j l w at_ del off n v wv,
    (0 < esz e < 2 ^ 31)%Z ->
    srun (SHAREABLE e) dflt ops [] = Some s -> run dflt e ops start = Ok m ->
    i <> j -> var s i = Some l -> var s j = Some w -> getv m i = Ok v -> getv m j = Ok wv ->
    (forall b, data e v = PBlk b -> data e wv <> PBlk b) ->
    at_ <= length l -> off + n <= length w -> fitsb (length l + n) = true ->
    exec dflt e (SpliceCopy i at_ del j off n) m = Exit \/
    exists m', exec dflt e (SpliceCopy i at_ del j off n) m = Ok m' /\
      read_var e m' i = Ok (map Some (firstn at_ l ++ firstn n (skipn off w) ++ skipn (at_ + del) l)) /\
      forall k lk, k <> i -> var s k = Some lk -> read_var e m' k = Ok (map Some lk).
Proof.
  intros A dflt e ops s m i j l w at_ del off n v wv He E X Nij Vi Vj G Gw NE L1 L2 F.
  destruct (run_refines dflt e He ops _ _ _ (R_start e) E) as [Y|(m0 & Y & HR)]; [congruence|].
  assert (m0 = m) by congruence. subst m0. apply fitsb_fits in F.
  destruct (splice_copy_foreign dflt e He _ _ _ _ _ _ off n at_ del _ _ HR Nij Vi Vj G Gw NE L1 L2 F) as [Z|(m' & Z & HR')]; [auto|].
  right. exists m'. split; [exact Z|]. split.
  - eapply R_read; eauto. apply var_some, lset_eq.
    destruct (R_get e _ _ _ _ HR Vi) as (_ & _ & _ & Li & _). exact Li.
  - intros k lk Nk Vk. eapply R_read; eauto. rewrite var_lset; auto.
Qed.
Print Assumptions vec_splice_copy_of_unrelated_storage.

(** ** Concrete cases *)
(** 4-byte trivially copiable elements: three fit inline. *)
Definition int32 : elt := {| esz := 4; e_trivial := true; e_aligned := true; e_copiable := true |}.
(** 16-byte copiable elements with a destructor (e.g. fu::string). *)
Definition str16 : elt := {| esz := 16; e_trivial := false; e_aligned := true; e_copiable := true |}.

(** A program over shared, unique and inline storage; both element types. *)
Definition prog : list (op nat) :=
  [New [1; 2; 3; 4; 5; 6]; Copy 0; Push 1 7; Copy 0; Shrink 2 4; SetElem 2 0 9; SpliceDel 0 1 2;
   New [8]; SpliceMove 1 2 1 3; AppendCopy 0 1 1 2 3; Clear 2; Reserve 0 20; Copy 0; MoveNew 0].

Example prog_in_contract : srun true 0 prog [] =
  Some [Some []; Some [1; 2; 8; 4; 5; 6; 7]; Some []; None; Some [1; 4; 5; 8; 4; 5]; Some [1; 4; 5; 8; 4; 5]].
Proof. vm_compute. reflexivity. Qed.
Example prog_runs_int32 : exists m, run 0 int32 prog start = Ok m.
Proof. vm_compute. eauto. Qed.
Example prog_runs_str16 : exists m, run 0 str16 prog start = Ok m.
Proof. vm_compute. eauto. Qed.
Example sharing_occurs : exists m, run 0 int32 [New [1; 2; 3; 4; 5; 6]; Copy 0; Copy 0] start = Ok m /\ owners m 0 = 3.
Proof. vm_compute. eauto. Qed.
Example all_destroyed : exists m, run 0 str16 [New [1; 2]; Copy 0; Destroy 0; Push 1 3; Destroy 1] start = Ok m /\
  m_heap m = [None].
Proof. vm_compute. eauto. Qed.

(** A finding: replacing the whole of v by the whole of a longer w that v shares its
    storage with is taken for self-assignment and does nothing. *)
Theorem splice_copy_whole_refuted :
  ~ (forall (ops : list (op nat)) s m i j l w,
       srun true 0 ops [] = Some s -> run 0 int32 ops start = Ok m ->
       i <> j -> var s i = Some l -> var s j = Some w ->
       exists m', exec 0 int32 (SpliceCopy i 0 (length l) j 0 (length w)) m = Ok m' /\
         read_var int32 m' i = Ok (map Some w)).
Proof.
  intros H. pose (ops := [New [1; 2; 3; 4; 5; 6]; Copy 0; Shrink 1 4]).
  destruct (run 0 int32 ops start) as [m| |] eqn:X.
  2: { vm_compute in X. discriminate. }
  2: { vm_compute in X. discriminate. }
  destruct (H ops [Some [1; 2; 3; 4; 5; 6]; Some [1; 2; 3; 4]] m 1 0 [1; 2; 3; 4] [1; 2; 3; 4; 5; 6] eq_refl X) as (m' & E & Rd).
  - discriminate.
  - reflexivity.
  - reflexivity.
  - vm_compute in X. injection X as <-. vm_compute in E. injection E as <-. vm_compute in Rd. discriminate.
Qed.
Print Assumptions splice_copy_whole_refuted.
