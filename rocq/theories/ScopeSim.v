(** The solver's scopes (ScopeModel.run) and lexical scopes (ScopeSpec.lexical_run) show the same. *)
From Verif Require Import CommonLemmas ScopeModel ScopeSpec ScopeProofs.
Open Scope Z_scope.

Record ctx_ok (core : list binding) (V : views) (skips : list scope_skip) (len : nat) (e : env) : Prop := {
  cx_tidy : tidy_skips 0 skips (Z.of_nat len);
  cx_len : (len <= length core)%nat;
  cx_env : e = vis_from (hid skips) 0 (firstn len core);
  cx_view : coherent V skips len }.

Definition fn_ok core V len (m : memo) (e : env) : Prop :=
  exists n, me_len m = Z.of_nat n /\ (n <= len)%nat /\ ctx_ok core V (me_skip m) n e.
Definition fns_ok core V skips len (fns : list memo) (l : list env) : Prop :=
  Forall2 (fun m e => me_skip m = skips /\ fn_ok core V len m e) fns l.

Inductive stack_ok (core : list binding) (V : views)
  : list scope_skip -> nat -> env -> option Z -> option env -> list frame -> list sframe -> Prop :=
| st_nil len e : ctx_ok core V [] len e -> stack_ok core V [] len e None None [] []
| st_block skips len e root renv fr sfr len0 e0 fns l :
    ctx_ok core V skips len e -> (len0 <= len)%nat -> fns_ok core V skips len fns l -> (root = None -> fns = []) ->
    stack_ok core V skips len0 e0 root renv fr sfr ->
    stack_ok core V skips len e root renv (FBlock (Z.of_nat len0) fns :: fr) (SBlock e0 l :: sfr)
| st_body skips len e fr sfr ss0 root0 renv0 len0 e0 fns l :
    ctx_ok core V skips len e -> (len0 <= len)%nat -> fns_ok core V skips len fns l ->
    stack_ok core V ss0 len0 e0 root0 renv0 fr sfr ->
    stack_ok core V skips len e (match root0 with None => Some (Z.of_nat len0) | r => r end)
      (match renv0 with None => Some e0 | r => r end) (FBody ss0 root0 (Z.of_nat len0) fns :: fr) (SBody e0 renv0 l :: sfr)
| st_search skips len e root renv fr sfr id extra fields it rest :
    stack_ok core V skips len e root renv fr sfr -> iter_ok skips (firstn len core) id extra fields it rest ->
    slen extra < LIMIT -> slen fields < LIMIT ->
    stack_ok core V skips len e root renv (FSearch id extra fields it :: fr) (SLookup rest :: sfr).

Lemma stack_ctx core V skips len e root renv fr sfr : stack_ok core V skips len e root renv fr sfr -> ctx_ok core V skips len e.
Proof. induction 1; auto. Qed.

Lemma stack_root core V skips len e root renv fr sfr : stack_ok core V skips len e root renv fr sfr ->
  match root, renv with
  | None, None => skips = []
  | Some r, Some re => exists n, r = Z.of_nat n /\ (n <= len)%nat /\ ctx_ok core V [] n re
  | _, _ => False
  end.
Proof.
  induction 1 as [len e C|skips len e root renv fr sfr len0 e0 fns l C L F R K IH|skips len e fr sfr ss0 root0 renv0 len0 e0 fns l C L F K IH|
    skips len e root renv fr sfr id extra fields it rest K IH I S1 S2]; auto.
  - destruct root, renv; auto. destruct IH as (n & a & b & c). exists n. split; [auto|split; [lia|auto]].
  - destruct root0 as [r|], renv0 as [re|]; auto; try contradiction.
    + destruct IH as (n & a & b & c). exists n. split; [auto|split; [lia|auto]].
    + exists len0. split; [auto|split; [auto|]]. subst ss0. apply stack_ctx in K. exact K.
Qed.

Lemma fn_ok_le core V len len' m e : fn_ok core V len m e -> (len <= len')%nat -> fn_ok core V len' m e.
Proof. intros (n & a & b & c) L. exists n. split; [auto|split; [lia|auto]]. Qed.

Lemma F2_impl {A B} (P Q : A -> B -> Prop) l l' : (forall a b, P a b -> Q a b) -> Forall2 P l l' -> Forall2 Q l l'.
Proof. intros H F. induction F; constructor; auto. Qed.
Lemma F2_length {A B} (P : A -> B -> Prop) l l' : Forall2 P l l' -> length l = length l'.
Proof. intros F. induction F; cbn; congruence. Qed.
Lemma stack_fns core V skips len e root renv fr sfr : stack_ok core V skips len e root renv fr sfr ->
  Forall2 (fn_ok core V len) (all_fns fr) (flat_map sframe_fns sfr) /\ (root = None -> all_fns fr = []).
Proof.
  induction 1 as [len e C|skips len e root renv fr sfr len0 e0 fns l C L F R K IH|skips len e fr sfr ss0 root0 renv0 len0 e0 fns l C L F K IH|
    skips len e root renv fr sfr id extra fields it rest K IH I S1 S2]; cbn; auto.
  - destruct IH as [IH1 IH2]. split.
    + apply Forall2_app.
      * eapply F2_impl; [|exact F]. intros a b [_ G]. exact G.
      * eapply F2_impl; [|exact IH1]. intros a b G. eapply fn_ok_le; eauto.
    + intros N. rewrite (R N). exact (IH2 N).
  - destruct IH as [IH1 IH2]. split; [|destruct root0; discriminate]. apply Forall2_app.
    + eapply F2_impl; [|exact F]. intros a b [_ G]. exact G.
    + eapply F2_impl; [|exact IH1]. intros a b G. eapply fn_ok_le; eauto.
Qed.

(** ** Changes that keep the first [len] names *)
Definition agree (core core' : list binding) (V V' : views) (len : nat) : Prop :=
  firstn len core' = firstn len core /\ (len <= length core')%nat /\ (forall k, (k < len)%nat -> forall j, V' k j = V k j).
Lemma agree_le core core' V V' len n : agree core core' V V' len -> (n <= len)%nat -> agree core core' V V' n.
Proof.
  intros (a & b & c) L. split; [|split; [lia|intros k K j; apply c; lia]].
  replace n with (Nat.min n len) by lia. rewrite <- !firstn_firstn. f_equal. exact a.
Qed.
Lemma ctx_agree core core' V V' len skips e : agree core core' V V' len -> ctx_ok core V skips len e -> ctx_ok core' V' skips len e.
Proof.
  intros (a & b & c) [C1 C2 C3 C4]. constructor; auto; [rewrite a; exact C3|].
  intros k K H j J. rewrite (c k K). apply C4; auto.
Qed.
Lemma fn_agree core core' V V' len m e : agree core core' V V' len -> fn_ok core V len m e -> fn_ok core' V' len m e.
Proof.
  intros A (n & a & b & c). exists n. split; auto. split; auto. eapply ctx_agree; eauto. eapply agree_le; eauto.
Qed.
Lemma fns_agree core core' V V' len skips fns l : agree core core' V V' len -> fns_ok core V skips len fns l -> fns_ok core' V' skips len fns l.
Proof. intros A F. induction F as [|m x fns l [G1 G2] F IH]; constructor; auto. split; auto. eapply fn_agree; eauto. Qed.
Lemma stack_agree core core' V V' skips len e root renv fr sfr : stack_ok core V skips len e root renv fr sfr -> agree core core' V V' len ->
  stack_ok core' V' skips len e root renv fr sfr.
Proof.
  induction 1 as [len e C|skips len e root renv fr sfr len0 e0 fns l C L F R K IH|skips len e fr sfr ss0 root0 renv0 len0 e0 fns l C L F K IH|
    skips len e root renv fr sfr id extra fields it rest K IH I S1 S2]; intros A.
  - constructor. eapply ctx_agree; eauto.
  - constructor; auto; [eapply ctx_agree; eauto|eapply fns_agree; eauto|]. apply IH. eapply agree_le; eauto.
  - constructor; auto; [eapply ctx_agree; eauto|eapply fns_agree; eauto|]. apply IH. eapply agree_le; eauto.
  - constructor; auto. destruct A as (A & _ & _). rewrite A. exact I.
Qed.
Lemma fns_le core V skips len len' fns l : fns_ok core V skips len fns l -> (len <= len')%nat -> fns_ok core V skips len' fns l.
Proof. intros F L. induction F as [|m x fns l [G1 G2] F IH]; constructor; auto. split; auto. eapply fn_ok_le; eauto. Qed.
Lemma stack_grow core V skips len e len' e' root renv fr sfr : stack_ok core V skips len e root renv fr sfr -> can_push fr = true ->
  ctx_ok core V skips len' e' -> (len <= len')%nat -> stack_ok core V skips len' e' root renv fr sfr.
Proof.
  intros K P C L. destruct K; try discriminate; econstructor; eauto; try lia; eapply fns_le; eauto.
Qed.

(** ** Entering a body *)
Lemma firstn_plus {A} a b : forall l : list A, firstn (a + b) l = firstn a l ++ firstn b (skipn a l).
Proof. induction a as [|a IH]; intros l; [reflexivity|]. destruct l as [|x l]; cbn; [destruct b; reflexivity|]. rewrite IH. reflexivity. Qed.
Lemma enter_ctx core V skips n e len : ctx_ok core V skips n e -> (n <= len <= length core)%nat ->
  exists skips', ScopeSkip_push skips (Z.of_nat n) (Z.of_nat len) = Some skips' /\ ctx_ok core V skips' len e.
Proof.
  intros [C1 C2 C3 C4] L. destruct (push_ok skips 0 (Z.of_nat n) (Z.of_nat len) C1) as (s & A & B & H); [lia|lia|].
  exists s. split; auto.
  assert (Hl : forall k, (k < n)%nat -> hid s k = hid skips k).
  { intros k K. destruct (hid skips k) eqn:E.
    - apply hid_spec. apply H. left. apply hid_spec. exact E.
    - apply hid_false. intros X. apply H in X. destruct X as [X|X]; [|lia]. apply hid_false in E. contradiction. }
  assert (Hg : forall k, (n <= k < len)%nat -> hid s k = true) by (intros k K; apply hid_spec, H; right; lia).
  constructor; auto; [lia| |].
  - replace (firstn len core) with (firstn n core ++ firstn (len - n) (skipn n core)).
    + rewrite vis_app. rewrite (vis_none _ (firstn (len - n) _)), app_nil_r.
      * rewrite C3. apply vis_ext. intros j J. symmetry. apply Hl. rewrite firstn_length in J. lia.
      * intros j J. rewrite !firstn_length, skipn_length in J. apply Hg. lia.
    + rewrite <- firstn_plus. f_equal. lia.
  - intros k K X j J. destruct (Nat.lt_ge_cases k n) as [Y|Y]; [|rewrite Hg in X by lia; discriminate].
    rewrite Hl in X by lia. rewrite Hl by lia. apply C4; auto.
Qed.

(** ** The relation *)
Definition sim (s : state) (t : scopes) : Prop :=
  exists V, honest V (st_items s) /\
    stack_ok (map strip (st_items s)) V (st_ss s) (length (st_items s)) (sc_env t) (st_root s) (sc_root t) (st_frames s) (sc_open t).

Lemma shrink_sim V items n skips len e root renv fr sfr : honest V items -> (n <= length items)%nat -> (len = n)%nat ->
  stack_ok (map strip items) V skips len e root renv fr sfr ->
  sim (State (firstn n items) skips root fr) (Scopes e renv sfr).
Proof.
  intros H L -> K. exists V. cbn [st_items st_ss sc_env st_root sc_root st_frames sc_open]. split.
  - intros k item I F j item' J Vj I'. pose proof (nth_error_lt _ _ _ I) as Lk. rewrite firstn_length in Lk.
    rewrite nth_error_firstn in I by lia. rewrite nth_error_firstn in I' by lia. eapply H; eauto.
  - rewrite firstn_length, Nat.min_l by lia. rewrite <- firstn_map. eapply stack_agree; [exact K|].
    split; [rewrite firstn_firstn, Nat.min_id; reflexivity|]. split; [rewrite firstn_length, map_length; lia|auto].
Qed.

Lemma init_sim : sim init lexical_init.
Proof.
  exists (fun _ _ => false). split; [intros k item I; destruct k; discriminate|]. constructor. constructor; cbn; auto; try lia. intros k; cbn; lia.
Qed.

Lemma Forall2_firstn {A B} (P : A -> B -> Prop) n : forall l l', Forall2 P l l' -> Forall2 P (firstn n l) (firstn n l').
Proof. induction n as [|n IH]; intros l l' F; cbn; [constructor|]. destruct F; constructor; auto. Qed.
Lemma Forall2_skipn {A B} (P : A -> B -> Prop) n : forall l l', Forall2 P l l' -> Forall2 P (skipn n l) (skipn n l').
Proof. induction n as [|n IH]; intros l l' F; cbn; [auto|]. destruct F; auto. Qed.
Lemma regroup_ok core V skips len n fns l : fns_ok core V skips len fns l -> fns_ok core V skips len (regroup n fns) (same_as_latest n l).
Proof.
  intros F0. destruct F0 as [|m e fns l G F]; cbn [regroup same_as_latest]; [constructor|].
  assert (F' : fns_ok core V skips len (m :: fns) (e :: l)) by (constructor; auto).
  apply Forall2_app; [|apply Forall2_skipn; exact F'].
  apply (Forall2_firstn _ n) in F'. destruct G as [G1 (k & a & b & c)]. clear F.
  induction F' as [|x y xs ys [Q1 Q2] F' IH]; cbn; constructor; auto. cbn [me_skip]. split; auto.
  exists k. cbn [me_len me_skip]. split; auto. split; auto. rewrite Q1, <- G1. exact c.
Qed.

Definition cost (e : event) : Z := match e with EPush _ _ _ => 1 | _ => 0 end.

Lemma step_sim s t e : sim s t -> fair_event e -> slen (st_items s) + cost e < LIMIT ->
  match step s e, lexical_step t e with
  | Some (s', o), Some (t', o') => o = o' /\ sim s' t' /\ slen (st_items s') <= slen (st_items s) + cost e
  | None, None => True
  | _, _ => False
  end.
Proof.
  intros (V & H & K) Fe Lim. destruct s as [items skips root fr], t as [e0 renv sfr].
  cbn [st_items st_ss sc_env st_root sc_root st_frames sc_open] in *.
  pose proof (stack_ctx _ _ _ _ _ _ _ _ _ K) as C. pose proof (stack_root _ _ _ _ _ _ _ _ _ K) as R.
  destruct (stack_fns _ _ _ _ _ _ _ _ _ K) as [Fn Fn0].
  destruct e as [id t sh| |n| |n| |id extra fields| | |n]; cbn [step lexical_step st_items st_ss sc_env st_root sc_root st_frames sc_open cost] in *.
  - (* EPush *)
    set (V' := fun k j => if (k =? length items)%nat then hid skips j else V k j).
    assert (Nh : hid skips (length items) = false).
    { apply hid_false. intros X. apply (hidden_bound _ _ _ _ (cx_tidy _ _ _ _ _ C)) in X. lia. }
    assert (Ag : agree (map strip items) (map strip (items ++ [ScopeItem id t sh])) V V' (length items)).
    { split; [rewrite map_app, firstn_app, map_length, Nat.sub_diag; cbn; rewrite app_nil_r; reflexivity|].
      split; [rewrite map_app, app_length, map_length; lia|]. intros k Hk j. unfold V'. destruct (Nat.eqb_spec k (length items)); [lia|reflexivity]. }
    assert (K' : can_push fr = true -> sim (State (items ++ [ScopeItem id t sh]) skips root fr) (Scopes (e0 ++ [Bind id t sh]) renv sfr)).
    { intros P. exists V'. cbn [st_items st_ss sc_env st_root sc_root st_frames sc_open]. split.
      - intros k item I F j item' J Vj I'.
        destruct (Nat.lt_ge_cases k (length items)) as [X|X].
        + rewrite nth_error_app_l in I, I' by lia. unfold V' in Vj. destruct (Nat.eqb_spec k (length items)); [lia|]. eapply H; eauto.
        + rewrite nth_error_app_r in I by lia. destruct (k - length items)%nat as [|[|m]]; try discriminate. injection I as <-.
          rewrite new_skip in F. discriminate.
      - apply (stack_grow _ _ _ (length items) e0); auto; [eapply stack_agree; eauto| |rewrite app_length; cbn; lia].
        apply (ctx_agree _ _ _ _ _ _ _ Ag) in C. destruct C as [C1 C2 C3 C4]. constructor.
        + eapply tidy_weaken; eauto. rewrite app_length. cbn. lia.
        + rewrite map_length. lia.
        + replace (length (items ++ [ScopeItem id t sh])) with (length (map strip (items ++ [ScopeItem id t sh]))) at 1 by apply map_length.
          rewrite firstn_all. rewrite map_app, vis_app, map_length. cbn [map vis_from Nat.add]. rewrite Nh, strip_new by exact Fe. f_equal.
          rewrite C3. f_equal. rewrite map_app, firstn_app, map_length, Nat.sub_diag. cbn [firstn]. rewrite app_nil_r.
          rewrite firstn_all2; [reflexivity|rewrite map_length; lia].
        + intros k Hk Hv j J. rewrite app_length in Hk. cbn in Hk. destruct (Nat.eq_dec k (length items)) as [->|D].
          * unfold V'. rewrite Nat.eqb_refl. reflexivity.
          * apply C4; auto. lia. }
    assert (Ln : slen (items ++ [ScopeItem id t sh]) <= slen items + 1) by (unfold slen; rewrite app_length; cbn; lia).
    destruct K; cbn [can_push] in *; auto; cbn [st_items]; repeat split; auto; apply K'; reflexivity.
  - (* EFn *)
    assert (G : skips = skips /\ fn_ok (map strip items) V (length items) (Memo skips (slen items)) e0).
    { split; auto. exists (length items). split; [reflexivity|split; [lia|exact C]]. }
    assert (Done : forall fr' sfr', stack_ok (map strip items) V skips (length items) e0 root renv fr' sfr' ->
      @None (Z * bool) = None /\ sim (State items skips root fr') (Scopes e0 renv sfr') /\ slen items <= slen items + 0).
    { intros fr' sfr' X. split; auto. split; [exists V; auto|lia]. }
    destruct K as [len e0 C0|skips len e0 root renv fr sfr len0 e1 fns l C0 L0 F0 R0 K0|skips len e0 fr sfr ss0 root0 renv0 len0 e1 fns l C0 L0 F0 K0|
      skips len e0 root renv fr sfr id extra fields it rest K0 I0 S1 S2].
    + exact I.
    + destruct root as [r|], renv as [re|]; try contradiction; [|exact I]. cbn. apply Done. constructor; auto; [constructor; auto|discriminate].
    + assert (W : stack_ok (map strip items) V skips len e0 (match root0 with None => Some (Z.of_nat len0) | r => r end)
        (match renv0 with None => Some e1 | r => r end) (FBody ss0 root0 (Z.of_nat len0) (Memo skips (slen items) :: fns) :: fr) (SBody e1 renv0 (e0 :: l) :: sfr))
        by (apply st_body; auto; constructor; auto).
      apply Done in W. destruct root0, renv0; cbn in *; try contradiction; exact W.
    + destruct root, renv; try contradiction; exact I.
  - (* EGroup *)
    assert (Done : forall fr' sfr', stack_ok (map strip items) V skips (length items) e0 root renv fr' sfr' ->
      @None (Z * bool) = None /\ sim (State items skips root fr') (Scopes e0 renv sfr') /\ slen items <= slen items + 0).
    { intros fr' sfr' X. split; auto. split; [exists V; auto|lia]. }
    destruct K; cbn; auto; apply Done; econstructor; eauto; try (apply regroup_ok; auto). intros N. match goal with Q : root = None -> fns = [] |- _ => rewrite (Q N) end. reflexivity.
  - (* EOpen *)
    split; auto. split; [|cbn; lia]. exists V. split; auto. cbn [st_items st_ss sc_env st_root sc_root st_frames sc_open].
    unfold slen. constructor; auto. constructor.
  - (* EBody *)
    destruct (nth_error (all_fns fr) n) as [m|] eqn:Em.
    + destruct (nth_error (flat_map sframe_fns sfr) n) as [ce|] eqn:Ec.
      2: { apply nth_error_None in Ec. apply nth_error_lt in Em. rewrite (F2_length _ _ _ Fn) in Em. lia. }
      assert (Fm : fn_ok (map strip items) V (length items) m ce).
      { clear - Fn Em Ec. revert n Em Ec. induction Fn as [|x y xs ys Q Fn IH]; intros [|n] A B; try discriminate; [|eauto].
        injection A as <-. injection B as <-. exact Q. }
      destruct root as [r|]; [|rewrite (Fn0 eq_refl) in Em; destruct n; discriminate].
      destruct renv as [re|]; [|contradiction].
      destruct Fm as (k & a & b & c). unfold enter. cbn [st_root st_items st_ss st_frames obind]. rewrite a.
      destruct (enter_ctx _ _ _ _ _ (length items) c) as (s' & P & C'); [rewrite map_length; lia|].
      fold (slen items) in P. rewrite P. cbn [obind]. split; auto. split; [|cbn; lia]. exists V. split; auto.
      cbn [st_items st_ss sc_env st_root sc_root st_frames sc_open enter_body].
      apply (st_body (map strip items) V s' (length items) ce fr sfr skips (Some r) (Some re) (length items) e0 [] []); auto. constructor.
    + destruct (nth_error (flat_map sframe_fns sfr) n) as [ce|] eqn:Ec; [|exact I].
      apply nth_error_None in Em. apply nth_error_lt in Ec. rewrite (F2_length _ _ _ Fn) in Em. lia.
  - (* EGlobal *)
    unfold enter. cbn [st_root st_items st_ss st_frames obind].
    destruct root as [r|], renv as [re|]; try contradiction.
    + destruct R as (k & -> & b & c).
      destruct (enter_ctx _ _ _ _ _ (length items) c) as (s' & P & C'); [rewrite map_length; lia|].
      fold (slen items) in P. rewrite P. cbn [obind]. split; auto. split; [|cbn; lia]. exists V. split; auto.
      cbn [st_items st_ss sc_env st_root sc_root st_frames sc_open enter_body].
      apply (st_body (map strip items) V s' (length items) re fr sfr skips (Some (Z.of_nat k)) (Some re) (length items) e0 [] []); auto. constructor.
    + cbn [obind]. split; auto. split; [|cbn; lia]. exists V. split; auto.
      cbn [st_items st_ss sc_env st_root sc_root st_frames sc_open enter_body]. unfold slen.
      apply (st_body (map strip items) V skips (length items) e0 fr sfr skips None None (length items) e0 [] []); auto. constructor.
  - (* ELookup *)
    split; auto. split; [|cbn; lia]. exists V. split; auto. cbn [st_items st_ss sc_env st_root sc_root st_frames sc_open].
    destruct Fe as [F1 F2]. constructor; auto. unfold meanings.
    replace (firstn (length items) (map strip items)) with (map strip items) by (symmetry; apply firstn_all2; rewrite map_length; lia).
    rewrite (cx_env _ _ _ _ _ C).
    replace (length items) with (length (map strip items)) by apply map_length.
    rewrite <- (firstn_all fields), <- (firstn_all extra). rewrite !(firstn_all fields), !(firstn_all extra).
    pose proof (it_start skips (map strip items) id extra fields) as Q. unfold fields_rest, extra_rest in Q. rewrite !firstn_all in Q. exact Q.
  - (* ENext *)
    inversion K as [| | |? ? ? ? ? fr1 sfr1 id extra fields it rest K1 I1 S1 S2]; subst; auto.
    rewrite firstn_all2 in I1 by (rewrite map_length; lia).
    destruct (search_ok V items id it skips extra fields rest (cx_tidy _ _ _ _ _ C) (cx_view _ _ _ _ _ C) H) as (a & A & B & D & G); auto; [lia|].
    rewrite A. cbn [obind].
    assert (Le : length (an_items a) = length items) by (rewrite <- (map_length strip), B; apply map_length).
    assert (Re : forall rest', iter_ok skips (map strip items) id extra fields (an_iter a) rest' ->
      sim (State (an_items a) skips root (FSearch id extra fields (an_iter a) :: fr1)) (Scopes e0 renv (SLookup rest' :: sfr1)) /\
      slen (an_items a) <= slen items + 0).
    { intros rest' I'. split; [|unfold slen; rewrite Le; lia]. exists V. split; auto. cbn [st_items st_ss sc_env st_root sc_root st_frames sc_open].
      rewrite B, Le. constructor; auto. rewrite firstn_all2 by (rewrite map_length; lia). exact I'. }
    destruct rest as [|x rest].
    + destruct G as (g1 & g2 & g3). rewrite g1, g2. split; auto.
    + destruct G as (g1 & g2). rewrite g1. split; auto.
  - (* EClose *)
    assert (Sh : forall n, (n <= length items)%nat -> slen (shrink items (Z.of_nat n)) <= slen items + 0)
      by (intros n Hn; unfold slen, shrink; rewrite firstn_length; lia).
    inversion K as [|? ? ? ? ? fr1 sfr1 len0 e1 fns l C1 L1 F1 R1 K1|? ? ? fr1 sfr1 ss0 root0 renv0 len0 e1 fns l C1 L1 F1 K1|
      ? ? ? ? ? fr1 sfr1 id extra fields it rest K1 I1 S1 S2]; subst; auto.
    + split; auto. split; [|apply Sh; auto]. unfold shrink. rewrite Nat2Z.id. eapply shrink_sim; eauto.
    + split; auto. split; [|apply Sh; auto]. unfold shrink. rewrite Nat2Z.id. eapply shrink_sim; eauto.
    + split; auto. split; [exists V; auto|cbn; lia].
  - destruct Fe.
Qed.

Lemma run_sim es : forall s t, sim s t -> Forall fair_event es -> slen (st_items s) + pushes es < LIMIT ->
  option_map snd (run s es) = lexical_run t es.
Proof.
  induction es as [|e es IH]; intros s t S F L; [reflexivity|]. cbn [run lexical_run]. inversion F as [|? ? Fe Fs]; subst.
  assert (P : pushes (e :: es) = cost e + pushes es).
  { unfold pushes, slen. cbn [filter]. destruct e; cbn [cost length]; lia. }
  assert (P0 : 0 <= pushes es) by (unfold pushes, slen; lia).
  pose proof (step_sim s t e S Fe ltac:(lia)) as X.
  destruct (step s e) as [[s' o]|], (lexical_step t e) as [[t' o']|]; try contradiction; [|reflexivity].
  destruct X as (<- & S' & L'). cbn [obind fst snd]. rewrite <- (IH s' t' S' Fs) by lia.
  destruct (run s' es) as [[s2 l]|]; reflexivity.
Qed.
