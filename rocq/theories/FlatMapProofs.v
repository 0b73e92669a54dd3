From Verif Require Import CommonLemmas FlatModel FlatSpec FlatProofs.
From Coq Require Import Sorted.

Lemma combine_insert {A B} (ks : list A) (vs : list B) i k v :
  length ks = length vs -> i <= length ks ->
  combine (firstn i ks ++ k :: skipn i ks) (firstn i vs ++ v :: skipn i vs)
  = firstn i (combine ks vs) ++ (k, v) :: skipn i (combine ks vs).
Proof.
  revert ks vs; induction i as [|i IH]; intros ks vs Hl Hi; [reflexivity|].
  destruct ks as [|a ks]; destruct vs as [|b vs]; cbn in *; try lia.
  f_equal. apply IH; lia.
Qed.

Lemma combine_splice {A B} (ks : list A) (vs : list B) i n :
  length ks = length vs ->
  combine (firstn i ks ++ skipn (i + n) ks) (firstn i vs ++ skipn (i + n) vs)
  = firstn i (combine ks vs) ++ skipn (i + n) (combine ks vs).
Proof.
  revert ks vs; induction i as [|i IH]; intros ks vs Hl; cbn.
  - revert ks vs Hl; induction n as [|n IHn]; intros ks vs Hl; [reflexivity|].
    destruct ks as [|a ks]; destruct vs as [|b vs]; cbn in *; try lia; [reflexivity|]. apply IHn; lia.
  - destruct ks as [|a ks]; destruct vs as [|b vs]; cbn in *; try lia; [reflexivity|].
    f_equal; apply IH; lia.
Qed.

Lemma combine_upd {A B} (ks : list A) (vs : list B) i k v :
  length ks = length vs -> nth_error ks i = Some k ->
  combine ks (firstn i vs ++ v :: skipn (S i) vs)
  = firstn i (combine ks vs) ++ (k, v) :: skipn (S i) (combine ks vs).
Proof.
  revert ks vs; induction i as [|i IH]; intros ks vs Hl Hi;
    (destruct ks as [|a ks]; destruct vs as [|b vs]; cbn in *; try lia; try discriminate).
  - congruence.
  - f_equal. apply IH; [lia|exact Hi].
Qed.

Lemma nth_error_combine {A B} (ks : list A) (vs : list B) i k v :
  nth_error ks i = Some k -> nth_error vs i = Some v -> nth_error (combine ks vs) i = Some (k, v).
Proof.
  revert ks vs; induction i as [|i IH]; intros [|a ks] [|b vs] H1 H2; cbn in *; try discriminate.
  - congruence.
  - auto.
Qed.

Lemma combine_NoDup_fun {A B} (ks : list A) (vs : list B) k v v' :
  NoDup ks -> In (k, v) (combine ks vs) -> In (k, v') (combine ks vs) -> v = v'.
Proof.
  revert vs; induction ks as [|a ks IH]; intros [|b vs] ND H1 H2; cbn in *; try tauto.
  inversion ND as [|? ? Hn ND']; subst.
  destruct H1 as [H1|H1]; destruct H2 as [H2|H2].
  - congruence.
  - injection H1 as <- <-. apply in_combine_l in H2. tauto.
  - injection H2 as <- <-. apply in_combine_l in H1. tauto.
  - eauto.
Qed.

Section P.
Context {K : Type} (cmp : K -> K -> Z) (L : cmp_lawful cmp).
Notation klt := (klt cmp).
Notation ssorted := (ssorted cmp).
Definition keqb (a b : K) : bool := (cmp a b =? 0)%Z.

Lemma keqb_spec a b : reflect (a = b) (keqb a b).
Proof.
  unfold keqb. destruct (Z.eqb_spec (cmp a b) 0) as [E|N]; constructor.
  - apply (cmp_zero _ L); exact E.
  - intros H; apply (cmp_zero _ L) in H; auto.
Qed.

Section M.
Context {V : Type}.

(** The map stores exactly the graph of [f]. *)
Definition Rep (m : fmap K V) (f : K -> option V) : Prop :=
  ssorted (fm_keys m) /\ length (fm_keys m) = length (fm_vals m) /\
  (forall k v, f k = Some v <-> In (k, v) (combine (fm_keys m) (fm_vals m))).

Lemma Rep_none m f k : Rep m f -> (f k = None <-> ~ In k (fm_keys m)).
Proof.
  intros (S1 & E & M). split.
  - intros Hn Hin. apply In_nth_error in Hin as [i Hi].
    destruct (nth_error_ex (fm_vals m) i) as [v Hv].
    { rewrite <- E. eapply nth_error_lt; eauto. }
    assert (f k = Some v). { apply M. eapply nth_error_In, nth_error_combine; eauto. }
    congruence.
  - intros Hn. destruct (f k) as [v|] eqn:Ef; [|reflexivity]. apply M in Ef. apply in_combine_l in Ef. tauto.
Qed.

Lemma Rep_hit m f k i : Rep m f -> nth_error (fm_keys m) i = Some k ->
  exists v, nth_error (fm_vals m) i = Some v /\ f k = Some v.
Proof.
  intros (S1 & E & M) Hi. destruct (nth_error_ex (fm_vals m) i) as [v Hv].
  { rewrite <- E. eapply nth_error_lt; eauto. }
  exists v; split; auto. apply M. eapply nth_error_In, nth_error_combine; eauto.
Qed.

Lemma fm_get_spec (d : V) m f k : Rep m f -> fits (fm_keys m) ->
  fm_get cmp d m k = Some (match f k with Some v => v | None => d end).
Proof.
  intros R F. pose proof R as (S1 & E & M). unfold fm_get.
  pose proof (bfind_spec cmp L (fm_keys m) k S1 F) as B.
  destruct (bfind cmp (fm_keys m) k) as [i|i|]; [|destruct B as (B1 & B2 & B3)|destruct B].
  - destruct (Rep_hit m f k i R B) as (v & Hv & Hf). rewrite Hv, Hf; reflexivity.
  - rewrite (proj2 (Rep_none m f k R)); [reflexivity|]. eapply miss_not_In; eauto.
Qed.

Lemma fm_has_spec m f k : Rep m f -> fits (fm_keys m) ->
  fm_has cmp m k = Some (match f k with Some _ => true | None => false end).
Proof.
  intros R F. pose proof R as (S1 & E & M). unfold fm_has.
  destruct (set_has_spec cmp L (fm_keys m) k S1 F) as (b & -> & Hb). f_equal.
  destruct (f k) as [v|] eqn:Ef.
  - apply Hb. apply M in Ef. eapply in_combine_l; eauto.
  - apply (Rep_none m f k R) in Ef. destruct b; auto. exfalso; apply Ef, Hb; reflexivity.
Qed.

Lemma Rep_insert m f k v i : Rep m f -> i <= length (fm_keys m) ->
  below cmp k (firstn i (fm_keys m)) -> above cmp k (skipn i (fm_keys m)) ->
  Rep {| fm_keys := firstn i (fm_keys m) ++ k :: skipn i (fm_keys m);
         fm_vals := firstn i (fm_vals m) ++ v :: skipn i (fm_vals m) |}
      (fun x => if keqb x k then Some v else f x).
Proof.
  intros R Hi Hb Ha. pose proof R as (S1 & E & M). split; [|split]; cbn [fm_keys fm_vals].
  - apply ssorted_insert; auto.
  - rewrite !app_length; cbn [length]. rewrite !firstn_length, !skipn_length. lia.
  - intros x w. rewrite combine_insert by lia. rewrite In_insert.
    pose proof (miss_not_In cmp L _ _ _ Hb Ha) as Hn.
    destruct (keqb_spec x k) as [->|Hne].
    + split; [intros [= <-]; auto|]. intros [[= <-]|Hin]; auto. apply in_combine_l in Hin; tauto.
    + rewrite M. split; [auto|]. intros [[= -> ->]|]; tauto.
Qed.

Lemma Rep_upd m f k v i : Rep m f -> nth_error (fm_keys m) i = Some k ->
  Rep {| fm_keys := fm_keys m; fm_vals := firstn i (fm_vals m) ++ v :: skipn (S i) (fm_vals m) |}
      (fun x => if keqb x k then Some v else f x).
Proof.
  intros R Hi. pose proof R as (S1 & E & M). pose proof (nth_error_lt _ _ _ Hi) as Hlt.
  destruct (nth_error_ex (fm_vals m) i ltac:(lia)) as [w0 Hw0].
  split; [|split]; cbn [fm_keys fm_vals]; auto.
  - rewrite !app_length; cbn [length]. rewrite !firstn_length, !skipn_length. lia.
  - intros x w. rewrite (combine_upd _ _ _ k) by auto.
    pose proof (nth_error_combine _ _ _ _ _ Hi Hw0) as Hc.
    pose proof (nth_error_In_split _ _ _ Hc) as Es.
    pose proof (ssorted_NoDup cmp L _ S1) as ND.
    destruct (keqb_spec x k) as [->|Hne].
    + split; [intros [= <-]; apply in_or_app; right; left; reflexivity|].
      intros Hin. apply in_app_or in Hin.
      assert (Hnot : ~ exists u, In (k, u) (firstn i (combine (fm_keys m) (fm_vals m)))
                         \/ In (k, u) (skipn (S i) (combine (fm_keys m) (fm_vals m)))).
      { assert (NDc : NoDup (map fst (combine (fm_keys m) (fm_vals m)))).
        { assert (map fst (combine (fm_keys m) (fm_vals m)) = fm_keys m) as ->; auto.
          clear -E. revert E. generalize (fm_vals m). induction (fm_keys m) as [|a l IH]; intros [|b vs] E; cbn in *; try lia; auto.
          f_equal; apply IH; lia. }
        rewrite Es, map_app in NDc. cbn in NDc. apply NoDup_remove_2 in NDc. rewrite in_app_iff in NDc.
        intros (u & [Hu|Hu]); apply NDc; [left|right]; apply (in_map fst) in Hu; exact Hu. }
      destruct Hin as [Hin|[[= <-]|Hin]]; auto; exfalso; apply Hnot; eauto.
    + rewrite M. rewrite Es at 1. rewrite !in_app_iff. cbn. split; intros [|[[= ]|]]; auto; congruence.
Qed.

Lemma Rep_splice m f k i : Rep m f -> nth_error (fm_keys m) i = Some k ->
  Rep {| fm_keys := firstn i (fm_keys m) ++ skipn (i + 1) (fm_keys m);
         fm_vals := firstn i (fm_vals m) ++ skipn (i + 1) (fm_vals m) |}
      (fun x => if keqb x k then None else f x).
Proof.
  intros R Hi. pose proof R as (S1 & E & M). pose proof (nth_error_lt _ _ _ Hi) as Hlt.
  destruct (nth_error_ex (fm_vals m) i ltac:(lia)) as [w0 Hw0].
  destruct (ssorted_remove cmp L i _ k S1 Hi) as [S2 M2].
  split; [|split]; cbn [fm_keys fm_vals]; auto.
  - rewrite !app_length; cbn [length]. rewrite !firstn_length, !skipn_length. lia.
  - intros x w. rewrite combine_splice by auto.
    pose proof (nth_error_combine _ _ _ _ _ Hi Hw0) as Hc.
    pose proof (nth_error_In_split _ _ _ Hc) as Es.
    destruct (keqb_spec x k) as [->|Hne].
    + split; [discriminate|]. intros Hin. rewrite <- combine_splice in Hin by auto.
      apply in_combine_l in Hin. apply M2 in Hin. tauto.
    + rewrite M. rewrite Es at 1. rewrite !in_app_iff, Nat.add_1_r. cbn. split; intros [|H]; auto.
      destruct H as [[= ]|]; auto; congruence.
Qed.

Lemma Rep_ext m f g : Rep m f -> (forall k, f k = g k) -> Rep m g.
Proof. intros (S1 & E & M) H. split; [|split]; auto. intros k v. rewrite <- H. apply M. Qed.

Lemma fm_set_spec m f k v : Rep m f -> fits (fm_keys m) ->
  exists m' b, fm_set cmp m k v = Some (m', b) /\
    Rep m' (fun x => if keqb x k then Some v else f x) /\
    (b = match f k with Some _ => false | None => true end) /\
    length (fm_keys m') <= S (length (fm_keys m)).
Proof.
  intros R F. pose proof R as (S1 & E & M). unfold fm_set.
  pose proof (bfind_spec cmp L (fm_keys m) k S1 F) as B.
  destruct (bfind cmp (fm_keys m) k) as [i|i|]; [|destruct B as (B1 & B2 & B3)|destruct B].
  - pose proof (nth_error_lt _ _ _ B). rewrite upd_spec by lia. cbn [obind].
    eexists _, _; split; [reflexivity|]. split; [apply Rep_upd; auto|].
    destruct (Rep_hit m f k i R B) as (w & _ & ->). cbn; split; [reflexivity|lia].
  - rewrite !insert_at_spec by lia. cbn [obind]. eexists _, _; split; [reflexivity|].
    split; [apply Rep_insert; auto|].
    rewrite (proj2 (Rep_none m f k R)); [|eapply miss_not_In; eauto]. split; [reflexivity|].
    cbn. rewrite app_length; cbn [length]. rewrite firstn_length, skipn_length. lia.
Qed.

Lemma fm_if_spec m f k visit : Rep m f -> fits (fm_keys m) ->
  (forall v, f k = Some v -> exists r, visit v = Some r) ->
  exists m' b, fm_if cmp m k visit = Some (m', b) /\
    (b = match f k with Some _ => true | None => false end) /\
    Rep m' (fun x => if keqb x k then
       match f k with
       | None => None
       | Some v => match visit v with
                   | Some (v', true) => None
                   | Some (v', false) => Some v'
                   | None => None
                   end
       end else f x) /\ length (fm_keys m') <= length (fm_keys m).
Proof.
  intros R F Hv. pose proof R as (S1 & E & M). unfold fm_if.
  pose proof (bfind_spec cmp L (fm_keys m) k S1 F) as B.
  destruct (bfind cmp (fm_keys m) k) as [i|i|]; [|destruct B as (B1 & B2 & B3)|destruct B].
  - destruct (Rep_hit m f k i R B) as (w & Hw & Ef). rewrite Hw, Ef. cbn [obind].
    destruct (Hv w Ef) as [[v' rm] Hr]. rewrite Hr. cbn [obind].
    pose proof (nth_error_lt _ _ _ B). rewrite upd_spec by lia. cbn [obind].
    pose proof (Rep_upd m f k v' i R B) as R1.
    destruct rm.
    + rewrite splice_out_spec by lia. cbn [obind].
      rewrite splice_out_spec by (rewrite app_length; cbn [length]; rewrite firstn_length, skipn_length; lia).
      cbn [obind]. eexists _, _; split; [reflexivity|]. split; [reflexivity|]. split.
      * eapply Rep_ext; [apply (Rep_splice _ _ k i R1 B)|].
        intros x; cbn. destruct (keqb x k); reflexivity.
      * cbn. rewrite app_length, firstn_length, skipn_length. lia.
    + eexists _, _; split; [reflexivity|]. split; [reflexivity|]. split; [exact R1|cbn; lia].
  - assert (Hn : f k = None). { apply (Rep_none m f k R). eapply miss_not_In; eauto. }
    exists m, false. rewrite Hn. repeat split; auto.
    + destruct (keqb_spec k0 k) as [->|]; [discriminate|]. intros; apply M; auto.
    + intros Hin. apply M in Hin. destruct (keqb_spec k0 k) as [->|]; congruence.
Qed.

Lemma fm_ref_spec m f k init g : Rep m f -> fits (fm_keys m) ->
  (exists new, g (match f k with Some v => v | None => init end) = Some new) ->
  exists m' old new, fm_ref cmp m k init g = Some (m', old) /\
    old = match f k with Some v => v | None => init end /\ g old = Some new /\
    Rep m' (fun x => if keqb x k then Some new else f x) /\
    length (fm_keys m') <= S (length (fm_keys m)).
Proof.
  intros R F [new Hg]. pose proof R as (S1 & E & M). unfold fm_ref.
  pose proof (bfind_spec cmp L (fm_keys m) k S1 F) as B.
  destruct (bfind cmp (fm_keys m) k) as [i|i|]; [|destruct B as (B1 & B2 & B3)|destruct B].
  - cbn [obind]. destruct (Rep_hit m f k i R B) as (w & Hw & Ef). rewrite Ef in *. rewrite Hw. cbn [obind].
    rewrite Hg. cbn [obind]. pose proof (nth_error_lt _ _ _ B). rewrite upd_spec by lia. cbn [obind].
    eexists _, _, new; split; [reflexivity|]. repeat split; auto; try (cbn; lia).
    all: destruct (Rep_upd m f k new i R B) as (_ & H2 & H3); auto.
    all: apply H3.
  - rewrite !insert_at_spec by lia. cbn [obind].
    assert (Hn : f k = None). { apply (Rep_none m f k R). eapply miss_not_In; eauto. }
    rewrite Hn in *.
    assert (Hni : nth_error (firstn i (fm_vals m) ++ init :: skipn i (fm_vals m)) i = Some init).
    { rewrite nth_error_app2 by (rewrite firstn_length; lia). rewrite firstn_length.
      replace (i - Nat.min i (length (fm_vals m))) with 0 by lia. reflexivity. }
    rewrite Hni. cbn [obind]. rewrite Hg. cbn [obind].
    rewrite upd_spec by (apply nth_error_lt in Hni; exact Hni). cbn [obind].
    eexists _, _, new; split; [reflexivity|].
    pose proof (Rep_insert m f k init i R B1 B2 B3) as R1.
    split; [reflexivity|]. split; [exact Hg|]. split.
    + eapply Rep_ext; [apply (Rep_upd _ _ k new i R1)|].
      * cbn. rewrite nth_error_app2 by (rewrite firstn_length; lia). rewrite firstn_length.
        replace (i - Nat.min i (length (fm_keys m))) with 0 by lia. reflexivity.
      * intros x; cbn. destruct (keqb x k); reflexivity.
    + cbn. rewrite app_length; cbn [length]. rewrite firstn_length, skipn_length. lia.
Qed.

Lemma fm_each_spec m f : Rep m f ->
  fm_each m = Some (combine (fm_keys m) (fm_vals m)).
Proof.
  intros (_ & E & _). unfold fm_each. revert E. generalize (fm_vals m) as vs. generalize (fm_keys m) as ks.
  induction ks as [|k ks IH]; intros [|v vs] E; cbn in *; try lia; auto.
  rewrite IH by lia. reflexivity.
Qed.
End M.
End P.
