From Verif Require Import WordsLemmas AsciiModel.
Open Scope Z_scope.

Lemma upper_step s i c : nth_error s i = Some c ->
  (if (97 <=? c) && (c <=? 122) then upd s i (wrap 8 (c + (65 - 97))) else Some s)
  = Some (firstn i s ++ upper_c c :: skipn (S i) s).
Proof.
  intros H. unfold upper_c. destruct ((97 <=? c) && (c <=? 122)).
  - apply upd_spec. eapply nth_error_lt; eauto.
  - f_equal. apply nth_error_In_split; auto.
Qed.

Lemma lower_step s i c : nth_error s i = Some c ->
  (if (65 <=? c) && (c <=? 90) then upd s i (wrap 8 (c + (97 - 65))) else Some s)
  = Some (firstn i s ++ lower_c c :: skipn (S i) s).
Proof.
  intros H. unfold lower_c. destruct ((65 <=? c) && (c <=? 90)).
  - apply upd_spec. eapply nth_error_lt; eauto.
  - f_equal. apply nth_error_In_split; auto.
Qed.

Lemma to_upper_loop_spec b a :
  to_upper_loop (length b) (length a) (a ++ b) = Some (a ++ map upper_c b).
Proof.
  revert a; induction b as [|x b IH]; intros a; cbn [length to_upper_loop map].
  - reflexivity.
  - rewrite nth_error_mid. cbn [obind]. rewrite (upper_step _ _ x) by apply nth_error_mid. cbn [obind].
    rewrite firstn_mid, skipn_mid.
    replace (a ++ upper_c x :: b) with ((a ++ [upper_c x]) ++ b) by (rewrite <- app_assoc; reflexivity).
    replace (S (length a)) with (length (a ++ [upper_c x])) by (rewrite app_length; cbn [length]; lia).
    rewrite IH. rewrite <- app_assoc. reflexivity.
Qed.

Lemma to_lower_loop_spec b a :
  to_lower_loop (length b) (length a) (a ++ b) = Some (a ++ map lower_c b).
Proof.
  revert a; induction b as [|x b IH]; intros a; cbn [length to_lower_loop map].
  - reflexivity.
  - rewrite nth_error_mid. cbn [obind]. rewrite (lower_step _ _ x) by apply nth_error_mid. cbn [obind].
    rewrite firstn_mid, skipn_mid.
    replace (a ++ lower_c x :: b) with ((a ++ [lower_c x]) ++ b) by (rewrite <- app_assoc; reflexivity).
    replace (S (length a)) with (length (a ++ [lower_c x])) by (rewrite app_length; cbn [length]; lia).
    rewrite IH. rewrite <- app_assoc. reflexivity.
Qed.

Lemma upper_map s : upper s = Some (map upper_c s).
Proof. apply (to_upper_loop_spec s []). Qed.
Lemma lower_map s : lower s = Some (map lower_c s).
Proof. apply (to_lower_loop_spec s []). Qed.

Lemma upper_c_cases c : byte c ->
  (97 <= c <= 122 /\ upper_c c = c - 32) \/ (~ (97 <= c <= 122) /\ upper_c c = c).
Proof.
  intros Hc. unfold upper_c. destruct (Z.leb_spec 97 c), (Z.leb_spec c 122); cbn [andb];
    try (right; split; [lia|reflexivity]).
  left. split; [lia|]. rewrite wrap_small; [lia|]. unfold word; lia.
Qed.
Lemma lower_c_cases c : byte c ->
  (65 <= c <= 90 /\ lower_c c = c + 32) \/ (~ (65 <= c <= 90) /\ lower_c c = c).
Proof.
  intros Hc. unfold lower_c. destruct (Z.leb_spec 65 c), (Z.leb_spec c 90); cbn [andb];
    try (right; split; [lia|reflexivity]).
  left. split; [lia|]. rewrite wrap_small; [lia|]. unfold word; lia.
Qed.

(** Case mapping, position by position. *)
Lemma case_maps_proof : forall s, Forall byte s -> exists u l,
  upper s = Some u /\ lower s = Some l /\ to_upper s = Some u /\ to_lower s = Some l /\
  length u = length s /\ length l = length s /\
  (forall i c, nth_error s i = Some c ->
     nth_error u i = Some (if (97 <=? c) && (c <=? 122) then c - 32 else c) /\
     nth_error l i = Some (if (65 <=? c) && (c <=? 90) then c + 32 else c)) /\
  upper u = Some u /\ lower l = Some l /\ lower u = Some l /\ upper l = Some u.
Proof.
  intros s Hs. exists (map upper_c s), (map lower_c s).
  split; [apply upper_map|]. split; [apply lower_map|].
  split; [apply upper_map|]. split; [apply lower_map|].
  rewrite !map_length. split; [reflexivity|]. split; [reflexivity|].
  rewrite Forall_forall in Hs. split.
  - intros i c H. assert (Hc : byte c) by (apply Hs; eapply nth_error_In; eauto). split.
    + rewrite (map_nth_error _ _ _ H). f_equal. destruct (upper_c_cases c Hc) as [[H1 ->]|[H1 ->]]; destruct (_ && _) eqn:E; lia.
    + rewrite (map_nth_error _ _ _ H). f_equal. destruct (lower_c_cases c Hc) as [[H1 ->]|[H1 ->]]; destruct (_ && _) eqn:E; lia.
  - rewrite !upper_map, !lower_map, !map_map.
    assert (E : forall f g : Z -> Z, (forall c, byte c -> f c = g c) -> Some (map f s) = Some (map g s)).
    { intros f g E. f_equal. apply map_ext_in. intros c Hc; apply E, Hs, Hc. }
    assert (B : forall c, byte c -> byte (upper_c c) /\ byte (lower_c c)).
    { intros c Hc. unfold byte in *. destruct (upper_c_cases c Hc) as [[? ->]|[? ->]], (lower_c_cases c Hc) as [[? ->]|[? ->]]; lia. }
    repeat split; apply E; intros c Hc; destruct (B c Hc) as [Bu Bl];
      destruct (upper_c_cases c Hc) as [[? E1]|[? E1]], (lower_c_cases c Hc) as [[? E2]|[? E2]];
      destruct (upper_c_cases _ Bu) as [[? E3]|[? E3]], (lower_c_cases _ Bu) as [[? E4]|[? E4]];
      destruct (upper_c_cases _ Bl) as [[? E5]|[? E5]], (lower_c_cases _ Bl) as [[? E6]|[? E6]]; lia.
Qed.

(** trim *)
Lemma trim_start_spec s b a : s = a ++ b -> Forall (fun c => c <= 32) a ->
  exists start a' b', trim_start (length b) (length a) s = Some start /\ s = a' ++ b' /\ length a' = start /\
    Forall (fun c => c <= 32) a' /\ (forall c r, b' = c :: r -> 32 < c).
Proof.
  revert a; induction b as [|x b IH]; intros a E Ha; cbn [length trim_start].
  - exists (length a), a, []. repeat split; auto. intros; discriminate.
  - rewrite E. rewrite nth_error_mid. cbn [obind]. destruct (Z.ltb_spec 32 x).
    + exists (length a), a, (x :: b). repeat split; auto. intros c r [= <- <-]; auto.
    + rewrite <- E. replace (S (length a)) with (length (a ++ [x])) by (rewrite app_length; cbn [length]; lia).
      apply (IH (a ++ [x])).
      * rewrite E, <- app_assoc; reflexivity.
      * apply Forall_app; split; auto.
Qed.

Lemma trim_end_spec s a b c : s = a ++ b ++ c -> Forall (fun c => c <= 32) c ->
  exists e m d, trim_end (length b) (length a) s = Some e /\ s = a ++ m ++ d /\ e = (length a + length m)%nat /\
    Forall (fun c => c <= 32) d /\ (m = [] \/ exists m' x, m = m' ++ [x] /\ 32 < x).
Proof.
  revert c; induction b as [|x b IH] using rev_ind; intros c E Hc.
  - cbn [length trim_end]. exists (length a), [], c. repeat split; auto; cbn; lia.
  - rewrite app_length, Nat.add_comm; cbn [length Nat.add trim_end].
    assert (E' : s = (a ++ b) ++ x :: c) by (rewrite E, <- !app_assoc; reflexivity).
    assert (N : nth_error s (length a + length b) = Some x) by (rewrite <- app_length, E'; apply nth_error_mid).
    rewrite N. cbn [obind]. destruct (Z.ltb_spec 32 x).
    + exists (S (length a + length b)), (b ++ [x]), c. repeat split; auto.
      * rewrite !app_length; cbn [length]; lia.
      * right; eauto.
    + apply (IH (x :: c)); auto. rewrite E', <- app_assoc; reflexivity.
Qed.

Lemma trim_proof : forall s, exists pre mid suf,
  trim s = Some mid /\ s = pre ++ mid ++ suf /\
  Forall (fun c => c <= 32) pre /\ Forall (fun c => c <= 32) suf /\
  (forall c r, mid = c :: r -> 32 < c) /\ (forall r c, mid = r ++ [c] -> 32 < c).
Proof.
  intros s. destruct (trim_start_spec s s [] eq_refl (Forall_nil _)) as (st & a & b & H1 & H2 & H3 & H4 & H5).
  destruct (trim_end_spec s a b []) as (e & m & d & E1 & E2 & E3 & E4 & E5); [rewrite app_nil_r; auto|constructor|].
  exists a, m, d. unfold trim. cbn [length] in H1. rewrite H1. cbn [obind].
  replace (length s - st)%nat with (length b) by (rewrite H2, app_length; lia).
  rewrite <- H3, E1. cbn [obind].
  assert (b = m ++ d) as Hb by (apply (app_inv_head a); congruence).
  repeat split; auto.
  - f_equal. unfold sub_list. rewrite E3. replace (length a + length m - length a)%nat with (length m) by lia.
    rewrite E2. rewrite skipn_app, Nat.sub_diag, skipn_all. cbn [app skipn]. apply firstn_mid.
  - intros c r ->. cbn in Hb. eapply H5; eauto.
  - intros r c ->. destruct E5 as [E|(m' & x & E & Hx)]; [destruct r; discriminate|].
    apply app_inj_tail in E as [_ ->]. auto.
Qed.
