(** Proofs about resolveFile. *)
From Verif Require Import PathModel ResolveSpec ResolveModel.
From Coq Require Import List Arith ZArith Bool Lia.
Import ListNotations.
Open Scope nat_scope.

Lemma seqb_spec (a b : str) : reflect (a = b) (str_eqb a b).
Proof.
  unfold str_eqb. revert b. induction a as [|x a IH]; intros [|y b]; cbn; try (constructor; congruence).
  destruct (Z.eqb_spec x y); cbn; [|constructor; congruence]. destruct (IH b); constructor; congruence.
Qed.
Lemma seqb_refl a : str_eqb a a = true.
Proof. destruct (seqb_spec a a); congruence. Qed.
Lemma set_cache_same c k v : set_cache c k v k = Some v.
Proof. unfold set_cache. rewrite seqb_refl. auto. Qed.
Lemma set_cache_other c k v k' : k' <> k -> set_cache c k v k' = c k'.
Proof. intros H. unfold set_cache. destruct (seqb_spec k' k); congruence. Qed.

(** ** The directories above *)
Definition slashed (k : nat) (d : str) : list str :=
  filter ends_in_slash (rev (map (fun k => firstn k d) (seq 1 k))).
Lemma ends_in_slash_firstn k d : k < length d -> ends_in_slash (firstn (S k) d) = Z.eqb (nth k d 0%Z) sep.
Proof.
  intros H. unfold ends_in_slash.
  assert (E : firstn (S k) d = firstn k d ++ [nth k d 0%Z]).
  { revert k H. induction d as [|x d IH]; intros [|k] H; cbn in *; try lia; auto. f_equal. apply IH. lia. }
  rewrite E, rev_app_distr. auto.
Qed.
Lemma slashed_S k d : k < length d ->
  slashed (S k) d = if Z.eqb (nth k d 0%Z) sep then firstn (S k) d :: slashed k d else slashed k d.
Proof.
  intros H. unfold slashed. rewrite seq_S, map_app, rev_app_distr. cbn [map rev app filter plus].
  rewrite ends_in_slash_firstn by auto. destruct (Z.eqb _ _); auto.
Qed.
Lemma slashed_firstn k j d : k <= j -> j <= length d -> slashed k (firstn j d) = slashed k d.
Proof.
  induction k as [|k IH]; intros H1 H2; auto.
  rewrite !slashed_S by (rewrite ?firstn_length; lia). rewrite IH by lia.
  rewrite firstn_firstn, Nat.min_l by lia.
  assert (E : nth k (firstn j d) 0%Z = nth k d 0%Z).
  { rewrite <- (firstn_skipn j d) at 2. rewrite app_nth1; auto. rewrite firstn_length. lia. }
  rewrite E. auto.
Qed.
Lemma dirname_slashed d : forall i, i < length d \/ d = [] -> 
  match dirname_loop i d with
  | None => d = []
  | Some [] => slashed i d = []
  | Some u => exists k, k < i /\ u = firstn (S k) d /\ slashed i d = u :: slashed k d
  end.
Proof.
  induction i as [|i IH]; intros H; [reflexivity|]. cbn [dirname_loop].
  destruct H as [H|H]; [|subst; destruct i; reflexivity].
  destruct (nth_error d i) as [c|] eqn:E; [|apply nth_error_None in E; lia]. cbv iota beta.
  rewrite slashed_S by lia. assert (Nc : nth i d 0%Z = c) by (apply nth_error_nth; auto). rewrite Nc.
  change c_slash with sep. cbn [obind]. destruct (Z.eqb c sep).
  - rewrite Nat.add_1_r. destruct (firstn (S i) d) as [|u us] eqn:E1; [destruct d; [cbn in H; lia|discriminate E1]|]. exists i. auto.
  - specialize (IH (or_introl (Nat.lt_succ_l _ _ H))). destruct (dirname_loop i d) as [[|u us]|]; auto.
    destruct IH as (k & K1 & K2 & K3). exists k. split; [lia|auto].
Qed.
Lemma dir_up_upwards d : 
  (dir_up d = [] /\ upwards d = [d])
  \/ (dir_up d <> [] /\ length (dir_up d) < length d /\ (exists k, dir_up d = firstn k d) /\ upwards d = d :: upwards (dir_up d)).
Proof.
  unfold dir_up, dirname.
  assert (H : length d - 1 < length d \/ d = []) by (destruct d; cbn; [auto|lia]).
  pose proof (dirname_slashed d (length d - 1) H) as X.
  assert (U : upwards d = d :: slashed (length d - 1) d) by reflexivity.
  destruct (dirname_loop (length d - 1) d) as [[|u us]|] eqn:E.
  - left. split; auto. rewrite U, X. auto.
  - destruct X as (k & K1 & K2 & K3). right. split; [discriminate|].
    assert (L : length (u :: us) = S k) by (rewrite K2, firstn_length; lia).
    split; [lia|]. split; [eauto|].
    rewrite U, K3. f_equal. unfold upwards. fold (slashed (length (u :: us) - 1) (u :: us)). f_equal.
    rewrite L. rewrite K2. replace (S k - 1) with k by lia. rewrite slashed_firstn; auto; lia.
  - left. subst d. split; auto.
Qed.

(** ** Looking up *)
Section Look.
Variables (exists_ : str -> bool) (fudir : str).
Definition lib : option str := if ends Z.eqb fudir [c_slash] then Some (fudir ++ slib) else None.
Definition meant (d x : str) : str := match nearest exists_ lib d x with Some r => r | None => [] end.

Definition askable (d x : str) : Prop := d <> [] /\ ~ In vt d /\ x <> [].
Lemma askable_up d x : askable d x -> dir_up d <> [] -> askable (dir_up d) x.
Proof.
  intros (A & B & C) N. destruct (dir_up_upwards d) as [[E _]|(_ & _ & (k & E) & _)]; [congruence|].
  split; auto. split; auto. rewrite E. intros X. apply B. rewrite <- (firstn_skipn k d). apply in_or_app. auto.
Qed.
Definition enc (r : str) : str := if is_nil r then [vt] else r.
Definition dec (r : str) : str := if str_eqb r [vt] then [] else r.
Lemma here_ok d x : askable d x -> is_nil (d ++ x) = false /\ d ++ x <> [vt].
Proof.
  intros (A & B & C). destruct d as [|a d]; [congruence|]. split; auto. cbn. intros E. injection E as -> E.
  apply B. left. auto.
Qed.
Lemma lib_ok x : is_nil (fudir ++ slib ++ x) = false /\ fudir ++ slib ++ x <> [vt].
Proof. destruct fudir as [|a [|b f]]; split; auto; discriminate. Qed.

Lemma nearest_step d x : nearest exists_ lib d x =
  if exists_ (d ++ x) then Some (d ++ x)
  else if is_nil (dir_up d) then
    (match lib with Some b => if exists_ (b ++ x) then Some (b ++ x) else None | None => None end)
  else nearest exists_ lib (dir_up d) x.
Proof.
  unfold nearest. destruct (dir_up_upwards d) as [[E U]|(N & _ & _ & U)]; rewrite U; cbn [map app find].
  - rewrite E. cbn. destruct (exists_ (d ++ x)); auto. destruct lib; cbn; auto.
  - destruct (dir_up d) eqn:E; [congruence|]. cbn [is_nil]. rewrite <- E. auto.
Qed.

Lemma nearest_ok d x : askable d x -> forall r, nearest exists_ lib d x = Some r -> is_nil r = false /\ r <> [vt].
Proof.
  remember (length d) as n eqn:Ln. revert d Ln. induction n as [n IH] using lt_wf_ind. intros d -> A r.
  rewrite nearest_step. destruct (exists_ (d ++ x)); [intros [= <-]; apply here_ok; auto|].
  destruct (dir_up_upwards d) as [[E U]|(N & L & _ & U)].
  - rewrite E. cbn [is_nil]. unfold lib. destruct (ends _ _ _); [|discriminate].
    rewrite <- app_assoc. destruct (exists_ _); [|discriminate]. intros [= <-]. apply lib_ok.
  - destruct (dir_up d) eqn:E; [congruence|]. cbn [is_nil]. rewrite <- E in *. apply (IH (length (dir_up d))); auto.
    apply askable_up; auto.
Qed.
Lemma dec_enc d x : askable d x -> dec (enc (meant d x)) = meant d x.
Proof.
  intros A. unfold meant. pose proof (nearest_ok d x A) as N. destruct (nearest exists_ lib d x) as [r|]; cbn; auto.
  destruct (N r eq_refl) as [N1 N2]. unfold enc. rewrite N1. unfold dec. destruct (seqb_spec r [vt]); congruence.
Qed.

(** [V]: what has been and will be asked. *)
Variable V : str -> str -> Prop.
Hypothesis V_ask : forall d x, V d x -> askable d x.
Hypothesis V_up : forall d x, V d x -> dir_up d <> [] -> V (dir_up d) x.
Hypothesis V_agree : forall d x d' x', V d x -> V d' x' -> d ++ x = d' ++ x' -> meant d x = meant d' x'.

Definition good (c : cache) : Prop := forall k v, c k = Some v -> exists d x, V d x /\ d ++ x = k /\ v = enc (meant d x).

Lemma good_set c d x : good c -> V d x -> good (set_cache c (d ++ x) (enc (meant d x))).
Proof.
  intros G H k v. destruct (list_eq_dec Z.eq_dec k (d ++ x)) as [->|N].
  - rewrite set_cache_same. intros [= <-]. eauto.
  - rewrite set_cache_other by auto. apply G.
Qed.

Lemma resolve_good n : forall d x c, length d <= n -> good c -> V d x ->
  let '(r, c') := resolve exists_ fudir n d x c in r = meant d x /\ good c'.
Proof.
  assert (Step : forall n, (forall n', n = S n' -> forall d x c, length d <= n' -> good c -> V d x ->
      let '(r, c') := resolve exists_ fudir n' d x c in r = meant d x /\ good c') ->
    forall d x c, length d <= n -> good c -> V d x ->
      let '(r, c') := resolve exists_ fudir n d x c in r = meant d x /\ good c').
  { intros n0 IH d x c L G Hv.
    assert (U : resolve exists_ fudir n0 d x c =
      match c (d ++ x) with
      | Some cached => (dec cached, c)
      | None =>
        let '(r, c') :=
          if exists_ (d ++ x) then (d ++ x, c)
          else if is_nil (dir_up d) || (length d <=? length (dir_up d)) then
              if ends Z.eqb fudir [c_slash] && exists_ (fudir ++ slib ++ x) then (fudir ++ slib ++ x, c) else ([], c)
            else match n0 with O => ([], c) | S n' => resolve exists_ fudir n' (dir_up d) x c end
        in (r, set_cache c' (d ++ x) (enc r))
      end) by (destruct n0; reflexivity).
    rewrite U. clear U. destruct (c (d ++ x)) as [v|] eqn:Ec.
    - destruct (G _ _ Ec) as (d' & x' & V' & E & ->). split; auto. rewrite dec_enc by auto. apply V_agree; auto.
    - assert (M : meant d x = if exists_ (d ++ x) then d ++ x else if is_nil (dir_up d) then
          (if ends Z.eqb fudir [c_slash] && exists_ (fudir ++ slib ++ x) then fudir ++ slib ++ x else [])
          else meant (dir_up d) x).
      { unfold meant. rewrite nearest_step. destruct (exists_ (d ++ x)); auto. destruct (is_nil (dir_up d)); auto.
        unfold lib. destruct (ends _ _ _); cbn; auto. rewrite <- app_assoc. destruct (exists_ _); auto. }
      destruct (exists_ (d ++ x)).
      { pose proof (good_set c d x G Hv) as GS. rewrite M in GS. split; auto. }
      destruct (dir_up_upwards d) as [[E _]|(N & Ld & _ & _)].
      + rewrite E in M |- *. cbn [is_nil orb] in *. pose proof (good_set c d x G Hv) as GS.
        destruct (ends _ _ _ && _); rewrite M in GS; split; auto.
      + destruct (is_nil (dir_up d)) eqn:En; [destruct (dir_up d); [congruence|discriminate]|]. cbn [orb].
        destruct (Nat.leb_spec (length d) (length (dir_up d))); [lia|].
        destruct n0 as [|n']; [lia|].
        specialize (IH n' eq_refl (dir_up d) x c ltac:(lia) G (V_up d x Hv N)).
        destruct (resolve exists_ fudir n' (dir_up d) x c) as [r c']. destruct IH as [-> G'].
        pose proof (good_set c' d x G' Hv) as GS. rewrite M in GS. split; auto. }
  induction n as [|n IH]; apply Step; [discriminate|]. intros n' [= <-]. apply IH.
Qed.

Definition all_tried (d : str) (names : list str) : Prop :=
  forall l1 x l2, names = l1 ++ x :: l2 -> (forall y, In y l1 -> nearest exists_ lib d y = None) -> V d x.
Lemma all_tried_tl d x l : all_tried d (x :: l) -> nearest exists_ lib d x = None -> all_tried d l.
Proof.
  intros H N l1 y l2 E F. apply (H (x :: l1) y l2); [cbn; congruence|]. intros z [<-|Hz]; auto.
Qed.

Lemma run_names_good d names : forall c, good c -> all_tried d names ->
  let '(r, c') := run_names exists_ fudir d names c in
  r = match first_found (nearest exists_ lib d) names with Some r => r | None => [] end /\ good c'.
Proof.
  induction names as [|x l IH]; intros c G H; [cbn; auto|]. cbn [run_names first_found].
  assert (Vx : V d x) by (apply (H [] x l); auto; intros y []).
  pose proof (resolve_good (length d) d x c (le_n _) G Vx) as R.
  unfold resolve_file. destruct (resolve _ _ _ _ _ _) as [r c']. destruct R as [-> G'].
  unfold meant. pose proof (nearest_ok d x (V_ask _ _ Vx)) as N.
  destruct (nearest exists_ lib d x) as [r|] eqn:En; cbn [is_nil].
  - destruct (N r eq_refl) as [-> _]. auto.
  - apply IH; auto. apply all_tried_tl with x; auto.
Qed.
Lemma run_prepopulated_find has d names :
  run_prepopulated has d names = match find has (map (fun x => d ++ x) names) with Some r => r | None => [] end.
Proof. induction names as [|x l IH]; cbn; auto. destruct (has _); auto. Qed.
Lemma first_found_ok d names : (forall x, In x names -> askable d x) -> forall r,
  first_found (nearest exists_ lib d) names = Some r -> is_nil r = false.
Proof.
  induction names as [|x l IH]; [discriminate|]. intros H r. cbn [first_found].
  pose proof (nearest_ok d x (H x (or_introl eq_refl))) as N.
  destruct (nearest exists_ lib d x); [intros [= <-]; apply (N _ eq_refl)|]. apply IH. intros; apply H; right; auto.
Qed.

Lemma resolve_import_good has p c d names : good c -> parts p = Some (d, names) ->
  all_tried d names -> (forall x, In x names -> askable d x) ->
  let '(r, c') := resolve_import exists_ fudir has p c in
  r = match meaning exists_ has lib d names with Some r => r | None => p end /\ good c'.
Proof.
  intros G Hp H HA. unfold resolve_import. rewrite Hp.
  pose proof (run_names_good d names c G H) as R.
  destruct (run_names _ _ _ _ _) as [r c']. destruct R as [-> G']. unfold meaning.
  pose proof (first_found_ok d names HA) as F.
  destruct (first_found (nearest exists_ lib d) names) as [r|].
  - rewrite (F r eq_refl). cbn. auto.
  - cbn. rewrite (run_prepopulated_find has d names).
    destruct (find has (map (fun x => d ++ x) names)) as [r|] eqn:Ef; cbn; auto.
    apply find_some in Ef. destruct Ef as [Ef _]. apply in_map_iff in Ef. destruct Ef as (x & <- & Hx).
    destruct (here_ok d x (HA x Hx)) as [-> _]. cbn. auto.
Qed.
End Look.

(** ** The parts of an import *)
Lemma find_item_from_spec h c : forall i r, find_item_from Z.eqb h c i = r ->
  match r with
  | Some j => i <= j /\ nth_error h (j - i) = Some c /\ ~ In c (firstn (j - i) h)
  | None => ~ In c h
  end.
Proof.
  induction h as [|x h IH]; intros i r <-; cbn; auto.
  destruct (Z.eqb_spec x c) as [->|N].
  - rewrite Nat.sub_diag. auto.
  - specialize (IH (S i) _ eq_refl). destruct (find_item_from Z.eqb h c (S i)) as [j|].
    + destruct IH as (A & B & C). split; [lia|]. replace (j - i) with (S (j - S i)) by lia. cbn. split; auto.
      intros [X|X]; [congruence|auto].
    + intros [X|X]; [congruence|auto].
Qed.
Lemma find_item_spec h c :
  match find_item Z.eqb h c with
  | Some j => nth_error h j = Some c /\ ~ In c (firstn j h)
  | None => ~ In c h
  end.
Proof.
  pose proof (find_item_from_spec h c 0 _ eq_refl) as X. unfold find_item.
  destruct (find_item_from Z.eqb h c 0); auto. rewrite Nat.sub_0_r in X. tauto.
Qed.
Lemma names_of_nonempty name x : name <> [] -> In x (names_of name) -> x <> [].
Proof.
  intros N. unfold names_of. destruct (ends _ _ _); [intros [<-|[]]; auto|].
  set (P := match find_item Z.eqb name tab with Some _ => _ | None => _ end).
  destruct P as [nm alt] eqn:EP.
  intros [<-|[<-|H]].
  - destruct nm; discriminate.
  - destruct nm; discriminate.
  - unfold P in EP. destruct (find_item Z.eqb name tab) as [i|]; [|injection EP as <- <-; destruct H].
    destruct (_ && _); injection EP as <- <-; [|destruct H]. destruct H as [<-|[]]. destruct (firstn i name); discriminate.
Qed.
Lemma parts_spec p d names : parts p = Some (d, names) ->
  exists name, p = d ++ vt :: name /\ ~ In vt d /\ ~ In vt name /\ d <> [] /\ name <> [] /\ names = names_of name.
Proof.
  unfold parts. pose proof (find_item_spec p vt) as F. destruct (find_item Z.eqb p vt) as [i|]; [|discriminate].
  destruct F as [F1 F2]. destruct (Nat.ltb_spec 0 i); [|discriminate]. destruct (Nat.ltb_spec i (length p - 1)); [|discriminate].
  cbn [andb]. pose proof (find_item_spec (skipn (i + 1) p) vt) as F3. destruct (find_item Z.eqb (skipn (i + 1) p) vt); [discriminate|].
  intros [= <- <-]. exists (skipn (i + 1) p).
  assert (E : p = firstn i p ++ vt :: skipn (i + 1) p).
  { rewrite Nat.add_1_r. rewrite <- (firstn_skipn i p) at 1. f_equal. clear - F1. revert p F1.
    induction i as [|i IH]; intros [|x p] F1; cbn in *; try discriminate; [congruence|]. apply IH. auto. }
  split; auto. split; auto. split; auto. split; [|split; auto].
  - intros X. assert (Y : length (firstn i p) = 0) by (rewrite X; auto). rewrite firstn_length in Y. lia.
  - intros X. assert (Y : length (skipn (i + 1) p) = 0) by (rewrite X; auto). rewrite skipn_length in Y. lia.
Qed.
Lemma parts_make d name : d <> [] -> name <> [] -> ~ In vt d -> ~ In vt name ->
  parts (d ++ vt :: name) = Some (d, names_of name).
Proof.
  intros D N Vd Vn. unfold parts.
  assert (F : find_item Z.eqb (d ++ vt :: name) vt = Some (length d)).
  { unfold find_item. change (length d) with (0 + length d). generalize 0. clear - Vd. induction d as [|x d IH]; intros i; cbn.
    - rewrite Nat.add_0_r. auto.
    - destruct (Z.eqb_spec x vt) as [->|]; [exfalso; apply Vd; left; auto|]. rewrite IH; [f_equal; lia|]. intros X. apply Vd. right. auto. }
  rewrite F. assert (L1 : 0 < length d) by (destruct d; [congruence|cbn; lia]). assert (L2 : 0 < length name) by (destruct name; [congruence|cbn; lia]).
  assert (S1 : skipn (length d + 1) (d ++ vt :: name) = name).
  { rewrite skipn_app. rewrite skipn_all2 by lia. replace (length d + 1 - length d) with 1 by lia. auto. }
  rewrite S1. rewrite firstn_app, Nat.sub_diag, firstn_all. cbn [firstn]. rewrite app_nil_r.
  rewrite app_length. cbn [length]. destruct (Nat.ltb_spec 0 (length d)); [|lia].
  destruct (Nat.ltb_spec (length d) (length d + S (length name) - 1)); [|lia]. cbn [andb].
  pose proof (find_item_spec name vt) as F3. destruct (find_item Z.eqb name vt); [|auto].
  exfalso. apply Vn. eapply nth_error_In. apply F3.
Qed.

(** ** Requests *)
Lemma last_part_spec p : exists q, p = q ++ last_part p /\ ~ In sep (last_part p) /\ (q = [] \/ exists x, q = x ++ [sep]).
Proof.
  unfold last_part. assert (G : forall p, exists q, p = until_slash p ++ q /\ ~ In sep (until_slash p) /\ (q = [] \/ exists x, q = sep :: x)).
  { clear. induction p as [|c p (q & A & B & C)]; cbn; [exists []; auto|]. destruct (Z.eqb_spec c sep) as [->|N].
    - exists (sep :: p). split; auto. split; [intros []|]. eauto.
    - exists q. cbn. split; [congruence|]. split; auto. intros [X|X]; auto. }
  destruct (G (rev p)) as (q & A & B & C). exists (rev q). split; [|split].
  - rewrite <- rev_app_distr, <- A, rev_involutive. auto.
  - intros X. apply B. apply in_rev. auto.
  - destruct C as [->|[x ->]]; [auto|]. right. exists (rev x). auto.
Qed.
Lemma after_last_spec s : forall i, i <= length s ->
  let k := after_last i s c_slash in
  k <= i /\ ~ In sep (firstn (i - k) (skipn k s)) /\ (k = 0 \/ nth_error s (k - 1) = Some sep).
Proof.
  induction i as [|i IH]; intros L; cbn [after_last]; [cbn; auto|].
  change c_slash with sep in *. destruct (Z.eqb_spec (nth i s 0%Z) sep) as [E|N].
  - cbv zeta. split; auto. rewrite Nat.sub_diag. split; [intros []|]. right. cbn. rewrite Nat.sub_0_r.
    rewrite <- E. apply nth_error_nth'. lia.
  - specialize (IH ltac:(lia)). cbv zeta in *. destruct IH as (A & B & C). split; [lia|]. split; auto.
    set (k := after_last i s sep) in *.
    assert (E : firstn (S i - k) (skipn k s) = firstn (i - k) (skipn k s) ++ [nth i s 0%Z]).
    { replace (S i - k) with (S (i - k)) by lia.
      assert (X : forall (l : str) n, n < length l -> firstn (S n) l = firstn n l ++ [nth n l 0%Z]).
      { clear. induction l as [|y l IHl]; intros [|n] H; cbn in *; try lia; auto. f_equal. apply IHl. lia. }
      rewrite X by (rewrite skipn_length; lia). f_equal. f_equal.
      rewrite <- (firstn_skipn k s) at 2. rewrite app_nth2 by (rewrite firstn_length; lia). f_equal. rewrite firstn_length. lia. }
    rewrite E. intros X. apply in_app_or in X. destruct X as [X|[X|[]]]; auto.
Qed.
Lemma tail_unique (a b a' b' : str) : a ++ b = a' ++ b' -> ~ In sep b -> ~ In sep b' ->
  (a = [] \/ exists x, a = x ++ [sep]) -> (a' = [] \/ exists x, a' = x ++ [sep]) -> a = a' /\ b = b'.
Proof.
  assert (G : forall a b a' b' : str, a ++ b = a' ++ b' -> ~ In sep b -> (a' = [] \/ exists x, a' = x ++ [sep]) -> length a <= length a' -> a = a' /\ b = b').
  { clear. intros a b a' b' E N S1 L.
    assert (A : a = firstn (length a) a').
    { assert (X : firstn (length a) (a ++ b) = firstn (length a) (a' ++ b')) by congruence.
      rewrite firstn_app, firstn_all, Nat.sub_diag, firstn_O, app_nil_r in X.
      rewrite firstn_app in X. replace (length a - length a') with 0 in X by lia. rewrite firstn_O, app_nil_r in X. auto. }
    rewrite <- (firstn_skipn (length a) a') in E. rewrite <- A in E. rewrite <- app_assoc in E. apply app_inv_head in E.
    destruct (Nat.eq_dec (length a) (length a')) as [Q|Q].
    - rewrite skipn_all2 in E by lia. cbn in E. split; auto. rewrite A, Q. apply firstn_all.
    - exfalso. apply N. rewrite E. apply in_or_app. left.
      destruct S1 as [->|[x ->]]; [cbn in *; lia|]. rewrite app_length in *. cbn in *.
      rewrite skipn_app. apply in_or_app. right. replace (length a - length x) with 0 by lia. cbn. auto. }
  intros E N1 N2 S1 S2. destruct (Nat.le_ge_cases (length a) (length a')) as [L|L]; [apply (G a b a' b'); auto|].
  destruct (G a' b' a b) as [-> ->]; auto.
Qed.
Lemma after_last_part s : skipn (after_last (length s) s c_slash) s = last_part s.
Proof.
  destruct (after_last_spec s (length s) (le_n _)) as (A & B & C). set (k := after_last (length s) s c_slash) in *.
  destruct (last_part_spec s) as (q & D & E & F).
  rewrite firstn_all2 in B by (rewrite skipn_length; lia).
  destruct (tail_unique (firstn k s) (skipn k s) q (last_part s)) as [_ X]; auto.
  - rewrite firstn_skipn. auto.
  - clear A B. clearbody k. destruct k as [|k]; [left; auto|right]. destruct C as [C|C]; [discriminate|]. exists (firstn (S k - 1) s). cbn [Nat.sub] in C. rewrite Nat.sub_0_r in C.
    cbn [Nat.sub]. rewrite Nat.sub_0_r. clear - C. revert k C. induction s as [|x s IH]; intros [|k] C; cbn in *; try discriminate; [congruence|].
    f_equal. apply IH. auto.
Qed.
Lemma ends_fu p : ends Z.eqb p dot_fu = ends_in_fu p.
Proof.
  unfold ends, ends_in_fu. change (eqb_list Z.eqb) with str_eqb. change (length dot_fu) with 3.
  assert (W : 3 <= length p -> view_between p (length p - 3) (length p) = skipn (length p - 3) p).
  { intros L. unfold view_between. apply firstn_all2. rewrite skipn_length. lia. }
  destruct (Nat.leb_spec 3 (length p)) as [L|L]; cbn [andb].
  - rewrite W by auto. change dot_fu_ with dot_fu.
    destruct (seqb_spec (skipn (length p - 3) p) dot_fu), (list_eq_dec Z.eq_dec (skipn (length p - 3) p) dot_fu); congruence.
  - destruct (list_eq_dec Z.eq_dec (skipn (length p - 3) p) dot_fu_) as [E|]; auto. exfalso.
    assert (X : length (skipn (length p - 3) p) = 3) by (rewrite E; auto). rewrite skipn_length in X. lia.
Qed.
Lemma find_item_make d x t : ~ In x d -> find_item Z.eqb (d ++ x :: t) x = Some (length d).
Proof.
  intros N. pose proof (find_item_spec (d ++ x :: t) x) as F. destruct (find_item Z.eqb (d ++ x :: t) x) as [i|].
  - destruct F as [F1 F2]. f_equal. destruct (Nat.lt_trichotomy i (length d)) as [L|[L|L]]; auto; exfalso.
    + rewrite nth_error_app1 in F1 by auto. apply N. eapply nth_error_In; eauto.
    + apply F2. rewrite firstn_app. apply in_or_app. right. destruct (i - length d) eqn:E; [lia|]. left. auto.
  - exfalso. apply F. apply in_or_app. right. left. auto.
Qed.
Lemma find_item_none d x : ~ In x d -> find_item Z.eqb d x = None.
Proof.
  intros N. pose proof (find_item_spec d x) as F. destruct (find_item Z.eqb d x) as [i|]; auto.
  exfalso. apply N. eapply nth_error_In. apply F.
Qed.
Lemma names_of_conventions q : proper q ->
  names_of (r_name q ++ match r_id q with Some i => 9%Z :: i | None => [] end) = conventions q.
Proof.
  intros (_ & _ & N & _ & T & I). unfold names_of, conventions. destruct (r_id q) as [i|].
  - destruct I as (I1 & I2 & I3 & I4). rewrite ends_fu.
    assert (E : ends_in_fu (r_name q ++ 9%Z :: i) = false).
    { unfold ends_in_fu. destruct list_eq_dec as [E|]; auto. exfalso. set (p := r_name q ++ 9%Z :: i) in *.
      assert (L : length p = length (r_name q) + S (length i)) by (unfold p; rewrite app_length; auto).
      destruct (Nat.le_gt_cases (length i) 2) as [Li|Li].
      - assert (X : In 9%Z (skipn (length p - 3) p)).
        { unfold p at 2. rewrite skipn_app. apply in_or_app. right.
          replace (length p - 3 - length (r_name q)) with 0 by lia. left. auto. }
        rewrite E in X. destruct X as [X|[X|[X|[]]]]; discriminate.
      - assert (X : In 46%Z i).
        { assert (Y : skipn (length p - 3) p = skipn (length p - 3 - length (r_name q) - 1) i).
          { unfold p at 2. rewrite skipn_app. rewrite skipn_all2 by lia. cbn.
            destruct (length p - 3 - length (r_name q)) eqn:Q; [lia|]. cbn. rewrite Nat.sub_0_r. auto. }
          rewrite E in Y. rewrite <- (firstn_skipn (length p - 3 - length (r_name q) - 1) i). apply in_or_app. right.
          rewrite <- Y. left. auto. }
        auto. }
    rewrite E. rewrite find_item_make by auto.
    assert (LN : 0 < length (r_name q)) by (destruct (r_name q); [congruence|cbn; lia]).
    assert (LI : 0 < length i) by (destruct i; [congruence|cbn; lia]).
    assert (SK : skipn (length (r_name q) + 1) (r_name q ++ 9%Z :: i) = i).
    { rewrite skipn_app. rewrite skipn_all2 by lia. replace (length (r_name q) + 1 - length (r_name q)) with 1 by lia. auto. }
    assert (FI : firstn (length (r_name q)) (r_name q ++ 9%Z :: i) = r_name q).
    { rewrite firstn_app, Nat.sub_diag, firstn_all. cbn. apply app_nil_r. }
    rewrite SK, FI, (find_item_none i) by auto. rewrite app_length. cbn [length].
    destruct (Nat.ltb_spec 0 (length (r_name q))); [|lia].
    destruct (Nat.ltb_spec (length (r_name q)) (length (r_name q) + S (length i) - 1)); [|lia].
    cbn [andb]. rewrite after_last_part. reflexivity.
  - rewrite app_nil_r, ends_fu. destruct (ends_in_fu (r_name q)); auto.
    rewrite find_item_none by auto. rewrite after_last_part. reflexivity.
Qed.
Lemma parts_spell q : proper q -> parts (spell q) = Some (r_dir q, conventions q).
Proof.
  intros P. rewrite <- names_of_conventions by auto. destruct P as ((x & D) & V & N & NV & T & I).
  unfold spell. apply parts_make; auto.
  - rewrite D. destruct x; discriminate.
  - destruct (r_name q); [congruence|discriminate].
  - intros X. apply in_app_or in X. destruct X as [X|X]; auto. destruct (r_id q); [|destruct X].
    destruct X as [X|X]; [discriminate|]. tauto.
Qed.
Lemma conventions_nonempty q x : proper q -> In x (conventions q) -> x <> [].
Proof.
  intros P H. rewrite <- names_of_conventions in H by auto. revert H. apply names_of_nonempty.
  destruct P as (_ & _ & N & _). destruct (r_name q); [congruence|discriminate].
Qed.

(** ** The directories above, once more *)
Lemma upwards_up d0 : forall d, In d (upwards d0) -> dir_up d <> [] -> In (dir_up d) (upwards d0).
Proof.
  remember (length d0) as n eqn:Ln. revert d0 Ln. induction n as [n IH] using lt_wf_ind. intros d0 -> d H N.
  destruct (dir_up_upwards d0) as [[E U]|(N0 & L & _ & U)]; rewrite U in *.
  - destruct H as [<-|[]]. congruence.
  - destruct H as [<-|H]; [right; left; auto|]. right. apply (IH (length (dir_up d0))); auto.
Qed.
Lemma upwards_prefix d0 d : In d (upwards d0) -> exists k, d = firstn k d0.
Proof.
  intros [<-|H]; [exists (length d0); symmetry; apply firstn_all|].
  apply filter_In in H. destruct H as [H _]. apply in_rev, in_map_iff in H. destruct H as (k & <- & _). eauto.
Qed.
Lemma upwards_nonempty d0 d : d0 <> [] -> In d (upwards d0) -> d <> [].
Proof.
  intros N [<-|H]; auto. apply filter_In in H. destruct H as [_ H]. intros ->. discriminate.
Qed.
Lemma upwards_slash d0 d : (exists x, d0 = x ++ [sep]) -> In d (upwards d0) -> exists x, d = x ++ [sep].
Proof.
  intros S0 [<-|H]; auto. apply filter_In in H. destruct H as [_ H]. unfold ends_in_slash in H.
  destruct (rev d) as [|c r] eqn:E; [discriminate|]. apply Z.eqb_eq in H. subst c. exists (rev r).
  rewrite <- (rev_involutive d), E. auto.
Qed.
Lemma askable_upwards q d x : proper q -> In x (conventions q) -> In d (upwards (r_dir q)) -> askable d x.
Proof.
  intros P Hx Hd. pose proof (conventions_nonempty q x P Hx) as Nx. destruct P as ((y & D) & V & _).
  split; [|split; auto].
  - apply upwards_nonempty with (r_dir q); auto. rewrite D. destruct y; discriminate.
  - destruct (upwards_prefix _ _ Hd) as [k ->]. intros X. apply V. rewrite <- (firstn_skipn k (r_dir q)). apply in_or_app. auto.
Qed.

Section All.
Variables (exists_ has : str -> bool) (fudir : str).
Lemma resolve_all_wanted l : Forall proper l -> no_clash exists_ (lib fudir) l ->
  forall c l', incl l' l ->
  good exists_ fudir (fun d x => exists q, In q l /\ tried exists_ (lib fudir) q x /\ In d (upwards (r_dir q))) c ->
  fst (resolve_all exists_ fudir has (map spell l') c) = map (wanted exists_ has (lib fudir)) l'.
Proof.
  intros F NC c l' Hl G. rewrite Forall_forall in F.
  set (V := fun d x => exists q, In q l /\ tried exists_ (lib fudir) q x /\ In d (upwards (r_dir q))) in *.
  assert (V_ask : forall d x, V d x -> askable d x).
  { intros d x (q & Hq & (l1 & l2 & E & _) & Hd). apply askable_upwards with q; auto. rewrite E. apply in_or_app. right. left. auto. }
  assert (V_up : forall d x, V d x -> dir_up d <> [] -> V (dir_up d) x).
  { intros d x (q & Hq & T & Hd) N. exists q. split; auto. split; auto. apply upwards_up; auto. }
  assert (V_ag : forall d x d' x', V d x -> V d' x' -> d ++ x = d' ++ x' -> meant exists_ fudir d x = meant exists_ fudir d' x').
  { intros d x d' x' (q & Hq & T & Hd) (q' & Hq' & T' & Hd') E. unfold meant. rewrite (NC q q' x x' d d'); auto. }
  revert c G. induction l' as [|q l' IH]; intros c G; cbn [map resolve_all]; auto.
  assert (Hq : In q l) by (apply Hl; left; auto).
  pose proof (resolve_import_good exists_ fudir V V_ask V_up V_ag has (spell q) c (r_dir q) (conventions q) G (parts_spell q (F q Hq))) as R.
  assert (A1 : all_tried exists_ fudir V (r_dir q) (conventions q)).
  { intros l1 x l2 E T. exists q. split; auto. split; [exists l1, l2; auto|left; auto]. }
  assert (A2 : forall x, In x (conventions q) -> askable (r_dir q) x).
  { intros x Hx. apply askable_upwards with q; auto. left. auto. }
  specialize (R A1 A2). destruct (resolve_import _ _ _ _ _) as [r c1]. destruct R as [R1 R2].
  specialize (IH (fun y Hy => Hl y (or_intror Hy)) c1 R2).
  destruct (resolve_all _ _ _ _ _) as [rs c2]. cbn [fst] in *. rewrite R1, IH. reflexivity.
Qed.
End All.

(** ** Whatever was asked before *)
Section Any.
Variables (exists_ has : str -> bool) (fudir : str).

Lemma resolve_unfold n d x c : resolve exists_ fudir n d x c =
  match c (d ++ x) with
  | Some cached => (dec cached, c)
  | None =>
    let '(r, c') :=
      if exists_ (d ++ x) then (d ++ x, c)
      else if is_nil (dir_up d) || (length d <=? length (dir_up d)) then
          if ends Z.eqb fudir [c_slash] && exists_ (fudir ++ slib ++ x) then (fudir ++ slib ++ x, c) else ([], c)
        else match n with O => ([], c) | S n' => resolve exists_ fudir n' (dir_up d) x c end
    in (r, set_cache c' (d ++ x) (enc r))
  end.
Proof. destruct n; reflexivity. Qed.

(** What a cache may say: where there is a file, that one; else a file of the same name. *)
Definition honest (c : cache) : Prop := forall k v, c k = Some v ->
  (exists_ k = true -> v = k /\ k <> [] /\ k <> [vt]) /\ (dec v <> [] -> exists_ v = true /\ last_part v = last_part k).

Lemma last_part_app d x : (exists y, d = y ++ [sep]) -> last_part (d ++ x) = last_part x.
Proof.
  intros (y & ->). destruct (last_part_spec (((y ++ [sep]) ++ x))) as (q & E & N & Q).
  destruct (last_part_spec x) as (q' & E' & N' & Q').
  assert (T : ((y ++ [sep]) ++ q') ++ last_part x = q ++ last_part ((y ++ [sep]) ++ x)).
  { rewrite <- E, <- app_assoc, <- E'. auto. }
  apply tail_unique in T; auto; try (symmetry; apply T).
  right. destruct Q' as [->|(z & ->)]; [exists y; rewrite app_nil_r; auto|].
  exists ((y ++ [sep]) ++ z). rewrite app_assoc. auto.
Qed.

Lemma dir_up_slash d : dir_up d <> [] -> exists y, dir_up d = y ++ [sep].
Proof.
  intros N. destruct (dir_up_upwards d) as [[E _]|(_ & L & _ & U)]; [congruence|].
  assert (H : In (dir_up d) (tl (upwards d))) by (rewrite U; left; auto).
  cbn [upwards tl] in H. apply filter_In in H. destruct H as [_ H]. unfold ends_in_slash in H.
  destruct (rev (dir_up d)) as [|c r] eqn:E; [discriminate|]. apply Z.eqb_eq in H. subst c. exists (rev r).
  rewrite <- (rev_involutive (dir_up d)), E. auto.
Qed.

(** The answer of a lookup. *)
Definition fair (k r : str) : Prop := (exists_ k = true -> r = k) /\ (r <> [] -> exists_ r = true /\ last_part r = last_part k).

Lemma resolve_fair n : forall d x c, askable d x -> (exists y, d = y ++ [sep]) -> honest c ->
  let '(r, c') := resolve exists_ fudir n d x c in fair (d ++ x) r /\ honest c' /\ r <> [vt].
Proof.
  assert (HS : forall c d x r, askable d x -> honest c -> fair (d ++ x) r -> r <> [vt] -> honest (set_cache c (d ++ x) (enc r))).
  { intros c d x r A H (F1 & F2) Nv k v. destruct (list_eq_dec Z.eq_dec k (d ++ x)) as [->|N].
    - rewrite set_cache_same. intros [= <-]. destruct (here_ok d x A) as [K1 K2]. unfold enc. split.
      + intros X. rewrite (F1 X), K1. split; auto. split; auto. intros Y. rewrite Y in K1. discriminate.
      + destruct r as [|a r]; cbn [is_nil]; [intros X; exfalso; apply X; reflexivity|]. intros _. apply F2. discriminate.
    - rewrite set_cache_other by auto. apply H. }
  induction n as [n IH] using lt_wf_ind. intros d x c A D H. rewrite resolve_unfold.
  destruct (here_ok d x A) as [K1 K2].
  destruct (c (d ++ x)) as [v|] eqn:Ec.
  { destruct (H _ _ Ec) as (H1 & H2). split; [|split; auto].
    - split.
      + intros X. destruct (H1 X) as (-> & N1 & N2). unfold dec. destruct (seqb_spec (d ++ x) [vt]); congruence.
      + intros N. destruct (H2 N) as (X1 & X2). unfold dec in *. destruct (seqb_spec v [vt]); [congruence|auto].
    - unfold dec. destruct (seqb_spec v [vt]); congruence. }
  destruct (exists_ (d ++ x)) eqn:Ex.
  { assert (F : fair (d ++ x) (d ++ x)) by (split; auto). split; auto. }
  assert (NF : fair (d ++ x) []) by (split; [congruence|intros X; congruence]).
  destruct (is_nil (dir_up d) || (length d <=? length (dir_up d))) eqn:Eb.
  - destruct (ends Z.eqb fudir [c_slash] && exists_ (fudir ++ slib ++ x)) eqn:El.
    + destruct (lib_ok fudir x) as [L1 L2].
      assert (F : fair (d ++ x) (fudir ++ slib ++ x)).
      { split; [congruence|]. intros _. apply andb_true_iff in El. destruct El as [_ El]. split; auto.
        rewrite (last_part_app d x D). rewrite app_assoc. apply last_part_app. exists (fudir ++ [108; 105; 98]%Z).
        rewrite <- app_assoc. reflexivity. }
      split; auto.
    + split; auto. split; [|discriminate]. apply HS; auto. discriminate.
  - destruct n as [|n']. { split; auto. split; [|discriminate]. apply HS; auto. discriminate. }
    assert (N : dir_up d <> []) by (intros X; rewrite X in Eb; discriminate).
    specialize (IH n' ltac:(lia) (dir_up d) x c (askable_up d x A N) (dir_up_slash d N) H).
    destruct (resolve exists_ fudir n' (dir_up d) x c) as [r c']. destruct IH as ((F1 & F2) & H' & Nv).
    assert (F : fair (d ++ x) r).
    { split; [congruence|]. intros X. destruct (F2 X) as (Y1 & Y2). split; auto. rewrite Y2, last_part_app by (apply dir_up_slash; auto).
      symmetry. apply last_part_app. auto. }
    split; auto.
Qed.

Lemma run_names_fair d names : (exists y, d = y ++ [sep]) -> (forall x, In x names -> askable d x) -> forall c, honest c ->
  let '(r, c') := run_names exists_ fudir d names c in
  honest c' /\ (r <> [] -> exists x, In x names /\ exists_ r = true /\ last_part r = last_part x)
  /\ (forall x t, names = x :: t -> exists_ (d ++ x) = true -> r = d ++ x).
Proof.
  intros D. induction names as [|x l IH]; intros A c H; cbn [run_names]. { split; auto. split; [congruence|]. discriminate. }
  unfold resolve_file.
  pose proof (resolve_fair (length d) d x c (A x (or_introl eq_refl)) D H) as R.
  destruct (resolve exists_ fudir (length d) d x c) as [r c']. destruct R as ((F1 & F2) & H' & _).
  destruct (is_nil r) eqn:En.
  - specialize (IH (fun y Hy => A y (or_intror Hy)) c' H').
    destruct (run_names exists_ fudir d l c') as [r2 c2]. destruct IH as (I1 & I2 & _).
    split; auto. split. { intros N. destruct (I2 N) as (y & Hy & Y). exists y. split; [right|]; auto. }
    intros x' t [= <- <-] X. rewrite (F1 X) in En. destruct (here_ok d x (A x (or_introl eq_refl))) as [K _]. congruence.
  - split; auto. split. { intros N. exists x. split; [left; auto|]. destruct (F2 N) as (Y1 & Y2). split; auto. rewrite Y2. apply last_part_app. auto. }
    intros x' t [= <- <-] X. auto.
Qed.

Notation answers := (acceptable exists_ has).

Lemma resolve_import_fair q c : proper q -> honest c ->
  let '(r, c') := resolve_import exists_ fudir has (spell q) c in honest c' /\ answers q r.
Proof.
  intros P H. unfold resolve_import. rewrite (parts_spell q P).
  assert (A : forall x, In x (conventions q) -> askable (r_dir q) x).
  { intros x Hx. apply askable_upwards with q; auto. left. auto. }
  pose proof (run_names_fair (r_dir q) (conventions q) (proj1 P) A c H) as R.
  destruct (run_names exists_ fudir (r_dir q) (conventions q) c) as [r c']. destruct R as (H' & R1 & R2).
  destruct (is_nil r) eqn:En; cbn [negb].
  - assert (X : forall x t, conventions q = x :: t -> exists_ (r_dir q ++ x) = true -> False).
    { intros x t E Y. rewrite (R2 x t E Y) in En.
      destruct (here_ok (r_dir q) x) as [K _]; [apply A; rewrite E; left; auto|]. congruence. }
    rewrite (run_prepopulated_find has (r_dir q) (conventions q)).
    destruct (find has (map (fun x => r_dir q ++ x) (conventions q))) as [p|] eqn:Ef.
    + apply find_some in Ef. destruct Ef as [Ef Eh]. apply in_map_iff in Ef. destruct Ef as (x & <- & Hx).
      destruct (here_ok (r_dir q) x (A x Hx)) as [-> _]. cbn [negb]. split; auto. split.
      * right. exists x. split; auto.
      * intros x' t E Y. destruct (X x' t E Y).
    + cbn. split; auto. split; auto. intros x' t E Y. destruct (X x' t E Y).
  - split; auto. split; auto. right. destruct R1 as (x & Hx & Y); [destruct r; discriminate|]. exists x. auto.
Qed.

Lemma resolve_all_fair l : Forall proper l -> forall c, honest c ->
  Forall2 answers l (fst (resolve_all exists_ fudir has (map spell l) c)).
Proof.
  intros F. induction F as [|q l P F IH]; intros c H; cbn [map resolve_all]. { constructor. }
  pose proof (resolve_import_fair q c P H) as R. destruct (resolve_import _ _ _ _ _) as [r c1]. destruct R as [H1 R].
  specialize (IH c1 H1). destruct (resolve_all exists_ fudir has (map spell l) c1) as [rs c2]. cbn [fst] in *. constructor; auto.
Qed.

(** ** Asking again *)
Definition keeps (c c' : cache) : Prop := forall k v, c k = Some v -> c' k = Some v.
Lemma keeps_refl c : keeps c c. Proof. intros k v H; auto. Qed.
Lemma keeps_trans a b c : keeps a b -> keeps b c -> keeps a c. Proof. intros H K k v E. auto. Qed.

Lemma resolve_keeps n : forall d x c, 
  let '(r, c') := resolve exists_ fudir n d x c in
  keeps c c' /\ (forall k, length (d ++ x) < length k -> c' k = c k)
  /\ (askable d x -> (forall k, c k <> Some []) -> r <> [vt] /\ (c' (d ++ x) = Some (enc r) \/ False) /\ forall k, c' k <> Some []).
Proof.
  induction n as [n IH] using lt_wf_ind. intros d x c. rewrite resolve_unfold.
  destruct (c (d ++ x)) as [v|] eqn:Ec.
  { split; [apply keeps_refl|]. split; auto. intros A NE. unfold dec. destruct (seqb_spec v [vt]) as [->|N].
    - split; [discriminate|]. split; auto.
    - split; auto. split; auto. left. rewrite Ec. unfold enc. destruct v; auto. exfalso. apply (NE _ Ec). }
  assert (G : forall r c', keeps c c' -> (forall k, length (d ++ x) <= length k -> c' k = c k) ->
     (askable d x -> (forall k, c k <> Some []) -> r <> [vt] /\ forall k, c' k <> Some []) ->
     let c'' := set_cache c' (d ++ x) (enc r) in
     keeps c c'' /\ (forall k, length (d ++ x) < length k -> c'' k = c k)
     /\ (askable d x -> (forall k, c k <> Some []) -> r <> [vt] /\ (c'' (d ++ x) = Some (enc r) \/ False) /\ forall k, c'' k <> Some [])).
  { intros r c' K L NV. cbv zeta. split.
    - intros k v E. rewrite set_cache_other; [apply K; auto|]. intros ->. congruence.
    - split. { intros k Lk. rewrite set_cache_other; [apply L; lia|]. intros ->. lia. }
      intros A NE. destruct (NV A NE) as [N1 N2]. split; auto. split; [left; apply set_cache_same|].
      intros k. destruct (list_eq_dec Z.eq_dec k (d ++ x)) as [->|N]; [rewrite set_cache_same; destruct r; discriminate|].
      rewrite set_cache_other; auto. }
  destruct (exists_ (d ++ x)).
  { apply G; auto using keeps_refl. intros A NE. split; auto. apply here_ok. auto. }
  destruct (is_nil (dir_up d) || (length d <=? length (dir_up d))) eqn:Eb.
  - destruct (ends Z.eqb fudir [c_slash] && exists_ (fudir ++ slib ++ x)); apply G; auto using keeps_refl; intros A NE; split; auto; try discriminate.
    apply lib_ok.
  - apply orb_false_iff in Eb. destruct Eb as [Eb1 Eb2]. apply Nat.leb_gt in Eb2.
    destruct n as [|n']. { apply G; auto using keeps_refl. intros A NE. split; auto. discriminate. }
    specialize (IH n' ltac:(lia) (dir_up d) x c). destruct (resolve exists_ fudir n' (dir_up d) x c) as [r c'].
    destruct IH as (I1 & I2 & I3). apply G; auto.
    + intros k Lk. apply I2. rewrite app_length in *. lia.
    + intros A NE. destruct I3 as (J1 & _ & J3); auto. apply askable_up; auto. intros X. rewrite X in Eb1. discriminate.
Qed.

(** After [run_names], the answers it used stay in the cache. *)
Lemma run_names_keeps d names : (forall x, In x names -> askable d x) -> forall c, (forall k, c k <> Some []) ->
  let '(r, c') := run_names exists_ fudir d names c in
  keeps c c' /\ (forall k, c' k <> Some [])
  /\ forall c2, keeps c' c2 -> run_names exists_ fudir d names c2 = (r, c2).
Proof.
  induction names as [|x l IH]; intros A c NE; cbn [run_names]. { split; [apply keeps_refl|]. auto. }
  unfold resolve_file. pose proof (resolve_keeps (length d) d x c) as R.
  destruct (resolve exists_ fudir (length d) d x c) as [r c']. destruct R as (K & _ & R).
  destruct (R (A x (or_introl eq_refl)) NE) as (N1 & [E|[]] & NE').
  assert (Hit : forall c2, c2 (d ++ x) = Some (enc r) -> resolve exists_ fudir (length d) d x c2 = (r, c2)).
  { intros c2 E2. rewrite resolve_unfold, E2. f_equal. unfold enc, dec. destruct r as [|a r]; auto. cbn [is_nil].
    destruct (seqb_spec (a :: r) [vt]); congruence. }
  destruct (is_nil r) eqn:En.
  - specialize (IH (fun y Hy => A y (or_intror Hy)) c' NE').
    destruct (run_names exists_ fudir d l c') as [r2 c2]. destruct IH as (I1 & I2 & I3).
    split; [apply keeps_trans with c'; auto|]. split; auto. intros c3 K3. unfold resolve_file in *.
    rewrite Hit by (apply K3, I1, E). rewrite En. apply I3. auto.
  - split; auto. split; auto. intros c2 K2. rewrite Hit by (apply K2, E). rewrite En. auto.
Qed.

Lemma resolve_import_keeps p c : (forall k, c k <> Some []) ->
  let '(r, c') := resolve_import exists_ fudir has p c in
  keeps c c' /\ (forall k, c' k <> Some [])
  /\ forall c2, keeps c' c2 -> resolve_import exists_ fudir has p c2 = (r, c2).
Proof.
  intros NE. unfold resolve_import. destruct (parts p) as [[d names]|] eqn:Ep; [|split; [apply keeps_refl|auto]].
  destruct (parts_spec p d names Ep) as (name & _ & Vd & _ & Nd & Nn & ->).
  assert (A : forall x, In x (names_of name) -> askable d x).
  { intros x Hx. split; auto. split; auto. apply names_of_nonempty with name; auto. }
  pose proof (run_names_keeps d (names_of name) A c NE) as R.
  destruct (run_names exists_ fudir d (names_of name) c) as [r c']. destruct R as (K & NE' & R).
  destruct (is_nil r) eqn:En; cbn [negb].
  - destruct (is_nil (run_prepopulated has d (names_of name))) eqn:Ep'; cbn [negb]; (split; auto; split; auto; intros c2 K2; rewrite (R c2 K2), En; cbn [negb]; auto).
  - split; auto. split; auto. intros c2 K2. rewrite (R c2 K2), En. auto.
Qed.

Lemma resolve_all_keeps l : forall c, (forall k, c k <> Some []) ->
  let '(rs, c') := resolve_all exists_ fudir has l c in keeps c c' /\ (forall k, c' k <> Some []).
Proof.
  induction l as [|p l IH]; intros c NE; cbn [resolve_all]. { split; [apply keeps_refl|auto]. }
  pose proof (resolve_import_keeps p c NE) as R. destruct (resolve_import _ _ _ _ _) as [r c1]. destruct R as (K & NE1 & _).
  specialize (IH c1 NE1). destruct (resolve_all _ _ _ _ _) as [rs c2]. destruct IH as (K2 & NE2). split; auto. apply keeps_trans with c1; auto.
Qed.

Lemma resolve_all_app l1 l2 c : resolve_all exists_ fudir has (l1 ++ l2) c =
  let '(r1, c1) := resolve_all exists_ fudir has l1 c in
  let '(r2, c2) := resolve_all exists_ fudir has l2 c1 in (r1 ++ r2, c2).
Proof.
  revert c. induction l1 as [|p l1 IH]; intros c; cbn [app resolve_all].
  - destruct (resolve_all exists_ fudir has l2 c); auto.
  - destruct (resolve_import _ _ _ _ _) as [r c1]. rewrite IH.
    destruct (resolve_all exists_ fudir has l1 c1) as [r1 c2]. destruct (resolve_all exists_ fudir has l2 c2); auto.
Qed.
Lemma resolve_all_length l : forall c, length (fst (resolve_all exists_ fudir has l c)) = length l.
Proof.
  induction l as [|p l IH]; intros c; cbn [resolve_all]; auto. destruct (resolve_import _ _ _ _ _) as [r c1]. specialize (IH c1).
  destruct (resolve_all _ _ _ l c1). cbn in *. auto.
Qed.
Lemma resolve_all_again l1 p l2 l3 : 
  let r := fst (resolve_all exists_ fudir has (l1 ++ p :: l2 ++ p :: l3) (fun _ => None)) in
  nth (length l1) r [] = nth (length l1 + 1 + length l2) r [].
Proof.
  cbv zeta. rewrite resolve_all_app. 
  pose proof (resolve_all_keeps l1 (fun _ => None) ltac:(discriminate)) as K1.
  pose proof (resolve_all_length l1 (fun _ => None)) as L1.
  destruct (resolve_all exists_ fudir has l1 (fun _ => None)) as [r1 c1]. destruct K1 as (_ & NE1). cbn [fst] in L1.
  cbn [resolve_all]. pose proof (resolve_import_keeps p c1 NE1) as R.
  destruct (resolve_import exists_ fudir has p c1) as [r c2]. destruct R as (_ & NE2 & R).
  rewrite resolve_all_app. pose proof (resolve_all_keeps l2 c2 NE2) as K2. pose proof (resolve_all_length l2 c2) as L2.
  destruct (resolve_all exists_ fudir has l2 c2) as [r2 c3]. destruct K2 as (K2 & _). cbn [fst] in L2.
  cbn [resolve_all]. rewrite (R c3 K2). destruct (resolve_all exists_ fudir has l3 c3) as [r3 c4]. cbn [fst].
  rewrite <- L1, <- L2. rewrite !app_nth2 by lia. replace (length r1 - length r1) with 0 by lia.
  replace (length r1 + 1 + length r2 - length r1) with (S (length r2)) by lia. cbn [nth].
  rewrite app_nth2 by lia. rewrite Nat.sub_diag. auto.
Qed.
End Any.
