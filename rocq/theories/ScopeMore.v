(** The rest of scope.fu: each, reveach, count, collect, the other searches, Scope_create; and the union of scopes. *)
From Coq Require Import Sorted.
From Verif Require Import CommonLemmas CanonSpec CanonCodecProps ScopeModel ScopeSpec ScopeProofs.
Open Scope Z_scope.

(** ** each *)
Lemma sorted_app l l' : StronglySorted Z.lt l -> StronglySorted Z.lt l' -> (forall a b, In a l -> In b l' -> a < b) -> StronglySorted Z.lt (l ++ l').
Proof.
  intros S S' H. induction S as [|x l S IH F]; cbn; auto. constructor.
  - apply IH. intros a b A B. apply H; cbn; auto.
  - apply Forall_app. split; auto. apply Forall_forall. intros b B. apply H; cbn; auto.
Qed.
Definition from (i0 : Z) (n : nat) : list Z := map (fun k => i0 + Z.of_nat k) (seq 0 n).
Lemma in_from i0 n i : In i (from i0 n) <-> i0 <= i < i0 + Z.of_nat n.
Proof.
  unfold from. rewrite in_map_iff. split.
  - intros (k & <- & K). apply in_seq in K. lia.
  - intros H. exists (Z.to_nat (i - i0)). split; [lia|]. apply in_seq. lia.
Qed.
Lemma from_sorted i0 n : StronglySorted Z.lt (from i0 n).
Proof.
  unfold from. assert (G : forall m s, StronglySorted Z.lt (map (fun k => i0 + Z.of_nat k) (seq s m))).
  { induction m as [|m IH]; intros s; cbn; [constructor|]. constructor; auto. apply Forall_forall. intros x X.
    apply in_map_iff in X. destruct X as (k & <- & K). apply in_seq in K. lia. }
  apply G.
Qed.
Lemma each_go_ok len : forall skips lo i0, tidy_skips lo skips len ->
  (forall i, In i (each_go skips len i0) <-> i0 <= i < len /\ ~ hidden skips i) /\ StronglySorted Z.lt (each_go skips len i0).
Proof.
  induction skips as [|s r IH]; intros lo i0 T; cbn [each_go sk_start sk_end].
  - fold (from i0 (Z.to_nat (len - i0))). destruct (Z.leb_spec len i0) as [X|X]; [|rewrite app_nil_r]; split.
    + intros i. cbn. split; [tauto|intros [H _]; lia].
    + constructor.
    + intros i. rewrite in_from. split; [intros H|intros [H _]; lia]. split; [lia|]. intros (s & [] & _).
    + apply from_sorted.
  - cbn in T. destruct T as (a & b & c).
    assert (Hh : forall i, hidden (s :: r) i <-> sk_start s <= i < sk_end s \/ hidden r i).
    { intros i. unfold hidden. split.
      - intros (x & [<-|X] & H); [auto|right; exists x; auto].
      - intros [H|(x & X & H)]; [exists s; cbn; auto|exists x; cbn; auto]. }
    destruct (Z.leb_spec (sk_end s) i0) as [X|X].
    + destruct (IH (sk_end s) i0 c) as [A B]. split; auto. intros i. rewrite A, Hh. split; [intros [H H']; split; auto; intros [G|G]; [lia|auto]|intros [H H']; split; auto].
    + fold (from i0 (Z.to_nat (sk_start s - i0))). destruct (IH (sk_end s) (sk_end s) c) as [A B]. pose proof (tidy_le _ _ _ c) as Le. split.
      * intros i. rewrite in_app_iff, in_from, A, Hh. split.
        -- intros [H|[H H']].
           ++ split; [lia|]. intros [G|G]; [lia|]. apply (hidden_bound _ _ _ _ c) in G. lia.
           ++ split; [lia|]. intros [G|G]; [lia|auto].
        -- intros [H H']. destruct (Z_lt_le_dec i (sk_start s)); [left; lia|].
           destruct (Z_lt_le_dec i (sk_end s)); [exfalso; apply H'; left; lia|]. right. split; [lia|tauto].
      * apply sorted_app; auto using from_sorted. intros x y Hx Hy. apply in_from in Hx. apply A in Hy. lia.
Qed.
Definition fetch {T} (items : list T) (ps : list Z) : option (list (Z * T)) :=
  fold_right (fun i acc => do acc <- acc; do x <- at_ items i; Some ((i, x) :: acc)) (Some []) ps.
Lemma fetch_ok {T} (items : list T) ps : (forall i, In i ps -> 0 <= i < slen items) ->
  exists l, fetch items ps = Some l /\ map fst l = ps /\ forall i x, In (i, x) l <-> In i ps /\ at_ items i = Some x.
Proof.
  induction ps as [|p ps IH]; intros H; cbn [fetch fold_right].
  - exists []. cbn. repeat split; tauto.
  - destruct IH as (l & A & B & C); [intros i I; apply H; cbn; auto|]. unfold fetch in A. rewrite A. cbn [obind].
    destruct (at_lt items p) as (x & X); [apply H; cbn; auto|]. rewrite X. cbn [obind]. exists ((p, x) :: l). split; auto.
    split; [cbn; congruence|]. intros i y. cbn. rewrite C. split.
    + intros [E|[E E']]; [injection E as <- <-; auto|auto].
    + intros [[<-|E] E']; [left; congruence|auto].
Qed.
Lemma sorted_nth l : StronglySorted Z.lt l -> forall a b x y, nth_error l a = Some x -> nth_error l b = Some y -> (a < b)%nat -> x < y.
Proof.
  induction 1 as [|z l S IH F]; intros a b x y A B L; [destruct a; discriminate|]. destruct a as [|a], b as [|b]; try lia.
  - injection A as <-. cbn in B. apply nth_error_In in B. rewrite Forall_forall in F. auto.
  - eapply IH; eauto. lia.
Qed.
Lemma visible_of_positions {T} (items : list T) skips start ps l : (forall i, In i ps <-> start <= i < slen items /\ ~ hidden skips i) -> 0 <= start ->
  StronglySorted Z.lt ps -> map fst l = ps -> (forall i x, In (i, x) l <-> In i ps /\ at_ items i = Some x) -> lists_visible items skips start l.
Proof.
  intros P S0 S M I. split.
  - intros i x. rewrite I, P. split; [intros [[H H'] A]; repeat split; auto; lia|]. intros (H & H' & A & _). split; auto. split; auto.
    apply at_Some in A. lia.
  - intros a b c d A B L. apply (sorted_nth ps S a b (fst c) (fst d)); auto; rewrite <- M, nth_error_map; [rewrite A|rewrite B]; reflexivity.
Qed.
Lemma each_ok {T} (items : list T) skips start : tidy_skips 0 skips (slen items) -> 0 <= start ->
  exists l, each items skips start = Some l /\ lists_visible items skips start l.
Proof.
  intros Td S0. destruct (each_go_ok (slen items) skips 0 start Td) as [A B].
  destruct (fetch_ok items (each_go skips (slen items) start)) as (l & E & M & I); [intros i X; apply A in X; lia|].
  exists l. split; [exact E|]. eapply visible_of_positions; eauto.
Qed.

(** ** reveach *)
Lemma reveach_go_ok : forall turns r i, desc r -> (forall s, In s r -> sk_end s <= i) -> 0 <= i -> i < Z.of_nat turns ->
  exists l, reveach_go turns r i = Some l /\ (forall k, In k l <-> 0 <= k < i /\ ~ hidden r k) /\ StronglySorted (fun a b => b < a) l.
Proof.
  induction turns as [|turns IH]; intros r i D E Z0 F; [lia|cbn [reveach_go]; destruct (Z.leb_spec i 0) as [X|X]].
  - exists []. split; auto. split; [|constructor]. intros k. cbn. split; [tauto|lia].
  - assert (Step : (forall s, In s r -> sk_end s <= i - 1) -> exists l, (do l <- reveach_go turns r (i - 1); Some (i - 1 :: l)) = Some l /\
      (forall k, In k l <-> 0 <= k < i /\ ~ hidden r k) /\ StronglySorted (fun a b => b < a) l).
    { intros E'. destruct (IH r (i - 1) D E') as (l & A & B & C); [lia|lia|]. rewrite A. cbn [obind]. eexists. split; [reflexivity|]. split.
      - intros k. cbn. rewrite B. split.
        + intros [<-|[H H']]; split; auto; try lia. intros (s & Is & H). specialize (E' s Is). lia.
        + intros [H H']. destruct (Z.eq_dec (i - 1) k); [auto|right; split; auto; lia].
      - constructor; auto. apply Forall_forall. intros x Hx. apply B in Hx. lia. }
    destruct r as [|s r]; [apply Step; intros s []|].
    destruct (Z.eqb_spec (i - 1) (sk_end s - 1)) as [Y|Y].
    + cbn in D. destruct D as (D1 & D2 & D3). destruct (IH r (sk_start s) D3 D2) as (l & A & B & C); [lia|lia|].
      exists l. split; auto. split; auto. intros k. rewrite B. split.
      * intros [H H']. split; [lia|]. intros (x & [<-|Ix] & G); [lia|]. apply H'. exists x. auto.
      * intros [H H']. assert (~ hidden r k) by (intros (x & Ix & G); apply H'; exists x; cbn; auto). split; auto.
        destruct (Z_lt_le_dec k (sk_start s)); [lia|]. exfalso. apply H'. exists s. cbn. split; auto. lia.
    + apply Step. intros x [<-|Ix]; [specialize (E s (or_introl eq_refl)); lia|]. cbn in D. destruct D as (D1 & D2 & D3). specialize (D2 x Ix).
      specialize (E s (or_introl eq_refl)). lia.
Qed.
Lemma rev_sorted l : StronglySorted (fun a b => b < a) l -> StronglySorted Z.lt (rev l).
Proof.
  induction 1 as [|x l S IH F]; cbn; [constructor|]. apply sorted_app; auto; [repeat constructor|].
  intros a b A [<-|[]]. apply in_rev in A. rewrite Forall_forall in F. auto.
Qed.
Lemma fetch_app {T} (items : list T) a b : fetch items (a ++ b) = do l' <- fetch items b; do l <- fetch items a; Some (l ++ l').
Proof.
  induction a as [|x a IH]; cbn [app fetch fold_right].
  - unfold fetch. destruct (fold_right _ _ b); reflexivity.
  - unfold fetch in *. cbn [fold_right]. rewrite IH. destruct (fold_right _ _ b) as [lb|]; cbn [obind]; [|reflexivity].
    destruct (fold_right _ _ a) as [la|]; cbn [obind]; [|reflexivity]. destruct (at_ items x); reflexivity.
Qed.
Lemma fetch_rev {T} (items : list T) ps l : fetch items ps = Some l -> fetch items (rev ps) = Some (rev l).
Proof.
  revert l. induction ps as [|p ps IH]; intros l; cbn [fetch fold_right rev].
  - intros [= <-]. reflexivity.
  - fold (fetch items ps). destruct (fetch items ps) as [lp|] eqn:E; [|discriminate]. cbn [obind].
    destruct (at_ items p) as [x|] eqn:X; [|discriminate]. cbn [obind]. intros [= <-]. change (fetch items (rev ps ++ [p]) = Some (rev lp ++ [(p, x)])). rewrite fetch_app, (IH lp eq_refl).
    unfold fetch. cbn [fold_right obind]. rewrite X. reflexivity.
Qed.
Lemma hidden_rev skips k : hidden (rev skips) k <-> hidden skips k.
Proof. unfold hidden. split; intros (s & I & H); exists s; split; auto; [apply in_rev|apply in_rev; rewrite rev_involutive]; auto. Qed.
Lemma reveach_ok {T} (items : list T) skips : tidy_skips 0 skips (slen items) ->
  exists l, reveach items skips = Some (rev l) /\ lists_visible items skips 0 l.
Proof.
  intros Td. unfold reveach.
  destruct (reveach_go_ok (2 * length items + length skips + 1) (rev skips) (slen items)) as (ps & A & B & C).
  - apply (tidy_desc skips 0 (slen items)); [lia|auto].
  - intros s I. apply in_rev in I. destruct (tidy_in _ _ _ Td s I) as (_ & _ & H). exact H.
  - unfold slen. lia.
  - unfold slen. lia.
  - rewrite A. cbn [obind]. fold (fetch items ps).
    destruct (fetch_ok items (rev ps)) as (l & E & M & I); [intros i X; apply in_rev in X; apply B in X; lia|].
    exists l. split; [apply fetch_rev in E; rewrite rev_involutive in E; exact E|].
    apply (visible_of_positions items skips 0 (rev ps)); auto; [|lia|apply rev_sorted; exact C].
    intros i. rewrite <- in_rev, B, hidden_rev. reflexivity.
Qed.
Lemma lists_visible_unique {T} (items : list T) skips start l l' : lists_visible items skips start l -> lists_visible items skips start l' -> l = l'.
Proof.
  intros [A B] [A' B'].
  assert (I : forall p, In p l <-> In p l') by (intros [i x]; rewrite A, A'; reflexivity). clear A A'.
  assert (S1 : StronglySorted (fun c d => fst c < fst d) l).
  { clear - B. induction l as [|x l IH]; constructor.
    - apply IH. intros a b c d X Y L. apply (B (S a) (S b)); auto. lia.
    - apply Forall_forall. intros y Y. apply In_nth_error in Y. destruct Y as (n & Y). apply (B 0%nat (S n)); auto. lia. }
  assert (S2 : StronglySorted (fun c d => fst c < fst d) l').
  { clear - B'. induction l' as [|x l IH]; constructor.
    - apply IH. intros a b c d X Y L. apply (B' (S a) (S b)); auto. lia.
    - apply Forall_forall. intros y Y. apply In_nth_error in Y. destruct Y as (n & Y). apply (B' 0%nat (S n)); auto. lia. }
  clear B B'. revert l' I S2. induction S1 as [|x l S1 IH F]; intros l' I S2.
  - destruct l' as [|y l']; auto. exfalso. apply (I y). cbn; auto.
  - destruct l' as [|y l']; [exfalso; apply (I x); cbn; auto|]. inversion S2 as [|? ? S2' F']; subst. rewrite Forall_forall in F, F'.
    assert (x = y).
    { destruct (proj1 (I x) (or_introl eq_refl)) as [E|E]; [auto|]. destruct (proj2 (I y) (or_introl eq_refl)) as [E'|E']; [auto|].
      specialize (F _ E'). specialize (F' _ E). lia. }
    subst y. f_equal. apply IH; auto. intros p. split; intros P.
    + destruct (proj1 (I p) (or_intror P)) as [<-|Q]; auto. specialize (F _ P). lia.
    + destruct (proj2 (I p) (or_intror P)) as [<-|Q]; auto. specialize (F' _ P). lia.
Qed.

(** ** collect *)
Definition own (modid : Z) (si : scope_item) : bool := t_modid (si_target si) =? modid.
Lemma clear_target si : si_target (canSkipRest_clear si) = si_target si.
Proof. pose proof (strip_clear si) as H. unfold strip in H. congruence. Qed.
Lemma collect_go_ok modid pub (f : Z -> bool) : forall items public private,
  (forall si, In si items -> own modid si = true -> at_ pub (t_globid (si_target si) - 1) = Some (f (t_globid (si_target si)))) ->
  let pick b := map canSkipRest_clear (filter (fun si => own modid si && Bool.eqb (f (t_globid (si_target si))) b) items) in
  collect_go items modid pub public private = Some (public ++ pick true, private ++ pick false).
Proof.
  induction items as [|si items IH]; intros public private H pick; subst pick; cbn [collect_go filter map].
  - rewrite !app_nil_r. reflexivity.
  - fold (own modid si). destruct (own modid si) eqn:E; cbn [negb andb].
    + rewrite clear_target, (H si) by (cbn; auto). cbn [obind]. destruct (f (t_globid (si_target si))); cbn [Bool.eqb map];
        rewrite IH by (intros x X; apply H; cbn; auto); rewrite <- app_assoc; reflexivity.
    + apply IH. intros x X. apply H. cbn; auto.
Qed.

(** ** The other searches *)
Lemma skipn_at {A} (l : list A) i x : at_ l i = Some x -> skipn (Z.to_nat i) l = x :: skipn (Z.to_nat (i + 1)) l.
Proof.
  intros H. apply at_Some in H. destruct H as [H G]. rewrite (skipn_nth_error_cons _ _ _ G). f_equal. f_equal. lia.
Qed.
Lemma scan_up_ok l id off : forall turns it, off <= it <= off + slen l -> off + slen l - it < Z.of_nat turns ->
  exists it' r, scan_up turns l id it off = Some (it', r) /\ off <= it' <= off + slen l /\
    match filter (fun si => str_eqb (si_id si) id) (skipn (Z.to_nat (it - off)) l), r with
    | x :: rest, Some item => x = item /\ filter (fun si => str_eqb (si_id si) id) (skipn (Z.to_nat (it' - off)) l) = rest
    | [], None => it' = off + slen l
    | _, _ => False
    end.
Proof.
  induction turns as [|turns IH]; intros it B F; [lia|]. cbn [scan_up]. destruct (Z.ltb_spec it (off + slen l)) as [X|X].
  - destruct (at_lt l (it - off)) as (item & I); [lia|]. rewrite I. cbn [obind]. rewrite (skipn_at _ _ _ I).
    cbn [filter]. destruct (str_eqb (si_id item) id).
    + exists (it + 1), (Some item). split; auto. split; [lia|]. split; auto. f_equal. f_equal. lia.
    + destruct (IH (it + 1)) as (it' & r & A & C & D); [lia|lia|]. exists it', r. split; auto. split; auto.
      replace (it - off + 1) with (it + 1 - off) by lia. exact D.
  - exists it, None. split; auto. split; auto. rewrite skipn_all2; [cbn; lia|]. unfold slen in *. lia.
Qed.
Lemma search_public_ok items id it fields : 0 <= it <= slen (items ++ fields) ->
  exists t it', search_public items id it fields = Some (t, it') /\ it <= it' <= slen (items ++ fields) /\
    match filter (fun si => str_eqb (si_id si) id) (skipn (Z.to_nat it) (items ++ fields)) with
    | [] => t = 0
    | x :: rest => t = si_target x /\ filter (fun si => str_eqb (si_id si) id) (skipn (Z.to_nat it') (items ++ fields)) = rest
    end.
Proof.
  intros B. unfold slen in B. rewrite app_length in B. unfold search_public.
  assert (Le : slen (items ++ fields) = slen items + slen fields) by (unfold slen; rewrite app_length; lia).
  assert (Tail : forall it1, slen items <= it1 <= slen items + slen fields -> it <= it1 ->
    filter (fun si => str_eqb (si_id si) id) (skipn (Z.to_nat it) (items ++ fields)) =
    filter (fun si => str_eqb (si_id si) id) (skipn (Z.to_nat (it1 - slen items)) fields) ->
    exists t it', (do r <- scan_up (S (length fields)) fields id it1 (slen items);
      match snd r with Some item => Some (si_target item, fst r) | None => Some (0, fst r) end) = Some (t, it') /\
      it <= it' <= slen (items ++ fields) /\
      match filter (fun si => str_eqb (si_id si) id) (skipn (Z.to_nat it) (items ++ fields)) with
      | [] => t = 0
      | x :: rest => t = si_target x /\ filter (fun si => str_eqb (si_id si) id) (skipn (Z.to_nat it') (items ++ fields)) = rest
      end).
  { intros it1 B1 B2 ->. destruct (scan_up_ok fields id (slen items) (S (length fields)) it1) as (it' & r & A & C & D); [lia|unfold slen in *; lia|].
    rewrite A. cbn [obind fst snd]. destruct (filter _ (skipn (Z.to_nat (it1 - slen items)) fields)) as [|x rest] eqn:Ef.
    - destruct r; [contradiction|]. exists 0, it'. split; auto. split; [lia|auto].
    - destruct r as [item|]; [|contradiction]. destruct D as [<- D]. exists (si_target x), it'. split; auto.
      assert (it1 <= it').
      { destruct (Z_le_gt_dec it1 it'); auto. exfalso.
        clear - A g. revert A g. generalize (S (length fields)) as n. intros n. revert it1.
        induction n as [|n IH]; intros it1 A g; [discriminate|]. cbn [scan_up] in A. destruct (it1 <? slen items + slen fields); [|congruence].
        destruct (at_ fields (it1 - slen items)) as [y|]; [|discriminate]. cbn [obind] in A. destruct (str_eqb (si_id y) id); [injection A as <- _; lia|].
        apply (IH (it1 + 1)); auto. lia. }
      split; [lia|]. split; auto. rewrite <- D. rewrite skipn_app. rewrite skipn_all2 by (unfold slen in *; lia). cbn [app].
      f_equal. f_equal. unfold slen. lia. }
  destruct (Z_le_gt_dec it (slen items)) as [X|X].
  - destruct (scan_up_ok items id 0 (S (length items)) it) as (it1 & r & A & C & D); [lia|unfold slen in *; lia|].
    rewrite A. cbn [obind fst snd]. rewrite Z.sub_0_r in D.
    assert (Sk : skipn (Z.to_nat it) (items ++ fields) = skipn (Z.to_nat it) items ++ fields).
    { rewrite skipn_app. replace (Z.to_nat it - length items)%nat with 0%nat by (unfold slen in *; lia). reflexivity. }
    destruct (filter (fun si => str_eqb (si_id si) id) (skipn (Z.to_nat it) items)) as [|x rest] eqn:Ef.
    + destruct r; [contradiction|]. subst it1. apply Tail; [unfold slen in *; lia|lia|]. rewrite Sk, filter_app, Ef.
      replace (0 + slen items - slen items) with 0 by lia. reflexivity.
    + destruct r as [item|]; [|contradiction]. destruct D as [<- D]. exists (si_target x), it1. split; auto.
      assert (Sk' : skipn (Z.to_nat it1) (items ++ fields) = skipn (Z.to_nat it1) items ++ fields).
      { rewrite skipn_app. replace (Z.to_nat it1 - length items)%nat with 0%nat by (unfold slen in *; lia). reflexivity. }
      rewrite Z.sub_0_r in D. rewrite Sk, Sk', !filter_app, Ef, D. split; [|cbn; auto].
      split; [|rewrite Le; unfold slen in *; lia].
      destruct (Z_le_gt_dec it it1); auto. exfalso.
      clear - A g. revert A g. generalize (S (length items)) as n. intros n. revert it.
      induction n as [|n IH]; intros it1' A g; [discriminate|]. cbn [scan_up] in A. destruct (it1' <? 0 + slen items); [|congruence].
      destruct (at_ items (it1' - 0)) as [y|]; [|discriminate]. cbn [obind] in A. destruct (str_eqb (si_id y) id); [injection A as <- _; lia|].
      apply (IH (it1' + 1)); auto. lia.
  - cbn [scan_up]. destruct (Z.ltb_spec it (0 + slen items)); [lia|]. cbn [obind fst snd]. apply Tail; [unfold slen in *; lia|lia|].
    f_equal. rewrite skipn_app. rewrite skipn_all2 by (unfold slen in *; lia). cbn [app]. f_equal. unfold slen. lia.
Qed.

(** ** Scope_create of arguments and locals *)
Definition args_of {T} (l : list (bool * T)) : list T := map snd (filter fst l).
Definition locals_of {T} (l : list (bool * T)) : list T := map snd (filter (fun p => negb (fst p)) l).
Lemma range_of l : - 2 ^ 18 < l < 2 ^ 18 -> local_range l.
Proof. unfold local_range. change (2 ^ 18) with 262144. change (2 ^ 19) with 524288. lia. Qed.
Lemma create_all_ok {T} modid nest : 0 <= modid < 2 ^ 20 -> 0 < nest < 2 ^ 20 -> forall (l : list (bool * T)) A L,
  slen A + slen L + slen l < 2 ^ 18 ->
  exists ts, create_all modid nest (Ext (rev A ++ L) (slen A)) l = Some (Ext (rev (A ++ args_of l) ++ (L ++ locals_of l)) (slen (A ++ args_of l)), ts) /\
    length ts = length l /\
    forall i arg x t, nth_error l i = Some (arg, x) -> nth_error ts i = Some t -> t_modid t = modid /\ t_globid t = nest /\
      t_locid t = if arg then - (1 + slen A + slen (args_of (firstn i l))) else 1 + slen L + slen (locals_of (firstn i l)).
Proof.
  intros Hm Hn. induction l as [|[arg x] l IH]; intros A L B; cbn [create_all].
  - exists []. cbn. rewrite !app_nil_r. repeat split; auto; destruct i; discriminate.
  - assert (Bl : slen ((arg, x) :: l) = 1 + slen l) by (unfold slen; cbn [length]; lia).
    unfold create_local, nextIndexOfLocal. cbn [args_n_locals args_neg].
    assert (Pos : exists t, Target modid nest (if arg then -1 - slen A else slen (rev A ++ L) + (1 - slen A)) = Some t /\
      t_modid t = modid /\ t_globid t = nest /\ t_locid t = (if arg then -(1 + slen A) else 1 + slen L)).
    { replace (if arg then -1 - slen A else slen (rev A ++ L) + (1 - slen A)) with (if arg then -(1 + slen A) else 1 + slen L)
        by (unfold slen; rewrite app_length, rev_length; destruct arg; lia).
      destruct (target_fields modid nest (if arg then -(1 + slen A) else 1 + slen L) Hm Hn) as (t & a & _ & b & c & d); [|eauto].
      apply range_of. destruct arg; unfold slen in *; lia. }
    destruct Pos as (t & P1 & P2 & P3 & P4). rewrite P1. cbn [obind]. destruct arg.
    + unfold insert_at. cbn [Nat.leb firstn skipn app obind fst snd].
      destruct (IH (A ++ [x]) L) as (ts & C & D & E); [unfold slen in *; rewrite app_length; cbn [length]; lia|].
      rewrite rev_app_distr in C. cbn [rev app] in C. replace (slen (A ++ [x])) with (slen A + 1) in C by (unfold slen; rewrite app_length; cbn [length]; lia).
      rewrite C. cbn [obind fst snd]. exists (t :: ts). rewrite <- !app_assoc. cbn [args_of locals_of filter fst negb map snd app].
      split; auto. split; [cbn; congruence|]. intros [|i] arg y u I J.
      * injection I as <- <-. injection J as <-. split; [auto|split; [auto|]]. rewrite P4. unfold slen, args_of, locals_of. cbn [firstn filter map length]. lia.
      * cbn in I, J. destruct (E i arg y u I J) as (e1 & e2 & e3). repeat split; auto. rewrite e3. destruct arg;
          cbn [firstn args_of locals_of filter fst negb map snd]; unfold args_of, locals_of, slen; rewrite ?app_length; cbn [length]; lia.
    + unfold insert_at. rewrite Nat.leb_refl. rewrite firstn_all, skipn_all. cbn [obind fst snd].
      destruct (IH A (L ++ [x])) as (ts & C & D & E); [unfold slen in *; rewrite app_length; cbn [length]; lia|].
      rewrite <- app_assoc, Z.add_0_r. rewrite C. cbn [obind fst snd]. exists (t :: ts). cbn [args_of locals_of filter fst negb map snd app].
      split; [rewrite <- (app_assoc L); reflexivity|]. split; [cbn; congruence|]. intros [|i] arg y u I J.
      * injection I as <- <-. injection J as <-. split; [auto|split; [auto|]]. rewrite P4. unfold slen, args_of, locals_of. cbn [firstn filter map length]. lia.
      * cbn in I, J. destruct (E i arg y u I J) as (e1 & e2 & e3). repeat split; auto. rewrite e3. destruct arg;
          cbn [firstn args_of locals_of filter fst negb map snd]; unfold args_of, locals_of, slen; rewrite ?app_length; cbn [length]; lia.
Qed.
Lemma nth_filter {T} (f : bool * T -> bool) : forall l i p, nth_error l i = Some p -> f p = true ->
  nth_error (map snd (filter f l)) (length (map snd (filter f (firstn i l)))) = Some (snd p).
Proof.
  induction l as [|q l IH]; intros [|i] p I F; try discriminate; cbn in I.
  - injection I as ->. cbn. rewrite F. reflexivity.
  - cbn [firstn filter]. destruct (f q); cbn [map length nth_error]; apply IH; auto.
Qed.
Lemma nth_rev {T} (l : list T) k x : nth_error l k = Some x -> nth_error (rev l) (length l - S k) = Some x.
Proof.
  intros H. pose proof (nth_error_lt _ _ _ H) as L. rewrite (nth_error_nth' _ x) by (rewrite rev_length; lia).
  f_equal. rewrite rev_nth by lia. replace (length l - S (length l - S k))%nat with k by lia. apply nth_error_nth. exact H.
Qed.
Lemma create_found {T} modid nest (l : list (bool * T)) : 0 <= modid < 2 ^ 20 -> 0 < nest < 2 ^ 20 -> slen l < 2 ^ 18 ->
  exists ext ts, create_all modid nest (Ext [] 0) l = Some (ext, ts) /\ length ts = length l /\
    forall i arg x t, nth_error l i = Some (arg, x) -> nth_error ts i = Some t ->
      t_modid t = modid /\ t_globid t = nest /\
      t_locid t = (if arg then - (1 + slen (args_of (firstn i l))) else 1 + slen (locals_of (firstn i l))) /\
      at_ (args_n_locals ext) (indexOfLocal (args_neg ext) (t_locid t)) = Some x.
Proof.
  intros Hm Hn B. destruct (create_all_ok modid nest Hm Hn l [] []) as (ts & A & C & D); [unfold slen in *; cbn [length]; lia|].
  cbn [rev app] in A. change (slen (@nil T)) with 0 in *. eexists. exists ts. split; [exact A|]. split; auto. intros i arg x t I J.
  destruct (D i arg x t I J) as (d1 & d2 & d3). rewrite !Z.add_0_r in d3. repeat split; auto. cbn [args_n_locals args_neg].
  unfold indexOfLocal. rewrite d3. destruct arg.
  - assert (N : nth_error (args_of l) (length (args_of (firstn i l))) = Some x) by (apply (nth_filter fst l i (true, x)); auto).
    pose proof (nth_error_lt _ _ _ N) as Lt. apply nth_rev in N.
    destruct (Z.ltb_spec 0 (-(1 + slen (args_of (firstn i l))))); [unfold slen in *; lia|].
    replace (slen (args_of l) - 0 + - (1 + slen (args_of (firstn i l)))) with (Z.of_nat (length (args_of l) - S (length (args_of (firstn i l))))) by (unfold slen; lia).
    rewrite at_nat, nth_error_app_l; [exact N|]. rewrite rev_length. lia.
  - assert (N : nth_error (locals_of l) (length (locals_of (firstn i l))) = Some x) by (apply (nth_filter (fun p => negb (fst p)) l i (false, x)); auto).
    destruct (Z.ltb_spec 0 (1 + slen (locals_of (firstn i l)))); [|unfold slen in *; lia].
    replace (slen (args_of l) - 1 + (1 + slen (locals_of (firstn i l)))) with (Z.of_nat (length (rev (args_of l)) + length (locals_of (firstn i l)))) by (unfold slen; rewrite rev_length; lia).
    rewrite at_nat, nth_error_app_r by lia. replace (length (rev (args_of l)) + length (locals_of (firstn i l)) - length (rev (args_of l)))%nat with (length (locals_of (firstn i l))) by lia.
    exact N.
Qed.

(** ** The union of two scopes *)
Lemma reveal_one_sub : forall eph l last eph_end s, reveal_one l last eph eph_end = Some s ->
  sk_start l <= sk_start s /\ sk_end s = sk_end l /\ sk_start s < sk_end s.
Proof.
  assert (Turn : forall l last e (go : scope_skip -> Z -> option scope_skip) s,
    (forall l' last' s', go l' last' = Some s' -> sk_start l' < sk_end l' -> sk_start l' <= sk_start s' /\ sk_end s' = sk_end l' /\ sk_start s' < sk_end s') ->
    (let local := if (last <=? sk_start l) && (sk_start l <? sk_start e) then Skip (sk_start e) (sk_end l) else l in
     if sk_end local <=? sk_start local then None else if sk_end local <? sk_start e then Some local else go local (sk_end e)) = Some s ->
    sk_start l <= sk_start s /\ sk_end s = sk_end l /\ sk_start s < sk_end s).
  { intros l last e go s G. cbv zeta. set (l' := if (last <=? sk_start l) && (sk_start l <? sk_start e) then Skip (sk_start e) (sk_end l) else l).
    assert (Hl : sk_start l <= sk_start l' /\ sk_end l' = sk_end l).
    { subst l'. destruct (last <=? sk_start l); cbn [andb]; [|lia]. destruct (Z.ltb_spec (sk_start l) (sk_start e)); cbn [sk_start sk_end]; lia. }
    destruct (Z.leb_spec (sk_end l') (sk_start l')); [discriminate|]. destruct (sk_end l' <? sk_start e).
    - intros [= <-]. lia.
    - intros E. apply G in E; lia. }
  induction eph as [|e eph IH]; intros l last eph_end s E; cbn [reveal_one] in E.
  - apply (Turn l last (Skip eph_end MAX32) (fun local _ => Some local) s); [|exact E].
    intros l' last' s' Q P. injection Q as <-. lia.
  - apply (Turn l last e (fun local last => reveal_one local last eph eph_end) s); [|exact E].
    intros l' last' s' E' _. eapply IH; eauto.
Qed.
Lemma reveal_one_keeps k : forall eph l last eph_end, tidy_skips last eph eph_end -> sk_start l <= k < sk_end l ->
  (sk_start l < last \/ hidden eph k \/ eph_end <= k) ->
  exists s, reveal_one l last eph eph_end = Some s /\ sk_start s <= k < sk_end s.
Proof.
  assert (Turn : forall l last e (go : scope_skip -> Z -> option scope_skip), sk_start l <= k < sk_end l ->
    (sk_start l < last \/ sk_start e <= k) ->
    (forall l', sk_start l' <= k < sk_end l' -> (sk_start l < last -> l' = l) -> exists s, go l' (sk_end e) = Some s /\ sk_start s <= k < sk_end s) ->
    exists s, (let local := if (last <=? sk_start l) && (sk_start l <? sk_start e) then Skip (sk_start e) (sk_end l) else l in
     if sk_end local <=? sk_start local then None else if sk_end local <? sk_start e then Some local else go local (sk_end e)) = Some s /\ sk_start s <= k < sk_end s).
  { intros l last e go B O G. cbv zeta. set (l' := if (last <=? sk_start l) && (sk_start l <? sk_start e) then Skip (sk_start e) (sk_end l) else l).
    assert (Hl : sk_start l' <= k < sk_end l' /\ (sk_start l < last -> l' = l)).
    { subst l'. destruct (Z.leb_spec last (sk_start l)), (Z.ltb_spec (sk_start l) (sk_start e)); cbn [andb sk_start sk_end]; split; auto; lia. }
    destruct Hl as [H1 H2]. rewrite (proj2 (Z.leb_gt _ _)) by lia. destruct (sk_end l' <? sk_start e); eauto. }
  induction eph as [|e eph IH]; intros l last eph_end T B O; cbn [reveal_one].
  - apply (Turn l last (Skip eph_end MAX32) (fun local _ => Some local)); auto.
    + cbn [sk_start]. destruct O as [O|[(s & [] & _)|O]]; auto.
    + intros l' B' _. exists l'. auto.
  - cbn in T. destruct T as (a & b & c). apply (Turn l last e (fun local last => reveal_one local last eph eph_end)); auto.
    + destruct O as [O|[(s & [<-|I] & H)|O]]; [auto|right; lia| |right; apply tidy_le in c; lia].
      right. destruct (tidy_in _ _ _ c s I). lia.
    + intros l' B' O'. apply IH; auto. destruct O as [O|[(s & [<-|I] & H)|O]].
      * rewrite (O' O). left. lia.
      * left. lia.
      * right. left. exists s. auto.
      * auto.
Qed.
Lemma reveal_hidden local eph eph_end k : tidy_skips 0 eph eph_end ->
  (hidden (reveal local eph eph_end) k -> hidden local k) /\
  (hidden local k -> hidden eph k \/ eph_end <= k -> hidden (reveal local eph eph_end) k).
Proof.
  intros T. unfold reveal. split.
  - intros (s & I & H). apply in_flat_map in I. destruct I as (l & Il & Is).
    destruct (reveal_one l 0 eph eph_end) as [s'|] eqn:E; [|contradiction]. destruct Is as [<-|[]].
    apply reveal_one_sub in E. exists l. split; auto. lia.
  - intros (l & Il & H) O. destruct (reveal_one_keeps k eph l 0 eph_end T H) as (s & E & B); [auto|].
    exists s. split; auto. apply in_flat_map. exists l. rewrite E. cbn. auto.
Qed.
