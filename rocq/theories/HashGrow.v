(** Growing an index of lib/hash.fu that has a free slot ends, in order (GrowLine.v says why). *)
From Verif Require Import CommonLemmas HashModel HashIndex HashSpec HashTop GrowLine.
From Coq Require Import Permutation.
Open Scope Z_scope.

Lemma eqm_small N v w : v mod N = w mod N -> - N < v - w < N -> v = w.
Proof.
  intros E H. assert (D : (v - w) mod N = 0) by (rewrite Zminus_mod, E, Z.sub_diag; apply Z.mod_0_l; lia).
  apply Z.mod_divide in D; [|lia]. destruct D as [q D]. assert (q = 0) by nia. lia.
Qed.

(** lia, with only what is about integers *)
Ltac zl := repeat match goal with
  | H : @eq nat _ _ |- _ => clear H
  | H : (_ < _)%nat |- _ => clear H
  | H : (_ <= _)%nat |- _ => clear H
  | H : @eq (option _) _ _ |- _ => clear H
  | H : context [Z.modulo _ _] |- _ => clear H
  | H : is_used _ |- _ => clear H
  | H : ~ is_used _ |- _ => clear H
  | H : forall x, _ |- _ => clear H
  end; lia.

Section GROW.
Context (n k z0 : Z).
Hypothesis k1 : 1 <= k.
Hypothesis nk : 2 * k <= n.
Hypothesis z0n : 0 <= z0 < n.
Let N := 2 * n.
Definition ideal (e : ientry) : Z := z0 - n + 1 + (ie_hash e - (z0 - n + 1)) mod N.
Notation Y := ideal.
Lemma Y_win e : z0 - n < Y e <= z0 + n.
Proof. unfold Y. pose proof (Z.mod_pos_bound (ie_hash e - (z0 - n + 1)) N). unfold N in *. lia. Qed.
Lemma Y_mod e : Y e mod N = ie_hash e mod N.
Proof. unfold Y. rewrite Zplus_mod_idemp_r. f_equal. lia. Qed.

Section TABLE.
Context (mask : Z).
Definition good (jx : list ientry) : Prop := lenz jx = N /\ forall x, Z.land x mask = x mod lenz jx.
Lemma good_land jx x : good jx -> Z.land x mask = x mod N.
Proof. intros [H1 H2]. rewrite H2, H1. auto. Qed.
Lemma good_len jx jx' : good jx -> length jx' = length jx -> good jx'.
Proof. intros [H1 H2] L. unfold good, lenz in *. rewrite L. auto. Qed.
Lemma gmod (x : Z) : 0 <= x mod N < N.
Proof. apply Z.mod_pos_bound. unfold N. lia. Qed.
Lemma gget jx x : good jx -> getz jx (x mod N) = Some (at_ jx x).
Proof. intros [H1 H2]. pose proof (gmod x). rewrite getz_at by lia. f_equal. rewrite <- H1. apply at_mod. unfold N in *. lia. Qed.
Lemma gat jx x y : good jx -> x mod N = y mod N -> at_ jx x = at_ jx y.
Proof. intros [H1 H2] E. apply at_eqm. rewrite H1. auto. Qed.
(** the distance of an entry from its ideal slot *)
Lemma gdist jx v : good jx -> z0 - n < v <= z0 + n -> Z.land (v mod N - ie_hash (at_ jx v)) mask = if v <? Y (at_ jx v) then v - Y (at_ jx v) + N else v - Y (at_ jx v).
Proof.
  intros G Hv. rewrite (good_land _ _ G). rewrite Zminus_mod_idemp_l, <- Zminus_mod_idemp_r, <- Y_mod, Zminus_mod_idemp_r.
  pose proof (Y_win (at_ jx v)). destruct (Z.ltb_spec v (Y (at_ jx v))).
  - symmetry. apply Z.mod_unique with (-1); unfold N in *; lia.
  - apply Z.mod_small. unfold N in *. lia.
Qed.
Lemma gswap jx i j : good jx -> exists jx', swapz (i mod N) (j mod N) jx = Some jx' /\ length jx' = length jx /\ good jx' /\
  (forall x, at_ jx' x = if x mod N =? j mod N then at_ jx i else if x mod N =? i mod N then at_ jx j else at_ jx x).
Proof.
  intros G. pose proof (gmod i). pose proof (gmod j). destruct (swap_ex jx (i mod N) (j mod N)) as (jx' & E & L & A & _); [destruct G; lia..|].
  exists jx'. split; auto. split; auto. split; [eapply good_len; eauto|]. intros x. rewrite A.
  rewrite (gat jx (i mod N) i G), (gat jx (j mod N) j G) by (apply Z.mod_mod; unfold N; lia). destruct G as [-> _]. auto.
Qed.
Lemma win_eqb v w : z0 - n < v <= z0 + n -> z0 - n < w <= z0 + n -> (v mod N =? w mod N) = (v =? w).
Proof.
  intros Hv Hw. destruct (Z.eqb_spec v w) as [->|D]; [apply Z.eqb_refl|]. apply Z.eqb_neq. intros E. apply D. apply (eqm_small N); auto. unfold N. lia.
Qed.
Lemma gend jx : good jx -> at_ jx (z0 - n) = at_ jx (z0 + n).
Proof. intros G. apply gat; auto. replace (z0 + n) with (z0 - n + 1 * N) by (unfold N; lia). rewrite Z.mod_add; [auto|unfold N; lia]. Qed.

(** find_dest *)
Lemma find_dest_some jx i : good jx -> forall fuel y dest, y <= dest -> (Z.to_nat (dest - y) < fuel)%nat ->
  (forall w, y <= w < dest -> is_used (at_ jx w)) -> ~ is_used (at_ jx dest) -> (forall w, y < w <= dest -> w mod N <> i mod N) ->
  find_dest fuel jx mask (i mod N) (y mod N) = Some (Some (dest mod N)).
Proof.
  intros G. induction fuel as [|fuel IH]; intros y dest H F U D Ni; [lia|]. cbn [find_dest]. rewrite gget by auto. cbn [obind].
  destruct (Z.eq_dec y dest) as [->|yd].
  - destruct (Nat.eqb_spec (ie_pos (at_ jx dest)) 0); [auto|tauto].
  - pose proof (U y ltac:(lia)) as u. unfold is_used in u. destruct (Nat.eqb_spec (ie_pos (at_ jx y)) 0); [tauto|].
    rewrite (good_land _ _ G), Zplus_mod_idemp_l. cbv zeta. destruct (Z.eqb_spec ((y + 1) mod N) (i mod N)) as [E|]; [exfalso; apply (Ni (y + 1)); auto; lia|].
    apply IH; [clear - H yd; lia|clear - H yd F; lia|intros w Hw; apply U; clear - Hw; lia|auto|intros w Hw; apply Ni; clear - Hw; lia].
Qed.
Lemma find_dest_none jx i : good jx -> forall fuel y, y < i -> i - y < N -> (Z.to_nat (i - y) <= fuel)%nat ->
  (forall w, y <= w < i -> is_used (at_ jx w)) -> find_dest fuel jx mask (i mod N) (y mod N) = Some None.
Proof.
  intros G. induction fuel as [|fuel IH]; intros y H H' F U; [lia|]. cbn [find_dest]. rewrite gget by auto. cbn [obind].
  pose proof (U y ltac:(lia)) as u. unfold is_used in u. destruct (Nat.eqb_spec (ie_pos (at_ jx y)) 0); [tauto|].
  rewrite (good_land _ _ G), Zplus_mod_idemp_l. cbv zeta. destruct (Z.eqb_spec ((y + 1) mod N) (i mod N)) as [E|D]; auto.
  assert (y + 1 <> i) by (intros <-; apply D; auto). apply IH; try lia. intros w Hw; apply U; lia.
Qed.
(** shift_back *)
Lemma shift_back_line y : z0 - n < y -> forall fuel jx dest, good jx -> y <= dest <= z0 + n -> (Z.to_nat (dest - y) < fuel)%nat ->
  (forall w, y <= w < dest -> is_used (at_ jx w) /\ Y (at_ jx w) <= w) -> ~ is_used (at_ jx dest) ->
  exists jx' d, shift_back fuel jx mask (y mod N) (dest mod N) = Some (jx', d mod N) /\ good jx' /\ length jx' = length jx /\ y <= d <= dest /\
    (forall t, d <= t < dest -> y < Y (at_ jx t)) /\ (d = y \/ Y (at_ jx (d - 1)) <= y) /\
    ~ is_used (at_ jx' d) /\ (forall t, d < t <= dest -> at_ jx' t = at_ jx (t - 1)) /\
    forall v, z0 - n < v <= z0 + n -> ~ d <= v <= dest -> at_ jx' v = at_ jx v.
Proof.
  intros Hy. induction fuel as [|fuel IH]; intros jx dest G Hd F U D; [lia|]. cbn [shift_back].
  rewrite win_eqb by zl. destruct (Z.eqb_spec dest y) as [->|dy].
  { exists jx, y. split; auto. split; auto. split; auto. split; [zl|]. split; [intros; zl|]. split; auto. split; auto. split; [intros; lia|auto]. }
  rewrite (good_land _ _ G), Zminus_mod_idemp_l. cbv zeta. rewrite gget by auto. cbn [obind].
  rewrite gdist by (auto; zl). destruct (U (dest - 1) ltac:(zl)) as [u1 u2]. destruct (Z.ltb_spec (dest - 1) (Y (at_ jx (dest - 1)))); [zl|].
  rewrite (good_land _ _ G). assert (E : (dest mod N - y mod N) mod N = dest - y).
  { rewrite <- Zminus_mod. apply Z.mod_small. unfold N. zl. }
  rewrite E. clear E. destruct (Z.ltb_spec (1 + (dest - 1 - Y (at_ jx (dest - 1)))) (dest - y)) as [C|C].
  - destruct (gswap jx dest (dest - 1) G) as (j1 & E1 & L1 & G1 & A1). rewrite E1. cbn [obind].
    assert (A : forall v, z0 - n < v <= z0 + n -> at_ j1 v = if v =? dest - 1 then at_ jx dest else if v =? dest then at_ jx (dest - 1) else at_ jx v).
    { intros v Hv. rewrite A1, !win_eqb by zl. auto. }
    clear A1. destruct (IH j1 (dest - 1) G1) as (j2 & d & E2 & G2 & L2 & r & gt & st & fr & sh & ot); [clear - dy Hd; lia|clear - dy Hd F; lia|..].
    + intros w Hw. rewrite A by zl. destruct (Z.eqb_spec w (dest - 1)); [zl|]. destruct (Z.eqb_spec w dest); [zl|]. apply U; lia.
    + rewrite A by zl. rewrite Z.eqb_refl. auto.
    + exists j2, d. split; auto. split; auto. split; [congruence|]. split; [zl|]. split; [|split; [|split; [auto|split]]].
      * intros t Ht. destruct (Z.eq_dec t (dest - 1)) as [->|]; [zl|]. specialize (gt t ltac:(zl)). rewrite A in gt by zl.
        destruct (Z.eqb_spec t (dest - 1)); [zl|]. destruct (Z.eqb_spec t dest); [zl|auto].
      * destruct st as [|st]; [auto|]. destruct (Z.eq_dec d y); [auto|]. rewrite A in st by zl. destruct (Z.eqb_spec (d - 1) (dest - 1)); [zl|]. destruct (Z.eqb_spec (d - 1) dest); [zl|auto].
      * intros t Ht. destruct (Z.eq_dec t dest) as [->|].
        -- rewrite ot, A by zl. destruct (Z.eqb_spec dest (dest - 1)); [zl|]. rewrite Z.eqb_refl. auto.
        -- rewrite sh, A by zl. destruct (Z.eqb_spec (t - 1) (dest - 1)); [zl|]. destruct (Z.eqb_spec (t - 1) dest); [zl|auto].
      * intros v Hv Nv. rewrite ot, A by zl. destruct (Z.eqb_spec v (dest - 1)); [zl|]. destruct (Z.eqb_spec v dest); [zl|auto].
  - exists jx, dest. split; auto. split; auto. split; auto. split; [zl|]. split; [intros; zl|]. split; [right; zl|]. split; auto. split; [intros; lia|auto].
Qed.
(** compact *)
Notation compacted := (compacted n z0 Y).
Notation moved := (moved n z0).
Lemma compact_line : forall c fuel jx h r, good jx -> (c < fuel)%nat -> z0 - n < h < r -> r <= z0 + n -> (Z.to_nat (r - h) <= c)%nat ->
  ~ is_used (at_ jx h) -> ~ is_used (at_ jx r) -> exists m jx', compact fuel jx mask (h mod N) = Some jx' /\ good jx' /\ length jx' = length jx /\ h + m < r /\
    compacted (at_ jx) h m (at_ jx').
Proof.
  induction c as [|c IH]; intros fuel jx h r G F Hr Hz Hc uh ur; [lia|]. destruct fuel as [|fuel]; [lia|]. cbn [compact].
  rewrite (good_land _ _ G), Zplus_mod_idemp_l. cbv zeta. rewrite gget by auto. cbn [obind]. rewrite gdist by (auto; zl).
  destruct (used_dec (at_ jx (h + 1))) as [u|u].
  - unfold is_used in u. destruct (Nat.eqb_spec (ie_pos (at_ jx (h + 1))) 0); [tauto|]. rewrite orb_false_r.
    pose proof (Y_win (at_ jx (h + 1))) as Yw. destruct (Z.eq_dec (Y (at_ jx (h + 1))) (h + 1)) as [Ey|Ey].
    + rewrite Ey, Z.ltb_irrefl, Z.sub_diag. cbn [Z.eqb]. exists 0, jx. split; auto. split; auto. split; auto. split; [zl|]. split; [zl|].
      rewrite Z.add_0_r. split; [intros; zl|]. split; [auto|]. split; [auto|]. split; [intros; zl|]. right; auto.
    + assert (Q : ((if h + 1 <? Y (at_ jx (h + 1)) then h + 1 - Y (at_ jx (h + 1)) + N else h + 1 - Y (at_ jx (h + 1))) =? 0) = false).
      { apply Z.eqb_neq. destruct (Z.ltb_spec (h + 1) (Y (at_ jx (h + 1)))); unfold N; zl. }
      rewrite Q. clear Q. destruct (gswap jx (h + 1) h G) as (j1 & E1 & L1 & G1 & A1). rewrite E1. cbn [obind].
      assert (A : forall v, z0 - n < v <= z0 + n -> at_ j1 v = if v =? h then at_ jx (h + 1) else if v =? h + 1 then at_ jx h else at_ jx v).
      { intros v Hv. rewrite A1, !win_eqb by zl. auto. }
      clear A1. assert (h + 1 <> r) by (intros Q0; rewrite <- Q0 in ur; tauto).
      destruct (IH fuel j1 (h + 1) r G1) as (m & j2 & E2 & G2 & L2 & hr & m0 & C1 & C2 & C3 & C4 & C5); try lia.
      * rewrite A by zl. destruct (Z.eqb_spec (h + 1) h); [zl|]. rewrite Z.eqb_refl. auto.
      * rewrite A by zl. destruct (Z.eqb_spec r h); [zl|]. destruct (Z.eqb_spec r (h + 1)); [zl|auto].
      * exists (m + 1), j2. split; auto. split; auto. split; [congruence|]. split; [zl|].
        assert (Q : forall v, z0 - n < v <= z0 + n -> v <> h -> v <> h + 1 -> at_ j1 v = at_ jx v).
        { intros v Hv a b. rewrite A by zl. destruct (Z.eqb_spec v h); [zl|]. destruct (Z.eqb_spec v (h + 1)); [zl|auto]. }
        split; [zl|]. split; [|split; [|split; [|split]]].
        -- intros v Hv. destruct (Z.eq_dec v h) as [->|].
           ++ rewrite C3 by zl. rewrite A by zl. rewrite Z.eqb_refl. auto.
           ++ rewrite C1 by zl. apply Q; lia.
        -- replace (h + (m + 1)) with (h + 1 + m) by zl. auto.
        -- intros v Hv Nv. destruct (Z.eq_dec v (z0 - n)) as [->|].
           ++ rewrite (gend _ G2), (gend _ G). destruct (Z.eq_dec (h + 1 + m) (z0 + n)); [zl|]. rewrite C3 by zl. apply Q; lia.
           ++ rewrite C3 by zl. apply Q; lia.
        -- intros v Hv. destruct (Z.eq_dec v (h + 1)) as [->|]; [split; auto|]. rewrite <- (Q v) by zl. apply C4. lia.
        -- replace (h + (m + 1) + 1) with (h + 1 + m + 1) by zl. rewrite <- (Q (h + 1 + m + 1)) by zl. auto.
  - assert (E : (ie_pos (at_ jx (h + 1)) =? 0)%nat = true). { unfold is_used in u. destruct (Nat.eqb_spec (ie_pos (at_ jx (h + 1))) 0); [auto|tauto]. }
    rewrite E, orb_true_r. exists 0, jx. split; auto. split; auto. split; auto. split; [zl|]. split; [zl|].
      rewrite Z.add_0_r. split; [intros; zl|]. split; [auto|]. split; [auto|]. split; [intros; zl|]. left; auto.
Qed.

(** ** One turn of the loop *)
Section LOOP.
Context (X P : ientry -> Z) (real : ientry -> Prop) (old_mask : Z).
Hypothesis old_land : forall x, Z.land x old_mask = x mod n.
Hypothesis real_ok : forall e, real e -> z0 - n < X e /\ X e <= P e /\ P e < z0 /\ P e < X e + k /\ (Y e = X e \/ Y e = X e + n).
Hypothesis sorted : forall e e', real e -> real e' -> P e < P e' -> X e <= X e'.
Notation base := (base n z0 P real).
Notation pend := (pend Y).
Notation core := (core n z0 Y).
Notation W := (W n z0 Y).
Notation goal := (goal n z0 Y).
Notation place := (place Y).
Notation loop fuel jx t := (rehash fuel jx n old_mask k mask (k + 1) t).
Definition turn (jx : list ientry) (i : Z) : bool :=
  ((n <=? Y (at_ jx i) mod N) || (k + 1 <=? (if i <? Y (at_ jx i) then i - Y (at_ jx i) + N else i - Y (at_ jx i)))) && usedb (at_ jx i).
Lemma turn_pend U jx i : base (at_ jx) -> W (at_ jx) -> 0 <= i < n -> pend U (at_ jx) i -> turn jx i = true.
Proof.
  intros B Wf Hi (_ & u & Pi). unfold turn. rewrite (proj2 (usedb_true _) u), andb_true_r. apply orb_true_iff.
  assert (Li : inL n z0 i) by (unfold inL; lia). pose proof (real_ok _ (b_real _ _ _ _ _ B _ Li u)) as R. specialize (Wf i Li u).
  destruct (Z_lt_dec (Y (at_ jx i)) 0).
  - left. apply Z.leb_le. replace (Y (at_ jx i) mod N) with (Y (at_ jx i) + N); [unfold N; lia|]. apply Z.mod_unique with (-1); unfold N; lia.
  - destruct (Z_lt_dec (Y (at_ jx i)) n).
    + destruct (Z.ltb_spec i (Y (at_ jx i))); [|lia]. right. apply Z.leb_le. unfold N. lia.
    + left. apply Z.leb_le. rewrite Z.mod_small by (unfold N; lia). lia.
Qed.
Lemma loop_skip fu jx t i : good jx -> 0 <= t < n -> (t + k) mod n = i -> turn jx i = false -> loop (S fu) jx t = loop fu jx (t + 1).
Proof.
  intros G Ht Ei T. cbn [rehash]. destruct (Z.leb_spec n t); [lia|]. rewrite old_land, Ei. cbv zeta.
  assert (Hi : 0 <= i < n) by (rewrite <- Ei; apply Z.mod_pos_bound; lia). assert (i mod N = i) by (apply Z.mod_small; unfold N; lia).
  rewrite <- H0 at 1. rewrite gget by auto. cbn [obind]. 
  rewrite !(good_land _ _ G). rewrite <- (Y_mod (at_ jx i)). 
  assert (E : (i - Y (at_ jx i) mod N) mod N = if i <? Y (at_ jx i) then i - Y (at_ jx i) + N else i - Y (at_ jx i)).
  { rewrite <- (gdist jx i G) by lia. rewrite (good_land _ _ G). rewrite Y_mod, H0. apply Zminus_mod_idemp_r. }
  rewrite E. unfold turn, usedb in T. rewrite T. auto.
Qed.
Lemma loop_turn fu jx t i : good jx -> 0 <= t < n -> (t + k) mod n = i -> turn jx i = true -> loop (S fu) jx t =
  do d <- find_dest (S (length jx)) jx mask (i mod N) (Y (at_ jx i) mod N);
  match d with
  | None => loop fu jx (t + 1)
  | Some i_dest =>
      do q <- shift_back (S (length jx)) jx mask (Y (at_ jx i) mod N) i_dest;
      let (jx, i_dest) := (q : list ientry * Z) in
      do jx <- swapz (i mod N) i_dest jx;
      do jx <- compact (compact_fuel jx) jx mask (i mod N);
      loop fu jx t
  end.
Proof.
  intros G Ht Ei T. cbn [rehash]. destruct (Z.leb_spec n t); [lia|]. rewrite old_land, Ei. cbv zeta.
  assert (Hi : 0 <= i < n) by (rewrite <- Ei; apply Z.mod_pos_bound; lia). assert (i mod N = i) by (apply Z.mod_small; unfold N; lia).
  rewrite <- H0 at 1. rewrite gget by auto. cbn [obind]. 
  rewrite !(good_land _ _ G). rewrite <- (Y_mod (at_ jx i)). 
  assert (E : (i - Y (at_ jx i) mod N) mod N = if i <? Y (at_ jx i) then i - Y (at_ jx i) + N else i - Y (at_ jx i)).
  { rewrite <- (gdist jx i G) by lia. rewrite (good_land _ _ G). rewrite Y_mod, H0. apply Zminus_mod_idemp_r. }
  rewrite E. unfold turn, usedb in T. rewrite T. rewrite H0. auto.
Qed.
(** an entry already in its place: nothing happens *)
Lemma loop_settled U fu jx t i : good jx -> base (at_ jx) -> core U (at_ jx) -> 0 <= t < n -> (t + k) mod n = i -> ~ pend U (at_ jx) i ->
  loop (S fu) jx t = loop fu jx (t + 1).
Proof.
  intros G B C Ht Ei Np. destruct (turn jx i) eqn:T; [|eapply loop_skip; eauto]. rewrite (loop_turn fu jx t i) by auto.
  assert (Hi : 0 <= i < n) by (rewrite <- Ei; apply Z.mod_pos_bound; lia). assert (Li : inL n z0 i) by (unfold inL; lia).
  unfold turn in T. apply andb_true_iff in T. destruct T as [T u]. apply usedb_true in u. destruct (C i Li u Np) as (c1 & c2 & _).
  destruct (Z.ltb_spec i (Y (at_ jx i))); [lia|]. pose proof (Y_win (at_ jx i)).
  assert (Y (at_ jx i) <> i).
  { intros E. rewrite E in T. rewrite Z.mod_small in T by (unfold N; lia). apply orb_true_iff in T. rewrite !Z.leb_le in T. lia. }
  rewrite find_dest_none; auto; try lia.
  - destruct G as [G _]. unfold lenz, N in G. lia.
  - intros w Hw. destruct (c2 w ltac:(lia)) as [[]|]; auto.
Qed.
Lemma loop_stay fu jx t i : good jx -> 0 <= t < n -> (t + k) mod n = i -> turn jx i = true -> Y (at_ jx i) < 0 ->
  (forall w, Y (at_ jx i) <= w < i -> is_used (at_ jx w)) -> loop (S fu) jx t = loop fu jx (t + 1).
Proof.
  intros G Ht Ei T Yi Fu. rewrite (loop_turn fu jx t i) by auto. assert (Hi : 0 <= i < n) by (rewrite <- Ei; apply Z.mod_pos_bound; lia).
  pose proof (Y_win (at_ jx i)). unfold turn in T. apply andb_true_iff in T. destruct T as [T u]. apply usedb_true in u.
  destruct (Z_lt_dec (i - Y (at_ jx i)) N) as [q|q].
  - rewrite find_dest_none; auto; try lia. destruct G as [G _]. unfold lenz, N in *. lia.
  - unfold N in q. lia.
Qed.
Lemma loop_move U jx t i dest : good jx -> base (at_ jx) -> core U (at_ jx) -> 0 <= t < n -> (t + k) mod n = i -> turn jx i = true ->
  goal U (at_ jx) i dest -> exists d m f1 jx', place (at_ jx) i dest d /\ moved (at_ jx) i d dest f1 /\ compacted f1 i m (at_ jx') /\ good jx' /\
    forall fu, loop (S fu) jx t = loop fu jx' t.
Proof.
  intros G B C Ht Ei T0 [G1 G2 G3 G4 G5 G6]. pose proof T0 as T.
  assert (Hi : 0 <= i < n) by (rewrite <- Ei; apply Z.mod_pos_bound; lia). assert (Li : inL n z0 i) by (unfold inL; lia).
  unfold turn in T. apply andb_true_iff in T. destruct T as [_ u]. apply usedb_true in u.
  set (y := Y (at_ jx i)) in *. pose proof (Y_win (at_ jx i)) as Yw. fold y in Yw.
  assert (Len : Z.of_nat (length jx) = N) by (destruct G as [G _]; exact G).
  assert (E0 : find_dest (S (length jx)) jx mask (i mod N) (y mod N) = Some (Some (dest mod N))).
  { apply find_dest_some; auto; [zl|unfold N in *; lia|intros w Hw; apply G2; zl|].
    intros w Hw E. apply (eqm_small N) in E; [zl|unfold N; zl]. }
  destruct (shift_back_line y ltac:(zl) (S (length jx)) jx dest G) as (j1 & d & E1 & Gj & L1 & Hd & gt & st & fr & sh & ot); auto; try zl.
  { intros w Hw. destruct (G2 w Hw) as [a b]. split; auto. destruct (C w ltac:(unfold inL; zl) a b) as (c & _). auto. }
  destruct (gswap j1 i d Gj) as (j2 & E2 & L2 & Gj2 & A2).
  assert (A : forall v, z0 - n < v <= z0 + n -> at_ j2 v = if v =? d then at_ jx i else if v =? i then at_ j1 d else at_ j1 v).
  { intros v Hv. rewrite A2, !win_eqb by zl. rewrite (ot i) by zl. auto. }
  clear A2. assert (M : moved (at_ jx) i d dest (at_ j2)).
  { split; [|split; [|split]].
    - rewrite A by zl. rewrite Z.eqb_refl. auto.
    - intros s Hs. rewrite A by zl. destruct (Z.eqb_spec s d); [zl|]. destruct (Z.eqb_spec s i); [zl|]. apply sh; zl.
    - rewrite A by zl. destruct (Z.eqb_spec i d); [zl|]. rewrite Z.eqb_refl. auto.
    - assert (Q : forall v, z0 - n < v <= z0 + n -> v <> i -> ~ d <= v <= dest -> at_ j2 v = at_ jx v).
      { intros v Hv a b. rewrite A by zl. destruct (Z.eqb_spec v d); [zl|]. destruct (Z.eqb_spec v i); [zl|]. apply ot; zl. }
      intros v Hv a b. destruct (Z.eq_dec v (z0 - n)) as [->|]; [|apply Q; zl]. rewrite (gend _ Gj2), (gend _ G). apply Q; zl. }
  assert (B1 : ~ is_used (at_ j2 (z0 + n))). { destruct M as (_ & _ & _ & M4). rewrite M4 by zl. apply (b_z _ _ _ _ _ B). auto. }
  destruct (compact_line (Z.to_nat (z0 + n - i)) (compact_fuel j2) j2 i (z0 + n) Gj2) as (m & j3 & E3 & Gj3 & L3 & hm & Cm); try zl; auto.
  { unfold compact_fuel. rewrite L2, L1. assert (Q1 : (Z.to_nat (z0 + n - i) <= length jx)%nat) by (clear - Len Hi z0n; unfold N in *; lia).
    clear - Q1. assert (Q2 : (length jx <= length jx * length jx)%nat) by (destruct (length jx); [lia|nia]). lia. }
  { apply M. }
  exists d, m, (at_ j2), j3. split; [split; [zl|auto]|]. split; auto. split; auto. split; auto.
  intros fu. rewrite (loop_turn fu jx t i) by auto. fold y. rewrite E0. cbn [obind]. rewrite E1. cbn [obind]. rewrite E2. cbn [obind]. rewrite E3. auto.
Qed.

(** ** All turns at one slot, in either phase *)
Notation inv1 := (inv1 n k z0 Y P real).
Notation inv2 := (inv2 n k z0 Y P real).
Lemma slot1 : forall c jx i r, good jx -> inv1 i (at_ jx) -> k <= i < n -> i <= r <= z0 + n -> ~ is_used (at_ jx r) -> (Z.to_nat (r - i) <= c)%nat ->
  exists c' jx', (c' <= S c)%nat /\ good jx' /\ inv1 (i + 1) (at_ jx') /\ forall fu, loop (c' + fu) jx (i - k) = loop fu jx' (i - k + 1).
Proof.
  induction c as [|c IH]; intros jx i r G Iv Hi Hr ur Hc.
  - assert (r = i) by lia. subst r. pose proof Iv as [B C _ _ _ _ _]. exists 1%nat, jx. split; [lia|]. split; auto.
    assert (Np : ~ pend (U1 n k i) (at_ jx) i) by (intros (_ & q & _); auto). split; [apply (next1 n k z0 Y X P real k1 nk z0n real_ok sorted); auto|].
    intros fu. cbn [Nat.add]. apply (loop_settled (U1 n k i)) with (i := i); auto; try lia. rewrite Z.mod_small; lia.
  - pose proof Iv as [B C Wf _ _ _ _]. assert (Em : (i - k + k) mod n = i) by (rewrite Z.mod_small; lia).
    destruct (pend_dec n z0 Y z0n _ (at_ jx) (U1_dec n k z0 k1 nk z0n i) i) as [Pi|Np].
    + assert (T : turn jx i = true) by (eapply turn_pend; eauto; lia).
      destruct (goal1 n k z0 Y X P real k1 nk z0n real_ok sorted i (at_ jx) Iv Hi Pi) as (dest & Go & Hf).
      destruct (loop_move (U1 n k i) jx (i - k) i dest G B C ltac:(lia) Em T Go) as (d & m & f1 & j1 & Pl & M & Cm & G1 & El).
      destruct (keep1 n k z0 Y X P real k1 nk z0n real_ok sorted i (at_ jx) dest d m f1 (at_ j1) Iv Hi Pi Go Hf Pl M Cm) as (Iv1 & im & fr & Cu).
      assert (m0 : 0 <= m) by apply Cm. assert (i + m < r).
      { destruct (Z.eq_dec r i) as [->|]; [exfalso; apply ur; apply Pi|]. destruct (Z_lt_dec (i + m) r); auto. exfalso. apply ur. apply Cu. lia. }
      destruct (IH j1 i (i + m) G1 Iv1 Hi ltac:(lia) fr ltac:(lia)) as (c' & j2 & Hc' & G2 & Iv2 & E). exists (S c'), j2. split; [lia|]. split; auto. split; auto.
      intros fu. rewrite <- E. cbn [Nat.add]. apply El.
    + exists 1%nat, jx. split; [lia|]. split; auto. split; [apply (next1 n k z0 Y X P real k1 nk z0n real_ok sorted); auto|]. intros fu. cbn [Nat.add]. apply (loop_settled (U1 n k i)) with (i := i); auto; lia.
Qed.
Lemma slot2 : forall c jx i r, good jx -> inv2 i (at_ jx) -> 0 <= i < k -> i <= r <= z0 + n -> ~ is_used (at_ jx r) -> (Z.to_nat (r - i) <= c)%nat ->
  exists c' jx', (c' <= S c)%nat /\ good jx' /\ inv2 (i + 1) (at_ jx') /\ forall fu, loop (c' + fu) jx (n - k + i) = loop fu jx' (n - k + i + 1).
Proof.
  induction c as [|c IH]; intros jx i r G Iv Hi Hr ur Hc;
    (assert (Em : (n - k + i + k) mod n = i) by (replace (n - k + i + k) with (i + 1 * n) by lia; rewrite Z.mod_add by lia; apply Z.mod_small; lia));
    (assert (Ht : 0 <= n - k + i < n) by lia).
  - assert (r = i) by lia. subst r. pose proof Iv as [B C _ _ _ _]. exists 1%nat, jx. split; [lia|]. split; auto.
    assert (Np : ~ pend (U2 k i) (at_ jx) i) by (intros (_ & q & _); auto). split; [apply (next2 n k z0 Y X P real k1 nk z0n real_ok sorted); auto|].
    intros fu. cbn [Nat.add]. apply (loop_settled (U2 k i)) with (i := i); auto.
  - pose proof Iv as [B C Wf _ _ _].
    destruct (pend_dec n z0 Y z0n _ (at_ jx) (U2_dec k i) i) as [Pi|Np].
    + assert (T : turn jx i = true) by (eapply turn_pend; eauto; lia).
      destruct (goal2 n k z0 Y X P real k1 nk z0n real_ok sorted i (at_ jx) Iv Hi Pi) as [(dest & Go & Hf)|(S1 & S2 & S3)].
      * destruct (loop_move (U2 k i) jx (n - k + i) i dest G B C Ht Em T Go) as (d & m & f1 & j1 & Pl & M & Cm & G1 & El).
        destruct (keep2 n k z0 Y X P real k1 nk z0n real_ok sorted i (at_ jx) dest d m f1 (at_ j1) Iv Hi Pi Go Hf Pl M Cm) as (Iv1 & im & fr & Cu).
        assert (m0 : 0 <= m) by apply Cm. assert (i + m < r).
        { destruct (Z.eq_dec r i) as [->|]; [exfalso; apply ur; apply Pi|]. destruct (Z_lt_dec (i + m) r); auto. exfalso. apply ur. apply Cu. lia. }
        destruct (IH j1 i (i + m) G1 Iv1 Hi ltac:(lia) fr ltac:(lia)) as (c' & j2 & Hc' & G2 & Iv2 & E). exists (S c'), j2. split; [lia|]. split; auto. split; auto.
        intros fu. rewrite <- E. cbn [Nat.add]. apply El.
      * exists 1%nat, jx. split; [lia|]. split; auto. split; [apply (stay2 n k z0 Y X P real nk z0n real_ok sorted); auto|].
        intros fu. cbn [Nat.add]. apply loop_stay with (i := i); auto.
    + exists 1%nat, jx. split; [lia|]. split; auto. split; [apply (next2 n k z0 Y X P real k1 nk z0n real_ok sorted); auto|]. intros fu. cbn [Nat.add]. apply (loop_settled (U2 k i)) with (i := i); auto.
Qed.
(** a free slot not far up *)
Lemma free_up jx i : base (at_ jx) -> 0 <= i < n -> exists r, i <= r <= z0 + n /\ ~ is_used (at_ jx r) /\ (Z.to_nat (r - i) <= Z.to_nat n)%nat.
Proof.
  intros B Hi. destruct (Z_le_dec i z0).
  - exists z0. split; [lia|]. split; [apply (b_z _ _ _ _ _ B); auto|lia].
  - exists (z0 + n). split; [lia|]. split; [apply (b_z _ _ _ _ _ B); auto|lia].
Qed.
Lemma phase1 : forall c jx i, (c = Z.to_nat (n - i)) -> good jx -> inv1 i (at_ jx) -> k <= i <= n ->
  exists c' jx', (c' <= c * S (Z.to_nat n))%nat /\ good jx' /\ inv1 n (at_ jx') /\ forall fu, loop (c' + fu) jx (i - k) = loop fu jx' (n - k).
Proof.
  induction c as [|c IH]; intros jx i Ec G Iv Hi.
  - assert (i = n) by lia. subst i. exists 0%nat, jx. split; [lia|]. auto.
  - destruct (free_up jx i (i1_base _ _ _ _ _ _ _ _ Iv) ltac:(lia)) as (r & r1 & r2 & r3).
    destruct (slot1 _ jx i r G Iv ltac:(lia) r1 r2 r3) as (c1 & j1 & H1 & G1 & Iv1 & E1).
    destruct (IH j1 (i + 1) ltac:(lia) G1 Iv1 ltac:(lia)) as (c2 & j2 & H2 & G2 & Iv2 & E2).
    exists (c1 + c2)%nat, j2. split; [cbn [Nat.mul]; lia|]. split; auto. split; auto. intros fu. rewrite <- E2, <- Nat.add_assoc, E1. replace (i + 1 - k) with (i - k + 1) by lia. auto.
Qed.
Lemma phase2 : forall c jx i, (c = Z.to_nat (k - i)) -> good jx -> inv2 i (at_ jx) -> 0 <= i <= k ->
  exists c' jx', (c' <= c * S (Z.to_nat n))%nat /\ good jx' /\ inv2 k (at_ jx') /\ forall fu, loop (c' + fu) jx (n - k + i) = loop fu jx' n.
Proof.
  induction c as [|c IH]; intros jx i Ec G Iv Hi.
  - assert (i = k) by lia. subst i. exists 0%nat, jx. split; [lia|]. split; auto. split; auto. intros fu. cbn [Nat.add]. replace (n - k + k) with n by lia. auto.
  - destruct (free_up jx i (i2_base _ _ _ _ _ _ _ _ Iv) ltac:(lia)) as (r & r1 & r2 & r3).
    destruct (slot2 _ jx i r G Iv ltac:(lia) r1 r2 r3) as (c1 & j1 & H1 & G1 & Iv1 & E1).
    destruct (IH j1 (i + 1) ltac:(lia) G1 Iv1 ltac:(lia)) as (c2 & j2 & H2 & G2 & Iv2 & E2).
    exists (c1 + c2)%nat, j2. split; [cbn [Nat.mul]; lia|]. split; auto. split; auto. intros fu. rewrite <- E2, <- Nat.add_assoc, E1. replace (n - k + (i + 1)) with (n - k + i + 1) by lia. auto.
Qed.
Lemma whole jx fuel : good jx -> inv1 k (at_ jx) -> (Z.to_nat n * S (Z.to_nat n) < fuel)%nat ->
  exists jx', loop fuel jx 0 = Some jx' /\ good jx' /\ inv2 k (at_ jx').
Proof.
  intros G Iv F. destruct (phase1 _ jx k eq_refl G Iv ltac:(lia)) as (c1 & j1 & H1 & G1 & Iv1 & E1).
  apply (inv1_inv2 n k z0 Y X P real k1 nk z0n real_ok sorted) in Iv1.
  destruct (phase2 _ j1 0 eq_refl G1 Iv1 ltac:(lia)) as (c2 & j2 & H2 & G2 & Iv2 & E2). exists j2. split; auto.
  assert (Q : (c1 + c2 < fuel)%nat).
  { assert (Q : (Z.to_nat n = Z.to_nat (n - k) + Z.to_nat (k - 0))%nat) by (clear - k1 nk; lia).
    clear - H1 H2 F Q. rewrite Q in F at 1. rewrite Nat.mul_add_distr_r in F. lia. }
  replace fuel with (c1 + (c2 + S (fuel - c1 - c2 - 1)))%nat by (clear - Q; lia).
  specialize (E1 (c2 + S (fuel - c1 - c2 - 1))%nat). rewrite Z.sub_diag in E1. rewrite E1.
  specialize (E2 (S (fuel - c1 - c2 - 1))%nat). rewrite Z.add_0_r in E2. rewrite E2. cbn [rehash]. rewrite Z.leb_refl. auto.
Qed.
(** ** In order at the end *)
Lemma whole_RH jx : good jx -> inv2 k (at_ jx) -> RH jx (k + 1).
Proof.
  intros G Iv x u. assert (Bz := b_z _ _ _ _ _ (i2_base _ _ _ _ _ _ _ _ Iv)).
  set (v := z0 - n + 1 + (x - (z0 - n + 1)) mod N).
  assert (Ev : v mod N = x mod N) by (unfold v; rewrite Zplus_mod_idemp_r; f_equal; lia).
  pose proof (gmod (x - (z0 - n + 1))) as Gm. assert (Hv : z0 - n < v <= z0 + n) by (unfold v; clear - Gm; revert Gm; generalize ((x - (z0 - n + 1)) mod N); intros g Gm; unfold N in Gm; lia). clearbody v. clear Gm.
  assert (L0 : lenz jx = N) by apply G. assert (N0 : N <> 0) by (unfold N; lia).
  assert (Dx : dist jx x = dist jx v) by (apply dist_eqm; rewrite L0; auto).
  assert (Ax : at_ jx x = at_ jx v) by (apply gat; auto).
  assert (Ev1 : (v - 1) mod N = (x - 1) mod N) by (rewrite Zminus_mod, Ev, <- Zminus_mod; auto).
  assert (Dx1 : dist jx (x - 1) = dist jx (v - 1)) by (apply dist_eqm; rewrite L0; auto).
  assert (Ax1 : at_ jx (x - 1) = at_ jx (v - 1)) by (apply gat; auto).
  rewrite Dx, Dx1, Ax1. rewrite Ax in u. clear Dx Dx1 Ax Ax1 Ev Ev1.
  assert (v <> z0 + n) by (intros ->; apply (Bz (z0 + n)); auto). assert (Lv : inL n z0 v) by (unfold inL; lia).
  assert (D : forall w, z0 - n < w <= z0 + n -> Y (at_ jx w) <= w -> dist jx w = w - Y (at_ jx w)).
  { intros w Hw Hy. unfold dist. rewrite L0. rewrite <- (good_land jx) by auto.
    rewrite (good_land jx _ G), <- Zminus_mod_idemp_r, <- Y_mod, Zminus_mod_idemp_r. apply Z.mod_small. pose proof (Y_win (at_ jx w)). unfold N. lia. }
  destruct (end_order n k z0 Y X P real k1 nk z0n real_ok sorted (at_ jx) Iv v Lv u) as (o1 & o2 & o3). rewrite D by (auto; lia). split; [lia|].
  destruct o3 as [o3|(o3 & o4 & o5)]; [left; lia|right]. split; auto.
  assert (v - 1 <> z0 - n) by (intros E; rewrite E in o3; apply (Bz (z0 - n)); auto). rewrite D by (auto; lia). lia.
Qed.
End LOOP.
End TABLE.
End GROW.
