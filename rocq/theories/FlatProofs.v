From Verif Require Import CommonLemmas FlatModel FlatSpec.
From Coq Require Import Sorted.

Section P.
Context {K : Type} (cmp : K -> K -> Z) (L : cmp_lawful cmp).
Notation klt := (klt cmp).
Notation ssorted := (ssorted cmp).

Definition fits {A} (l : list A) : Prop := (Z.of_nat (length l) <= 2^30)%Z.

Definition below (k : K) (l : list K) := forall x, In x l -> klt x k.
Definition above (k : K) (l : list K) := forall x, In x l -> klt k x.

Lemma bfind_loop_spec fuel keys key lo hi :
  ssorted keys -> fits keys -> lo <= hi <= length keys -> hi - lo < fuel ->
  below key (firstn lo keys) -> above key (skipn hi keys) ->
  match bfind_loop cmp fuel keys key lo hi with
  | BHit i => nth_error keys i = Some key
  | BMiss i => i <= length keys /\ below key (firstn i keys) /\ above key (skipn i keys)
  | BBad => False
  end.
Proof.
  revert lo hi; induction fuel as [|f IH]; intros lo hi Hs Hf Hlh Hfuel Hb Ha; [lia|].
  cbn [bfind_loop].
  destruct (Nat.ltb_spec lo hi) as [Hlt|Hge].
  2:{ assert (lo = hi) by lia; subst hi. repeat split; auto; lia. }
  destruct (Z.leb_spec (2^31) (Z.of_nat (hi + lo))) as [Hov|_].
  { unfold fits in Hf. lia. }
  set (i := Nat.div2 (hi + lo)).
  assert (Hi : lo <= i < hi).
  { subst i. rewrite Nat.div2_div. split.
    - apply Nat.div_le_lower_bound; lia.
    - apply Nat.div_lt_upper_bound; lia. }
  destruct (nth_error_ex keys i ltac:(lia)) as [k Hk]. rewrite Hk. cbv zeta.
  destruct (cmp_cases cmp L k key) as [[Hc ->]|[[Hc Hlt']|[Hc Hgt]]].
  - rewrite Hc; cbn. exact Hk.
  - destruct (Z.eqb_spec (cmp k key) 0) as [|_]; [lia|].
    destruct (Z.ltb_spec (cmp k key) 0) as [_|]; [|lia].
    apply IH; auto; try lia.
    intros x Hx. rewrite Nat.add_1_r, (firstn_S_nth_error _ _ _ Hk) in Hx.
    apply in_app_or in Hx as [Hx|[<-|[]]]; [|exact Hlt'].
    apply In_nth_error in Hx as [j Hj].
    assert (Hji : j < i). { apply nth_error_lt in Hj. rewrite firstn_length in Hj; lia. }
    rewrite nth_error_firstn in Hj by exact Hji.
    apply (klt_trans cmp L _ k); [|exact Hlt'].
    eapply ssorted_nth; eauto.
  - destruct (Z.eqb_spec (cmp k key) 0) as [|_]; [lia|].
    destruct (Z.ltb_spec (cmp k key) 0) as [|_]; [lia|].
    apply IH; auto; try lia.
    intros x Hx. rewrite (skipn_nth_error_cons _ _ _ Hk) in Hx.
    destruct Hx as [<-|Hx]; [exact Hgt|].
    apply In_nth_error in Hx as [j Hj]. rewrite nth_error_skipn in Hj.
    apply (klt_trans cmp L _ k); [exact Hgt|].
    eapply ssorted_nth; eauto; lia.
Qed.

Lemma bfind_spec keys key :
  ssorted keys -> fits keys ->
  match bfind cmp keys key with
  | BHit i => nth_error keys i = Some key
  | BMiss i => i <= length keys /\ below key (firstn i keys) /\ above key (skipn i keys)
  | BBad => False
  end.
Proof.
  intros Hs Hf. apply bfind_loop_spec; auto; try lia.
  - intros x [].
  - rewrite skipn_all. intros x [].
Qed.

Lemma miss_not_In i keys key :
  below key (firstn i keys) -> above key (skipn i keys) -> ~ In key keys.
Proof.
  intros Hb Ha Hin. rewrite <- (firstn_skipn i keys) in Hin.
  apply in_app_or in Hin as [H|H].
  - apply (klt_irrefl cmp L key), Hb, H.
  - apply (klt_irrefl cmp L key), Ha, H.
Qed.

Lemma ssorted_insert i keys key :
  ssorted keys -> below key (firstn i keys) -> above key (skipn i keys) ->
  ssorted (firstn i keys ++ key :: skipn i keys).
Proof.
  intros Hs Hb Ha. rewrite <- (firstn_skipn i keys) in Hs.
  apply ssorted_app in Hs as (H1 & H2 & H3). apply ssorted_app; repeat split; auto.
  - apply ssorted_cons; split; auto.
  - intros x y Hx [<-|Hy]; auto.
Qed.

Lemma In_insert {A} i (l : list A) k x :
  In x (firstn i l ++ k :: skipn i l) <-> x = k \/ In x l.
Proof.
  rewrite in_app_iff. cbn. rewrite <- (firstn_skipn i l) at 3. rewrite in_app_iff.
  intuition.
Qed.

Lemma ssorted_remove i keys k :
  ssorted keys -> nth_error keys i = Some k ->
  ssorted (firstn i keys ++ skipn (i + 1) keys) /\
  (forall x, In x (firstn i keys ++ skipn (i + 1) keys) <-> x <> k /\ In x keys).
Proof.
  intros Hs Hk. rewrite Nat.add_1_r.
  pose proof (nth_error_In_split _ _ _ Hk) as E.
  rewrite E in Hs. pose proof (ssorted_NoDup cmp L _ Hs) as ND.
  apply ssorted_app in Hs as (H1 & H2 & H3). apply ssorted_cons in H2 as [H2 H4].
  split.
  - apply ssorted_app; repeat split; auto. intros x y Hx Hy; apply H3; [auto|right; auto].
  - intros x. rewrite E at 3. rewrite !in_app_iff. cbn.
    apply NoDup_remove_2 in ND. rewrite in_app_iff in ND.
    split; [|intuition congruence].
    intros [Hx|Hx]; (split; [intros ->; tauto|tauto]).
Qed.

Lemma set_has_spec s k : ssorted s -> fits s ->
  exists b, set_has cmp s k = Some b /\ (b = true <-> In k s).
Proof.
  intros Hs Hf. unfold set_has. pose proof (bfind_spec s k Hs Hf) as H.
  destruct (bfind cmp s k) as [i|i|]; [|destruct H as (_ & Hb & Ha)|destruct H].
  - exists true; split; [reflexivity|]. split; [|reflexivity]. intros _; eapply nth_error_In; eauto.
  - exists false; split; [reflexivity|]. split; [discriminate|].
    intros Hin; destruct (miss_not_In _ _ _ Hb Ha Hin).
Qed.

Lemma set_add_spec s k : ssorted s -> fits s ->
  exists s' b, set_add cmp s k = Some (s', b) /\ ssorted s' /\
    (forall x, In x s' <-> x = k \/ In x s) /\ (b = true <-> ~ In k s) /\
    length s' <= S (length s).
Proof.
  intros Hs Hf. unfold set_add. pose proof (bfind_spec s k Hs Hf) as H.
  destruct (bfind cmp s k) as [i|i|]; [|destruct H as (Hi & Hb & Ha)|destruct H].
  - exists s, false; repeat split; auto.
    + intros [->|]; auto. eapply nth_error_In; eauto.
    + discriminate.
    + intros Hn; destruct Hn; eapply nth_error_In; eauto.
  - rewrite insert_at_spec by exact Hi. cbn. eexists _, true; split; [reflexivity|].
    split; [apply ssorted_insert; auto|]. split; [intros; apply In_insert|].
    split; [split; [intros _; eapply miss_not_In; eauto|reflexivity]|].
    rewrite app_length; cbn. rewrite firstn_length, skipn_length. lia.
Qed.

Lemma set_remove_spec s k : ssorted s -> fits s ->
  exists s' b, set_remove cmp s k = Some (s', b) /\ ssorted s' /\
    (forall x, In x s' <-> x <> k /\ In x s) /\ (b = true <-> In k s) /\
    length s' <= length s.
Proof.
  intros Hs Hf. unfold set_remove. pose proof (bfind_spec s k Hs Hf) as H.
  destruct (bfind cmp s k) as [i|i|]; [|destruct H as (Hi & Hb & Ha)|destruct H].
  - pose proof (nth_error_lt _ _ _ H) as Hi.
    rewrite splice_out_spec by lia. cbn. eexists _, true; split; [reflexivity|].
    destruct (ssorted_remove i s k Hs H) as [S1 S2].
    split; [exact S1|]. split; [exact S2|]. split; [split; [intros _; eapply nth_error_In; eauto|reflexivity]|].
    rewrite app_length, firstn_length, skipn_length. lia.
  - exists s, false; split; [reflexivity|]. pose proof (miss_not_In _ _ _ Hb Ha) as Hn.
    split; [exact Hs|]. split; [|split; [split; [discriminate|tauto]|lia]].
    intros x; split; [|tauto]. intros Hx; split; auto. congruence.
Qed.

(** ** Bulk in-place operations *)

Lemma add_all_loop_spec fuel a b x y :
  ssorted a -> ssorted b -> x <= length a -> y <= length b ->
  (length a - x) + (length b - y) < fuel ->
  (forall u v, In u (firstn x a) -> In v (skipn y b) -> klt u v) ->
  exists r, add_all_loop cmp fuel a b x y = Some r /\ ssorted r /\
    (forall k, In k r <-> In k a \/ In k (skipn y b)).
Proof.
  revert a x y; induction fuel as [|f IH]; intros a x y Ha Hb Hx Hy Hfuel Hlow; [lia|].
  cbn [add_all_loop].
  destruct (Nat.ltb_spec x (length a)) as [Hxa|Hxa]; cbn [andb].
  - destruct (Nat.ltb_spec y (length b)) as [Hyb|Hyb].
    + destruct (nth_error_ex a x Hxa) as [X HX]; destruct (nth_error_ex b y Hyb) as [Y HY].
      rewrite HX, HY. cbn [obind].
      pose proof (nth_error_In_split _ _ _ HX) as EX.
      pose proof (skipn_nth_error_cons _ _ _ HY) as EY.
      assert (HbS : ssorted (skipn y b)).
      { rewrite <- (firstn_skipn y b) in Hb. apply ssorted_app in Hb; tauto. }
      rewrite EY in HbS. apply ssorted_cons in HbS as [HbS HY2].
      assert (HaX : forall u, In u (firstn x a) -> klt u X).
      { intros u Hu. rewrite EX in Ha. apply ssorted_app in Ha as (_ & _ & Ha).
        apply Ha; [exact Hu|left; reflexivity]. }
      assert (HXa : forall u, In u (skipn (S x) a) -> klt X u).
      { intros u Hu. rewrite EX in Ha. apply ssorted_app in Ha as (_ & Ha & _).
        apply ssorted_cons in Ha as [_ Ha]. auto. }
      destruct (cmp_cases cmp L X Y) as [[Hc HXY]|[[Hc Hlt]|[Hc Hgt]]].
      * rewrite Hc. cbn. subst Y.
        edestruct (IH a (x + 1) (y + 1)) as (r & Hr & Sr & Mr); eauto; try lia.
        { intros u v Hu Hv. rewrite Nat.add_1_r in Hu, Hv.
          rewrite (firstn_S_nth_error _ _ _ HX) in Hu. apply in_app_or in Hu as [Hu|[<-|[]]].
          - apply Hlow; auto. rewrite EY; right; auto.
          - auto. }
        exists r; split; [exact Hr|]. split; [exact Sr|]. intros k. rewrite Mr, EY, Nat.add_1_r.
        cbn. split; [tauto|]. intros [|[<-|]]; auto. left; eapply nth_error_In; eauto.
      * destruct (Z.leb_spec 0 (cmp X Y)); [lia|].
        edestruct (IH a (x + 1) y) as (r & Hr & Sr & Mr); eauto; try lia.
        intros u v Hu Hv. rewrite Nat.add_1_r in Hu.
        rewrite (firstn_S_nth_error _ _ _ HX) in Hu. apply in_app_or in Hu as [Hu|[<-|[]]]; auto.
        rewrite EY in Hv. destruct Hv as [<-|Hv]; auto. apply (klt_trans cmp L _ Y); auto.
      * destruct (Z.leb_spec 0 (cmp X Y)); [|lia].
        destruct (Z.eqb_spec (cmp X Y) 0); [lia|]. cbn [negb].
        rewrite insert_at_spec by lia. cbn [obind].
        set (a' := firstn x a ++ Y :: skipn x a).
        assert (Sa' : ssorted a').
        { apply ssorted_insert; auto.
          - intros u Hu. apply Hlow; auto. rewrite EY; left; reflexivity.
          - intros u Hu. rewrite (skipn_nth_error_cons _ _ _ HX) in Hu.
            destruct Hu as [<-|Hu]; auto. apply (klt_trans cmp L _ X); auto. }
        assert (La' : length a' = S (length a)).
        { unfold a'. rewrite app_length; cbn. rewrite firstn_length, skipn_length; lia. }
        edestruct (IH a' (x + 1) (y + 1)) as (r & Hr & Sr & Mr); eauto; try lia.
        { intros u v Hu Hv. rewrite Nat.add_1_r in Hv.
          assert (F : firstn (x + 1) a' = firstn x a ++ [Y]).
          { unfold a'. rewrite firstn_app, firstn_length, firstn_firstn.
            replace (Nat.min (x + 1) x) with x by lia.
            replace (x + 1 - Nat.min x (length a)) with 1 by lia. reflexivity. }
          rewrite F in Hu. apply in_app_or in Hu as [Hu|[<-|[]]]; auto.
          apply Hlow; auto. rewrite EY; right; auto. }
        exists r; split; [exact Hr|]. split; [exact Sr|]. intros k. rewrite Mr, EY, Nat.add_1_r.
        unfold a'. rewrite In_insert. cbn. intuition.
    + destruct (Nat.ltb_spec y (length b)); [lia|]. exists a; split; [reflexivity|]. split; [exact Ha|].
      intros k. rewrite skipn_all2 by lia. cbn. tauto.
  - assert (x = length a) by lia. subst x. rewrite firstn_all in Hlow.
    destruct (Nat.ltb_spec y (length b)) as [Hyb|Hyb].
    + eexists; split; [reflexivity|]. split.
      * apply ssorted_app; repeat split; auto.
        rewrite <- (firstn_skipn y b) in Hb. apply ssorted_app in Hb; tauto.
      * intros k; apply in_app_iff.
    + exists a; split; [reflexivity|]. split; [exact Ha|].
      intros k. rewrite skipn_all2 by lia. cbn. tauto.
Qed.

Lemma set_add_all_spec a b : ssorted a -> ssorted b ->
  exists r, set_add_all cmp a b = Some r /\ ssorted r /\ (forall k, In k r <-> In k a \/ In k b).
Proof.
  intros Ha Hb. unfold set_add_all.
  destruct (add_all_loop_spec (S (length a + length b)) a b 0 0) as (r & Hr & Sr & Mr); auto; try lia.
  { intros u v []. }
  exists r; auto.
Qed.

Lemma ssorted_skipn n l : ssorted l -> ssorted (skipn n l).
Proof. intros H. rewrite <- (firstn_skipn n l) in H. apply ssorted_app in H; tauto. Qed.
Lemma ssorted_firstn n l : ssorted l -> ssorted (firstn n l).
Proof. intros H. rewrite <- (firstn_skipn n l) in H. apply ssorted_app in H; tauto. Qed.

Lemma skipn_parts l i x : ssorted l -> nth_error l i = Some x ->
  (forall u, In u (firstn i l) -> klt u x) /\ (forall u, In u (skipn (S i) l) -> klt x u).
Proof.
  intros Hs Hx. rewrite (nth_error_In_split _ _ _ Hx) in Hs.
  apply ssorted_app in Hs as (_ & H2 & H3). apply ssorted_cons in H2 as [_ H2].
  split; auto. intros u Hu. apply H3; [exact Hu|left; reflexivity].
Qed.

(** keep: everything before x is known to be in b; nothing at or after x in a is
    in firstn y b. *)
Lemma keep_loop_spec fuel a b x y :
  ssorted a -> ssorted b -> x <= length a -> y <= length b ->
  (length a - x) + (length b - y) < fuel ->
  (forall u, In u (firstn x a) -> In u b) ->
  (forall u v, In u (skipn x a) -> In v (firstn y b) -> klt v u) ->
  exists r, keep_loop cmp fuel a b x y = Some r /\ ssorted r /\
    (forall k, In k r <-> In k a /\ In k b).
Proof.
  revert a x y; induction fuel as [|f IH]; intros a x y Ha Hb Hx Hy Hfuel Hpre Hpost; [lia|].
  cbn [keep_loop].
  destruct (Nat.ltb_spec x (length a)) as [Hxa|Hxa]; cbn [andb].
  - destruct (Nat.ltb_spec y (length b)) as [Hyb|Hyb].
    + destruct (nth_error_ex a x Hxa) as [X HX]; destruct (nth_error_ex b y Hyb) as [Y HY].
      rewrite HX, HY. cbn [obind].
      pose proof (skipn_nth_error_cons _ _ _ HX) as EX.
      pose proof (skipn_parts a x X Ha HX) as [AX1 AX2].
      pose proof (skipn_parts b y Y Hb HY) as [BY1 BY2].
      destruct (cmp_cases cmp L X Y) as [[Hc HXY]|[[Hc Hlt]|[Hc Hgt]]].
      * rewrite Hc. cbn [Z.eqb]. subst Y.
        apply IH; auto; try lia.
        -- intros u Hu. rewrite Nat.add_1_r, (firstn_S_nth_error _ _ _ HX) in Hu.
           apply in_app_or in Hu as [Hu|[<-|[]]]; auto. eapply nth_error_In; eauto.
        -- intros u v Hu Hv. rewrite Nat.add_1_r in Hu, Hv.
           rewrite (firstn_S_nth_error _ _ _ HY) in Hv.
           apply in_app_or in Hv as [Hv|[<-|[]]]; auto.
           apply Hpost; auto. rewrite EX; right; auto.
      * destruct (Z.eqb_spec (cmp X Y) 0); [lia|]. destruct (Z.ltb_spec 0 (cmp X Y)); [lia|].
        rewrite splice_out_spec by lia. cbn [obind].
        set (a' := firstn x a ++ skipn (x + 1) a).
        destruct (ssorted_remove x a X Ha HX) as [Sa' Ma']. fold a' in Sa', Ma'.
        assert (La' : length a' = length a - 1).
        { unfold a'. rewrite app_length, firstn_length, skipn_length; lia. }
        assert (F : firstn x a' = firstn x a).
        { unfold a'. rewrite firstn_app, firstn_length, firstn_firstn.
          replace (x - Nat.min x (length a)) with 0 by lia. rewrite Nat.min_id. cbn. apply app_nil_r. }
        assert (G : skipn x a' = skipn (S x) a).
        { unfold a'. rewrite skipn_app, firstn_length, skipn_all2 by (rewrite firstn_length; lia).
          replace (x - Nat.min x (length a)) with 0 by lia. cbn. rewrite Nat.add_1_r; reflexivity. }
        destruct (IH a' x y) as (r & Hr & Sr & Mr); auto; try lia.
        -- rewrite F; auto.
        -- rewrite G. intros u v Hu Hv. apply Hpost; auto. rewrite EX; right; auto.
        -- exists r; split; [exact Hr|]. split; [exact Sr|]. intros k. rewrite Mr, Ma'.
           split; [tauto|]. intros [Hk Hkb]; repeat split; auto. intros ->.
           rewrite <- (firstn_skipn y b) in Hkb. apply in_app_or in Hkb as [Hkb|Hkb].
           ++ apply (klt_irrefl cmp L X). apply Hpost; auto. rewrite EX; left; reflexivity.
           ++ rewrite (skipn_nth_error_cons _ _ _ HY) in Hkb. destruct Hkb as [<-|Hkb].
              ** apply (klt_irrefl cmp L Y Hlt).
              ** apply (klt_irrefl cmp L X), (klt_trans cmp L _ Y); auto.
      * destruct (Z.eqb_spec (cmp X Y) 0); [lia|]. destruct (Z.ltb_spec 0 (cmp X Y)); [|lia].
        apply IH; auto; try lia.
        intros u v Hu Hv. rewrite Nat.add_1_r, (firstn_S_nth_error _ _ _ HY) in Hv.
        apply in_app_or in Hv as [Hv|[<-|[]]]; auto.
        rewrite EX in Hu. destruct Hu as [<-|Hu]; auto. apply (klt_trans cmp L _ X); auto.
    + destruct (Nat.ltb_spec x (length a)); [|lia].
      eexists; split; [reflexivity|]. split; [apply ssorted_firstn; auto|].
      assert (y = length b) by lia. subst y. rewrite firstn_all in Hpost.
      intros k; split.
      * intros Hk; split; [|auto]. rewrite <- (firstn_skipn x a). apply in_or_app; auto.
      * intros [Hk Hkb]. rewrite <- (firstn_skipn x a) in Hk. apply in_app_or in Hk as [|Hk]; auto.
        exfalso. apply (klt_irrefl cmp L k); auto.
  - assert (x = length a) by lia. subst x. rewrite firstn_all in Hpre.
    destruct (Nat.ltb_spec (length a) (length a)); [lia|].
    exists a; split; [reflexivity|]. split; [exact Ha|].
    intros k; split; [auto|tauto].
Qed.

Lemma set_keep_spec a b : ssorted a -> ssorted b ->
  exists r, set_keep cmp a b = Some r /\ ssorted r /\ (forall k, In k r <-> In k a /\ In k b).
Proof.
  intros Ha Hb. unfold set_keep. apply keep_loop_spec; auto; try lia.
  all: cbn; intros; tauto.
Qed.

Lemma remove_all_loop_spec fuel a b x y :
  ssorted a -> ssorted b -> x <= length a -> y <= length b ->
  (length a - x) + (length b - y) < fuel ->
  (forall u, In u (firstn x a) -> ~ In u b) ->
  (forall u v, In u (skipn x a) -> In v (firstn y b) -> klt v u) ->
  exists r, remove_all_loop cmp fuel a b x y = Some r /\ ssorted r /\
    (forall k, In k r <-> In k a /\ ~ In k b).
Proof.
  revert a x y; induction fuel as [|f IH]; intros a x y Ha Hb Hx Hy Hfuel Hpre Hpost; [lia|].
  cbn [remove_all_loop].
  destruct (Nat.ltb_spec x (length a)) as [Hxa|Hxa]; cbn [andb].
  - destruct (Nat.ltb_spec y (length b)) as [Hyb|Hyb].
    + destruct (nth_error_ex a x Hxa) as [X HX]; destruct (nth_error_ex b y Hyb) as [Y HY].
      rewrite HX, HY. cbn [obind].
      pose proof (skipn_nth_error_cons _ _ _ HX) as EX.
      pose proof (skipn_parts a x X Ha HX) as [AX1 AX2].
      pose proof (skipn_parts b y Y Hb HY) as [BY1 BY2].
      destruct (cmp_cases cmp L X Y) as [[Hc HXY]|[[Hc Hlt]|[Hc Hgt]]].
      * rewrite Hc. cbn [Z.eqb]. subst Y.
        rewrite splice_out_spec by lia. cbn [obind].
        set (a' := firstn x a ++ skipn (x + 1) a).
        destruct (ssorted_remove x a X Ha HX) as [Sa' Ma']. fold a' in Sa', Ma'.
        assert (La' : length a' = length a - 1).
        { unfold a'. rewrite app_length, firstn_length, skipn_length; lia. }
        assert (F : firstn x a' = firstn x a).
        { unfold a'. rewrite firstn_app, firstn_length, firstn_firstn.
          replace (x - Nat.min x (length a)) with 0 by lia. rewrite Nat.min_id. cbn. apply app_nil_r. }
        assert (G : skipn x a' = skipn (S x) a).
        { unfold a'. rewrite skipn_app, firstn_length, skipn_all2 by (rewrite firstn_length; lia).
          replace (x - Nat.min x (length a)) with 0 by lia. cbn. rewrite Nat.add_1_r; reflexivity. }
        destruct (IH a' x (y + 1)) as (r & Hr & Sr & Mr); auto; try lia.
        -- rewrite F; auto.
        -- rewrite G. intros u v Hu Hv. rewrite Nat.add_1_r, (firstn_S_nth_error _ _ _ HY) in Hv.
           apply in_app_or in Hv as [Hv|[<-|[]]]; auto. apply Hpost; auto. rewrite EX; right; auto.
        -- exists r; split; [exact Hr|]. split; [exact Sr|]. intros k. rewrite Mr, Ma'.
           split; [tauto|]. intros [Hk Hkb]; repeat split; auto. intros ->.
           apply Hkb. eapply nth_error_In; eauto.
      * destruct (Z.eqb_spec (cmp X Y) 0); [lia|]. destruct (Z.ltb_spec 0 (cmp X Y)); [lia|].
        apply IH; auto; try lia.
        -- intros u Hu. rewrite Nat.add_1_r, (firstn_S_nth_error _ _ _ HX) in Hu.
           apply in_app_or in Hu as [Hu|[<-|[]]]; auto. intros Hin.
           rewrite <- (firstn_skipn y b) in Hin. apply in_app_or in Hin as [Hin|Hin].
           ++ apply (klt_irrefl cmp L X). apply Hpost; auto. rewrite EX; left; reflexivity.
           ++ rewrite (skipn_nth_error_cons _ _ _ HY) in Hin. destruct Hin as [<-|Hin].
              ** apply (klt_irrefl cmp L Y Hlt).
              ** apply (klt_irrefl cmp L X), (klt_trans cmp L _ Y); auto.
        -- intros u v Hu Hv. rewrite Nat.add_1_r in Hu. apply Hpost; auto. rewrite EX; right; auto.
      * destruct (Z.eqb_spec (cmp X Y) 0); [lia|]. destruct (Z.ltb_spec 0 (cmp X Y)); [|lia].
        apply IH; auto; try lia.
        intros u v Hu Hv. rewrite Nat.add_1_r, (firstn_S_nth_error _ _ _ HY) in Hv.
        apply in_app_or in Hv as [Hv|[<-|[]]]; auto.
        rewrite EX in Hu. destruct Hu as [<-|Hu]; auto. apply (klt_trans cmp L _ X); auto.
    + exists a; split; [reflexivity|]. split; [exact Ha|].
      assert (y = length b) by lia. subst y. rewrite firstn_all in Hpost.
      intros k; split; [|tauto]. intros Hk; split; auto.
      rewrite <- (firstn_skipn x a) in Hk. apply in_app_or in Hk as [Hk|Hk]; auto.
      intros Hkb. apply (klt_irrefl cmp L k); auto.
  - assert (x = length a) by lia. subst x. rewrite firstn_all in Hpre.
    exists a; split; [reflexivity|]. split; [exact Ha|].
    intros k; split; [auto|tauto].
Qed.

Lemma set_remove_all_spec a b : ssorted a -> ssorted b ->
  exists r, set_remove_all cmp a b = Some r /\ ssorted r /\ (forall k, In k r <-> In k a /\ ~ In k b).
Proof.
  intros Ha Hb. unfold set_remove_all. apply remove_all_loop_spec; auto; try lia.
  all: cbn; intros; tauto.
Qed.

(** ** merge: invariant rule.  [I li ri st] must be preserved by each callback. *)
Section MergeRule.
Context {St : Type} (cl cr cb : St -> K -> nat -> nat -> St * bool).
Context (l r : list K) (Sl : ssorted l) (Sr : ssorted r).
Context (I : nat -> nat -> St -> Prop) (R : St -> Prop).

(** No element of l before li is at or after ri in r, and vice versa. *)
Definition front li ri :=
  (forall u v, In u (firstn li l) -> In v (skipn ri r) -> klt u v) /\
  (forall u v, In u (firstn ri r) -> In v (skipn li l) -> klt u v).

Definition only_l li x := nth_error l li = Some x /\ ~ In x r.
Definition only_r ri x := nth_error r ri = Some x /\ ~ In x l.

Context
  (Hleft : forall li ri st x, front li ri -> li <= length l -> ri <= length r -> I li ri st -> only_l li x ->
     let '(st', stop) := cl st x li ri in if stop then R st' else I (li + 1) ri st')
  (Hright : forall li ri st x, front li ri -> li <= length l -> ri <= length r -> I li ri st -> only_r ri x ->
     let '(st', stop) := cr st x li ri in if stop then R st' else I li (ri + 1) st').

Lemma front_left li ri X : front li ri -> nth_error l li = Some X ->
  (forall v, In v (skipn ri r) -> klt X v) -> ~ In X r /\ front (li + 1) ri.
Proof.
  intros [F1 F2] HX HY. split.
  - intros Hin. rewrite <- (firstn_skipn ri r) in Hin. apply in_app_or in Hin as [H|H].
    + apply (klt_irrefl cmp L X). apply F2; auto. rewrite (skipn_nth_error_cons _ _ _ HX); left; auto.
    + apply (klt_irrefl cmp L X); auto.
  - split; intros u v Hu Hv; rewrite Nat.add_1_r in *.
    + rewrite (firstn_S_nth_error _ _ _ HX) in Hu. apply in_app_or in Hu as [Hu|[<-|[]]]; auto.
    + apply F2; auto. rewrite (skipn_nth_error_cons _ _ _ HX); right; auto.
Qed.

Lemma front_right li ri Y : front li ri -> nth_error r ri = Some Y ->
  (forall v, In v (skipn li l) -> klt Y v) -> ~ In Y l /\ front li (ri + 1).
Proof.
  intros [F1 F2] HY HX. split.
  - intros Hin. rewrite <- (firstn_skipn li l) in Hin. apply in_app_or in Hin as [H|H].
    + apply (klt_irrefl cmp L Y). apply F1; auto. rewrite (skipn_nth_error_cons _ _ _ HY); left; auto.
    + apply (klt_irrefl cmp L Y); auto.
  - split; intros u v Hu Hv; rewrite Nat.add_1_r in *.
    + apply F1; auto. rewrite (skipn_nth_error_cons _ _ _ HY); right; auto.
    + rewrite (firstn_S_nth_error _ _ _ HY) in Hu. apply in_app_or in Hu as [Hu|[<-|[]]]; auto.
Qed.

Lemma front_both li ri X : front li ri -> nth_error l li = Some X -> nth_error r ri = Some X ->
  front (li + 1) (ri + 1).
Proof.
  intros [F1 F2] HX HY.
  destruct (skipn_parts l li X Sl HX) as [_ A]. destruct (skipn_parts r ri X Sr HY) as [_ B].
  split; intros u v Hu Hv; rewrite Nat.add_1_r in *.
  - rewrite (firstn_S_nth_error _ _ _ HX) in Hu. apply in_app_or in Hu as [Hu|[<-|[]]]; auto.
    apply F1; auto. rewrite (skipn_nth_error_cons _ _ _ HY); right; auto.
  - rewrite (firstn_S_nth_error _ _ _ HY) in Hu. apply in_app_or in Hu as [Hu|[<-|[]]]; auto.
    apply F2; auto. rewrite (skipn_nth_error_cons _ _ _ HX); right; auto.
Qed.

Lemma above_all X Y ri : klt X Y -> nth_error r ri = Some Y -> forall v, In v (skipn ri r) -> klt X v.
Proof.
  intros H HY v Hv. rewrite (skipn_nth_error_cons _ _ _ HY) in Hv. destruct Hv as [<-|Hv]; auto.
  destruct (skipn_parts r ri Y Sr HY) as [_ B]. apply (klt_trans cmp L _ Y); auto.
Qed.
Lemma above_all' X Y li : klt Y X -> nth_error l li = Some X -> forall v, In v (skipn li l) -> klt Y v.
Proof.
  intros H HX v Hv. rewrite (skipn_nth_error_cons _ _ _ HX) in Hv. destruct Hv as [<-|Hv]; auto.
  destruct (skipn_parts l li X Sl HX) as [_ B]. apply (klt_trans cmp L _ X); auto.
Qed.

Section M3.
Context (Hboth : forall li ri st x, front li ri -> li <= length l -> ri <= length r -> I li ri st ->
     nth_error l li = Some x -> nth_error r ri = Some x ->
     let '(st', stop) := cb st x li ri in if stop then R st' else I (li + 1) (ri + 1) st').

Lemma merge3_loop_rule fuel li ri st :
  front li ri -> li <= length l -> ri <= length r ->
  (length l - li) + (length r - ri) < fuel -> I li ri st ->
  exists st' stop, merge3_loop cmp cl cr cb fuel l r li ri st = Some (st', stop) /\
    if stop then R st' else I (length l) (length r) st'.
Proof.
  revert li ri st; induction fuel as [|f IH]; intros li ri st Fr Hli Hri Hfuel HI; [lia|].
  cbn [merge3_loop].
  destruct (Nat.eqb_spec li (length l)) as [El|El]; destruct (Nat.eqb_spec ri (length r)) as [Er|Er];
    cbn [andb].
  - subst. exists st, false; auto.
  - destruct (nth_error_ex r ri ltac:(lia)) as [Y HY]. cbn [obind Z.eqb Z.ltb Z.compare]. rewrite HY. cbn [obind].
    destruct (front_right li ri Y Fr HY) as [N F'].
    { subst li; rewrite skipn_all; intros v []. }
    pose proof (Hright li ri st Y Fr ltac:(lia) ltac:(lia) HI (conj HY N)) as HR.
    destruct (cr st Y li ri) as [st' [|]]; [exists st', true; auto|].
    apply IH; auto; lia.
  - destruct (nth_error_ex l li ltac:(lia)) as [X HX]. cbn [obind Z.eqb Z.ltb Z.compare]. rewrite HX. cbn [obind].
    destruct (front_left li ri X Fr HX) as [N F'].
    { subst ri; rewrite skipn_all; intros v []. }
    pose proof (Hleft li ri st X Fr ltac:(lia) ltac:(lia) HI (conj HX N)) as HR.
    destruct (cl st X li ri) as [st' [|]]; [exists st', true; auto|].
    apply IH; auto; lia.
  - destruct (nth_error_ex l li ltac:(lia)) as [X HX].
    destruct (nth_error_ex r ri ltac:(lia)) as [Y HY]. rewrite HX, HY. cbn [obind].
    destruct (cmp_cases cmp L X Y) as [[Hc HXY]|[[Hc Hlt]|[Hc Hgt]]].
    + rewrite Hc. cbn [Z.eqb]. subst Y.
      pose proof (Hboth li ri st X Fr ltac:(lia) ltac:(lia) HI HX HY) as HR.
      destruct (cb st X li ri) as [st' [|]]; [exists st', true; auto|].
      apply IH; auto; try lia. eapply front_both; eauto.
    + destruct (Z.eqb_spec (cmp X Y) 0); [lia|]. destruct (Z.ltb_spec (cmp X Y) 0); [|lia].
      destruct (front_left li ri X Fr HX) as [N F']. { eapply above_all; eauto. }
      pose proof (Hleft li ri st X Fr ltac:(lia) ltac:(lia) HI (conj HX N)) as HR.
      destruct (cl st X li ri) as [st' [|]]; [exists st', true; auto|].
      apply IH; auto; lia.
    + destruct (Z.eqb_spec (cmp X Y) 0); [lia|]. destruct (Z.ltb_spec (cmp X Y) 0); [lia|].
      destruct (front_right li ri Y Fr HY) as [N F']. { eapply above_all'; eauto. }
      pose proof (Hright li ri st Y Fr ltac:(lia) ltac:(lia) HI (conj HY N)) as HR.
      destruct (cr st Y li ri) as [st' [|]]; [exists st', true; auto|].
      apply IH; auto; lia.
Qed.

Lemma merge3_rule st : I 0 0 st ->
  exists st' stop, merge3 cmp cl cr cb l r st = Some (st', stop) /\
    if stop then R st' else I (length l) (length r) st'.
Proof.
  intros HI. apply merge3_loop_rule; [split; intros u v []|lia|lia|lia|exact HI].
Qed.
End M3.

Section M2.
Context (Hboth : forall li ri st x, front li ri -> li <= length l -> ri <= length r -> I li ri st ->
     nth_error l li = Some x -> nth_error r ri = Some x ->
     let '(st', stop) := cl st x li ri in if stop then R st' else I (li + 1) (ri + 1) st').

Lemma merge2_loop_rule fuel li ri st :
  front li ri -> li <= length l -> ri <= length r ->
  (length l - li) + (length r - ri) < fuel -> I li ri st ->
  exists st' stop, merge2_loop cmp cl cr fuel l r li ri st = Some (st', stop) /\
    if stop then R st' else I (length l) (length r) st'.
Proof.
  revert li ri st; induction fuel as [|f IH]; intros li ri st Fr Hli Hri Hfuel HI; [lia|].
  cbn [merge2_loop].
  destruct (Nat.eqb_spec li (length l)) as [El|El]; destruct (Nat.eqb_spec ri (length r)) as [Er|Er];
    cbn [andb].
  - subst. exists st, false; auto.
  - destruct (nth_error_ex r ri ltac:(lia)) as [Y HY]. cbn [obind Z.eqb Z.leb Z.compare]. rewrite HY. cbn [obind].
    destruct (front_right li ri Y Fr HY) as [N F'].
    { subst li; rewrite skipn_all; intros v []. }
    pose proof (Hright li ri st Y Fr ltac:(lia) ltac:(lia) HI (conj HY N)) as HR.
    destruct (cr st Y li ri) as [st' [|]]; [exists st', true; auto|].
    apply IH; auto; lia.
  - destruct (nth_error_ex l li ltac:(lia)) as [X HX]. cbn [obind Z.eqb Z.leb Z.compare]. rewrite HX. cbn [obind].
    destruct (front_left li ri X Fr HX) as [N F'].
    { subst ri; rewrite skipn_all; intros v []. }
    pose proof (Hleft li ri st X Fr ltac:(lia) ltac:(lia) HI (conj HX N)) as HR.
    destruct (cl st X li ri) as [st' [|]]; [exists st', true; auto|].
    apply IH; auto; lia.
  - destruct (nth_error_ex l li ltac:(lia)) as [X HX].
    destruct (nth_error_ex r ri ltac:(lia)) as [Y HY]. rewrite HX, HY. cbn [obind].
    destruct (cmp_cases cmp L X Y) as [[Hc HXY]|[[Hc Hlt]|[Hc Hgt]]].
    + rewrite Hc. cbn [Z.eqb Z.leb Z.compare]. subst Y.
      pose proof (Hboth li ri st X Fr ltac:(lia) ltac:(lia) HI HX HY) as HR.
      destruct (cl st X li ri) as [st' [|]]; [exists st', true; auto|].
      apply IH; auto; try lia. eapply front_both; eauto.
    + destruct (Z.leb_spec (cmp X Y) 0); [|lia]. destruct (Z.eqb_spec (cmp X Y) 0); [lia|].
      destruct (front_left li ri X Fr HX) as [N F']. { eapply above_all; eauto. }
      pose proof (Hleft li ri st X Fr ltac:(lia) ltac:(lia) HI (conj HX N)) as HR.
      destruct (cl st X li ri) as [st' [|]]; [exists st', true; auto|].
      apply IH; auto; lia.
    + destruct (Z.leb_spec (cmp X Y) 0); [lia|].
      destruct (front_right li ri Y Fr HY) as [N F']. { eapply above_all'; eauto. }
      pose proof (Hright li ri st Y Fr ltac:(lia) ltac:(lia) HI (conj HY N)) as HR.
      destruct (cr st Y li ri) as [st' [|]]; [exists st', true; auto|].
      apply IH; auto; lia.
Qed.

Lemma merge2_rule st : I 0 0 st ->
  exists st' stop, merge2 cmp cl cr l r st = Some (st', stop) /\
    if stop then R st' else I (length l) (length r) st'.
Proof.
  intros HI. apply merge2_loop_rule; [split; intros u v []|lia|lia|lia|exact HI].
Qed.
End M2.
End MergeRule.

Lemma set_has_inter_spec l r : ssorted l -> ssorted r ->
  exists b, set_has_inter cmp l r = Some b /\ (b = true <-> exists x, In x l /\ In x r).
Proof.
  intros Sl Sr. unfold set_has_inter.
  edestruct (merge3_rule (fun (st:unit) _ _ _ => (st, false)) (fun st _ _ _ => (st, false))
    (fun st _ _ _ => (st, true)) l r Sl Sr
    (fun li _ _ => forall x, In x (firstn li l) -> ~ In x r) (fun _ => exists x, In x l /\ In x r))
    as (st' & stop & E & H).
  - intros li ri st x Fr Hl Hr HI [HX HN] y Hy. rewrite Nat.add_1_r, (firstn_S_nth_error _ _ _ HX) in Hy.
    apply in_app_or in Hy as [Hy|[<-|[]]]; auto.
  - auto.
  - intros li ri st x Fr Hl Hr HI HX HY. exists x; split; eapply nth_error_In; eauto.
  - intros x [].
  - rewrite E. cbn. exists stop; split; [reflexivity|]. destruct stop; [tauto|].
    split; [discriminate|]. intros (x & Hx & Hy). rewrite firstn_all in H. destruct (H x Hx Hy).
Qed.

Lemma set_misses_some_spec l from : ssorted l -> ssorted from ->
  exists b, set_misses_some cmp l from = Some b /\ (b = true <-> exists x, In x from /\ ~ In x l).
Proof.
  intros Sl Sr. unfold set_misses_some.
  edestruct (merge3_rule (fun (st:unit) _ _ _ => (st, false)) (fun st _ _ _ => (st, true))
    (fun st _ _ _ => (st, false)) l from Sl Sr
    (fun _ ri _ => forall x, In x (firstn ri from) -> In x l) (fun _ => exists x, In x from /\ ~ In x l))
    as (st' & stop & E & H).
  - auto.
  - intros li ri st x Fr Hl Hr HI [HX HN]. exists x; split; auto. eapply nth_error_In; eauto.
  - intros li ri st x Fr Hl Hr HI HX HY y Hy. rewrite Nat.add_1_r, (firstn_S_nth_error _ _ _ HY) in Hy.
    apply in_app_or in Hy as [Hy|[<-|[]]]; auto. eapply nth_error_In; eauto.
  - intros x [].
  - rewrite E. cbn. exists stop; split; [reflexivity|]. destruct stop; [tauto|].
    split; [discriminate|]. intros (x & Hx & Hy). rewrite firstn_all in H. destruct (Hy (H x Hx)).
Qed.

Lemma firstn_len_lt {A} (l : list A) i x : nth_error l i = Some x -> i < length l.
Proof. apply nth_error_lt. Qed.

Lemma ssorted_snoc s x : ssorted s -> (forall u, In u s -> klt u x) -> ssorted (s ++ [x]).
Proof.
  intros Hs H. apply ssorted_app; repeat split; auto.
  - apply ssorted_cons; split; [constructor|intros y []].
  - intros u v Hu [<-|[]]; auto.
Qed.

Lemma inter_body_spec l r : ssorted l -> ssorted r ->
  exists s, inter_body cmp l r = Some s /\ ssorted s /\ (forall k, In k s <-> In k l /\ In k r).
Proof.
  intros Sl Sr. unfold inter_body.
  match goal with |- context[merge3 _ ?f ?g ?h _ _ _] => set (cl := f); set (cr := g); set (cb := h) end.
  pose (I := fun (li ri : nat) (st : bool * list K) =>
    if fst st then
      ssorted (snd st) /\ (forall k, In k (snd st) <-> In k (firstn li l) /\ In k r)
    else (forall k, In k (firstn li l) -> In k r)).
  edestruct (merge3_rule cl cr cb l r Sl Sr I (fun _ => False)) with (st := (false, @nil K)) as (st' & stop & E & H).
  - intros li ri [u res] x Fr Hl Hr HI [HX HN]. unfold cl, I in *. cbn [fst snd] in *.
    destruct u; cbn [negb fst snd].
    + destruct HI as [S1 M1]; split; auto. intros k. rewrite M1, Nat.add_1_r, (firstn_S_nth_error _ _ _ HX).
      rewrite in_app_iff. cbn. split; [tauto|]. intros [[|[<-|[]]] ?]; tauto.
    + split; [apply ssorted_firstn; auto|]. intros k.
      rewrite Nat.add_1_r, (firstn_S_nth_error _ _ _ HX), in_app_iff. cbn.
      split; [intros; split; auto|]. intros [[|[<-|[]]] ?]; tauto.
  - auto.
  - intros li ri [u res] x Fr Hl Hr HI HX HY. unfold cb, I in *. cbn [fst snd] in *.
    destruct (skipn_parts l li x Sl HX) as [A _].
    destruct u; cbn [fst snd].
    + destruct HI as [S1 M1]. split.
      * apply ssorted_snoc; auto. intros u Hu. apply A, M1, Hu.
      * intros k. rewrite Nat.add_1_r, (firstn_S_nth_error _ _ _ HX), !in_app_iff, M1. cbn.
        assert (In x r) by (eapply nth_error_In; eauto). intuition; subst; auto.
    + intros k. rewrite Nat.add_1_r, (firstn_S_nth_error _ _ _ HX), !in_app_iff.
      intros [Hk|[<-|[]]]; auto. eapply nth_error_In; eauto.
  - unfold I; cbn. intros k [].
  - rewrite E. cbn [obind]. destruct st' as [u res]. destruct stop; [destruct H|].
    unfold I in H; cbn [fst snd] in H. rewrite firstn_all in H. destruct u.
    + exists res; split; [reflexivity|tauto].
    + exists l; split; [reflexivity|]. split; auto. intros k; split; [auto|tauto].
Qed.

Lemma set_inter_spec l r : ssorted l -> ssorted r ->
  exists s, set_inter cmp l r = Some s /\ ssorted s /\ (forall k, In k s <-> In k l /\ In k r).
Proof.
  intros Sl Sr. unfold set_inter. destruct (length r <? length l).
  - destruct (inter_body_spec r l Sr Sl) as (s & E & S1 & M). exists s; split; auto. split; auto.
    intros k; rewrite M; tauto.
  - apply inter_body_spec; auto.
Qed.

Lemma union_body_spec l r : ssorted l -> ssorted r ->
  exists s, union_body cmp l r = Some s /\ ssorted s /\ (forall k, In k s <-> In k l \/ In k r).
Proof.
  intros Sl Sr. unfold union_body.
  match goal with |- context[merge2 _ ?f ?g _ _ _] => set (cl := f); set (cr := g) end.
  pose (I := fun (li ri : nat) (st : bool * list K) =>
    if fst st then
      ssorted (snd st) /\ (forall k, In k (snd st) <-> In k (firstn li l) \/ In k (firstn ri r))
    else snd st = [] /\ (forall k, In k (firstn ri r) -> In k (firstn li l))).
  assert (Hhi : forall li ri x (res : list K), front l r li ri -> nth_error l li = Some x ->
     (forall k, In k res <-> In k (firstn li l) \/ In k (firstn ri r)) -> forall u, In u res -> klt u x).
  { intros li ri x res [F1 F2] HX M u Hu. apply M in Hu as [Hu|Hu].
    - destruct (skipn_parts l li x Sl HX) as [A _]; auto.
    - apply F2; auto. rewrite (skipn_nth_error_cons _ _ _ HX); left; auto. }
  assert (Hhi' : forall li ri x (res : list K), front l r li ri -> nth_error r ri = Some x ->
     (forall k, In k res <-> In k (firstn li l) \/ In k (firstn ri r)) -> forall u, In u res -> klt u x).
  { intros li ri x res [F1 F2] HX M u Hu. apply M in Hu as [Hu|Hu].
    - apply F1; auto. rewrite (skipn_nth_error_cons _ _ _ HX); left; auto.
    - destruct (skipn_parts r ri x Sr HX) as [A _]; auto. }
  edestruct (merge2_rule cl cr cr l r Sl Sr I (fun _ => False)) with (st := (false, @nil K)) as (st' & stop & E & H).
  - intros li ri [u res] x Fr Hl Hr HI [HX HN]. unfold cl, I in *. cbn [fst snd] in *.
    destruct u; cbn [fst snd].
    + destruct HI as [S1 M1]; split; [apply ssorted_snoc; eauto|].
      intros k. rewrite Nat.add_1_r, (firstn_S_nth_error _ _ _ HX), !in_app_iff, M1. cbn. tauto.
    + destruct HI as [-> M1]; split; auto. intros k Hk.
      rewrite Nat.add_1_r, (firstn_S_nth_error _ _ _ HX), !in_app_iff. auto.
  - intros li ri [u res] x Fr Hl Hr HI [HY HN]. unfold cr, I in *. cbn [fst snd] in *.
    destruct u; cbn [negb fst snd].
    + destruct HI as [S1 M1]; split; [apply ssorted_snoc; eauto|].
      intros k. rewrite Nat.add_1_r, (firstn_S_nth_error _ _ _ HY), !in_app_iff, M1. cbn. tauto.
    + destruct HI as [-> M1]. cbn [app].
      assert (M2 : forall k, In k (firstn li l) <-> In k (firstn li l) \/ In k (firstn ri r)).
      { intros k; split; [auto|]. intros [|]; auto. }
      split; [apply ssorted_snoc; [apply ssorted_firstn; auto|eauto]|].
      intros k. rewrite Nat.add_1_r, (firstn_S_nth_error _ _ _ HY), !in_app_iff. cbn.
      pose proof (M1 k). tauto.
  - intros li ri [u res] x Fr Hl Hr HI HX HY. unfold cl, I in *. cbn [fst snd] in *.
    destruct u; cbn [fst snd].
    + destruct HI as [S1 M1]; split; [apply ssorted_snoc; eauto|].
      intros k. rewrite !Nat.add_1_r, (firstn_S_nth_error _ _ _ HX), (firstn_S_nth_error _ _ _ HY), !in_app_iff, M1.
      cbn. tauto.
    + destruct HI as [-> M1]; split; auto. intros k.
      rewrite !Nat.add_1_r, (firstn_S_nth_error _ _ _ HX), (firstn_S_nth_error _ _ _ HY), !in_app_iff.
      cbn. pose proof (M1 k). tauto.
  - unfold I; cbn. split; auto.
  - rewrite E. cbn [obind]. destruct st' as [u res]. destruct stop; [destruct H|].
    unfold I in H; cbn [fst snd] in H. rewrite !firstn_all in H. destruct u.
    + exists res; split; [reflexivity|tauto].
    + exists l; split; [reflexivity|]. split; auto. intros k; split; [auto|].
      intros [|]; auto. apply H; auto.
Qed.

Lemma set_union_spec l r : ssorted l -> ssorted r ->
  exists s, set_union cmp l r = Some s /\ ssorted s /\ (forall k, In k s <-> In k l \/ In k r).
Proof.
  intros Sl Sr. unfold set_union. destruct (length l <? length r).
  - destruct (union_body_spec r l Sr Sl) as (s & E & S1 & M). exists s; split; auto. split; auto.
    intros k; rewrite M; tauto.
  - apply union_body_spec; auto.
Qed.

Lemma set_diff_spec from rem : ssorted from -> ssorted rem ->
  exists s, set_diff cmp from rem = Some s /\ ssorted s /\ (forall k, In k s <-> In k from /\ ~ In k rem).
Proof.
  intros Sr Sl. unfold set_diff.
  match goal with |- context[merge2 _ ?f ?g _ _ _] => set (cl := f); set (cr := g) end.
  pose (I := fun (li ri : nat) (st : bool * list K) =>
    if fst st then
      ssorted (snd st) /\ (forall k, In k (snd st) <-> In k (firstn ri from) /\ ~ In k rem)
    else (forall k, In k (firstn ri from) -> ~ In k rem) /\ firstn li rem = []).
  edestruct (merge2_rule cl cr cr rem from Sl Sr I (fun _ => False)) with (st := (false, @nil K)) as (st' & stop & E & H).
  - intros li ri [u res] x Fr Hl Hr HI [HX HN]. unfold cl, I in *. cbn [fst snd] in *.
    destruct u; cbn [negb fst snd].
    + exact HI.
    + destruct HI as [M1 _]. split; [apply ssorted_firstn; auto|].
      intros k; split; [auto|tauto].
  - intros li ri [u res] x Fr Hl Hr HI [HY HN]. unfold cr, I in *. cbn [fst snd] in *.
    destruct (skipn_parts from ri x Sr HY) as [A _].
    destruct u; cbn [negb fst snd].
    + destruct HI as [S1 M1]; split.
      * apply ssorted_snoc; auto. intros u Hu. apply A, M1, Hu.
      * intros k. rewrite Nat.add_1_r, (firstn_S_nth_error _ _ _ HY), !in_app_iff, M1. cbn.
        intuition; subst; auto.
    + destruct HI as [M1 E1]. split; auto. intros k. rewrite Nat.add_1_r, (firstn_S_nth_error _ _ _ HY), !in_app_iff.
      intros [Hk|[<-|[]]]; auto.
  - intros li ri [u res] x Fr Hl Hr HI HX HY. unfold cl, I in *. cbn [fst snd] in *.
    assert (In x rem) by (eapply nth_error_In; eauto).
    destruct u; cbn [negb fst snd].
    + destruct HI as [S1 M1]; split; auto. intros k.
      rewrite Nat.add_1_r, (firstn_S_nth_error _ _ _ HY), !in_app_iff, M1. cbn.
      intuition; subst; tauto.
    + destruct HI as [M1 _]. split; [apply ssorted_firstn; auto|]. intros k.
      rewrite Nat.add_1_r, (firstn_S_nth_error _ _ _ HY), !in_app_iff. cbn.
      split; [auto|]. intros [[|[<-|[]]] ?]; tauto.
  - unfold I; cbn. split; auto.
  - rewrite E. cbn [obind]. destruct st' as [u res]. destruct stop; [destruct H|].
    unfold I in H; cbn [fst snd] in H. rewrite !firstn_all in H. destruct u.
    + exists res; split; [reflexivity|tauto].
    + exists from; split; [reflexivity|]. split; auto. intros k; split; [|tauto].
      intros Hk; split; auto. apply H; auto.
Qed.

End P.
