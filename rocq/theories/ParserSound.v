(** What is parsed without a warning is a well-formed tree, and its meaning is the result. *)
From Coq Require Import String Ascii.
From Verif Require Export ParserComplete.
From Coq Require Import List Lia ZArith Bool.
Import ListNotations.
Open Scope Z_scope.
Open Scope list_scope.
Notation length := List.length.

Lemma pbind_ok {A B} (x : pres A) (g : A -> pres B) b : pbind x g = POk b -> exists a, x = POk a /\ g a = POk b.
Proof. destruct x as [a| | | |]; try discriminate. intros H. exists a. split; [reflexivity|exact H]. Qed.
Lemma warn_ok {A} ok w (k : nat -> pres A) r : warn_unless ok w k = POk r -> ok = true /\ k w = POk r \/ exists w0, w = S w0 /\ k w0 = POk r.
Proof. unfold warn_unless. destruct ok; [auto|]. destruct w as [|w0]; [discriminate|]. intros H. right. exists w0. auto. Qed.

Section sound.
Variable ts : list token.
Notation parse := (parseExpression ts). Notation tails := (tails ts). Notation tok := (tok ts). Notation sym_at := (sym_at ts). Notation spelled := (spelled ts).
Definition mono (ps : parser) : Prop := forall col mode P i w n j w', ps col mode P i w = POk (n, j, w') -> (w' <= w)%nat.

Ltac inv H := apply pbind_ok in H; let a := fresh "a" in let Ha := fresh "Ha" in destruct H as [a [Ha H]].
Ltac invn H a Ha := apply pbind_ok in H; destruct H as [a [Ha H]].
Ltac invw H := apply warn_ok in H; let Hk := fresh "Hk" in let w0 := fresh "w0" in destruct H as [[Hk H]|[w0 [-> H]]].
Lemma softComma_mono endop i w i' w' : softComma ts endop i w = POk (i', w') -> (w' <= w)%nat.
Proof.
  unfold softComma. intros H. inv H. destruct (is_o "," a); [injection H as _ <-; lia|]. destruct (is_o endop a); [injection H as _ <-; lia|]. inv H. invw H; injection H as _ <-; lia.
Qed.
Lemma juggle_mono endop slice used args named i w r w' : commaJuggle ts endop slice used args named i w = POk (r, w') -> (w' <= w)%nat.
Proof.
  unfold commaJuggle. intros H. inv H. destruct (slice && negb used && is_o ".." a).
  - inv H. destruct a0. inv H. destruct (is_o "," a0); injection H as _ <-; lia.
  - destruct args; [injection H as _ <-; lia|]. inv H. destruct a0 as [i1 w1]. injection H as _ <-. eapply softComma_mono; eassumption.
Qed.
Lemma args_mono ps endop slice col : mono ps -> forall f used acc nm i w r w', parseCallArgs ts f ps endop slice col used acc nm i w = POk (r, w') -> (w' <= w)%nat.
Proof.
  intros Hps. induction f as [|f IH]; intros used acc nm i w r w' H; [discriminate|]. rewrite parseCallArgs_S in H. inv H. destruct a as [[[[[name used1] acc1] nm1] i1] w1]. apply juggle_mono in Ha.
  inv H. destruct a as [fin i2]. destruct fin; [injection H as _ <-; lia|]. inv H. inv H. cbn zeta in H. inv H. destruct a1 as [[[name2 au] op2] i3]. inv H. destruct a1 as [[e i4] w4]. apply Hps in Ha4. inv H. apply IH in H. lia.
Qed.
Lemma head_mono ps f col i w n j w' : mono ps -> parseExpressionHead ts f ps col i w = POk (n, j, w') -> (w' <= w)%nat.
Proof.
  intros Hps. unfold parseExpressionHead. intros H. inv H. destruct (t_kind a); cbn [leaf_kind] in H; try discriminate; try (injection H as _ _ <-; lia).
  - destruct (has not_modelled_ids (t_value a)); [discriminate|]. inv H. injection H as _ _ <-. lia.
  - destruct (is_o "(" a).
    { unfold parseParens in H. inv H. destruct a0 as [[[k v fl p its] i1] w1]. apply Hps in Ha0. inv H. injection H as _ _ <-. lia. }
    destruct (has not_modelled_ops (t_value a)); [discriminate|]. destruct (is_o "[" a).
    { unfold parseArrayLiteral in H. inv H. destruct a0 as [[[[l nm] us] i1] w1]. apply args_mono in Ha0; [|exact Hps]. injection H as _ _ <-. lia. }
    destruct (is_o "[]" a); [injection H as _ _ <-; lia|]. unfold parsePrefix in H. destruct (has PREFIX (t_value a)); [|discriminate]. inv H. destruct a0 as [[e i1] w1]. apply Hps in Ha0. inv H. injection H as _ _ <-. lia.
Qed.
Lemma binary_mono op l r w n w' : createBinary op l r w = POk (n, w') -> (w' <= w)%nat.
Proof.
  unfold createBinary. destruct (same op (bytes "||")); [intros H; injection H as _ <-; lia|]. destruct (same op (bytes "&&")); [intros H; injection H as _ <-; lia|].
  assert (forall w0 w1 : nat, (if same op (bytes "|>") then do* n := pipelineRight l r in POk (n, w0) else if same op (bytes "<|") then do* n := pipelineLeft l r in POk (n, w0)
    else if same op (bytes ":=") then do* n := letShorthand l r in POk (n, w0) else if same op (bytes "->") then POk (Node K_typeassert [] no_flags false [l; r], w0)
    else if same op (bytes "=>") then POk (Node K_typecast [] no_flags false [l; r], w0) else POk (createCall op F_OPERATOR [l; r], w0)) = POk (n, w1) -> w1 = w0) as Hx.
  { intros w0 w1 H. destruct (same op (bytes "|>")); [inv H; congruence|]. destruct (same op (bytes "<|")); [inv H; congruence|]. destruct (same op (bytes ":=")); [inv H; congruence|].
    destruct (same op (bytes "->")); [congruence|]. destruct (same op (bytes "=>")); congruence. }
  intros H. invw H; apply Hx in H; lia.
Qed.
Lemma typeAnnot_mono ps col i w n j w' : mono ps -> parseTypeAnnot ts ps col i w = POk (n, j, w') -> (w' <= w)%nat.
Proof.
  intros Hps H. unfold parseTypeAnnot in H. inv H. destruct a as [hr i1]. inv H. destruct a as [hm i2]. inv H. destruct a as [[e i3] w3]. apply Hps in Ha1. injection H as _ _ <-. lia.
Qed.
Lemma tail_mono ps f col mode P n i w r w' : mono ps -> tryParseExpressionTail ts f ps col mode P n i w = POk (r, w') -> (w' <= w)%nat.
Proof.
  intros Hps H. unfold tryParseExpressionTail in H. inv H. destruct (t_kind a); try (injection H as _ <-; lia).
  destruct (is_o ";" a); [injection H as _ <-; lia|].
  assert (forall x w0, (do* (n, i, w) := x in POk (Some n, i, w)) = POk (r, w') -> (forall n1 i1 w1, x = POk (n1, i1, w1) -> (w1 <= w0)%nat) -> (w' <= w0)%nat) as Hsome.
  { intros x w0 H' Hx. apply pbind_ok in H'. destruct H' as [[[n1 i1] w1] [Hx1 H']]. injection H' as _ <-. eapply Hx; eassumption. }
  assert (Hacc : forall w0, (do* (n, i, w) := parseAccessExpression ts n (S i) w0 in POk (Some n, i, w)) = POk (r, w') -> (w' <= w0)%nat).
  { intros w0 H'. eapply Hsome; [exact H'|]. intros n1 i1 w1 Hx. unfold parseAccessExpression in Hx. inv Hx. destruct (t_kind a0); try (destruct (is_o "::" a0); discriminate). injection Hx as _ _ <-. lia. }
  assert (Hcall : forall w0, (do* (n, i, w) := parseCallExpression ts f ps col n (S i) w0 in POk (Some n, i, w)) = POk (r, w') -> (w' <= w0)%nat).
  { intros w0 H'. eapply Hsome; [exact H'|]. intros n1 i1 w1 Hx. unfold parseCallExpression in Hx. inv Hx. destruct a0 as [[[[l nm] us] i2] w2]. apply args_mono in Ha0; [|exact Hps]. inv Hx. injection Hx as _ _ <-. lia. }
  assert (Hidx : forall w0, (do* (n, i, w) := parseIndexExpression ts f ps col n (S i) w0 in POk (Some n, i, w)) = POk (r, w') -> (w' <= w0)%nat).
  { intros w0 H'. eapply Hsome; [exact H'|]. intros n1 i1 w1 Hx. unfold parseIndexExpression in Hx. inv Hx. destruct a0 as [[[[l nm] us] i2] w2]. apply args_mono in Ha0; [|exact Hps]. injection Hx as _ _ <-. lia. }
  destruct (is_o "." a). { invw H; apply Hacc in H; lia. }
  destruct (is_o "(" a). { invw H; apply Hcall in H; lia. }
  destruct (is_o "[" a). { invw H; apply Hidx in H; lia. }
  destruct (PRECEDENCE (t_value a)) as [q|].
  - unfold tryParseBinary in H.
    match type of H with warn_unless _ _ ?k = _ => assert (forall w0, k w0 = POk (r, w') -> (w' <= w0)%nat) as Hb end; [|invw H; apply Hb in H; lia].
    clear H. intros w0 H. cbn beta in H. match type of H with (if ?c then _ else _) = _ => destruct c end; [injection H as _ <-; lia|]. cbn zeta in H. destruct (same (t_value a) (bytes "?")).
    + inv H. destruct a0 as [[m i1] w1]. apply Hps in Ha0. inv H. inv H. destruct a1 as [[m2 i2] w2]. apply Hps in Ha2. injection H as _ <-. lia.
    + inv H. destruct a0 as [[m i1] w1]. assert (w1 <= w0)%nat. { destruct (same (t_value a) (bytes "->") || same (t_value a) (bytes "=>")); [eapply typeAnnot_mono|eapply Hps]; eassumption. }
      inv H. destruct a0 as [n2 w2]. apply binary_mono in Ha1. injection H as _ <-. lia.
  - destruct (has POSTFIX (t_value a)); [injection H as _ <-; lia|]. destruct (is_o "::" a); [discriminate|injection H as _ <-; lia].
Qed.
Lemma parse_tails_mono f : mono (parse f) /\ forall col mode P n i w n' j w', tails f col mode P n i w = POk (n', j, w') -> (w' <= w)%nat.
Proof.
  induction f as [|f [IH1 IH2]]; [split; repeat intro; discriminate|]. split.
  - intros col mode P i w n j w' H. rewrite parse_S in H. inv H.
    match type of H with warn_unless _ _ ?k = _ => assert (forall w0, k w0 = POk (n, j, w') -> (w' <= w0)%nat) as Hb end; [|invw H; apply Hb in H; lia].
    clear H. intros w0 H. cbn beta in H. inv H. destruct a0 as [[h i1] w1]. apply head_mono in Ha0; [|exact IH1]. apply IH2 in H. lia.
  - intros col mode P n i w n' j w' H. rewrite tails_S in H. inv H. destruct a as [[[out|] i1] w1]; apply tail_mono in Ha; try exact IH1.
    + inv H. invw H; apply IH2 in H; lia.
    + injection H as _ _ <-. lia.
Qed.
Lemma parse_mono f : mono (parse f). Proof. apply parse_tails_mono. Qed.

(** * Soundness *)
Hypothesis Hlexed : lexed ts.
Definition sound (ps : parser) : Prop := forall col mode P i w n j, ps col mode P i w = POk (n, j, w) -> exists e, reads_as ts (p_formal P) i e j /\ denote e = Some n.
Lemma tok_id i t : tok i = POk t -> t_kind t = Id -> t_value t <> [].
Proof. intros H K. apply tok_inv in H. destruct H as [H _]. apply nth_error_In in H. destruct Hlexed as [_ HL]. specialize (HL t H). rewrite K in HL. exact HL. Qed.
Lemma spelled_tok i t : tok i = POk t -> spelled i [(t_kind t, t_value t)].
Proof. intros H. apply tok_inv in H. destruct H as [H _]. apply spelled_one. rewrite H. reflexivity. Qed.
Lemma spelled_o i t v : tok i = POk t -> is_o v t = true -> spelled i [o v].
Proof. intros H Hv. apply is_o_true in Hv. rewrite <- Hv. apply spelled_tok. exact H. Qed.
Lemma spelled_cat i a b : spelled i a -> spelled (i + length a) b -> spelled i (a ++ b).
Proof. intros H1 H2. apply spelled_app. auto. Qed.
Lemma spelled_snoc i l : spelled i l -> (i + length l < length ts)%nat -> spelled i (l ++ [sym_at (i + length l)]).
Proof.
  intros H Hl. apply spelled_cat; [exact H|]. apply spelled_one. destruct (in_tok ts _ Hl) as [t [Ht [_ Es]]]. rewrite Ht, Es. reflexivity.
Qed.
Lemma softComma_same endop i w i' : softComma ts endop i w = POk (i', w) -> (i' = i \/ i' = S i /\ spelled i [o ","]).
Proof.
  unfold softComma. intros H. inv H. destruct (is_o "," a) eqn:E; [injection H as <-; right; split; [reflexivity|eapply spelled_o; eassumption]|]. destruct (is_o endop a); [injection H as <-; auto|]. inv H.
  invw H; [injection H as <-; auto|]. injection H as _ H. lia.
Qed.
Lemma juggle_inv endop slice used acc nm i w name used' acc' nm' i' : commaJuggle ts endop slice used acc nm i w = POk (name, used', acc', nm', i', w) ->
  exists s r, negb (dots s) || (slice && negb used) = true /\ negb (no_args acc && match s with Comma => true | _ => false end) = true /\ spelled i (spell_sep s) /\ i' = (i + length (spell_sep s))%nat /\
    fixlast s acc = Some (acc', r) /\ nm' = nm || r /\ used' = used || dots s /\ name = match s with Dots => bytes "end" | _ => [] end.
Proof.
  unfold commaJuggle. intros H. inv H. destruct (slice && negb used && is_o ".." a) eqn:E.
  - apply andb_true_iff in E. destruct E as [E1 E2]. inv H. destruct a0 as [acc1 nm1]. inv H. pose proof (spelled_o _ _ _ Ha E2) as Hs.
    assert (exists r, fixlast Dots acc = Some (acc1, r) /\ nm1 = nm || r) as [r [Hf Hn]].
    { unfold fixlast. cbn [dots]. destruct acc as [|x acc]; [injection Ha0 as <- <-; exists false; rewrite orb_false_r; auto|]. destruct (nkind_beq _ K_argid); [discriminate|]. injection Ha0 as <- <-. exists true. rewrite orb_true_r. auto. }
    destruct (is_o "," a0) eqn:E3; injection H as <- <- <- <- <-.
    + exists DotsComma, r. rewrite E1. split; [reflexivity|]. split; [destruct (no_args acc); reflexivity|]. split; [apply (spelled_cat i [o ".."] [o ","]); [exact Hs|]; cbn [length]; rewrite Nat.add_1_r; eapply spelled_o; eassumption|].
      split; [cbn; lia|]. split; [exact Hf|]. split; [exact Hn|]. split; [rewrite orb_true_r; reflexivity|reflexivity].
    + exists Dots, r. rewrite E1. split; [reflexivity|]. split; [destruct (no_args acc); reflexivity|]. split; [exact Hs|].
      split; [cbn; lia|]. split; [exact Hf|]. split; [exact Hn|]. split; [rewrite orb_true_r; reflexivity|reflexivity].
  - destruct acc as [|x acc].
    + injection H as <- <- <- <- <-. exists Juxt, false. rewrite !orb_false_r. repeat split; [apply spelled_nil|cbn; lia].
    + inv H. destruct a0 as [i1 w1]. injection H as <- <- <- <- <- ->. apply softComma_same in Ha0. destruct Ha0 as [->|[-> Hs]].
      * exists Juxt, false. rewrite !orb_false_r. repeat split; [apply spelled_nil|cbn; lia].
      * exists Comma, false. rewrite !orb_false_r. repeat split; [exact Hs|cbn; lia].
Qed.
Lemma argName_inv s i name au opt i' : argName ts (match s with Dots => bytes "end" | _ => [] end) i = POk (name, au, opt, i') ->
  exists l, spelled i (spell_label l) /\ i' = (i + length (spell_label l))%nat /\
    (forall e next, (spelled i' (spell e ++ [next])) -> match s, l with Dots, Plain => true | Dots, _ => false | _, Plain => negb (like_label (spell e ++ [next])) | _, Named id _ => negb (is_nil id) | _, Auto _ => true end = true) /\
    (forall n, (do* name := (if au : bool then getAutoName n else POk name) in POk (name, opt)) = match arg_name s l n with Some (a, b) => POk (a, b) | None => PFail end).
Proof.
  unfold argName. intros H. inv H. destruct (tok_inv _ _ _ Ha) as [Ht [Es _]].
  assert (Hauto : forall (opt : bool) n, (do* name0 := getAutoName n in POk (name0, opt)) = match option_map (fun v => (v, opt)) (auto_name n) with Some (a, b) => POk (a, b) | None => PFail end).
  { intros opt0 n. rewrite autoName_spec. destruct (auto_name n); reflexivity. }
  assert (Hgen : (if is_o "?:" a then POk ([], true, true, S i)
      else if is_o ":" a then POk ([], true, false, S i)
      else match t_kind a with
           | Id => do* tok1 := tok (S i) in
                   if is_o ":" tok1 then POk (t_value a, false, false, S (S i))
                   else if is_o "?:" tok1 then POk (t_value a, false, true, S (S i))
                   else POk ([], false, false, i)
           | _ => POk ([], false, false, i)
           end) = POk (name, au, opt, i') -> s <> Dots -> exists l, spelled i (spell_label l) /\ i' = (i + length (spell_label l))%nat /\
    (forall e next, (spelled i' (spell e ++ [next])) -> match s, l with Dots, Plain => true | Dots, _ => false | _, Plain => negb (like_label (spell e ++ [next])) | _, Named id _ => negb (is_nil id) | _, Auto _ => true end = true) /\
    (forall n, (do* name := (if au : bool then getAutoName n else POk name) in POk (name, opt)) = match arg_name s l n with Some (a, b) => POk (a, b) | None => PFail end)).
  { clear H. intros H Hd. destruct (is_o "?:" a) eqn:E1.
    { injection H as <- <- <- <-. exists (Auto true). split; [eapply spelled_o; eassumption|]. split; [cbn; lia|]. split; [destruct s; try reflexivity; contradiction|]. intros n. rewrite Hauto. destruct s; try reflexivity. contradiction. }
    destruct (is_o ":" a) eqn:E2.
    { injection H as <- <- <- <-. exists (Auto false). split; [eapply spelled_o; eassumption|]. split; [cbn; lia|]. split; [destruct s; try reflexivity; contradiction|]. intros n. rewrite Hauto. destruct s; try reflexivity. contradiction. }
    destruct (t_kind a) eqn:K.
    2: { inv H. destruct (is_o ":" a0) eqn:E3; [|destruct (is_o "?:" a0) eqn:E4].
         - injection H as <- <- <- <-. exists (Named (t_value a) false). split; [|split; [cbn; lia|]].
           + apply (spelled_cat i [_] [_]); [rewrite <- K; apply spelled_tok; exact Ha|]. cbn [length]. rewrite Nat.add_1_r. eapply spelled_o; eassumption.
           + split; [|intros n; destruct s; try reflexivity; contradiction]. intros e next _. assert (negb (is_nil (t_value a)) = true) by (pose proof (tok_id _ _ Ha K); destruct (t_value a); [contradiction|reflexivity]). destruct s; try assumption. contradiction.
         - injection H as <- <- <- <-. exists (Named (t_value a) true). split; [|split; [cbn; lia|]].
           + apply (spelled_cat i [_] [_]); [rewrite <- K; apply spelled_tok; exact Ha|]. cbn [length]. rewrite Nat.add_1_r. eapply spelled_o; eassumption.
           + split; [|intros n; destruct s; try reflexivity; contradiction]. intros e next _. assert (negb (is_nil (t_value a)) = true) by (pose proof (tok_id _ _ Ha K); destruct (t_value a); [contradiction|reflexivity]). destruct s; try assumption. contradiction.
         - injection H as <- <- <- <-. exists Plain. split; [apply spelled_nil|]. split; [cbn; lia|]. split; [|intros n; destruct s; try reflexivity; contradiction].
           intros e next Hsp. assert (like_label (spell e ++ [next]) = false) as ->; [|destruct s; try reflexivity; contradiction].
           unfold like_label. destruct (spell e ++ [next]) as [|[k0 v0] [|s1 rest]]; try reflexivity; destruct k0; try reflexivity. apply spelled_cons in Hsp. destruct Hsp as [_ Hsp]. apply spelled_cons in Hsp. destruct Hsp as [Hsp _].
           apply at_sym in Hsp. destruct (tok_inv _ _ _ Ha0) as [_ [Es0 _]]. subst s1.
           rewrite Es0. unfold is_colon. rewrite <- !is_o_sym, E3, E4. reflexivity. }
    all: injection H as <- <- <- <-; exists Plain; (split; [apply spelled_nil|]); (split; [cbn; lia|]); (split; [|intros n; destruct s; try reflexivity; contradiction]);
      intros e next Hsp; assert (like_label (spell e ++ [next]) = false) as ->; [|destruct s; try reflexivity; contradiction];
      unfold like_label; destruct (spell e ++ [next]) as [|[k0 v0] [|s1 rest]]; try reflexivity; destruct k0; try reflexivity; apply spelled_cons in Hsp; destruct Hsp as [Hsp _];
      apply at_sym in Hsp; rewrite Es in Hsp; unfold sym_of in Hsp; congruence. }
  destruct s.
  1, 2, 4: apply Hgen; [exact H|discriminate].
  injection H as <- <- <- <-. exists Plain. split; [apply spelled_nil|]. split; [cbn; lia|]. split; [reflexivity|]. reflexivity.
Qed.
Lemma args_sound ps endop slice col : mono ps -> sound ps -> forall f used acc nm i w l nm' used' j,
  parseCallArgs ts f ps endop slice col used acc nm i w = POk (l, nm', used', j, w) ->
  exists a, wf_args (o endop) (slice && negb used) (no_args acc) a = true /\ spelled i (spell_args a ++ [o endop]) /\ j = S (i + length (spell_args a)) /\
    exists acc' r la na, fixlast (next_sep a) acc = Some (acc', r) /\ denote_args a = Some (la, na) /\ l = acc' ++ la /\ nm' = nm || r || na /\ used' = used || has_dots a.
Proof.
  intros Hm Hps. induction f as [|f IH]; intros used acc nm i w l nm' used' j H; [discriminate|]. rewrite parseCallArgs_S in H.
  inv H. destruct a as [[[[[name used1] acc1] nm1] i1] w1]. pose proof (juggle_mono _ _ _ _ _ _ _ _ _ Ha) as Hw1.
  inv H. destruct a as [fin i2]. unfold tryConsume in Ha0. inv Ha0. change (is_tok Op (bytes endop) a) with (is_o endop a) in Ha0. destruct (is_o endop a) eqn:Ee.
  - injection Ha0 as <- <-. injection H as <- <- <- <- ->. apply juggle_inv in Ha. destruct Ha as [s [r [W1 [W2 [Hs [-> [Hf [-> [-> _]]]]]]]]].
    exists (ANil s). cbn [wf_args spell_args denote_args has_dots next_sep]. rewrite W1, W2. split; [reflexivity|]. split; [apply spelled_cat; [exact Hs|eapply spelled_o; eassumption]|]. split; [reflexivity|].
    exists acc1, r, [], false. rewrite app_nil_r, orb_false_r. auto.
  - injection Ha0 as <- <-. invn H t0 Ht0. invn H t1 Ht1. cbn zeta in H. invn H an Ha4. destruct an as [[[name2 au] op2] i3]. invn H pe Ha5. destruct pe as [[e i4] w4]. pose proof (Hm _ _ _ _ _ _ _ _ Ha5) as Hw4. invn H nm9 Ha6.
    pose proof (args_mono ps endop slice col Hm f _ _ _ _ _ _ _ H) as Hw5. assert (w1 = w) by lia. assert (w4 = w) by lia. subst w1 w4.
    apply juggle_inv in Ha. destruct Ha as [s [r [W1 [W2 [Hs [-> [Hf [-> [-> ->]]]]]]]]].
    apply argName_inv in Ha4. destruct Ha4 as [lb [Hs2 [-> [Hlb Hname]]]]. apply Hps in Ha5. destruct Ha5 as [x [[Wx [_ [Hs3 [-> [Hl4 He4]]]]] Dx]].
    specialize (Hname e). rewrite Ha6 in Hname. cbn [pbind] in Hname. destruct (arg_name s lb e) as [[nm2 op2']|] eqn:AN; [|discriminate]. injection Hname as -> ->.
    apply IH in H. destruct H as [rest [Wr [Hsr [-> [acc' [r' [la [na [Hf' [Dr [-> [-> ->]]]]]]]]]]]].
    replace (no_args _) with false in Wr by (destruct acc1; reflexivity).
    set (i3 := (i + length (spell_sep s) + length (spell_label lb))%nat) in *. set (i4 := (i3 + length (spell x))%nat) in *.
    assert (Hnext : sym_at i4 = first (spell_args rest) (o endop)). { rewrite (spelled_first _ _ _ Hsr ltac:(destruct (spell_args rest); discriminate) (o endop)). destruct (spell_args rest); reflexivity. }
    exists (ACons s lb x rest). cbn [wf_args spell_args denote_args has_dots next_sep]. rewrite W1, W2, Wx. cbn [andb].
    change (p_formal P_RESET) with anything in He4. rewrite <- Hnext, He4. cbn [andb]. rewrite (Hlb x (sym_at i4)); [|apply spelled_snoc; assumption]. cbn [andb].
    replace (slice && negb used && negb (dots s)) with (slice && negb (used || dots s)) by (destruct slice, used, (dots s); reflexivity). rewrite Wr. split; [reflexivity|].
    split; [rewrite <- !app_assoc; apply spelled_cat; [exact Hs|]; apply spelled_cat; [exact Hs2|]; fold i3; apply spelled_cat; [exact Hs3|exact Hsr]|]. split; [rewrite !app_length; unfold i4, i3; lia|].
    rewrite Dx. cbn [obind]. rewrite AN. cbn [obind]. rewrite Dr.
    replace (match rest with ANil s | ACons s _ _ _ => dots s end) with (dots (next_sep rest)) by (destruct rest; reflexivity).
    replace (if match nm2 with [] => false | _ => true end then createArgID nm2 e op2' else e) with (arg nm2 op2' e) in Hf' by (unfold arg, createArgID; destruct nm2; reflexivity).
    replace (match nm2 with [] => false | _ :: _ => true end) with (negb (is_nil nm2)) by (destruct nm2; reflexivity).
    exists acc1, r. destruct (dots (next_sep rest)) eqn:Dn.
    + assert (fixlast (next_sep rest) (acc1 ++ [arg nm2 op2' e]) = fixlast Dots (acc1 ++ [arg nm2 op2' e])) as Q by (unfold fixlast; rewrite Dn; reflexivity). rewrite Q, (arg_start acc1 nm2 op2' e (denote_good x e Wx Dx)) in Hf'.
      destruct (is_nil nm2) eqn:En; [|discriminate]. injection Hf' as <- <-. cbn [negb andb obind]. exists (arg (bytes "start") op2' e :: la), (na || true). split; [exact Hf|]. split; [reflexivity|].
      assert (op2' = false) as ->.
      { destruct nm2; [|discriminate]. specialize (Hlb x (sym_at i4) (spelled_snoc _ _ Hs3 Hl4)). destruct s, lb as [|id opt'|opt']; cbn [arg_name] in AN; try discriminate; try (injection AN as <-; reflexivity); try (injection AN as -> ->; discriminate).
        all: destruct (auto_name e) as [v|] eqn:AE; [|discriminate]; injection AN as -> _; apply auto_name_some in AE; contradiction. }
      rewrite <- app_assoc. cbn [app]. split; [reflexivity|]. split; [destruct nm, r, na; reflexivity|destruct used, (dots s); reflexivity].
    + unfold fixlast in Hf'. rewrite Dn in Hf'. injection Hf' as <- <-. cbn [andb obind]. exists (arg nm2 op2' e :: la), (na || negb (is_nil nm2)). split; [exact Hf|]. split; [reflexivity|].
      rewrite <- app_assoc. cbn [app]. split; [reflexivity|]. split; [destruct nm, r, na, (is_nil nm2); reflexivity|destruct used, (dots s); reflexivity].
Qed.
Lemma args_sound0 ps endop slice col f i w l nm used j : mono ps -> sound ps -> parseCallArgs ts f ps endop slice col false [] false i w = POk (l, nm, used, j, w) ->
  exists a, wf_args (o endop) slice true a = true /\ spelled i (spell_args a ++ [o endop]) /\ j = S (i + length (spell_args a)) /\ denote_args a = Some (l, nm) /\ used = has_dots a.
Proof.
  intros Hm Hps H. destruct (args_sound ps endop slice col Hm Hps f _ _ _ _ _ _ _ _ _ H) as [a [Wa [Hs [-> [acc' [r [la [na [Hf [Da [-> [-> ->]]]]]]]]]]]]. cbn [negb no_args] in Wa. rewrite andb_true_r in Wa.
  assert (fixlast (next_sep a) [] = Some ([], false)) as E by (unfold fixlast; destruct (dots (next_sep a)); reflexivity). rewrite E in Hf. injection Hf as <- <-.
  exists a. cbn [app orb]. auto.
Qed.
(** heads *)
Lemma head_sound ps f col i w n j : mono ps -> sound ps -> parseExpressionHead ts f ps col i w = POk (n, j, w) ->
  exists e, wf e = true /\ (forall p, fits p e = true) /\ spelled i (spell e) /\ j = (i + length (spell e))%nat /\ follows e (sym_at j) = true /\ denote e = Some n.
Proof.
  intros Hm Hps H. unfold parseExpressionHead in H. inv H. pose proof (spelled_tok _ _ Ha) as Hs.
  assert (Hval : match t_kind a with Id | Int | Real => t_value a <> [] | _ => True end). { destruct (tok_inv _ _ _ Ha) as [Hn _]. apply nth_error_In in Hn. destruct Hlexed as [_ HL]. exact (HL a Hn). }
  assert (Hnil : forall v, v <> [] -> negb (is_nil v) = true) by (intros [|] H'; [contradiction|reflexivity]).
  destruct (t_kind a) eqn:K; cbn [leaf_kind] in H; try discriminate.
  - destruct (has not_modelled_ids (t_value a)) eqn:E; [discriminate|]. inv H. injection H as <- <-. exists (EId (t_value a)). cbn [wf spell denote follows length]. change reserved with not_modelled_ids. rewrite E, (Hnil _ Hval).
    repeat split; try assumption; [lia|]. unfold createRead in Ha0. destruct (has ["true"; "false"]%string (t_value a)); [injection Ha0 as <-; reflexivity|]. destruct (t_value a); [discriminate|]. injection Ha0 as <-. reflexivity.
  - injection H as <- <-. exists (ELit Int (t_value a)). cbn [wf spell denote follows length]. rewrite (Hnil _ Hval). repeat split; try assumption. lia.
  - injection H as <- <-. exists (ELit Real (t_value a)). cbn [wf spell denote follows length]. rewrite (Hnil _ Hval). repeat split; try assumption. lia.
  - injection H as <- <-. exists (ELit Str (t_value a)). repeat split; try assumption. cbn [spell length]. lia.
  - injection H as <- <-. exists (ELit Char (t_value a)). repeat split; try assumption. cbn [spell length]. lia.
  - destruct (is_o "(" a) eqn:E1.
    { unfold parseParens in H. inv H. destruct a0 as [[[k v fl p its] i1] w1]. inv H. injection H as <- <- ->. unfold consume in Ha1. inv Ha1. change (is_tok Op (bytes ")") a1) with (is_o ")" a1) in Ha1. destruct (is_o ")" a1) eqn:E2; [|discriminate]. injection Ha1 as <-.
      apply Hps in Ha0. destruct Ha0 as [e [[We [_ [Hse [-> [Hl _]]]]] De]]. exists (EParen e). cbn [wf spell denote follows length]. rewrite De, app_length. cbn [length option_map]. split; [exact We|]. split; [reflexivity|].
      split; [|split; [lia|split; reflexivity]]. apply (spelled_cat i [o "("]); [eapply spelled_o; eassumption|]. cbn [length]. rewrite Nat.add_1_r. apply spelled_cat; [exact Hse|eapply spelled_o; eassumption]. }
    destruct (has not_modelled_ops (t_value a)); [discriminate|]. destruct (is_o "[" a) eqn:E2.
    { unfold parseArrayLiteral in H. inv H. destruct a0 as [[[[l nm] us] i1] w1]. injection H as <- <- ->. apply args_sound0 in Ha0; try assumption. destruct Ha0 as [x [Wx [Hsx [-> [Dx ->]]]]].
      exists (EArr x). cbn [wf spell denote follows length]. rewrite Dx, app_length. cbn [length obind]. split; [exact Wx|]. split; [reflexivity|].
      split; [apply (spelled_cat i [o "["]); [eapply spelled_o; eassumption|]; cbn [length]; rewrite Nat.add_1_r; exact Hsx|]. split; [lia|]. split; [reflexivity|]. destruct nm; reflexivity. }
    destruct (is_o "[]" a) eqn:E3.
    { injection H as <- <-. exists EDefault. cbn [wf spell denote follows length]. repeat split; [eapply spelled_o; eassumption|lia]. }
    unfold parsePrefix in H. destruct (has PREFIX (t_value a)) eqn:E4; [|discriminate]. inv H. destruct a0 as [[e0 i1] w1]. inv H. injection H as <- <- ->. apply Hps in Ha0. destruct Ha0 as [e [[We [Hf [Hse [-> [Hl He]]]]] De]].
    exists (EPre (t_value a) e). cbn [wf spell denote follows length]. change prefix_ops with PREFIX. rewrite E4, We, De. change (p_formal P_PREFIX_UNARY) with unary in *. rewrite Hf. split; [reflexivity|]. split; [reflexivity|].
    split; [apply (spelled_cat i [_]); [exact Hs|]; cbn [length]; rewrite Nat.add_1_r; exact Hse|]. split; [lia|]. split; [exact He|].
    rewrite createPrefix_unop in Ha1; [|exact E4|destruct (denote_good e e0 We De) as [_ [Hg _]]; exact Hg]. injection Ha1 as <-. reflexivity.
Qed.
Lemma binary_same op l r w n : createBinary op l r w = POk (n, w) ->
  has ["&&"; "||"]%string op = true \/ n_parens l = true \/ (n_kind l <> K_and /\ n_kind l <> K_or).
Proof.
  intros H. destruct (has ["&&"; "||"]%string op || n_parens l || negb (nkind_beq (n_kind l) K_and || nkind_beq (n_kind l) K_or)) eqn:E.
  - apply orb_true_iff in E. destruct E as [E|E]; [apply orb_true_iff in E; tauto|]. right. right. destruct (n_kind l); try discriminate; split; discriminate.
  - exfalso. apply orb_false_iff in E. destruct E as [E E3]. apply orb_false_iff in E. destruct E as [E1 E2]. apply negb_false_iff in E3.
    unfold createBinary in H. rewrite !same_has in H. change (has (["&&"%string] ++ ["||"%string]) op = false) in E1. rewrite has_app in E1. apply orb_false_iff in E1. destruct E1 as [E0 E1]. rewrite E0, E1, E2, E3 in H. cbn [negb orb] in H.
    unfold warn_unless in H. destruct w as [|w0]; [discriminate|].
    destruct (has ["|>"%string] op); [inv H; injection H; lia|]. destruct (has ["<|"%string] op); [inv H; injection H; lia|]. destruct (has [":="%string] op); [inv H; injection H; lia|].
    destruct (has ["->"%string] op); [injection H; lia|]. destruct (has ["=>"%string] op); injection H; lia.
Qed.
Definition grown (p i0 : nat) (e : expr) (j : nat) (n : node) : Prop :=
  wf e = true /\ fits p e = true /\ spelled i0 (spell e) /\ j = (i0 + length (spell e))%nat /\ follows e (sym_at j) = true /\ denote e = Some n.
Lemma typeAnnot_sound ps col i w n j : mono ps -> sound ps -> parseTypeAnnot ts ps col i w = POk (n, j, w) ->
  exists r t nt, spelled i ((match r with None => [] | Some false => [o "&"] | Some true => [o "&"; (Id, bytes "mut")] end) ++ spell t) /\ wf t = true /\ fits unary t = true /\
    match r with None => negb (sym_is (first (spell t) (o "")) (o "&")) | Some false => negb (sym_is (first (spell t) (o "")) (Id, bytes "mut")) | Some true => true end = true /\
    j = (i + length ((match r with None => [] | Some false => [o "&"] | Some true => [o "&"; (Id, bytes "mut")] end) ++ spell t))%nat /\ (j < length ts)%nat /\ ends unary (sym_at j) = true /\ denote t = Some nt /\ n = ref r nt.
Proof.
  intros Hm Hps H. unfold parseTypeAnnot in H. invn H hr Hr. destruct hr as [hr i1]. invn H hm Hmu. destruct hm as [hm i2]. invn H pe Hp. destruct pe as [[nt i3] w3]. injection H as <- <- ->.
  apply Hps in Hp. destruct Hp as [t [[Wt [Ft [Hst [-> [Hl He]]]]] Dt]]. change (p_formal P_PREFIX_UNARY) with unary in *. unfold tryConsume in Hr. invn Hr t0 Ht0. change (is_tok Op (bytes "&") t0) with (is_o "&" t0) in Hr.
  pose proof (spelled_first _ _ _ Hst (spell_nonempty t Wt) (o "")) as Hfi.
  destruct (is_o "&" t0) eqn:E0; injection Hr as <- <-.
  - unfold tryConsume in Hmu. invn Hmu t1 Ht1. destruct (is_tok Id (bytes "mut") t1) eqn:E1; injection Hmu as <- <-.
    + exists (Some true), t, nt. cbn [app length]. split; [|repeat split; try assumption; lia]. apply (spelled_cat i [_]); [eapply spelled_o; eassumption|]. cbn [length]. rewrite Nat.add_1_r. apply (spelled_cat (S i) [_]).
      * assert (sym_of t1 = (Id, bytes "mut")) as <-. { unfold is_tok in E1. unfold sym_of. destruct (t_kind t1); try discriminate. apply same_spec in E1. rewrite E1. reflexivity. } apply spelled_tok. exact Ht1.
      * cbn [length]. rewrite Nat.add_1_r. exact Hst.
    + exists (Some false), t, nt. cbn [app length]. split; [apply (spelled_cat i [_]); [eapply spelled_o; eassumption|]; cbn [length]; rewrite Nat.add_1_r; exact Hst|]. split; [exact Wt|]. split; [exact Ft|].
      split; [|repeat split; try assumption; lia]. rewrite <- Hfi. destruct (tok_inv _ _ _ Ht1) as [_ [Es1 _]]. rewrite Es1. apply negb_true_iff. etransitivity; [|exact E1]. unfold is_tok, sym_is, sym_of. cbn [fst snd]. destruct (t_kind t1); reflexivity.
  - injection Hmu as <- <-. exists None, t, nt. cbn [app]. split; [exact Hst|]. split; [exact Wt|]. split; [exact Ft|]. split; [|repeat split; try assumption; lia].
    rewrite <- Hfi. destruct (tok_inv _ _ _ Ht0) as [_ [Es0 _]]. rewrite Es0, <- is_o_sym, E0. reflexivity.
Qed.
Lemma tail_sound ps f col mode P n i w r j i0 e0 : mono ps -> sound ps -> grown (p_formal P) i0 e0 i n -> tryParseExpressionTail ts f ps col mode P n i w = POk (r, j, w) ->
  match r with
  | None => j = i /\ (i < length ts)%nat /\ ends (p_formal P) (sym_at i) = true
  | Some n' => exists e', grown (p_formal P) i0 e' j n'
  end.
Proof.
  intros Hm Hps [We [Hfe [Hse [Hi [Hfo De]]]]] H. pose proof (tail_mono ps f col mode P n) as HM. unfold tryParseExpressionTail in H. invn H t Ht. pose proof (spelled_tok _ _ Ht) as Hs. destruct (tok_inv _ _ _ Ht) as [Hnt [Es Hl]].
  destruct (t_kind t) eqn:K; try (injection H as <- <-; split; [reflexivity|]; split; [exact Hl|]; rewrite Es; unfold sym_of; rewrite K; reflexivity).
  pose proof (is_o_op) as Hop. assert (Et : sym_of t = (Op, t_value t)) by (unfold sym_of; rewrite K; reflexivity). rewrite Et in Es. rewrite !(is_o_op _ _ _ Et) in H. rewrite Es in Hfo.
  destruct (same (t_value t) (bytes ";")) eqn:E1.
  { apply same_spec in E1. injection H as <- <-. split; [reflexivity|]. split; [exact Hl|]. rewrite Es, E1. reflexivity. }
  destruct (same (t_value t) (bytes ".")) eqn:E2.
  { apply same_spec in E2. rewrite E2 in *.
    assert (Hgo : forall w0, (do* (n, i, w) := parseAccessExpression ts n (S i) w0 in POk (Some n, i, w)) = POk (r, j, w) -> w0 = w /\ match r with None => j = i /\ (i < length ts)%nat /\ ends (p_formal P) (sym_at i) = true | Some n' => exists e', grown (p_formal P) i0 e' j n' end).
    { intros w0 H'. invn H' x Hx. destruct x as [[n1 i1] w1]. injection H' as <- <- ->. unfold parseAccessExpression in Hx. invn Hx t1 Ht1. destruct (t_kind t1) eqn:K1; try (destruct (is_o "::" t1); discriminate). injection Hx as <- <- ->. split; [reflexivity|].
      exists (EDot e0 (t_value t1)). cbn [wf fits spell denote follows]. unfold grown. cbn [wf fits spell denote follows]. rewrite We, De, app_length. cbn [length andb option_map].
      pose proof (tok_id _ _ Ht1 K1) as Hne. assert (negb (is_nil (t_value t1)) = true) as -> by (destruct (t_value t1); [contradiction|reflexivity]). unfold o. rewrite Hfo. split; [reflexivity|]. split; [reflexivity|].
      split; [|split; [lia|split; reflexivity]]. apply spelled_cat; [exact Hse|]. rewrite <- Hi. apply (spelled_cat i [_]); [exact Hs|]. cbn [length]. rewrite Nat.add_1_r, <- K1. apply spelled_tok. exact Ht1. }
    invw H; apply Hgo in H; destruct H as [? H]; [exact H|lia]. }
  destruct (same (t_value t) (bytes "(")) eqn:E3.
  { apply same_spec in E3. rewrite E3 in *.
    assert (Hgo : forall w0, (do* (n, i, w) := parseCallExpression ts f ps col n (S i) w0 in POk (Some n, i, w)) = POk (r, j, w) -> (w <= w0)%nat /\ (w0 = w -> match r with None => j = i /\ (i < length ts)%nat /\ ends (p_formal P) (sym_at i) = true | Some n' => exists e', grown (p_formal P) i0 e' j n' end)).
    { intros w0 H'. invn H' x Hx. destruct x as [[n1 i1] w1]. injection H' as <- <- ->. unfold parseCallExpression in Hx. invn Hx y Hy. destruct y as [[[[l nm] us] i2] w2]. pose proof (args_mono _ _ _ _ Hm _ _ _ _ _ _ _ _ Hy) as Hw. invn Hx n2 Hn2. injection Hx as <- <- ->. split; [exact Hw|].
      intros ->. apply args_sound0 in Hy; try assumption. destruct Hy as [a [Wa [Hsa [-> [Da ->]]]]].
      exists (ECall e0 a). unfold grown. cbn [wf fits spell denote follows]. rewrite We, De, Wa, !app_length. cbn [length andb obind]. rewrite app_length. cbn [length]. unfold o at 1. rewrite Hfo. split; [reflexivity|]. split; [reflexivity|].
      split; [apply spelled_cat; [exact Hse|]; rewrite <- Hi; apply (spelled_cat i [_]); [exact Hs|]; cbn [length]; rewrite Nat.add_1_r; exact Hsa|]. split; [lia|]. split; [reflexivity|].
      rewrite Da. cbn [obind]. rewrite (call_spec e0 n l nm We De Hfo) in Hn2. injection Hn2 as <-. reflexivity. }
    invw H; apply Hgo in H; destruct H as [? H]; [exact (H eq_refl)|lia]. }
  destruct (same (t_value t) (bytes "[")) eqn:E4.
  { apply same_spec in E4. rewrite E4 in *.
    assert (Hgo : forall w0, (do* (n, i, w) := parseIndexExpression ts f ps col n (S i) w0 in POk (Some n, i, w)) = POk (r, j, w) -> (w <= w0)%nat /\ (w0 = w -> match r with None => j = i /\ (i < length ts)%nat /\ ends (p_formal P) (sym_at i) = true | Some n' => exists e', grown (p_formal P) i0 e' j n' end)).
    { intros w0 H'. invn H' x Hx. destruct x as [[n1 i1] w1]. injection H' as <- <- ->. unfold parseIndexExpression in Hx. invn Hx y Hy. destruct y as [[[[l nm] us] i2] w2]. pose proof (args_mono _ _ _ _ Hm _ _ _ _ _ _ _ _ Hy) as Hw. injection Hx as <- <- ->. split; [exact Hw|].
      intros ->. apply args_sound0 in Hy; try assumption. destruct Hy as [a [Wa [Hsa [-> [Da ->]]]]].
      exists (EIndex e0 a). unfold grown. cbn [wf fits spell denote follows]. rewrite We, De, Wa, !app_length. cbn [length andb obind]. rewrite app_length. cbn [length]. unfold o at 1. rewrite Hfo. split; [reflexivity|]. split; [reflexivity|].
      split; [apply spelled_cat; [exact Hse|]; rewrite <- Hi; apply (spelled_cat i [_]); [exact Hs|]; cbn [length]; rewrite Nat.add_1_r; exact Hsa|]. split; [lia|]. split; [reflexivity|].
      rewrite Da. cbn [obind]. destruct nm; reflexivity. }
    invw H; apply Hgo in H; destruct H as [? H]; [exact (H eq_refl)|lia]. }
  rewrite PRECEDENCE_rank in H. destruct (rank (t_value t)) as [q|] eqn:Rk.
  - pose proof (rank_sticky _ _ Rk) as Hst. unfold tryParseBinary in H. rewrite miss_takes in H.
    match type of H with warn_unless _ _ ?k = _ => assert (forall w0, k w0 = POk (r, j, w) -> (w <= w0)%nat) as Hw end.
    { intros w0 H'. cbn beta in H'. match type of H' with (if ?c then _ else _) = _ => destruct c end; [injection H' as _ _ <-; lia|]. cbn zeta in H'. destruct (same (t_value t) (bytes "?")).
      + invn H' x Hx. destruct x as [[m i1] w1]. apply Hm in Hx. invn H' y Hy. invn H' z Hz. destruct z as [[m2 i2] w2]. apply Hm in Hz. injection H' as _ _ <-. lia.
      + invn H' x Hx. destruct x as [[m i1] w1]. assert (w1 <= w0)%nat. { destruct (same (t_value t) (bytes "->") || same (t_value t) (bytes "=>")); [eapply typeAnnot_mono|eapply Hm]; eassumption. }
        invn H' y Hy. destruct y as [n2 w2]. apply binary_mono in Hy. injection H' as _ _ <-. lia. }
    invw H; [|apply Hw in H; lia]. clear Hw HM. apply negb_true_iff in Hk. rewrite Hk in H. cbn beta in H. destruct (takes (p_formal P) q) eqn:Tk; cbn [negb] in H.
    2: { injection H as <- <-. split; [reflexivity|]. split; [exact Hl|]. rewrite Es. unfold ends. rewrite Hst, Rk, Tk. reflexivity. }
    cbn zeta in H. set (P1 := ParserModel.Prec q _ i) in H. destruct (same (t_value t) (bytes "?")) eqn:Eq.
    + apply same_spec in Eq. rewrite Eq in *. assert (q = 15%nat) as -> by (change (rank (bytes "?")) with (Some 15%nat) in Rk; congruence).
      invn H x Hx. destruct x as [[m i1] w1]. pose proof (Hm _ _ _ _ _ _ _ _ Hx) as Hw1. invn H i2 Hi2. invn H z Hz. destruct z as [[m2 i3] w2]. pose proof (Hm _ _ _ _ _ _ _ _ Hz) as Hw2. injection H as <- <- ->. assert (w1 = w) by lia. subst w1.
      apply Hps in Hx. destruct Hx as [a [[Wa [_ [Hsa [-> [Hla _]]]]] Da]]. unfold consume in Hi2. invn Hi2 t2 Ht2. change (is_tok Op (bytes ":") t2) with (is_o ":" t2) in Hi2. destruct (is_o ":" t2) eqn:E5; [|discriminate]. injection Hi2 as <-.
      apply Hps in Hz. destruct Hz as [b [[Wb [Fb [Hsb [-> [Hlb He]]]]] Db]]. change (p_formal P1) with 15%nat in *.
      exists (ECond e0 a b). unfold grown. cbn [wf fits spell denote follows]. rewrite We, De, Wa, Wb, Da, Db, !app_length. cbn [length andb obind]. rewrite app_length. cbn [length]. unfold o at 1. rewrite Hfo, Fb, Tk, Hfe. split; [reflexivity|]. split; [reflexivity|].
      split; [|split; [lia|split; [exact He|reflexivity]]]. apply spelled_cat; [exact Hse|]. rewrite <- Hi. apply (spelled_cat i [_]); [exact Hs|]. cbn [length]. rewrite Nat.add_1_r. apply spelled_cat; [exact Hsa|]. apply (spelled_cat _ [_]); [eapply spelled_o; eassumption|]. cbn [length]. rewrite Nat.add_1_r. exact Hsb.
    + invn H x Hx. destruct x as [[m i1] w1]. invn H y Hy. destruct y as [n2 w2]. injection H as <- <- ->. pose proof (binary_mono _ _ _ _ _ _ Hy) as Hw2. rewrite !same_has in Hx. rewrite <- has_app in Hx. cbn [app] in Hx.
      destruct (has ["->"; "=>"]%string (t_value t)) eqn:Ea.
      * pose proof (typeAnnot_mono _ _ _ _ _ _ _ Hm Hx) as Hw1. assert (w1 = w) by lia. subst w1. apply typeAnnot_sound in Hx; try assumption. destruct Hx as [rf [ty [nt [Hst' [Wt [Ft [Hr [-> [Hlt [He [Dt ->]]]]]]]]]]].
        exists (EType e0 (t_value t) rf ty). unfold grown. cbn [wf fits spell denote follows]. rewrite Ea, We, De, Wt, Dt, Hfo, Ft, Rk, Tk, Hfe, Hr. cbn [length andb obind]. split; [reflexivity|]. split; [reflexivity|].
        split; [apply spelled_cat; [exact Hse|]; rewrite <- Hi; apply (spelled_cat i [_]); [exact Hs|]; cbn [length]; rewrite Nat.add_1_r; exact Hst'|]. split; [rewrite (app_length (spell e0)); cbn [length]; lia|]. split; [exact He|]. f_equal.
        pose proof (binary_same _ _ _ _ _ Hy) as Hb. assert (HC := createBinary_cast false (t_value t) n (ref rf nt) false w Ea). 
        assert (orw false (createBinary (t_value t) n (ref rf nt) w) (POk (castop (t_value t) n (ref rf nt), w))) as [HC'|[HC' _]].
        { apply HC; [intros; discriminate| |reflexivity]. intros Hk'. destruct Hb as [Hb|[Hb|Hb]]; [|left; exact Hb|destruct Hb, Hk'; contradiction]. rewrite (has_const _ _ false Ea ["&&"; "||"]%string eq_refl) in Hb. discriminate. }
        2: discriminate. rewrite HC' in Hy. injection Hy as <-. reflexivity.
      * pose proof (Hm _ _ _ _ _ _ _ _ Hx) as Hw1. assert (w1 = w) by lia. subst w1. apply Hps in Hx. destruct Hx as [b [[Wb [Fb [Hsb [-> [Hlb He]]]]] Db]]. change (p_formal P1) with q in *.
        exists (EBin e0 (t_value t) b). unfold grown. cbn [wf fits spell denote follows]. rewrite Rk, We, De, Wb, Db, Hfo, Fb, Tk, Hfe. cbn [andb obind]. rewrite same_has in Eq.
        assert (has ["?"; "->"; "=>"]%string (t_value t) = false) as Hno. { change (has (["?"%string] ++ ["->"; "=>"]%string) (t_value t) = false). rewrite has_app, Eq, Ea. reflexivity. } rewrite Hno.
        split; [reflexivity|]. split; [reflexivity|].
        split; [apply spelled_cat; [exact Hse|]; rewrite <- Hi; apply (spelled_cat i [_]); [exact Hs|]; cbn [length]; rewrite Nat.add_1_r; exact Hsb|]. split; [rewrite app_length; cbn [length]; lia|]. split; [exact He|].
        pose proof (binary_same _ _ _ _ _ Hy) as Hb. rewrite createBinary_binop in Hy; [|exact Hno|exact Hb|].
        -- destruct (binop (t_value t) n m); [|discriminate]. injection Hy as <-. reflexivity.
        -- intros v f' p its -> Hd. destruct (denote_good b _ Wb Db) as [_ [_ Hg]]. exact (Hg eq_refl Hd).
  - destruct (has POSTFIX (t_value t)) eqn:Ep.
    + injection H as <- <-. exists (EPost e0 (t_value t)). unfold grown. cbn [wf fits spell denote follows]. change postfix_ops with POSTFIX. rewrite Ep, We, De, Hfo, app_length. cbn [length andb option_map]. split; [reflexivity|]. split; [reflexivity|].
      split; [apply spelled_cat; [exact Hse|]; rewrite <- Hi; exact Hs|]. split; [lia|]. split; [reflexivity|]. rewrite !same_has, <- has_app. reflexivity.
    + destruct (same (t_value t) (bytes "::")) eqn:E5; [discriminate|]. injection H as <- <-. split; [reflexivity|]. split; [exact Hl|]. rewrite Es. unfold ends. rewrite Rk, andb_true_r. apply negb_true_iff. destruct (has sticky (t_value t)) eqn:E6; [|reflexivity]. exfalso.
      change sticky with (["."%string] ++ ["("%string] ++ ["["%string] ++ ["::"%string] ++ POSTFIX) in E6. rewrite !has_app in E6. rewrite <- !same_has, E2, E3, E4, E5, Ep in E6. discriminate.
Qed.
Theorem parse_sound f : sound (parse f) /\ forall col mode P n i w n' j i0 e0, grown (p_formal P) i0 e0 i n -> tails f col mode P n i w = POk (n', j, w) -> exists e, reads_as ts (p_formal P) i0 e j /\ denote e = Some n'.
Proof.
  induction f as [|f [IH1 IH2]]; [split; repeat intro; discriminate|]. pose proof (parse_tails_mono f) as [Hm Ht]. split.
  - intros col mode P i w n j H. rewrite parse_S in H. invn H t Htk.
    match type of H with warn_unless _ _ ?k = _ => assert (forall w0, k w0 = POk (n, j, w) -> (w <= w0)%nat /\ (w0 = w -> exists e, reads_as ts (p_formal P) i e j /\ denote e = Some n)) as Hb end.
    { clear H. intros w0 H. cbn beta in H. invn H x Hx. destruct x as [[h i1] w1]. pose proof (head_mono _ _ _ _ _ _ _ _ Hm Hx) as Hw1. pose proof (Ht _ _ _ _ _ _ _ _ _ H) as Hw2. split; [lia|]. intros ->. assert (w1 = w) by lia. subst w1.
      apply head_sound in Hx; try assumption. destruct Hx as [e [We [Fe [Hse [Hi [Hfo De]]]]]]. eapply IH2; [|exact H]. split; [exact We|]. split; [apply Fe|]. split; [exact Hse|]. split; [exact Hi|]. split; [exact Hfo|exact De]. }
    invw H; apply Hb in H; destruct H as [? H]; [exact (H eq_refl)|lia].
  - intros col mode P n i w n' j i0 e0 Hg H. rewrite tails_S in H. invn H x Hx. destruct x as [[[out|] i1] w1].
    + pose proof (tail_mono _ _ _ _ _ _ _ _ _ _ Hm Hx) as Hw1. invn H t Htk.
      invw H; pose proof (Ht _ _ _ _ _ _ _ _ _ H) as Hw2; [|lia]. assert (w1 = w) by lia. subst w1. destruct (tail_sound _ _ _ _ _ _ _ _ _ _ _ _ Hm IH1 Hg Hx) as [e' Hg']. eapply IH2; eassumption.
    + injection H as <- <- ->. destruct (tail_sound _ _ _ _ _ _ _ _ _ _ _ _ Hm IH1 Hg Hx) as [-> [Hl He]]. destruct Hg as [We [Fe [Hse [Hi [_ De]]]]]. exists e0. split; [|exact De]. split; [exact We|]. split; [exact Fe|]. split; [exact Hse|]. split; [exact Hi|]. split; [exact Hl|exact He].
Qed.
End sound.
