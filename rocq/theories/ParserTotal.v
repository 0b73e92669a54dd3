(** Parsing ends, and does not go out of bounds, whatever the tokens are. *)
From Coq Require Import String Ascii.
From Verif Require Export ParserSound.
From Coq Require Import List Lia ZArith Bool.
Import ListNotations.
Open Scope Z_scope.
Open Scope list_scope.
Notation length := List.length.

Definition base (n : node) : Prop := (numeric n = true -> n_value n <> []) /\ (n_kind n = K_call -> f_dot (n_flags n) = true -> n_items n <> []).
Definition dot1 (n : node) : Prop := n_kind n = K_call -> f_dot (n_flags n) = true -> f_argparens (n_flags n) = false -> n_parens n = false -> exists x, n_items n = [x].
Lemma base_call v f p items : (f_dot f = true -> items <> []) -> base (Node K_call v f p items).
Proof. intros H. split; [discriminate|]. cbn. auto. Qed.
Lemma base_other k v f p items : numeric (Node k v f p items) = false -> k <> K_call -> base (Node k v f p items).
Proof. intros H1 H2. split; [congruence|]. cbn. intros H. contradiction. Qed.
Lemma createPrefix_base op n : base n -> match createPrefix op n with POk n' => base n' /\ dot1 n' | PTrap => False | _ => True end.
Proof.
  intros Hb. destruct n as [k v f p items]. unfold createPrefix.
  destruct ((same op (bytes "+") || same op (bytes "-")) && match k with K_int | K_real => true | _ => false end) eqn:E.
  - apply andb_true_iff in E. destruct E as [_ E]. assert (Hv : v <> []). { destruct Hb as [Hb _]. apply Hb. exact E. } destruct v as [|c v]; [contradiction|]. assert (k <> K_call) by (destruct k; discriminate).
    destruct ((c =? 43) || (c =? 45)); (split; [split; [intros _; cbn; try discriminate|intros H1; contradiction]|intros H1; contradiction]). destruct op; discriminate.
  - destruct (same op (bytes "!")); (split; [first [apply base_call|apply base_other]; try reflexivity; discriminate|intros H1 H2; discriminate]).
Qed.
Lemma createBinary_base op l r w : base l -> base r -> match createBinary op l r w with POk (n, w') => base n /\ (w' <= w)%nat | PTrap => False | _ => True end.
Proof.
  intros Hl Hr. unfold createBinary. destruct (same op (bytes "||")); [split; [apply base_other; [reflexivity|discriminate]|lia]|]. destruct (same op (bytes "&&")); [split; [apply base_other; [reflexivity|discriminate]|lia]|].
  assert (Hx : forall w0, match (if same op (bytes "|>") then do* n := pipelineRight l r in POk (n, w0)
    else if same op (bytes "<|") then do* n := pipelineLeft l r in POk (n, w0)
    else if same op (bytes ":=") then do* n := letShorthand l r in POk (n, w0)
    else if same op (bytes "->") then POk (Node K_typeassert [] no_flags false [l; r], w0)
    else if same op (bytes "=>") then POk (Node K_typecast [] no_flags false [l; r], w0)
    else POk (createCall op F_OPERATOR [l; r], w0)) with POk (n, w') => base n /\ (w' <= w0)%nat | PTrap => False | _ => True end).
  { intros w0. destruct (same op (bytes "|>")).
    { destruct r as [k v f p items]. unfold pipelineRight. destruct k; try exact I. cbn [nkind_beq negb]. destruct (f_dot f) eqn:D.
      - destruct Hr as [_ Hr]. specialize (Hr eq_refl D). cbn in Hr. destruct items as [|x items]; [contradiction|]. split; [apply base_call; discriminate|lia].
      - split; [apply base_call; congruence|lia]. }
    destruct (same op (bytes "<|")).
    { destruct l as [k v f p items]. unfold pipelineLeft. destruct k; try exact I. cbn [nkind_beq negb pbind]. split; [apply base_call; intros _; destruct items; discriminate|lia]. }
    destruct (same op (bytes ":=")).
    { destruct l as [k v f p items]. unfold letShorthand. match goal with |- context [if ?c then _ else _] => destruct c end; [exact I|]. split; [apply base_other; [reflexivity|discriminate]|lia]. }
    destruct (same op (bytes "->")); [split; [apply base_other; [reflexivity|discriminate]|lia]|]. destruct (same op (bytes "=>")); [split; [apply base_other; [reflexivity|discriminate]|lia]|].
    split; [apply base_call; discriminate|lia]. }
  unfold warn_unless. destruct (negb _ || _); [apply Hx|]. destruct w as [|w0]; [exact I|]. specialize (Hx w0).
  match goal with |- match ?x with _ => _ end => destruct x as [[n w']| | | |]; try exact Hx end. destruct Hx. split; [assumption|lia].
Qed.
Lemma createCall_base n l b : base n -> dot1 n -> match createCallExpression n l b with POk n' => base n' /\ dot1 n' | PTrap => False | _ => True end.
Proof.
  intros Hb Hd. destruct n as [k v f p items]. unfold createCallExpression.
  assert (Hi : base (Node K_call_indir [] (named_flag b) false (Node k v f p items :: l)) /\ dot1 (Node K_call_indir [] (named_flag b) false (Node k v f p items :: l))).
  { split; [apply base_other; [reflexivity|discriminate]|intros H; discriminate]. }
  destruct p; [exact Hi|]. destruct (nkind_beq k K_call) eqn:K; cbn [andb]; [|exact Hi]. apply nkind_true in K. subst k.
  assert (Efd : f_dot (or_flags f (named_flag b)) = f_dot f) by (destruct f as [? [] ? ? ?]; reflexivity). assert (Efa : f_argparens (or_flags f (named_flag b)) = f_argparens f) by (destruct f as [? ? [] ? ?]; reflexivity). rewrite Efd, Efa.
  destruct (f_dot f) eqn:D, (f_argparens f) eqn:Ap; cbn [andb orb negb]; try exact Hi.
  - destruct (Hd eq_refl D Ap eq_refl) as [x Hx]. cbn in Hx. rewrite Hx. destruct v; [exact I|]. split; [apply base_call; discriminate|]. intros _ _ H. exfalso. unfold createCall in H. cbn in H. rewrite Ap in H. cbn in H. rewrite ?orb_true_r in H. discriminate.
  - destruct v; [exact I|]. split; [apply base_call; cbn; rewrite D; discriminate|]. intros _ H. unfold createCall in H. cbn in H. rewrite D in H. discriminate.
Qed.

Section total.
Variable ts : list token.
Hypothesis Hlexed : lexed ts.
Notation parse := (parseExpression ts). Notation tails := (tails ts). Notation tok := (tok ts). Notation sym_at := (sym_at ts).
Notation N := (length ts).
Definition fo (w f i : nat) : Prop := ((w + 1) * (N + 1) <= f + i)%nat.
Lemma fo_step w f i w' i' : fo w (S f) i -> (i <= N)%nat -> (w' <= w)%nat -> (w' = w -> i < i')%nat -> fo w' f i'.
Proof.
  unfold fo. intros H Hi Hw Hs. destruct (Nat.eq_dec w' w) as [->|Hn]; [specialize (Hs eq_refl); lia|].
  assert ((w' + 1) * (N + 1) <= w * (N + 1))%nat by (apply Nat.mul_le_mono_r; lia). lia.
Qed.
Lemma fo_later w f i w' i' : fo w f i -> (i <= N)%nat -> (w' <= w)%nat -> (w' = w -> i <= i')%nat -> fo w' f i'.
Proof.
  unfold fo. intros H Hi Hw Hs. destruct (Nat.eq_dec w' w) as [->|Hn]; [specialize (Hs eq_refl); lia|].
  assert ((w' + 1) * (N + 1) <= w * (N + 1))%nat by (apply Nat.mul_le_mono_r; lia). lia.
Qed.
Lemma fo_pos w f i : fo w f i -> (i < N)%nat -> exists f', f = S f'.
Proof. unfold fo. intros H Hi. destruct f as [|f]; [|eauto]. assert (1 * (N + 1) <= (w + 1) * (N + 1))%nat by (apply Nat.mul_le_mono_r; lia). lia. Qed.
(** the last token is EOF *)
Lemma tok_next i t : tok i = POk t -> t_kind t <> Eof -> (S i < N)%nat.
Proof.
  intros H K. destruct (tok_inv _ _ _ H) as [Ht [_ Hi]]. destruct Hlexed as [[ts0 [te [E Ke]]] _]. rewrite E in *. rewrite app_length in *. cbn [length] in *.
  destruct (Nat.eq_dec i (length ts0)) as [->|Hn]; [|lia]. rewrite nth_error_app2, Nat.sub_diag in Ht by lia. injection Ht as <-. congruence.
Qed.
Lemma tok_op i t v : tok i = POk t -> is_o v t = true -> (S i < N)%nat.
Proof. intros H Hv. eapply tok_next; [exact H|]. apply is_o_true in Hv. unfold sym_of, o in Hv. injection Hv as -> _. discriminate. Qed.
Lemma tok_in i : (i < N)%nat -> exists t, tok i = POk t.
Proof. intros H. destruct (in_tok ts i H) as [t [_ [E _]]]. eauto. Qed.
Definition notparen (j : nat) : Prop := sym_at j <> o "(".
Definition okres (i w : nat) (r : pres (node * nat * nat)) : Prop :=
  match r with PTrap => False | POk (n, j, w') => (j < N)%nat /\ (w' <= w)%nat /\ (w' = w -> i < j)%nat /\ base n /\ notparen j | _ => True end.
Definition okP (P : prec) : Prop := (p_tokidx P <> 0)%nat -> (p_tokidx P < N)%nat /\ notparen (p_tokidx P).
Definition safe (f : nat) (ps : parser) : Prop := forall col mode P i w, (i < N)%nat -> fo w f i -> okP P -> okres i w (ps col mode P i w).
Lemma okP_reset : okP P_RESET. Proof. intros H. contradiction. Qed.
Lemma okP_unary : okP P_PREFIX_UNARY. Proof. intros H. contradiction. Qed.

Lemma warn_safe {A} ok w (k : nat -> pres A) (Q : nat -> pres A -> Prop) : (forall w0 r, Q w0 r -> (w0 <= w)%nat -> Q w r) -> Q w PWarned -> (forall w0, (w0 <= w)%nat -> (ok = true -> w0 = w) -> (ok = false -> w0 < w)%nat -> Q w0 (k w0)) -> Q w (warn_unless ok w k).
Proof.
  intros Hmon Hwarn Hk. unfold warn_unless. destruct ok; [apply Hk; [lia|reflexivity|discriminate]|]. destruct w as [|w0]; [exact Hwarn|]. eapply Hmon; [apply Hk; [lia|discriminate|lia]|lia].
Qed.
Definition okargs (i w : nat) (r : pres (list node * bool * bool * nat * nat)) : Prop :=
  match r with PTrap => False | POk (l, nm, us, j, w') => (j < N)%nat /\ (w' <= w)%nat /\ (w' = w -> i < j)%nat | _ => True end.
Lemma softComma_safe endop i w : (i < N)%nat -> match softComma ts endop i w with POk (j, w') => (j < N)%nat /\ (w' <= w)%nat /\ (i <= j)%nat | PTrap => False | _ => True end.
Proof.
  intros Hi. unfold softComma. destruct (tok_in i Hi) as [t Et]. rewrite Et. cbn [pbind]. destruct (is_o "," t) eqn:E1; [pose proof (tok_op _ _ _ Et E1); lia|]. destruct (is_o endop t); [lia|].
  destruct (tok_in (i - 1) ltac:(lia)) as [t1 Et1]. rewrite Et1. cbn [pbind]. unfold warn_unless. destruct (negb _); [lia|]. destruct w; [exact I|]. lia.
Qed.
Lemma juggle_safe endop slice used acc nm i w : (i < N)%nat -> match commaJuggle ts endop slice used acc nm i w with POk (_, _, _, _, j, w') => (j < N)%nat /\ (w' <= w)%nat /\ (i <= j)%nat | PTrap => False | _ => True end.
Proof.
  intros Hi. unfold commaJuggle. destruct (tok_in i Hi) as [t Et]. rewrite Et. cbn [pbind]. destruct (slice && negb used && is_o ".." t) eqn:E.
  - apply andb_true_iff in E. destruct E as [_ E]. pose proof (tok_op _ _ _ Et E) as Hn. destruct (tok_in (S i) Hn) as [t1 Et1].
    assert (Hrest : forall x : list node * bool, match (do* (args, named) := POk x in do* peek := tok (S i) in if is_o "," peek then POk ([], true, args, named, S (S i), w) else POk (bytes "end", true, args, named, S i, w)) with
      POk (_, _, _, _, j, w') => (j < N)%nat /\ (w' <= w)%nat /\ (i <= j)%nat | PTrap => False | _ => True end).
    { intros [args named0]. cbn [pbind]. rewrite Et1. cbn [pbind]. destruct (is_o "," t1) eqn:E1; [pose proof (tok_op _ _ _ Et1 E1); lia|lia]. }
    destruct acc as [|x acc]; [apply Hrest|]. destruct (nkind_beq _ K_argid); [exact I|]. apply Hrest.
  - destruct acc as [|x acc]; [cbn; lia|]. pose proof (softComma_safe endop i w Hi) as H. destruct (softComma ts endop i w) as [[j w']| | | |]; exact H.
Qed.
Lemma argName_safe name i : (i < N)%nat -> match argName ts name i with POk (_, _, _, j) => (j < N)%nat /\ (i <= j)%nat | PTrap => False | _ => True end.
Proof.
  intros Hi. unfold argName. destruct (tok_in i Hi) as [t Et]. rewrite Et. cbn [pbind]. destruct name; [|lia]. destruct (is_o "?:" t) eqn:E1; [pose proof (tok_op _ _ _ Et E1); lia|]. destruct (is_o ":" t) eqn:E2; [pose proof (tok_op _ _ _ Et E2); lia|].
  destruct (t_kind t) eqn:K; try lia. assert (S i < N)%nat as Hn by (eapply tok_next; [exact Et|congruence]). destruct (tok_in (S i) Hn) as [t1 Et1]. rewrite Et1. cbn [pbind].
  destruct (is_o ":" t1) eqn:E3; [pose proof (tok_op _ _ _ Et1 E3); lia|]. destruct (is_o "?:" t1) eqn:E4; [pose proof (tok_op _ _ _ Et1 E4); lia|]. lia.
Qed.
Lemma args_safe ps f0 endop slice col : safe f0 ps -> forall f used acc nm i w, (i < N)%nat -> fo w f i -> fo w f0 i -> okargs i w (parseCallArgs ts f ps endop slice col used acc nm i w).
Proof.
  intros Hps. induction f as [|f IH]; intros used acc nm i w Hi Hf Hf0; [destruct (fo_pos _ _ _ Hf Hi); discriminate|]. rewrite parseCallArgs_S.
  pose proof (juggle_safe endop slice used acc nm i w Hi) as HJ. destruct (commaJuggle ts endop slice used acc nm i w) as [[[[[[name used1] acc1] nm1] i1] w1]| | | |]; try exact HJ. cbn [pbind]. destruct HJ as [Hi1 [Hw1 Hle]].
  unfold tryConsume. destruct (tok_in i1 Hi1) as [t1 Et1]. rewrite Et1. cbn [pbind]. change (is_tok Op (bytes endop) t1) with (is_o endop t1). destruct (is_o endop t1) eqn:Ee.
  { pose proof (tok_op _ _ _ Et1 Ee). cbn. lia. }
  cbn [pbind]. rewrite Et1. cbn [pbind]. destruct (tok_in (i1 - 1) ltac:(lia)) as [t0 Et0]. rewrite Et0. cbn [pbind]. cbn zeta.
  pose proof (argName_safe name i1 Hi1) as HA. destruct (argName ts name i1) as [[[[name2 au] op2] i2]| | | |]; try exact HA. cbn [pbind]. destruct HA as [Hi2 Hle2].
  assert (Hf2 : fo w1 f0 i2) by (eapply fo_later; [exact Hf0|lia|exact Hw1|lia]).
  match goal with |- context [ps ?c false P_RESET i2 w1] => pose proof (Hps c false P_RESET i2 w1 Hi2 Hf2 okP_reset) as HP; destruct (ps c false P_RESET i2 w1) as [[[e i3] w3]| | | |] end; cbn [pbind okres] in *; try exact HP; try exact I.
  destruct HP as [Hi3 [Hw3 [Hs3 [_ _]]]].
  assert (Hn : match (if au then getAutoName e else POk name2) with PTrap => False | _ => True end). { destruct au; [|exact I]. rewrite autoName_spec. destruct (auto_name e); exact I. }
  destruct (if au then getAutoName e else POk name2) as [nm9| | | |]; try exact Hn; try exact I. cbn [pbind].
  match goal with |- okargs _ _ ?x => assert (HR : okargs i3 w3 x) end.
  { apply IH; [exact Hi3| |].
    - eapply fo_step; [exact Hf|lia|lia|]. intros H. assert (i2 < i3)%nat by (apply Hs3; lia). lia.
    - eapply fo_later; [exact Hf0|lia|lia|]. intros H. assert (i2 < i3)%nat by (apply Hs3; lia). lia. }
  match goal with |- okargs _ _ ?x => destruct x as [[[[[l nm8] us] j] w']| | | |]; try exact HR end. cbn in *. destruct HR as [H1 [H2 H3]]. split; [exact H1|]. split; [lia|]. intros H. assert (i2 < i3)%nat by (apply Hs3; lia). assert (i3 < j)%nat by (apply H3; lia). lia.
Qed.
Definition okhead (i w : nat) (r : pres (node * nat * nat)) : Prop :=
  match r with PTrap => False | POk (n, j, w') => (j < N)%nat /\ (w' <= w)%nat /\ (w' = w -> i < j)%nat /\ base n /\ (sym_at j = o "(" -> dot1 n) | _ => True end.
Lemma dot1_nodot k v f p l : f_dot f = false -> dot1 (Node k v f p l). Proof. intros H _ H2. cbn in H2. congruence. Qed.
Lemma head_safe ps f col i w : safe f ps -> (i < N)%nat -> fo w f (S i) -> okhead i w (parseExpressionHead ts f ps col i w).
Proof.
  intros Hps Hi Hf. unfold parseExpressionHead. destruct (tok_in i Hi) as [t Et]. rewrite Et. cbn [pbind].
  assert (Hval : match t_kind t with Id | Int | Real => t_value t <> [] | _ => True end). { destruct (tok_inv _ _ _ Et) as [Hn _]. apply nth_error_In in Hn. destruct Hlexed as [_ HL]. exact (HL t Hn). }
  assert (Hn : t_kind t <> Eof -> (S i < N)%nat) by (intros H; eapply tok_next; eassumption).
  destruct (t_kind t) eqn:K; cbn [leaf_kind okhead]; try exact I; try specialize (Hn ltac:(discriminate)).
  - destruct (has not_modelled_ids (t_value t)); [exact I|]. unfold createRead. destruct (has ["true"; "false"]%string (t_value t)); cbn [pbind].
    { repeat split; try lia; try discriminate. } destruct (t_value t); [exact I|]. cbn [pbind]. repeat split; try lia; try discriminate.
  - repeat split; try lia; try discriminate. intros _. exact Hval.
  - repeat split; try lia; try discriminate. intros _. exact Hval.
  - repeat split; try lia; try discriminate.
  - repeat split; try lia; try discriminate.
  - destruct (is_o "(" t) eqn:E1.
    { unfold parseParens. pose proof (Hps col false P_RESET (S i) w Hn Hf okP_reset) as HP. destruct (ps col false P_RESET (S i) w) as [[[[k v fl p its] i1] w1]| | | |]; try exact HP. cbn [pbind okres] in *. destruct HP as [Hi1 [Hw1 [Hs1 [Hb _]]]].
      unfold consume. destruct (tok_in i1 Hi1) as [t1 Et1]. rewrite Et1. cbn [pbind]. change (is_tok Op (bytes ")") t1) with (is_o ")" t1). destruct (is_o ")" t1) eqn:E2; [|exact I]. pose proof (tok_op _ _ _ Et1 E2). cbn [pbind okhead].
      split; [lia|]. split; [lia|]. split; [intros ->; specialize (Hs1 eq_refl); lia|]. split; [exact Hb|]. intros _ _ _ _ H'. discriminate. }
    destruct (has not_modelled_ops (t_value t)); [exact I|]. destruct (is_o "[" t) eqn:E2.
    { unfold parseArrayLiteral. pose proof (args_safe ps f "]" false col Hps f false [] false (S i) w Hn Hf Hf) as HA. destruct (parseCallArgs ts f ps "]" false col false [] false (S i) w) as [[[[[l nm] us] i1] w1]| | | |]; try exact HA. cbn [pbind okargs okhead] in *.
      destruct HA as [H1 [H2 H3]]. split; [lia|]. split; [lia|]. split; [intros ->; specialize (H3 eq_refl); lia|]. split; [apply base_other; [reflexivity|discriminate]|]. intros _ H'. discriminate. }
    destruct (is_o "[]" t) eqn:E3. { cbn [okhead]. repeat split; try lia; try discriminate. }
    unfold parsePrefix. destruct (has PREFIX (t_value t)); [|exact I].
    match goal with |- context [ps col ?m P_PREFIX_UNARY (S i) w] => pose proof (Hps col m P_PREFIX_UNARY (S i) w Hn Hf okP_unary) as HP; destruct (ps col m P_PREFIX_UNARY (S i) w) as [[[e i1] w1]| | | |] end; try exact HP. cbn [pbind okres] in *.
    destruct HP as [Hi1 [Hw1 [Hs1 [Hb Hp]]]]. pose proof (createPrefix_base (t_value t) e Hb) as HC. destruct (createPrefix (t_value t) e) as [n| | | |]; try exact HC; try exact I. cbn [pbind okhead]. destruct HC as [HC1 HC2].
    split; [lia|]. split; [lia|]. split; [intros ->; specialize (Hs1 eq_refl); lia|]. split; [exact HC1|]. intros _. exact HC2.
Qed.
(** a tail: taken, or not *)
Definition oktail (i w : nat) (r : pres (option node * nat * nat)) : Prop :=
  match r with
  | PTrap => False
  | POk (None, j, w') => (j < N)%nat /\ (w' <= w)%nat /\ (w' = w -> j = i) /\ notparen j
  | POk (Some n, j, w') => (j < N)%nat /\ (w' <= w)%nat /\ (w' = w -> i < j)%nat /\ base n /\ (sym_at j = o "(" -> dot1 n)
  | _ => True
  end.
Lemma oktail_mono i w0 w r : (w0 < w)%nat -> oktail i w0 r -> oktail i w r.
Proof. intros Hw. destruct r as [[[[n|] j] w']| | | |]; cbn [oktail]; try tauto; intros [H1 [H2 [H3 H4]]]; (split; [exact H1|split; [lia|split; [lia|exact H4]]]). Qed.
Lemma typeAnnot_safe ps f col i w : safe f ps -> (i < N)%nat -> fo w f i -> okres i w (parseTypeAnnot ts ps col i w).
Proof.
  intros Hps Hi Hf. unfold parseTypeAnnot, tryConsume. destruct (tok_in i Hi) as [t Et]. rewrite Et. cbn [pbind]. change (is_tok Op (bytes "&") t) with (is_o "&" t).
  assert (Hgo : forall i2 hr (hm : bool), (i <= i2 < N)%nat -> okres i w (do* (res, i, w) := ps col false P_PREFIX_UNARY i2 w in POk (if hr : bool then createCall (bytes (if hm then "&mut" else "&")) F_OPERATOR [res] else res, i, w))).
  { intros i2 hr hm Hi2. assert (Hi3 : (i2 < N)%nat) by lia. assert (Hf3 : fo w f i2) by (eapply fo_later; [exact Hf|lia|lia|lia]). pose proof (Hps col false P_PREFIX_UNARY i2 w Hi3 Hf3 okP_unary) as HP. destruct (ps col false P_PREFIX_UNARY i2 w) as [[[n j] w']| | | |]; try exact HP. cbn [pbind okres] in *.
    destruct HP as [H1 [H2 [H3 [H4 H5]]]]. split; [exact H1|]. split; [exact H2|]. split; [intros ->; specialize (H3 eq_refl); lia|]. split; [|exact H5]. destruct hr; [apply base_call; discriminate|exact H4]. }
  destruct (is_o "&" t) eqn:E; cbn [pbind].
  - pose proof (tok_op _ _ _ Et E) as Hn. destruct (tok_in (S i) Hn) as [t1 Et1]. rewrite Et1. cbn [pbind]. destruct (is_tok Id (bytes "mut") t1) eqn:E1; cbn [pbind].
    + apply (Hgo (S (S i)) true true). assert (S (S i) < N)%nat; [|lia]. eapply tok_next; [exact Et1|]. unfold is_tok in E1. destruct (t_kind t1); discriminate.
    + apply (Hgo (S i) true false). lia.
  - apply (Hgo i false false). lia.
Qed.
Lemma tail_safe ps f col mode P n i w : safe f ps -> (i < N)%nat -> fo w f (S i) -> okP P -> base n -> (sym_at i = o "(" -> dot1 n) -> oktail i w (tryParseExpressionTail ts f ps col mode P n i w).
Proof.
  intros Hps Hi Hf HP Hb Hd. unfold tryParseExpressionTail. destruct (tok_in i Hi) as [t Et]. rewrite Et. cbn [pbind]. destruct (tok_inv _ _ _ Et) as [Hnt [Es _]].
  assert (Hkeep : sym_of t <> o "(" -> oktail i w (POk (None, i, w))). { intros H. cbn. split; [exact Hi|]. split; [lia|]. split; [reflexivity|]. unfold notparen. rewrite Es. exact H. }
  destruct (t_kind t) eqn:K; try (apply Hkeep; unfold sym_of, o; rewrite K; discriminate).
  assert (Hn : (S i < N)%nat) by (eapply tok_next; [exact Et|congruence]).
  assert (Et' : sym_of t = (Op, t_value t)) by (unfold sym_of; rewrite K; reflexivity). rewrite !(is_o_op _ _ _ Et').
  assert (Hno : same (t_value t) (bytes "(") = false -> sym_of t <> o "("). { intros H1 H2. rewrite Et' in H2. unfold o in H2. injection H2 as H2. rewrite H2 in H1. discriminate. }
  destruct (same (t_value t) (bytes ";")) eqn:E1. { apply Hkeep, Hno. apply same_spec in E1. rewrite E1. reflexivity. }
  assert (Hsome : forall x w0, (w0 <= w)%nat -> match x with PTrap => False | POk (n, j, w') => (j < N)%nat /\ (w' <= w0)%nat /\ (w' = w0 -> i < j)%nat /\ base n /\ (sym_at j = o "(" -> dot1 n) | _ => True end -> oktail i w0 (do* (n, i, w) := x in POk (Some n, i, w))).
  { intros x w0 Hw0. destruct x as [[[n1 j] w']| | | |]; cbn [pbind oktail]; tauto. }
  assert (Hwarn : forall ok (k : nat -> pres (option node * nat * nat)), (forall w0, (w0 <= w)%nat -> oktail i w0 (k w0)) -> oktail i w (warn_unless ok w k)).
  { intros ok k Hk. unfold warn_unless. destruct ok; [apply Hk; lia|]. destruct w as [|w0]; [exact I|]. apply oktail_mono with (w0 := w0); [lia|]. apply Hk. lia. }
  assert (Hf' : forall w0, (w0 <= w)%nat -> fo w0 f (S i)) by (intros w0 Hw0; eapply fo_later; [exact Hf|lia|lia|lia]).
  destruct (same (t_value t) (bytes ".")) eqn:E2.
  { apply Hwarn. intros w0 Hw0. apply Hsome; [lia|]. unfold parseAccessExpression. destruct (tok_in (S i) Hn) as [t1 Et1]. rewrite Et1. cbn [pbind]. destruct (t_kind t1) eqn:K1; try (destruct (is_o "::" t1); exact I).
    assert (S (S i) < N)%nat by (eapply tok_next; [exact Et1|congruence]). split; [lia|]. split; [lia|]. split; [lia|]. split; [apply base_call; discriminate|]. intros _ _ _ _ _. exists n. reflexivity. }
  destruct (same (t_value t) (bytes "(")) eqn:E3.
  { apply same_spec in E3. apply Hwarn. intros w0 Hw0. apply Hsome; [lia|]. unfold parseCallExpression. pose proof (args_safe ps f ")" false col Hps f false [] false (S i) w0 Hn (Hf' w0 Hw0) (Hf' w0 Hw0)) as HA.
    destruct (parseCallArgs ts f ps ")" false col false [] false (S i) w0) as [[[[[l nm] us] i1] w1]| | | |]; try exact HA. cbn [pbind okargs] in *. destruct HA as [H1 [H2 H3]].
    pose proof (createCall_base n l nm Hb (Hd ltac:(rewrite Es, Et', E3; reflexivity))) as HC. destruct (createCallExpression n l nm); try exact HC. cbn [pbind]. destruct HC. split; [lia|]. split; [lia|]. split; [intros ->; specialize (H3 eq_refl); lia|]. auto. }
  destruct (same (t_value t) (bytes "[")) eqn:E4.
  { apply Hwarn. intros w0 Hw0. apply Hsome; [lia|]. unfold parseIndexExpression. pose proof (args_safe ps f "]" true col Hps f false [] false (S i) w0 Hn (Hf' w0 Hw0) (Hf' w0 Hw0)) as HA.
    destruct (parseCallArgs ts f ps "]" true col false [] false (S i) w0) as [[[[[l nm] us] i1] w1]| | | |]; try exact HA. cbn [pbind okargs] in *. destruct HA as [H1 [H2 H3]].
    split; [lia|]. split; [lia|]. split; [intros ->; specialize (H3 eq_refl); lia|]. split; [apply base_call; destruct nm; discriminate|]. intros _. apply dot1_nodot. destruct nm; reflexivity. }
  assert (Hbin : forall (q : nat) ls (w0 : nat), (w0 <= w)%nat -> notparen i -> forall i', i' = i -> oktail i w0
    (if same (t_value t) (bytes "?") then
       do* (mid, i, w) := ps col false P_RESET (S i) w0 in do* i := consume ts Op ":" i in do* (rhs, i, w) := ps col false (ParserModel.Prec q ls i') i w in POk (Some (Node K_if [] no_flags false [n; mid; rhs]), i, w)
     else
       do* (rhs, i, w) := (if same (t_value t) (bytes "->") || same (t_value t) (bytes "=>") then parseTypeAnnot ts ps col (S i) w0 else ps col false (ParserModel.Prec q ls i) (S i) w0) in
       do* (n, w) := createBinary (t_value t) n rhs w in POk (Some n, i, w))).
  { intros q ls w0 Hw0 Hnp i' ->. assert (HP1 : okP (ParserModel.Prec q ls i)) by (intros _; split; [exact Hi|exact Hnp]).
    destruct (same (t_value t) (bytes "?")).
    - pose proof (Hps col false P_RESET (S i) w0 Hn (Hf' w0 Hw0) okP_reset) as HM. destruct (ps col false P_RESET (S i) w0) as [[[mid i1] w1]| | | |]; try exact HM. cbn [pbind okres] in *. destruct HM as [H1 [H2 [H3 [H4 H5]]]].
      unfold consume. destruct (tok_in i1 H1) as [t1 Et1]. rewrite Et1. cbn [pbind]. change (is_tok Op (bytes ":") t1) with (is_o ":" t1). destruct (is_o ":" t1) eqn:Ec; [|exact I]. pose proof (tok_op _ _ _ Et1 Ec) as Hn1. cbn [pbind].
      assert (Hf1 : fo w1 f (S i1)). { eapply fo_later; [exact Hf|lia|lia|]. intros H. assert (S i < i1)%nat by (apply H3; lia). lia. }
      pose proof (Hps col false (ParserModel.Prec q ls i) (S i1) w1 Hn1 Hf1 HP1) as HR. destruct (ps col false (ParserModel.Prec q ls i) (S i1) w1) as [[[rhs i2] w2]| | | |]; try exact HR. cbn [pbind okres oktail] in *. destruct HR as [G1 [G2 [G3 [G4 G5]]]].
      split; [exact G1|]. split; [lia|]. split; [intros H; assert (S i < i1)%nat by (apply H3; lia); assert (S i1 < i2)%nat by (apply G3; lia); lia|]. split; [apply base_other; [reflexivity|discriminate]|]. intros H. contradiction.
    - assert (HR : okres (S i) w0 (if same (t_value t) (bytes "->") || same (t_value t) (bytes "=>") then parseTypeAnnot ts ps col (S i) w0 else ps col false (ParserModel.Prec q ls i) (S i) w0)).
      { destruct (same (t_value t) (bytes "->") || same (t_value t) (bytes "=>")); [apply typeAnnot_safe with (f := f)|apply Hps]; auto. }
      destruct (if same (t_value t) (bytes "->") || same (t_value t) (bytes "=>") then parseTypeAnnot ts ps col (S i) w0 else ps col false (ParserModel.Prec q ls i) (S i) w0) as [[[rhs i1] w1]| | | |]; try exact HR. cbn [pbind okres] in *. destruct HR as [H1 [H2 [H3 [H4 H5]]]].
      pose proof (createBinary_base (t_value t) n rhs w1 Hb H4) as HC. destruct (createBinary (t_value t) n rhs w1) as [[n1 w2]| | | |]; try exact HC. cbn [pbind oktail]. destruct HC as [C1 C2].
      split; [exact H1|]. split; [lia|]. split; [intros H; assert (S i < i1)%nat by (apply H3; lia); lia|]. split; [exact C1|]. intros H. contradiction. }
  destruct (PRECEDENCE (t_value t)) as [q|].
  - assert (Hnp : notparen i). { unfold notparen. rewrite Es. apply Hno; reflexivity. }
    unfold tryParseBinary. match goal with |- context [misleading ts t q P ?m ?ws] => set (miss := m); set (ls := ws); destruct (misleading ts t q P miss ls) eqn:Lint end; cbn [negb warn_unless].
    + destruct w as [|w0]; [exact I|].
      assert (Hidx : (p_tokidx P <> 0)%nat). { unfold misleading in Lint. destruct (p_tokidx P =? 0)%nat eqn:Z0; [discriminate|]. apply Nat.eqb_neq in Z0. exact Z0. }
      destruct miss. { destruct (HP Hidx) as [HP1 HP2]. cbn. repeat split; [exact HP1|lia|lia|exact HP2]. }
      apply oktail_mono with (w0 := w0); [lia|]. apply Hbin; [lia|exact Hnp|reflexivity].
    + destruct miss. { apply Hkeep, Hno; reflexivity. } apply Hbin; [lia|exact Hnp|reflexivity].
  - destruct (has POSTFIX (t_value t)).
    + cbn. split; [lia|]. split; [lia|]. split; [lia|]. split; [apply base_call; discriminate|]. intros _. apply dot1_nodot. reflexivity.
    + destruct (same (t_value t) (bytes "::")); [exact I|]. apply Hkeep, Hno; reflexivity.
Qed.
Definition okfinal (i w : nat) (r : pres (node * nat * nat)) : Prop :=
  match r with PTrap => False | POk (n, j, w') => (j < N)%nat /\ (w' <= w)%nat /\ (w' = w -> i <= j)%nat /\ base n /\ notparen j | _ => True end.
Lemma all_safe f : safe f (parse f) /\ (forall col mode P n i w, (i < N)%nat -> fo w f i -> okP P -> base n -> (sym_at i = o "(" -> dot1 n) -> okfinal i w (tails f col mode P n i w)).
Proof.
  induction f as [|f [IHp IHt]].
  - split; [intros col mode P i w Hi Hf|intros col mode P n i w Hi Hf]; destruct (fo_pos _ _ _ Hf Hi); discriminate.
  - assert (Hsf : forall w i, fo w (S f) i -> fo w f (S i)) by (unfold fo; intros; lia). split.
    + intros col mode P i w Hi Hf HP. rewrite parse_S. destruct (tok_in i Hi) as [t Et]. rewrite Et. cbn [pbind].
      assert (Hgo : forall w0, (w0 <= w)%nat -> okres i w0 (do* (head, i, w) := parseExpressionHead ts f (parse f) col i w0 in tails f col (mode && match n_kind head with K_int | K_real => true | _ => false end) P head i w)).
      { intros w0 Hw0. assert (Hf0 : fo w0 f (S i)) by (eapply fo_later; [apply Hsf, Hf|lia|lia|lia]). pose proof (head_safe (parse f) f col i w0 IHp Hi Hf0) as HH. destruct (parseExpressionHead ts f (parse f) col i w0) as [[[n j] w1]| | | |]; try exact HH. cbn [pbind okhead] in *.
        destruct HH as [H1 [H2 [H3 [H4 H5]]]].
        assert (Hf1 : fo w1 f j). { eapply fo_later; [exact Hf0|lia|lia|]. intros H. assert (i < j)%nat by (apply H3; lia). lia. }
        match goal with |- okres _ _ (tails f col ?m P n j w1) => pose proof (IHt col m P n j w1 H1 Hf1 HP H4 H5) as HT; destruct (tails f col m P n j w1) as [[[n2 j2] w2]| | | |] end; try exact HT. cbn [okfinal okres] in *. destruct HT as [G1 [G2 [G3 [G4 G5]]]].
        split; [exact G1|]. split; [lia|]. split; [intros H; assert (i < j)%nat by (apply H3; lia); assert (j <= j2)%nat by (apply G3; lia); lia|]. auto. }
      unfold warn_unless. destruct (col <=? t_col t); [apply Hgo; lia|]. destruct w as [|w0]; [exact I|]. specialize (Hgo w0 ltac:(lia)).
      match type of Hgo with okres _ _ ?x => change (okres i (S w0) x); destruct x as [[[n2 j2] w2]| | | |]; try exact Hgo end. cbn [okres] in *. destruct Hgo as [G1 [G2 [G3 [G4 G5]]]]. repeat split; try assumption; try lia; apply G4.
    + intros col mode P n i w Hi Hf HP Hb Hd. rewrite tails_S.
      pose proof (tail_safe (parse f) f col mode P n i w IHp Hi (Hsf _ _ Hf) HP Hb Hd) as HT. destruct (tryParseExpressionTail ts f (parse f) col mode P n i w) as [[[[n1|] j] w1]| | | |]; try exact HT; cbn [pbind oktail] in *.
      * destruct HT as [H1 [H2 [H3 [H4 H5]]]]. destruct (tok_in i Hi) as [t Et]. rewrite Et. cbn [pbind].
        assert (Hgo : forall w0, (w0 <= w1)%nat -> okfinal i w (tails f col mode P n1 j w0)).
        { intros w0 Hw0. assert (Hf1 : fo w0 f j). { eapply fo_step; [exact Hf|lia|lia|]. intros H. apply H3. lia. }
          pose proof (IHt col mode P n1 j w0 H1 Hf1 HP H4 H5) as HF. destruct (tails f col mode P n1 j w0) as [[[n2 j2] w2]| | | |]; try exact HF. cbn [okfinal] in *. destruct HF as [G1 [G2 [G3 [G4 G5]]]].
          split; [exact G1|]. split; [lia|]. split; [|auto]. intros H. assert (i < j)%nat by (apply H3; lia). assert (j <= j2)%nat by (apply G3; lia). lia. }
        unfold warn_unless. destruct (col <? t_col t); [apply Hgo; lia|]. destruct w1 as [|w0]; [exact I|]. apply Hgo. lia.
      * destruct HT as [H1 [H2 [H3 H4]]]. cbn [okfinal]. split; [exact H1|]. split; [lia|]. split; [intros H; rewrite (H3 H); lia|]. auto.
Qed.
End total.
