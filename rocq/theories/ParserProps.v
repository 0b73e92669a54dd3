(** C55: expressions are parsed by their precedence - theorems. *)
From Coq Require Import String Ascii.
From Verif Require Import ParserSpec ParserFuel LexerSpec LexerProps.
From Coq Require Import List Lia ZArith Bool.
Import ListNotations.
Open Scope Z_scope.
Open Scope list_scope.
Notation length := List.length.

(** ** The lexer gives what the parser needs *)
Theorem lexer_output_is_lexed : forall src ts, lex src = Ok ts -> lexed ts.
Proof.
  intros src ts E. destruct (lexer_covers_the_text src ts E) as (body & -> & C). split.
  - exists (Tok Sof [] 1 1 0 :: body), (Tok Eof [] (S (line_of src)) 0 0). split; reflexivity.
  - intros t [<-|H]; [exact I|]. apply in_app_or in H. destruct H as [H|[<-|[]]]; [|exact I]. clear E. revert C. generalize 0%nat. induction body as [|u body IH]; intros i C; [contradiction|].
    destruct C as (start & _ & (pre & raw & post & _ & _ & _ & _ & _ & Hr & HV) & C). destruct H as [->|H]; [|exact (IH H _ C)].
    destruct (t_kind t); try exact I; rewrite HV; destruct raw; first [contradiction|discriminate].
Qed.
Print Assumptions lexer_output_is_lexed.

(** ** What is parsed without a warning is an expression, with that meaning, as large as it may be *)
Theorem parsed_is_a_reading : forall ts fuel col0 mode P i w n j, lexed ts -> parseExpression ts fuel col0 mode P i w = POk (n, j, w) ->
  exists e, reads_as ts (p_formal P) i e j /\ denote e = Some n.
Proof. intros ts fuel col0 mode P i w n j HL H. destruct (parse_sound ts HL fuel) as [HS _]. exact (HS _ _ _ _ _ _ _ H). Qed.
Print Assumptions parsed_is_a_reading.

(** ** Every expression is parsed to its meaning, or rejected if it has none - or there is a warning (and none are allowed) *)
Theorem readings_are_parsed : forall ts fuel col0 mode P i e j, reads_as ts (p_formal P) i e j -> (length ts < fuel + i)%nat ->
  match denote e with
  | Some n => parseExpression ts fuel col0 mode P i 0 = POk (n, j, 0%nat)
  | None => parseExpression ts fuel col0 mode P i 0 = PFail
  end \/ parseExpression ts fuel col0 mode P i 0 = PWarned.
Proof.
  intros ts fuel col0 mode P i e j (Hw & Hf & Hs & -> & Hl & He) Hfu.
  destruct (reach ts true 0 0) as [HR _]. pose proof (parse_done ts true 0%nat 0 e fuel col0 mode P i 0%nat (HR e) Hw Hf Hs Hl He Hfu (fun _ => eq_refl)) as H.
  specialize (H ltac:(discriminate)). destruct H as [H|[_ H]]; [left|right; exact H]. rewrite H. unfold result. destruct (denote e); reflexivity.
Qed.
Print Assumptions readings_are_parsed.

(** ** If it is tidy, and evenly spaced on one line, there is no warning *)
Local Lemma ends_rank ts j : ends anything (sym_at ts j) = true -> forall t, nth_error ts j = Some t -> t_kind t = Op -> rank (t_value t) = None.
Proof.
  unfold sym_at. intros H t Ht K. rewrite Ht in H. unfold sym_of, ends in H. rewrite K in H. apply andb_true_iff in H. destruct H as [_ H]. destruct (rank (t_value t)) as [q|] eqn:E; [|reflexivity].
  exfalso. unfold takes, anything in H. apply negb_true_iff, orb_false_iff in H. destruct H as [H _]. apply Nat.ltb_ge in H. revert E. unfold rank, ranks.
  cbn [List.find snd]. repeat match goal with |- option_map fst (if ?c then _ else _) = _ -> _ => destruct c end; cbn; intros E; try discriminate; injection E as <-; cbn in H; repeat apply le_S_n in H; inversion H.
Qed.
Theorem tidy_readings_are_parsed : forall ts fuel col0 i e j w, reads_as ts anything i e j -> tidy e = true -> even ts col0 i j -> (length ts < fuel + i)%nat ->
  parseExpression ts fuel col0 false P_RESET i w = match denote e with Some n => POk (n, j, w) | None => PFail end.
Proof.
  intros ts fuel col0 i e j w (Hw & Hf & Hs & -> & Hl & He) Ht (line & sp & Hev) Hfu.
  destruct (reach ts false line sp) as [HR _]. pose proof (parse_done ts false line sp e fuel col0 false P_RESET i w (HR e) Hw Hf Hs Hl He Hfu) as H.
  specialize (H ltac:(intros H'; discriminate)). destruct H as [H|[H _]]; [|rewrite H; reflexivity|discriminate].
  intros _. split; [exact Ht|]. split; [reflexivity|]. split; [|split; [left; reflexivity|]].
  - intros k Hk t Hk'. exact (Hev k t Hk Hk').
  - intros t Ht' K Hr. contradict Hr. exact (ends_rank ts _ He t Ht' K).
Qed.
Print Assumptions tidy_readings_are_parsed.

(** ** Precedence leaves no choice *)
Local Definition laid (ts : list token) : list token := map (fun '(k, t) => Tok (t_kind t) (t_value t) 1 (2 * Z.of_nat k + 1) 1) (combine (seq 0 (length ts)) ts).
Local Lemma laid_nth ts k : nth_error (laid ts) k = option_map (fun t => Tok (t_kind t) (t_value t) 1 (2 * Z.of_nat k + 1) 1) (nth_error ts k).
Proof.
  unfold laid. assert (forall s l, nth_error (map (fun '(k, t) => Tok (t_kind t) (t_value t) 1 (2 * Z.of_nat k + 1) 1) (combine (seq s (length l)) l)) k
    = option_map (fun t => Tok (t_kind t) (t_value t) 1 (2 * Z.of_nat (s + k) + 1) 1) (nth_error l k)) as H; [|exact (H 0%nat ts)].
  induction k as [|k IH]; intros s [|t l]; try reflexivity; cbn [length seq combine map nth_error option_map]; [rewrite Nat.add_0_r; reflexivity|]. rewrite IH. replace (S s + k)%nat with (s + S k)%nat by lia. reflexivity.
Qed.
Local Lemma laid_length ts : length (laid ts) = length ts. Proof. unfold laid. rewrite map_length, combine_length, seq_length. lia. Qed.
Local Lemma laid_reads ts p i e j : reads_as ts p i e j -> reads_as (laid ts) p i e j.
Proof.
  intros (H1 & H2 & H3 & H4 & H5 & H6). repeat split; try assumption.
  - intros k s Hk. rewrite laid_nth. specialize (H3 k s Hk). destruct (nth_error ts (i + k)); exact H3.
  - rewrite laid_length. exact H5.
  - unfold sym_at in *. rewrite laid_nth. destruct (nth_error ts j); exact H6.
Qed.
Local Lemma laid_space ts k : (S k < length ts)%nat -> space (laid ts) k = 1.
Proof.
  intros Hk. unfold space. assert (forall m, (m < length ts)%nat -> exists x v, nth m (laid ts) (Tok Sof [] 0 0 0) = Tok x v 1 (2 * Z.of_nat m + 1) 1) as H.
  { intros m Hm. destruct (nth_error ts m) as [t|] eqn:E; [|apply nth_error_None in E; lia]. exists (t_kind t), (t_value t). apply nth_error_nth. rewrite laid_nth, E. reflexivity. }
  destruct (H (k - 1)%nat ltac:(lia)) as (x1 & v1 & ->). destruct (H k ltac:(lia)) as (x2 & v2 & ->). destruct (H (S k) Hk) as (x3 & v3 & ->). cbn [t_line t_col t_chars]. rewrite Nat.ltb_irrefl. lia.
Qed.
Theorem reading_is_unique : forall ts i e1 j1 e2 j2, reads_as ts anything i e1 j1 -> reads_as ts anything i e2 j2 -> tidy e1 = true ->
  denote e1 = denote e2 /\ (denote e1 <> None -> j1 = j2).
Proof.
  intros ts i e1 j1 e2 j2 R1 R2 T.
  assert (even (laid ts) (-1) i j1) as E.
  { exists 1%nat, 1. destruct R1 as (_ & _ & _ & _ & Hj & _). intros k t Hk Hn. rewrite laid_nth in Hn. destruct (nth_error ts k) as [t0|]; [|discriminate]. cbn [option_map] in Hn. assert (Tok (t_kind t0) (t_value t0) 1 (2 * Z.of_nat k + 1) 1 = t) as <- by congruence. cbn [t_line t_col]. split; [reflexivity|]. split; [lia|]. intros _ _. apply laid_space. lia. }
  pose proof (tidy_readings_are_parsed (laid ts) (S (length (laid ts))) (-1) i e1 j1 0 (laid_reads _ _ _ _ _ R1) T E ltac:(lia)) as H1.
  pose proof (readings_are_parsed (laid ts) (S (length (laid ts))) (-1) false P_RESET i e2 j2 (laid_reads _ _ _ _ _ R2) ltac:(lia)) as H2.
  rewrite H1 in H2. destruct (denote e1) as [n1|], (denote e2) as [n2|]; destruct H2 as [H2|H2]; try discriminate; [injection H2 as -> ->; auto|split; [reflexivity|congruence]].
Qed.
Print Assumptions reading_is_unique.

(** ** Parsing ends, and reads no token which is not there; how many steps it may take changes nothing then *)
Theorem parsing_ends : forall ts fuel col0 mode i w, lexed ts -> (i < length ts)%nat -> ((w + 1) * (length ts + 1) <= fuel + i)%nat ->
  match parseExpression ts fuel col0 mode P_RESET i w with
  | PTrap => False
  | POk (n, j, w') => (j < length ts)%nat /\ (w' <= w)%nat /\ (w' = w -> i < j)%nat
  | _ => True
  end.
Proof.
  intros ts fuel col0 mode i w HL Hi Hf. destruct (all_safe ts HL fuel) as [HS _]. pose proof (HS col0 mode P_RESET i w Hi Hf (okP_reset ts)) as H.
  destruct (parseExpression ts fuel col0 mode P_RESET i w) as [[[n j] w']| | | |]; try exact H. destruct H as (H1 & H2 & H3 & _). auto.
Qed.
Print Assumptions parsing_ends.
Theorem more_fuel_same_result : forall ts fuel fuel' col0 mode P i w, (fuel <= fuel')%nat -> parseExpression ts fuel col0 mode P i w <> PTrap ->
  parseExpression ts fuel' col0 mode P i w = parseExpression ts fuel col0 mode P i w.
Proof. intros ts fuel fuel' col0 mode P i w Hf H. destruct (fuel_less ts fuel fuel' Hf) as [HS _]. destruct (HS col0 mode P i w) as [E|E]; [contradiction|congruence]. Qed.
Print Assumptions more_fuel_same_result.

(** ** Examples: the hypotheses are met *)
Definition read (s : string) : list token := match lex (bytes s) with Ok ts => ts | _ => [] end.
Definition idn (s : string) : expr := EId (bytes s).
(** a + b * -c.d(1, x: y)[i..] == z && !p ? q : r *)
Definition sample := "a + b * -c.d(1, x: y)[i..] == z && !p ? q : r"%string.
Definition sample_tree : expr :=
  ECond
    (EBin (EBin (EBin (idn "a") (bytes "+") (EBin (idn "b") (bytes "*")
             (EPre (bytes "-") (EIndex (ECall (EDot (idn "c") (bytes "d"))
                 (ACons Juxt Plain (ELit Int (bytes "1")) (ACons Comma (Named (bytes "x") false) (idn "y") (ANil Juxt))))
               (ACons Juxt Plain (idn "i") (ANil Dots))))))
           (bytes "==") (idn "z")) (bytes "&&") (EPre (bytes "!") (idn "p")))
    (idn "q") (idn "r").
Local Lemma spelled_check ts i l : forallb (fun '(k, s) => match nth_error ts (i + k) with Some t => sym_is (sym_of t) s && sym_is s s || (match fst s, t_kind t with Int, Int => true | _, _ => false end) && same (t_value t) (snd s) | None => false end) (combine (seq 0 (length l)) l) = true -> spelled ts i l.
Proof.
  intros H k s Hk. rewrite forallb_forall in H.
  assert (In (k, s) (combine (seq 0 (length l)) l)) as Hin.
  { clear H. assert (forall st l, nth_error l k = Some s -> In ((st + k)%nat, s) (combine (seq st (length l)) l)) as G; [|exact (G 0%nat l Hk)]. clear. intros st l. revert st k. induction l as [|x l IH]; intros st [|k] H; try discriminate; cbn [length seq combine].
    - injection H as ->. left. f_equal. lia. - right. replace (st + S k)%nat with (S st + k)%nat by lia. apply IH. exact H. }
  specialize (H _ Hin). cbn beta iota in H. destruct (nth_error ts (i + k)) as [t|]; [|discriminate]. cbn [option_map]. f_equal. destruct s as [ks vs]. unfold sym_of in *. apply orb_true_iff in H. destruct H as [H|H].
  - apply andb_true_iff in H. destruct H as [H _]. unfold sym_is in H. cbn [fst snd] in H. apply andb_true_iff in H. destruct H as [H1 H2]. apply same_spec in H2. rewrite H2. destruct (t_kind t), ks; try discriminate; reflexivity.
  - apply andb_true_iff in H. destruct H as [H1 H2]. cbn [fst snd] in *. apply same_spec in H2. rewrite H2. destruct ks, (t_kind t); try discriminate; reflexivity.
Qed.
Local Lemma sample_lexed : lex (bytes sample) = Ok (read sample). Proof. vm_compute. reflexivity. Qed.
Example sample_reads : reads_as (read sample) anything 1 sample_tree 29.
Proof. split; [vm_compute; reflexivity|]. split; [vm_compute; reflexivity|]. split; [apply spelled_check; vm_compute; reflexivity|]. split; [vm_compute; reflexivity|]. split; [vm_compute; lia|vm_compute; reflexivity]. Qed.
Example sample_is_lexed : lexed (read sample). Proof. exact (lexer_output_is_lexed _ _ sample_lexed). Qed.
Example sample_tidy : tidy sample_tree = true. Proof. vm_compute. reflexivity. Qed.
Local Definition even_check (ts : list token) (col0 : Z) (i j line : nat) (sp : Z) : bool :=
  forallb (fun k => match nth_error ts k with Some t => (t_line t =? line)%nat && (col0 <? t_col t) && (match t_kind t, rank (t_value t) with Op, Some _ => space ts k =? sp | _, _ => true end) | None => true end) (seq i (j - i)).
Local Lemma even_checked ts col0 i j line sp : even_check ts col0 i j line sp = true -> even ts col0 i j.
Proof.
  intros H. exists line, sp. intros k t Hk Ht. unfold even_check in H. rewrite forallb_forall in H. specialize (H k ltac:(apply in_seq; lia)). rewrite Ht in H. rewrite !andb_true_iff in H. destruct H as [[H1 H2] H3].
  split; [apply Nat.eqb_eq; exact H1|]. split; [apply Z.ltb_lt; exact H2|]. intros K R. rewrite K in H3. destruct (rank (t_value t)); [|contradiction]. apply Z.eqb_eq. exact H3.
Qed.
(** - before c is an operator too, and it is not as evenly spaced: so with spaces *)
Definition sample2 := "a + b * - c.d(1, x: y)[i..] == z && !p ? q : r"%string.
Example sample2_even : even (read sample2) 0 1 29. Proof. apply even_checked with (line := 1%nat) (sp := 1). vm_compute. reflexivity. Qed.
Example sample2_reads : reads_as (read sample2) anything 1 sample_tree 29.
Proof. split; [vm_compute; reflexivity|]. split; [vm_compute; reflexivity|]. split; [apply spelled_check; vm_compute; reflexivity|]. split; [vm_compute; reflexivity|]. split; [vm_compute; lia|vm_compute; reflexivity]. Qed.
Example sample2_parsed : exists n, denote sample_tree = Some n /\ parseExpression (read sample2) 31 0 false P_RESET 1 10 = POk (n, 29%nat, 10%nat).
Proof.
  destruct (denote sample_tree) as [n|] eqn:E; [|vm_compute in E; discriminate]. exists n. split; [reflexivity|].
  rewrite (tidy_readings_are_parsed (read sample2) 31 0 1 sample_tree 29 10 sample2_reads sample_tidy sample2_even ltac:(vm_compute; lia)), E. reflexivity.
Qed.
(** right to left, left to right *)
Definition shape (s : string) (w : nat) : pres (node * nat * nat) := parseExpression (read s) (100 * length (read s)) 0 false P_RESET 1 w.
Definition leafn (s : string) : node := Node K_call (bytes s) no_flags false [].
Definition opn (s : string) (a b : node) : node := Node K_call (bytes s) F_OPERATOR false [a; b].
Example left_to_right : shape "a - b - c" 0 = POk (opn "-" (opn "-" (leafn "a") (leafn "b")) (leafn "c"), 6%nat, 0%nat). Proof. vm_compute. reflexivity. Qed.
Example right_to_left_too : shape "a = b += c" 0 = POk (opn "=" (leafn "a") (opn "+=" (leafn "b") (leafn "c")), 6%nat, 0%nat). Proof. vm_compute. reflexivity. Qed.

(** ** Findings *)
(** Whatever the number of warnings allowed, [a * b+c] - one warning - is not parsed: after the warning, the parser goes back to
    the operator outside, and parses the same again. *)
Local Definition looping : list token := read "a * b+c".
Local Lemma loop_tail ps f v fl p l w : tryParseExpressionTail looping f ps 0 false P_RESET (Node K_call v fl p l) 2 w =
  (do* (rhs, i, w) := ps 0 false (ParserModel.Prec 2 1 2) 3%nat w in do* (n, w) := createBinary (bytes "*") (Node K_call v fl p l) rhs w in POk (Some n, i, w)).
Proof. vm_compute. reflexivity. Qed.
Local Lemma loop_head ps f w : parseExpressionHead looping f ps 0 3 w = POk (leafn "b", 4%nat, w). Proof. vm_compute. reflexivity. Qed.
Local Lemma loop_miss ps f w : tryParseExpressionTail looping f ps 0 false (ParserModel.Prec 2 1 2) (leafn "b") 4 w = match w with O => PWarned | S w => POk (None, 2%nat, w) end.
Proof. destruct w; vm_compute; reflexivity. Qed.
Local Lemma loop_col w A (k : nat -> pres A) i (t : token) : In i [1; 2; 3; 4]%nat -> (do* t := tok looping i in warn_unless (0 <=? t_col t) w k) = k w /\ (do* t := tok looping i in warn_unless (0 <? t_col t) w k) = k w.
Proof. intros [<-|[<-|[<-|[<-|[]]]]]; split; reflexivity. Qed.
Local Lemma loop_right f w : parseExpression looping (S (S f)) 0 false (ParserModel.Prec 2 1 2) 3 w = match w with O => PWarned | S w => POk (leafn "b", 2%nat, w) end.
Proof.
  rewrite parse_S. etransitivity; [apply loop_col; [exact (Tok Sof [] 0 0 0)|cbn; auto]|]. cbn beta. rewrite loop_head. cbn [pbind]. rewrite tails_S. cbn [andb]. rewrite loop_miss. destruct w; reflexivity.
Qed.
Local Lemma loops w : forall f n, n_kind n = K_call -> (4 * (w + 1) <= f)%nat -> tails looping f 0 false P_RESET n 2 w = PWarned.
Proof.
  induction w as [|w IH]; intros f n Hn Hf; destruct f as [|[|[|[|f]]]]; try lia; destruct n as [k v fl p l]; cbn in Hn; subst k; rewrite tails_S, loop_tail, loop_right; [reflexivity|]. cbn [pbind].
  change (createBinary (bytes "*") (Node K_call v fl p l) (leafn "b") w) with (POk (Node K_call (bytes "*") F_OPERATOR false [Node K_call v fl p l; leafn "b"], w)). cbn [pbind].
  etransitivity; [apply loop_col; [exact (Tok Sof [] 0 0 0)|cbn; auto]|]. apply IH; [reflexivity|lia].
Qed.
Theorem misleading_whitespace_is_never_parsed : forall w fuel, (4 * (w + 2) <= fuel)%nat -> parseExpression (read "a * b+c") fuel 0 false P_RESET 1 w = PWarned.
Proof.
  intros w fuel Hf. destruct fuel as [|fuel]; [lia|]. destruct fuel as [|fuel]; [lia|]. rewrite parse_S.
  change (read "a * b+c") with looping. etransitivity; [apply loop_col; [exact (Tok Sof [] 0 0 0)|cbn; auto]|]. cbn beta.
  assert (forall ps f, parseExpressionHead looping f ps 0 1 w = POk (leafn "a", 2%nat, w)) as H by (intros; vm_compute; reflexivity). rewrite H. cbn [pbind andb]. apply loops; [reflexivity|lia].
Qed.
Print Assumptions misleading_whitespace_is_never_parsed.
(** A call of what an index, or ++ or --, gives: what is indexed is lost. *)
Theorem call_of_an_index_loses_the_callee : forall w, shape "a[i](x)" w = shape "b[j](x)" w /\ shape "a++(x)" w = shape "b++(x)" w /\ shape "a[i](x)" w <> PFail.
Proof. intros w. split; [vm_compute; reflexivity|]. split; [vm_compute; reflexivity|]. vm_compute. discriminate. Qed.
Print Assumptions call_of_an_index_loses_the_callee.
(** |> into any call: also into that of an operator. *)
Theorem pipe_into_an_operator : forall w, shape "a |> b + c" w = POk (Node K_call (bytes "+") F_OPERATOR false [leafn "a"; leafn "b"; leafn "c"], 6%nat, w).
Proof. intros w. vm_compute. reflexivity. Qed.
Print Assumptions pipe_into_an_operator.
(** The type after -> or => is a unary operand, whatever is tighter than -> and =>. *)
Theorem type_is_unary : forall w, shape "a -> b * c" w = POk (opn "*" (Node K_typeassert [] no_flags false [leafn "a"; leafn "b"]) (leafn "c"), 6%nat, w).
Proof. intros w. vm_compute. reflexivity. Qed.
Print Assumptions type_is_unary.
