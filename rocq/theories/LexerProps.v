(** C37: the lexer reads any source text to the end, or reports an error within it; what it returns are the tokens of the text. *)
From Coq Require Import String.
From Verif Require Import LexerModel LexerSpec LexerProofs LexerStrings LexerPieces LexerOps LexerStep CommonLemmas.
Open Scope Z_scope.
Open Scope list_scope.

Local Lemma as_token_app pre raw rest k body (toks : list token) : piece raw rest k -> pieces (pre ++ raw) rest body ->
  exists body', pieces pre (raw ++ rest) body' /\ (match as_token pre raw k with Some t => toks ++ [t] | None => toks end) ++ body = toks ++ body'.
Proof.
  intros P B. destruct k as [[k v]|]; cbn [as_token].
  - eexists. split; [apply ps_token; eassumption|]. rewrite <- app_assoc. reflexivity.
  - eexists. split; [apply ps_gap; eassumption|]. reflexivity.
Qed.
Local Lemma loop_sound : forall fuel rest pre line lidx toks, (length rest < fuel)%nat -> at_ pre line lidx ->
  match lex_loop fuel (pre ++ rest) (length pre) line lidx toks with
  | Ok (idx, l, ts) => exists body, pieces pre rest body /\ ts = toks ++ body /\ idx = length (pre ++ rest) /\ l = line_of (pre ++ rest)
  | Fail _ i => (length pre <= i < length (pre ++ rest))%nat /\ exists pre' rest', read_to pre rest pre' rest' /\ (length pre' <= i)%nat /\ forall raw f k, rest' = raw ++ f -> ~ piece raw f k
  | Trap => False
  end.
Proof.
  induction fuel as [|fuel IH]; intros rest pre line lidx toks L A; [lia|]. cbn [lex_loop]. destruct rest as [|c rest].
  { rewrite ge_len. exists []. rewrite !app_nil_r. split; [constructor|]. split; [reflexivity|]. split; [reflexivity|apply A]. }
  rewrite lt_len. pose proof (step_sound pre c rest line lidx A) as P. destruct (lex_step _ _ _ _) as [[[[t idx] l] x]|e i|] eqn:Es; cbn [bindr]; [| |exact P].
  - destruct P as (raw & f & k & Er & Nr & P & -> & -> & A'). rewrite Er in *. rewrite app_length in L. assert (0 < length raw)%nat by (destruct raw; [tauto|cbn; lia]).
    specialize (IH f (pre ++ raw) l x (match as_token pre raw k with Some t => toks ++ [t] | None => toks end) ltac:(lia) A'). rewrite app_assoc.
    destruct (lex_loop _ _ _ _ _ _) as [[[idx l'] ts]|e i|]; [| |exact IH].
    + destruct IH as (body & B & -> & -> & ->). destruct (as_token_app pre raw f k body toks P B) as (body' & B' & E). exists body'. auto.
    + destruct IH as (Hi & pre' & rest' & R & Hp & N). split; [rewrite app_length in Hi; lia|]. exists pre', rest'. split; [eapply rt_piece; eauto|]. auto.
  - split; [exact P|]. exists pre, (c :: rest). split; [constructor|]. split; [lia|]. intros raw f k Er Hp. destruct (step_complete pre raw f k line lidx A Hp) as (_ & l' & x' & E & _). rewrite Er in Es. congruence.
Qed.
Local Lemma loop_complete : forall pre rest body, pieces pre rest body -> forall fuel line lidx toks, (length rest < fuel)%nat -> at_ pre line lidx ->
  lex_loop fuel (pre ++ rest) (length pre) line lidx toks = Ok (length (pre ++ rest), line_of (pre ++ rest), toks ++ body).
Proof.
  induction 1 as [pre|pre raw rest ts P B IH|pre raw rest k v ts P B IH]; intros fuel line lidx toks L A; (destruct fuel as [|fuel]; [lia|]); cbn [lex_loop].
  - rewrite ge_len, !app_nil_r. destruct A as [-> _]. reflexivity.
  - destruct (step_complete pre raw rest _ line lidx A P) as (Nr & l & x & E & A'). rewrite E. destruct raw as [|c raw]; [tauto|]. cbn [app] in *. rewrite lt_len. cbn [bindr as_token].
    cbn [length] in L. rewrite app_length in L. specialize (IH fuel l x toks ltac:(lia) A'). rewrite <- app_assoc in IH. exact IH.
  - destruct (step_complete pre raw rest _ line lidx A P) as (Nr & l & x & E & A'). rewrite E. destruct raw as [|c raw]; [tauto|]. cbn [app] in *. rewrite lt_len. cbn [bindr as_token].
    cbn [length] in L. rewrite app_length in L. specialize (IH fuel l x (toks ++ [Tok k v (line_of pre) (col_of pre) (length (c :: raw))]) ltac:(lia) A'). rewrite <- !app_assoc in IH. exact IH.
Qed.
Local Lemma lex_eq src : lex src = let* (idx, line, tokens) := lex_loop (S (length src)) src 0 1 (-1) [Tok Sof [] 1 1 0] in Ok (tokens ++ [Tok Eof [] (S line) 0 0]).
Proof.
  unfold lex. change (token_at Sof [] 0 0 1 (-1)) with (Ok (Tok Sof [] 1 1 0)). cbn [bindr]. destruct (lex_loop _ _ _ _ _ _) as [[[idx l] ts]|e i|]; cbn [bindr]; [|reflexivity|reflexivity].
  unfold token_at, token_lc. rewrite Z.sub_diag, Nat.leb_refl, Nat.sub_diag. reflexivity.
Qed.

(** Every source text: its tokens, or an error at a position in it.  No access out of bounds, no endless loop. *)
Theorem lexer_never_traps : forall src, (exists ts, lex src = Ok ts) \/ (exists e i, lex src = Fail e i /\ (i < List.length src)%nat).
Proof.
  intros src. rewrite lex_eq. pose proof (loop_sound (S (length src)) src [] 1 (-1) [Tok Sof [] 1 1 0] ltac:(lia) at_start) as H. cbn [app length] in H.
  destruct (lex_loop _ _ _ _ _ _) as [[[idx l] ts]|e i|]; cbn [bindr]; [left; eauto|right|destruct H]. exists e, i. split; [reflexivity|]. apply H.
Qed.
Print Assumptions lexer_never_traps.

(** What it returns is exactly the tokens of the text. *)
Theorem lexer_tokens_are : forall src ts, lex src = Ok ts <-> tokens_of src ts.
Proof.
  intros src ts. rewrite lex_eq. split.
  - intros E. pose proof (loop_sound (S (length src)) src [] 1 (-1) [Tok Sof [] 1 1 0] ltac:(lia) at_start) as H. cbn [app length] in H.
    destruct (lex_loop _ _ _ _ _ _) as [[[idx l] ts']|e i|]; cbn [bindr] in E; try discriminate. destruct H as (body & B & -> & _ & ->). injection E as <-. exists body. split; [exact B|reflexivity].
  - intros (body & B & ->). pose proof (loop_complete [] src body B (S (length src)) 1 (-1) [Tok Sof [] 1 1 0] ltac:(lia) at_start) as E. cbn [app length] in E. rewrite E. reflexivity.
Qed.
Print Assumptions lexer_tokens_are.
(** So a text has one list of tokens at most. *)
Theorem tokens_are_unique : forall src ts ts', tokens_of src ts -> tokens_of src ts' -> ts = ts'.
Proof. intros src ts ts' H H'. apply lexer_tokens_are in H. apply lexer_tokens_are in H'. congruence. Qed.
Print Assumptions tokens_are_unique.

(** An error: the text has no tokens; all before some position can be read, nothing from there on, and the error points there or
    after it. *)
Theorem lexer_error_is_there : forall src e i, lex src = Fail e i ->
  (forall ts, ~ tokens_of src ts) /\ (i < List.length src)%nat /\
  exists pre rest, src = pre ++ rest /\ read_to [] src pre rest /\ (List.length pre <= i)%nat /\ forall raw f k, rest = raw ++ f -> ~ piece raw f k.
Proof.
  intros src e i E. split; [intros ts H; apply lexer_tokens_are in H; congruence|]. rewrite lex_eq in E.
  pose proof (loop_sound (S (length src)) src [] 1 (-1) [Tok Sof [] 1 1 0] ltac:(lia) at_start) as H. cbn [app length] in H.
  destruct (lex_loop _ _ _ _ _ _) as [[[idx l] ts']|e' i'|]; cbn [bindr] in E; try discriminate. injection E as -> ->. destruct H as (Hi & pre & rest & R & Hp & N). split; [lia|].
  exists pre, rest. split; [|auto]. assert (G : forall p r p' r', read_to p r p' r' -> p ++ r = p' ++ r') by (induction 1 as [|p raw r k p' r' P R' IH]; [reflexivity|rewrite <- IH, app_assoc; reflexivity]). exact (G _ _ _ _ R).
Qed.
Print Assumptions lexer_error_is_there.

(** The first token is sof, the last eof; the ones between cover parts of the text, in order, none overlapping another, and their
    values are what is written there. *)
Local Lemma pieces_cover : forall pre rest body, pieces pre rest body -> covers_in_order (pre ++ rest) body (length pre).
Proof.
  assert (W : forall src ts i j, covers_in_order src ts i -> (j <= i)%nat -> covers_in_order src ts j).
  { intros src [|t ts] i j H L; cbn in *; [lia|]. destruct H as (s & Hs & H). exists s. split; [lia|exact H]. }
  induction 1 as [pre|pre raw rest ts P B IH|pre raw rest k v ts P B IH].
  - rewrite app_nil_r. cbn. lia.
  - rewrite app_assoc. eapply W; [exact IH|]. rewrite app_length. lia.
  - cbn [covers_in_order]. exists (length pre). split; [lia|]. split.
    + exists pre, raw, rest. cbn. repeat split; auto; [intros ->; inversion P; subst; repeat match goal with H : _ \/ _ |- _ => destruct H | H : exists _, _ |- _ => destruct H | H : _ /\ _ |- _ => destruct H end; discriminate || (destruct (long_ops_shape [] H) as [L _]; cbn in L; lia)|].
      inversion P; subst; auto; try (unfold num_kind; destruct dot, exp; reflexivity); eauto 10.
    + cbn [t_chars]. rewrite app_assoc. rewrite app_length in IH. exact IH.
Qed.
Theorem lexer_covers_the_text : forall src ts, lex src = Ok ts ->
  exists body, ts = Tok Sof [] 1 1 0 :: body ++ [Tok Eof [] (S (line_of src)) 0 0] /\ covers_in_order src body 0.
Proof. intros src ts E. apply lexer_tokens_are in E as (body & B & ->). exists body. split; [reflexivity|]. exact (pieces_cover [] src body B). Qed.
Print Assumptions lexer_covers_the_text.

(** Lines and columns are from 1 (the column of eof is 0); each token between sof and eof is before those after it. *)
Local Lemma position_grows (pre x : list Z) : (line_of pre < line_of (pre ++ x))%nat \/ line_of pre = line_of (pre ++ x) /\ col_of (pre ++ x) = col_of pre + Z.of_nat (length x).
Proof.
  unfold line_of, col_of. rewrite count_occ_app, column_app. destruct (in_dec Z.eq_dec 10 x) as [H|H].
  - left. apply (count_occ_In Z.eq_dec) in H. lia.
  - right. split; [apply (count_occ_not_In Z.eq_dec) in H; lia|]. revert H. generalize (column pre 1). induction x as [|c x IH]; intros k H; cbn [column length]; [lia|].
    destruct (Z.eqb_spec c 10) as [->|_]; [exfalso; apply H; left; reflexivity|]. rewrite IH by (intros X; apply H; right; exact X). lia.
Qed.
Local Lemma pieces_positions : forall pre rest body, pieces pre rest body ->
  (forall t, In t body -> exists x y, rest = x ++ y /\ y <> [] /\ t_line t = line_of (pre ++ x) /\ t_col t = col_of (pre ++ x)) /\
  (forall i j t u, (i < j)%nat -> nth_error body i = Some t -> nth_error body j = Some u -> before t u).
Proof.
  assert (Ext : forall pre raw rest body, (forall t, In t body -> exists x y, rest = x ++ y /\ y <> [] /\ t_line t = line_of ((pre ++ raw) ++ x) /\ t_col t = col_of ((pre ++ raw) ++ x)) ->
    forall t : token, In t body -> exists x y, raw ++ rest = (raw ++ x) ++ y /\ y <> [] /\ t_line t = line_of (pre ++ raw ++ x) /\ t_col t = col_of (pre ++ raw ++ x)).
  { intros pre raw rest body H t Ht. destruct (H t Ht) as (x & y & -> & Ny & E1 & E2). exists x, y. rewrite <- !app_assoc in *. auto. }
  induction 1 as [pre|pre raw rest ts P B IH|pre raw rest k v ts P B IH].
  - split; [intros t []|intros [|i] j t u _ H; discriminate].
  - destruct IH as [I1 I2]. split; [|exact I2]. intros t Ht. destruct (Ext _ _ _ _ I1 t Ht) as (x & y & E). eauto.
  - destruct IH as [I1 I2]. assert (Nr : raw <> []) by (apply (step_complete [] raw rest (Some (k, v)) 1 (-1) at_start P)). split.
    + intros t [<-|Ht]; [|destruct (Ext _ _ _ _ I1 t Ht) as (x & y & E); eauto]. exists [], (raw ++ rest). rewrite app_nil_r. split; [reflexivity|]. split; [destruct raw; [tauto|discriminate]|]. split; reflexivity.
    + intros [|i] [|j] t u L Ht Hu; try lia; cbn [nth_error] in *; [|eapply (I2 i j); eauto; lia]. injection Ht as <-. apply nth_error_In in Hu. destruct (Ext _ _ _ _ I1 u Hu) as (x & y & _ & _ & E1 & E2).
      unfold before. rewrite E1, E2. cbn [t_line t_col]. destruct (position_grows pre (raw ++ x)) as [H|[H1 H2]]; [left; exact H|right]. split; [exact H1|]. rewrite H2, app_length. destruct raw; [tauto|cbn [length]; lia].
Qed.
Theorem lexer_positions : forall src ts, lex src = Ok ts ->
  exists body, ts = Tok Sof [] 1 1 0 :: body ++ [Tok Eof [] (S (line_of src)) 0 0] /\
  (forall t, In t body -> (1 <= t_line t <= line_of src)%nat /\ 1 <= t_col t) /\
  (forall i j t u, (i < j)%nat -> nth_error body i = Some t -> nth_error body j = Some u -> before t u).
Proof.
  intros src ts E. apply lexer_tokens_are in E as (body & B & ->). exists body. split; [reflexivity|]. destruct (pieces_positions _ _ _ B) as [P1 P2]. split; [|exact P2].
  intros t Ht. destruct (P1 t Ht) as (x & y & -> & _ & -> & ->). cbn [app]. split; [|apply col_pos]. split; [unfold line_of; lia|]. destruct (position_grows x y) as [H|[H _]]; lia.
Qed.
Print Assumptions lexer_positions.

(** Operators are the longest which can be read there. *)
Theorem lexer_operators_are_longest : forall pre raw rest op more, piece raw rest (Some (Op, raw)) -> In op long_ops -> raw ++ rest = op ++ more ->
  (List.length op <= List.length raw)%nat /\ forall line lidx, lidx = Z.of_nat (List.length pre) - col_of pre -> line = line_of pre ->
  exists line' lidx', lex_step (pre ++ raw ++ rest) (List.length pre) line lidx = Ok (Some (Tok Op raw line (col_of pre) (List.length raw)), List.length (pre ++ raw), line', lidx').
Proof.
  intros pre raw rest op more P Ho E. split; [|intros line lidx -> ->; destruct (step_complete pre raw rest _ (line_of pre) _ (conj eq_refl eq_refl) P) as (_ & l & x & E' & _); exists l, x; exact E'].
  inversion P; subst; eauto; match goal with H : num_kind ?d ?e = Op |- _ => destruct d, e; discriminate H end.
Qed.
Print Assumptions lexer_operators_are_longest.

(** ** Examples *)
Definition kinds_values (r : res (list token)) : option (list (kind * list Z)) := match r with Ok ts => Some (map (fun t => (t_kind t, t_value t)) ts) | _ => None end.
Example lex_ex1 : kinds_values (lex (text "fn f(x: i32) x >>= 0xFFp+2 + 1_000.5e-3;// done")) =
  Some [(Sof, []); (Id, text "fn"); (Id, text "f"); (Op, text "("); (Id, text "x"); (Op, text ":"); (Id, text "i32"); (Op, text ")"); (Id, text "x"); (Op, text ">>=");
        (Real, text "0xffp+2"); (Op, text "+"); (Real, text "1_000.5e-3"); (Op, text ";"); (Eof, [])].
Proof. vm_compute. reflexivity. Qed.
(** a string over two lines, and the positions after it: backquote, a, newline, backslash n, \x41, \u{20ac}, backquote *)
Example lex_ex2 : lex ([96; 97; 10] ++ text "\n\x41\u{20ac}" ++ [96; 32; 98]) =
  Ok [Tok Sof [] 1 1 0; Tok Str [97; 10; 10; 65; 226; 130; 172] 1 1 18; Tok Id [98] 2 17 1; Tok Eof [] 3 0 0].
Proof. vm_compute. reflexivity. Qed.
Example lex_ex3 : lex [39; 92; 48; 39; 46; 46; 46; 46] = Ok [Tok Sof [] 1 1 0; Tok Char [0] 1 1 4; Tok Op [46; 46; 46] 1 5 3; Tok Op [46] 1 8 1; Tok Eof [] 2 0 0].
Proof. vm_compute. reflexivity. Qed.
Example lex_errors : lex (text "a = 007") = Fail LeadingZero 4 /\ lex (text "x 1.2.3") = Fail BadNumber 2 /\ lex (text "0x1.8") = Fail HexExponent 0 /\ lex (text "0x") = Fail BadNumber 0 /\
  lex (39 :: 97 :: [10]) = Fail Unterminated 0 /\ lex (text "x 'ab'") = Fail NotOneByte 2 /\ lex (text "'ab\q'") = Fail BadEscape 3 /\ lex [32; 200] = Fail BadChar 1.
Proof. repeat split; vm_compute; reflexivity. Qed.
(** accepted although surprising: a comment which does not end; 0b12; leading zeroes before an underscore *)
Example lex_quirks : kinds_values (lex (text "a /* b")) = Some [(Sof, []); (Id, text "a"); (Eof, [])] /\
  kinds_values (lex (text "0b12")) = Some [(Sof, []); (Int, text "0b1"); (Int, text "2"); (Eof, [])] /\
  kinds_values (lex (text "0_1")) = Some [(Sof, []); (Int, text "0_1"); (Eof, [])] /\ kinds_values (lex (text "0xp1")) = Some [(Sof, []); (Real, text "0xp1"); (Eof, [])].
Proof. repeat split; vm_compute; reflexivity. Qed.
Example tokens_ex : exists ts, tokens_of (text "x+=1") ts.
Proof. eexists. apply lexer_tokens_are. vm_compute. reflexivity. Qed.
