(** * C71: The C++ emitted for an expression computes what the expression means. *)

From Coq Require Import String List ZArith Bool Lia.
From Verif Require Import ExprSpec ExprModel ExprProof ExprDet.
Import ListNotations.
Open Scope string_scope.
Open Scope list_scope.

(** C++ reads a text as at most one expression. *)
Theorem C71_text_unambiguous : forall ts e1 e2,
  is_expression ts e1 -> is_expression ts e2 -> e1 = e2.
Proof. intros ts e1 e2 H1 H2. exact (proj1 (expr_det ts e1 [] e2 [] H1 H2)). Qed.
Print Assumptions C71_text_unambiguous.

(** The text emitted for an expression is a C++ expression, and evaluating it
    gives the expression's value and the expression's effects on the program's
    variables and calls, in the expression's order; only the compiler's own
    temporaries differ. *)
Theorem C71_expression_text_means_the_expression_partial : forall O e n,
  numv O "0" = 0%Z -> ok O e -> plain e ->
  (exists T, is_expression (fst (cg MNone e n)) T) /\
  forall T, is_expression (fst (cg MNone e n)) T ->
  forall s t, exists t',
    ceval O T (s, t) = Some (fst (feval O e s), (snd (feval O e s), t')).
Proof.
  intros O e n Hz W P. destruct (cg_value O Hz e W P n) as (T & A & S).
  split; [exists T; exact A|]. intros T' A'.
  rewrite (C71_text_unambiguous _ _ _ A' A). exact S.
Qed.
Print Assumptions C71_expression_text_means_the_expression_partial.

(** The same of the text between the parentheses of [if (…)], [while (…)],
    unless it is arithmetic on a type narrower than [int]. *)
Theorem C71_condition_text_means_the_expression_partial : forall O e n,
  numv O "0" = 0%Z -> ok O e -> plain e -> narrow_root e = false ->
  (exists T, is_condition (fst (cg MParens e n)) T) /\
  forall T, is_condition (fst (cg MParens e n)) T ->
  forall s t, exists t',
    ceval O T (s, t) = Some (fst (feval O e s), (snd (feval O e s), t')).
Proof.
  intros O e n Hz W P N. destruct (cg_cond O Hz e W P N n) as (T & A & S).
  assert (C : is_condition (fst (cg MParens e n)) T).
  { intro r. apply Asg_expr; [exact A|reflexivity|reflexivity]. }
  split; [exists T; exact C|]. intros T' C'.
  destruct (expr_det _ _ _ _ _ (C' []) (C [])) as [-> _]. exact S.
Qed.
Print Assumptions C71_condition_text_means_the_expression_partial.

(** What [&&] and [||] mean in fu, spelled out: operands after the deciding one
    are not evaluated, and where a value is wanted it is the deciding
    operand's. *)
Theorem C71_and_or_short_circuit : forall O a b s v s1,
  feval O a s = (v, s1) ->
  (truth v = false ->
     feval O (XAnd false (XCons a (XCons b XNil))) s = (v, s1) /\
     feval O (XAnd true (XCons a (XCons b XNil))) s = (0%Z, s1) /\
     feval O (XOr false (XCons a (XCons b XNil))) s = feval O b s1) /\
  (truth v = true ->
     feval O (XOr false (XCons a (XCons b XNil))) s = (v, s1) /\
     feval O (XOr true (XCons a (XCons b XNil))) s = (1%Z, s1) /\
     feval O (XAnd false (XCons a (XCons b XNil))) s = feval O b s1).
Proof.
  intros O a b s v s1 E. rewrite !fe_XAnd, !fe_XOr, !fand_step, !for_step, !E, !fand_last, !for_last.
  split; intros V; rewrite V; cbn [asbool]; rewrite ?V; cbn [ofb];
    destruct (feval O b s1); repeat split; reflexivity.
Qed.
Print Assumptions C71_and_or_short_circuit.

(** Refuted: of [-(-x)] the emitted text is [--x], which decrements [x]. *)
Theorem C71_minus_of_minus_refuted : forall O,
  let e := XPre None "-" (XPre None "-" (XPath "x" [])) in
  exists T, is_expression (fst (cg MNone e 0)) T /\
  forall s t,
    let v := inc O "--" (mem s ["x"]) in
    ceval O T (s, t) = Some (v, (store ["x"] v s, t)) /\
    feval O e s = (un1 O "-" (un1 O "-" (mem s ["x"])), s).
Proof.
  intros O e. exists (CPre "--" (CId "x")). split; [|intros s t v; split; reflexivity].
  unfold is_expression. change (fst (cg MNone e 0)) with [TP "--"; TId "x"].
  apply expr_ with (e := CPre "--" (CId "x")) (r := []); [|apply etail_end; reflexivity].
  apply asg_ with (e := CPre "--" (CId "x")) (r := []); [|apply atail_end; reflexivity].
  apply bin_ with (e := CPre "--" (CId "x")) (r := []); [|apply btail_end; reflexivity].
  apply un_pre; [reflexivity|]. apply un_post; [reflexivity|].
  apply post_ with (e := CId "x") (r := []); [apply prim_id; reflexivity|apply ptail_end; reflexivity].
Qed.
Print Assumptions C71_minus_of_minus_refuted.

(** Refuted: of [(-v).x], where [-] is the program's own operator on a struct,
    the text is [-v.x]: the [x] of [v], negated. *)
Theorem C71_field_of_operator_refuted : forall O,
  let e := XFld (XPre None "-" (XPath "v" [])) "x" in
  exists T, is_expression (fst (cg MNone e 0)) T /\
  forall s t,
    ceval O T (s, t) = Some (un1 O "-" (mem s ["v"; "x"]), (s, t)) /\
    feval O e s = (fld O (un1 O "-" (mem s ["v"])) "x", s).
Proof.
  intros O e. exists (CPre "-" (CField (CId "v") "x")). split; [|intros s t; split; reflexivity].
  unfold is_expression. change (fst (cg MNone e 0)) with [TP "-"; TId "v"; TP "."; TId "x"].
  set (T := CPre "-" (CField (CId "v") "x")).
  apply expr_ with (e := T) (r := []); [|apply etail_end; reflexivity].
  apply asg_ with (e := T) (r := []); [|apply atail_end; reflexivity].
  apply bin_ with (e := T) (r := []); [|apply btail_end; reflexivity].
  apply un_pre; [reflexivity|]. apply un_post; [reflexivity|].
  apply post_ with (e := CId "v") (r := [TP "."; TId "x"]); [apply prim_id; reflexivity|].
  apply ptail_field. apply ptail_end. reflexivity.
Qed.
Print Assumptions C71_field_of_operator_refuted.

(** A language for examples: decimal literals 0 to 9, integer arithmetic, [u8]. *)
Definition demo : ops := {|
  numv := fun s => match list_ascii_of_string s with
                   | [c] => Z.of_nat (Ascii.nat_of_ascii c) - 48
                   | _ => 0
                   end%Z;
  un1 := fun op v => if String.eqb op "-" then (- v)%Z else v;
  bin2 := fun op v w => if String.eqb op "+" then (v + w)%Z
                        else if String.eqb op "<" then ofb (Z.ltb v w) else (v - w)%Z;
  conv := fun t v => if String.eqb t "u8" then (v mod 256)%Z else v;
  fld := fun v f => (v * 2)%Z;
  idx := fun v i => (v + i)%Z;
  upd := fun op v w => (v + w)%Z;
  inc := fun op v => if String.eqb op "++" then (v + 1)%Z else (v - 1)%Z;
  ret := fun f vs s => (fold_right Z.add 7%Z vs, {| mem := mem s; log := (f, vs) :: log s |});
  is_type := fun t => String.eqb t "u8"
|}.

(** Refuted: [if (a + b)] on [u8] is emitted without the wrap-around that
    [if (a + b && c)] has, so 200 + 56, which is 0, counts as true. *)
Theorem C71_narrow_condition_refuted :
  let e := XBin (Some "u8") "+" (XPath "a" []) (XPath "b" []) in
  let s := {| mem := fun p => if strs_eqb p ["a"] then 200%Z else 56%Z; log := [] |} in
  ok demo e /\ plain e /\
  truth (fst (feval demo e s)) = false /\
  exists T, is_condition (fst (cg MParens e 0)) T /\
  forall t, exists v, ceval demo T (s, t) = Some (v, (s, t)) /\ truth v = true.
Proof.
  cbn zeta. split; [cbn; repeat split|]. split; [exact I|]. split; [reflexivity|].
  exists (CBin "+" (CId "a") (CId "b")). split.
  - intro r. change (fst (cg MParens (XBin (Some "u8") "+" (XPath "a" []) (XPath "b" [])) 0))
      with ([TId "a"] ++ [TP "+"] ++ [TId "b"]).
    apply Asg_expr; [|reflexivity|reflexivity].
    apply (bin_asg "+" 9); try reflexivity; [discriminate|lia| |].
    + apply (path_un "a" []).
    + apply (path_un "b" []).
  - intro t. exists 256%Z. split; reflexivity.
Qed.
Print Assumptions C71_narrow_condition_refuted.

(** The hypotheses are met: [(a && f(x).y || -b) + (c ? d = 5 : u8(i++))], and
    what is emitted for it. *)
Definition sample : fx :=
  XBin None "+"
    (XOr false (XCons (XAnd false (XCons (XPath "a" [])
                                  (XCons (XFld (XCall "f" (XCons (XPath "x" []) XNil)) "y") XNil)))
               (XCons (XPre None "-" (XPath "b" [])) XNil)))
    (XIf false false false (XPath "c" [])
       (XAsg "=" "d" [] (XNum "5")) (XConv "u8" (XPostInc "++" "i" []))).

Example sample_ok : numv demo "0" = 0%Z /\ ok demo sample /\ plain sample /\ narrow_root sample = false.
Proof. cbn. intuition (auto; discriminate). Qed.

Example sample_text :
  fst (cg MNone sample 3) =
  [TP "("; TP "("; TId "a"; TP "&&"; TP "("; TId "_3"; TP "="; TId "f"; TP "("; TId "x"; TP ")";
   TP "."; TId "y"; TP ")"; TP "?"; TId "_3"; TP ":"; TP "-"; TId "b"; TP ")"; TP "+";
   TP "("; TId "c"; TP "?"; TP "("; TId "d"; TP "="; TNum "5"; TP ")"; TP ":";
   TId "u8"; TP "("; TId "i"; TP "++"; TP ")"; TP ")"; TP ")"].
Proof. reflexivity. Qed.

(** A bool [||] of a [&&], a comparison and a call without a value. *)
Example sample_bool :
  let e := XOr true (XCons (XNot (XPath "p" ["q"]))
                    (XCons (XVoid (XCall "g" XNil))
                    (XCons (XBin None "<" (XPath "a" []) (XNum "3")) XNil))) in
  ok demo e /\ plain e /\ narrow_root e = false /\
  fst (cg MParens e 0) =
  [TP "!"; TId "p"; TP "."; TId "q"; TP "||"; TP "("; TId "g"; TP "("; TP ")"; TP ","; TNum "0"; TP ")";
   TP "||"; TP "("; TId "a"; TP "<"; TNum "3"; TP ")"].
Proof. cbn. intuition (auto; discriminate). Qed.
