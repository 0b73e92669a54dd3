(** C70: names in the generated C++. *)
From Coq Require Import String List ZArith Bool Lia.
From Verif Require Import LexerSpec DecSpec NamesSpec NamesModel NamesScope NamesLemmas NamesProof.
Import ListNotations.
Notation length := List.length.
Open Scope Z_scope.

(** The full claim: in the C++ generated for a function every name means what the program means by it,
    and nothing is declared twice.  Proved for programs in which no name has a shape the generator
    keeps for itself, no let inside an expression has the name of a global used earlier in the same
    statement, and no block in a handler yields a reference to the handler's variable ([wf_fn]; each of
    these is refuted below). *)
Theorem names_resolve_partial : forall src args body, wf_fn src args body ->
  let '(params, code) := gen_fn src args body in fn_ok [] [] params code.
Proof. exact gen_fn_ok. Qed.
Print Assumptions names_resolve_partial.

(** Names are valid: identifier characters, no digit first, not a keyword of C++20, whatever the name in
    the program and the number it got. *)
Theorem identifiers_are_valid : forall str, str <> [] -> Forall (fun c => 0 <= c) str -> ~ 48 <= hd 0 str <= 57 ->
  cpp_identifier (valid_identifier str).
Proof. exact valid_identifier_ok. Qed.
Print Assumptions identifiers_are_valid.
Theorem local_names_are_valid : forall src s l, src l <> [] -> Forall (fun c => 0 <= c) (src l) -> ~ 48 <= hd 0 (src l) <= 57 ->
  cpp_identifier (name_of src s l).
Proof. exact name_of_identifier. Qed.
Print Assumptions local_names_are_valid.

(** A name that is an identifier and not a keyword (nor one of the words the generator treats so) is
    kept; so two such names stay different. *)
Theorem identifiers_are_kept : forall str, Forall id_char str -> ~ In str KEYWORDS -> valid_identifier str = str.
Proof.
  intros str H K. rewrite valid_identifier_id by exact H. rewrite ID_eq. destruct (in_dec name_eq str KEYWORDS); [contradiction|reflexivity].
Qed.
Print Assumptions identifiers_are_kept.

(** The name search always ends with a free name. *)
Theorem free_name_is_found : forall used id, ~ In (candidate id (pick (S (length used)) used id 0)) used.
Proof. exact pick_free. Qed.
Print Assumptions free_name_is_found.

(** Refuted: different names in the program are different in C++.  [do] becomes [dO], and so is [dO];
    [a b] as a name and [ax20b]. *)
Theorem identifiers_stay_different_refuted :
  valid_identifier (text "do") = text "dO" /\ valid_identifier (text "dO") = text "dO" /\
  valid_identifier (text "a b") = text "ax20b" /\ valid_identifier (text "ax20b") = text "ax20b".
Proof. vm_compute. repeat split. Qed.
Print Assumptions identifiers_stay_different_refuted.

Local Definition named (s : string) : Z -> name := fun _ => text s.
Local Ltac no := intros H; vm_compute in H; intuition discriminate.

(** Refuted: the global [x], used earlier in a statement than a [let x] in the same expression, becomes
    the local: [f(x, { let x = ..; .. })] declares x before the statement. *)
Theorem global_is_captured_refuted :
  let body := SExp (ESeq (EGlob (text "x")) (ELet 1 ENop)) SNil in
  gen_fn (named "x") [] body = ([], CDecl (text "x") (ELocal 1) (CExp (CSeq (CName (text "x") (EGlobal (text "x"))) (CSeq (CName (text "x") (ELocal 1)) CNop)) CNil)) /\
  ~ (let '(ps, c) := gen_fn (named "x") [] body in fn_ok [] [] ps c) /\
  (let '(ps, c) := gen_fn (named "y") [] body in fn_ok [] [] ps c).
Proof.
  cbv zeta. split; [vm_compute; reflexivity|]. split; [no|].
  apply names_resolve_partial. split; [constructor|]. split; [constructor|]. split.
  - cbn. split; [|exact Logic.I]. split; [|split; [lia|split; [|exact Logic.I]]].
    + intros [(s & k & D & [E|E])|E]; vm_compute in E; discriminate.
    + right. split; [tauto|]. intros g [<-|[]] [E|(s & k & _ & E)]; vm_compute in E; discriminate.
  - intros l. split; [vm_compute; discriminate|]. intros [(s & k & D & [E|E])|E]; vm_compute in E; discriminate.
Qed.
Print Assumptions global_is_captured_refuted.

(** Refuted: a block in a handler that yields a reference to the handler's variable gets a second,
    empty variable for it, and that is what is used from there on. *)
Theorem catch_variable_refuted :
  let body := STry SNil (Some 1) (SExp (ESub [1] true (SExp (EUse 1) SNil)) SNil) SNil in
  snd (gen_fn (named "e") [] body) =
    CTry CNil (text "o_0") (CDecl (text "e") (ELocal 1) (CDecl (text "e_1") (ELocal 1) (CDecl (text "BL_0_v") (EHelper (text "BL_0_v"))
      (CExp (CSeq (CSub (CExp (CName (text "e_1") (ELocal 1)) (CExp (CName (text "BL_0_v") (EHelper (text "BL_0_v"))) CNil)))
                  (CName (text "BL_0_v") (EHelper (text "BL_0_v")))) CNil)))) CNil /\
  ~ (let '(ps, c) := gen_fn (named "e") [] body in fn_ok [] [] ps c).
Proof.
  cbv zeta. split; [vm_compute; reflexivity|]. intros H. vm_compute in H. destruct H as (_ & (_ & (_ & F) & _) & _).
  apply (F 1 eq_refl). now left.
Qed.
Print Assumptions catch_variable_refuted.

(** Refuted: a local named like a helper variable.  [_0] is declared twice, and [o_0] in a handler is the
    exception. *)
Theorem helper_names_refuted :
  ~ (let '(ps, c) := gen_fn (named "_0") [] (SLet 1 ENop (SExp (ETemp (EUse 1)) SNil)) in fn_ok [] [] ps c) /\
  ~ (let '(ps, c) := gen_fn (named "o_0") [] (SLet 1 ENop (STry SNil None (SExp (EUse 1) SNil) SNil)) in fn_ok [] [] ps c).
Proof. split; no. Qed.
Print Assumptions helper_names_refuted.

(** A case: two arguments of which one is unused, a loop, blocks, a handler and temporaries, all with locals
    of one name. *)
Local Definition body : stmts :=
  SLet 1 (EUse (-1))
  (SFor (Some 2) (ESeq (EUse 1) (ETemp (EUse 2))) (SLet 3 (ESeq (EUse 2) (EGlob (text "x"))) (SExp (EUse 3) SNil))
  (SExp (ESub [4] true (SLet 4 (ELet 5 (EUse 1)) (SExp (ESeq (EUse 4) (EUse 5)) SNil)))
  (STry (SLet 6 (EUse 4) (SExp (EUse 6) SNil)) (Some 7) (SExp (ESeq (EUse 7) (EGlob (text "x_3"))) SNil) SNil))).
Example names_case : wf_fn (named "x") [(-2, true); (-1, false)] body.
Proof.
  assert (R : ~ reserved (text "x")) by (intros [(s & k & D & [E|E])|E]; vm_compute in E; discriminate).
  assert (R3 : ~ reserved (text "x_3")) by (intros [(s & k & D & [E|E])|E]; vm_compute in E; discriminate).
  split; [repeat constructor; cbn; intuition lia|]. split; [repeat constructor|]. split; [|intros l; split; [vm_compute; discriminate|exact R]].
  unfold body. repeat match goal with
  | |- wf_s _ _ _ => cbn [wf_e wf_s]; cbv zeta
  | |- wf_e _ _ _ _ => cbn [wf_e wf_s]; cbv zeta
  | |- wf_h _ _ _ _ => cbn [wf_h]
  | |- _ /\ _ => split
  | |- True => exact Logic.I
  | |- 0 < _ => reflexivity
  | |- forall l, Some _ = Some l -> _ => intros ? X; injection X as <-
  | |- ~ reserved _ => first [exact R | exact R3]
  | |- uncaptured _ [] _ => intros g []
  | |- _ \/ _ => first [left; solve [split; cbn; tauto | cbn; lia] | right]
  | |- ~ In _ _ => cbn; intuition lia
  | |- In _ _ => cbn; tauto
  end.
Qed.
