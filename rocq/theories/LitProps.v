From Coq Require Import String List ZArith Bool Lia.
From Verif Require Import Words IntlitModel IntlitSpec LexerSpec LitSpec LitModel LitLemmas.
Import ListNotations.
Notation length := List.length.
Open Scope Z_scope.

(** Any string of bytes, as the generated program has it: C++ reads the same bytes, and what
    follows (a suffix, say) is left alone. *)
Theorem string_literal_survives : forall str rest, Forall (fun c => 0 <= c < 256) str -> ~ starts (fun c => c = 34) rest ->
  cpp_string (escapeStringLiteral str 34 ++ rest) = Some (str, rest).
Proof.
  intros str rest F R. unfold escapeStringLiteral. rewrite <- !app_assoc. cbn [app]. unfold cpp_string. change (34 =? 34) with true. cbv iota.
  apply escape_ok; auto.
Qed.
Print Assumptions string_literal_survives.

(** Any byte, as a character. *)
Theorem char_literal_survives : forall c rest, 0 <= c < 256 -> cpp_char (escapeStringLiteral [c] 39 ++ rest) = Some (c, rest).
Proof.
  intros c rest F. unfold escapeStringLiteral. rewrite <- !app_assoc. cbn [app]. unfold cpp_char. change (39 =? 39) with true. cbv iota.
  rewrite escape_ok; auto. intros Q; discriminate Q.
Qed.
Print Assumptions char_literal_survives.

(** From the source text: a string token (C37) means in C++ what it means in the source. *)
Theorem string_token_survives : forall q w v f, piece (q :: w ++ [q]) f (Some (LexerModel.Str, v)) -> Forall (fun c => 0 <= c < 256) v ->
  exists raw, (q = 34 \/ q = 96) /\ q :: w ++ [q] = q :: raw ++ [q] /\ LexerSpec.literal q raw v /\
  cpp_string (escapeStringLiteral v 34 ++ text "_fu") = Some (v, text "_fu").
Proof.
  intros q w v f P F. inversion P; subst.
  - exfalso. unfold num_kind in *. match goal with H : (if ?c then _ else _) = _ |- _ => destruct c; discriminate H end.
  - exfalso. unfold num_kind in *. match goal with H : (if ?c then _ else _) = _ |- _ => destruct c; discriminate H end.
  - match goal with H : LexerSpec.literal q ?x v |- _ => exists x; split; [auto|]; split; [auto|]; split; [exact H|] end.
    apply string_literal_survives; auto. cbn. discriminate.
Qed.
Print Assumptions string_token_survives.

(** The type given to an integer literal holds its value. *)
Theorem literal_type_holds_the_value : forall s r body n h L p,
  denotes (radix_base r) body n -> int_token r body ->
  intlit_parse (IntlitSpec.literal s r body false) = Some L -> err L = None -> solve_int h L = Some p ->
  fits p (whole s n) = true /\ (p = F32 -> Z.abs (whole s n) < 2 ^ 24).
Proof.
  intros s r body n h L p DN T E EL SO.
  destruct (token_value s r body n L DN T E EL) as (V1 & V2 & _). destruct (parse_signed _ _ E) as [SG _].
  destruct (solve_fits h L p _ E SG SO) as (FT & _ & F). assert (SV : signed_value L = whole s n) by (unfold signed_value, whole; rewrite V1, V2; destruct s; reflexivity).
  rewrite SV in *. auto.
Qed.
Print Assumptions literal_type_holds_the_value.

(** If there is a hint and the value fits the type hinted at, that is the type. *)
Theorem literal_type_is_the_hint : forall s r body n p L,
  denotes (radix_base r) body n -> int_token r body ->
  intlit_parse (IntlitSpec.literal s r body false) = Some L -> err L = None ->
  (p = F32 -> Z.abs n < 2 ^ 24) -> fits p (whole s n) = true -> (is_u p = true -> s <> Minus) -> solve_int (Some p) L = Some p.
Proof.
  intros s r body n p L DN T E EL HF FT HU.
  destruct (token_value s r body n L DN T E EL) as (V1 & V2 & V3 & V4 & V5 & V6). destruct (parse_signed _ _ E) as [SG _].
  destruct (denotes_bare _ _ _ DN) as (D & V & _). assert (B : 2 <= radix_base r <= 16) by (destruct r; cbn; lia).
  pose proof (value_bounds _ _ B D) as VB. rewrite V in VB. destruct VB as [N0 _].
  destruct (IntlitProps.literal_widths_are_least _ _ E) as (A & Bu & C & F). fold (signed_value L) in *.
  assert (SV : signed_value L = whole s n) by (unfold signed_value, whole; rewrite V1, V2; destruct s; reflexivity). rewrite SV in *.
  assert (MI : forall b, b = 8 \/ b = 16 \/ b = 32 \/ b = 64 -> fits_signed b (whole s n) -> (minsize_i L <=? b) = true).
  { intros b Hb Hf. apply Z.leb_le. destruct (minsize_i L =? 128); [exfalso; exact (A b Hb Hf)|]. destruct A as (_ & _ & A). exact (A b Hb Hf). }
  assert (MU : forall b, s <> Minus -> b = 8 \/ b = 16 \/ b = 32 \/ b = 64 -> fits_unsigned b (whole s n) -> (minsize_u L <=? b) = true).
  { intros b Hs Hb Hf. apply Z.leb_le. destruct Bu as (_ & _ & Bu); [rewrite V2; destruct s; congruence|]. exact (Bu b Hb Hf). }
  assert (SS : s <> Minus -> is_signed L = false) by (intros Hs; rewrite SG, V2; destruct s; congruence).
  unfold solve_int. rewrite V5. cbn [negb andb].
  destruct p; cbn [want]; rewrite ?andb_false_r, ?andb_true_r, ?orb_false_r; cbn [orb];
    cbn [fits] in FT; try (apply andb_true_iff in FT; rewrite Z.leb_le, Z.ltb_lt in FT).
  - rewrite (MI 8); auto; try (unfold fits_signed; cbn; lia).
  - rewrite (MI 16); auto; try (unfold fits_signed; cbn; lia).
  - rewrite (MI 32); auto; try (unfold fits_signed; cbn; lia).
  - rewrite (MI 64); auto; try (unfold fits_signed; cbn; lia).
  - rewrite (SS (HU eq_refl)), (MU 8); auto.
  - rewrite (SS (HU eq_refl)), (MU 16); auto.
  - rewrite (SS (HU eq_refl)), (MU 32); auto.
  - rewrite (SS (HU eq_refl)), (MU 64); auto.
  - assert (Q : minsize_f L = 32). { apply F. specialize (HF eq_refl). destruct s; cbn; lia. } rewrite Q. reflexivity.
  - assert (Q : minsize_f L <= 64).
    { clear - E. unfold intlit_parse in E. destruct (nth_error _ 0); [|discriminate]. cbn [obind] in E. cbv zeta in E.
      destruct (digits_loop _ _ 0 None) as [a e]. injection E as <-. unfold intlit_of. cbn. destruct (a <? 16777216); lia. }
    replace (minsize_f L <=? 64) with true by (symmetry; now apply Z.leb_le). reflexivity.
Qed.
Print Assumptions literal_type_is_the_hint.

(** The full claim: the C++ text generated for an integer literal is well formed and has its value.
    Proved but for four kinds of literals ([exceptional], and the refutations below); the C++ type is
    the literal's, but for the least i32. *)
Theorem int_literal_survives_partial : forall s r body n h L p,
  denotes (radix_base r) body n -> int_token r body ->
  intlit_parse (IntlitSpec.literal s r body false) = Some L -> err L = None -> solve_int h L = Some p ->
  ~ ((r = Dec /\ is_f p = false /\ nth 0 body 0 = 48 /\ body <> [48]) \/
     (is_f p = true /\ r <> Dec) \/ (s <> NoSign /\ r = Oct) \/ (s = Minus /\ r <> Dec /\ p = I32 /\ n = 2 ^ 31)) ->
  exists ty, cpp_expr (cg_arith p (IntlitSpec.literal s r body false)) = Some (ty, whole s n) /\
    (ty = p \/ p = I32 /\ whole s n = - 2 ^ 31 /\ ty = I64).
Proof. exact cg_int_ok. Qed.
Print Assumptions int_literal_survives_partial.

(** [+] and [-] before a literal, as the parser moves them in. *)
Theorem sign_is_applied : forall op s r body, op = 43 \/ op = 45 -> radix_text r ++ body <> [] -> reads_as s r body false ->
  exists s', with_sign op (IntlitSpec.literal s r body false) = IntlitSpec.literal s' r body false /\
             forall n, whole s' n = (if op =? 45 then - whole s n else whole s n).
Proof.
  intros op s r body O N (RA & _). unfold IntlitSpec.literal. rewrite !app_nil_r in *.
  destruct s; cbn [sign_text app].
  - cbn. destruct O as [->| ->]; cbn; [exists Plus|exists Minus]; split; reflexivity.
  - cbn. destruct O as [->| ->]; cbn; [exists Minus|exists Plus]; split; auto. intros n; cbn; lia.
  - destruct (radix_text r ++ body) as [|c t] eqn:Q; [congruence|]. destruct (RA eq_refl c t eq_refl) as [A B]. cbn.
    replace (c =? 43) with false by (symmetry; now apply Z.eqb_neq). replace (c =? 45) with false by (symmetry; now apply Z.eqb_neq). cbn.
    destruct O as [->| ->]; [exists Plus|exists Minus]; (split; [reflexivity|]); cbn; reflexivity.
Qed.
Print Assumptions sign_is_applied.

(** Refuted: [0_10] is ten in the source and eight in the generated program, [0_9] is nine and not
    C++ at all. *)
Theorem int_literal_zero_underscore_refuted :
  denotes 10 (text "0_10") 10 /\ int_token Dec (text "0_10") /\
  (exists L, intlit_parse (text "0_10") = Some L /\ err L = None /\ absval L = 10 /\ solve_int None L = Some I32) /\
  cpp_expr (cg_arith I32 (text "0_10")) = Some (I32, 8) /\ cpp_expr (cg_arith I32 (text "0_9")) = None.
Proof.
  split; [|split; [|split; [|split; reflexivity]]].
  - change (text "0_10") with ((([] ++ [48]) ++ [95]) ++ [49] ++ [48]). rewrite app_assoc.
    apply (den_digit 10 _ 1 48 0); [|reflexivity|lia]. apply (den_digit 10 _ 0 49 1); [|reflexivity|lia]. apply den_us.
    apply (den_digit 10 _ 0 48 0); [constructor|reflexivity|lia].
  - split; [|reflexivity]. intros _. split; [discriminate|]. split; [reflexivity|]. intros [_ Q]. discriminate Q.
  - eexists. split; [reflexivity|]. repeat split.
Qed.
Print Assumptions int_literal_zero_underscore_refuted.

(** Refuted: as an f64, [0o17] is fifteen in the source and seventeen in the generated program, and
    [0x10] is not C++ at all. *)
Theorem int_literal_as_float_refuted :
  (exists L, intlit_parse (text "0o17") = Some L /\ err L = None /\ absval L = 15 /\ solve_int (Some F64) L = Some F64) /\
  cpp_expr (cg_arith F64 (text "0o17")) = Some (F64, 17) /\
  (exists L, intlit_parse (text "0x10") = Some L /\ err L = None /\ absval L = 16 /\ solve_int (Some F64) L = Some F64) /\
  cpp_expr (cg_arith F64 (text "0x10")) = None.
Proof. split; [eexists; split; [reflexivity|]; repeat split|]. split; [reflexivity|]. split; [eexists; split; [reflexivity|]; repeat split|]. reflexivity. Qed.
Print Assumptions int_literal_as_float_refuted.

(** Refuted: [-0x80000000] is the least i32 in the source; in C++ it is an unsigned, and positive.
    [-0o17] is not C++ at all. *)
Theorem negative_literal_refuted :
  (exists L, intlit_parse (text "-0x80000000") = Some L /\ err L = None /\ absval L = 2 ^ 31 /\ is_negative L = true /\ solve_int None L = Some I32) /\
  cpp_expr (cg_arith I32 (text "-0x80000000")) = Some (U32, 2 ^ 31) /\
  (exists L, intlit_parse (text "-0o17") = Some L /\ err L = None /\ absval L = 15 /\ solve_int None L = Some I32) /\
  cpp_expr (cg_arith I32 (text "-0o17")) = None.
Proof.
  split; [eexists; split; [vm_compute; reflexivity|]; vm_compute; repeat split|]. split; [vm_compute; reflexivity|].
  split; [eexists; split; [vm_compute; reflexivity|]; vm_compute; repeat split|]. vm_compute. reflexivity.
Qed.
Print Assumptions negative_literal_refuted.

(** Refuted: a literal is given the type f64 only if that holds its value exactly. *)
Definition representable (v : Z) : Prop := exists m e, 0 <= e /\ Z.abs m < 2 ^ 53 /\ v = m * 2 ^ e.
Theorem literal_f64_is_exact_refuted :
  (exists L, intlit_parse (text "9007199254740993") = Some L /\ err L = None /\ absval L = 9007199254740993 /\ solve_int (Some F64) L = Some F64) /\
  ~ representable 9007199254740993.
Proof.
  split; [eexists; split; [vm_compute; reflexivity|]; vm_compute; repeat split|]. intros (m & e & E & M & V).
  destruct (Z.eq_dec e 0) as [->|N]; [rewrite Z.mul_1_r in V; subst m; revert M; vm_compute; discriminate|].
  replace e with (1 + (e - 1)) in V by lia. rewrite Z.pow_add_r in V by lia. change (2 ^ 1) with 2 in V.
  rewrite Z.mul_assoc, (Z.mul_comm m 2), <- Z.mul_assoc in V. remember (m * 2 ^ (e - 1)) as x eqn:X. clear - V. lia.
Qed.
Print Assumptions literal_f64_is_exact_refuted.

(** Cases: a string with quotes, a NUL before a digit, a newline and a high byte; numbers. *)
Example string_case : cpp_string (escapeStringLiteral [97; 34; 0; 51; 10; 233; 65; 92; 39] 34 ++ text "_view") = Some ([97; 34; 0; 51; 10; 233; 65; 92; 39], text "_view").
Proof. apply string_literal_survives; [repeat constructor; lia|cbn; discriminate]. Qed.
Example number_cases :
  cpp_expr (cg_arith I32 (text "-2147483648")) = Some (I64, -2147483648) /\
  cpp_expr (cg_arith I64 (text "-0x8000_0000_0000_0000")) = Some (I64, - 2 ^ 63) /\
  cpp_expr (cg_arith U64 (text "18446744073709551615")) = Some (U64, 2 ^ 64 - 1) /\
  cpp_expr (cg_arith U8 (text "0o377")) = Some (U8, 255) /\
  cpp_expr (cg_arith I8 (text "-128")) = Some (I8, -128) /\
  cpp_expr (cg_arith F32 (text "+1_000")) = Some (F32, 1000).
Proof. vm_compute. repeat split. Qed.
