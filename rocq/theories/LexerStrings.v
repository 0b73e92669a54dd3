(** String literals and comments. *)
From Verif Require Import LexerModel LexerSpec Utf8Spec Utf8Props AsciiProofs CommonLemmas WordsLemmas LexerProofs.
Open Scope Z_scope.
Open Scope list_scope.

(** ** Finding the closing quote: characters, and a backslash with whatever follows - a newline only if [any] *)
Inductive scanned (any : bool) (quot : Z) : list Z -> Prop :=
| sc_end : scanned any quot []
| sc_char c w : c <> quot -> c <> 92 -> (c = 10 -> quot = 96) -> scanned any quot w -> scanned any quot (c :: w)
| sc_escape c w : (any = false -> c <> 10) -> scanned any quot w -> scanned any quot (92 :: c :: w).
Lemma scanned_any quot w : scanned false quot w -> scanned true quot w.
Proof. induction 1; constructor; auto; discriminate. Qed.
Definition quote (q : Z) : Prop := q = 34 \/ q = 96 \/ q = 39.
Lemma str_end_ok any quot idx0 : quote quot -> forall w, scanned any quot w -> forall fuel pre f esc line lidx, (length w < fuel)%nat ->
  exists line' lidx', str_end fuel (pre ++ w ++ quot :: f) idx0 (length pre) quot esc line lidx = Ok (S (length pre + length w), esc || existsb (Z.eqb 92) w, line', lidx') /\
    (any = false -> at_ pre line lidx -> at_ (pre ++ w ++ [quot]) line' lidx').
Proof.
  intros Q. assert (Nq : quot <> 92 /\ quot <> 10) by (destruct Q as [->|[->| ->]]; lia).
  induction 1 as [|c w N1 N2 N3 Sc IH|c w N Sc IH]; intros fuel pre f esc line lidx L; (destruct fuel as [|fuel]; [lia|]); cbn [str_end app length existsb] in *.
  - rewrite lt_len, get_mid. cbn [bindr]. rewrite Z.eqb_refl, Nat.add_0_r, orb_false_r. exists line, lidx. split; [reflexivity|]. intros _ A. apply at_char; tauto.
  - rewrite lt_len, get_mid. cbn [bindr]. destruct (Z.eqb_spec c quot); [contradiction|]. destruct (Z.eqb_spec c 92); [contradiction|]. destruct (Z.eqb_spec 92 c); [congruence|]. cbn [orb].
    destruct (Z.eqb_spec c 10) as [->|N10].
    + rewrite (N3 eq_refl). change (negb (96 =? 96)) with false. cbv iota. rewrite (N3 eq_refl) in IH. rewrite (snoc pre 10 (w ++ _)), (snoc_len pre 10).
      destruct (IH fuel (pre ++ [10]) f esc (S line) (Z.of_nat (length (pre ++ [10])) - 1) ltac:(lia)) as (line' & lidx' & E & A). exists line', lidx'. rewrite E. split; [rewrite app_length; cbn [length]; do 4 f_equal; lia|].
      intros Hn At. rewrite (snoc pre 10). apply A; auto. rewrite <- (snoc_len pre 10). apply (at_newline pre line lidx). exact At.
    + rewrite (snoc pre c (w ++ _)), (snoc_len pre c). destruct (IH fuel (pre ++ [c]) f esc line lidx ltac:(lia)) as (line' & lidx' & E & A). exists line', lidx'. rewrite E. split; [rewrite app_length; cbn [length]; do 4 f_equal; lia|].
      intros Hn At. rewrite (snoc pre c). apply A; auto. apply at_char; auto.
  - rewrite lt_len, get_mid. cbn [bindr]. destruct (Z.eqb_spec 92 quot); [lia|]. change (92 =? 92) with true. cbv iota. cbn [orb]. rewrite orb_true_r.
    rewrite (snoc pre 92), (snoc (pre ++ [92]) c), (snoc_len pre 92), (snoc_len (pre ++ [92]) c).
    destruct (IH fuel ((pre ++ [92]) ++ [c]) f true line lidx ltac:(lia)) as (line' & lidx' & E & A). exists line', lidx'. rewrite E. split; [rewrite !app_length; cbn [length]; do 4 f_equal; lia|].
    intros Hn At. rewrite (snoc pre 92), (snoc (pre ++ [92]) c). apply A; auto. apply at_char; auto. apply at_char; [discriminate|exact At].
Qed.
Lemma str_end_dec quot idx0 : quote quot -> forall n rest, (length rest < n)%nat -> (exists w f, rest = w ++ quot :: f /\ scanned true quot w) \/
  (forall fuel pre esc line lidx, (S (length rest) < fuel)%nat -> exists e, str_end fuel (pre ++ rest) idx0 (length pre) quot esc line lidx = Fail e idx0).
Proof.
  intros Q. assert (Nq : quot <> 92 /\ quot <> 10) by (destruct Q as [->|[->| ->]]; lia). induction n as [|n IH]; intros rest L; [lia|]. destruct rest as [|c rest].
  { right. intros fuel pre esc line lidx Lf. destruct fuel as [|fuel]; [lia|]. cbn [str_end]. rewrite ge_len. eauto. }
  cbn [length] in *. destruct (Z.eqb_spec c quot) as [->|N1]; [left; exists [], rest; split; [reflexivity|constructor]|].
  destruct (Z.eqb_spec c 92) as [->|N2].
  - destruct rest as [|c rest].
    + right. intros fuel pre esc line lidx Lf. destruct fuel as [|[|fuel]]; [lia|lia|]. cbn [str_end]. rewrite lt_len, get_mid. cbn [bindr]. destruct (Z.eqb_spec 92 quot); [lia|]. change (92 =? 92) with true. cbv iota.
      replace (S (S (length pre)) <? length (pre ++ [92%Z]))%nat with false by (symmetry; apply Nat.ltb_ge; rewrite app_length; cbn; lia). eauto.
    + cbn [length] in *. destruct (IH rest ltac:(lia)) as [(w & f & -> & Sc)|F]; [left; exists (92 :: c :: w), f; split; [reflexivity|constructor; auto; discriminate]|]. right.
      intros fuel pre esc line lidx Lf. destruct fuel as [|fuel]; [lia|]. cbn [str_end]. rewrite lt_len, get_mid. cbn [bindr]. destruct (Z.eqb_spec 92 quot); [lia|]. change (92 =? 92) with true. cbv iota.
      rewrite (snoc pre 92), (snoc (pre ++ [92]) c), (snoc_len pre 92), (snoc_len (pre ++ [92]) c). apply F. lia.
  - destruct (Z.eqb_spec c 10) as [->|N3]; [destruct (Z.eqb_spec quot 96) as [->|Nt]|].
    + destruct (IH rest ltac:(lia)) as [(w & f & -> & Sc)|F]; [left; exists (10 :: w), f; split; [reflexivity|constructor; auto]|]. right.
      intros fuel pre esc line lidx Lf. destruct fuel as [|fuel]; [lia|]. cbn [str_end]. rewrite lt_len, get_mid. cbn. rewrite (snoc pre 10), (snoc_len pre 10). apply F. lia.
    + right. intros fuel pre esc line lidx Lf. destruct fuel as [|fuel]; [lia|]. cbn [str_end]. rewrite lt_len, get_mid. cbn [bindr]. destruct (Z.eqb_spec 10 quot); [lia|]. cbn. destruct (Z.eqb_spec quot 96); [contradiction|]. cbn. eauto.
    + destruct (IH rest ltac:(lia)) as [(w & f & -> & Sc)|F]; [left; exists (c :: w), f; split; [reflexivity|constructor; auto; contradiction]|]. right.
      intros fuel pre esc line lidx Lf. destruct fuel as [|fuel]; [lia|]. cbn [str_end]. rewrite lt_len, get_mid. cbn [bindr]. destruct (Z.eqb_spec c quot); [contradiction|]. destruct (Z.eqb_spec c 92); [contradiction|]. destruct (Z.eqb_spec c 10); [contradiction|].
      rewrite (snoc pre c), (snoc_len pre c). apply F. lia.
Qed.

(** ** Escapes *)
Lemma parseHex_ok esc pre c r idx0 : esc = pre ++ c :: r -> pre <> [] ->
  match parseHex esc (length pre - 1) idx0 with Ok (v, i) => hex_digit c v /\ i = length pre | Fail _ i => i = idx0 /\ forall v, ~ hex_digit c v | Trap => False end.
Proof.
  intros -> N. unfold parseHex. replace (S (length pre - 1)) with (length pre) by (destruct pre; [tauto|cbn; lia]). rewrite get_mid. cbn [bindr]. unfold in_range, hex_digit.
  destruct (Z.leb_spec 48 c), (Z.leb_spec c 57); cbn [andb]; try (split; [left; lia|reflexivity]); destruct (Z.leb_spec 65 c), (Z.leb_spec c 70); cbn [andb]; try (split; [right; left; lia|reflexivity]);
    destruct (Z.leb_spec 97 c), (Z.leb_spec c 102); cbn [andb]; try (split; [right; right; lia|reflexivity]); (split; [reflexivity|intros v; lia]).
Qed.
Lemma hex_digit_fun c v w : hex_digit c v -> hex_digit c w -> v = w. Proof. unfold hex_digit. lia. Qed.
Lemma hex_digit_small c v : hex_digit c v -> 0 <= v < 16. Proof. unfold hex_digit. lia. Qed.
Lemma hex_number_small ds v : hex_number ds v -> 0 <= v < 16 ^ Z.of_nat (length ds).
Proof.
  induction 1 as [|ds v c d H IH Hd]; [cbn; lia|]. apply hex_digit_small in Hd. rewrite app_length. cbn [length]. rewrite Nat2Z.inj_add, Z.pow_add_r by lia. change (16 ^ Z.of_nat 1) with 16. lia.
Qed.
Lemma push_digit cp d : 0 <= cp < 16 ^ 6 -> 0 <= d < 16 -> Z.lor (wshl 32 cp 4) d = 16 * cp + d.
Proof.
  intros Hc Hd. unfold wshl. rewrite Z.shiftl_mul_pow2 by lia. rewrite wrap_small by (split; [lia|]; change (16 ^ 6) with 16777216 in Hc; change (2 ^ 4) with 16; change (2 ^ 32) with 4294967296; lia).
  rewrite Z.lor_comm, Utf8Props.lor_hi by (change (2 ^ 4) with 16; lia). change (2 ^ 4) with 16. lia.
Qed.
Lemma unicode_digits_ok idx0 quot : quote quot -> forall fuel u pre f done cp, pre <> [] -> hex_number done cp -> (length done <= 6)%nat -> (7 - length done < fuel)%nat ->
  match unicode_digits fuel (pre ++ u ++ quot :: f) (length pre - 1) (length pre + length u) idx0 cp (length done) with
  | Ok (cp', digits, i) => exists ds u', u = ds ++ 125 :: u' /\ hex_number (done ++ ds) cp' /\ digits = length (done ++ ds) /\ (digits <= 6)%nat /\ i = (length pre + length ds)%nat
  | Fail _ i => i = idx0 /\ forall ds u' v, u = ds ++ 125 :: u' -> hex_number (done ++ ds) v -> (length (done ++ ds) <= 6)%nat -> False
  | Trap => False
  end.
Proof.
  intros Q. assert (Hex : forall ds v, hex_number ds v -> Forall (fun c => exists x, hex_digit c x) ds).
  { induction 1; [constructor|]. apply Forall_app. split; [assumption|]. constructor; [eauto|constructor]. }
  induction fuel as [|fuel IH]; intros u pre f done cp Np Hn Ld Lf; [lia|]. cbn [unicode_digits]. replace (S (length pre - 1)) with (length pre) by (destruct pre; [tauto|cbn; lia]).
  destruct u as [|c u].
  { replace (length pre <? length pre + length (@nil Z))%nat with false by (symmetry; apply Nat.ltb_ge; cbn; lia). split; [reflexivity|]. intros ds u' v E. destruct ds; discriminate. }
  replace (length pre <? length pre + length (c :: u))%nat with true by (symmetry; apply Nat.ltb_lt; cbn; lia). cbn [app]. rewrite get_mid. cbn [bindr].
  destruct (Z.eqb_spec c 125) as [->|N125].
  { exists [], u. rewrite app_nil_r. cbn [length app]. repeat split; auto. }
  destruct (Nat.eqb_spec (length done) 6) as [E6|N6].
  { split; [reflexivity|]. intros ds u' v E Hv Lv. destruct ds as [|x ds]; [cbn in E; congruence|]. rewrite app_length in Lv. cbn [length] in Lv. lia. }
  pose proof (parseHex_ok (pre ++ c :: u ++ quot :: f) pre c (u ++ quot :: f) idx0 eq_refl Np) as P. destruct (parseHex _ _ _) as [[d i]|e i|]; [|destruct P as [-> P]|destruct P]; cbn [bindr].
  - destruct P as [Hd ->]. assert (Hn' : hex_number (done ++ [c]) (Z.lor (wshl 32 cp 4) d)).
    { pose proof (hex_number_small _ _ Hn) as B. assert (Bd : 16 ^ Z.of_nat (length done) <= 16 ^ 6) by (apply Z.pow_le_mono_r; lia). rewrite push_digit; [constructor; auto|lia|eapply hex_digit_small; eauto]. }
    specialize (IH u (pre ++ [c]) f (done ++ [c]) _ ltac:(destruct pre; discriminate) Hn'). rewrite !app_length in IH. cbn [length] in IH. specialize (IH ltac:(lia) ltac:(lia)).
    replace (length pre + 1 - 1)%nat with (length pre) in IH by lia. replace (length pre + 1 + length u)%nat with (length pre + S (length u))%nat in IH by lia. rewrite <- app_assoc in IH. cbn [app] in IH.
    rewrite Nat.add_1_r in IH. cbn [length]. destruct (unicode_digits _ _ _ _ _ _ _) as [[[cp' digits] i]|e i|]; auto.
    + destruct IH as (ds & u' & -> & Hv & -> & L6 & ->). exists (c :: ds), u'. rewrite <- app_assoc in *. cbn [app] in *. split; [reflexivity|]. split; [exact Hv|]. split; [reflexivity|]. split; [exact L6|]. cbn [length]. lia.
    + destruct IH as [-> IH]. split; [reflexivity|]. intros ds u' v E Hv Lv. destruct ds as [|x ds]; [cbn in E; congruence|]. cbn [app] in E. injection E as <- E. apply (IH ds u' v E); rewrite <- app_assoc; assumption.
  - split; [reflexivity|]. intros ds u' v E Hv Lv. destruct ds as [|x ds]; [cbn in E; congruence|]. cbn [app] in E. injection E as <- E. apply Hex in Hv. apply Forall_app in Hv as [_ Hv]. inversion_clear Hv as [|? ? [y Hy] _]. exact (P y Hy).
Qed.
Lemma valid_utf8 bs cp : valid bs cp -> utf8 cp = bs /\ bs <> [] /\ (length bs <= 4)%nat.
Proof.
  intros V. assert (Nb : bs <> [] /\ (length bs <= 4)%nat) by (destruct V as (Sh & _); destruct Sh; cbn; split; [discriminate|lia|discriminate|lia|discriminate|lia|discriminate|lia]).
  split; [|exact Nb]. destruct V as (S1 & L1 & C1). assert (Hc : 0 <= cp < 1114112) by (destruct S1; unfold cont_byte in *; lia).
  destruct (encode_is_standard cp Hc) as (S2 & L2 & _). rewrite <- L1 in L2. clear - S1 S2 L2. remember (utf8 cp) as u. clear Hequ.
  inversion S1; subst; inversion S2; subst; cbn [length] in *; try discriminate; unfold cont_byte in *.
  - reflexivity.
  - f_equal; [lia|f_equal; lia].
  - assert (a0 = a) by lia. subst. assert (b0 = b) by lia. subst. do 3 f_equal. lia.
  - assert (a0 = a) by lia. subst. assert (b0 = b) by lia. subst. assert (d0 = d) by lia. subst. do 4 f_equal. lia.
Qed.
Lemma simple_ok c q : quote q -> match simple_escape c q with Some b => In (c, b) escapes \/ c = q /\ b = q | None => (forall b, ~ In (c, b) escapes) /\ c <> q end.
Proof.
  intros Q. unfold simple_escape, escapes.
  destruct (Z.eqb_spec c 92) as [->|]; [left; cbn; auto 20|]. destruct (Z.eqb_spec c 110) as [->|]; [left; cbn; auto 20|]. destruct (Z.eqb_spec c 114) as [->|]; [left; cbn; auto 20|].
  destruct (Z.eqb_spec c 116) as [->|]; [left; cbn; auto 20|]. destruct (Z.eqb_spec c 102) as [->|]; [left; cbn; auto 20|]. destruct (Z.eqb_spec c 118) as [->|]; [left; cbn; auto 20|].
  destruct (Z.eqb_spec c 48) as [->|]; [left; cbn; auto 20|]. destruct (Z.eqb_spec c 97) as [->|]; [left; cbn; auto 20|]. destruct (Z.eqb_spec c 98) as [->|]; [left; cbn; auto 20|].
  destruct (Z.eqb_spec c 101) as [->|]; [left; cbn; auto 20|]. destruct (Z.eqb_spec c q) as [->|]; [right; auto|]. split; [|assumption].
  intros b H. cbn in H. repeat (destruct H as [H|H]; [injection H as <- <-; congruence|]). exact H.
Qed.
Lemma simple_unique c b q : quote q -> In (c, b) escapes \/ c = q /\ b = q -> simple_escape c q = Some b.
Proof.
  intros Q [H|[-> ->]].
  - cbn in H. repeat (destruct H as [H|H]; [injection H as <- <-; reflexivity|]). destruct H.
  - destruct Q as [->|[->| ->]]; reflexivity.
Qed.
Lemma scanned_skip any q : forall a w, scanned any q (a ++ w) -> Forall (fun c => c <> 92) a -> scanned any q w.
Proof.
  induction a as [|c a IH]; intros w H F; [exact H|]. cbn [app] in H. inversion_clear F. inversion H; subst; [|congruence]. apply IH; auto.
Qed.
Lemma hex_digits ds v : hex_number ds v -> Forall (fun c => exists x, hex_digit c x) ds.
Proof. induction 1; [constructor|]. apply Forall_app. split; [assumption|]. constructor; [eauto|constructor]. Qed.
Lemma hex_number_fun ds v : hex_number ds v -> forall w, hex_number ds w -> v = w.
Proof.
  induction 1 as [|ds v c d H IH Hd]; intros w Hw; inversion Hw as [E|ds' v' c' d' H' Hd' E]; subst.
  - reflexivity.
  - destruct ds'; discriminate.
  - destruct ds; discriminate.
  - apply app_inj_tail in E as [-> ->]. rewrite (IH _ H'), (hex_digit_fun _ _ _ Hd Hd'). reflexivity.
Qed.
Lemma brace_split : forall ds ds' u u' v v', hex_number ds v -> hex_number ds' v' -> ds ++ 125 :: u = ds' ++ 125 :: u' -> ds = ds' /\ u = u'.
Proof.
  intros ds ds' u u' v v' H H' E. destruct (span_unique (fun c => exists x, hex_digit c x) ds ds' (125 :: u) (125 :: u')) as [-> E']; [eapply hex_digits; eauto|eapply hex_digits; eauto| | |exact E|].
  1,2: intros [x Hx]; unfold hex_digit in Hx; lia. split; [reflexivity|]. injection E' as ->. reflexivity.
Qed.
Lemma escape_ok q pre c w f : quote q -> scanned true q (92 :: c :: w) ->
  match escape (pre ++ (92 :: c :: w) ++ q :: f) (length pre) (length pre + length (92 :: c :: w)) q with
  | Ok (bs, i) => exists raw w', 92 :: c :: w = raw ++ w' /\ S i = (length pre + length raw)%nat /\ raw <> [] /\ scanned true q w' /\
      (forall v, literal q w' v -> literal q (raw ++ w') (bs ++ v)) /\ (forall v, literal q (raw ++ w') v -> exists v', literal q w' v' /\ v = bs ++ v')
  | Fail _ i => i = length pre /\ forall v, ~ literal q (92 :: c :: w) v
  | Trap => False
  end.
Proof.
  intros Q Sc. assert (Sw : scanned true q w) by (inversion Sc; subst; [congruence|assumption]).
  cbn [app length]. rewrite (snoc pre 92). unfold escape. rewrite (snoc_len pre 92), get_mid. cbn [bindr].
  pose proof (simple_ok c q Q) as So. destruct (simple_escape c q) as [b|] eqn:Es.
  { exists [92; c], w. split; [reflexivity|]. split; [rewrite app_length; cbn; lia|]. split; [discriminate|]. split; [exact Sw|]. split.
    - intros v Hv. cbn [app]. apply l_escape; auto.
    - intros v Hv. cbn [app] in Hv. inversion Hv as [|? ? ? N1 N2|? b' ? v' He Hv'|h l hv lv ? v' Hh Hl Hv'|ds cp bs ? v' Hn Ln Vb Hv' E]; subst; [congruence| | |].
      + exists v'. split; [exact Hv'|]. rewrite (simple_unique _ _ _ Q He) in Es. injection Es as ->. reflexivity.
      + exfalso. clear - Es Q. destruct Q as [->|[->| ->]]; discriminate.
      + exfalso. clear - Es Q. destruct Q as [->|[->| ->]]; discriminate. }
  destruct So as [So1 So2]. destruct (Z.eqb_spec c 120) as [->|N120].
  { rewrite app_length. cbn [length]. destruct w as [|h [|l w]].
    1,2: (replace (_ <=? _)%nat with true by (symmetry; apply Nat.leb_le; cbn [length]; lia)); (split; [reflexivity|]); intros v Hv; inversion Hv as [|? ? ? N1 N2|? b' ? v' He Hv'|h' l' hv lv ? v' Hh Hl Hv'|ds cp bs ? v' Hn Ln Vb Hv' E]; subst; try congruence; destruct He as [He|[He _]]; [apply (So1 _ He)|congruence].
    replace (_ <=? _)%nat with false by (symmetry; apply Nat.leb_gt; cbn [length]; lia). cbn [app length].
    rewrite (snoc (pre ++ [92]) 120). pose proof (parseHex_ok ((((pre ++ [92]) ++ [120]) ++ h :: l :: w ++ q :: f)) ((pre ++ [92]) ++ [120]) h (l :: w ++ q :: f) (length pre) eq_refl ltac:(destruct pre; discriminate)) as P1.
    rewrite !app_length in P1. cbn [length] in P1. replace (length pre + 1 + 1 - 1)%nat with (length pre + 1)%nat in P1 by lia.
    destruct (parseHex _ _ _) as [[hv i]|e i|]; cbn [bindr]; [|destruct P1 as [-> P1]|destruct P1].
    2: { split; [reflexivity|]. intros v Hv. inversion Hv as [|? ? ? N1 N2|? b' ? v' He Hv'|h' l' hv lv ? v' Hh Hl Hv'|ds cp bs ? v' Hn Ln Vb Hv' E]; subst; try congruence; [destruct He as [He|[He _]]; [apply (So1 _ He)|congruence]|exact (P1 _ Hh)]. }
    destruct P1 as [Hh ->]. rewrite (snoc ((pre ++ [92]) ++ [120]) h).
    pose proof (parseHex_ok ((((pre ++ [92]) ++ [120]) ++ [h]) ++ l :: w ++ q :: f) (((pre ++ [92]) ++ [120]) ++ [h]) l (w ++ q :: f) (length pre) eq_refl ltac:(destruct pre; discriminate)) as P2.
    rewrite !app_length in P2. cbn [length] in P2. replace (length pre + 1 + 1 + 1 - 1)%nat with (length pre + 1 + 1)%nat in P2 by lia.
    destruct (parseHex _ _ _) as [[lv i]|e i|]; cbn [bindr]; [|destruct P2 as [-> P2]|destruct P2].
    2: { split; [reflexivity|]. intros v Hv. inversion Hv as [|? ? ? N1 N2|? b' ? v' He Hv'|h' l' hv' lv ? v' Hh' Hl Hv'|ds cp bs ? v' Hn Ln Vb Hv' E]; subst; try congruence; [destruct He as [He|[He _]]; [apply (So1 _ He)|congruence]|exact (P2 _ Hl)]. }
    destruct P2 as [Hl ->]. pose proof (hex_digit_small _ _ Hh). pose proof (hex_digit_small _ _ Hl).
    rewrite push_digit by (change (16 ^ 6) with 16777216; lia). rewrite wrap_small by (split; change (2 ^ 8) with 256; lia).
    exists [92; 120; h; l], w. split; [reflexivity|]. split; [cbn [length]; lia|]. split; [discriminate|]. split.
    { apply (scanned_skip true q [h; l]); [exact Sw|]. unfold hex_digit in *. constructor; [lia|constructor; [lia|constructor]]. }
    split.
    - intros v Hv. cbn [app]. apply l_hex; auto.
    - intros v Hv. cbn [app] in Hv. inversion Hv as [|? ? ? N1 N2|? b' ? v' He Hv'|h' l' hv' lv' ? v' Hh' Hl' Hv'|ds cp bs ? v' Hn Ln Vb Hv' E]; subst; try congruence; [destruct He as [He|[He _]]; [destruct (So1 _ He)|congruence]|].
      exists v'. split; [exact Hv'|]. rewrite (hex_digit_fun _ _ _ Hh Hh'), (hex_digit_fun _ _ _ Hl Hl'). reflexivity. }
  destruct (Z.eqb_spec c 117) as [->|N117].
  2: { split; [reflexivity|]. intros v Hv. inversion Hv as [|? ? ? N1 N2|? b' ? v' He Hv'|h' l' hv' lv' ? v' Hh' Hl' Hv'|ds cp bs ? v' Hn Ln Vb Hv' E]; subst; try congruence. destruct He as [He|[He _]]; [destruct (So1 _ He)|congruence]. }
  assert (Only : forall v, literal q (92 :: 117 :: w) v -> exists ds cp bs w' v', w = 123 :: ds ++ 125 :: w' /\ v = bs ++ v' /\ hex_number ds cp /\ (1 <= length ds <= 6)%nat /\ valid bs cp /\ literal q w' v').
  { intros v Hv. inversion Hv as [|? ? ? N1 N2|? b' ? v' He Hv'|h' l' hv' lv' ? v' Hh' Hl' Hv'|ds cp bs w' v' Hn Ln Vb Hv' E]; subst; try congruence; [destruct He as [He|[He _]]; [destruct (So1 _ He)|congruence]|].
    exists ds, cp, bs, w', v'. auto 10. }
  replace (_ =? _)%nat with false by (symmetry; apply Nat.eqb_neq; rewrite app_length; cbn [length]; lia). cbv iota. rewrite (snoc (pre ++ [92]) 117), (snoc_len (pre ++ [92]) 117).
  destruct w as [|b w].
  { cbn [app]. rewrite get_mid. cbn [bindr]. replace (q =? 123) with false by (destruct Q as [->|[->| ->]]; reflexivity). cbn [negb]. split; [reflexivity|]. intros v Hv. apply Only in Hv as (ds & cp & bs & w' & v' & E & _). discriminate. }
  cbn [app]. rewrite get_mid. cbn [bindr]. destruct (Z.eqb_spec b 123) as [->|Nb]; cbn [negb].
  2: { split; [reflexivity|]. intros v Hv. apply Only in Hv as (ds & cp & bs & w' & v' & E & _). congruence. }
  rewrite (snoc ((pre ++ [92]) ++ [117]) 123).
  pose proof (unicode_digits_ok (length pre) q Q 8 w ((((pre ++ [92]) ++ [117]) ++ [123])) f [] 0 ltac:(destruct pre; discriminate) hn_nil) as U. cbn [app] in U.
  rewrite !app_length in *. cbn [length] in *. specialize (U ltac:(lia) ltac:(lia)). replace (length pre + 1 + 1 + 1 - 1)%nat with (length pre + 1 + 1)%nat in U by lia.
  replace (length pre + 1 + 1 + 1 + length w)%nat with (length pre + S (S (S (length w))))%nat in U by lia.
  destruct (unicode_digits _ _ _ _ _ _ _) as [[[cp digits] i]|e i|]; cbn [bindr]; [|destruct U as [-> U]|destruct U].
  2: { split; [reflexivity|]. intros v Hv. apply Only in Hv as (ds & cp & bs & w' & v' & E & _ & Hn & Ln & _). injection E as E. apply (U ds w' cp E Hn). lia. }
  destruct U as (ds & u' & -> & Hn & -> & L6 & ->).
  destruct (Nat.eqb_spec (length ds) 0) as [E0|N0].
  { split; [reflexivity|]. intros v Hv. apply Only in Hv as (ds' & cp' & bs & w' & v' & E & _ & Hn' & Ln & _). injection E as E. destruct (brace_split _ _ _ _ _ _ Hn Hn' E) as [-> _]. lia. }
  assert (Hu : utf8 cp = [] \/ valid (utf8 cp) cp).
  { pose proof (hex_number_small _ _ Hn) as B. assert (Bd : 16 ^ Z.of_nat (length ds) <= 16 ^ 6) by (apply Z.pow_le_mono_r; lia). destruct (Z.lt_ge_cases cp 1114112) as [Hc|Hc]; [right; apply encode_is_standard; lia|].
    left. apply encode_out_of_range. exact Hc. }
  destruct (utf8 cp) as [|b0 bs] eqn:Eu.
  { split; [reflexivity|]. intros v Hv. apply Only in Hv as (ds' & cp' & bs & w' & v' & E & _ & Hn' & Ln & Vb & _). injection E as E. destruct (brace_split _ _ _ _ _ _ Hn Hn' E) as [-> _]. rewrite <- (hex_number_fun _ _ Hn _ Hn') in Vb. destruct (valid_utf8 _ _ Vb) as (E1 & N & _). congruence. }
  destruct Hu as [Hu|Hu]; [discriminate|].
  exists (92 :: 117 :: 123 :: ds ++ [125]), u'. assert (Er : 92 :: 117 :: 123 :: ds ++ 125 :: u' = (92 :: 117 :: 123 :: ds ++ [125]) ++ u') by (cbn [app]; rewrite <- app_assoc; reflexivity).
  rewrite <- Er. split; [reflexivity|]. split; [cbn [length]; rewrite app_length; cbn [length]; lia|]. split; [discriminate|]. split.
  { apply (scanned_skip true q (123 :: ds ++ [125])); [rewrite <- app_comm_cons, <- app_assoc; exact Sw|]. constructor; [lia|]. apply Forall_app. split; [|constructor; [lia|constructor]].
    eapply Forall_impl; [|eapply hex_digits; eauto]. intros a [x Hx]. unfold hex_digit in Hx. lia. }
  split.
  - intros v Hv. apply (l_unicode q ds cp (b0 :: bs)); auto. lia.
  - intros v Hv. apply Only in Hv as (ds' & cp' & bs' & w' & v' & E & -> & Hn' & Ln & Vb & Hv'). injection E as E. destruct (brace_split _ _ _ _ _ _ Hn Hn' E) as [-> ->]. rewrite <- (hex_number_fun _ _ Hn _ Hn') in Vb. destruct (valid_utf8 _ _ Vb) as (E1 & _).
    exists v'. split; [exact Hv'|]. congruence.
Qed.
Lemma unescape_ok q : quote q -> forall fuel w pre f out, scanned true q w -> (length w < fuel)%nat ->
  match unescape fuel (pre ++ w ++ q :: f) (length pre) (length pre + length w) q out with
  | Ok v => exists v', v = out ++ v' /\ literal q w v'
  | Fail _ i => (length pre <= i < length pre + length w)%nat /\ forall v, ~ literal q w v
  | Trap => False
  end.
Proof.
  intros Q. induction fuel as [|fuel IH]; intros w pre f out Sc L; [lia|]. cbn [unescape]. destruct w as [|c w].
  { replace (_ <? _)%nat with false by (symmetry; apply Nat.ltb_ge; cbn; lia). exists []. rewrite app_nil_r. split; [reflexivity|constructor]. }
  replace (_ <? _)%nat with true by (symmetry; apply Nat.ltb_lt; cbn; lia). cbn [app]. rewrite get_mid. cbn [bindr]. destruct (Z.eqb_spec c 92) as [->|N].
  - destruct w as [|c w]; [inversion Sc; congruence|]. pose proof (escape_ok q pre c w f Q Sc) as E. cbn [app] in *.
    destruct (escape _ _ _ _) as [[bs i]|e i|]; cbn [bindr]; [|destruct E as [-> E]; split; [cbn [length]; lia|exact E]|exact E].
    destruct E as (raw & w' & Er & Ei & Nr & Sw' & E1 & E2). rewrite Ei. change (92 :: c :: (w ++ q :: f)) with ((92 :: c :: w) ++ q :: f). rewrite Er, <- !app_assoc, app_length.
    rewrite Er, app_length in L. assert (0 < length raw)%nat by (destruct raw; [tauto|cbn; lia]).
    specialize (IH w' (pre ++ raw) f (out ++ bs) Sw' ltac:(lia)). rewrite <- app_assoc, app_length in IH. rewrite Nat.add_assoc.
    destruct (unescape _ _ _ _ _ _) as [v|e j|]; [|destruct IH as [Lj IH]; split; [lia|]|exact IH].
    + destruct IH as (v' & -> & Hv). exists (bs ++ v'). split; [rewrite <- app_assoc; reflexivity|]. apply E1. exact Hv.
    + intros v Hv. destruct (E2 v Hv) as (v' & Hv' & _). exact (IH v' Hv').
  - inversion Sc as [|? ? N1 N2 N3 Sw|]; subst; [|congruence]. rewrite (snoc pre c), (snoc_len pre c). cbn [length] in *.
    specialize (IH w (pre ++ [c]) f (out ++ [c]) Sw ltac:(lia)). replace (length pre + S (length w))%nat with (length (pre ++ [c]) + length w)%nat by (rewrite app_length; cbn; lia).
    destruct (unescape _ _ _ _ _ _) as [v|e j|]; [|destruct IH as [Lj IH]; split; [rewrite app_length in Lj; cbn [length] in Lj; rewrite app_length; cbn [length]; lia|]|exact IH].
    + destruct IH as (v' & -> & Hv). exists (c :: v'). split; [rewrite <- app_assoc; reflexivity|]. apply l_char; auto.
    + intros v Hv. inversion Hv; subst; try congruence. eapply IH; eauto.
Qed.
Lemma literal_scanned q w v : quote q -> literal q w v -> scanned false q w.
Proof.
  intros Q. assert (Plain : forall a w, Forall (fun c => exists x, hex_digit c x) a -> scanned false q w -> scanned false q (a ++ w)).
  { intros a w0 F H. induction F as [|c a [x Hx] F IH]; [exact H|]. cbn [app]. unfold hex_digit in Hx. constructor; [|lia|lia|exact IH]. destruct Q as [->|[->| ->]]; lia. }
  induction 1 as [|c w v N1 N2 N3 H IH|c b w v He H IH|h l hv lv w v Hh Hl H IH|ds cp bs w v Hn Ln Vb H IH].
  - constructor.
  - constructor; auto.
  - apply sc_escape; [|exact IH]. intros _. destruct He as [He|[-> _]]; [cbn in He; intros ->; repeat (destruct He as [He|He]; [discriminate|]); exact He|destruct Q as [->|[->| ->]]; lia].
  - apply sc_escape; [lia|]. apply (Plain [h; l]); [constructor; [eauto|constructor; [eauto|constructor]]|exact IH].
  - apply sc_escape; [lia|]. constructor; [destruct Q as [->|[->| ->]]; lia|lia|lia|]. apply Plain; [eapply hex_digits; eauto|]. constructor; [destruct Q as [->|[->| ->]]; lia|lia|lia|exact IH].
Qed.
Lemma literal_len q w v : literal q w v -> (length v <= length w)%nat.
Proof.
  induction 1 as [|c w v N1 N2 N3 H IH|c b w v He H IH|h l hv lv w v Hh Hl H IH|ds cp bs w v Hn Ln Vb H IH]; cbn [length] in *; try lia.
  destruct (valid_utf8 _ _ Vb) as (_ & _ & L4). rewrite !app_length. cbn [length]. lia.
Qed.
Lemma literal_fun q w v : quote q -> literal q w v -> forall v', literal q w v' -> v = v'.
Proof.
  intros Q. induction 1 as [|c w v N1 N2 N3 H IH|c b w v He H IH|h l hv lv w v Hh Hl H IH|ds cp bs w v Hn Ln Vb H IH]; intros v' Hv'.
  - inversion Hv'. reflexivity.
  - inversion Hv' as [|? ? v1 ? ? ? Hv1| | |]; subst; try congruence. f_equal. apply IH. exact Hv1.
  - inversion Hv' as [|? ? v1 ? ? ? Hv1|? b1 ? v1 He1 Hv1|h1 l1 hv1 lv1 ? v1 Hh1 Hl1 Hv1|ds1 cp1 bs1 ? v1 Hn1 Ln1 Vb1 Hv1 E]; subst; try congruence.
    + apply simple_unique in He; auto. apply simple_unique in He1; auto. rewrite He in He1. injection He1 as ->. f_equal. auto.
    + apply simple_unique in He; auto. destruct Q as [->|[->| ->]]; discriminate.
    + apply simple_unique in He; auto. destruct Q as [->|[->| ->]]; discriminate.
  - inversion Hv' as [|? ? v1 ? ? ? Hv1|? b1 ? v1 He1 Hv1|h1 l1 hv1 lv1 ? v1 Hh1 Hl1 Hv1|ds1 cp1 bs1 ? v1 Hn1 Ln1 Vb1 Hv1 E]; subst; try congruence.
    + apply simple_unique in He1; auto. destruct Q as [->|[->| ->]]; discriminate.
    + rewrite (hex_digit_fun _ _ _ Hh Hh1), (hex_digit_fun _ _ _ Hl Hl1). f_equal. auto.
  - inversion Hv' as [|? ? v1 ? ? ? Hv1|? b1 ? v1 He1 Hv1|h1 l1 hv1 lv1 ? v1 Hh1 Hl1 Hv1|ds1 cp1 bs1 w1 v1 Hn1 Ln1 Vb1 Hv1 E]; subst; try congruence.
    + apply simple_unique in He1; auto. destruct Q as [->|[->| ->]]; discriminate.
    + destruct (brace_split _ _ _ _ _ _ Hn Hn1 (eq_sym E)) as [-> ->]. rewrite <- (hex_number_fun _ _ Hn _ Hn1) in Vb1. destruct (valid_utf8 _ _ Vb) as (<- & _). destruct (valid_utf8 _ _ Vb1) as (<- & _). f_equal. auto.
Qed.
Lemma scanned_plain q w : quote q -> scanned true q w -> existsb (Z.eqb 92) w = false -> literal q w w /\ forall v, literal q w v -> v = w.
Proof.
  intros Q Sc E. assert (H : literal q w w).
  { induction Sc as [|c w N1 N2 N3 Sc IH|c w N Sc IH]; [constructor| |discriminate]. cbn [existsb] in E. apply orb_false_iff in E as [_ E]. constructor; auto. }
  split; [exact H|]. intros v Hv. exact (literal_fun _ _ _ Q Hv _ H).
Qed.
Lemma scanned_unique q : quote q -> forall any w, scanned any q w -> forall any' w' f f', scanned any' q w' -> w ++ q :: f = w' ++ q :: f' -> w = w' /\ f = f'.
Proof.
  intros Q. assert (Nq : q <> 92) by (destruct Q as [->|[->| ->]]; lia). induction 1 as [|c w N1 N2 N3 Sc IH|c w N Sc IH]; intros any' w' f f' Sc' E; inversion Sc' as [|c' w'' M1 M2 M3 Sc''|c' w'' M Sc'']; subst; cbn [app] in E; try congruence.
  - injection E as ->. auto.
  - injection E as -> E. destruct (IH _ _ _ _ Sc'' E) as [-> ->]. auto.
  - injection E as -> E. destruct (IH _ _ _ _ Sc'' E) as [-> ->]. auto.
Qed.
(** A whole literal *)
Lemma string_ok q pre rest line lidx : quote q -> at_ pre line lidx ->
  match string_lit (pre ++ q :: rest) (length pre) (S (length pre)) q line lidx with
  | Ok (t, idx, line', lidx') => exists w v f, rest = w ++ q :: f /\ literal q w v /\ (q = 39 -> length v = 1%nat) /\ idx = length (pre ++ q :: w ++ [q]) /\ at_ (pre ++ q :: w ++ [q]) line' lidx' /\
      t = Tok (if q =? 39 then Char else Str) v (line_of pre) (col_of pre) (length (q :: w ++ [q]))
  | Fail _ i => (length pre <= i < length (pre ++ q :: rest))%nat /\ forall w v f, rest = w ++ q :: f -> literal q w v -> (q = 39 -> length v = 1%nat) -> False
  | Trap => False
  end.
Proof.
  intros Q A. assert (Aq : at_ (pre ++ [q]) line lidx) by (apply at_char; [destruct Q as [->|[->| ->]]; lia|exact A]).
  unfold string_lit. rewrite (snoc pre q), (snoc_len pre q).
  destruct (str_end_dec q (length pre) Q (S (length rest)) rest ltac:(lia)) as [(w & f & -> & Sc)|F].
  2: { destruct (F (S (length ((pre ++ [q]) ++ rest))) (pre ++ [q]) false line lidx) as [e ->].
    - rewrite !app_length. cbn. lia.
    - cbn [bindr]. split; [rewrite !app_length; cbn [length]; lia|]. intros w v f -> Hv _. apply literal_scanned in Hv; [|exact Q]. apply scanned_any in Hv.
      destruct (str_end_ok true q (length pre) Q w Hv (S (S (S (length (w ++ q :: f))))) (pre ++ [q]) f false line lidx) as (l1 & x1 & E & _); [rewrite app_length; lia|].
      destruct (F (S (S (S (length (w ++ q :: f))))) (pre ++ [q]) false line lidx) as [e' E']; [lia|]. congruence. }
  assert (Lf : (length w < S (length ((pre ++ [q]) ++ w ++ q :: f)))%nat) by (rewrite !app_length; lia).
  destruct (str_end_ok true q (length pre) Q w Sc _ (pre ++ [q]) f false line lidx Lf) as (l1 & x1 & E & _). rewrite E. cbn [bindr orb].
  assert (Uniq : forall w' v' f', w ++ q :: f = w' ++ q :: f' -> literal q w' v' -> w = w').
  { intros w' v' f' E' Hv'. destruct (scanned_unique q Q true w Sc false w' f f' (literal_scanned _ _ _ Q Hv') E'). assumption. }
  assert (Str : match (if existsb (Z.eqb 92) w then UNSAFE_unescapeStr ((pre ++ [q]) ++ w ++ q :: f) (length pre) (S (length (pre ++ [q]) + length w)) q
      else slice ((pre ++ [q]) ++ w ++ q :: f) (length (pre ++ [q])) (S (length (pre ++ [q]) + length w) - 1)) with
    | Ok v => literal q w v | Fail _ i => (length pre <= i < length (pre ++ [q]) + length w)%nat /\ forall v, ~ literal q w v | Trap => False end).
  { replace (S (length (pre ++ [q]) + length w) - 1)%nat with (length (pre ++ [q]) + length w)%nat by lia. destruct (existsb (Z.eqb 92) w) eqn:Eb.
    - unfold UNSAFE_unescapeStr. rewrite (snoc_len pre q). replace (S (length (pre ++ [q]) + length w) - 1)%nat with (length (pre ++ [q]) + length w)%nat by lia.
      pose proof (unescape_ok q Q (S (length ((pre ++ [q]) ++ w ++ q :: f))) w (pre ++ [q]) f [] Sc Lf) as U.
      destruct (unescape _ _ _ _ _ _) as [v|e i|]; [destruct U as (v' & -> & U); exact U|destruct U as [Li U]; split; [rewrite app_length in *; cbn [length] in *; lia|exact U]|exact U].
    - rewrite slice_mid. apply scanned_plain; auto. }
  destruct (if existsb (Z.eqb 92) w then _ else _) as [v|e i|]; cbn [bindr]; [|split; [rewrite !app_length in *; cbn [length] in *; lia|]; intros w' v' f' E' Hv' _; rewrite <- (Uniq _ _ _ E' Hv') in Hv'; exact (proj2 Str _ Hv')|exact Str].
  destruct ((q =? 39) && negb (length v =? 1)%nat) eqn:Ec.
  { apply andb_true_iff in Ec as [E1 E2]. split; [rewrite !app_length; cbn [length]; lia|]. intros w' v' f' E' Hv' Hl. rewrite <- (Uniq _ _ _ E' Hv') in Hv'. rewrite <- (literal_fun _ _ _ Q Str _ Hv') in Hl. apply Z.eqb_eq in E1. rewrite (Hl E1) in E2. discriminate. }
  pose proof (token_ok (if q =? 39 then Char else LexerModel.Str) v pre (q :: w ++ [q]) line lidx A) as T. unfold token_at in T.
  replace (S (length (pre ++ [q]) + length w)) with (length pre + length (q :: w ++ [q]))%nat by (rewrite app_length; cbn [length]; rewrite app_length; cbn [length]; lia).
  replace (Z.of_nat (length (pre ++ [q])) - lidx - 1) with (Z.of_nat (length pre) - lidx) by (rewrite app_length; cbn [length]; lia).
  rewrite T by (apply literal_len in Str; cbn [length]; rewrite app_length; cbn [length]; lia). cbn [bindr].
  exists w, v, f. split; [reflexivity|]. split; [exact Str|]. split; [intros ->; cbn in Ec; apply negb_false_iff, Nat.eqb_eq in Ec; exact Ec|]. split; [rewrite app_length; reflexivity|]. split; [|reflexivity].
  destruct (str_end_ok false q (length pre) Q w (literal_scanned _ _ _ Q Str) _ (pre ++ [q]) f false line lidx Lf) as (l2 & x2 & E2 & A2). rewrite E2 in E. injection E as <- <-.
  replace (pre ++ q :: w ++ [q]) with ((pre ++ [q]) ++ w ++ [q]) by (rewrite <- app_assoc; reflexivity). apply A2; auto.
Qed.
