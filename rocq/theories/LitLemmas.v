From Coq Require Import String List ZArith Bool Lia.
From Verif Require Import Words IntlitModel IntlitSpec IntlitProps LexerSpec LitSpec LitModel.
Import ListNotations.
Notation length := List.length.
Open Scope Z_scope.

(** ** Strings *)
Lemma hex_hex x : 0 <= x < 16 -> hex_value (hex x) = Some x.
Proof.
  intros H. unfold hex, hex_value. destruct (Z.ltb_spec x 10).
  - replace ((48 <=? 48 + x) && (48 + x <=? 57)) with true by (symmetry; apply andb_true_iff; lia). f_equal; lia.
  - replace ((48 <=? 65 + (x - 10)) && (65 + (x - 10) <=? 57)) with false by (symmetry; apply andb_false_iff; lia).
    replace ((97 <=? 65 + (x - 10)) && (65 + (x - 10) <=? 102)) with false by (symmetry; apply andb_false_iff; lia).
    replace ((65 <=? 65 + (x - 10)) && (65 + (x - 10) <=? 70)) with true by (symmetry; apply andb_true_iff; lia). f_equal; lia.
Qed.
Lemma nibbles c : 0 <= c < 256 -> 0 <= Z.land (Z.shiftr c 4) 15 < 16 /\ 0 <= Z.land c 15 < 16 /\ 16 * Z.land (Z.shiftr c 4) 15 + Z.land c 15 = c.
Proof.
  intros H. change 15 with (Z.ones 4). rewrite !Z.land_ones by lia. rewrite Z.shiftr_div_pow2 by lia. change (2 ^ 4) with 16.
  rewrite (Z.mod_small (c / 16) 16) by (split; [apply Z.div_pos; lia|apply Z.div_lt_upper_bound; lia]).
  pose proof (Z.div_mod c 16). pose proof (Z.mod_pos_bound c 16). pose proof (Z.div_pos c 16). pose proof (Z.div_lt_upper_bound c 16 16). lia.
Qed.
(** The reader inside, one character further. *)
Definition go_on (q c : Z) (t : list Z) : option (list Z * list Z) :=
  if c =? q then cpp_quoted q Outside t
  else if c =? 92 then cpp_quoted q Backslash t
  else if (c =? 10) || (c =? 13) then None
  else emit c (cpp_quoted q Inside t).
Lemma read_inside q c t : cpp_quoted q Inside (c :: t) = go_on q c t.
Proof. reflexivity. Qed.
Lemma read_hex q n c t : hex_value c = None -> 0 <= n <= 255 -> cpp_quoted q (HexEsc (Some n)) (c :: t) = emit n (go_on q c t).
Proof. intros H N. cbn. rewrite H. replace (n <=? 255) with true by (symmetry; apply Z.leb_le; lia). reflexivity. Qed.
Lemma read_xHH q c t : 0 <= c < 256 -> cpp_quoted q Backslash (xHH c ++ t) = cpp_quoted q (HexEsc (Some c)) t.
Proof.
  intros H. destruct (nibbles c H) as (A & B & E). unfold xHH. cbn -[hex hex_value Z.land Z.shiftr Z.mul Z.add].
  rewrite !hex_hex by assumption. cbn -[Z.mul Z.add Z.land Z.shiftr]. rewrite Z.mul_0_r, Z.add_0_l, E. reflexivity.
Qed.
Definition is_hex_next (n : Z) : bool := (97 <=? n) && (n <=? 102) || (65 <=? n) && (n <=? 70) || (48 <=? n) && (n <=? 70).
Lemma not_hex n : is_hex_next n = false -> hex_value n = None.
Proof.
  unfold is_hex_next, hex_value. rewrite !orb_false_iff. intros [[A B] C].
  replace ((48 <=? n) && (n <=? 57)) with false.
  - now rewrite A, B.
  - symmetry. apply andb_false_iff. apply andb_false_iff in C. destruct C as [C|C]; [left; exact C|right]. apply Z.leb_gt in C. apply Z.leb_gt. lia.
Qed.

Lemma escape_ok q : q = 34 \/ q = 39 -> forall str rest, Forall (fun c => 0 <= c < 256) str ->
  q = 34 \/ (length str <= 1)%nat -> (q = 34 -> ~ starts (fun c => c = 34) rest) ->
  cpp_quoted q Inside (escape_loop q str ++ q :: rest) = Some (str, rest).
Proof.
  intros Q str rest F. induction str as [|c str IH]; intros L R.
  - cbn [escape_loop app]. rewrite read_inside. unfold go_on. rewrite Z.eqb_refl. destruct rest as [|r rest]; [reflexivity|]. cbn [cpp_quoted].
    replace ((r =? 34) && (q =? 34)) with false; [reflexivity|]. symmetry. apply andb_false_iff.
    destruct (Z.eqb_spec q 34); [left|now right]. apply Z.eqb_neq. intros ->. apply R; auto. reflexivity.
  - inversion F as [|? ? Hc Hs]; subst. assert (L' : q = 34 \/ (length str <= 1)%nat) by (cbn in L; destruct L; [auto|right; lia]).
    specialize (IH Hs L' R). cbn [escape_loop]. rewrite <- app_assoc.
    destruct (Z.eqb_spec c 10) as [->|N10]; [cbn [app]; destruct Q as [->| ->]; cbn; cbn in IH; rewrite IH; reflexivity|].
    destruct (Z.eqb_spec c 13) as [->|N13]; [cbn [app]; destruct Q as [->| ->]; cbn; cbn in IH; rewrite IH; reflexivity|].
    destruct (Z.eqb_spec c 9) as [->|N9]; [cbn [app]; destruct Q as [->| ->]; cbn; cbn in IH; rewrite IH; reflexivity|].
    destruct (Z.eqb_spec c 11) as [->|N11]; [cbn [app]; destruct Q as [->| ->]; cbn; cbn in IH; rewrite IH; reflexivity|].
    destruct (Z.eqb_spec c 92) as [->|N92]; [cbn [app]; destruct Q as [->| ->]; cbn; cbn in IH; rewrite IH; reflexivity|].
    destruct (as_i8 c <? 32).
    + cbn [app]. rewrite read_inside. unfold go_on. replace (92 =? q) with false by (symmetry; apply Z.eqb_neq; lia). change (92 =? 92) with true. cbv iota.
      rewrite <- app_assoc. rewrite read_xHH by assumption.
      (* what comes next is not a hexadecimal digit *)
      assert (K : forall x t, hex_value x = None -> cpp_quoted q Inside (x :: t) = Some (str, rest) ->
                              cpp_quoted q (HexEsc (Some c)) (x :: t) = Some (c :: str, rest)).
      { intros x t Hx E. rewrite read_hex by (auto; lia). rewrite read_inside in E. rewrite E. reflexivity. }
      destruct str as [|next str].
      * cbn [app escape_loop]. apply K; [destruct Q as [->| ->]; reflexivity|exact IH].
      * cbn [length] in L. destruct L as [->|L]; [|lia]. change (34 =? 34) with true. cbn [andb]. fold (is_hex_next next).
        destruct (is_hex_next next) eqn:HN.
        -- cbn [app]. rewrite read_hex by (try reflexivity; lia). unfold go_on. change (34 =? 34) with true. cbv iota.
           change (cpp_quoted 34 Outside (34 :: (escape_loop 34 (next :: str) ++ 34 :: rest))) with (cpp_quoted 34 Inside (escape_loop 34 (next :: str) ++ 34 :: rest)).
           rewrite IH. reflexivity.
        -- apply not_hex in HN. cbn [app]. revert IH K. cbn [escape_loop].
           destruct (next =? 10); [intros IH K; apply K; [reflexivity|exact IH]|].
           destruct (next =? 13); [intros IH K; apply K; [reflexivity|exact IH]|].
           destruct (next =? 9); [intros IH K; apply K; [reflexivity|exact IH]|].
           destruct (next =? 11); [intros IH K; apply K; [reflexivity|exact IH]|].
           destruct (next =? 92); [intros IH K; apply K; [reflexivity|exact IH]|].
           destruct (as_i8 next <? 32); [intros IH K; apply K; [reflexivity|exact IH]|].
           destruct (next =? 34); [intros IH K; apply K; [reflexivity|exact IH]|].
           intros IH K; apply K; [exact HN|exact IH].
    + destruct (Z.eqb_spec c q) as [->|Nq].
      * cbn [app]. rewrite read_inside. unfold go_on. replace (92 =? q) with false by (symmetry; apply Z.eqb_neq; lia). change (92 =? 92) with true. cbv iota.
        destruct Q as [->| ->]; cbn; cbn in IH; rewrite IH; reflexivity.
      * cbn [app]. rewrite read_inside. unfold go_on.
        apply Z.eqb_neq in Nq, N92, N10, N13. rewrite Nq, N92, N10, N13. cbn [orb]. rewrite IH. reflexivity.
Qed.

(** ** Integers *)
Definition digits (b : Z) (ds : list Z) : Prop := Forall (fun c => is_digit b c = true) ds.
Definition bare (t : list Z) : list Z := filter (fun c => negb (c =? 95)) t.
Lemma digit_range b c : b <= 16 -> is_digit b c = true -> (48 <= c <= 57 \/ 97 <= c <= 102) /\ (b <= 10 -> 48 <= c <= 57) /\ (b <= 8 -> c <= 55) /\ (b <= 2 -> c <= 49).
Proof.
  unfold is_digit, digit_of. intros B. destruct ((48 <=? c) && (c <=? 57)) eqn:A.
  - apply andb_true_iff in A. rewrite !Z.leb_le in A. intros H; apply Z.ltb_lt in H. lia.
  - destruct ((97 <=? c) && (c <=? 122)) eqn:A2; [|discriminate]. apply andb_true_iff in A2. rewrite !Z.leb_le in A2. intros H; apply Z.ltb_lt in H. lia.
Qed.
Lemma digit_mono b b' c : b <= b' -> is_digit b c = true -> is_digit b' c = true.
Proof. unfold is_digit. destruct (digit_of c); [|discriminate]. rewrite !Z.ltb_lt. lia. Qed.
Lemma value_snoc b ds c d : digit_of c = Some d -> value_of b (ds ++ [c]) = value_of b ds * b + d.
Proof. intros E. unfold value_of. rewrite fold_left_app. cbn. now rewrite E. Qed.
Lemma denotes_bare b body n : denotes b body n -> digits b (bare body) /\ value_of b (bare body) = n /\ Forall (fun c => c = 95 \/ is_digit b c = true) body.
Proof.
  induction 1 as [|s n H (I1 & I2 & I3)|s n c d H (I1 & I2 & I3) E L]; [repeat split; constructor|..]; unfold bare, digits in *; rewrite filter_app; cbn.
  - rewrite app_nil_r. repeat split; auto. apply Forall_app. auto.
  - assert (D : is_digit b c = true) by (unfold is_digit; rewrite E; now apply Z.ltb_lt).
    assert (c <> 95). { intros ->. discriminate E. }
    replace (c =? 95) with false by (symmetry; now apply Z.eqb_neq). cbn. repeat split.
    + apply Forall_app. auto.
    + rewrite (value_snoc b _ c d E). now rewrite I2.
    + apply Forall_app. auto.
Qed.
Lemma digits_denote b ds : digits b ds -> denotes b ds (value_of b ds).
Proof.
  induction ds as [|c ds IH] using rev_ind; intros D; [constructor|]. apply Forall_app in D. destruct D as [D1 D2]. apply Forall_inv in D2.
  unfold is_digit in D2. destruct (digit_of c) eqn:E; [|discriminate]. apply Z.ltb_lt in D2. rewrite (value_snoc b ds c z E). econstructor; eauto.
Qed.
Lemma digits_bare b ds : digits b ds -> bare ds = ds.
Proof.
  induction 1 as [|c ds D F IH]; [reflexivity|]. unfold bare in *. cbn. replace (c =? 95) with false; [cbn; now rewrite IH|].
  symmetry. apply Z.eqb_neq. intros ->. discriminate D.
Qed.
Lemma value_bounds b ds : 2 <= b <= 16 -> digits b ds -> 0 <= value_of b ds < 16 ^ Z.of_nat (length ds).
Proof.
  intros B. induction ds as [|c ds IH] using rev_ind; intros D; [cbn; lia|]. apply Forall_app in D. destruct D as [D1 D2]. apply Forall_inv in D2.
  unfold is_digit in D2. destruct (digit_of c) eqn:E; [|discriminate]. apply Z.ltb_lt in D2. rewrite (value_snoc b ds c z E). specialize (IH D1).
  assert (0 <= z). { unfold digit_of in E. destruct ((48 <=? c) && (c <=? 57)) eqn:A; [apply andb_true_iff in A; rewrite !Z.leb_le in A; injection E; lia|].
    destruct ((97 <=? c) && (c <=? 122)) eqn:A2; [|discriminate]. apply andb_true_iff in A2. rewrite !Z.leb_le in A2. injection E; lia. }
  rewrite app_length, Nat2Z.inj_add. cbn [length]. rewrite Z.pow_add_r by lia. change (16 ^ Z.of_nat 1) with 16. nia.
Qed.

(** Reading. *)
Lemma span_ok P ds rest : Forall (fun c => P c = true) ds -> (forall c t, rest = c :: t -> P c = false) -> span P (ds ++ rest) = (ds, rest).
Proof.
  induction 1 as [|c ds D F IH]; intros R; cbn.
  - destruct rest; [reflexivity|]. cbn. now rewrite (R z rest eq_refl).
  - now rewrite D, (IH R).
Qed.
Definition suffix_text (u l : bool) : list Z := (if u then text "u" else []) ++ (if l then text "ll" else []).
Lemma suffix_ok u l : suffix (suffix_text u l) = Some (u, l).
Proof. destruct u, l; reflexivity. Qed.
Lemma suffix_stops b u l c t : b <= 16 -> suffix_text u l = c :: t -> is_digit b c = false.
Proof.
  intros B E. destruct (is_digit b c) eqn:D; [|reflexivity]. destruct (digit_range b c B D) as [R _].
  destruct u, l; cbn in E; try discriminate; injection E as <- _; lia.
Qed.
Lemma int_literal_ok b dec ds u l : b <= 16 -> digits b ds -> ds <> [] ->
  int_literal b dec (ds ++ suffix_text u l) =
  match List.find (fun p => fits p (value_of b ds)) (candidates dec u l) with Some p => Some (p, value_of b ds) | None => None end.
Proof.
  intros B D N. unfold int_literal. rewrite (span_ok _ ds); auto.
  - destruct ds as [|c ds]; [congruence|]. now rewrite suffix_ok.
  - intros c t E. eapply suffix_stops; eauto.
Qed.
(** The prefix in C++ *)
Definition cpp_prefix (r : radix) : list Z := match r with Hex => text "0x" | Bin => text "0b" | Oct => text "0" | Dec => [] end.
Lemma strip2 a b t : strip [a; b] t = match t with c :: d :: t' => if a =? c then (if b =? d then Some t' else None) else None | c :: [] => None | [] => None end.
Proof. destruct t as [|c [|d t]]; cbn; [reflexivity|now destruct (a =? c)|reflexivity]. Qed.
Lemma no_prefix x ds u l : digits 10 ds -> x = 120 \/ x = 98 -> strip [48; x] (ds ++ suffix_text u l) = None.
Proof.
  intros D X. rewrite strip2. destruct ds as [|c [|d ds]]; cbn [app].
  - destruct u, l; cbn; reflexivity.
  - destruct (suffix_text u l) as [|d s] eqn:S; [reflexivity|].
    assert (d = 117 \/ d = 108) by (destruct u, l; cbn in S; try discriminate; injection S; intros; subst; auto).
    replace (x =? d) with false by (symmetry; apply Z.eqb_neq; lia). now destruct (48 =? c).
  - inversion D as [|? ? D1 D2]; subst. apply Forall_inv in D2. destruct (digit_range 10 d ltac:(lia) D2) as (_ & R & _).
    replace (x =? d) with false by (symmetry; apply Z.eqb_neq; lia). now destruct (48 =? c).
Qed.
Lemma no_dot u l : strip (text ".") (suffix_text u l) = None.
Proof. destruct u, l; reflexivity. Qed.
(** A literal as it should be: the octal prefix is 0, and a decimal one does not begin with 0. *)
Lemma cpp_literal_ok r ds u l : digits (radix_base r) ds -> ds <> [] -> (r = Dec -> nth 0 ds 0 = 48 -> ds = [48]) ->
  exists dec, (r = Dec -> value_of 10 ds <> 0 -> dec = true) /\
  cpp_literal (cpp_prefix r ++ ds ++ suffix_text u l) =
  match List.find (fun p => fits p (value_of (radix_base r) ds)) (candidates dec u l) with Some p => Some (p, value_of (radix_base r) ds) | None => None end.
Proof.
  intros D N HZ. destruct r; cbn [radix_base cpp_prefix] in *.
  - exists false. split; [discriminate|]. unfold cpp_literal. change (text "0x" ++ ds ++ suffix_text u l) with (48 :: 120 :: ds ++ suffix_text u l).
    change (strip (text "0x") (48 :: 120 :: ds ++ suffix_text u l)) with (Some (ds ++ suffix_text u l)). cbv iota beta. apply int_literal_ok; auto; lia.
  - exists false. split; [discriminate|].
    assert (D' : digits 8 (48 :: ds)) by (constructor; auto).
    assert (D10 : digits 10 (48 :: ds)). { eapply Forall_impl; [|exact D']. intros c. apply digit_mono. lia. }
    unfold cpp_literal. change (text "0" ++ ds ++ suffix_text u l) with ((48 :: ds) ++ suffix_text u l).
    change (text "0x") with [48; 120]. change (text "0b") with [48; 98]. rewrite !no_prefix by auto.
    rewrite (span_ok _ (48 :: ds)); [|exact D10|intros c t E; eapply suffix_stops; eauto; lia].
    rewrite no_dot. change (strip (text "0") ((48 :: ds) ++ suffix_text u l)) with (Some (ds ++ suffix_text u l)). cbv iota.
    rewrite int_literal_ok by (auto; lia || congruence). reflexivity.
  - exists false. split; [discriminate|]. unfold cpp_literal. change (text "0b" ++ ds ++ suffix_text u l) with (48 :: 98 :: ds ++ suffix_text u l).
    change (strip (text "0x") (48 :: 98 :: ds ++ suffix_text u l)) with (@None (list Z)).
    change (strip (text "0b") (48 :: 98 :: ds ++ suffix_text u l)) with (Some (ds ++ suffix_text u l)). cbv iota beta. apply int_literal_ok; auto; lia.
  - specialize (HZ eq_refl). destruct ds as [|c ds]; [congruence|]. cbn [nth] in HZ. cbn [app].
    unfold cpp_literal. change (c :: ds ++ suffix_text u l) with ((c :: ds) ++ suffix_text u l).
    change (text "0x") with [48; 120]. change (text "0b") with [48; 98]. rewrite !no_prefix by auto.
    rewrite (span_ok _ (c :: ds)); [|exact D|intros c' t E; eapply suffix_stops; eauto; lia]. rewrite no_dot.
    destruct (Z.eqb_spec c 48) as [->|Nc].
    + specialize (HZ eq_refl). injection HZ as ->. exists false. split; [intros _ H; cbn in H; congruence|].
      change (strip (text "0") ([48] ++ suffix_text u l)) with (Some (suffix_text u l)). cbv iota.
      rewrite int_literal_ok by (lia || congruence || (repeat constructor)). reflexivity.
    + exists true. split; [auto|]. change (strip (text "0") ((c :: ds) ++ suffix_text u l)) with (if 48 =? c then Some (ds ++ suffix_text u l) else None).
      replace (48 =? c) with false by (symmetry; apply Z.eqb_neq; lia). rewrite int_literal_ok by (auto; lia). reflexivity.
Qed.

(** The types. *)
Definition signed_value (L : intlit) : Z := if is_negative L then - absval L else absval L.
Lemma solve_fits h L p text_ : intlit_parse text_ = Some L -> is_signed L = is_negative L -> solve_int h L = Some p ->
  fits p (signed_value L) = true /\ (is_u p = true -> is_negative L = false) /\ (p = F32 -> Z.abs (signed_value L) < 2 ^ 24).
Proof.
  intros E S H. destruct (literal_widths_are_least text_ L E) as (A & B & C & F). fold (signed_value L) in *.
  assert (FI : forall b, (b = 8 \/ b = 16 \/ b = 32 \/ b = 64) -> minsize_i L <= b -> fits_signed b (signed_value L)).
  { intros b Hb Hm. destruct (minsize_i L =? 128) eqn:Q; [apply Z.eqb_eq in Q; lia|]. destruct A as (A1 & A2 & A3).
    unfold fits_signed in *. assert (2 ^ (minsize_i L - 1) <= 2 ^ (b - 1)) by (apply Z.pow_le_mono_r; lia). lia. }
  assert (FU : forall b, (b = 8 \/ b = 16 \/ b = 32 \/ b = 64) -> minsize_u L <= b -> is_negative L = false /\ fits_unsigned b (signed_value L)).
  { intros b Hb Hm. destruct (is_negative L) eqn:Q; [rewrite C in Hm by auto; lia|]. split; auto. destruct (B eq_refl) as (A1 & A2 & A3).
    unfold fits_unsigned in *. assert (2 ^ (minsize_u L) <= 2 ^ b) by (apply Z.pow_le_mono_r; lia). lia. }
  unfold fits_signed, fits_unsigned in *. cbn in FI, FU.
  assert (I_ : forall b q, (b = 8 \/ b = 16 \/ b = 32 \/ b = 64) -> (q = I8 /\ b = 8 \/ q = I16 /\ b = 16 \/ q = I32 /\ b = 32 \/ q = I64 /\ b = 64) ->
    minsize_i L <= b -> fits q (signed_value L) = true /\ (is_u q = true -> is_negative L = false) /\ (q = F32 -> Z.abs (signed_value L) < 2 ^ 24)).
  { intros b q Hb Hq Hm. specialize (FI b Hb Hm). destruct Hq as [[-> ->]|[[-> ->]|[[-> ->]|[-> ->]]]]; cbn in FI |- *;
      (split; [apply andb_true_iff; rewrite Z.leb_le, Z.ltb_lt; lia|split; intros; discriminate]). }
  assert (U_ : forall b q, (b = 8 \/ b = 16 \/ b = 32 \/ b = 64) -> (q = U8 /\ b = 8 \/ q = U16 /\ b = 16 \/ q = U32 /\ b = 32 \/ q = U64 /\ b = 64) ->
    minsize_u L <= b -> fits q (signed_value L) = true /\ (is_u q = true -> is_negative L = false) /\ (q = F32 -> Z.abs (signed_value L) < 2 ^ 24)).
  { intros b q Hb Hq Hm. destruct (FU b Hb Hm) as [FN FV]. destruct Hq as [[-> ->]|[[-> ->]|[[-> ->]|[-> ->]]]]; cbn in FV |- *;
      (split; [apply andb_true_iff; rewrite Z.leb_le, Z.ltb_lt; lia|split; intros; auto; discriminate]). }
  assert (MF : minsize_f L = 32 \/ minsize_f L = 64).
  { clear - E. unfold intlit_parse in E. destruct (nth_error text_ 0); [|discriminate]. cbn [obind] in E. cbv zeta in E.
    destruct (digits_loop _ _ 0 None) as [a e]. injection E as <-. unfold intlit_of. cbn. destruct (a <? 16777216); auto. }
  unfold solve_int in H.
  match type of H with (if ?c then _ else _) = _ => destruct c eqn:C1 end.
  { subst h. apply andb_true_iff in C1. destruct C1 as [_ C1].
    destruct p; cbn in C1; rewrite ?andb_false_r, ?andb_true_r, ?orb_false_r in C1; cbn in C1; try discriminate; apply Z.leb_le in C1.
    - apply (I_ 8); auto; lia.
    - apply (I_ 16); auto; lia.
    - apply (I_ 32); auto 6; lia.
    - apply (I_ 64); auto 6; lia.
    - split; [reflexivity|]. split; [discriminate|]. intros _. apply F. lia.
    - split; [reflexivity|]. split; discriminate. }
  match type of H with (if ?c then _ else _) = _ => destruct c eqn:C2 end.
  { subst h. apply andb_true_iff in C2. destruct C2 as [_ C2].
    destruct p; cbn in C2; rewrite ?andb_false_r, ?andb_true_r, ?orb_false_r in C2; cbn in C2; try discriminate; apply Z.leb_le in C2.
    - apply (U_ 8); auto; lia.
    - apply (U_ 16); auto; lia.
    - apply (U_ 32); auto 6; lia.
    - apply (U_ 64); auto 6; lia. }
  match type of H with (if ?c then _ else _) = _ => destruct c eqn:C3 end.
  - destruct (minsize_u L <=? 32) eqn:Q1; [apply Z.leb_le in Q1; injection H as <-; apply (U_ 32); auto 6; lia|].
    destruct (minsize_u L <=? 64) eqn:Q2; [apply Z.leb_le in Q2; injection H as <-; apply (U_ 64); auto 6; lia|discriminate].
  - destruct (minsize_i L <=? 32) eqn:Q1; [apply Z.leb_le in Q1; injection H as <-; apply (I_ 32); auto 6; lia|].
    destruct (minsize_i L <=? 64) eqn:Q2; [apply Z.leb_le in Q2; injection H as <-; apply (I_ 64); auto 6; lia|discriminate].
Qed.

(** What the lexer gives reads as what it is. *)
Lemma token_reads s r body n : denotes (radix_base r) body n -> int_token r body -> reads_as s r body false /\ word_chars body /\ IntlitSpec.literal s r body false <> [].
Proof.
  intros D [T1 T2]. destruct (denotes_bare _ _ _ D) as (_ & _ & F). assert (B : radix_base r <= 16) by (destruct r; cbn; lia).
  assert (CH : forall c, In c body -> c = 95 \/ 48 <= c <= 57 \/ 97 <= c <= 102 /\ r = Hex).
  { intros c I. rewrite Forall_forall in F. destruct (F c I) as [|G]; auto. right. destruct (digit_range _ c B G) as (R1 & R2 & _).
    destruct r; cbn in R2; auto; try (left; apply R2; lia). tauto. }
  split; [|split].
  - unfold reads_as. rewrite app_nil_r. split; [|split].
    + intros _ c t E. destruct r; cbn in E; try (injection E; intros; lia). destruct (T1 eq_refl) as (Nb & D0 & _).
      subst body. cbn in D0. destruct (digit_range 10 c ltac:(lia) D0) as (_ & R & _). lia.
    + intros -> p t E. assert (I : In p body) by (rewrite E; cbn; auto). destruct (CH p I) as [|[|[? Q]]]; [lia|lia|discriminate].
    + intros _ t E. assert (I : In 117 body) by (rewrite E; apply in_or_app; cbn; auto). destruct (CH _ I) as [|[|[? Q]]]; lia.
  - apply Forall_forall. intros c I. unfold byte. destruct (CH c I) as [|[|[? Q]]]; lia.
  - unfold IntlitSpec.literal. destruct body; [cbn in T2; discriminate|]. destruct s, r; discriminate.
Qed.
Lemma token_value s r body n L : denotes (radix_base r) body n -> int_token r body -> intlit_parse (IntlitSpec.literal s r body false) = Some L -> err L = None ->
  absval L = n /\ is_negative L = match s with Minus => true | _ => false end /\ n < 2 ^ 64 /\ (s = Minus -> n <= 2 ^ 63) /\
  is_unsigned L = false /\ base L = radix_base r.
Proof.
  intros D T E N. destruct (token_reads s r body n D T) as (R & W & NE). destruct (literal_value_is_exact s r body false R W NE) as (L' & E' & A & B & C & U & BB).
  rewrite E in E'. injection E' as <-. destruct (B N) as [B1 B2]. destruct (proj1 A N) as (m & M1 & M2 & M3 & M4).
  destruct (denotes_bare _ _ _ D) as (_ & V & _). destruct (denotes_bare _ _ _ B1) as (_ & V1 & _). destruct (denotes_bare _ _ _ M1) as (_ & V2 & _).
  repeat split; auto; try congruence; try lia; intros Q; specialize (M4 Q); lia.
Qed.
Lemma parse_signed t L : intlit_parse t = Some L -> is_signed L = is_negative L /\ (is_negative L = true -> exists t', t = 45 :: t').
Proof.
  unfold intlit_parse. destruct t as [|c t]; [discriminate|]. cbn [nth_error obind]. cbv zeta. destruct (digits_loop _ _ 0 None) as [a e]. intros [= <-]. cbn.
  set (x := last _ 0). split.
  - destruct (Z.eqb_spec x 117); [|cbn; now rewrite orb_false_r]. rewrite e0. cbn. now rewrite orb_false_r.
  - intros H. apply andb_true_iff in H. destruct H as [_ H]. apply Z.eqb_eq in H. subst. eauto.
Qed.

(** The text of an integer. *)
Lemma has_app c a b : has c (a ++ b) = has c a || has c b.
Proof. apply existsb_app. Qed.
Lemma has_digits b c ds : b <= 16 -> digits b ds -> (c < 48 \/ 57 < c < 97 \/ 102 < c) -> has c ds = false.
Proof.
  intros B D C. induction D as [|x ds Dx F IH]; [reflexivity|]. unfold has in *. cbn [existsb]. rewrite IH, orb_false_r.
  destruct (digit_range b x B Dx) as [R _]. apply Z.eqb_neq. lia.
Qed.
Lemma bare_literal s r body : bare (IntlitSpec.literal s r body false) = sign_text s ++ radix_text r ++ bare body.
Proof. unfold bare, IntlitSpec.literal. rewrite !filter_app. cbn. rewrite app_nil_r. destruct s, r; reflexivity. Qed.
Lemma has_text s r ds c : digits (radix_base r) ds -> c = 117 \/ c = 108 \/ c = 46 -> has c (sign_text s ++ radix_text r ++ ds) = false.
Proof.
  intros D C. rewrite !has_app, (has_digits (radix_base r) c ds); auto; [|destruct r; cbn; lia|lia].
  destruct C as [->|[->| ->]]; destruct s, r; reflexivity.
Qed.
Definition octal_signed (s : sign) (r : radix) : bool := match s, r with NoSign, _ => false | _, Oct => true | _, _ => false end.
Lemma strip_octal s r ds rest : octal_signed s r = false -> digits (radix_base r) ds -> (r = Dec -> ds <> []) ->
  match strip (text "0o") (sign_text s ++ radix_text r ++ ds ++ rest) with Some t => 48 :: t | None => sign_text s ++ radix_text r ++ ds ++ rest end
  = sign_text s ++ cpp_prefix r ++ ds ++ rest \/ (exists t, rest = 111 :: t) /\ r = Dec.
Proof.
  intros O D N. change (text "0o") with [48; 111].
  destruct s, r; cbn in O; try discriminate; try (left; reflexivity).
  destruct ds as [|c ds]; [now destruct (N eq_refl)|]. cbn [sign_text radix_text app cpp_prefix]. rewrite strip2.
  destruct ds as [|d ds]; cbn [app].
  - destruct rest as [|x rest]; [left; reflexivity|]. destruct (Z.eqb_spec 111 x) as [<-|]; [right; split; eauto|]. left. now destruct (48 =? c).
  - inversion D as [|? ? D1 D2]; subst. apply Forall_inv in D2. destruct (digit_range 10 d ltac:(cbn; lia) D2) as (_ & R & _).
    replace (111 =? d) with false by (symmetry; apply Z.eqb_neq; lia). left. now destruct (48 =? c).
Qed.

Lemma head_digit r ds rest : digits (radix_base r) ds -> ds <> [] -> exists c t, cpp_prefix r ++ ds ++ rest = c :: t /\ (48 <= c <= 57).
Proof.
  intros D N. destruct r; try (cbn; eexists _, _; split; [reflexivity|lia]).
  destruct ds as [|c ds]; [congruence|]. apply Forall_inv in D. destruct (digit_range 10 c ltac:(lia) D) as (_ & R & _).
  cbn. eexists _, _. split; [reflexivity|lia].
Qed.
Definition negate (x : option (prim * Z)) : option (prim * Z) :=
  match x with Some (p, v) => Some (p, match p with U32 | U64 => convert p (- v) | _ => - v end) | None => None end.
Lemma unary_ok s c t : 48 <= c <= 57 -> cpp_unary (sign_text s ++ c :: t) = match s with Minus => negate (cpp_literal (c :: t)) | _ => cpp_literal (c :: t) end.
Proof.
  intros C. destruct s; try reflexivity. unfold cpp_unary. cbn [sign_text app].
  change (strip (text "-") (c :: t)) with (if 45 =? c then Some t else None). change (strip (text "+") (c :: t)) with (if 43 =? c then Some t else None).
  replace (45 =? c) with false by (symmetry; apply Z.eqb_neq; lia). replace (43 =? c) with false by (symmetry; apply Z.eqb_neq; lia). reflexivity.
Qed.
Lemma expr_unary c t : 43 <= c <= 57 -> cpp_expr (c :: t) = cpp_unary (c :: t).
Proof.
  intros C. unfold cpp_expr.
  assert (S : strip_cast cast_names (c :: t) = None).
  { assert (K : forall a w, a = 102 \/ a = 115 \/ a = 117 -> strip (a :: w) (c :: t) = None).
    { intros a w A. cbn [strip]. replace (a =? c) with false; [reflexivity|]. symmetry. apply Z.eqb_neq. lia. }
    unfold cast_names. cbn [strip_cast].
    change (text "fu::i8" ++ text "(") with (102 :: text "u::i8(").
    change (text "short" ++ text "(") with (115 :: text "hort(").
    change (text "fu::u8" ++ text "(") with (102 :: text "u::u8(").
    change (text "uint16_t" ++ text "(") with (117 :: text "int16_t(").
    change (text "float" ++ text "(") with (102 :: text "loat("). rewrite !K by auto. reflexivity. }
  rewrite S. destruct (list_eq_dec Z.eq_dec (c :: t) (text "(-9223372036854775807-1)")) as [E|]; [|reflexivity].
  exfalso. change (text "(-9223372036854775807-1)") with (40 :: text "-9223372036854775807-1)") in E. injection E as -> _. lia.
Qed.
Lemma expr_cast p e : p = I8 \/ p = I16 \/ p = U8 \/ p = U16 ->
  cpp_expr (annot p ++ text "(" ++ e ++ text ")") = match cpp_unary e with Some (_, v) => Some (p, convert p v) | None => None end.
Proof.
  intros P. unfold cpp_expr.
  assert (S : strip_cast cast_names (annot p ++ text "(" ++ e ++ text ")") = Some (p, e ++ text ")")) by (destruct P as [->|[->|[->| ->]]]; reflexivity).
  rewrite S. unfold strip_close. change (text ")") with [41]. rewrite rev_app_distr. cbn [rev app]. change (41 =? 41) with true. cbv iota. now rewrite rev_involutive.
Qed.
Lemma convert_fits p v : fits p v = true -> convert p v = v.
Proof.
  destruct p; cbn; intros H; auto; apply andb_true_iff in H; rewrite Z.leb_le, Z.ltb_lt in H;
    try (apply Z.mod_small; lia); rewrite Z.mod_small; lia.
Qed.

(** The exceptions: a decimal number that begins with [0_]; a number that is not decimal as a
    floating one; a sign before an octal one; the least i32, not in decimal. *)
Definition exceptional (s : sign) (r : radix) (body : list Z) (n : Z) (p : prim) : Prop :=
  (r = Dec /\ is_f p = false /\ nth 0 body 0 = 48 /\ body <> [48]) \/
  (is_f p = true /\ r <> Dec) \/ (s <> NoSign /\ r = Oct) \/ (s = Minus /\ r <> Dec /\ p = I32 /\ n = 2 ^ 31).

(** With the suffix that the type calls for, C++ reads the value. *)
Definition small (p : prim) : bool := match p with I64 | U64 => false | _ => true end.
Lemma text_value s r ds p : is_f p = false -> digits (radix_base r) ds -> ds <> [] -> (r = Dec -> nth 0 ds 0 = 48 -> ds = [48]) ->
  let n := value_of (radix_base r) ds in
  fits p (whole s n) = true -> (is_u p = true -> s <> Minus) -> 0 <= n < 2 ^ 64 -> ~ (s = Minus /\ n = 2 ^ 63) -> ~ (s = Minus /\ r <> Dec /\ p = I32 /\ n = 2 ^ 31) ->
  exists ty, cpp_unary (sign_text s ++ cpp_prefix r ++ ds ++ suffix_text (is_u p) (negb (small p))) = Some (ty, whole s n) /\
    (ty = p \/ small p = true /\ p <> I32 /\ p <> U32 \/ p = I32 /\ s = Minus /\ n = 2 ^ 31 /\ ty = I64).
Proof.
  intros NF D N HZ n F U R X1 X2.
  destruct (cpp_literal_ok r ds (is_u p) (negb (small p)) D N HZ) as (dec & HD & E).
  destruct (head_digit r ds (suffix_text (is_u p) (negb (small p))) D N) as (c & t & EC & C).
  rewrite EC in *. rewrite (unary_ok s c t C), E. fold n. fold n in HD.
  assert (F32_ : forall q, fits q n = (match q with I32 => (n <? 2 ^ 31) | I64 => n <? 2 ^ 63 | U32 => n <? 2 ^ 32 | U64 => n <? 2 ^ 64 | _ => fits q n end)).
  { intros q. destruct q; auto; cbn [fits]; match goal with |- ?a && ?b = _ => replace a with true by (symmetry; apply Z.leb_le; lia); reflexivity end. }
  assert (W : whole s n = n \/ s = Minus /\ whole s n = - n) by (destruct s; cbn; auto).
  destruct p; try discriminate; cbn [is_u small negb candidates] in *; cbn [fits] in F; apply andb_true_iff in F; rewrite Z.leb_le, Z.ltb_lt in F.
  - exists I32. replace (List.find _ _) with (Some I32); [|symmetry; destruct dec; cbn [List.find]; rewrite (F32_ I32); replace (n <? 2 ^ 31) with true by (symmetry; apply Z.ltb_lt; lia); reflexivity].
    split; [destruct s; reflexivity|]. right; left; repeat split; discriminate.
  - exists I32. replace (List.find _ _) with (Some I32); [|symmetry; destruct dec; cbn [List.find]; rewrite (F32_ I32); replace (n <? 2 ^ 31) with true by (symmetry; apply Z.ltb_lt; lia); reflexivity].
    split; [destruct s; reflexivity|]. right; left; repeat split; discriminate.
  - destruct (Z.ltb_spec n (2 ^ 31)) as [Hn|Hn].
    + exists I32. replace (List.find _ _) with (Some I32); [|symmetry; destruct dec; cbn [List.find]; rewrite (F32_ I32); replace (n <? 2 ^ 31) with true by (symmetry; apply Z.ltb_lt; lia); reflexivity].
      split; [destruct s; reflexivity|auto].
    + assert (s = Minus /\ n = 2 ^ 31) as [-> En] by (destruct W as [W|[-> W]]; [lia|split; [auto|lia]]).
      exists I64. assert (r = Dec) as ->. { destruct r; auto; exfalso; apply X2; repeat split; auto; discriminate. }
      assert (dec = true) as ->. { apply HD; auto. change (value_of 10 ds) with n. rewrite En. discriminate. }
      cbn [List.find candidates]. rewrite (F32_ I32), (F32_ I64), En. cbn [negate]. split; [reflexivity|]. right; right; auto.
  - exists I64. assert (n < 2 ^ 63). { destruct W as [W|[-> W]]; [lia|]. destruct (Z.eq_dec n (2 ^ 63)); [tauto|lia]. }
    replace (List.find _ _) with (Some I64); [|symmetry; destruct dec; cbn [List.find]; rewrite (F32_ I64); replace (n <? 2 ^ 63) with true by (symmetry; apply Z.ltb_lt; lia); reflexivity].
    split; [destruct s; reflexivity|auto].
  - destruct s; try (exfalso; apply U; reflexivity); exists U32;
      (replace (List.find _ _) with (Some U32); [|symmetry; destruct dec; cbn [List.find]; rewrite (F32_ U32); cbn [whole] in F; replace (n <? 2 ^ 32) with true by (symmetry; apply Z.ltb_lt; lia); reflexivity]);
      (split; [reflexivity|]; right; left; repeat split; discriminate).
  - destruct s; try (exfalso; apply U; reflexivity); exists U32;
      (replace (List.find _ _) with (Some U32); [|symmetry; destruct dec; cbn [List.find]; rewrite (F32_ U32); cbn [whole] in F; replace (n <? 2 ^ 32) with true by (symmetry; apply Z.ltb_lt; lia); reflexivity]);
      (split; [reflexivity|]; right; left; repeat split; discriminate).
  - destruct s; try (exfalso; apply U; reflexivity); exists U32;
      (replace (List.find _ _) with (Some U32); [|symmetry; destruct dec; cbn [List.find]; rewrite (F32_ U32); cbn [whole] in F; replace (n <? 2 ^ 32) with true by (symmetry; apply Z.ltb_lt; lia); reflexivity]);
      (split; [reflexivity|auto]).
  - destruct s; try (exfalso; apply U; reflexivity); exists U64;
      (replace (List.find _ _) with (Some U64); [|symmetry; destruct dec; cbn [List.find]; rewrite (F32_ U64); cbn [whole] in F; replace (n <? 2 ^ 64) with true by (symmetry; apply Z.ltb_lt; lia); reflexivity]);
      (split; [reflexivity|auto]).
Qed.

(** A floating one. *)
Lemma float_value s ds (f : bool) : digits 10 ds -> ds <> [] ->
  cpp_unary (sign_text s ++ ds ++ text ".0" ++ (if f then text "f" else [])) = Some (if f then F32 else F64, whole s (value_of 10 ds)).
Proof.
  intros D N. destruct ds as [|c ds]; [congruence|]. pose proof (Forall_inv D) as Dc. destruct (digit_range 10 c ltac:(lia) Dc) as (_ & R & _).
  cbn [app]. rewrite unary_ok by lia.
  assert (E : cpp_literal (c :: ds ++ text ".0" ++ (if f then text "f" else [])) = Some (if f then F32 else F64, value_of 10 (c :: ds))).
  { unfold cpp_literal. set (rest := text ".0" ++ (if f then text "f" else [])).
    assert (NP : forall x, x = 120 \/ x = 98 -> strip [48; x] ((c :: ds) ++ rest) = None).
    { intros x X. rewrite strip2. destruct ds as [|d ds]; cbn [app].
      - unfold rest. change (text ".0") with [46; 48]. cbn [app]. replace (x =? 46) with false by (symmetry; apply Z.eqb_neq; lia). now destruct (48 =? c).
      - inversion D as [|? ? D1 D2]; subst. apply Forall_inv in D2. destruct (digit_range 10 d ltac:(lia) D2) as (_ & R2 & _).
        replace (x =? d) with false by (symmetry; apply Z.eqb_neq; lia). now destruct (48 =? c). }
    change (c :: ds ++ rest) with ((c :: ds) ++ rest). change (text "0x") with [48; 120]. change (text "0b") with [48; 98]. rewrite !NP by auto.
    rewrite (span_ok _ (c :: ds)); [|exact D|]; [|intros c' t E; unfold rest in E; change (text ".0") with [46; 48] in E; cbn in E; injection E as <- _; reflexivity].
    unfold rest. destruct f; reflexivity. }
  rewrite E. destruct s, f; reflexivity.
Qed.

Lemma le10 : 10 <= 16. Proof. lia. Qed.
Lemma bare_head body : nth 0 body 0 <> 95 -> nth 0 (bare body) 0 = nth 0 body 0.
Proof. destruct body as [|c body]; [reflexivity|]. cbn. intros H. replace (c =? 95) with false by (symmetry; now apply Z.eqb_neq). reflexivity. Qed.
Lemma bare_some b body : existsb (is_digit b) body = true -> bare body <> [].
Proof.
  intros H E. apply existsb_exists in H. destruct H as (c & I & D). assert (J : In c (bare body)).
  { apply filter_In. split; auto. apply negb_true_iff, Z.eqb_neq. intros ->. discriminate D. }
  rewrite E in J. destruct J.
Qed.
(** The least i64 is the only one written as a difference. *)
Lemma paradox s r ds (u : bool) : octal_signed s r = false -> digits (radix_base r) ds -> ds <> [] -> (r = Dec -> nth 0 ds 0 = 48 -> ds = [48]) ->
  (s = Minus -> u = false) -> 0 <= value_of (radix_base r) ds < 2 ^ 64 -> (s = Minus -> value_of (radix_base r) ds <= 2 ^ 63) ->
  let src := sign_text s ++ cpp_prefix r ++ ds ++ (if u then text "u" else []) in
  (16 <? length src)%nat && match intlit_parse src with Some L => is_negative L && (absval L =? 2 ^ 63) | None => false end = true <->
  s = Minus /\ value_of (radix_base r) ds = 2 ^ 63.
Proof.
  intros O D N HZ US R M src. assert (B : 2 <= radix_base r <= 16) by (destruct r; cbn; lia).
  destruct (head_digit r ds (if u then text "u" else []) D N) as (c & t & EC & C).
  destruct s.
  - (* plus *) split; [|intros [? _]; discriminate]. intros H. apply andb_true_iff in H. destruct H as [_ H].
    destruct (intlit_parse src) as [L|] eqn:E; [|discriminate]. apply andb_true_iff in H. destruct H as [H _].
    destruct (parse_signed _ _ E) as [_ K]. destruct (K H) as [t' Q]. unfold src in Q. discriminate Q.
  - assert (u = false) as -> by auto. assert (O' : r <> Oct) by (intros ->; discriminate O).
    assert (SRC : src = IntlitSpec.literal Minus r ds false). { unfold src, IntlitSpec.literal. cbn [sign_text]. rewrite !app_nil_r. destruct r; try reflexivity. congruence. }
    assert (T : int_token r ds).
    { split.
      - intros ->. split; [exact N|]. destruct ds as [|x [|y ds]]; [congruence|..]; cbn [nth] in *.
        + split; [exact (Forall_inv D)|]. intros [_ Q]. discriminate Q.
        + split; [exact (Forall_inv D)|]. intros [-> _]. specialize (HZ eq_refl eq_refl). discriminate.
      - destruct ds as [|x ds]; [congruence|]. cbn. now rewrite (Forall_inv D). }
    pose proof (digits_denote _ _ D) as DN.
    destruct (token_reads Minus r ds _ DN T) as (RA & W & NE). destruct (literal_value_is_exact Minus r ds false RA W NE) as (L & E & A & _).
    assert (EL : err L = None). { apply A. exists (value_of (radix_base r) ds). split; [exact DN|]. split; [lia|]. split; [intros [_ Q]; discriminate Q|intros _; apply M; reflexivity]. }
    destruct (token_value Minus r ds _ L DN T E EL) as (V1 & V2 & _). rewrite SRC, E, V1, V2. cbn [andb]. rewrite andb_true_iff, Z.eqb_eq.
    split; [intros [_ H]; auto|]. intros [_ H]. split; [|exact H]. apply Nat.ltb_lt.
    pose proof (value_bounds _ ds B D) as VB. unfold IntlitSpec.literal. cbn [sign_text]. rewrite !app_length. cbn [length].
    assert (15 < length ds)%nat; [|lia]. destruct (Nat.lt_ge_cases 15 (length ds)) as [|G]; auto.
    assert (16 ^ Z.of_nat (length ds) <= 16 ^ 15) by (apply Z.pow_le_mono_r; lia). change (16 ^ 15) with 1152921504606846976 in *. change (2 ^ 63) with 9223372036854775808 in H. lia.
  - split; [|intros [? _]; discriminate]. intros H. apply andb_true_iff in H. destruct H as [_ H].
    destruct (intlit_parse src) as [L|] eqn:E; [|discriminate]. apply andb_true_iff in H. destruct H as [H _].
    destruct (parse_signed _ _ E) as [_ K]. destruct (K H) as [t' Q]. unfold src in Q. cbn [sign_text app] in Q. rewrite EC in Q. injection Q as -> _. lia.
Qed.

Lemma cg_int_ok s r body n h L p :
  denotes (radix_base r) body n -> int_token r body ->
  intlit_parse (IntlitSpec.literal s r body false) = Some L -> err L = None -> solve_int h L = Some p -> ~ exceptional s r body n p ->
  exists ty, cpp_expr (cg_arith p (IntlitSpec.literal s r body false)) = Some (ty, whole s n) /\
    (ty = p \/ p = I32 /\ whole s n = - 2 ^ 31 /\ ty = I64).
Proof.
  intros DN T E EL SO X.
  destruct (token_value s r body n L DN T E EL) as (V1 & V2 & V3 & V4 & V5 & V6).
  destruct (parse_signed _ _ E) as [SG _]. destruct (solve_fits h L p _ E SG SO) as (FT & NU & _).
  assert (SV : signed_value L = whole s n) by (unfold signed_value, whole; rewrite V1, V2; destruct s; reflexivity). rewrite SV in FT.
  destruct (denotes_bare _ _ _ DN) as (D & V & _). set (ds := bare body) in *. destruct T as [T1 T2].
  assert (N : ds <> []) by (eapply bare_some; eauto). assert (B : 2 <= radix_base r <= 16) by (destruct r; cbn; lia).
  pose proof (value_bounds _ ds B D) as VB. rewrite V in VB.
  assert (OS : octal_signed s r = false).
  { destruct s, r; try reflexivity; exfalso; apply X; right; right; left; split; congruence. }
  assert (UM : is_u p = true -> s <> Minus). { intros H ->. specialize (NU H). congruence. }
  unfold cg_arith. fold (bare (IntlitSpec.literal s r body false)). rewrite bare_literal. fold ds.
  destruct (is_f p) eqn:PF.
  - (* floating *)
    assert (r = Dec) as -> by (destruct r; auto; exfalso; apply X; right; left; split; auto; discriminate).
    replace (is_u p) with false by (destruct p; auto; discriminate). cbn [radix_text radix_base app] in *.
    assert (HH : forall c, c = 46 \/ c = 120 \/ c = 101 -> has c (sign_text s ++ ds) = false).
    { intros c C. rewrite has_app. assert (has c ds = false).
      { clear - D C. induction D as [|x ds Dx F IH]; [reflexivity|]. unfold has in *. cbn [existsb]. rewrite IH, orb_false_r.
        destruct (digit_range 10 x le10 Dx) as (_ & R & _). apply Z.eqb_neq. lia. }
      rewrite H, orb_false_r. destruct C as [->|[->| ->]]; destruct s; reflexivity. }
    rewrite (HH 46), (HH 120), (HH 101) by auto. cbn [negb andb].
    assert (HX : has 120 ((sign_text s ++ ds) ++ text ".0") = false) by (rewrite has_app, (HH 120) by auto; reflexivity). rewrite HX.
    assert (SC : forall c t (f : bool), sign_text s ++ ds ++ text ".0" ++ (if f then text "f" else []) = c :: t -> 43 <= c <= 57).
    { intros c t f Q. destruct ds as [|x ds0]; [congruence|]. pose proof (Forall_inv D) as Dx. destruct (digit_range 10 x le10 Dx) as (_ & R & _).
      clear - R Q; destruct s; cbn in Q; injection Q as <- _; lia. }
    assert (FIN : forall f : bool, p = (if f then F32 else F64) ->
       cpp_expr (match strip (text "0o") (sign_text s ++ ds ++ text ".0" ++ (if f then text "f" else [])) with
                 | Some t => 48 :: t | None => sign_text s ++ ds ++ text ".0" ++ (if f then text "f" else []) end) = Some (p, whole s n)).
    { intros f ->. destruct (strip_octal s Dec ds (text ".0" ++ (if f then text "f" else [])) OS D (fun _ => N)) as [Q|[[t Q] _]]; [|discriminate Q].
      cbn [radix_text cpp_prefix app] in Q. rewrite Q. destruct (sign_text s ++ ds ++ text ".0" ++ (if f then text "f" else [])) as [|c t] eqn:Q2.
      - destruct s, ds; try discriminate; congruence.
      - rewrite expr_unary by (eapply SC; eauto). rewrite <- Q2, float_value by auto. now rewrite V. }
    destruct p; try discriminate.
    + exists F32. split; [|auto]. specialize (FIN true eq_refl). rewrite <- !app_assoc. exact FIN.
    + exists F64. split; [|auto]. specialize (FIN false eq_refl). rewrite app_nil_r in FIN. rewrite <- !app_assoc. exact FIN.
  - (* whole *)
    assert (HZ : r = Dec -> nth 0 ds 0 = 48 -> ds = [48]).
    { intros -> H0. destruct (T1 eq_refl) as (_ & D0 & _). unfold ds in H0 |- *. rewrite bare_head in H0 by (intros Q; rewrite Q in D0; discriminate D0).
      destruct (list_eq_dec Z.eq_dec body [48]) as [->|NB]; [reflexivity|]. exfalso. apply X. left. auto. }
    rewrite (has_text s r ds 117) by auto.
    assert (SRC : (if is_u p then (sign_text s ++ radix_text r ++ ds) ++ text "u" else sign_text s ++ radix_text r ++ ds) =
                  sign_text s ++ radix_text r ++ ds ++ (if is_u p then text "u" else [])).
    { destruct (is_u p); [now rewrite <- !app_assoc|now rewrite app_nil_r]. }
    rewrite SRC. clear SRC.
    destruct (strip_octal s r ds (if is_u p then text "u" else []) OS D (fun _ => N)) as [Q|[[t Q] _]]; [|destruct (is_u p); discriminate Q].
    rewrite Q. clear Q.
    assert (US : s = Minus -> is_u p = false). { intros Q. destruct (is_u p); auto. now destruct (UM eq_refl). }
    pose proof (paradox s r ds (is_u p) OS D N HZ US) as P. rewrite V in P. specialize (P (conj (proj1 VB) V3) V4). cbv zeta in P.
    set (src := sign_text s ++ cpp_prefix r ++ ds ++ (if is_u p then text "u" else [])) in *.
    match goal with |- context [if ?c then text "(-9223372036854775807-1)" else _] => destruct c eqn:PX end.
    + destruct (proj1 P eq_refl) as [-> ->]. exists I64. split; [reflexivity|]. left.
      destruct p; try reflexivity; cbn in FT; discriminate.
    + assert (NP : ~ (s = Minus /\ n = 2 ^ 63)) by (intros Q; apply P in Q; discriminate).
      assert (N31 : ~ (s = Minus /\ r <> Dec /\ p = I32 /\ n = 2 ^ 31)) by (intros Q; apply X; right; right; right; exact Q).
      assert (TV : exists ty, cpp_unary (sign_text s ++ cpp_prefix r ++ ds ++ suffix_text (is_u p) (negb (small p))) = Some (ty, whole s n) /\
                   (ty = p \/ small p = true /\ p <> I32 /\ p <> U32 \/ p = I32 /\ s = Minus /\ n = 2 ^ 31 /\ ty = I64)).
      { rewrite <- V. apply text_value; auto; rewrite V; auto. split; [exact (proj1 VB)|exact V3]. }
      destruct TV as (ty & TV & TY).
      assert (HL : has 108 src = false).
      { unfold src. rewrite !has_app, (has_digits (radix_base r) 108 ds) by (try exact D; clear - B; lia). destruct s, r, (is_u p); reflexivity. }
      rewrite HL.
      assert (HEAD : forall t, exists c t', src ++ t = c :: t' /\ 43 <= c <= 57).
      { intros t. unfold src. destruct (head_digit r ds (if is_u p then text "u" else []) D N) as (c & t' & EC & C). rewrite EC.
        clear - C; destruct s; cbn; eexists _, _; (split; [reflexivity|lia]). }
      assert (ST : src ++ (if negb (small p) then text "ll" else []) = sign_text s ++ cpp_prefix r ++ ds ++ suffix_text (is_u p) (negb (small p))).
      { unfold src, suffix_text. now rewrite <- !app_assoc. }
      assert (EU : forall t, cpp_expr (src ++ t) = cpp_unary (src ++ t)).
      { intros t. destruct (HEAD t) as (c & t' & Q & C). rewrite Q. now apply expr_unary. }
      rewrite <- ST in TV. clear ST. clearbody src.
      assert (US1 : small p = true -> cpp_unary src = Some (ty, whole s n)) by (intros Q; rewrite Q in TV; cbn [negb] in TV; now rewrite app_nil_r in TV).
      assert (US2 : small p = false -> cpp_unary (src ++ text "ll") = Some (ty, whole s n)) by (intros Q; rewrite Q in TV; exact TV).
      assert (EU1 : cpp_expr src = cpp_unary src) by (specialize (EU []); now rewrite app_nil_r in EU).
      clear TV P PX HL HEAD NP N31 X. destruct p; try discriminate.
      * exists I8. rewrite expr_cast, US1, (convert_fits I8) by auto. auto.
      * exists I16. rewrite expr_cast, US1, (convert_fits I16) by auto. auto.
      * exists ty. rewrite EU1, US1 by reflexivity. split; [reflexivity|].
        destruct TY as [->|[(_ & Q & _)|(_ & -> & -> & ->)]]; [auto|congruence|right; auto].
      * exists ty. rewrite EU, US2 by reflexivity. split; [reflexivity|]. destruct TY as [->|[(Q & _)|(Q & _)]]; [auto|discriminate|discriminate].
      * exists U8. rewrite expr_cast, US1, (convert_fits U8) by auto. auto.
      * exists U16. rewrite expr_cast, US1, (convert_fits U16) by auto. auto.
      * exists ty. rewrite EU1, US1 by reflexivity. split; [reflexivity|].
        destruct TY as [->|[(_ & _ & Q)|(Q & _)]]; [auto|congruence|discriminate].
      * exists ty. rewrite EU, US2 by reflexivity. split; [reflexivity|]. destruct TY as [->|[(Q & _)|(Q & _)]]; [auto|discriminate|discriminate].
Qed.
