(** C30 and C47: the varint codecs and closure ids. *)
From Verif Require Import VarintProofs ClosureModel CommonLemmas WordsLemmas.
Open Scope Z_scope.

(** ** C30: round trip.  Appending v to any string and parsing at the point where it was appended
    returns v and the end of the appended bytes, whatever follows. *)
Theorem varint_roundtrip : forall pre v rest, word 32 v ->
  exists bs, append_varint pre v = Some (pre ++ bs) /\ bs <> [] /\
    parse_varint (Z.of_nat (length pre)) ((pre ++ bs) ++ rest) = Some (v, Z.of_nat (length (pre ++ bs))).
Proof.
  intros pre v rest H. destruct (varint_round_trip pre v rest H) as (bs & E & L & P). exists bs.
  rewrite app_length. split; [exact E|]. split; [destruct bs; [cbn in L; lia|discriminate]|exact P].
Qed.
Print Assumptions varint_roundtrip.

Theorem varint7_roundtrip : forall pre v rest, word 32 v ->
  exists bs, append7bit pre v = Some (pre ++ bs) /\ bs <> [] /\
    parse7bit ((pre ++ bs) ++ rest) (Z.of_nat (length pre)) = Some (v, Z.of_nat (length (pre ++ bs))).
Proof.
  intros pre v rest H. destruct (round_trip7 pre v rest H) as (bs & E & L & P). exists bs.
  rewrite app_length. split; [exact E|]. split; [destruct bs; [cbn in L; lia|discriminate]|exact P].
Qed.
Print Assumptions varint7_roundtrip.

(** No encoding is a prefix of another (so in particular distinct values have distinct encodings). *)
Theorem varint_prefix_free : forall v v' bs more, word 32 v -> word 32 v' ->
  append_varint [] v = Some bs -> append_varint [] v' = Some (bs ++ more) -> v = v' /\ more = [].
Proof.
  intros v v' bs more H H' E E'.
  destruct (varint_round_trip [] v more H) as (b1 & E1 & _ & P1). rewrite E in E1. injection E1 as E1. cbn in E1. subst b1.
  destruct (varint_round_trip [] v' [] H') as (b2 & E2 & _ & P2). rewrite E' in E2. injection E2 as E2. cbn in E2. subst b2.
  cbn [app length] in P1, P2. rewrite app_nil_r in P2. rewrite P1 in P2. injection P2 as Hv Hl. split; [exact Hv|].
  rewrite app_length in Hl. destruct more; [reflexivity|cbn in Hl; lia].
Qed.
Print Assumptions varint_prefix_free.

Theorem varint7_prefix_free : forall v v' bs more, word 32 v -> word 32 v' ->
  append7bit [] v = Some bs -> append7bit [] v' = Some (bs ++ more) -> v = v' /\ more = [].
Proof.
  intros v v' bs more H H' E E'.
  destruct (round_trip7 [] v more H) as (b1 & E1 & _ & P1). rewrite E in E1. injection E1 as E1. cbn in E1. subst b1.
  destruct (round_trip7 [] v' [] H') as (b2 & E2 & _ & P2). rewrite E' in E2. injection E2 as E2. cbn in E2. subst b2.
  cbn [app length] in P1, P2. rewrite app_nil_r in P2. rewrite P1 in P2. injection P2 as Hv Hl. split; [exact Hv|].
  rewrite app_length in Hl. destruct more; [reflexivity|cbn in Hl; lia].
Qed.
Print Assumptions varint7_prefix_free.

(** The alphabet of the textual varint: bytes with the top bit set, then one of [0-9A-Z_`a-z];
    so no encoding contains other ASCII punctuation. *)
Theorem varint_alphabet : forall v bs, word 32 v -> append_varint [] v = Some bs ->
  Forall (fun c => 128 <= c < 256 \/ 48 <= c <= 57 \/ 65 <= c <= 90 \/ 95 <= c <= 122) bs.
Proof.
  intros v bs H E. unfold append_varint in E. destruct (append_loop_enc v 6) as (b & E1 & En); [|lia|].
  { unfold word in H. assert (2 ^ 32 < 2 ^ (7 * Z.of_nat 6 - 1)) by reflexivity. lia. }
  rewrite E1 in E. cbn in E. injection E as <-. apply (enc_bytes _ _ _ _ _ En); [destruct H; auto| |].
  - intros x Hx. rewrite trailer_char by auto. constructor; [|constructor].
    destruct (Z.ltb_spec x 10), (Z.ltb_spec x 36); lia.
  - intros c Hc. lia.
Qed.
Print Assumptions varint_alphabet.

(** Parsing never runs past the end of the string and yields a u32, whatever the bytes. *)
Local Lemma scan_inside : forall fuel str off shift result c r s c' off', Forall byte str -> byte c -> 0 <= shift -> word 32 result ->
  scan_loop fuel str off shift result c = Some (r, s, c', off') ->
  off <= off' /\ (off' <= Z.of_nat (length str) \/ off' = off) /\ 0 <= s /\ word 32 r /\ byte c' /\ (off' = off -> c' = c).
Proof.
  induction fuel; intros str off shift result c r s c' off' B Bc Hs Hr E; [discriminate|]. cbn [scan_loop] in E.
  destruct (Z.ltb_spec off (Z.of_nat (length str))) as [H|H].
  2:{ injection E as <- <- <- <-. repeat split; auto; try lia; apply Bc || apply Hr. }
  destruct (Z.ltb_spec off 0); [discriminate|]. destruct (nth_error str (Z.to_nat off)) as [x|] eqn:N; [|discriminate].
  cbn [obind] in E. assert (Bx : byte x) by (rewrite Forall_forall in B; apply B; eapply nth_error_In; eauto).
  destruct (Z.leb_spec 128 x).
  - destruct (Z.leb_spec 32 shift); [discriminate|]. apply IHfuel in E; auto; try lia.
    + destruct E as (E1 & E2 & E3 & E4 & E5 & E6). split; [lia|]. split; [lia|]. split; [auto|]. split; [auto|]. split; [auto|]. intros; lia.
    + apply lor_word; [lia|exact Hr|apply wshl_word; lia].
  - injection E as <- <- <- <-. split; [lia|]. split; [lia|]. split; [auto|]. split; [exact Hr|]. split; [exact Bx|]. intros; lia.
Qed.

Theorem varint_parse_in_bounds : forall str off v off', Forall byte str ->
  (parse_varint off str = Some (v, off') -> word 32 v /\ off < off' <= Z.of_nat (length str)) /\
  (parse7bit str off = Some (v, off') -> word 32 v /\ off <= off' <= Z.max off (Z.of_nat (length str))).
Proof.
  intros str off v off' B. assert (B0 : byte 0) by (split; lia). assert (W0 : word 32 0) by (split; [lia|reflexivity]). split; intros E.
  - unfold parse_varint, scan in E. destruct (scan_loop _ _ _ _ _ _) as [[[[r s] c] o]|] eqn:Q; [|discriminate].
    cbn [obind] in E. destruct (scan_inside _ _ _ _ _ _ _ _ _ _ B B0 (Z.le_refl 0) W0 Q) as (H1 & H2 & H3 & H4 & H5 & H6).
    match type of E with context [obind ?m _] => destruct m as [sub|] eqn:Es; [|discriminate] end. cbn [obind] in E.
    destruct (Z.leb_spec 32 s); [discriminate|]. injection E as <- <-.
    split; [apply lor_word; [lia|exact H4|apply wshl_word; lia]|].
    destruct (Z.eq_dec o off) as [->|No]; [rewrite H6 in Es by reflexivity; discriminate|lia].
  - unfold parse7bit, scan in E. destruct (scan_loop _ _ _ _ _ _) as [[[[r s] c] o]|] eqn:Q; [|discriminate].
    cbn [obind] in E. destruct (scan_inside _ _ _ _ _ _ _ _ _ _ B B0 (Z.le_refl 0) W0 Q) as (H1 & H2 & H3 & H4 & H5 & H6).
    destruct (Z.leb_spec 32 s); [discriminate|]. injection E as <- <-.
    split; [apply lor_word; [lia|exact H4|apply wshl_word; lia]|]. lia.
Qed.
Print Assumptions varint_parse_in_bounds.

(** ** C47: closure ids *)
Local Lemma signed_wrap x : - 2 ^ 31 <= x < 2 ^ 31 -> signed 32 (wrap 32 x) = x.
Proof.
  intros H. unfold signed, wrap. rewrite Z.mod_mod by lia. change (32 - 1) with 31.
  destruct (Z_le_dec 0 x).
  - rewrite Z.mod_small by lia. destruct (Z.ltb_spec x (2 ^ 31)); lia.
  - replace (x mod 2 ^ 32) with (x + 2 ^ 32) by (symmetry; rewrite <- (Z.mod_small (x + 2 ^ 32) (2 ^ 32)) by lia; rewrite <- Z.add_mod_idemp_r, Z_mod_same_full, Z.add_0_r by lia; reflexivity).
    destruct (Z.ltb_spec (x + 2 ^ 32) (2 ^ 31)); lia.
Qed.

Theorem closure_id_roundtrip : forall modid revision globid locid,
  - 2 ^ 31 <= modid < 2 ^ 31 -> word 32 revision -> 0 < globid < 2 ^ 31 -> - 2 ^ 31 <= locid < 2 ^ 31 ->
  exists id, serialize modid revision globid locid = Some id /\ try_parse id = Some (Some (modid, revision, globid, locid)).
Proof.
  intros m r g l Hm Hr Hg Hl. unfold serialize. destruct (Z.leb_spec g 0); [lia|].
  destruct (varint_round_trip [96] (wrap 32 m) [] (wrap_word 32 m ltac:(lia))) as (b1 & E1 & L1 & _). rewrite E1. cbn [obind].
  destruct (varint_round_trip ([96] ++ b1) r [] Hr) as (b2 & E2 & L2 & _). rewrite E2. cbn [obind].
  destruct (varint_round_trip (([96] ++ b1) ++ b2) (wrap 32 g) [] (wrap_word 32 g ltac:(lia))) as (b3 & E3 & L3 & _). rewrite E3. cbn [obind].
  destruct (varint_round_trip ((([96] ++ b1) ++ b2) ++ b3) (wrap 32 l) [] (wrap_word 32 l ltac:(lia))) as (b4 & E4 & L4 & P4). rewrite E4.
  set (id := ((([96] ++ b1) ++ b2) ++ b3) ++ b4) in *. exists id. split; [reflexivity|].
  destruct (varint_round_trip [96] (wrap 32 m) (b2 ++ b3 ++ b4) (wrap_word 32 m ltac:(lia))) as (b1' & F1 & _ & P1).
  destruct (varint_round_trip ([96] ++ b1) r (b3 ++ b4) Hr) as (b2' & F2 & _ & P2).
  destruct (varint_round_trip (([96] ++ b1) ++ b2) (wrap 32 g) b4 (wrap_word 32 g ltac:(lia))) as (b3' & F3 & _ & P3).
  rewrite E1 in F1. rewrite E2 in F2. rewrite E3 in F3. injection F1 as F1. injection F2 as F2. injection F3 as F3.
  apply app_inv_head in F2, F3. subst b1' b2' b3'.
  replace (([96] ++ b1) ++ b2 ++ b3 ++ b4) with id in P1 by (unfold id; rewrite <- !app_assoc; reflexivity).
  replace ((([96] ++ b1) ++ b2) ++ b3 ++ b4) with id in P2 by (unfold id; rewrite <- !app_assoc; reflexivity).
  replace (((([96] ++ b1) ++ b2) ++ b3) ++ b4) with id in P3 by (unfold id; rewrite <- !app_assoc; reflexivity).
  rewrite app_nil_r in P4.
  unfold try_parse.
  assert (Li : Z.of_nat (length id) = 1 + Z.of_nat (length b1) + Z.of_nat (length b2) + Z.of_nat (length b3) + Z.of_nat (length b4))
    by (unfold id; rewrite !app_length; cbn [length]; lia).
  destruct (Z.ltb_spec 3 (Z.of_nat (length id))); [|lia].
  replace (match id with c :: _ => c =? 96 | [] => false end) with true by reflexivity. cbn [andb].
  change (Z.of_nat (length [96])) with 1 in P1. rewrite P1. cbn [obind snd fst].
  replace (Z.of_nat (length [96] + length b1)) with (Z.of_nat (length ([96] ++ b1))) by (rewrite app_length; reflexivity). rewrite P2. cbn [obind snd fst].
  replace (Z.of_nat (length ([96] ++ b1) + length b2)) with (Z.of_nat (length (([96] ++ b1) ++ b2))) by (rewrite (app_length _ b2); reflexivity). rewrite P3. cbn [obind snd fst].
  replace (Z.of_nat (length (([96] ++ b1) ++ b2) + length b3)) with (Z.of_nat (length ((([96] ++ b1) ++ b2) ++ b3))) by (rewrite (app_length _ b3); reflexivity). rewrite P4. cbn [obind snd fst].
  rewrite !app_length. cbn [length]. destruct (Z.eqb_spec (Z.of_nat (1 + length b1 + length b2 + length b3 + length b4)) (Z.of_nat (length id))); [|lia].
  rewrite !signed_wrap by lia. reflexivity.
Qed.
Print Assumptions closure_id_roundtrip.

(** So two closures never share a serialised id. *)
Theorem closure_ids_are_distinct : forall m r g l m' r' g' l' id,
  - 2 ^ 31 <= m < 2 ^ 31 -> word 32 r -> 0 < g < 2 ^ 31 -> - 2 ^ 31 <= l < 2 ^ 31 ->
  - 2 ^ 31 <= m' < 2 ^ 31 -> word 32 r' -> 0 < g' < 2 ^ 31 -> - 2 ^ 31 <= l' < 2 ^ 31 ->
  serialize m r g l = Some id -> serialize m' r' g' l' = Some id -> (m, r, g, l) = (m', r', g', l').
Proof.
  intros m r g l m' r' g' l' id A1 A2 A3 A4 B1 B2 B3 B4 E E'.
  destruct (closure_id_roundtrip m r g l A1 A2 A3 A4) as (i & S1 & P1).
  destruct (closure_id_roundtrip m' r' g' l' B1 B2 B3 B4) as (i' & S2 & P2). congruence.
Qed.
Print Assumptions closure_ids_are_distinct.

(** ** C48: user type canons.  A canon names its module and index: parsing what was created gives them back. *)
Local Lemma digits_len_app ds c r : Forall (fun c => 48 <= c <= 57) ds -> ~ (48 <= c <= 57) -> digits_len (ds ++ c :: r) = length ds.
Proof.
  intros D Hc. induction D as [|d ds Hd D IH]; cbn [app digits_len length].
  - destruct (Z.ltb_spec c 48), (Z.ltb_spec 57 c); cbn [orb]; try reflexivity. lia.
  - destruct (Z.ltb_spec d 48), (Z.ltb_spec 57 d); cbn [orb]; try lia.
Qed.
Local Lemma lxor_shift_word h k : 0 <= k -> word 64 h -> word 64 (Z.lxor h (wshr h k)).
Proof. intros. apply lxor_word; auto; [lia|]. apply wshr_word; auto; lia. Qed.

Definition prim_letter (c : Z) := c = 105 \/ c = 117 \/ c = 102 \/ c = 98 \/ c = 99.

Theorem user_type_canon_roundtrip : forall kind base modid index spec hash,
  (kind = None \/ kind = Some 101 \/ kind = Some 109) ->
  (base = [] \/ exists c ds, base = c :: ds /\ prim_letter c /\ Forall (fun c => 48 <= c <= 57) ds) ->
  (spec = [] \/ exists r, spec = 40 :: r) ->
  0 <= modid < 2 ^ 31 -> 0 <= index -> index + 1 < 2 ^ 31 -> word 64 hash ->
  exists canon, create_canon kind base modid index spec hash = Some canon /\ parse_canon canon = Some (modid, index).
Proof.
  intros kind base m i spec h Hk Hb Hs Hm Hi Hi1 Hh. unfold create_canon.
  set (hh := Z.lxor _ (wshr _ 8)).
  assert (Wh : 0 <= hh) by (assert (W : word 64 hh) by (unfold hh; repeat apply lxor_shift_word; auto; lia); destruct W; auto).
  pose proof (cont_ge hh Wh) as Sg. unfold cont_byte in Sg. cbv zeta. set (sg := wrap 8 (Z.lor hh 128)) in *. clearbody sg. clear hh Wh.
  destruct (Z.ltb_spec m 0), (Z.ltb_spec i 0); cbn [orb]; try lia. destruct (Z.leb_spec (2 ^ 31) (i + 1)); [lia|].
  assert (Main : forall pre, exists b1 b2,
    append_varint pre (wrap 32 m) = Some (pre ++ b1) /\ append_varint (pre ++ b1) (wrap 32 (i + 1)) = Some ((pre ++ b1) ++ b2) /\
    (forall pre', length pre' = length pre ->
      parse_varint (Z.of_nat (length pre')) (((pre' ++ b1) ++ b2) ++ spec) = Some (wrap 32 m, Z.of_nat (length (pre' ++ b1))) /\
      parse_varint (Z.of_nat (length (pre' ++ b1))) (((pre' ++ b1) ++ b2) ++ spec) = Some (wrap 32 (i + 1), Z.of_nat (length ((pre' ++ b1) ++ b2))))).
  { intros pre.
    destruct (varint_round_trip pre (wrap 32 m) [] (wrap_word 32 m ltac:(lia))) as (b1 & E1 & _ & _).
    destruct (varint_round_trip (pre ++ b1) (wrap 32 (i + 1)) [] (wrap_word 32 _ ltac:(lia))) as (b2 & E2 & _ & _).
    exists b1, b2. split; [exact E1|]. split; [exact E2|]. intros pre' _.
    assert (A1 : forall p q v, append_varint p v = Some (p ++ q) -> forall p', append_varint p' v = Some (p' ++ q)).
    { intros p q v. unfold append_varint. destruct (append_varint_loop 6 v); cbn; [|discriminate]. intros Q p'. injection Q as Q.
      apply app_inv_head in Q. subst. reflexivity. }
    destruct (varint_round_trip pre' (wrap 32 m) (b2 ++ spec) (wrap_word 32 m ltac:(lia))) as (c1 & F1 & _ & P1).
    rewrite (A1 _ _ _ E1) in F1. injection F1 as F1. apply app_inv_head in F1. subst c1.
    destruct (varint_round_trip (pre' ++ b1) (wrap 32 (i + 1)) spec (wrap_word 32 _ ltac:(lia))) as (c2 & F2 & _ & P2).
    rewrite (A1 _ _ _ E2) in F2. injection F2 as F2. apply app_inv_head in F2. subst c2.
    rewrite (app_length _ b2), (app_length pre' b1) in *. rewrite <- !app_assoc in *. split; [exact P1|exact P2]. }
  destruct (Main (base ++ [sg])) as (b1 & b2 & E1 & E2 & P). rewrite E1. cbn [obind]. rewrite E2. cbn [obind].
  assert (Fin : forall base', length base' = length base ->
      (forall c rest, base' ++ [sg] = c :: rest -> c < 128 -> base_prim_prefix_len ((((base' ++ [sg]) ++ b1) ++ b2) ++ spec) = Some (Z.of_nat (length base'))) ->
      (forall c rest, base' ++ [sg] = c :: rest -> 128 <= c -> base' = []) ->
      parse_canon ((((base' ++ [sg]) ++ b1) ++ b2) ++ spec) = Some (m, i)).
  { intros base' Lb Hp Hq. destruct (P (base' ++ [sg])) as [P1 P2]; [rewrite !app_length, Lb; reflexivity|].
    unfold parse_canon. destruct (base' ++ [sg]) as [|c rest] eqn:Eb; [destruct base'; discriminate|].
    change (nth_error ((((c :: rest) ++ b1) ++ b2) ++ spec) 0) with (Some c). cbn [obind].
    assert (Off : (if c <? 128 then do n <- base_prim_prefix_len ((((c :: rest) ++ b1) ++ b2) ++ spec); Some (n + 1) else Some 1) = Some (Z.of_nat (length (c :: rest)))).
    { rewrite <- Eb at 2. rewrite app_length. cbn [length]. destruct (Z.ltb_spec c 128).
      - rewrite (Hp c rest eq_refl) by auto. cbn [obind]. f_equal. lia.
      - rewrite (Hq c rest eq_refl) by auto. reflexivity. }
    rewrite Off. cbn [obind]. rewrite P1. cbn [obind snd fst]. rewrite P2. cbn [obind snd fst].
    match goal with |- (if ?b then _ else _) = _ => assert (T : b = true) end.
    { apply orb_true_iff. destruct Hs as [->|(r & ->)].
      - left. rewrite app_nil_r. apply Z.eqb_refl.
      - right. rewrite Nat2Z.id, nth_error_app2, Nat.sub_diag by lia. reflexivity. }
    rewrite T. rewrite !signed_wrap by lia. do 2 f_equal. lia. }
  destruct Hb as [->|(c & ds & -> & Hc & Hd)].
  - cbn [obind app] in *. eexists. split; [reflexivity|]. apply (Fin []); [reflexivity| |].
    + intros c rest Q Hc. cbn in Q. injection Q as Q _. lia.
    + reflexivity.
  - cbn [app obind] in *. assert (N : (c =? 101) || (c =? 109) = false).
    { unfold prim_letter in Hc. destruct (Z.eqb_spec c 101), (Z.eqb_spec c 109); cbn [orb]; auto; lia. }
    rewrite N. cbn [obind].
    eexists. split; [reflexivity|].
    assert (L : forall k, (prim_letter k \/ k = 101 \/ k = 109) ->
       parse_canon (((((k :: ds) ++ [sg]) ++ b1) ++ b2) ++ spec) = Some (m, i)).
    { intros k Hkk. apply (Fin (k :: ds)); [reflexivity| |].
      - intros c0 rest Q H128. rewrite <- !app_assoc. cbn [app].  unfold base_prim_prefix_len.
        assert (T : (k =? 105) || (k =? 117) || (k =? 102) || (k =? 98) || (k =? 99) || (k =? 101) || (k =? 109) = true).
        { unfold prim_letter in Hkk. rewrite !orb_true_iff, !Z.eqb_eq. tauto. }
        rewrite T. rewrite digits_len_app by (auto; lia). f_equal. cbn [length]. lia.
      - intros c0 rest Q H128. cbn in Q. injection Q as -> _. unfold prim_letter in Hkk. lia. }
    destruct Hk as [->|[->| ->]]; apply L; auto.
Qed.
Print Assumptions user_type_canon_roundtrip.

(** ** Non-vacuity *)
Example varint_example : append_varint [97] 1000 = Some [97; 232; 55] /\ parse_varint 1 [97; 232; 55; 33] = Some (1000, 3)
  /\ append7bit [] 4294967295 = Some [255; 255; 255; 255; 15] /\ parse7bit [255; 255; 255; 255; 15; 9] 0 = Some (4294967295, 5).
Proof. repeat split. Qed.
Example closure_example : serialize 3 0 7 (-1) = Some [96; 51; 48; 55; 255; 255; 255; 255; 70].
Proof. reflexivity. Qed.

Example canon_example : create_canon (Some 101) [105; 51; 50] 2 4 [] 77 = Some [101; 51; 50; 205; 50; 53]
  /\ parse_canon [101; 51; 50; 205; 50; 53] = Some (2, 4).
Proof. split; reflexivity. Qed.
