(** Numbers, comments and operators. *)
From Coq Require Import String.
From Verif Require Import LexerModel LexerSpec Utf8Spec Utf8Props AsciiProofs CommonLemmas WordsLemmas LexerProofs LexerStrings.
Open Scope Z_scope.
Open Scope list_scope.
Notation length := List.length.

(** ** Numbers *)
Lemma small_lower c : lower_c c = small_letter c.
Proof. unfold lower_c, small_letter. destruct ((65 <=? c) && (c <=? 90)) eqn:E; [|reflexivity]. apply wrap_small. unfold word. change (2 ^ 8) with 256. lia. Qed.
Lemma num_tail_plain hex d e w d' e' : num_tail hex d e w d' e' -> ~ In 10 w.
Proof.
  induction 1 as [|d e c w d' e' Hc T IH|d e w d' e' Hs T IH|w d' e' Hs T IH|d c s w d' e' Hx Hs T IH]; intros H; cbn [In] in H.
  - exact H.
  - destruct H as [->|H]; [unfold num_digit, digit in Hc; lia|auto].
  - destruct H as [H|H]; [discriminate|auto].
  - destruct H as [H|H]; [discriminate|auto].
  - destruct H as [->|H]; [unfold exp_mark in Hx; destruct hex; lia|]. apply in_app_or in H as [H|H]; [|auto]. destruct Hs as [->|[->| ->]]; cbn in H; lia.
Qed.
Lemma last_get pre (a f : list Z) : a <> [] -> get (pre ++ a ++ f) (length pre + length a - 1) = Ok (last a 0).
Proof.
  intros N. destruct (@exists_last _ a N) as (a' & x & ->). rewrite last_last, app_length. cbn [length]. replace (length pre + (length a' + 1) - 1)%nat with (length pre + length a')%nat by lia.
  rewrite <- app_assoc. cbn [app]. apply get_at.
Qed.
Lemma peek_next pre c r : peek (pre ++ c :: r) (length (pre ++ [c])) = hd 0 r. Proof. rewrite (snoc pre c). apply peek_mid. Qed.
(** after num_end *)
Definition number_rest (src : list Z) (idx0 : nat) (line : nat) (lidx : Z) (hex : bool) (r : nat * bool * bool) : res (token * nat) :=
  let '(idx, dot, exp) := r in
  let* trail := get src (idx - 1) in
  if negb (is_digit trail) && negb (hex && is_hexletter trail) then Fail BadNumber idx0 else
  let* str := slice src idx0 idx in
  if hex && dot && negb exp then Fail HexExponent idx0 else
  let* low := match lower str with Some s => Ok s | None => Trap end in
  let* t := token_at (if dot || exp then Real else Int) low idx0 idx line lidx in
  Ok (t, idx).
Lemma number_rest_ok pre raw f line lidx hex dot exp : raw <> [] -> at_ pre line lidx ->
  number_rest (pre ++ raw ++ f) (length pre) line lidx hex ((length pre + length raw)%nat, dot, exp) =
  (if is_digit (last raw 0) || hex && is_hexletter (last raw 0) then
     if hex && dot && negb exp then Fail HexExponent (length pre)
     else Ok (Tok (num_kind dot exp) (map small_letter raw) (line_of pre) (col_of pre) (length raw), (length pre + length raw)%nat)
   else Fail BadNumber (length pre)).
Proof.
  intros N A. unfold number_rest. rewrite last_get by exact N. cbn [bindr]. rewrite <- negb_orb. destruct (is_digit (last raw 0) || hex && is_hexletter (last raw 0)); cbn [negb]; [|reflexivity].
  rewrite slice_mid. cbn [bindr]. destruct (hex && dot && negb exp); [reflexivity|]. rewrite lower_map. cbn [bindr].
  rewrite (map_ext lower_c small_letter small_lower). rewrite token_ok; [|exact A|rewrite map_length; lia]. reflexivity.
Qed.
Lemma number_eq src idx0 idx c line lidx : number src idx0 idx c line lidx =
  (let c1 := peek src idx in
   let* (hex, ob, max, idx) :=
    (if c =? 48 then
       if (c1 =? 120) || (c1 =? 88) then Ok (true, false, 57, S idx)
       else if (c1 =? 111) || (c1 =? 79) then Ok (false, true, 55, S idx)
       else if (c1 =? 98) || (c1 =? 66) then Ok (false, true, 49, S idx)
       else if is_digit c1 then Fail LeadingZero idx0
       else Ok (false, false, 57, idx)
     else Ok (false, false, 57, idx)) in
   let* r := num_end (S (length src)) src idx0 idx hex ob max false false in number_rest src idx0 line lidx hex r).
Proof. reflexivity. Qed.
Definition number_is (pre : list Z) (raw f : list Z) (r : res (token * nat)) : Prop :=
  exists k v, piece raw f (Some (k, v)) /\ r = Ok (Tok k v (line_of pre) (col_of pre) (length raw), (length pre + length raw)%nat).
Lemma hd_mark (l : list Z) x : hd 0 l = x -> x <> 0 -> exists r, l = x :: r.
Proof. destruct l as [|y l]; cbn; [congruence|]. intros -> _. eauto. Qed.
Lemma number_sound pre c rest line lidx : digit c -> at_ pre line lidx ->
  match number (pre ++ c :: rest) (length pre) (S (length pre)) c line lidx with
  | Ok r => exists raw f, c :: rest = raw ++ f /\ raw <> [] /\ ~ In 10 raw /\ number_is pre raw f (Ok r)
  | Fail _ i => i = length pre
  | Trap => False
  end.
Proof.
  intros Hc A. rewrite number_eq. cbv zeta. rewrite (snoc pre c), (snoc_len pre c), peek_mid.
  assert (Dec : (c = 48 -> ~ starts (fun c => digit c \/ In c (text "xXoObB")) rest) ->
    match (let* r := num_end (S (length ((pre ++ [c]) ++ rest))) ((pre ++ [c]) ++ rest) (length pre) (length (pre ++ [c])) false false 57 false false in number_rest ((pre ++ [c]) ++ rest) (length pre) line lidx false r) with
    | Ok r => exists raw f, c :: rest = raw ++ f /\ raw <> [] /\ ~ In 10 raw /\ number_is pre raw f (Ok r)
    | Fail _ i => i = length pre
    | Trap => False
    end).
  { intros Z0. pose proof (num_end_ok false (length pre) (S (length ((pre ++ [c]) ++ rest))) rest (pre ++ [c]) false false ltac:(rewrite !app_length; lia)) as E.
    destruct (num_end _ _ _ _ _ _ _ _ _) as [[[idx d] e]|er i|]; cbn [bindr]; [|exact E|exact E]. destruct E as (w & f & -> & -> & T & Ef).
    replace (length (pre ++ [c]) + length w)%nat with (length pre + length (c :: w))%nat by (rewrite app_length; cbn [length]; lia). rewrite <- snoc. change (c :: w ++ f) with ((c :: w) ++ f).
    rewrite number_rest_ok by (discriminate || exact A). cbn [andb]. rewrite orb_false_r. destruct (is_digit (last (c :: w) 0)) eqn:Ed; [|reflexivity]. apply digit_b in Ed.
    exists (c :: w), f. split; [reflexivity|]. split; [discriminate|]. split; [intros [->|H]; [unfold digit in Hc; lia|exact (num_tail_plain _ _ _ _ _ _ T H)]|].
    exists (num_kind d e), (map small_letter (c :: w)). split; [|reflexivity]. apply p_decimal; auto. }
  assert (Rad : forall x max rest', rest = x :: rest' -> c = 48 -> (x = 111 \/ x = 79) /\ max = 55 \/ (x = 98 \/ x = 66) /\ max = 49 ->
    match (let* r := num_end (S (length ((pre ++ [c]) ++ rest))) ((pre ++ [c]) ++ rest) (length pre) (S (length (pre ++ [c]))) false true max false false in number_rest ((pre ++ [c]) ++ rest) (length pre) line lidx false r) with
    | Ok r => exists raw f, c :: rest = raw ++ f /\ raw <> [] /\ ~ In 10 raw /\ number_is pre raw f (Ok r)
    | Fail _ i => i = length pre
    | Trap => False
    end).
  { intros x max rest' -> -> Hx. rewrite (snoc_len (pre ++ [48]) x), (snoc (pre ++ [48]) x).
    destruct (radix_end_ok max (length pre) false false ltac:(lia) rest' (S (length (((pre ++ [48]) ++ [x]) ++ rest'))) ((pre ++ [48]) ++ [x]) ltac:(rewrite !app_length; lia)) as (w & f & -> & E & Fw & Nf).
    rewrite E. cbn [bindr]. replace (length ((pre ++ [48%Z]) ++ [x]) + length w)%nat with (length pre + length (48%Z :: x :: w))%nat by (rewrite !app_length; cbn [length]; lia).
    rewrite <- !snoc. change (48 :: x :: w ++ f) with ((48 :: x :: w) ++ f). rewrite number_rest_ok by (discriminate || exact A). cbn [andb]. rewrite orb_false_r.
    destruct (is_digit (last (48 :: x :: w) 0)) eqn:Ed; [|reflexivity]. apply digit_b in Ed.
    assert (Nw : w <> []) by (intros ->; cbn in Ed; unfold digit in Ed; lia).
    exists (48 :: x :: w), f. split; [reflexivity|]. split; [discriminate|]. split.
    { intros [H|[H|H]]; [discriminate|lia|]. rewrite Forall_forall in Fw. specialize (Fw _ H). cbv beta in Fw. lia. }
    exists Int, (map small_letter (48 :: x :: w)). split; [|reflexivity]. eapply p_radix; eauto. }
  destruct (Z.eqb_spec c 48) as [E48|N48]; [|cbn [bindr]; apply Dec; congruence].
  destruct ((hd 0 rest =? 120) || (hd 0 rest =? 88)) eqn:Ex.
  { assert (Hx : hd 0 rest = 120 \/ hd 0 rest = 88) by lia. destruct (hd_mark rest _ eq_refl) as (rest' & Er); [lia|]. remember (hd 0 rest) as x eqn:X0. clear X0. clear Dec Rad. subst rest c. cbn [bindr].
    rewrite (snoc_len (pre ++ [48]) x), (snoc (pre ++ [48]) x).
    pose proof (num_end_ok true (length pre) (S (length (((pre ++ [48]) ++ [x]) ++ rest'))) rest' ((pre ++ [48]) ++ [x]) false false ltac:(rewrite !app_length; lia)) as E.
    destruct (num_end _ _ _ _ _ _ _ _ _) as [[[idx d] e]|er i|]; cbn [bindr]; [|exact E|exact E]. destruct E as (w & f & -> & -> & T & Ef).
    replace (length ((pre ++ [48%Z]) ++ [x]) + length w)%nat with (length pre + length (48%Z :: x :: w))%nat by (rewrite !app_length; cbn [length]; lia).
    rewrite <- !snoc. change (48 :: x :: w ++ f) with ((48 :: x :: w) ++ f). rewrite number_rest_ok by (discriminate || exact A).
    destruct (is_digit _ || _) eqn:Ed; [|reflexivity]. apply numd_b in Ed. destruct (true && d && negb e) eqn:Eh; [reflexivity|].
    assert (Nw : w <> []) by (intros ->; cbn in Ed; unfold num_digit, digit in Ed; lia).
    assert (Elast : last (48 :: x :: w) 0 = last w 0) by (destruct w; [tauto|reflexivity]). rewrite Elast in Ed.
    exists (48 :: x :: w), f. split; [reflexivity|]. split; [discriminate|]. split; [intros [H|[H|H]]; [discriminate|lia|exact (num_tail_plain _ _ _ _ _ _ T H)]|].
    exists (num_kind d e), (map small_letter (48 :: x :: w)). split; [|reflexivity]. apply p_hex; auto. intros ->. destruct e; [reflexivity|discriminate]. }
  destruct ((hd 0 rest =? 111) || (hd 0 rest =? 79)) eqn:Eo.
  { assert (Hx : hd 0 rest = 111 \/ hd 0 rest = 79) by lia. destruct (hd_mark rest _ eq_refl) as (rest' & Er); [lia|]. cbn [bindr]. eapply Rad; eauto. }
  destruct ((hd 0 rest =? 98) || (hd 0 rest =? 66)) eqn:Eb.
  { assert (Hx : hd 0 rest = 98 \/ hd 0 rest = 66) by lia. destruct (hd_mark rest _ eq_refl) as (rest' & Er); [lia|]. cbn [bindr]. eapply Rad; eauto. }
  destruct (is_digit (hd 0 rest)) eqn:Ed; [reflexivity|]. cbn [bindr]. apply Dec. intros _ H. destruct rest as [|y rest]; [exact H|]. cbn [starts hd] in *.
  destruct H as [H|H]; [apply digit_b in H; congruence|]. cbn in H. lia.
Qed.
Lemma number_complete_dec pre c w f dot exp line lidx : digit c -> (c = 48 -> ~ starts (fun c => digit c \/ In c (text "xXoObB")) (w ++ f)) ->
  num_tail false false false w dot exp -> digit (last (c :: w) 0) -> number_ends false f -> at_ pre line lidx ->
  number (pre ++ c :: w ++ f) (length pre) (S (length pre)) c line lidx =
    Ok (Tok (num_kind dot exp) (map small_letter (c :: w)) (line_of pre) (col_of pre) (length (c :: w)), (length pre + length (c :: w))%nat).
Proof.
  intros Hc Z0 T Hl Ef A. rewrite number_eq. cbv zeta. rewrite (snoc_len pre c). rewrite (peek_next pre c).
  replace (if c =? 48 then _ else _) with (Ok (false, false, 57, length (pre ++ [c]))).
  2: { destruct (Z.eqb_spec c 48) as [E|N]; [|reflexivity]. specialize (Z0 E). destruct (w ++ f) as [|y r]; [reflexivity|]. cbn [hd starts] in *.
    assert (Ny : ~ In y (text "xXoObB")) by tauto. cbn in Ny. replace ((y =? 120) || (y =? 88)) with false by lia. replace ((y =? 111) || (y =? 79)) with false by lia. replace ((y =? 98) || (y =? 66)) with false by lia.
    replace (is_digit y) with false by (symmetry; apply not_true; rewrite digit_b; tauto). reflexivity. }
  cbn [bindr]. rewrite (snoc pre c). rewrite (num_end_complete false (length pre) w false false dot exp T); [| | |exact Ef].
  2: { rewrite !app_length. lia. }
  2: { destruct w as [|x w]; [left; reflexivity|right]. left. exact Hl. }
  cbn [bindr]. replace (length (pre ++ [c]) + length w)%nat with (length pre + length (c :: w))%nat by (rewrite app_length; cbn [length]; lia). rewrite <- snoc. change (c :: w ++ f) with ((c :: w) ++ f).
  rewrite number_rest_ok by (discriminate || exact A). apply digit_b in Hl. rewrite Hl. reflexivity.
Qed.
Lemma number_complete_hex pre x w f dot exp line lidx : x = 120 \/ x = 88 -> num_tail true false false w dot exp -> num_digit true (last w 0) -> (dot = true -> exp = true) -> number_ends true f -> at_ pre line lidx ->
  number (pre ++ 48 :: x :: w ++ f) (length pre) (S (length pre)) 48 line lidx =
    Ok (Tok (num_kind dot exp) (map small_letter (48 :: x :: w)) (line_of pre) (col_of pre) (length (48 :: x :: w)), (length pre + length (48%Z :: x :: w))%nat).
Proof.
  intros Hx T Hl De Ef A. rewrite number_eq. cbv zeta. rewrite (snoc_len pre 48). rewrite (peek_next pre 48). cbn [hd]. replace ((x =? 120) || (x =? 88)) with true by lia. change (48 =? 48) with true. cbv iota. cbn [bindr].
  rewrite (snoc pre 48), (snoc (pre ++ [48]) x), (snoc_len (pre ++ [48]) x). rewrite (num_end_complete true (length pre) w false false dot exp T); [| |right; exact Hl|exact Ef].
  2: { rewrite !app_length. lia. }
  cbn [bindr]. replace (length ((pre ++ [48%Z]) ++ [x]) + length w)%nat with (length pre + length (48%Z :: x :: w))%nat by (rewrite !app_length; cbn [length]; lia). rewrite <- !snoc. change (48 :: x :: w ++ f) with ((48 :: x :: w) ++ f).
  rewrite number_rest_ok by (discriminate || exact A).
  assert (Nw : w <> []) by (intros ->; cbn in Hl; unfold num_digit, digit in Hl; lia). assert (Elast : last (48 :: x :: w) 0 = last w 0) by (destruct w; [tauto|reflexivity]). rewrite Elast. apply numd_b in Hl. rewrite Hl.
  replace (true && dot && negb exp) with false by (destruct dot; [rewrite (De eq_refl)|]; reflexivity). reflexivity.
Qed.
Lemma number_complete_radix pre x max w f line lidx : (x = 111 \/ x = 79) /\ max = 55 \/ (x = 98 \/ x = 66) /\ max = 49 -> w <> [] ->
  Forall (fun c => 48 <= c <= max) w -> ~ starts (fun c => 48 <= c <= max) f -> at_ pre line lidx ->
  number (pre ++ 48 :: x :: w ++ f) (length pre) (S (length pre)) 48 line lidx =
    Ok (Tok Int (map small_letter (48 :: x :: w)) (line_of pre) (col_of pre) (length (48 :: x :: w)), (length pre + length (48%Z :: x :: w))%nat).
Proof.
  intros Hx Nw Fw Nf A. rewrite number_eq. cbv zeta. rewrite (snoc_len pre 48). rewrite (peek_next pre 48). cbn [hd]. change (48 =? 48) with true. cbv iota.
  replace (if (x =? 120) || (x =? 88) then _ else _) with (@Ok (bool * bool * Z * nat) (false, true, max, S (length (pre ++ [48])))).
  2: { replace ((x =? 120) || (x =? 88)) with false by lia. destruct Hx as [[H ->]|[H ->]]; [replace ((x =? 111) || (x =? 79)) with true by lia; reflexivity|].
    replace ((x =? 111) || (x =? 79)) with false by lia. replace ((x =? 98) || (x =? 66)) with true by lia. reflexivity. }
  cbn [bindr]. rewrite (snoc pre 48), (snoc (pre ++ [48]) x), (snoc_len (pre ++ [48]) x).
  destruct (radix_end_ok max (length pre) false false ltac:(lia) (w ++ f) (S (length (((pre ++ [48]) ++ [x]) ++ w ++ f))) ((pre ++ [48]) ++ [x]) ltac:(rewrite !app_length; lia)) as (w1 & f1 & E1 & E & Fw1 & Nf1).
  destruct (span_unique _ w w1 f f1 Fw Fw1 Nf Nf1 E1) as [<- <-]. rewrite E. cbn [bindr].
  replace (length ((pre ++ [48%Z]) ++ [x]) + length w)%nat with (length pre + length (48%Z :: x :: w))%nat by (rewrite !app_length; cbn [length]; lia). rewrite <- !snoc. change (48 :: x :: w ++ f) with ((48 :: x :: w) ++ f).
  rewrite number_rest_ok by (discriminate || exact A). replace (is_digit (last (48 :: x :: w) 0)) with true; [reflexivity|]. symmetry. apply digit_b.
  destruct (@exists_last _ w Nw) as (w' & y & ->). change (48 :: x :: w' ++ [y]) with ((48 :: x :: w') ++ [y]). rewrite last_last. apply Forall_app in Fw as [_ Fw]. inversion_clear Fw. unfold digit. lia.
Qed.

(** ** Comments *)
Lemma line_comment_ok : forall rest fuel pre line lidx, (length rest < fuel)%nat -> at_ pre line lidx -> exists w nl f line' lidx', rest = w ++ nl ++ f /\ ~ In 10 w /\ (nl = [10] \/ nl = [] /\ f = []) /\
  line_comment fuel (pre ++ rest) (length pre) line lidx = Ok (length (pre ++ w ++ nl), line', lidx') /\ at_ (pre ++ w ++ nl) line' lidx'.
Proof.
  induction rest as [|c rest IH]; intros fuel pre line lidx L A; (destruct fuel as [|fuel]; [lia|]); cbn [line_comment].
  - rewrite ge_len. exists [], [], [], line, lidx. cbn [app]. rewrite app_nil_r. repeat split; auto; apply A.
  - rewrite lt_len, get_mid. cbn [bindr]. destruct (Z.eqb_spec c 10) as [->|N].
    + exists [], [10], rest, (S line), (Z.of_nat (S (length pre)) - 1). cbn [app]. split; [reflexivity|]. split; [auto|]. split; [auto|]. split; [rewrite <- snoc_len; reflexivity|]. eapply at_newline; eauto.
    + destruct (IH fuel (pre ++ [c]) line lidx) as (w & nl & f & l1 & x1 & -> & Nw & Hn & E & A'); [cbn in L; lia|apply at_char; auto|].
      exists (c :: w), nl, f, l1, x1. cbn [app]. rewrite (snoc pre c (w ++ nl ++ f)), (snoc pre c (w ++ nl)), (snoc_len pre c). split; [reflexivity|]. split; [intros [H|H]; [congruence|exact (Nw H)]|]. auto.
Qed.
Definition no_end (w : list Z) : Prop := forall a b, w <> a ++ 42 :: 47 :: b.
Lemma no_end_cons c w : no_end w -> (c = 42 -> ~ starts (fun c => c = 47) w) -> no_end (c :: w).
Proof. intros N H a b E. destruct a as [|x a]; cbn [app] in E; injection E as -> E; [apply (H eq_refl); rewrite E; reflexivity|exact (N a b E)]. Qed.
Lemma block_comment_ok : forall rest fuel pre line lidx, (length rest < fuel)%nat -> at_ pre line lidx -> exists w nl f line' lidx', rest = w ++ nl ++ f /\
  (nl = [42; 47] /\ no_end (w ++ [42]) \/ nl = [] /\ f = [] /\ no_end w) /\
  block_comment fuel (pre ++ rest) (length pre) line lidx = Ok (length (pre ++ w ++ nl), line', lidx') /\ at_ (pre ++ w ++ nl) line' lidx'.
Proof.
  induction rest as [|c rest IH]; intros fuel pre line lidx L A; (destruct fuel as [|fuel]; [lia|]); cbn [block_comment].
  - rewrite ge_len. exists [], [], [], line, lidx. cbn [app]. rewrite app_nil_r. split; [reflexivity|]. split; [right; repeat split; intros a b E; destruct a; discriminate|]. split; [reflexivity|apply A].
  - rewrite lt_len, get_mid. cbn [bindr]. cbn [length] in L.
    assert (Go : forall l x, at_ (pre ++ [c]) l x -> (c = 42 -> ~ starts (fun c => c = 47) rest) -> exists w nl f line' lidx', c :: rest = w ++ nl ++ f /\
      (nl = [42; 47] /\ no_end (w ++ [42]) \/ nl = [] /\ f = [] /\ no_end w) /\
      block_comment fuel (pre ++ c :: rest) (S (length pre)) l x = Ok (length (pre ++ w ++ nl), line', lidx') /\ at_ (pre ++ w ++ nl) line' lidx').
    { intros l x A' N. destruct (IH fuel (pre ++ [c]) l x ltac:(lia) A') as (w & nl & f & l1 & x1 & -> & Hn & E & A2). exists (c :: w), nl, f, l1, x1. cbn [app]. rewrite (snoc pre c (w ++ nl ++ f)), (snoc pre c (w ++ nl)), (snoc_len pre c).
      split; [reflexivity|]. split; [|split; [exact E|exact A2]]. destruct Hn as [[-> Hn]|(-> & -> & Hn)].
      - left. split; [reflexivity|]. apply no_end_cons; [exact Hn|]. intros Ec. specialize (N Ec). destruct w; [cbn; lia|exact N].
      - right. split; [reflexivity|]. split; [reflexivity|]. apply no_end_cons; [exact Hn|]. rewrite !app_nil_r in N. exact N. }
    destruct (Z.eqb_spec c 10) as [->|N10].
    + apply Go; [eapply at_newline; eauto|lia].
    + rewrite (snoc pre c), (snoc_len pre c), peek_mid. destruct ((c =? 42) && (hd 0 rest =? 47)) eqn:Ee.
      * destruct rest as [|y rest]; [cbn in Ee; lia|]. cbn [hd] in Ee. assert (c = 42) by lia. assert (y = 47) by lia. subst. exists [], [42; 47], rest, line, lidx. cbn [app].
        split; [reflexivity|]. split; [left; split; [reflexivity|]; intros a b E; destruct a as [|? [|? ?]]; discriminate|].
        split; [rewrite !app_length; cbn [length]; do 3 f_equal; lia|]. replace (pre ++ [42; 47]) with ((pre ++ [42]) ++ [47]) by (rewrite <- app_assoc; reflexivity). apply at_char; [lia|]. apply at_char; [lia|exact A].
      * rewrite <- snoc, <- snoc_len. apply Go; [apply at_char; auto|]. intros -> Hs. destruct rest; [exact Hs|]. cbn in *. lia.
Qed.
Lemma line_comment_unique : forall (w w1 : list Z) nl nl1 f f1, ~ In 10 w -> ~ In 10 w1 -> (nl = [10] \/ nl = [] /\ f = []) -> (nl1 = [10] \/ nl1 = [] /\ f1 = []) -> w ++ nl ++ f = w1 ++ nl1 ++ f1 -> w = w1 /\ nl = nl1 /\ f = f1.
Proof.
  intros w w1 nl nl1 f f1 N N1 H H1 E. assert (P : forall l : list Z, ~ In 10 l -> Forall (fun c => c <> 10) l) by (intros l Hl; rewrite Forall_forall; intros x Hx ->; exact (Hl Hx)).
  destruct (span_unique (fun c => c <> 10) w w1 (nl ++ f) (nl1 ++ f1)) as [-> E2]; auto; [destruct H as [->|[-> ->]]; cbn; auto|destruct H1 as [->|[-> ->]]; cbn; auto|].
  split; [reflexivity|]. destruct H as [->|[-> ->]], H1 as [->|[-> ->]]; cbn in E2; try discriminate; [injection E2 as ->|]; auto.
Qed.
Lemma no_end_tail c w : no_end (c :: w) -> no_end w.
Proof. intros N a b E. apply (N (c :: a) b). rewrite E. reflexivity. Qed.
Lemma block_comment_unique : forall (w w1 : list Z) nl nl1 f f1, (nl = [42; 47] /\ no_end (w ++ [42]) \/ nl = [] /\ f = [] /\ no_end w) -> (nl1 = [42; 47] /\ no_end (w1 ++ [42]) \/ nl1 = [] /\ f1 = [] /\ no_end w1) ->
  w ++ nl ++ f = w1 ++ nl1 ++ f1 -> w = w1 /\ nl = nl1 /\ f = f1.
Proof.
  induction w as [|c w IH]; intros w1 nl nl1 f f1 H H1 E; destruct w1 as [|c1 w1]; cbn [app] in E.
  - split; [reflexivity|]. destruct H as [[-> _]|(-> & -> & _)], H1 as [[-> _]|(-> & -> & _)]; cbn in E; try discriminate; [injection E as ->|]; auto.
  - exfalso. destruct H as [[-> _]|(-> & -> & _)]; [|destruct nl1; discriminate]. cbn [app] in E. injection E as <- E. destruct H1 as [[-> N]|(-> & -> & N)].
    + destruct w1 as [|y w1]; cbn [app] in E; [discriminate|]. injection E as <- E. exact (N [] (w1 ++ [42]) eq_refl).
    + rewrite !app_nil_r in E. subst w1. exact (N [] f eq_refl).
  - exfalso. destruct H1 as [[-> _]|(-> & -> & _)]; [|destruct nl; discriminate]. cbn [app] in E. injection E as -> E. destruct H as [[-> N]|(-> & -> & N)].
    + destruct w as [|y w]; cbn [app] in E; [discriminate|]. injection E as -> E. exact (N [] (w ++ [42]) eq_refl).
    + rewrite !app_nil_r in E. subst w. exact (N [] f1 eq_refl).
  - injection E as -> E. assert (T : forall w nl (f : list Z), (nl = [42; 47] /\ no_end ((c1 :: w) ++ [42]) \/ nl = [] /\ f = [] /\ no_end (c1 :: w)) -> nl = [42; 47] /\ no_end (w ++ [42]) \/ nl = [] /\ f = [] /\ no_end w).
    { intros u n g [[-> N]|(-> & -> & N)]; [left|right]; (split; [reflexivity|]); [|split; [reflexivity|]]; exact (no_end_tail _ _ N). }
    destruct (IH w1 nl nl1 f f1 (T _ _ _ H) (T _ _ _ H1) E) as (-> & -> & ->). auto.
Qed.
