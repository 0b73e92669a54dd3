(** C38: integer literals. *)
From Verif Require Import IntlitSpec CommonLemmas WordsLemmas.
Open Scope Z_scope.

Local Lemma loop_app v : forall w b a e, digits_loop (v ++ w) b a e = digits_loop w b (fst (digits_loop v b a e)) (snd (digits_loop v b a e)).
Proof. induction v as [|c v IH]; intros w b a e; cbn [app digits_loop]; [reflexivity|]. destruct (c =? 95); apply IH. Qed.

Local Lemma denotes_fun b s n : denotes b s n -> forall m, denotes b s m -> n = m.
Proof.
  induction 1 as [|s n H IH|s n c d H IH Hd Hb]; intros m Hm.
  - inversion Hm; subst; auto; destruct s; discriminate.
  - inversion Hm as [E|s' n' H' E|s' n' c d H' Hd' Hb' E]; subst.
    + destruct s; discriminate.
    + apply app_inj_tail in E. destruct E as [-> _]. auto.
    + apply app_inj_tail in E. destruct E as [-> ->]. discriminate.
  - inversion Hm as [E|s' n' H' E|s' n' c' d' H' Hd' Hb' E]; subst.
    + destruct s; discriminate.
    + apply app_inj_tail in E. destruct E as [-> <-]. discriminate.
    + apply app_inj_tail in E. destruct E as [-> ->]. rewrite Hd in Hd'. injection Hd' as ->. rewrite (IH n' H'). reflexivity.
Qed.
Local Lemma digit_nonneg c d : digit_of c = Some d -> 0 <= d.
Proof.
  unfold digit_of. destruct (Z.leb_spec 48 c), (Z.leb_spec c 57); cbn [andb]; try (intros E; injection E as <-; lia).
  all: destruct (Z.leb_spec 97 c), (Z.leb_spec c 122); cbn [andb]; try discriminate; intros E; injection E as <-; lia.
Qed.
Local Lemma denotes_nonneg b s n : 0 <= b -> denotes b s n -> 0 <= n.
Proof. intros Hb. induction 1; auto; [lia|]. apply digit_nonneg in H0. nia. Qed.

Local Lemma step_ok b a c : (b = 2 \/ b = 8 \/ b = 10 \/ b = 16) -> word 64 a -> byte c -> ~ 58 <= c <= 63 -> c <> 95 ->
  let ci := if c <? 97 then wsub 64 c 48 else wadd 64 (wsub 64 c 97) 10 in
  let a' := wadd 64 (wmul 64 a b) ci in
  (a = a' / b -> exists d, digit_of c = Some d /\ d < b /\ a' = a * b + d) /\
  (forall d, digit_of c = Some d -> d < b -> a * b + d < 2 ^ 64 -> a = a' / b).
Proof.
  intros Hb Ha Hc Hp Hu ci a'. set (t := if c <? 97 then c - 48 else c - 97 + 10).
  assert (Ea : a' = (a * b + t) mod 2 ^ 64).
  { unfold a', ci, t, wadd, wmul, wsub, wrap. destruct (c <? 97).
    - rewrite Zplus_mod_idemp_l, Zplus_mod_idemp_r. reflexivity.
    - rewrite !Zplus_mod_idemp_l, Zplus_mod_idemp_r, Zplus_mod_idemp_l || (rewrite !Zplus_mod_idemp_l, Zplus_mod_idemp_r); f_equal; lia. }
  clearbody a' ci.
  assert (Wa : 0 <= a' < 2 ^ 64) by (rewrite Ea; apply Z.mod_pos_bound; reflexivity).
  assert (Ht : -48 <= t <= 168) by (unfold t, byte in *; destruct (Z.ltb_spec c 97); lia).
  split.
  - intros E. assert (R : a * b <= a' < a * b + b).
    { pose proof (Z.div_mod a' b ltac:(lia)). pose proof (Z.mod_pos_bound a' b ltac:(lia)). rewrite <- E in H. nia. }
    assert (Eq : a' = a * b + t).
    { clear E. pose proof (Z.div_mod (a * b + t) (2 ^ 64) ltac:(lia)) as Dm.
      rewrite <- Ea in Dm. clear Ea. set (q := (a * b + t) / 2 ^ 64) in *. clearbody q t.
      change (2 ^ 64) with 18446744073709551616 in *. unfold word in Ha. change (2 ^ 64) with 18446744073709551616 in *. set (ab := a * b) in *. clearbody ab. assert (q = 0) by lia. subst q. lia. }
    exists t. split; [|split; lia].
    unfold digit_of, t in *. unfold byte in Hc.
    destruct (Z.ltb_spec c 97).
    + destruct (Z.leb_spec 48 c), (Z.leb_spec c 57); cbn [andb]; try reflexivity; exfalso; lia.
    + destruct (Z.leb_spec 48 c), (Z.leb_spec c 57); cbn [andb]; try lia.
      destruct (Z.leb_spec 97 c), (Z.leb_spec c 122); cbn [andb]; try reflexivity; exfalso; lia.
  - intros d Hd Hdb Hlt. pose proof (digit_nonneg _ _ Hd).
    assert (d = t).
    { unfold digit_of, t in *. destruct (Z.leb_spec 48 c), (Z.leb_spec c 57); cbn [andb] in Hd;
        try (injection Hd as <-; destruct (Z.ltb_spec c 97); lia).
      all: destruct (Z.leb_spec 97 c), (Z.leb_spec c 122); cbn [andb] in Hd; try discriminate; injection Hd as <-; destruct (Z.ltb_spec c 97); lia. }
    subst d. rewrite Ea. destruct Ha. rewrite Z.mod_small by nia.
    rewrite Z.add_comm, Z.div_add by lia. rewrite Z.div_small by lia. lia.
Qed.

Local Lemma loop_spec b s : (b = 2 \/ b = 8 \/ b = 10 \/ b = 16) -> word_chars s ->
  let r := digits_loop s b 0 None in
  word 64 (fst r) /\ match snd r with None => denotes b s (fst r) | Some k => k = 0%nat /\ forall n, denotes b s n -> 2 ^ 64 <= n end.
Proof.
  intros Hb. induction s as [|c s IH] using rev_ind; intros Hw.
  - cbn. split; [split; [lia|reflexivity]|constructor].
  - apply Forall_app in Hw. destruct Hw as [Hw Hc]. inversion Hc as [|? ? [Bc Pc] _]; subst. specialize (IH Hw).
    cbv zeta in IH |- *. rewrite loop_app. destruct (digits_loop s b 0 None) as [a e]. cbn [fst snd] in *. destruct IH as [Wa IH].
    cbn [digits_loop]. destruct (Z.eqb_spec c 95) as [->|Nu]; cbn [fst snd].
    + split; [exact Wa|]. destruct e as [k|]; [|constructor; auto].
      destruct IH as [-> IH]. split; [reflexivity|]. intros n Hn.
      inversion Hn as [E|s' n' H' E|s' n' c d H' Hd' Hb' E]; subst; [destruct s; discriminate| |].
      * apply app_inj_tail in E. destruct E as [-> _]. auto.
      * apply app_inj_tail in E. destruct E as [_ ->]. discriminate.
    + destruct (step_ok b a c Hb Wa Bc Pc Nu) as [S1 S2]. cbv zeta in S1, S2.
      set (a' := wadd 64 _ _) in *. split; [apply wadd_word; lia|].
      assert (Over : forall k, (e = Some k \/ a <> a' / b) -> forall n, denotes b (s ++ [c]) n -> 2 ^ 64 <= n).
      { intros k Hor n Hn. inversion Hn as [E|s' n' H' E|s' n' c' d H' Hd' Hb' E]; subst; [destruct s; discriminate| |].
        - apply app_inj_tail in E. destruct E as [_ <-]. lia.
        - apply app_inj_tail in E. destruct E as [-> ->]. pose proof (digit_nonneg _ _ Hd'). pose proof (denotes_nonneg b s n' ltac:(lia) H').
          destruct e as [k'|].
          + destruct IH as [_ IH]. specialize (IH n' H'). nia.
          + destruct Hor as [|Hne]; [discriminate|]. rewrite (denotes_fun _ _ _ H' _ IH) in *.
            destruct (Z_lt_dec (a * b + d) (2 ^ 64)); [|lia]. exfalso. apply Hne. eapply S2; eauto. }
      destruct (Z.eqb_spec a (a' / b)) as [Eq|Ne].
      * destruct e as [k|].
        -- destruct IH as [-> IH]. split; [reflexivity|]. apply (Over 0%nat). left. reflexivity.
        -- destruct (S1 Eq) as (d & Hd & Hdb & ->). constructor; auto.
      * destruct e as [k|]; cbn [or_else].
        -- destruct IH as [-> IH]. split; [reflexivity|]. apply (Over 0%nat). left. reflexivity.
        -- split; [reflexivity|]. apply (Over 0%nat). right. exact Ne.
Qed.

(** The parse splits the text as its parts say. *)
Local Lemma parse_split s r body u : reads_as s r body u -> literal s r body u <> [] ->
  intlit_parse (literal s r body u) =
    let '(a, e) := digits_loop body (radix_base r) 0 None in
    let neg := match s with Minus => true | _ => false end in
    Some (intlit_of a neg e u neg (radix_base r)).
Proof.
  intros (R1 & R2 & R3) Hne. unfold intlit_parse.
  set (tail := body ++ (if u then [117] else [])) in *.
  set (pvs := radix_text r ++ tail) in *.
  assert (Hlit : literal s r body u = sign_text s ++ pvs) by reflexivity.
  (* sign *)
  assert (Hsign : exists c, nth_error (literal s r body u) 0 = Some c /\ (c =? 45) || (c =? 43) = (match s with NoSign => false | _ => true end) /\
    (match s with NoSign => false | _ => true end && (c =? 45) = match s with Minus => true | _ => false end)).
  { rewrite Hlit. destruct s; cbn.
    - exists 43. auto.
    - exists 45. auto.
    - destruct pvs as [|c t] eqn:E; [rewrite Hlit in Hne; cbn in Hne; congruence|].
      destruct (R1 eq_refl c t eq_refl). exists c. split; [reflexivity|]. destruct (Z.eqb_spec c 45), (Z.eqb_spec c 43); try congruence; auto. }
  destruct Hsign as (c0 & Hc0 & Hsg & Hneg). rewrite Hc0. cbn [obind]. rewrite Hsg. cbv zeta. rewrite Hneg.
  assert (Hpvs : (if match s with NoSign => false | _ => true end then skipn 1 (literal s r body u) else literal s r body u) = pvs).
  { rewrite Hlit. destruct s; reflexivity. }
  rewrite Hpvs. cbv zeta.
  (* prefix *)
  set (cp := if (1 <? length pvs)%nat then nth 1 pvs 0 else 0).
  assert (Hprefix : (if ((cp =? 120) || (cp =? 111) || (cp =? 98)) && (nth 0 pvs 0 =? 48) then cp else 0) =
     match r with Hex => 120 | Oct => 111 | Bin => 98 | Dec => 0 end).
  { unfold cp. destruct r; try reflexivity. cbn [radix_text app] in pvs. unfold pvs in *. specialize (R2 eq_refl).
    destruct tail as [|p0 [|p1 t]]; cbn [length Nat.ltb Nat.leb nth]; [reflexivity|reflexivity|].
    destruct (Z.eqb_spec p0 48) as [->|]; [|rewrite andb_false_r; reflexivity].
    destruct (R2 p1 t eq_refl) as (Q1 & Q2 & Q3).
    destruct (Z.eqb_spec p1 120), (Z.eqb_spec p1 111), (Z.eqb_spec p1 98); try congruence; reflexivity. }
  rewrite Hprefix.
  assert (Hvs : (if match r with Hex => 120 | Oct => 111 | Bin => 98 | Dec => 0 end =? 0 then pvs else skipn 2 pvs) = tail) by (destruct r; reflexivity).
  rewrite Hvs.
  (* suffix *)
  assert (Hsuf : (if last tail 0 =? 117 then last tail 0 else 0) = if u then 117 else 0).
  { unfold tail. destruct u; [rewrite last_last; reflexivity|]. rewrite app_nil_r.
    destruct body as [|x body' _] using rev_ind; [reflexivity|]. rewrite last_last.
    destruct (Z.eqb_spec x 117) as [->|]; [|reflexivity]. exfalso. apply (R3 eq_refl body'). reflexivity. }
  rewrite Hsuf.
  assert (Hval : (if (if u then 117 else 0) =? 0 then tail else removelast tail) = body).
  { unfold tail. destruct u; cbn [Z.eqb]; [apply removelast_last|apply app_nil_r]. }
  rewrite Hval.
  assert (Hbase : (if match r with Hex => 120 | Oct => 111 | Bin => 98 | Dec => 0 end =? 120 then 16
     else if match r with Hex => 120 | Oct => 111 | Bin => 98 | Dec => 0 end =? 111 then 8
     else if match r with Hex => 120 | Oct => 111 | Bin => 98 | Dec => 0 end =? 98 then 2 else 10) = radix_base r) by (destruct r; reflexivity).
  rewrite Hbase. destruct (digits_loop body (radix_base r) 0 None) as [a e].
  replace ((if u then 117 else 0) =? 117) with u by (destruct u; reflexivity).
  replace ((if u then 117 else 0) =? 105) with false by (destruct u; reflexivity). rewrite orb_false_r. reflexivity.
Qed.

Local Lemma radix_cases r : radix_base r = 2 \/ radix_base r = 8 \/ radix_base r = 10 \/ radix_base r = 16.
Proof. destruct r; cbn; lia. Qed.

(** ** Every text has such parts, so the theorems below cover every literal. *)
Theorem every_text_reads_as : forall text, exists s r body u, text = literal s r body u /\ reads_as s r body u.
Proof.
  intros text.
  assert (T : forall tail, exists body u, tail = body ++ (if u : bool then [117] else []) /\ (u = false -> forall t, body <> t ++ [117])).
  { intros tail. destruct tail as [|x t _] using rev_ind.
    - exists [], false. split; [reflexivity|]. intros _ t. destruct t; discriminate.
    - destruct (Z.eq_dec x 117) as [->|Nx]; [exists t, true; split; [reflexivity|discriminate]|].
      exists (t ++ [x]), false. rewrite app_nil_r. split; [reflexivity|]. intros _ t' E. apply app_inj_tail in E. destruct E. congruence. }
  assert (P : forall pvs, exists r tail, pvs = radix_text r ++ tail /\ (r = Dec -> forall p t, tail = 48 :: p :: t -> p <> 120 /\ p <> 111 /\ p <> 98)).
  { intros pvs. destruct pvs as [|p0 [|p1 t]].
    - exists Dec, []. split; [reflexivity|]. discriminate.
    - exists Dec, [p0]. split; [reflexivity|]. discriminate.
    - destruct (Z.eq_dec p0 48) as [->|].
      + destruct (Z.eq_dec p1 120) as [->|]; [exists Hex, t; split; [reflexivity|discriminate]|].
        destruct (Z.eq_dec p1 111) as [->|]; [exists Oct, t; split; [reflexivity|discriminate]|].
        destruct (Z.eq_dec p1 98) as [->|]; [exists Bin, t; split; [reflexivity|discriminate]|].
        exists Dec, (48 :: p1 :: t). split; [reflexivity|]. intros _ p t' E. injection E as <- _. auto.
      + exists Dec, (p0 :: p1 :: t). split; [reflexivity|]. intros _ p t' E. congruence. }
  assert (Sg : exists s pvs, text = sign_text s ++ pvs /\ (s = NoSign -> forall c t, pvs = c :: t -> c <> 43 /\ c <> 45)).
  { destruct text as [|c t]; [exists NoSign, []; split; [reflexivity|discriminate]|].
    destruct (Z.eq_dec c 43) as [->|]; [exists Plus, t; split; [reflexivity|discriminate]|].
    destruct (Z.eq_dec c 45) as [->|]; [exists Minus, t; split; [reflexivity|discriminate]|].
    exists NoSign, (c :: t). split; [reflexivity|]. intros _ c' t' E. injection E as <- _. auto. }
  destruct Sg as (s & pvs & -> & H1). destruct (P pvs) as (r & tail & -> & H2). destruct (T tail) as (body & u & -> & H3).
  exists s, r, body, u. split; [reflexivity|]. unfold reads_as. auto.
Qed.
Print Assumptions every_text_reads_as.

Definition sign_value (s : sign) (n : Z) : Z := match s with Minus => - n | _ => n end.

(** ** The value is exact or an error is reported. *)
Theorem literal_value_is_exact : forall s r body u, reads_as s r body u -> word_chars body -> literal s r body u <> [] ->
  exists L, intlit_parse (literal s r body u) = Some L /\
    (err L = None <->
       exists n, denotes (radix_base r) body n /\ n < 2 ^ 64 /\ ~ (s = Minus /\ u = true) /\ (s = Minus -> n <= 2 ^ 63)) /\
    (err L = None -> denotes (radix_base r) body (absval L) /\ is_negative L = (match s with Minus => true | _ => false end)) /\
    (err L = Some 0%nat <-> ~ exists n, denotes (radix_base r) body n /\ n < 2 ^ 64) /\
    is_unsigned L = u /\ base L = radix_base r.
Proof.
  intros s r body u R W N. rewrite (parse_split s r body u R N).
  pose proof (loop_spec (radix_base r) body (radix_cases r) W) as H. cbv zeta in H.
  destruct (digits_loop body (radix_base r) 0 None) as [a e]. cbn [fst snd] in H. destruct H as [Wa H].
  eexists. split; [reflexivity|]. unfold word in Wa.
  set (neg := match s with Minus => true | _ => false end).
  assert (En : neg = true <-> s = Minus) by (unfold neg; destruct s; intuition congruence).
  set (L := intlit_of a neg e u neg (radix_base r)).
  assert (Ab : absval L = a) by reflexivity.
  assert (Ee : err L = or_else (or_else e (if neg && u then Some 1%nat else None)) (if neg && (2 ^ 63 <? a) then Some 2%nat else None)).
  { unfold L, intlit_of. cbn [err]. f_equal. destruct neg; cbn [andb].
    - destruct (Z.eqb_spec a 0) as [->|Na]; cbn [negb]; [reflexivity|].
      replace (wsub 64 a 1) with (a - 1) by (symmetry; apply wrap_small; unfold word; lia).
      change 9223372036854775808 with (2 ^ 63). 
      destruct (Z.ltb_spec (a - 1) 128), (Z.ltb_spec (a - 1) 32768), (Z.ltb_spec (a - 1) 2147483648), (Z.ltb_spec (a - 1) (2 ^ 63)), (Z.ltb_spec (2 ^ 63) a); cbn; try reflexivity;
        change (2 ^ 63) with 9223372036854775808 in *; lia.
    - destruct (a <? 256), (a <? 65536), (a <? 4294967296); reflexivity. }
  assert (Hb8 : base L = radix_base r) by (destruct r; reflexivity).
  assert (Inv : forall n, denotes (radix_base r) body n -> e = None -> n = a) by (intros n Hn ->; eapply denotes_fun; eauto).
  refine (conj _ (conj _ (conj _ (conj eq_refl Hb8)))).
  - rewrite Ee. split.
    + intros Q. destruct e; [discriminate|]. cbn [or_else] in Q. exists a. split; [exact H|]. split; [lia|].
      destruct neg; cbn [andb] in Q.
      * destruct u; [discriminate|]. cbn [or_else] in Q. destruct (Z.ltb_spec (2 ^ 63) a); [discriminate|].
        split; [intros [_ ?]; discriminate|auto].
      * split; [intros [Q1 _]; apply En in Q1; discriminate|]. intros Q1. apply En in Q1. discriminate.
    + intros (n & Hn & Hlt & Hu & Hm). destruct e as [k|]; [destruct H as [_ H]; specialize (H n Hn); lia|].
      rewrite (Inv n Hn eq_refl) in *. cbn [or_else]. destruct neg; cbn [andb].
      * destruct u; [exfalso; apply Hu; split; auto; apply En; reflexivity|]. cbn [or_else].
        destruct (Z.ltb_spec (2 ^ 63) a); [|reflexivity]. specialize (Hm (proj1 En eq_refl)). lia.
      * reflexivity.
  - rewrite Ee. intros Q. destruct e; [discriminate|]. rewrite Ab. split; [exact H|reflexivity].
  - rewrite Ee. destruct e as [k|]; cbn [or_else].
    + destruct H as [-> H]. split; [|reflexivity]. intros _ (n & Hn & Hlt). specialize (H n Hn). lia.
    + split.
      * destruct (neg && u); cbn; [discriminate|]. destruct (neg && _); discriminate.
      * intros Q. exfalso. apply Q. exists a. split; [exact H|lia].
Qed.
Print Assumptions literal_value_is_exact.

(** ** The reported widths are the least that hold the value. *)
Theorem literal_widths_are_least : forall text L, intlit_parse text = Some L ->
  let v := if is_negative L then - absval L else absval L in
  (if minsize_i L =? 128 then forall b, b = 8 \/ b = 16 \/ b = 32 \/ b = 64 -> ~ fits_signed b v
   else least_size fits_signed (minsize_i L) v) /\
  (is_negative L = false -> least_size fits_unsigned (minsize_u L) v) /\
  (is_negative L = true -> minsize_u L = 255) /\
  (minsize_f L = 32 <-> Z.abs v < 2 ^ 24).
Proof.
  intros text L E. assert (F : exists a neg e u sg b, L = intlit_of a neg e u sg b /\ word 64 a).
  { unfold intlit_parse in E. destruct (nth_error text 0); [|discriminate]. cbn [obind] in E. cbv zeta in E.
    match type of E with context [digits_loop ?v ?b 0 None] => assert (Wa : word 64 (fst (digits_loop v b 0 None))) end.
    { assert (G : forall v b a e, word 64 a -> word 64 (fst (digits_loop v b a e))).
      { induction v as [|c v IH]; intros b a e Ha; cbn [digits_loop]; [exact Ha|]. destruct (c =? 95); [apply IH; auto|]. apply IH. apply wadd_word. lia. }
      apply G. split; [lia|reflexivity]. }
    destruct (digits_loop _ _ 0 None) as [a e]. injection E as <-. eexists _, _, _, _, _, _. split; [reflexivity|exact Wa]. }
  destruct F as (a & neg & e & u & sg & b & -> & Wa). clear E text. unfold intlit_of. cbn [is_negative absval minsize_i minsize_u minsize_f]. cbv zeta.
  unfold word in Wa. change (2 ^ 64) with 18446744073709551616 in Wa.
  set (sv := if neg && negb (a =? 0) then wsub 64 a 1 else a).
  assert (Es : sv = if neg && negb (a =? 0) then a - 1 else a).
  { unfold sv. destruct (neg && negb (a =? 0)) eqn:Q; [|reflexivity]. apply andb_true_iff in Q. destruct Q as [_ Q]. apply negb_true_iff, Z.eqb_neq in Q.
    apply wrap_small. unfold word. change (2 ^ 64) with 18446744073709551616. lia. }
  clearbody sv.
  assert (P8 : 2 ^ (8 - 1) = 128) by reflexivity. assert (P16 : 2 ^ (16 - 1) = 32768) by reflexivity.
  assert (P32 : 2 ^ (32 - 1) = 2147483648) by reflexivity. assert (P64 : 2 ^ (64 - 1) = 9223372036854775808) by reflexivity.
  assert (Q8 : 2 ^ 8 = 256) by reflexivity. assert (Q16 : 2 ^ 16 = 65536) by reflexivity.
  assert (Q32 : 2 ^ 32 = 4294967296) by reflexivity. assert (Q64 : 2 ^ 64 = 18446744073709551616) by reflexivity.
  refine (conj _ (conj _ (conj _ _))).
  - assert (K : forall b, b = 8 \/ b = 16 \/ b = 32 \/ b = 64 -> (fits_signed b (if neg then - a else a) <-> sv < 2 ^ (b - 1))).
    { intros bb Hbb. unfold fits_signed. rewrite Es. destruct neg; cbn [andb].
      - destruct (Z.eqb_spec a 0) as [->|]; cbn [negb]; destruct Hbb as [->|[->|[->| ->]]]; rewrite ?P8, ?P16, ?P32, ?P64; lia.
      - destruct Hbb as [->|[->|[->| ->]]]; rewrite ?P8, ?P16, ?P32, ?P64; lia. }
    destruct (Z.ltb_spec sv 128); [|destruct (Z.ltb_spec sv 32768); [|destruct (Z.ltb_spec sv 2147483648); [|destruct (Z.ltb_spec sv 9223372036854775808)]]]; cbn [Z.eqb].
    1-4: split; [tauto|]; split; [apply K; [tauto|lia]|]; intros bb Hbb Hf; apply K in Hf; auto; destruct Hbb as [->|[->|[->| ->]]]; rewrite ?P8, ?P16, ?P32, ?P64 in Hf; lia.
    change (128 =? 128) with true. cbv iota. intros bb Hbb Hf. apply K in Hf; auto. destruct Hbb as [->|[->|[->| ->]]]; rewrite ?P8, ?P16, ?P32, ?P64 in Hf; lia.
  - intros ->. unfold least_size, fits_unsigned.
    destruct (Z.ltb_spec a 256); [|destruct (Z.ltb_spec a 65536); [|destruct (Z.ltb_spec a 4294967296)]];
    (split; [tauto|]; split; [rewrite ?Q8, ?Q16, ?Q32, ?Q64; lia|]; intros bb Hbb Hf; destruct Hbb as [->|[->|[->| ->]]]; rewrite ?Q8, ?Q16, ?Q32, ?Q64 in Hf; lia).
  - intros ->. reflexivity.
  - change (2 ^ 24) with 16777216. destruct (Z.ltb_spec a 16777216); destruct neg; split; intros; try lia; try discriminate; exfalso; lia.
Qed.
Print Assumptions literal_widths_are_least.

(** Outside the lexer's alphabet the digit test has a hole: in base 16 the six characters after '9'
    count as the digits ten to fifteen. *)
Theorem literal_value_refuted : exists L, intlit_parse [48; 120; 58] = Some L /\ err L = None /\ absval L = 10.
Proof. eexists. split; [reflexivity|]. split; reflexivity. Qed.
Print Assumptions literal_value_refuted.

(** ** Non-vacuity: -0x1_f, and 2^64 rejected. *)
Example lit_example : reads_as Minus Hex [49; 95; 102] false /\ word_chars [49; 95; 102] /\
  literal Minus Hex [49; 95; 102] false = [45; 48; 120; 49; 95; 102] /\
  match intlit_parse [45; 48; 120; 49; 95; 102] with Some L => (absval L, minsize_i L, err L) = (31, 8, None) | None => False end.
Proof.
  split; [|split; [|split; reflexivity]].
  - split; [discriminate|]. split; [discriminate|]. intros _ t E.
    change [49; 95; 102] with ([49; 95] ++ [102]) in E. apply app_inj_tail in E. destruct E; discriminate.
  - unfold word_chars, byte. constructor; [lia|]. constructor; [lia|]. constructor; [lia|]. constructor.
Qed.
Example lit_overflow : match intlit_parse [49;56;52;52;54;55;52;52;48;55;51;55;48;57;53;53;49;54;49;54] with Some L => err L = Some 0%nat | None => False end.
Proof. vm_compute. reflexivity. Qed.
