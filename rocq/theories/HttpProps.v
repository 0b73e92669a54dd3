(** C41: lib/ev/HTTP.fu. *)
From Verif Require Import HttpSpec PreludeProofs PreludeProps CommonLemmas DecProps.
Open Scope nat_scope.
Local Notation length := List.length.

Local Lemma zeqb : forall x y : Z, Z.eqb x y = true <-> x = y.
Proof. intros x y. apply Z.eqb_eq. Qed.
Local Lemma find_in_spec h n s e : e <= length h -> (Z.of_nat (length h) + Z.of_nat (length n) <= 2 ^ 31)%Z -> s <= e ->
  exists r, find_in h n s e = Some r /\ first_occurrence h n s e r.
Proof.
  intros le b l. unfold find_in. rewrite Nat.min_l by exact l. apply find_window_is_the_first_occurrence; auto. exact zeqb.
Qed.
Local Lemma find_in_total h n s e : e <= length h -> (Z.of_nat (length h) + Z.of_nat (length n) <= 2 ^ 31)%Z ->
  exists r, find_in h n s e = Some r /\ first_occurrence h n (Nat.min s e) e r.
Proof. intros le b. unfold find_in. apply find_window_is_the_first_occurrence; auto; [exact zeqb|lia]. Qed.
Local Lemma beq_true a b : beq a b = true <-> a = b.
Proof. unfold beq. destruct (list_eq_dec Z.eq_dec a b); split; auto; discriminate. Qed.
Local Lemma beq_refl a : beq a a = true.
Proof. apply beq_true. reflexivity. Qed.
Local Lemma firstn_len {T} (a b : list T) n : n = length a -> firstn n (a ++ b) = a.
Proof. intros ->. apply firstn_mid. Qed.
Local Lemma skipn_len {T} (a b : list T) n : n = length a -> skipn n (a ++ b) = b.
Proof. intros ->. rewrite skipn_app, skipn_all, Nat.sub_diag. reflexivity. Qed.

(* ---------- the request line ---------- *)
Local Lemma find_item_at (h1 h2 : list Z) c : ~ In c h1 -> find_item Z.eqb (h1 ++ c :: h2) c = Some (length h1).
Proof.
  intros n. unfold find_item. change (length h1) with (0 + length h1). generalize 0 as i.
  induction h1 as [|x h1 IH]; intros i; cbn.
  - rewrite Z.eqb_refl. f_equal. lia.
  - destruct (Z.eqb_spec x c) as [->|ne]; [exfalso; apply n; left; reflexivity|]. rewrite IH by (intros k; apply n; right; exact k). f_equal. lia.
Qed.
Local Lemma find_item_split (h : list Z) c k : find_item Z.eqb h c = Some k -> exists h1 h2, h = h1 ++ c :: h2 /\ length h1 = k /\ ~ In c h1.
Proof.
  unfold find_item. intros e.
  assert (g : forall i k, find_item_from Z.eqb h c i = Some k -> exists h1 h2, h = h1 ++ c :: h2 /\ i + length h1 = k /\ ~ In c h1).
  { clear. induction h as [|x h IH]; intros i k e; cbn in e; [discriminate|].
    destruct (Z.eqb_spec x c) as [->|ne].
    - injection e as <-. exists [], h. cbn. repeat split; auto.
    - destruct (IH _ _ e) as (h1 & h2 & -> & l & n). exists (x :: h1), h2. cbn. repeat split; [lia|]. intros [q|q]; auto. }
  destruct (g 0 k e) as (h1 & h2 & a & b & d). eauto.
Qed.
Local Lemma request_line_ok url H : url_ok url -> request_line (get_line url) H = Done url H.
Proof.
  intros ((r & ->) & ns & _). unfold request_line, get_line.
  set (url := 47%Z :: r) in *.
  assert (e1 : bytes "GET " ++ url ++ bytes " HTTP/1.1" = [71; 69; 84]%Z ++ SP :: (url ++ SP :: bytes "HTTP/1.1")) by reflexivity.
  rewrite e1. rewrite find_item_at by (cbn; unfold SP; lia). cbn [length Nat.ltb Nat.leb].
  rewrite (app_assoc [71; 69; 84]%Z [SP] (url ++ SP :: bytes "HTTP/1.1") : [71; 69; 84]%Z ++ SP :: (url ++ SP :: bytes "HTTP/1.1") = _).
  rewrite skipn_len by reflexivity. rewrite find_item_at by exact ns.
  change (url ++ SP :: bytes "HTTP/1.1") with (url ++ [SP] ++ bytes "HTTP/1.1").
  rewrite (app_assoc ([71; 69; 84]%Z ++ [SP]) url). rewrite (app_assoc (([71; 69; 84]%Z ++ [SP]) ++ url) [SP]).
  rewrite skipn_len, firstn_len by (rewrite !app_length; cbn [length]; lia).
  rewrite beq_refl. cbn [negb].
  assert (m : firstn 3 ((([71; 69; 84]%Z ++ [SP]) ++ url) ++ [SP]) = bytes "GET") by reflexivity. rewrite m, beq_refl. cbn [negb].
  unfold sub_list. rewrite <- (app_assoc _ url [SP]). rewrite skipn_len by reflexivity.
  rewrite firstn_len by lia. reflexivity.
Qed.
Local Lemma request_line_sound line H url H' : request_line line H = Done url H' -> line = get_line url /\ H' = H /\ (exists r, url = 47%Z :: r) /\ ~ In SP url.
Proof.
  unfold request_line. intros e. destruct (find_item Z.eqb line SP) as [k0|] eqn:f0; [|discriminate].
  destruct (Nat.ltb_spec k0 3) as [|g]; [discriminate|].
  destruct (find_item_split _ _ _ f0) as (m & rest & -> & l0 & n0). subst k0.
  rewrite (app_assoc m [SP] rest : m ++ SP :: rest = _) in e.
  rewrite skipn_len in e by (rewrite app_length; reflexivity).
  destruct (find_item Z.eqb rest SP) as [k1|] eqn:f1; [|discriminate].
  destruct (find_item_split _ _ _ f1) as (u & v & -> & l1 & n1). subst k1.
  rewrite (app_assoc u [SP] v : u ++ SP :: v = _) in e. rewrite (app_assoc (m ++ [SP]) (u ++ [SP]) v) in e.
  rewrite skipn_len, firstn_len in e by (rewrite !app_length; cbn [length]; lia).
  destruct (beq v (bytes "HTTP/1.1")) eqn:ev; [|discriminate]. apply beq_true in ev. cbn [negb] in e.
  unfold sub_list in e. rewrite skipn_len in e by (rewrite app_length; reflexivity). rewrite (firstn_len u) in e by lia.
  rewrite <- (app_assoc m) in e. rewrite firstn_len in e by reflexivity.
  destruct (beq m (bytes "GET")) eqn:em; [|discriminate]. apply beq_true in em. cbn [negb] in e.
  destruct u as [|c r]; [discriminate|]. destruct (Z.eq_dec c 47) as [->|nc].
  - injection e as <- <-. subst m v. refine (conj _ (conj eq_refl (conj _ n1))); [|eauto].
    reflexivity.
  - exfalso. revert e. destruct c as [|p|p]; try discriminate. repeat (destruct p as [p|p|]; try discriminate; try lia).
Qed.

(* ---------- occurrences ---------- *)
Local Lemma occurs_nth2 (h : list Z) n k i x : occurs_at h n k -> nth_error n i = Some x -> nth_error h (k + i) = Some x.
Proof.
  intros (pre & suf & -> & <-) e. rewrite nth_error_app_r by lia. replace (length pre + i - length pre) with i by lia.
  rewrite nth_error_app_l by (apply nth_error_lt in e; exact e). exact e.
Qed.
Local Lemma first_is (h n : list Z) s e k r : first_occurrence h n s e r -> occurs_at h n k -> s <= k -> k + length n <= e ->
  (forall j, s <= j < k -> ~ occurs_at h n j) -> r = Some k.
Proof.
  intros f o l1 l2 m. destruct r as [k'|]; cbn in f.
  - destruct f as [(o' & a & b) mn]. f_equal. specialize (mn k (conj o (conj l1 l2))). destruct (Nat.eq_dec k' k) as [->|ne]; [reflexivity|].
    exfalso. apply (m k'); [lia|exact o'].
  - exfalso. apply (f k). auto.
Qed.
Local Lemma no_cr_no_crlf (l r : list Z) n k : ~ In 13%Z l -> nth_error n 0 = Some 13%Z -> k < length l -> ~ occurs_at (l ++ r) n k.
Proof.
  intros ni n0 lk o. pose proof (occurs_nth2 _ _ _ _ _ o n0) as q. rewrite Nat.add_0_r in q. rewrite nth_error_app_l in q by exact lk.
  apply ni. eapply nth_error_In, q.
Qed.
(** No empty line inside a header block but the one at its end. *)
Local Lemma block_first lines rest j : Forall header_ok lines ->
  j + 4 < length (header_block lines) -> ~ occurs_at (header_block lines ++ rest) (CRLF ++ CRLF) j.
Proof.
  unfold header_block. intros f.
  (* after a CRLF: the rest of the block is either the final CRLF or a line *)
  assert (g : forall lines, Forall header_ok lines -> forall j, j + 4 < length (CRLF ++ concat (map (fun l => l ++ CRLF) lines) ++ CRLF) ->
    ~ occurs_at ((CRLF ++ concat (map (fun l => l ++ CRLF) lines) ++ CRLF) ++ rest) (CRLF ++ CRLF) j).
  { clear. induction lines as [|l lines IH]; intros f j lj o; cbn [map concat] in *; rewrite ?app_length in lj; cbn [length CRLF] in lj; [lia|].
    inversion_clear f as [|? ? [ln lc] fl].
    pose proof (fun i x => occurs_nth2 _ _ _ i x o) as at_.
    rewrite <- !app_assoc in at_. cbn [app CRLF] in at_.
    destruct l as [|c l]; [congruence|].
    destruct j as [|[|j]].
    - specialize (at_ 2 13%Z eq_refl). cbn in at_. injection at_ as ->. apply lc. left. reflexivity.
    - specialize (at_ 0 13%Z eq_refl). cbn in at_. discriminate.
    - destruct (Nat.lt_ge_cases j (length (c :: l))) as [a|a].
      + specialize (at_ 0 13%Z eq_refl). rewrite Nat.add_0_r in at_. cbn [nth_error] in at_.
        rewrite nth_error_app_l in at_ by exact a. apply lc. eapply nth_error_In, at_.
      + apply (IH fl (j - length (c :: l))).
        * rewrite !app_length. cbn [length CRLF] in *. lia.
        * destruct o as (pre & suf & e & lp). exists (skipn (2 + length (c :: l)) pre), suf. split; [|rewrite skipn_length; lia].
          transitivity (skipn (2 + length (c :: l)) ((CRLF ++ ((c :: l) ++ CRLF) ++ concat (map (fun l => l ++ CRLF) lines)) ++ CRLF ++ rest)).
          { symmetry. rewrite <- !app_assoc. rewrite (app_assoc CRLF (c :: l)). rewrite skipn_len by reflexivity. reflexivity. }
          transitivity (skipn (2 + length (c :: l)) (pre ++ (CRLF ++ CRLF) ++ suf)); [rewrite <- e; rewrite <- !app_assoc; reflexivity|].
          rewrite skipn_app. replace (2 + length (c :: l) - length pre) with 0 by lia. reflexivity. }
  exact (g lines f j).
Qed.

(* ---------- requests ---------- *)
Local Definition okbuf (b : rbuf) : Prop := rb_he b = 0 /\ (rb_hs b <> 0 -> occurs_at (rb_data b) CRLF (rb_hs b)).
Local Lemma start_line_spec b data0 hs f : okbuf b -> (Z.of_nat (length (rb_data b)) + 4 <= 2 ^ 31)%Z -> start_line b data0 = Some (hs, f) ->
  (f = None -> occurs_at (rb_data b) CRLF hs) /\ (hs <> 0 -> occurs_at (rb_data b) CRLF hs).
Proof.
  intros [o1 o2] bd. unfold start_line. destruct (Nat.eqb_spec (rb_hs b) 0) as [z|nz]; cbn [negb].
  - destruct (find_in_total (rb_data b) CRLF (data0 - 1) (Nat.min (length (rb_data b)) MAX_START_LINE)) as (r & -> & fo); [lia|cbn [length CRLF]; lia|].
    cbn [obind]. destruct r as [k|].
    + intros e. injection e as <- <-. destruct fo as [(oc & _) _]. auto.
    + rewrite (proj2 (Nat.leb_le _ _)) by lia. intros e. injection e as <- <-. split; [discriminate|congruence].
  - intros e. injection e as <- <-. auto.
Qed.
Local Lemma headers_spec b hs data0 n he f : okbuf b -> (Z.of_nat (length (rb_data b)) + 4 <= 2 ^ 31)%Z -> headers_part b hs data0 n = Some (he, f) ->
  (f = None -> exists k, he = k + 4 /\ hs <= k /\ data0 - 3 <= k /\ occurs_at (rb_data b) (CRLF ++ CRLF) k) /\ (f <> None -> he = 0).
Proof.
  intros [o1 o2] bd. unfold headers_part. rewrite o1. cbn [Nat.eqb negb].
  destruct (find_in_total (rb_data b) (CRLF ++ CRLF) (Nat.max (data0 - 3) hs) (Nat.min (length (rb_data b)) (hs + MAX_HEADERS))) as (r & -> & fo); [lia|cbn [length CRLF app]; lia|].
  cbn [obind]. destruct r as [k|].
  - intros e. injection e as <- <-. destruct fo as [(oc & l1 & l2) _]. cbn [length CRLF app] in l2. split; [|congruence]. intros _. exists k. repeat split; auto; lia.
  - rewrite (proj2 (Nat.leb_le _ _)) by lia. intros e. injection e as <- <-. split; [discriminate|reflexivity].
Qed.
Local Lemma occurs_app (h t n : list Z) k : occurs_at h n k -> occurs_at (h ++ t) n k.
Proof. intros (p & s & -> & l). exists p, (s ++ t). rewrite <- !app_assoc. auto. Qed.

Local Lemma sconn_ok b : sconn b -> okbuf b.
Proof.
  induction 1 as [|b arrived b' o c [o1 o2] sm e]; [split; cbn; auto; lia|].
  unfold on_readable in e. set (B := {| rb_data := rb_data b ++ arrived; rb_hs := rb_hs b; rb_he := rb_he b |}) in *.
  assert (okB : okbuf B) by (split; [exact o1|intros nz; apply occurs_app, o2, nz]).
  destruct arrived as [|c0 ar] eqn:ea; [injection e as <- <-; exact okB|].
  unfold try_parse_request in e. destruct (start_line B _) as [[hs f]|] eqn:sl; [|discriminate]. cbn [obind fst snd] in e.
  destruct (start_line_spec _ _ _ _ okB sm sl) as [a1 a2].
  destruct f as [f|]; [injection e as <- <-; split; [exact o1|exact a2]|].
  destruct (headers_part B hs _ _) as [[he f]|] eqn:hp; [|discriminate]. cbn [obind fst snd] in e.
  destruct (headers_spec _ _ _ _ _ _ okB sm hp) as [b1 b2].
  destruct f as [f|]; [injection e as <- <-; split; [apply b2; discriminate|exact a2]|].
  injection e as <- <-. split; cbn; auto; lia.
Qed.

(** Parsing never reads out of bounds or fails in any other way, however the bytes arrive. *)
Theorem http_parsing_is_total : forall b arrived, sconn b -> small b arrived -> exists b' o, on_readable b arrived = Some (b', o).
Proof.
  intros b arrived c sm. unfold on_readable. destruct (sconn_ok b c) as [o1 o2].
  set (B := {| rb_data := rb_data b ++ arrived; rb_hs := rb_hs b; rb_he := rb_he b |}) in *.
  assert (sB : (Z.of_nat (length (rb_data B)) + 4 <= 2 ^ 31)%Z) by exact sm.
  destruct arrived as [|c0 ar] eqn:ea; [eauto|].
  unfold try_parse_request, start_line, headers_part. change (rb_he B) with (rb_he b). rewrite o1. cbn [Nat.eqb negb].
  assert (t : forall n s e, e <= length (rb_data B) -> length n <= 4 -> exists r, find_in (rb_data B) n s e = Some r).
  { intros n s e l1 l2. destruct (find_in_total (rb_data B) n s e l1) as (r & q & _); [lia|]. eauto. }
  destruct (negb (rb_hs B =? 0)).
  - cbn [obind fst snd]. edestruct t as [r ->]; [| |cbn [obind]]; [apply Nat.le_min_l|cbn; lia|].
    destruct r; cbn [obind fst snd]; [eauto|]. repeat (match goal with |- context [if ?x then _ else _] => destruct x end; cbn [obind fst snd]); eauto.
  - edestruct (t CRLF) as [r ->]; [apply Nat.le_min_l|cbn; lia|]. cbn [obind].
    assert (t2 : forall hs s, exists r, find_in (rb_data B) (CRLF ++ CRLF) s (Nat.min (length (rb_data B)) (hs + MAX_HEADERS)) = Some r) by (intros; apply t; [lia|cbn; lia]).
    destruct r as [k|]; cbn [obind fst snd].
    + edestruct (t2 k) as [r ->]. cbn [obind]. destruct r; cbn [obind fst snd]; [eauto|].
      repeat (match goal with |- context [if ?x then _ else _] => destruct x end; cbn [obind fst snd]); eauto.
    + rewrite (proj2 (Nat.leb_le _ _)) by lia. cbn [obind fst snd]. eauto.
Qed.
Print Assumptions http_parsing_is_total.

(** A request that is served is what was received: the bytes so far are a GET line, the headers (from the line end that
    follows it to the empty line) and what has arrived beyond them, which stays for the next request. *)
Theorem http_served_requests_are_genuine : forall b arrived b' url headers, sconn b -> small b arrived ->
  on_readable b arrived = Some (b', Done url headers) ->
  rb_data b ++ arrived = get_line url ++ headers ++ rb_data b' /\ rb_hs b' = 0 /\ rb_he b' = 0 /\
  (exists r, url = 47%Z :: r) /\ ~ In SP url /\
  (exists r, headers = CRLF ++ r) /\ (exists r, headers = r ++ CRLF ++ CRLF) /\
  (rb_data b = [] -> forall k, occurs_at (get_line url ++ CRLF) CRLF k -> length (get_line url) <= k).
Proof.
  intros b arrived b' url headers c sm e. pose proof (sconn_ok b c) as ok. destruct ok as [o1 o2]. unfold on_readable in e.
  set (B := {| rb_data := rb_data b ++ arrived; rb_hs := rb_hs b; rb_he := rb_he b |}) in *.
  assert (okB : okbuf B) by (split; [exact o1|intros nz; apply occurs_app, o2, nz]).
  assert (sB : (Z.of_nat (length (rb_data B)) + 4 <= 2 ^ 31)%Z) by exact sm.
  assert (dB : rb_data B = rb_data b ++ arrived) by reflexivity. assert (hB : rb_hs B = rb_hs b) by reflexivity. clearbody B. clear sm.
  rewrite <- dB in *.
  destruct arrived as [|c0 ar] eqn:ea; [discriminate|]. clear ea.
  unfold try_parse_request in e. destruct (start_line B _) as [[hs f]|] eqn:sl; [|discriminate]. cbn [obind fst snd] in e.
  destruct (start_line_spec _ _ _ _ okB sB sl) as [a1 a2].
  destruct f as [f|]; [discriminate|]. specialize (a1 eq_refl).
  destruct (headers_part B hs _ _) as [[he f]|] eqn:hp; [|discriminate]. cbn [obind fst snd] in e.
  destruct (headers_spec _ _ _ _ _ _ okB sB hp) as [b1 b2].
  destruct f as [f|]; [discriminate|]. destruct (b1 eq_refl) as (k & -> & lk & lk2 & oc).
  injection e as eb e. subst b'. cbn [rb_data rb_hs rb_he].
  destruct (request_line_sound _ _ _ _ e) as (l1 & l2 & l3 & l4).
  destruct oc as (pre & suf & ed & lp).
  assert (fh : firstn (k + 4) (rb_data B) = pre ++ CRLF ++ CRLF).
  { rewrite ed. rewrite (app_assoc pre). apply firstn_len. rewrite !app_length. cbn [length CRLF]. lia. }
  assert (sk : rb_data B = firstn (k + 4) (rb_data B) ++ skipn (k + 4) (rb_data B)) by (symmetry; apply firstn_skipn).
  assert (hsplit : firstn (k + 4) (rb_data B) = get_line url ++ headers).
  { rewrite l2, <- l1. symmetry. apply firstn_skipn. }
  assert (lhs : length (get_line url) = hs).
  { rewrite <- l1, fh, firstn_length, !app_length. cbn [length CRLF]. lia. }
  refine (conj _ (conj eq_refl (conj eq_refl (conj l3 (conj l4 (conj _ (conj _ _))))))).
  - rewrite sk at 1. rewrite hsplit, <- app_assoc. reflexivity.
  - (* CRLF at hs *)
    destruct a1 as (p1 & s1 & e1 & q1).
    assert (pg : p1 = get_line url).
    { rewrite <- lhs in q1. rewrite <- (firstn_len p1 (CRLF ++ s1) _ (eq_sym q1)), <- e1. rewrite sk, hsplit, <- app_assoc. apply firstn_len. reflexivity. }
    rewrite sk, hsplit, <- app_assoc in e1. rewrite pg in e1. apply app_inv_head in e1.
    assert (lh : 4 <= length headers). { apply (f_equal (@List.length Z)) in hsplit. rewrite fh, !app_length in hsplit. cbn [length CRLF] in hsplit. lia. }
    destruct headers as [|x [|y r]]; cbn [length] in lh; try lia. cbn [app CRLF] in e1. injection e1 as -> -> _. exists r. reflexivity.
  - exists (skipn hs pre). rewrite l2, fh. rewrite skipn_app. replace (hs - length pre) with 0 by lia. reflexivity.
  - intros em j oj. destruct (Nat.lt_ge_cases j (length (get_line url))) as [lt|ge]; [exfalso|exact ge].
    (* the first line end found is the first one *)
    assert (oB : occurs_at (rb_data B) CRLF j).
    { destruct oj as (p & s & q1 & q2).
      assert (hd : exists r, headers = CRLF ++ r).
      { destruct a1 as (p1 & s1 & e1 & q).
        assert (pg : p1 = get_line url).
        { rewrite <- lhs in q. rewrite <- (firstn_len p1 (CRLF ++ s1) _ (eq_sym q)), <- e1. rewrite sk, hsplit, <- app_assoc. apply firstn_len. reflexivity. }
        rewrite sk, hsplit, <- app_assoc in e1. rewrite pg in e1. apply app_inv_head in e1.
        assert (lh : 4 <= length headers). { apply (f_equal (@List.length Z)) in hsplit. rewrite fh, !app_length in hsplit. cbn [length CRLF] in hsplit. lia. }
        destruct headers as [|x [|y r]]; cbn [length] in lh; try lia. cbn [app CRLF] in e1. injection e1 as -> -> _. exists r. reflexivity. }
      destruct hd as [r hr]. exists p, (s ++ r ++ skipn (k + 4) (rb_data B)). split; [|exact q2].
      rewrite sk at 1. rewrite hsplit, hr, <- !app_assoc. rewrite (app_assoc (get_line url) CRLF), q1, <- !app_assoc. reflexivity. }
    unfold start_line in sl. destruct (Nat.eqb_spec (rb_hs B) 0) as [z|nz]; cbn [negb] in sl.
    + rewrite em in sl. cbn [length Nat.sub] in sl.
      destruct (find_in_spec (rb_data B) CRLF 0 (Nat.min (length (rb_data B)) MAX_START_LINE)) as (r & q & fo); [lia|cbn [length CRLF]; lia|lia|].
      rewrite q in sl. cbn [obind] in sl. destruct r as [k'|].
      * injection sl as ->. destruct fo as [(oc' & _ & l') mn]. rewrite lhs in lt.
        assert (hs <= j); [|lia]. apply mn. refine (conj oB (conj (Nat.le_0_l _) _)). cbn [length CRLF] in *. lia.
      * rewrite (proj2 (Nat.leb_le _ _)) in sl by lia. discriminate.
    + (* hs was set although nothing was left: impossible *)
      exfalso. rewrite hB in nz. destruct (o2 nz) as (p & s & q & _). rewrite em in q. destruct p; discriminate.
Qed.
Print Assumptions http_served_requests_are_genuine.

(** A complete GET request that arrives in one piece is served: its URL and its headers are handed over, and whatever
    follows it stays in the buffer. *)
Theorem http_complete_request_is_served : forall url lines rest,
  url_ok url -> Forall header_ok lines ->
  length (get_line url) + 2 <= MAX_START_LINE -> length (header_block lines) <= MAX_HEADERS ->
  let arrived := get_line url ++ header_block lines ++ rest in
  (Z.of_nat (length arrived) + 4 <= 2 ^ 31)%Z ->
  on_readable {| rb_data := []; rb_hs := 0; rb_he := 0 |} arrived =
    Some ({| rb_data := rest; rb_hs := 0; rb_he := 0 |}, Done url (header_block lines)).
Proof.
  intros url lines rest uo ho l1 l2 arrived bd. unfold on_readable. cbn [rb_data rb_hs rb_he app].
  destruct arrived as [|a0 ar] eqn:ea; [discriminate|]. rewrite <- ea in *. clear ea a0 ar.
  change (length (@nil Z)) with 0.
  assert (nocr : ~ In 13%Z (get_line url)).
  { unfold get_line. rewrite !in_app_iff. destruct uo as (_ & _ & n). intros [i|[i|i]]; [|exact (n i)|]; revert i; cbn; lia. }
  assert (ocl : occurs_at arrived CRLF (length (get_line url))).
  { exists (get_line url), (concat (map (fun l => l ++ CRLF) lines) ++ CRLF ++ rest). split; [|reflexivity].
    unfold arrived, header_block. rewrite <- !app_assoc. reflexivity. }
  assert (lb : length (header_block lines) = 4 + length (concat (map (fun l => l ++ CRLF) lines))) by (unfold header_block; rewrite !app_length; cbn [length CRLF]; lia).
  assert (la : length arrived = length (get_line url) + length (header_block lines) + length rest) by (unfold arrived; rewrite !app_length; lia).
  set (n := length (get_line url)) in *.
  assert (sl : start_line {| rb_data := arrived; rb_hs := 0; rb_he := 0 |} 0 = Some (n, None)).
  { unfold start_line. cbn [rb_data rb_hs Nat.eqb negb Nat.sub].
    destruct (find_in_spec arrived CRLF 0 (Nat.min (length arrived) MAX_START_LINE)) as (r & -> & fo); [lia|cbn [length CRLF]; lia|lia|]. cbn [obind].
    assert (er : r = Some n); [|subst r; reflexivity].
    apply (first_is _ _ _ _ n _ fo ocl); [lia|cbn [length CRLF]; lia|].
    intros j lj. apply no_cr_no_crlf; [exact nocr|reflexivity|exact (proj2 lj)]. }
  assert (hp : headers_part {| rb_data := arrived; rb_hs := 0; rb_he := 0 |} n 0 (length arrived) = Some (n + length (header_block lines), None)).
  { unfold headers_part. cbn [rb_data rb_he Nat.eqb negb Nat.sub Nat.max].
    destruct (find_in_spec arrived (CRLF ++ CRLF) n (Nat.min (length arrived) (n + MAX_HEADERS))) as (r & -> & fo); [lia|cbn [length CRLF app]; lia|lia|]. cbn [obind].
    assert (er : r = Some (n + (length (header_block lines) - 4))); [|subst r; f_equal; f_equal; lia].
    assert (ends : exists p, header_block lines = p ++ CRLF ++ CRLF /\ length p = length (header_block lines) - 4).
    { unfold header_block. destruct lines as [|l ls] eqn:el.
      - exists []. split; reflexivity.
      - destruct (exists_last (l := map (fun l => l ++ CRLF) (l :: ls))) as (ms & m & em); [discriminate|].
        assert (hm : exists m0, m = m0 ++ CRLF). { assert (i : In m (map (fun l => l ++ CRLF) (l :: ls))) by (rewrite em; apply in_or_app; right; left; reflexivity).
          apply in_map_iff in i. destruct i as (m0 & <- & _). eauto. }
        destruct hm as [m0 ->]. rewrite em, concat_app. cbn [concat]. rewrite app_nil_r.
        exists (CRLF ++ concat ms ++ m0). split; [rewrite <- !app_assoc; reflexivity|]. rewrite !app_length. cbn [length CRLF]. lia. }
    destruct ends as (p & ep & lp).
    apply (first_is _ _ _ _ _ _ fo).
    - exists (get_line url ++ p), rest. split; [unfold arrived; rewrite ep, <- !app_assoc; reflexivity|]. rewrite app_length. fold n. lia.
    - lia.
    - cbn [length CRLF app]. lia.
    - intros j lj (pp & ss & e & le). apply (block_first lines rest (j - n) ho); [lia|].
      exists (skipn n pp), ss. split; [|rewrite skipn_length; lia].
      transitivity (skipn n arrived); [unfold arrived; rewrite skipn_len by reflexivity; reflexivity|].
      rewrite e, skipn_app. replace (n - length pp) with 0 by lia. reflexivity. }
  unfold try_parse_request. rewrite sl. cbn [obind fst snd]. rewrite hp. cbn [obind fst snd rb_data rb_hs rb_he].
  assert (f1 : firstn (n + length (header_block lines)) arrived = get_line url ++ header_block lines).
  { unfold arrived. rewrite app_assoc. apply firstn_len. rewrite app_length. reflexivity. }
  assert (s1 : skipn (n + length (header_block lines)) arrived = rest).
  { unfold arrived. rewrite app_assoc. apply skipn_len. rewrite app_length. reflexivity. }
  rewrite f1, s1. rewrite firstn_len, skipn_len by reflexivity. rewrite request_line_ok by exact uo. reflexivity.
Qed.
Print Assumptions http_complete_request_is_served.

(** The claim that a partly arrived head is merely incomplete is false of the code: whatever arrives, a head that is not
    complete is rejected for good (HTTP.fu:224 and :265 compare the length with its own minimum). *)
Theorem http_partial_head_refuted : forall b arrived b' o, sconn b -> small b arrived -> arrived <> [] ->
  on_readable b arrived = Some (b', o) ->
  o <> Incomplete /\ ((forall k, ~ occurs_at (rb_data b ++ arrived) (CRLF ++ CRLF) k) -> exists status, o = Fatal status).
Proof.
  intros b arrived b' o c sm ne e. pose proof (sconn_ok b c) as ok. destruct ok as [o1 o2]. unfold on_readable in e.
  set (B := {| rb_data := rb_data b ++ arrived; rb_hs := rb_hs b; rb_he := rb_he b |}) in *.
  assert (okB : okbuf B) by (split; [exact o1|intros nz; apply occurs_app, o2, nz]).
  assert (sB : (Z.of_nat (length (rb_data B)) + 4 <= 2 ^ 31)%Z) by exact sm.
  assert (dB : rb_data B = rb_data b ++ arrived) by reflexivity. assert (hB : rb_hs B = rb_hs b) by reflexivity. clearbody B. clear sm.
  rewrite <- dB in *.
  destruct arrived as [|c0 ar] eqn:ea; [congruence|]. clear ea.
  unfold try_parse_request in e. destruct (start_line B _) as [[hs f]|] eqn:sl; [|discriminate]. cbn [obind fst snd] in e.
  destruct f as [f|]; [injection e as <- <-; split; [discriminate|eauto]|].
  destruct (headers_part B hs _ _) as [[he f]|] eqn:hp; [|discriminate]. cbn [obind fst snd] in e.
  destruct (headers_spec _ _ _ _ _ _ okB sB hp) as [b1 b2].
  destruct f as [f|]; [injection e as <- <-; split; [discriminate|eauto]|].
  destruct (b1 eq_refl) as (k & -> & _ & _ & oc). injection e as _ <-. split.
  - unfold request_line. repeat (match goal with |- context [match ?x with _ => _ end] => destruct x end; try discriminate).
  - intros no. exfalso. exact (no k oc).
Qed.
Print Assumptions http_partial_head_refuted.
(** For instance, a request whose arrival is split in two. *)
Theorem http_split_arrival_refuted : exists p1 p2, p1 ++ p2 = get_line (bytes "/") ++ header_block [bytes "Host: x"] /\
  on_readable {| rb_data := []; rb_hs := 0; rb_he := 0 |} p1 = Some ({| rb_data := p1; rb_hs := 0; rb_he := 0 |}, Fatal (bytes "414 Request-URI Too Long")).
Proof. exists (bytes "GET / HT"), (bytes "TP/1.1" ++ header_block [bytes "Host: x"]). split; reflexivity. Qed.
Print Assumptions http_split_arrival_refuted.
(** Pipelined requests: a second request left in the buffer is not looked at again when more arrives, and spoils the
    third one. *)
Theorem http_pipelining_refuted : exists a b c b1 b2,
  a = get_line (bytes "/a") ++ header_block [] /\ b = get_line (bytes "/b") ++ header_block [] /\ c = get_line (bytes "/c") ++ header_block [] /\
  on_readable {| rb_data := []; rb_hs := 0; rb_he := 0 |} (a ++ b) = Some (b1, Done (bytes "/a") (header_block [])) /\ rb_data b1 = b /\
  on_readable b1 c = Some (b2, Fatal (bytes "406 Invalid HTTP Version")).
Proof.
  eexists _, _, _, {| rb_data := get_line (bytes "/b") ++ header_block []; rb_hs := 0; rb_he := 0 |}, {| rb_data := []; rb_hs := 0; rb_he := 0 |}.
  refine (conj eq_refl (conj eq_refl (conj eq_refl (conj _ (conj eq_refl _))))); vm_compute; reflexivity.
Qed.
Print Assumptions http_pipelining_refuted.

(* ---------- responses ---------- *)
Local Lemma assign_range_at (p x y s : list Z) n : n = length p -> length x = length y -> assign_range (p ++ x ++ s) n y = Some (p ++ y ++ s).
Proof.
  intros -> l. unfold assign_range. rewrite !app_length, (proj2 (Nat.leb_le _ _)) by lia.
  rewrite firstn_len by reflexivity. rewrite (app_assoc p x s). rewrite skipn_len by (rewrite app_length; lia). reflexivity.
Qed.
(** A response is well-formed and its Content-Length is the decimal length of its content, for up to 999999999 bytes:
    what patches the length in place leaves exactly one padding header behind. *)
Theorem http_response_states_its_length : forall out status headers content,
  (headers = [] \/ exists h, headers = h ++ CRLF) -> (Z.of_nat (length content) <= 999999999)%Z ->
  exists lenstr pad, respond out status headers content = Some (out ++ response status lenstr (repeat 88%Z pad) headers content) /\
    decimal lenstr (Z.of_nat (length content)) /\ 1 <= pad.
Proof.
  intros out status headers content hh lc. unfold respond. cbv zeta.
  set (o1 := ((out ++ bytes "HTTP/1.1 " ++ status ++ CRLF) ++ bytes "Connection: keep-alive" ++ CRLF) ++ bytes "Content-Length: ").
  assert (hd : (match headers with [] => Some ((o1 ++ bytes "0" ++ CRLF) ++ bytes "XXXXXXXXX: X" ++ CRLF)
     | _ => if ends_with_crlf headers then Some (((o1 ++ bytes "0" ++ CRLF) ++ bytes "XXXXXXXXX: X" ++ CRLF) ++ headers) else None end)
     = Some (((o1 ++ bytes "0" ++ CRLF) ++ bytes "XXXXXXXXX: X" ++ CRLF) ++ headers)).
  { destruct hh as [->|[h ->]]; [rewrite app_nil_r; reflexivity|].
    assert (ew : ends_with_crlf (h ++ CRLF) = true). { unfold ends_with_crlf. rewrite app_length, skipn_len by (cbn [length CRLF]; lia). apply beq_refl. }
    rewrite ew. destruct (h ++ CRLF) eqn:q; [destruct h; discriminate|reflexivity]. }
  rewrite hd. clear hd. cbn [obind].
  set (o2 := (((o1 ++ bytes "0" ++ CRLF) ++ bytes "XXXXXXXXX: X" ++ CRLF) ++ headers) ++ CRLF).
  assert (cl : (Z.of_nat (length (o2 ++ content)) - Z.of_nat (length o2) = Z.of_nat (length content))%Z) by (rewrite app_length; lia).
  rewrite cl. rewrite (proj2 (Z.leb_le _ _)) by exact lc.
  destruct (i64dec_prints_the_decimal (Z.of_nat (length content))) as (s & -> & sd); [lia|]. cbn [obind].
  assert (d : decimal s (Z.of_nat (length content))) by (destruct sd as [[_ d]|[n _]]; [exact d|lia]).
  (* at most nine digits *)
  assert (l9 : 1 <= length s <= 9).
  { destruct d as (dg & dv & dn & dz). destruct s as [|c0 s0]; [congruence|]. split; [cbn; lia|].
    destruct dz as [dz|(c & s' & dz & nz)]; [rewrite dz; cbn; lia|]. injection dz as <- <-.
    assert (vb : (10 ^ Z.of_nat (length s0) <= value (c0 :: s0))%Z).
    { clear - dg nz. unfold value. cbn [fold_left].
      assert (g : forall s a, Forall digit s -> (0 <= a)%Z -> (a * 10 ^ Z.of_nat (length s) <= fold_left (fun a c => (10 * a + (c - 48))%Z) s a)%Z).
      { induction s as [|c s IH]; intros a f ha; cbn [fold_left length]; [cbn; lia|]. inversion_clear f as [|? ? hc hs]. unfold digit in hc.
        specialize (IH (10 * a + (c - 48))%Z hs ltac:(lia)). rewrite Nat2Z.inj_succ, Z.pow_succ_r by lia. nia. }
      inversion_clear dg as [|? ? hc hs]. unfold digit in hc. specialize (g s0 (10 * 0 + (c0 - 48))%Z hs ltac:(lia)). nia. }
    rewrite dv in vb. cbn [length].
    destruct (Nat.lt_ge_cases (length s0) 9) as [|ge]; [lia|]. exfalso.
    assert (10 ^ 9 <= 10 ^ Z.of_nat (length s0))%Z by (apply Z.pow_le_mono_r; lia). lia. }
  exists s, (10 - length s). split; [|split; [exact d|lia]].
  assert (sp : o2 ++ content = o1 ++ (firstn (length s + 2) (bytes "0" ++ CRLF ++ bytes "XXXXXXXXX")) ++ (skipn (length s + 2) (bytes "0" ++ CRLF ++ bytes "XXXXXXXXX") ++ bytes ": X" ++ CRLF ++ headers ++ CRLF ++ content)).
  { unfold o2. rewrite (app_assoc (firstn _ _) (skipn _ _)), firstn_skipn. rewrite <- !app_assoc. reflexivity. }
  rewrite sp. rewrite assign_range_at; [| reflexivity |].
  - f_equal. unfold response, o1.
    assert (pd : skipn (length s + 2) (bytes "0" ++ CRLF ++ bytes "XXXXXXXXX") = repeat 88%Z (10 - length s)).
    { clear - l9. generalize dependent (length s). intros m g. do 10 (destruct m as [|m]; [first [lia|reflexivity]|]). lia. }
    rewrite pd. rewrite <- !app_assoc. reflexivity.
  - rewrite firstn_length. change (length (bytes "0" ++ CRLF ++ bytes "XXXXXXXXX")) with 12. rewrite (app_length s). change (length CRLF) with 2. lia.
Qed.
Print Assumptions http_response_states_its_length.

(** Beyond 999999999 bytes of content the length that was first put there, zero, is not replaced. *)
Theorem http_long_response_length_refuted : forall out status content, (999999999 < Z.of_nat (length content))%Z ->
  respond out status [] content = Some (out ++ response status (bytes "0") (bytes "XXXXXXXXX") [] content).
Proof.
  intros out status content lc. unfold respond. cbv zeta. cbn [obind].
  match goal with |- context [(Z.of_nat (length (?x ++ content)) - _)%Z] => set (o2 := x) end.
  assert (cl : (Z.of_nat (length (o2 ++ content)) - Z.of_nat (length o2) = Z.of_nat (length content))%Z) by (rewrite app_length; lia).
  rewrite cl. rewrite (proj2 (Z.leb_gt _ _)) by exact lc. f_equal. unfold o2, response. rewrite <- !app_assoc. reflexivity.
Qed.
Print Assumptions http_long_response_length_refuted.
(** Application headers that do not end in a line end are refused. *)
Theorem http_response_headers_must_end_in_crlf : forall out status headers content,
  headers <> [] -> (forall h, headers <> h ++ CRLF) -> respond out status headers content = None.
Proof.
  intros out status headers content ne nc. unfold respond. cbv zeta.
  assert (ew : ends_with_crlf headers = false).
  { unfold ends_with_crlf. destruct (beq _ CRLF) eqn:e; [|reflexivity]. apply beq_true in e. exfalso. apply (nc (firstn (length headers - 2) headers)).
    rewrite <- e. rewrite firstn_skipn. reflexivity. }
  rewrite ew. destruct headers; [congruence|reflexivity].
Qed.
Print Assumptions http_response_headers_must_end_in_crlf.

(** Whatever the socket takes at a time, the bytes it is given are the bytes of the responses, in order, each once; what
    has not gone out yet is still there.  Once it takes all that is offered, nothing is left. *)
Theorem http_output_is_sent_in_order : forall os, snd (wrun None os) ++ unsent (fst (wrun None os)) = appended os.
Proof.
  assert (g : forall os w, (match w with Some b => wb_cursor b <= length (wb_data b) | None => True end) ->
    snd (wrun w os) ++ unsent (fst (wrun w os)) = unsent w ++ appended os).
  { induction os as [|o os IH]; intros w h; [cbn; rewrite app_nil_r; reflexivity|]. cbn [wrun appended].
    destruct (wstep w o) as [w1 sent] eqn:e.
    assert (k : (match w1 with Some b => wb_cursor b <= length (wb_data b) | None => True end) /\
      sent ++ unsent w1 = unsent w ++ (match o with Append x => x | _ => [] end)).
    { destruct o as [x|n]; cbn [wstep] in e.
      - injection e as <- <-. destruct w as [b|]; cbn [get_wbuf wb_cursor wb_data unsent app].
        + rewrite app_length. split; [lia|]. rewrite skipn_app. replace (wb_cursor b - length (wb_data b)) with 0 by lia. reflexivity.
        + split; [lia|reflexivity].
      - destruct w as [b|]; [|injection e as <- <-; split; auto].
        cbv zeta in e. destruct (Nat.ltb_spec n (length (skipn (wb_cursor b) (wb_data b)))) as [l|l]; injection e as <- <-.
        + rewrite skipn_length in l. cbn [unsent wb_cursor wb_data]. split; [lia|]. rewrite app_nil_r.
          rewrite (Nat.add_comm (wb_cursor b) n). rewrite <- (firstn_skipn n (skipn (wb_cursor b) (wb_data b))) at 2. f_equal.
          clear. generalize (wb_data b). induction (wb_cursor b) as [|c IH]; intros d; [rewrite Nat.add_0_r; reflexivity|].
          rewrite Nat.add_succ_r. destruct d as [|x d]; [rewrite !skipn_nil; reflexivity|]. apply IH.
        + cbn [unsent]. rewrite !app_nil_r. auto. }
    destruct k as [k1 k2]. specialize (IH w1 k1). destruct (wrun w1 os) as [w2 more]. cbn [fst snd] in *.
    rewrite <- app_assoc, IH, app_assoc, k2, <- app_assoc. destruct o; reflexivity. }
  intros os. exact (g os None I).
Qed.
Print Assumptions http_output_is_sent_in_order.
Theorem http_output_drains : forall os n, length (appended os) <= n -> snd (wrun None (os ++ [Writeable n])) = appended os.
Proof.
  intros os n l. pose proof (http_output_is_sent_in_order (os ++ [Writeable n])) as q.
  assert (a : forall x, appended (x ++ [Writeable n]) = appended x). { clear. induction x as [|[y|m] x IH]; cbn; rewrite ?IH; reflexivity. }
  rewrite a in q.
  assert (u : unsent (fst (wrun None (os ++ [Writeable n]))) = []); [|rewrite u, app_nil_r in q; exact q].
  pose proof (http_output_is_sent_in_order os) as q0. rewrite <- q0 in l. clear q0 q a. revert l. generalize (@None wbuf) as w.
  induction os as [|o os IH]; intros w l; cbn [app wrun] in *.
  - cbn [fst snd] in l. cbn [app] in l. destruct w as [b|]; [|reflexivity]. cbn [wstep]. cbv zeta.
    destruct (Nat.ltb_spec n (length (skipn (wb_cursor b) (wb_data b)))) as [k|k]; [cbn [unsent] in l; lia|reflexivity].
  - destruct (wstep w o) as [w1 s]. specialize (IH w1). destruct (wrun w1 os) as [w2 m]. destruct (wrun w1 (os ++ [Writeable n])) as [w3 m3].
    cbn [fst snd] in *. apply IH. rewrite !app_length in *. lia.
Qed.
Print Assumptions http_output_drains.

(** What a client with a broken request is sent: a status line, a header telling that the connection ends, a blank line
    and nothing more. *)
Theorem http_fatal_response_is_a_complete_head : forall out status,
  fatal_response out status = out ++ (bytes "HTTP/1.1 " ++ status) ++ header_block [bytes "Connection: Close"].
Proof. intros out status. unfold fatal_response. rewrite <- !app_assoc. reflexivity. Qed.
Print Assumptions http_fatal_response_is_a_complete_head.

(** Examples: a request with two headers and the beginning of another one; a response; a slow socket. *)
Example http_request : on_readable {| rb_data := []; rb_hs := 0; rb_he := 0 |} (get_line (bytes "/x?y=1") ++ header_block [bytes "Host: a"; bytes "Accept: b"] ++ bytes "GE") =
  Some ({| rb_data := bytes "GE"; rb_hs := 0; rb_he := 0 |}, Done (bytes "/x?y=1") (header_block [bytes "Host: a"; bytes "Accept: b"])).
Proof.
  apply http_complete_request_is_served.
  - refine (conj (ex_intro _ (bytes "x?y=1") eq_refl) (conj _ _)); cbn; unfold SP; lia.
  - repeat constructor; try discriminate; cbn; lia.
  - apply Nat.leb_le. reflexivity.
  - apply Nat.leb_le. reflexivity.
  - apply Z.leb_le. reflexivity.
Qed.
Example http_response : respond [] (bytes "200 OK") (bytes "A: b" ++ CRLF) (bytes "hello world") =
  Some (bytes "HTTP/1.1 200 OK" ++ CRLF ++ bytes "Connection: keep-alive" ++ CRLF ++ bytes "Content-Length: 11" ++ CRLF ++ bytes "XXXXXXXX: X" ++ CRLF ++ bytes "A: b" ++ CRLF ++ CRLF ++ bytes "hello world").
Proof. vm_compute. reflexivity. Qed.
Example http_slow_socket : wrun None [Append (bytes "abc"); Writeable 2; Append (bytes "de"); Writeable 1; Writeable 5; Append (bytes "f"); Writeable 0] =
  (Some {| wb_cursor := 0; wb_data := bytes "f" |}, bytes "abcde").
Proof. reflexivity. Qed.
