(** Every well-formed tree is parsed to its meaning. *)
From Coq Require Import String Ascii.
From Verif Require Export ParserProofs.
From Coq Require Import List Lia ZArith Bool.
Import ListNotations.
Open Scope Z_scope.
Open Scope list_scope.
Notation length := List.length.

Scheme expr_mut := Induction for expr Sort Prop with args_mut := Induction for args Sort Prop.
Combined Scheme expr_args_ind from expr_mut, args_mut.

Lemma has_sub l l' v : forallb (fun s => has l' (bytes s)) l = true -> has l' v = false -> has l v = false.
Proof. intros F H. destruct (has l v) eqn:E; [|reflexivity]. apply has_In in E. destruct E as [s [Hs ->]]. rewrite forallb_forall in F. rewrite (F s Hs) in H. discriminate. Qed.
Lemma rank_sticky v q : rank v = Some q -> has sticky v = false.
Proof. intros H. destruct (has sticky v) eqn:E; [|reflexivity]. rewrite (rank_known _ _ None E) in H by reflexivity. discriminate. Qed.
Lemma ends_unary p s : ends p s = true -> ends unary s = true.
Proof.
  unfold ends. destruct s as [[] v]; try reflexivity. rewrite !andb_true_iff. intros [H1 H2]. split; [exact H1|]. destruct (rank v) as [q|] eqn:E; [|reflexivity].
  rewrite (takes_of_op _ _ E). reflexivity.
Qed.
Lemma ends_follows p e s : wf e = true -> fits p e = true -> ends p s = true -> follows e s = true.
Proof.
  intros Hw Hf He. destruct e; try reflexivity; cbn [follows fits wf] in *.
  - eapply ends_unary; exact He.
  - destruct (rank op) as [q|]; [|discriminate]. apply andb_true_iff in Hf. destruct Hf as [Hf _]. eapply ends_down; eassumption.
  - apply andb_true_iff in Hf. destruct Hf as [Hf _]. eapply ends_down; eassumption.
  - eapply ends_unary; exact He.
Qed.
(** what an expression begins with *)
Definition starter (s : sym) : Prop := match s with (Op, v) => has ["("; "["; "[]"]%string v = true \/ has prefix_ops v = true | (Eof, _) | (Sof, _) => False | _ => True end.
Lemma spell_starts e : wf e = true -> exists s l, spell e = s :: l /\ starter s.
Proof.
  induction e; cbn [wf spell]; intros Hw; andb_all;
    try (match goal with IH : wf ?e = true -> _, H : wf ?e = true |- exists s l, spell ?e ++ _ = _ /\ _ =>
           destruct (IH H) as [s0 [l0 [E HS]]]; rewrite E; cbn [app]; eexists; eexists; split; [reflexivity|exact HS] end);
    eexists; eexists; (split; [reflexivity|]); cbn [starter o].
  - destruct k; try discriminate; exact I.
  - exact I.
  - left; reflexivity. - left; reflexivity. - left; reflexivity.
  - right; assumption.
Qed.
Lemma spell_nonempty e : wf e = true -> spell e <> []. Proof. intros H. destruct (spell_starts e H) as [s [l [-> _]]]. discriminate. Qed.
Lemma starter_not s x : starter s -> has ["("; "["; "[]"; "++"; "+"; "--"; "-"; "!"; "~"; "?"; "*"; "&"; "-%"]%string (bytes x) = false -> s <> o x.
Proof.
  intros H Hx ->. cbn [starter o] in H. destruct H as [H|H].
  - erewrite (has_sub ["("; "["; "[]"]%string) in H; [discriminate| |exact Hx]. reflexivity.
  - erewrite (has_sub prefix_ops) in H; [discriminate| |exact Hx]. reflexivity.
Qed.

Section complete.
Variable ts : list token.
Variable lenient : bool.
Variable line : nat. Variable sp : Z.
Notation parse := (parseExpression ts). Notation tails := (tails ts). Notation tok := (tok ts). Notation sym_at := (sym_at ts). Notation spelled := (spelled ts).
Definition calm (col : Z) (k : nat) : Prop := forall t, nth_error ts k = Some t -> t_line t = line /\ col < t_col t /\ (t_kind t = Op -> rank (t_value t) <> None -> space ts k = sp).
Definition fuelok (f i : nat) : Prop := (length ts < f + i)%nat.
Definition budget (w : nat) : Prop := lenient = true -> w = 0%nat.
Definition orw {A} (r r' : pres A) : Prop := r = r' \/ lenient = true /\ r = PWarned.
Lemma orw_refl {A} (r : pres A) : orw r r. Proof. left; reflexivity. Qed.
Lemma orw_trans {A} (a b c : pres A) : orw a b -> orw b c -> orw a c.
Proof. intros [->|[H ->]] H2; [exact H2|]. right. auto. Qed.
Lemma orw_bind {A B} (r : pres A) a (g : A -> pres B) r' : orw r (POk a) -> orw (g a) r' -> orw (pbind r g) r'.
Proof. intros [->|[H ->]] H2; [exact H2|]. right; auto. Qed.
Lemma orw_bind_fail {A B} (r : pres A) (g : A -> pres B) : orw r PFail -> orw (pbind r g) PFail.
Proof. intros [->|[H ->]]; [left; reflexivity|right; auto]. Qed.
Lemma orw_warn {A} ok w (k : nat -> pres A) r : budget w -> (lenient = false -> ok = true) -> (ok = true -> orw (k w) r) -> orw (warn_unless ok w k) r.
Proof.
  intros Hb Ho Hk. unfold warn_unless. destruct ok; [exact (Hk eq_refl)|]. destruct lenient eqn:E; [|discriminate (Ho eq_refl)]. rewrite (Hb E). right; split; [exact E|reflexivity].
Qed.
Lemma parse_S f col mode P i w : parse (S f) col mode P i w =
  (do* t := tok i in
   warn_unless (col <=? t_col t) w (fun w =>
   do* (head, i, w) := parseExpressionHead ts f (parse f) col i w in
   tails f col (mode && match n_kind head with K_int | K_real => true | _ => false end) P head i w)).
Proof. reflexivity. Qed.
Lemma tails_S f col mode P head i w : tails (S f) col mode P head i w =
  (do* r := tryParseExpressionTail ts f (parse f) col mode P head i w in
   match r with
   | (None, i, w) => POk (head, i, w)
   | (Some out, i', w) => do* t1 := tok i in warn_unless (col <? t_col t1) w (fun w => tails f col mode P out i' w)
   end).
Proof. reflexivity. Qed.
Lemma space_eq i t : nth_error ts i = Some t -> Z.max (whitespaceDiff (tok_if ts (i - 1)) t) (whitespaceDiff t (tok_if ts (S i))) = space ts i.
Proof. intros H. unfold space, whitespaceDiff, tok_if. rewrite (nth_error_nth ts i _ H). reflexivity. Qed.
Lemma even_not_misleading op p1 P miss ws : (p_tokidx P = 0%nat \/ p_whitesp P = ws) -> misleading ts op p1 P miss ws = false.
Proof.
  unfold misleading. destruct (p_tokidx P =? 0)%nat eqn:E; [reflexivity|]. intros [H|H]; [apply Nat.eqb_neq in E; contradiction|].
  rewrite H. replace (ws - ws) with 0 by lia. destruct miss; reflexivity.
Qed.
Lemma miss_takes p q : (p <? q)%nat || (q =? p)%nat && negb (RIGHT_TO_LEFT q) = negb (takes p q).
Proof.
  unfold takes. rewrite rtl_eq. destruct (Nat.lt_trichotomy q p) as [H|[->|H]].
  - replace (p <? q)%nat with false by (symmetry; apply Nat.ltb_ge; lia). replace (q <? p)%nat with true by (symmetry; apply Nat.ltb_lt; lia). replace (q =? p)%nat with false by (symmetry; apply Nat.eqb_neq; lia). reflexivity.
  - rewrite Nat.ltb_irrefl, Nat.eqb_refl. destruct (right_to_left p); reflexivity.
  - replace (p <? q)%nat with true by (symmetry; apply Nat.ltb_lt; lia). replace (q <? p)%nat with false by (symmetry; apply Nat.ltb_ge; lia). replace (q =? p)%nat with false by (symmetry; apply Nat.eqb_neq; lia). reflexivity.
Qed.
Definition nextok (k : nat) : Prop := forall t, nth_error ts k = Some t -> t_kind t = Op -> rank (t_value t) <> None -> space ts k = sp.
Lemma calm_next col k : calm col k -> nextok k. Proof. intros H t Ht. destruct (H t Ht) as [_ [_ H']]. exact H'. Qed.
Definition fair (P : prec) (j : nat) : Prop := lenient = false -> (p_tokidx P = 0%nat \/ p_whitesp P = sp) /\ nextok j.
Lemma tails_stop f col mode P n j w : fuelok f j -> (j < length ts)%nat -> ends (p_formal P) (sym_at j) = true -> budget w -> fair P j ->
  orw (tails f col mode P n j w) (POk (n, j, w)).
Proof.
  unfold fuelok. intros Hf Hj He Hb Hp. destruct f as [|f]; [lia|]. rewrite tails_S. destruct (in_tok ts j Hj) as [t [Ht [Et Es]]]. rewrite Es in He.
  apply orw_bind with (a := (None, j, w)); [|apply orw_refl]. unfold tryParseExpressionTail. rewrite Et. cbn [pbind].
  destruct (t_kind t) eqn:K; try apply orw_refl. unfold ends, sym_of in He. rewrite K in He. apply andb_true_iff in He. destruct He as [H1 H2]. apply negb_true_iff in H1.
  assert (forall s, has sticky (bytes s) = true -> is_o s t = false) as Hno.
  { intros s Hs. destruct (is_o s t) eqn:E; [|reflexivity]. apply is_o_true in E. unfold sym_of, o in E. injection E as _ E. rewrite E in H1. congruence. }
  destruct (is_o ";" t); [apply orw_refl|]. rewrite !Hno by reflexivity. rewrite PRECEDENCE_rank. destruct (rank (t_value t)) as [q|] eqn:R.
  - apply negb_true_iff in H2. unfold tryParseBinary. rewrite (space_eq j t Ht), miss_takes, H2. cbn [negb]. apply orw_warn; [exact Hb| |].
    + intros HL. apply negb_true_iff. apply even_not_misleading. destruct (Hp HL) as [[H|H] Hc]; [left; exact H|right]. rewrite (Hc t Ht); congruence.
    + intros H. apply negb_true_iff in H. rewrite H. apply orw_refl.
  - rewrite (has_sub POSTFIX sticky _ eq_refl H1). apply orw_refl.
Qed.
Lemma tails_take f col mode P n j w n' j' t : nth_error ts j = Some t -> budget w -> (lenient = false -> col < t_col t) ->
  orw (tryParseExpressionTail ts f (parse f) col mode P n j w) (POk (Some n', j', w)) -> orw (tails (S f) col mode P n j w) (tails f col mode P n' j' w).
Proof.
  intros Ht Hb Hc H. rewrite tails_S. eapply orw_bind; [exact H|]. cbn beta iota. unfold ParserModel.tok. rewrite Ht. cbn [pbind]. apply orw_warn; [exact Hb| |intros _; apply orw_refl].
  intros HL. apply Z.ltb_lt. auto.
Qed.
Lemma tails_fail f col mode P n j w : orw (tryParseExpressionTail ts f (parse f) col mode P n j w) PFail -> orw (tails (S f) col mode P n j w) PFail.
Proof. intros H. rewrite tails_S. apply orw_bind_fail. exact H. Qed.

Definition reaches (r : pres (node * nat * nat)) (d : option node) (col : Z) (mode : bool) (P : prec) (j w : nat) : Prop :=
  d = None /\ orw r PFail \/ exists n f, d = Some n /\ fuelok f j /\ orw r (tails f col mode P n j w).
Definition R (e : expr) : Prop := forall f col mode P i w,
  wf e = true -> fits (p_formal P) e = true -> spelled i (spell e) -> (i + length (spell e) < length ts)%nat -> follows e (sym_at (i + length (spell e))) = true -> fuelok f i -> budget w ->
  (lenient = false -> tidy e = true /\ mode && numeric_head e && accessed e = false /\ (forall k, (i <= k < i + length (spell e))%nat -> calm col k) /\ (p_tokidx P = 0%nat \/ p_whitesp P = sp) /\ nextok (i + length (spell e))) ->
  reaches (parse f col mode P i w) (denote e) col (mode && numeric_head e) P (i + length (spell e)) w.
Definition result (d : option node) (j w : nat) : pres (node * nat * nat) := match d with Some n => POk (n, j, w) | None => PFail end.
Lemma parse_done e f col mode P i w : R e -> wf e = true -> fits (p_formal P) e = true -> spelled i (spell e) -> (i + length (spell e) < length ts)%nat ->
  ends (p_formal P) (sym_at (i + length (spell e))) = true -> fuelok f i -> budget w ->
  (lenient = false -> tidy e = true /\ mode && numeric_head e && accessed e = false /\ (forall k, (i <= k < i + length (spell e))%nat -> calm col k) /\
    (p_tokidx P = 0%nat \/ p_whitesp P = sp) /\ nextok (i + length (spell e))) ->
  orw (parse f col mode P i w) (result (denote e) (i + length (spell e)) w).
Proof.
  intros HR Hw Hf Hs Hl He Hfu Hb Hq.
  edestruct (HR f col mode P i w Hw Hf Hs Hl (ends_follows _ _ _ Hw Hf He) Hfu Hb Hq) as [[-> H]|[n [f' [-> [Hf' H]]]]].
  - exact H.
  - eapply orw_trans; [exact H|]. cbn [result]. apply tails_stop; try assumption. intros HL. destruct (Hq HL) as [_ [_ [_ H4]]]. exact H4.
Qed.
(** heads *)
Lemma head_reaches e f col mode P i w : innermost e = e -> spelled i (spell e) -> spell e <> [] -> fuelok f i -> budget w ->
  (lenient = false -> calm col i) -> (1 <= length (spell e))%nat ->
  (forall f', f = S f' -> orw (parseExpressionHead ts f' (parse f') col i w) (result (denote e) (i + length (spell e)) w)) ->
  reaches (parse f col mode P i w) (denote e) col (mode && numeric_head e) P (i + length (spell e)) w.
Proof.
  intros Hi Hs Hne Hfu Hb Hc H1 H. assert (Hlen := spelled_len _ _ _ Hs Hne). unfold fuelok in Hfu. destruct f as [|f]; [lia|]. specialize (H f eq_refl).
  destruct (in_tok ts i ltac:(lia)) as [t [Ht [Et _]]]. rewrite parse_S, Et. cbn [pbind]. unfold numeric_head. rewrite Hi.
  destruct (denote e) as [n|] eqn:D; cbn [result] in H.
  - right. exists n, f. split; [reflexivity|]. split; [unfold fuelok; lia|]. apply orw_warn; [exact Hb| |].
    + intros HL. destruct (Hc HL t Ht) as [_ [H2 _]]. apply Z.leb_le. lia.
    + intros _. eapply orw_bind; [exact H|]. cbn beta iota. apply orw_refl.
  - left. split; [reflexivity|]. apply orw_warn; [exact Hb| |].
    + intros HL. destruct (Hc HL t Ht) as [_ [H2 _]]. apply Z.leb_le. lia.
    + intros _. apply orw_bind_fail. exact H.
Qed.
(** arguments *)
Definition fixlast (s : sep) (acc : list node) : option (list node * bool) :=
  if dots s then match acc with
                 | [] => Some ([], false)
                 | _ => let lst := last acc (Node K_definit [] no_flags false []) in
                        if nkind_beq (n_kind lst) K_argid then None else Some (removelast acc ++ [createArgID (bytes "start") lst false], true)
                 end
  else Some (acc, false).
Definition no_args (acc : list node) : bool := match acc with [] => true | _ => false end.
Lemma juggle endop slice used acc nm i w s : In endop [")"; "]"]%string -> (dots s = true -> slice && negb used = true) -> (s = Comma -> acc <> []) ->
  spelled i (spell_sep s) -> (i + length (spell_sep s) < length ts)%nat -> (0 < i)%nat -> budget w ->
  sym_at (i + length (spell_sep s)) <> o "," -> sym_at (i + length (spell_sep s)) <> o ".." ->
  (lenient = false -> s = Juxt -> acc <> [] -> sym_at i = o endop \/ xorb (is_str (sym_at (i - 1))) (is_str (sym_at i)) = true) ->
  orw (commaJuggle ts endop slice used acc nm i w)
      (match fixlast s acc with None => PFail | Some (acc', r) => POk (match s with Dots => bytes "end" | _ => [] end, used || dots s, acc', nm || r, (i + length (spell_sep s))%nat, w) end).
Proof.
  intros Hend Hd Hc Hs Hl Hi Hb N1 N2 Hq. unfold commaJuggle, fixlast.
  destruct s; cbn [spell_sep length dots] in *.
  - (* nothing *)
    rewrite Nat.add_0_r in *. destruct (in_tok ts i Hl) as [t [Ht [Et Es]]]. rewrite Et. cbn [pbind]. rewrite Es in *.
    assert (is_o ".." t = false) as ->. { destruct (is_o ".." t) eqn:E; [|reflexivity]. apply is_o_true in E. contradiction. } rewrite !andb_false_r.
    rewrite orb_false_r, orb_false_r. destruct acc as [|x acc]; [apply orw_refl|].
    apply orw_bind with (a := (i, w)); [|cbn beta iota; apply orw_refl]. unfold softComma. rewrite Et. cbn [pbind].
    assert (is_o "," t = false) as ->. { destruct (is_o "," t) eqn:E; [|reflexivity]. apply is_o_true in E. contradiction. }
    destruct (is_o endop t) eqn:E; [apply orw_refl|]. destruct (in_tok ts (i - 1) ltac:(lia)) as [t' [Ht' [Et' Es']]]. rewrite Et'. cbn [pbind]. rewrite Es' in Hq.
    apply orw_warn; [exact Hb| |intros _; apply orw_refl]. intros HL. destruct (Hq HL eq_refl ltac:(discriminate)) as [H|H]; [apply is_o_true in H; congruence|].
    unfold is_str, sym_of in H. cbn [fst] in H. destruct (t_kind t), (t_kind t'); try discriminate; reflexivity.
  - (* comma *)
    apply spelled_one in Hs. destruct (at_tok _ _ _ Hs) as [t [Ht [Et Es]]]. rewrite Et. cbn [pbind].
    assert (is_o ".." t = false) as ->. { rewrite (is_o_op _ _ _ Es). reflexivity. } rewrite !andb_false_r, !orb_false_r.
    destruct acc as [|x acc]; [destruct (Hc eq_refl eq_refl)|]. unfold softComma. rewrite Et. cbn [pbind]. rewrite (is_o_op _ _ _ Es). cbn [pbind]. replace (i + 1)%nat with (S i) by lia. apply orw_refl.
  - (* dots *)
    apply spelled_one in Hs. destruct (at_tok _ _ _ Hs) as [t [Ht [Et Es]]]. rewrite Et. cbn [pbind]. rewrite (is_o_op _ _ _ Es). specialize (Hd eq_refl). rewrite Hd. cbn [andb].
    change (same _ _) with true. cbn iota. replace (i + 1)%nat with (S i) in * by lia. destruct (in_tok ts (S i) Hl) as [t1 [Ht1 [Et1 Es1]]]. rewrite Es1 in *.
    assert (is_o "," t1 = false) as E1. { destruct (is_o "," t1) eqn:E; [|reflexivity]. apply is_o_true in E. contradiction. }
    destruct acc as [|x acc]; cbn [pbind]. { rewrite Et1. cbn [pbind]. rewrite E1. rewrite orb_true_r, orb_false_r. apply orw_refl. }
    destruct (nkind_beq _ K_argid); cbn [pbind]; [apply orw_refl|]. rewrite Et1. cbn [pbind]. rewrite E1, !orb_true_r. apply orw_refl.
  - apply spelled_cons in Hs. destruct Hs as [Hs Hs2]. apply spelled_one in Hs2. destruct (at_tok _ _ _ Hs) as [t [Ht [Et Es]]]. destruct (at_tok _ _ _ Hs2) as [t1 [Ht1 [Et1 Es1]]].
    rewrite Et. cbn [pbind]. rewrite (is_o_op _ _ _ Es). specialize (Hd eq_refl). rewrite Hd. cbn [andb]. change (same _ _) with true. cbn iota. replace (i + 2)%nat with (S (S i)) by lia.
    destruct acc as [|x acc]; cbn [pbind]. { rewrite Et1. cbn [pbind]. rewrite (is_o_op _ _ _ Es1). change (same _ _) with true. cbn iota. rewrite orb_true_r, orb_false_r. apply orw_refl. }
    destruct (nkind_beq _ K_argid); cbn [pbind]; [apply orw_refl|]. rewrite Et1. cbn [pbind]. rewrite (is_o_op _ _ _ Es1). change (same _ _) with true. cbn iota. rewrite !orb_true_r. apply orw_refl.
Qed.
Lemma not_colon s : starter s -> sym_is s (o ":") = false /\ sym_is s (o "?:") = false.
Proof.
  intros H. split; [destruct (sym_is s (o ":")) eqn:E | destruct (sym_is s (o "?:")) eqn:E]; try reflexivity; apply sym_is_o in E; exfalso; revert E; apply starter_not; try exact H; reflexivity.
Qed.
Lemma argName_spec s l e next i : wf e = true -> spelled i (spell_label l ++ spell e) -> sym_at (i + length (spell_label l ++ spell e)) = next ->
  (i + length (spell_label l ++ spell e) < length ts)%nat ->
  match s, l with Dots, Plain => true | Dots, _ => false | _, Plain => negb (like_label (spell e ++ [next])) | _, Named id _ => negb (is_nil id) | _, Auto _ => true end = true ->
  argName ts (match s with Dots => bytes "end" | _ => [] end) i =
    POk (match s, l with
         | Dots, _ => (bytes "end", false, false, i)
         | _, Plain => ([], false, false, i)
         | _, Named id opt => (id, false, opt, S (S i))
         | _, Auto opt => ([], true, opt, S i)
         end).
Proof.
  intros Hw Hs Hn Hl Hc. destruct (spell_starts e Hw) as [s0 [l0 [E0 HS]]].
  assert (exists t, tok i = POk t) as [t0 Et0]. { destruct (in_tok ts i ltac:(lia)) as [t [_ [H _]]]. exists t; exact H. }
  unfold argName. rewrite Et0. cbn [pbind]. destruct (tok_inv _ _ _ Et0) as [Ht0 [Es0 _]].
  destruct l as [|id opt|opt]; cbn [spell_label app] in *.
  - destruct s; try reflexivity.
    all: destruct (not_colon s0 HS) as [C1 C2]; assert (sym_at i = s0) as Ei by (rewrite E0 in Hs; apply spelled_cons in Hs; destruct Hs as [Hs _]; apply at_sym; exact Hs);
      rewrite !is_o_sym, <- Es0, Ei, C1, C2; destruct s0 as [k0 v0]; rewrite Ei in Es0; unfold sym_of in Es0; injection Es0 as Ek Ev; rewrite <- Ek; destruct k0; try reflexivity;
      (assert (exists t1, tok (S i) = POk t1 /\ is_colon (sym_of t1) = false) as [t1 [Et1 Hc1]];
      [ rewrite E0 in Hc; cbn [app like_label] in Hc; destruct l0 as [|s1 l0];
        [ cbn [app] in Hc; apply negb_true_iff in Hc; rewrite E0 in Hn, Hl; cbn [length] in Hn, Hl; replace (i + 1)%nat with (S i) in * by lia;
          destruct (in_tok ts (S i) Hl) as [t1 [_ [Et1 Es1]]]; exists t1; split; [exact Et1|]; rewrite <- Es1, Hn; exact Hc
        | cbn [app] in Hc; apply negb_true_iff in Hc; rewrite E0 in Hs; apply spelled_cons in Hs; destruct Hs as [_ Hs]; apply spelled_cons in Hs; destruct Hs as [Hs _];
          destruct (at_tok _ _ _ Hs) as [t1 [_ [Et1 Es1]]]; exists t1; split; [exact Et1|]; rewrite Es1; exact Hc ]
      | rewrite Et1; cbn [pbind]; unfold is_colon in Hc1; apply orb_false_iff in Hc1; destruct Hc1 as [Hc1 Hc2]; rewrite !is_o_sym, Hc1, Hc2; reflexivity ]).
  - destruct s; try discriminate.
    all: apply spelled_cons in Hs; destruct Hs as [Hs1 Hs2]; apply spelled_cons in Hs2; destruct Hs2 as [Hs2 _]; pose proof (at_sym _ _ _ Hs1) as Ei; rewrite Es0 in Ei;
      unfold is_o, is_tok; unfold sym_of in Ei; injection Ei as Ek Ev; rewrite Ek; cbn [andb];
      destruct (at_tok _ _ _ Hs2) as [t1 [_ [Et1 Es1]]]; rewrite Et1; cbn [pbind]; rewrite Ev; destruct opt; unfold sym_of, o in Es1; injection Es1 as Ek1 Ev1; rewrite Ek1, Ev1; reflexivity.
  - destruct s; try discriminate.
    all: apply spelled_cons in Hs; destruct Hs as [Hs1 Hs2]; pose proof (at_sym _ _ _ Hs1) as Ei; rewrite Es0 in Ei; destruct opt; rewrite !(is_o_op _ _ _ Ei); reflexivity.
Qed.
Lemma last_app_one {A} (l : list A) x d : last (l ++ [x]) d = x.
Proof. induction l as [|y l IH]; [reflexivity|]. cbn [app]. destruct (l ++ [x]) eqn:E; [destruct l; discriminate|]. exact IH. Qed.
Lemma removelast_app_one {A} (l : list A) x : removelast (l ++ [x]) = l.
Proof. rewrite removelast_app by discriminate. apply app_nil_r. Qed.
Lemma last_sym i l d : spelled i l -> l <> [] -> last l d = sym_at (i + length l - 1).
Proof.
  intros H Hl. destruct (exists_last Hl) as [l' [x ->]]. rewrite last_app_one. apply spelled_app in H. destruct H as [_ H]. apply spelled_one in H. apply at_sym in H. rewrite <- H. f_equal. rewrite app_length. cbn [length]. lia.
Qed.

Definition A (a : args) : Prop := forall endop slice used acc nm f f0 col i w,
  In endop [")"; "]"]%string -> wf_args (o endop) (slice && negb used) (no_args acc) a = true -> spelled i (spell_args a ++ [o endop]) -> (0 < i)%nat ->
  fuelok f i -> fuelok f0 i -> budget w ->
  (lenient = false -> tidy_args (if no_args acc then None else Some (sym_at (i - 1))) a = true /\ forall k, (i - 1 <= k <= i + length (spell_args a))%nat -> calm col k) ->
  orw (parseCallArgs ts f (parse f0) endop slice col used acc nm i w)
    (match fixlast (next_sep a) acc with
     | Some (acc', r) => match denote_args a with Some (l, nm') => POk (acc' ++ l, nm || r || nm', used || has_dots a, S (i + length (spell_args a)), w) | None => PFail end
     | None => PFail
     end).
Lemma endop_facts endop : In endop [")"; "]"]%string -> o endop <> o "," /\ o endop <> o ".." /\ has ["("; "["; "[]"; "++"; "+"; "--"; "-"; "!"; "~"; "?"; "*"; "&"; "-%"]%string (bytes endop) = false /\ ends anything (o endop) = true
  /\ o ":" <> o endop /\ o "?:" <> o endop.
Proof. intros [<-|[<-|[]]]; repeat split; discriminate. Qed.
Lemma parseCallArgs_S f (ps : parser) endop slice col0 used acc nm i w : parseCallArgs ts (S f) ps endop slice col0 used acc nm i w =
  (do* (name, used, args, named, i, w) := commaJuggle ts endop slice used acc nm i w in
      do* (fin, i) := tryConsume ts Op endop i in
      if fin then POk (args, named, used, i, w) else
      do* tok0 := tok i in
      do* prev := tok (i - 1) in
      let col := if (t_line prev <? t_line tok0)%nat then Z.max (t_col tok0) col0 else col0 in
      do* (name, autoName, optional, i) := argName ts name i in
      do* (expr, i, w) := ps col false P_RESET i w in
      do* name := (if autoName : bool then getAutoName expr else POk name) in
      let isNamed := match name with [] => false | _ => true end in
      parseCallArgs ts f ps endop slice col0 used (args ++ [if isNamed then createArgID name expr optional else expr]) (named || isNamed) i w).
Proof. reflexivity. Qed.
Lemma A_nil s : A (ANil s).
Proof.
  intros endop slice used acc nm f f0 col i w Hend Hw Hs Hi Hf Hf0 Hb Hq. cbn [wf_args spell_args next_sep denote_args has_dots] in *. apply andb_true_iff in Hw. destruct Hw as [W1 W2].
  destruct (endop_facts endop Hend) as [N1 [N2 _]]. apply spelled_app in Hs. destruct Hs as [Hs1 Hs2]. apply spelled_one in Hs2. destruct (at_tok _ _ _ Hs2) as [t [Ht [Et Es]]].
  pose proof (at_sym _ _ _ Hs2) as Ea. assert (i + length (spell_sep s) < length ts)%nat as Hl by (apply nth_error_Some; congruence).
  unfold fuelok in Hf. destruct f as [|f]; [lia|]. rewrite parseCallArgs_S.
  assert (Hj := juggle endop slice used acc nm i w s Hend).
  specialize (Hj ltac:(intros D; rewrite D in W1; exact W1)).
  specialize (Hj ltac:(intros -> ->; discriminate) Hs1 Hl Hi Hb). rewrite Ea in Hj. specialize (Hj N1 N2).
  specialize (Hj ltac:(intros _ -> _; left; cbn [spell_sep length] in Ea; rewrite Nat.add_0_r in Ea; exact Ea)).
  destruct (fixlast s acc) as [[acc' r]|]; [|apply orw_bind_fail; exact Hj].
  eapply orw_bind; [exact Hj|]. cbn beta iota. unfold tryConsume. rewrite Et. cbn [pbind].
  change (is_tok Op (bytes endop) t) with (is_o endop t). rewrite (proj2 (is_o_true endop t) Es). cbn iota. rewrite app_nil_r, orb_false_r. apply orw_refl.
Qed.
Lemma arg_start acc name opt n : good n -> fixlast Dots (acc ++ [arg name opt n]) = if is_nil name then Some (acc ++ [arg (bytes "start") false n], true) else None.
Proof.
  intros Hg. unfold fixlast. cbn [dots]. destruct (acc ++ [arg name opt n]) eqn:E; [destruct acc; discriminate|]. rewrite <- E. rewrite last_app_one, removelast_app_one.
  unfold arg. destruct name as [|c name]; cbn [is_nil]; [|reflexivity]. destruct (nkind_beq (n_kind n) K_argid) eqn:K; [|reflexivity]. apply nkind_true in K. destruct Hg as [Hg _]. contradiction.
Qed.
Lemma A_cons s l e a : R e -> A a -> A (ACons s l e a).
Proof.
  intros HR HA endop slice used acc nm f f0 col i w Hend Hw Hs Hi Hf Hf0 Hb Hq. cbn [wf_args spell_args next_sep denote_args has_dots] in *.
  apply andb_true_iff in Hw; destruct Hw as [Hw Wa]. apply andb_true_iff in Hw; destruct Hw as [Hw Wl]. apply andb_true_iff in Hw; destruct Hw as [Hw We]. apply andb_true_iff in Hw; destruct Hw as [Hw W]. apply andb_true_iff in Hw; destruct Hw as [W1 W2].
  destruct (endop_facts endop Hend) as [N1 [N2 [N3 [N4 [N5 N6]]]]]. destruct (spell_starts e W) as [s0 [l0 [E0 HS]]].
  rewrite <- !app_assoc in Hs. apply spelled_app in Hs. destruct Hs as [Hs1 Hs]. rewrite app_assoc in Hs. apply spelled_app in Hs. destruct Hs as [Hs2 Hs3].
  set (i1 := (i + length (spell_sep s))%nat) in *. set (i2 := (i1 + length (spell_label l))%nat) in *. set (i3 := (i2 + length (spell e))%nat) in *.
  assert (Hi3 : (i1 + length (spell_label l ++ spell e))%nat = i3) by (rewrite app_length; unfold i3, i2; lia). rewrite Hi3 in Hs3.
  assert (Hlast : (i3 + length (spell_args a) < length ts)%nat). { pose proof (spelled_len _ _ _ Hs3) as H. rewrite app_length in H. cbn [length] in H. specialize (H ltac:(destruct (spell_args a); discriminate)). lia. }
  assert (Hnext : sym_at i3 = first (spell_args a) (o endop)). { rewrite (spelled_first _ _ _ Hs3 ltac:(destruct (spell_args a); discriminate) (o endop)). destruct (spell_args a); reflexivity. }
  assert (Hlen : (0 < length (spell e))%nat) by (rewrite E0; cbn [length]; lia).
  assert (Hfirst : sym_at i1 = first (spell_label l ++ spell e) (o "")) by (apply spelled_first; [exact Hs2|rewrite E0; destruct (spell_label l); discriminate]).
  assert (Hst : sym_at i1 = s0 \/ sym_at i1 = o ":" \/ sym_at i1 = o "?:" \/ exists id, sym_at i1 = (Id, id)).
  { rewrite Hfirst. destruct l as [|id []|[]]; cbn [spell_label app first hd]; [left; rewrite E0; reflexivity|do 3 right; eexists; reflexivity|do 3 right; eexists; reflexivity|right; right; left; reflexivity|right; left; reflexivity]. }
  assert (Hnot : sym_at i1 <> o "," /\ sym_at i1 <> o ".." /\ sym_at i1 <> o endop).
  { destruct Hst as [->|[->|[->|[id ->]]]]; [|repeat split; try discriminate; assumption|repeat split; try discriminate; assumption|repeat split; discriminate].
    split; [apply starter_not; [exact HS|reflexivity]|]. split; [apply starter_not; [exact HS|reflexivity]|apply starter_not; [exact HS|exact N3]]. }
  destruct Hnot as [M1 [M2 M3]].
  unfold fuelok in Hf. destruct f as [|f]; [lia|]. rewrite parseCallArgs_S.
  assert (Hj := juggle endop slice used acc nm i w s Hend).
  specialize (Hj ltac:(intros D; rewrite D in W1; exact W1)).
  specialize (Hj ltac:(intros -> ->; discriminate) Hs1 ltac:(fold i1; lia) Hi Hb M1 M2).
  assert (Hsoft : lenient = false -> s = Juxt -> acc <> [] -> sym_at i = o endop \/ xorb (is_str (sym_at (i - 1))) (is_str (sym_at i)) = true).
  { intros HL -> Hacc. right. destruct (Hq HL) as [T _]. cbn [tidy_args] in T. apply andb_true_iff in T. destruct T as [_ T]. destruct acc as [|x acc]; [contradiction|]. cbn [no_args] in T.
    rewrite <- Hfirst in T. unfold i1 in T. cbn [spell_sep length] in T. rewrite Nat.add_0_r in T. exact T. }
  specialize (Hj Hsoft). fold i1 in Hj. destruct (fixlast s acc) as [[acc' r]|]; [|apply orw_bind_fail; exact Hj].
  eapply orw_bind; [exact Hj|]. clear Hj Hsoft. cbn beta iota.
  destruct (in_tok ts i1 ltac:(unfold i3, i2 in Hlast; lia)) as [t1 [Ht1 [Et1 Es1]]]. unfold tryConsume. rewrite Et1. cbn [pbind]. change (is_tok Op (bytes endop) t1) with (is_o endop t1).
  assert (is_o endop t1 = false) as ->. { destruct (is_o endop t1) eqn:E; [|reflexivity]. apply is_o_true in E. rewrite <- Es1 in E. contradiction. }
  cbn [pbind]. rewrite Et1. cbn [pbind]. destruct (in_tok ts (i1 - 1) ltac:(unfold i3, i2 in Hlast; lia)) as [t0 [Ht0 [Et0 Es0]]]. rewrite Et0. cbn [pbind]. cbn zeta.
  rewrite (argName_spec s l e (first (spell_args a) (o endop)) i1 W Hs2 ltac:(rewrite Hi3; exact Hnext) ltac:(rewrite Hi3; lia) Wl).
  cbn [pbind].
  set (col' := if (t_line t0 <? t_line t1)%nat then Z.max (t_col t1) col else col).
  assert (Hcol : lenient = false -> col' = col).
  { intros HL. destruct (Hq HL) as [_ Hc]. unfold col'. destruct (Hc (i1 - 1)%nat) with (t := t0) as [L0 _]; [unfold i1; rewrite !app_length in *; lia|exact Ht0|].
    destruct (Hc i1) with (t := t1) as [L1 _]; [unfold i1; rewrite !app_length in *; lia|exact Ht1|]. rewrite L0, L1, Nat.ltb_irrefl. reflexivity. }
  apply spelled_app in Hs2. destruct Hs2 as [_ Hs2]. fold i2 in Hs2.
  assert (Hpar : orw (parse f0 col' false P_RESET i2 w) (result (denote e) i3 w)).
  { apply parse_done; try assumption.
    - exact (fits_anything e W).
    - fold i3. lia.
    - fold i3. rewrite Hnext. exact We.
    - unfold fuelok in *. unfold i2, i1. lia.
    - intros HL. destruct (Hq HL) as [T Hc]. cbn [tidy_args] in T. apply andb_true_iff in T. destruct T as [T _]. apply andb_true_iff in T. destruct T as [T _]. split; [exact T|]. split; [reflexivity|].
      split; [|split; [left; reflexivity|apply calm_next with (col := col); apply Hc; rewrite !app_length; unfold i3, i2, i1 in *; lia]]. intros k Hk. rewrite (Hcol HL). apply Hc. rewrite !app_length. unfold i3, i2, i1 in *. lia. }
  assert (Hname : exists nm0 au op0, match s with Dots => match l with _ => (bytes "end", false, false, i1) end | _ => match l with Plain => ([], false, false, i1) | Named id opt => (id, false, opt, S (S i1)) | Auto opt => ([], true, opt, S i1) end end
      = (nm0, au, op0, i2) /\ forall n, (do* name := (if au : bool then getAutoName n else POk nm0) in POk (name, op0)) = match arg_name s l n with Some (a, b) => POk (a, b) | None => PFail end).
  { assert (i2 = match s with Dots => i1 | _ => match l with Plain => i1 | Named _ _ => S (S i1) | Auto _ => S i1 end end) as E2.
    { unfold i2. destruct l; cbn [spell_label length]; destruct s; try lia; discriminate. }
    rewrite E2. destruct s; (destruct l as [|id opt|opt]; [| |]); try discriminate; (eexists; eexists; eexists; split; [reflexivity|]); intros n; cbn [arg_name pbind option_map]; try reflexivity.
    all: rewrite autoName_spec; destruct (auto_name n); reflexivity. }
  destruct Hname as [nm0 [au [op0 [En Hname]]]].
  replace (match s with Dots => (bytes "end", false, false, i1) | _ => match l with Plain => ([], false, false, i1) | Named id opt => (id, false, opt, S (S i1)) | Auto opt => ([], true, opt, S i1) end end) with (nm0, au, op0, i2)
    by (rewrite <- En; destruct s; reflexivity).
  cbn beta iota. destruct (denote e) as [n|] eqn:D; cbn [result obind] in *; [|apply orw_bind_fail; exact Hpar].
  eapply orw_bind; [exact Hpar|]. cbn beta iota. specialize (Hname n). pose proof (denote_good e n W D) as Hg.
  assert (Hopt : forall name opt, arg_name s l n = Some (name, opt) -> name = [] -> opt = false).
  { intros name opt HA' ->. destruct s, l as [|id opt'|opt']; cbn [arg_name] in HA'; try discriminate; try (injection HA' as <-; reflexivity).
    all: try (injection HA' as -> ->; discriminate). all: destruct (auto_name n) as [v|] eqn:AN; [|discriminate]; injection HA' as -> _; apply auto_name_some in AN; contradiction. }
  destruct (arg_name s l n) as [[name opt]|]; cbn [obind].
  2: { destruct (if au then getAutoName n else POk nm0); cbn [pbind] in *; try discriminate; apply orw_refl. }
  destruct (if au then getAutoName n else POk nm0) as [name'| | | |]; cbn [pbind] in *; try discriminate. injection Hname as -> ->.
  change (if match name with [] => false | _ => true end then createArgID name n opt else n) with (if match name with [] => false | _ => true end then createArgID name n opt else n).
  replace (if match name with [] => false | _ => true end then createArgID name n opt else n) with (arg name opt n) by (unfold arg, createArgID; destruct name; reflexivity).
  replace (match name with [] => false | _ :: _ => true end) with (negb (is_nil name)) by (destruct name; reflexivity).
  assert (Hrec : orw (parseCallArgs ts f (parse f0) endop slice col (used || dots s) (acc' ++ [arg name opt n]) (nm || r || negb (is_nil name)) i3 w)
    (match fixlast (next_sep a) (acc' ++ [arg name opt n]) with
     | Some (acc', r0) => match denote_args a with Some (l, nm') => POk (acc' ++ l, nm || r || negb (is_nil name) || r0 || nm', used || dots s || has_dots a, S (i3 + length (spell_args a)), w) | None => PFail end
     | None => PFail end)).
  { apply HA; try assumption.
    - replace (slice && negb (used || dots s)) with (slice && negb used && negb (dots s)) by (destruct slice, used, (dots s); reflexivity).
      replace (no_args (acc' ++ [arg name opt n])) with false by (destruct acc'; reflexivity). exact Wa.
    - unfold i3, i2, i1. lia.
    - unfold fuelok, i3, i2, i1 in *. lia.
    - unfold fuelok, i3, i2, i1 in *. lia.
    - intros HL. destruct (Hq HL) as [T Hc]. cbn [tidy_args] in T. apply andb_true_iff in T. destruct T as [T _]. apply andb_true_iff in T. destruct T as [_ T].
      replace (no_args (acc' ++ [arg name opt n])) with false by (destruct acc'; reflexivity).
      rewrite (last_sym i2 (spell e) (o "") Hs2 ltac:(rewrite E0; discriminate)) in T. split; [exact T|]. intros k Hk. apply Hc. rewrite !app_length. unfold i3, i2, i1 in *. lia. }
  eapply orw_trans; [exact Hrec|]. clear Hrec.
  replace (S (i + length (spell_sep s ++ spell_label l ++ spell e ++ spell_args a))) with (S (i3 + length (spell_args a))) by (rewrite !app_length; unfold i3, i2, i1; lia).
  replace (used || (dots s || has_dots a)) with (used || dots s || has_dots a) by (destruct used, (dots s); reflexivity).
  replace (match a with ANil s | ACons s _ _ _ => dots s end) with (dots (next_sep a)) by (destruct a; reflexivity).
  destruct (dots (next_sep a)) eqn:Dn.
  - assert (fixlast (next_sep a) (acc' ++ [arg name opt n]) = fixlast Dots (acc' ++ [arg name opt n])) as -> by (unfold fixlast; rewrite Dn; reflexivity).
    rewrite (arg_start acc' name opt n Hg). destruct (is_nil name) eqn:En1; cbn [negb andb]; [|apply orw_refl].
    destruct (denote_args a) as [[l1 nm1]|]; cbn [obind]; [|apply orw_refl]. rewrite <- app_assoc. cbn [app].
    assert (arg (bytes "start") false n = arg (bytes "start") opt n) as ->. { rewrite (Hopt name opt eq_refl); [reflexivity|]. destruct name; [reflexivity|discriminate]. }
    left. do 5 f_equal. destruct nm, r, nm1; reflexivity.
  - unfold fixlast. rewrite Dn. cbn [andb]. destruct (denote_args a) as [[l1 nm1]|]; cbn [obind]; [|apply orw_refl]. rewrite <- app_assoc. cbn [app]. left. do 5 f_equal. destruct nm, r, nm1, (is_nil name); reflexivity.
Qed.

(** closing a list of arguments *)
Lemma args_done a endop slice f f0 col i w : A a -> In endop [")"; "]"]%string -> wf_args (o endop) slice true a = true -> spelled i (spell_args a ++ [o endop]) -> (0 < i)%nat ->
  fuelok f i -> fuelok f0 i -> budget w ->
  (lenient = false -> tidy_args None a = true /\ forall k, (i - 1 <= k <= i + length (spell_args a))%nat -> calm col k) ->
  orw (parseCallArgs ts f (parse f0) endop slice col false [] false i w)
    (match denote_args a with Some (l, nm) => POk (l, nm, has_dots a, S (i + length (spell_args a)), w) | None => PFail end).
Proof.
  intros HA Hend Hw Hs Hi Hf Hf0 Hb Hq. specialize (HA endop slice false [] false f f0 col i w Hend). cbn [negb] in HA. rewrite andb_true_r in HA. specialize (HA Hw Hs Hi Hf Hf0 Hb Hq).
  assert (fixlast (next_sep a) [] = Some ([], false)) as E by (unfold fixlast; destruct (dots (next_sep a)); reflexivity). rewrite E in HA. exact HA.
Qed.
Lemma reaches_tail e e' f col mode P i j w : R e -> wf e = true -> fits (p_formal P) e = true -> spelled i (spell e) -> (i + length (spell e) < length ts)%nat ->
  follows e (sym_at (i + length (spell e))) = true -> fuelok f i -> budget w -> (i + length (spell e) < j)%nat ->
  (lenient = false -> tidy e = true /\ mode && numeric_head e && accessed e = false /\ (forall k, (i <= k < j)%nat -> calm col k) /\ (p_tokidx P = 0%nat \/ p_whitesp P = sp) /\ nextok j) ->
  numeric_head e' = numeric_head e -> (denote e = None -> denote e' = None) ->
  (forall f' n, denote e = Some n -> fuelok (S f') (i + length (spell e)) ->
     match denote e' with
     | Some n' => orw (tryParseExpressionTail ts f' (parse f') col (mode && numeric_head e) P n (i + length (spell e)) w) (POk (Some n', j, w))
     | None => orw (tryParseExpressionTail ts f' (parse f') col (mode && numeric_head e) P n (i + length (spell e)) w) PFail
     end) ->
  reaches (parse f col mode P i w) (denote e') col (mode && numeric_head e') P j w.
Proof.
  intros HR Hw Hf Hs Hl Hfo Hfu Hb Hj Hq Hnh Hd Ht. rewrite Hnh.
  edestruct (HR f col mode P i w Hw Hf Hs Hl Hfo Hfu Hb) as [[Hn H]|[n [f' [Hn [Hf' H]]]]].
  { intros HL. destruct (Hq HL) as [H1 [H2 [H3 H4]]]. split; [exact H1|]. split; [exact H2|]. split; [intros k Hk; apply H3; lia|]. split; [apply H4|]. apply calm_next with (col := col). apply H3. lia. }
  - left. split; [exact (Hd Hn)|exact H].
  - unfold fuelok in Hf'. destruct f' as [|f']; [lia|]. specialize (Ht f' n Hn Hf'). destruct (in_tok ts _ Hl) as [t [Ht1 _]]. destruct (denote e') as [n'|].
    + right. exists n', f'. split; [reflexivity|]. split; [unfold fuelok; lia|]. eapply orw_trans; [exact H|]. eapply tails_take; [exact Ht1|exact Hb| |exact Ht].
      intros HL. destruct (Hq HL) as [_ [_ [H3 _]]]. destruct (H3 (i + length (spell e))%nat ltac:(lia) t Ht1) as [_ [H4 _]]. exact H4.
    + left. split; [reflexivity|]. eapply orw_trans; [exact H|]. apply tails_fail. exact Ht.
Qed.
(** the tail which begins with the operator v *)
Lemma tail_op f col mode P n i w v : option_map sym_of (nth_error ts i) = Some (Op, v) -> exists t, nth_error ts i = Some t /\ t_value t = v /\
  tryParseExpressionTail ts f (parse f) col mode P n i w =
    (let some (r : pres (node * nat * nat)) := do* (n, i, w) := r in POk (Some n, i, w) in
     if same v (bytes ";") then POk (None, i, w)
     else if same v (bytes ".") then warn_unless (negb mode) w (fun w => some (parseAccessExpression ts n (S i) w))
     else if same v (bytes "(") then warn_unless (negb mode) w (fun w => some (parseCallExpression ts f (parse f) col n (S i) w))
     else if same v (bytes "[") then warn_unless (negb mode) w (fun w => some (parseIndexExpression ts f (parse f) col n (S i) w))
     else match rank v with
          | Some p1 => tryParseBinary ts (parse f) col n t p1 P i w
          | None => if has POSTFIX v then POk (Some (createCall (if same v (bytes "++") || same v (bytes "--") then bytes "postfix" ++ v else v) F_OPERATOR [n]), S i, w)
                    else if same v (bytes "::") then POther else POk (None, i, w)
          end).
Proof.
  intros H. destruct (at_tok _ _ _ H) as [t [Ht [Et Es]]]. exists t. split; [exact Ht|]. unfold tryParseExpressionTail. rewrite Et. cbn [pbind]. rewrite !(is_o_op _ _ _ Es).
  unfold sym_of in Es. injection Es as -> ->. split; [reflexivity|]. rewrite PRECEDENCE_rank. reflexivity.
Qed.
Lemma spell_pos e : wf e = true -> (0 < length (spell e))%nat.
Proof. intros H. destruct (spell_starts e H) as [s0 [l0 [-> _]]]. cbn [length]. lia. Qed.
Lemma fits_prim p e s : follows e s = true -> ends unary s = false -> fits p e = true.
Proof.
  intros Hf He. destruct e; try reflexivity; cbn [follows] in Hf; try congruence.
  - destruct (rank op) as [q|]; [|discriminate]. apply ends_unary in Hf. congruence.
  - apply ends_unary in Hf. congruence.
Qed.
(** a binary operator is built, unless its left side is warned about *)
Lemma createBinary_orw op l r (bare : bool) w : has ["?"; "->"; "=>"]%string op = false -> budget w -> good r ->
  ((n_kind l = K_and \/ n_kind l = K_or) -> n_parens l = true \/ bare = true) -> (lenient = false -> negb (has ["&&"; "||"]%string op) && bare = false) ->
  orw (createBinary op l r w) (match binop op l r with Some n => POk (n, w) | None => PFail end).
Proof.
  intros Hop Hb Hr Hl Hq. assert (Hr' : forall v f p items, r = Node K_call v f p items -> f_dot f = true -> items <> []).
  { intros v f p items -> Hd. destruct Hr as [_ [_ Hr]]. exact (Hr eq_refl Hd). }
  destruct (has ["&&"; "||"]%string op || n_parens l || negb (nkind_beq (n_kind l) K_and || nkind_beq (n_kind l) K_or)) eqn:E.
  - left. apply createBinary_binop; try assumption. apply orb_true_iff in E. destruct E as [E|E].
    + apply orb_true_iff in E. tauto.
    + right. right. destruct (n_kind l); try discriminate; split; discriminate.
  - apply orb_false_iff in E. destruct E as [E E3]. apply orb_false_iff in E. destruct E as [E1 E2]. apply negb_false_iff in E3.
    assert (lenient = true) as HL. { destruct lenient eqn:HL; [reflexivity|]. exfalso. specialize (Hq eq_refl). rewrite E1 in Hq. cbn [negb andb] in Hq. destruct Hl as [H|H]; [|congruence|congruence].
      apply orb_true_iff in E3. destruct E3 as [E3|E3]; apply nkind_true in E3; auto. }
    right. split; [exact HL|]. unfold createBinary. rewrite !same_has. change (has (["&&"%string] ++ ["||"%string]) op = false) in E1. rewrite has_app in E1. apply orb_false_iff in E1. destruct E1 as [-> ->].
    rewrite E3, E2, (Hb HL). reflexivity.
Qed.
Lemma createBinary_cast op l r (bare : bool) w : has ["->"; "=>"]%string op = true -> budget w ->
  ((n_kind l = K_and \/ n_kind l = K_or) -> n_parens l = true \/ bare = true) -> (lenient = false -> bare = false) ->
  orw (createBinary op l r w) (POk (castop op l r, w)).
Proof.
  intros Hop Hb Hl Hq. unfold createBinary. rewrite !same_has. rewrite (has_const _ op false Hop ["||"%string] eq_refl), (has_const _ op false Hop ["&&"%string] eq_refl).
  apply orw_warn; [exact Hb| |].
  { intros HL. specialize (Hq HL). destruct (nkind_beq (n_kind l) K_and || nkind_beq (n_kind l) K_or) eqn:E; [|reflexivity]. cbn [negb orb]. destruct Hl as [H|H]; [|exact H|congruence].
    apply orb_true_iff in E. destruct E as [E|E]; apply nkind_true in E; auto. }
  intros _. rewrite (has_const _ op false Hop ["|>"%string] eq_refl), (has_const _ op false Hop ["<|"%string] eq_refl), (has_const _ op false Hop [":="%string] eq_refl).
  unfold castop. change (has (["->"%string] ++ ["=>"%string]) op = true) in Hop. rewrite has_app in Hop. destruct (has ["->"%string] op); [apply orw_refl|]. cbn [orb] in Hop. rewrite Hop. apply orw_refl.
Qed.
Ltac pairs H := repeat (apply andb_true_iff in H; let H' := fresh "W" in destruct H as [H H']).
Theorem reach : (forall e, R e) /\ (forall a, A a).
Proof.
  apply expr_args_ind.
  - (* literal *)
    intros k v f col mode P i w Hw Hf Hs Hl Hfo Hfu Hb Hq. apply (head_reaches (ELit k v)); try assumption; try reflexivity; [discriminate| |].
    { intros HL. destruct (Hq HL) as [_ [_ [H _]]]. apply H. cbn [spell length]. lia. }
    intros f' _. cbn [spell length denote result]. apply spelled_one in Hs. destruct (at_tok _ _ _ Hs) as [t [Ht [Et Es]]]. unfold parseExpressionHead. rewrite Et. cbn [pbind]. unfold sym_of in Es. injection Es as -> ->.
    replace (i + 1)%nat with (S i) by lia. cbn [wf] in Hw. destruct k; try discriminate; apply orw_refl.
  - (* identifier *)
    intros v f col mode P i w Hw Hf Hs Hl Hfo Hfu Hb Hq. apply (head_reaches (EId v)); try assumption; try reflexivity; [discriminate| |].
    { intros HL. destruct (Hq HL) as [_ [_ [H _]]]. apply H. cbn [spell length]. lia. }
    intros f' _. cbn [spell length denote result]. apply spelled_one in Hs. destruct (at_tok _ _ _ Hs) as [t [Ht [Et Es]]]. unfold parseExpressionHead. rewrite Et. cbn [pbind]. unfold sym_of in Es. injection Es as -> ->.
    replace (i + 1)%nat with (S i) by lia. cbn [wf] in Hw. pairs Hw. apply negb_true_iff in W. change not_modelled_ids with reserved. rewrite W. unfold createRead. destruct (has ["true"; "false"]%string v); [apply orw_refl|].
    destruct v; [discriminate|apply orw_refl].
  - (* [] *)
    intros f col mode P i w Hw Hf Hs Hl Hfo Hfu Hb Hq. apply (head_reaches EDefault); try assumption; try reflexivity; [discriminate| |].
    { intros HL. destruct (Hq HL) as [_ [_ [H _]]]. apply H. cbn [spell length]. lia. }
    intros f' _. cbn [spell length denote result]. apply spelled_one in Hs. destruct (at_tok _ _ _ Hs) as [t [Ht [Et Es]]]. unfold parseExpressionHead. rewrite Et. cbn [pbind]. rewrite !(is_o_op _ _ _ Es). unfold sym_of in Es. injection Es as -> ->.
    replace (i + 1)%nat with (S i) by lia. apply orw_refl.
  - (* parentheses *)
    intros e IH f col mode P i w Hw Hf Hs Hl Hfo Hfu Hb Hq. cbn [wf] in Hw. cbn [spell length] in Hs, Hl, Hq. rewrite (app_length (spell e)) in Hl, Hq. cbn [length] in Hl, Hq.
    apply (head_reaches (EParen e)); try assumption; try reflexivity; [discriminate| |cbn [spell length]; lia|].
    { intros HL. destruct (Hq HL) as [_ [_ [H _]]]. apply H. lia. }
    intros f' ->. cbn [spell length denote]. apply spelled_cons in Hs. destruct Hs as [Hs1 Hs2]. apply spelled_app in Hs2. destruct Hs2 as [Hs2 Hs3]. apply spelled_one in Hs3.
    destruct (at_tok _ _ _ Hs1) as [t [Ht [Et Es]]]. unfold parseExpressionHead. rewrite Et. cbn [pbind]. rewrite !(is_o_op _ _ _ Es). unfold sym_of in Es. injection Es as -> ->. change (same (bytes "(") (bytes "(")) with true. cbn iota.
    unfold parseParens. assert (HP := parse_done e f' col false P_RESET (S i) w IH Hw (fits_anything e Hw) Hs2).
    rewrite (at_sym _ _ _ Hs3) in HP. specialize (HP ltac:(lia) eq_refl ltac:(unfold fuelok in *; lia) Hb).
    assert (orw (parse f' col false P_RESET (S i) w) (result (denote e) (S i + length (spell e)) w)) as HP'.
    { apply HP. intros HL. destruct (Hq HL) as [T [_ [Hc _]]]. split; [exact T|]. split; [reflexivity|]. split; [intros k Hk; apply Hc; lia|]. split; [left; reflexivity|]. apply calm_next with (col := col). apply Hc. lia. }
    destruct (denote e) as [n|]; cbn [result option_map] in *; [|apply orw_bind_fail; exact HP'].
    eapply orw_bind; [exact HP'|]. cbn beta iota. unfold consume. destruct (at_tok _ _ _ Hs3) as [t3 [Ht3 [Et3 Es3]]]. rewrite Et3. cbn [pbind].
    change (is_tok Op (bytes ")") t3) with (is_o ")" t3). rewrite (proj2 (is_o_true ")" t3) Es3). cbn [pbind]. destruct n as [k v fl p items]. rewrite app_length. cbn [length].
    replace (i + S (length (spell e) + 1))%nat with (S (S i + length (spell e))) by lia. apply orw_refl.
  - (* array literal *)
    intros a IH f col mode P i w Hw Hf Hs Hl Hfo Hfu Hb Hq. cbn [wf] in Hw. cbn [spell length] in Hs, Hl, Hq. rewrite (app_length (spell_args a)) in Hl, Hq. cbn [length] in Hl, Hq.
    apply (head_reaches (EArr a)); try assumption; try reflexivity; [discriminate| |cbn [spell length]; lia|].
    { intros HL. destruct (Hq HL) as [_ [_ [H _]]]. apply H. lia. }
    intros f' ->. cbn [spell length denote]. apply spelled_cons in Hs. destruct Hs as [Hs1 Hs2].
    destruct (at_tok _ _ _ Hs1) as [t [Ht [Et Es]]]. unfold parseExpressionHead. rewrite Et. cbn [pbind]. rewrite !(is_o_op _ _ _ Es). unfold sym_of in Es. injection Es as -> ->.
    change (same (bytes "[") (bytes "(")) with false. change (same (bytes "[") (bytes "[")) with true. change (has not_modelled_ops (bytes "[")) with false. cbn iota. unfold parseArrayLiteral.
    assert (HP : orw (parseCallArgs ts f' (parse f') "]" false col false [] false (S i) w) (match denote_args a with Some (l, nm) => POk (l, nm, has_dots a, S (S i + length (spell_args a)), w) | None => PFail end)).
    { apply args_done; try assumption; try (unfold fuelok in *; lia); [right; left; reflexivity|]. intros HL. destruct (Hq HL) as [T [_ [Hc _]]]. split; [exact T|]. intros k Hk. apply Hc. lia. }
    destruct (denote_args a) as [[l nm]|]; cbn [result obind] in *; [|apply orw_bind_fail; exact HP].
    eapply orw_bind; [exact HP|]. cbn beta iota. rewrite app_length. cbn [length]. replace (i + S (length (spell_args a) + 1))%nat with (S (S i + length (spell_args a))) by lia. destruct nm; apply orw_refl.
  - (* prefix *)
    intros op e IH f col mode P i w Hw Hf Hs Hl Hfo Hfu Hb Hq. cbn [wf] in Hw. pairs Hw. cbn [spell length follows] in Hs, Hl, Hq, Hfo.
    apply (head_reaches (EPre op e)); try assumption; try reflexivity; [discriminate| |cbn [spell length]; lia|].
    { intros HL. destruct (Hq HL) as [_ [_ [H _]]]. apply H. lia. }
    intros f' ->. cbn [spell length denote]. apply spelled_cons in Hs. destruct Hs as [Hs1 Hs2].
    destruct (at_tok _ _ _ Hs1) as [t [Ht [Et Es]]]. unfold parseExpressionHead. rewrite Et. cbn [pbind]. rewrite !(is_o_op _ _ _ Es). unfold sym_of in Es. injection Es as -> ->.
    rewrite !same_has. rewrite !(has_const prefix_ops op false) by (assumption || reflexivity). unfold parsePrefix. change PREFIX with prefix_ops. rewrite Hw.
    replace (i + S (length (spell e)))%nat with (S i + length (spell e))%nat in * by lia.
    assert (HP : orw (parse f' col (same op (bytes "-") || same op (bytes "+")) P_PREFIX_UNARY (S i) w) (result (denote e) (S i + length (spell e)) w)).
    { apply parse_done; try assumption; try (unfold fuelok in *; lia). intros HL. destruct (Hq HL) as [T [_ [Hc [_ N]]]]. cbn [tidy] in T. apply andb_true_iff in T. destruct T as [T1 T2]. split; [exact T1|].
      split; [|split; [intros k Hk; apply Hc; lia|split; [left; reflexivity|exact N]]]. apply negb_true_iff in T2. rewrite !same_has. rewrite <- has_app. exact T2. }
    destruct (denote e) as [n|] eqn:D; cbn [result option_map] in *; [|apply orw_bind_fail; exact HP].
    eapply orw_bind; [exact HP|]. cbn beta iota. rewrite createPrefix_unop; [|exact Hw|]. { apply orw_refl. } destruct (denote_good e n W0 D) as [_ [H _]]. exact H.
  - (* postfix *)
    intros e IH op f col mode P i w Hw Hf Hs Hl Hfo Hfu Hb Hq. cbn [wf] in Hw. pairs Hw. cbn [spell follows fits] in *. rewrite app_length in *. cbn [length] in *. apply spelled_app in Hs. destruct Hs as [Hs1 Hs2]. apply spelled_one in Hs2.
    apply reaches_tail with (e := e); try assumption; try reflexivity; try lia.
    + apply fits_prim with (s := (Op, op)); [exact W|]. unfold ends. rewrite (has_const postfix_ops op true Hw sticky eq_refl). reflexivity.
    + rewrite (at_sym _ _ _ Hs2). exact W.
    + cbn [denote]. intros ->. reflexivity.
    + intros f' n Hn Hf'. cbn [denote]. rewrite Hn. cbn [option_map]. destruct (tail_op f' col (mode && numeric_head e) P n _ w op Hs2) as [t [Ht [Ev ->]]]. cbn zeta. rewrite !same_has.
      rewrite (has_const postfix_ops op false Hw [";"%string] eq_refl), (has_const postfix_ops op false Hw ["."%string] eq_refl), (has_const postfix_ops op false Hw ["("%string] eq_refl), (has_const postfix_ops op false Hw ["["%string] eq_refl).
      rewrite (rank_known _ _ None Hw eq_refl). change POSTFIX with postfix_ops. rewrite Hw, <- has_app. cbn [app]. replace (i + (length (spell e) + 1))%nat with (S (i + length (spell e))) by lia. apply orw_refl.
  - (* access *)
    intros e IH id f col mode P i w Hw Hf Hs Hl Hfo Hfu Hb Hq. cbn [wf] in Hw. pairs Hw. cbn [spell follows fits] in *. rewrite app_length in *. cbn [length] in *. apply spelled_app in Hs. destruct Hs as [Hs1 Hs2]. apply spelled_cons in Hs2. destruct Hs2 as [Hs2 Hs3]. apply spelled_one in Hs3.
    apply reaches_tail with (e := e); try assumption; try reflexivity; try lia.
    + apply fits_prim with (s := o "."); [exact W|reflexivity].
    + rewrite (at_sym _ _ _ Hs2). exact W.
    + intros HL. destruct (Hq HL) as [T [M [Hc Hp]]]. split; [exact T|]. split; [|split; [exact Hc|exact Hp]]. cbn [accessed] in M. change (numeric_head (EDot e id)) with (numeric_head e) in M. rewrite andb_true_r in M. rewrite M. reflexivity.
    + cbn [denote]. intros ->. reflexivity.
    + intros f' n Hn Hf'. cbn [denote]. rewrite Hn. cbn [option_map]. destruct (tail_op f' col (mode && numeric_head e) P n _ w _ Hs2) as [t [Ht [Ev ->]]]. cbn zeta. change (same (bytes ".") (bytes ";")) with false. change (same (bytes ".") (bytes ".")) with true. cbn iota.
      apply orw_warn; [exact Hb| |].
      { intros HL. destruct (Hq HL) as [_ [M _]]. cbn [accessed] in M. change (numeric_head (EDot e id)) with (numeric_head e) in M. rewrite andb_true_r in M. rewrite M. reflexivity. }
      intros _. unfold parseAccessExpression. destruct (at_tok _ _ _ Hs3) as [t3 [Ht3 [Et3 Es3]]]. rewrite Et3. cbn [pbind]. unfold sym_of in Es3. injection Es3 as -> ->. cbn [pbind]. replace (i + (length (spell e) + 2))%nat with (S (S (i + length (spell e)))) by lia. apply orw_refl.
  - (* call *)
    intros e IH a IHa f col mode P i w Hw Hf Hs Hl Hfo Hfu Hb Hq. cbn [wf] in Hw. pairs Hw. cbn [spell follows fits] in *. rewrite (app_length (spell e)) in *. cbn [length] in *. rewrite (app_length (spell_args a)) in *. cbn [length] in *.
    apply spelled_app in Hs. destruct Hs as [Hs1 Hs2]. apply spelled_cons in Hs2. destruct Hs2 as [Hs2 Hs3].
    assert (M' : lenient = false -> mode && numeric_head e = false).
    { intros HL. destruct (Hq HL) as [_ [M _]]. cbn [accessed] in M. change (numeric_head (ECall e a)) with (numeric_head e) in M. rewrite andb_true_r in M. exact M. }
    apply reaches_tail with (e := e); try assumption; try reflexivity; try lia.
    + apply fits_prim with (s := o "("); [exact W0|reflexivity].
    + rewrite (at_sym _ _ _ Hs2). exact W0.
    + intros HL. destruct (Hq HL) as [T [M [Hc Hp]]]. cbn [tidy] in T. apply andb_true_iff in T. destruct T as [T _]. split; [exact T|]. split; [rewrite (M' HL); reflexivity|split; [exact Hc|exact Hp]].
    + cbn [denote]. intros ->. reflexivity.
    + intros f' n Hn Hf'. cbn [denote]. rewrite Hn. cbn [obind]. destruct (tail_op f' col (mode && numeric_head e) P n _ w _ Hs2) as [t [Ht [Ev Et]]]. rewrite Et. cbn zeta. rewrite !same_has.
      change (has [";"%string] (bytes "(")) with false. change (has ["."%string] (bytes "(")) with false. change (has ["("%string] (bytes "(")) with true. change (has ["["%string] (bytes "(")) with false. cbn iota.
      assert (HP : orw (parseCallArgs ts f' (parse f') ")" false col false [] false (S (i + length (spell e))) w) (match denote_args a with Some (l, nm) => POk (l, nm, has_dots a, S (S (i + length (spell e)) + length (spell_args a)), w) | None => PFail end)).
      { apply args_done; try assumption; try (unfold fuelok in *; lia); [cbn; tauto|]. intros HL. destruct (Hq HL) as [T [_ [Hc _]]]. cbn [tidy] in T. apply andb_true_iff in T. destruct T as [_ T]. split; [exact T|]. intros k Hk. apply Hc. lia. }
      unfold parseCallExpression. destruct (denote_args a) as [[l nm]|]; cbn [obind].
      * apply orw_warn; [exact Hb|intros HL; rewrite (M' HL); reflexivity|]. intros _. eapply orw_bind; [eapply orw_bind; [exact HP|]; cbn beta iota; rewrite (call_spec e n l nm Hw Hn W0); cbn [pbind]; apply orw_refl|].
        cbn beta iota. replace (i + (length (spell e) + S (length (spell_args a) + 1)))%nat with (S (S (i + length (spell e)) + length (spell_args a))) by lia. apply orw_refl.
      * apply orw_warn; [exact Hb|intros HL; rewrite (M' HL); reflexivity|]. intros _. apply orw_bind_fail. apply orw_bind_fail. exact HP.
  - (* index *)
    intros e IH a IHa f col mode P i w Hw Hf Hs Hl Hfo Hfu Hb Hq. cbn [wf] in Hw. pairs Hw. cbn [spell follows fits] in *. rewrite (app_length (spell e)) in *. cbn [length] in *. rewrite (app_length (spell_args a)) in *. cbn [length] in *.
    apply spelled_app in Hs. destruct Hs as [Hs1 Hs2]. apply spelled_cons in Hs2. destruct Hs2 as [Hs2 Hs3].
    assert (M' : lenient = false -> mode && numeric_head e = false).
    { intros HL. destruct (Hq HL) as [_ [M _]]. cbn [accessed] in M. change (numeric_head (EIndex e a)) with (numeric_head e) in M. rewrite andb_true_r in M. exact M. }
    apply reaches_tail with (e := e); try assumption; try reflexivity; try lia.
    + apply fits_prim with (s := o "["); [exact W0|reflexivity].
    + rewrite (at_sym _ _ _ Hs2). exact W0.
    + intros HL. destruct (Hq HL) as [T [M [Hc Hp]]]. cbn [tidy] in T. apply andb_true_iff in T. destruct T as [T _]. split; [exact T|]. split; [rewrite (M' HL); reflexivity|split; [exact Hc|exact Hp]].
    + cbn [denote]. intros ->. reflexivity.
    + intros f' n Hn Hf'. cbn [denote]. rewrite Hn. cbn [obind]. destruct (tail_op f' col (mode && numeric_head e) P n _ w _ Hs2) as [t [Ht [Ev Et]]]. rewrite Et. cbn zeta. rewrite !same_has.
      change (has [";"%string] (bytes "[")) with false. change (has ["."%string] (bytes "[")) with false. change (has ["("%string] (bytes "[")) with false. change (has ["["%string] (bytes "[")) with true. cbn iota.
      assert (HP : orw (parseCallArgs ts f' (parse f') "]" true col false [] false (S (i + length (spell e))) w) (match denote_args a with Some (l, nm) => POk (l, nm, has_dots a, S (S (i + length (spell e)) + length (spell_args a)), w) | None => PFail end)).
      { apply args_done; try assumption; try (unfold fuelok in *; lia); [cbn; tauto|]. intros HL. destruct (Hq HL) as [T [_ [Hc _]]]. cbn [tidy] in T. apply andb_true_iff in T. destruct T as [_ T]. split; [exact T|]. intros k Hk. apply Hc. lia. }
      unfold parseIndexExpression. destruct (denote_args a) as [[l nm]|]; cbn [obind].
      * apply orw_warn; [exact Hb|intros HL; rewrite (M' HL); reflexivity|]. intros _. eapply orw_bind; [eapply orw_bind; [exact HP|]; cbn beta iota; apply orw_refl|].
        cbn beta iota. replace (i + (length (spell e) + S (length (spell_args a) + 1)))%nat with (S (S (i + length (spell e)) + length (spell_args a))) by lia. destruct nm; apply orw_refl.
      * apply orw_warn; [exact Hb|intros HL; rewrite (M' HL); reflexivity|]. intros _. apply orw_bind_fail. apply orw_bind_fail. exact HP.
  - (* binary *)
    intros l IHl op r IHr f col mode P i w Hw Hf Hs Hl Hfo Hfu Hb Hq. cbn [wf] in Hw. pairs Hw. cbn [spell follows fits] in *. rewrite (app_length (spell l)) in *. cbn [length] in *.
    destruct (rank op) as [q|] eqn:Rk; [|discriminate]. apply andb_true_iff in Hf. destruct Hf as [Htk Hf].
    apply spelled_app in Hs. destruct Hs as [Hs1 Hs2]. apply spelled_cons in Hs2. destruct Hs2 as [Hs2 Hs3].
    replace (i + (length (spell l) + S (length (spell r))))%nat with (S (i + length (spell l)) + length (spell r))%nat in * by lia.
    apply reaches_tail with (e := l); try assumption; try reflexivity; try lia.
    + rewrite (at_sym _ _ _ Hs2). exact W0.
    + intros HL. destruct (Hq HL) as [T [M [Hc Hp]]]. cbn [tidy] in T. pairs T. split; [exact T|]. split; [exact M|]. split; [exact Hc|exact Hp].
    + cbn [denote]. intros ->. reflexivity.
    + intros f' n Hn Hf'. cbn [denote]. rewrite Hn. cbn [obind]. destruct (tail_op f' col (mode && numeric_head l) P n _ w _ Hs2) as [t [Ht [Ev Et]]]. rewrite Et, Rk. cbn zeta. clear Et.
      pose proof (rank_sticky _ _ Rk) as Hst. rewrite !same_has.
      rewrite (has_sub ["."%string] sticky op eq_refl Hst), (has_sub ["("%string] sticky op eq_refl Hst), (has_sub ["["%string] sticky op eq_refl Hst).
      assert (has [";"%string] op = false) as ->. { destruct (has [";"%string] op) eqn:E; [|reflexivity]. rewrite (rank_known _ _ None E eq_refl) in Rk. discriminate. }
      unfold tryParseBinary. rewrite (space_eq _ _ Ht), miss_takes, Htk, Ev. cbn [negb].
      assert (Hsp : lenient = false -> space ts (i + length (spell l)) = sp).
      { intros HL. destruct (Hq HL) as [_ [_ [Hc _]]]. destruct (Hc (i + length (spell l))%nat ltac:(lia) t Ht) as [_ [_ H]]. apply H; [|congruence]. unfold sym_of in Hs2. rewrite Ht in Hs2. injection Hs2 as H2 _. exact H2. }
      assert (HP : orw (parse f' col false (ParserModel.Prec q (space ts (i + length (spell l))) (i + length (spell l))) (S (i + length (spell l))) w) (result (denote r) (S (i + length (spell l)) + length (spell r)) w)).
      { apply parse_done; try assumption; [unfold fuelok in *; lia|]. intros HL. destruct (Hq HL) as [T [_ [Hc [_ N]]]]. cbn [tidy] in T. pairs T. split; [assumption|]. split; [reflexivity|].
        split; [intros k Hk; apply Hc; lia|]. split; [right; exact (Hsp HL)|exact N]. }
      assert (Hbin : forall n', denote r = Some n' -> orw (createBinary op n n' w) (match binop op n n' with Some n => POk (n, w) | None => PFail end)).
      { intros n' Hn'. apply negb_true_iff in W2. apply createBinary_orw with (bare := bare_logic l); try assumption; [| |intros HL].
        - apply (denote_good r n' W Hn').
        - intros Hk. destruct (denote_logic l n Hn W1 Hk) as [H|H]; auto.
        - destruct (Hq HL) as [T _]. cbn [tidy] in T. pairs T. apply negb_true_iff in W3. exact W3. }
      match goal with |- match ?x with Some n' => orw ?a (POk (Some n', _, _)) | None => orw ?a PFail end => assert (orw a (match x with Some n' => POk (Some n', (S (i + length (spell l)) + length (spell r))%nat, w) | None => PFail end)); [|destruct x; assumption] end.
      apply orw_warn; [exact Hb| |].
      { intros HL. apply negb_true_iff. apply even_not_misleading. destruct (Hq HL) as [_ [_ [_ [[H|H] _]]]]; [left; exact H|right; rewrite (Hsp HL); exact H]. }
      intros _. apply negb_true_iff in W2. change (has (["?"%string] ++ ["->"%string] ++ ["=>"%string]) op = false) in W2. rewrite !has_app in W2. apply orb_false_iff in W2. destruct W2 as [E1 W2]. apply orb_false_iff in W2. destruct W2 as [E2 E3].
      rewrite !same_has, E1, E2, E3. cbn [orb]. destruct (denote r) as [n'|]; cbn [result obind] in *; [|apply orw_bind_fail; exact HP].
      eapply orw_bind; [exact HP|]. cbn beta iota. specialize (Hbin n' eq_refl). destruct (binop op n n') as [n2|]; [|apply orw_bind_fail; exact Hbin].
      eapply orw_bind; [exact Hbin|]. apply orw_refl.
  - (* conditional *)
    intros c IHc a IHa b IHb f col mode P i w Hw Hf Hs Hl Hfo Hfu Hb Hq. cbn [wf] in Hw. pairs Hw. cbn [spell follows fits] in *. rewrite (app_length (spell c)) in *. cbn [length] in *. rewrite (app_length (spell a)) in *. cbn [length] in *.
    apply andb_true_iff in Hf. destruct Hf as [Htk Hf].
    apply spelled_app in Hs. destruct Hs as [Hs1 Hs2]. apply spelled_cons in Hs2. destruct Hs2 as [Hs2 Hs3]. apply spelled_app in Hs3. destruct Hs3 as [Hs3 Hs4]. apply spelled_cons in Hs4. destruct Hs4 as [Hs4 Hs5].
    set (j1 := (i + length (spell c))%nat) in *. set (j2 := (S j1 + length (spell a))%nat) in *.
    replace (i + (length (spell c) + S (length (spell a) + S (length (spell b)))))%nat with (S j2 + length (spell b))%nat in * by (unfold j2, j1; lia).
    apply reaches_tail with (e := c); try assumption; try reflexivity; try (unfold j2, j1 in *; lia).
    + fold j1. rewrite (at_sym _ _ _ Hs2). exact W2.
    + intros HL. destruct (Hq HL) as [T [M [Hc Hp]]]. cbn [tidy] in T. pairs T. split; [exact T|]. split; [exact M|]. split; [exact Hc|exact Hp].
    + cbn [denote]. intros ->. reflexivity.
    + intros f' n Hn Hf'. fold j1. fold j1 in Hf'. cbn [denote]. rewrite Hn. cbn [obind]. destruct (tail_op f' col (mode && numeric_head c) P n _ w _ Hs2) as [t [Ht [Ev Et]]]. rewrite Et. cbn zeta. clear Et.
      rewrite !same_has. change (has [";"%string] (bytes "?")) with false. change (has ["."%string] (bytes "?")) with false. change (has ["("%string] (bytes "?")) with false. change (has ["["%string] (bytes "?")) with false. change (rank (bytes "?")) with (Some 15%nat). cbn iota.
      unfold tryParseBinary. rewrite (space_eq _ _ Ht), miss_takes, Htk, Ev. cbn [negb].
      assert (Hsp : lenient = false -> space ts j1 = sp).
      { intros HL. destruct (Hq HL) as [_ [_ [Hc _]]]. destruct (Hc j1 ltac:(unfold j2, j1; lia) t Ht) as [_ [_ H]]. apply H; [|rewrite Ev; discriminate]. unfold sym_of in Hs2. rewrite Ht in Hs2. injection Hs2 as H2 _. exact H2. }
      assert (HA : orw (parse f' col false P_RESET (S j1) w) (result (denote a) j2 w)).
      { apply parse_done; try assumption; fold j2.
        - exact (fits_anything a W1).
        - unfold j2, j1 in *; lia.
        - rewrite (at_sym _ _ _ Hs4). reflexivity.
        - unfold fuelok in *; lia.
        - intros HL. destruct (Hq HL) as [T [_ [Hc _]]]. cbn [tidy] in T. pairs T. split; [assumption|]. split; [reflexivity|]. split; [intros k Hk; apply Hc; unfold j2, j1 in *; lia|]. split; [left; reflexivity|].
          apply calm_next with (col := col). apply Hc. unfold j2, j1 in *; lia. }
      assert (HB : orw (parse f' col false (ParserModel.Prec 15 (space ts j1) j1) (S j2) w) (result (denote b) (S j2 + length (spell b)) w)).
      { apply parse_done; try assumption.
        - unfold fuelok, j2 in *; lia.
        - intros HL. destruct (Hq HL) as [T [_ [Hc [_ N]]]]. cbn [tidy] in T. pairs T. split; [assumption|]. split; [reflexivity|]. split; [intros k Hk; apply Hc; unfold j2, j1 in *; lia|]. split; [right; exact (Hsp HL)|exact N]. }
      match goal with |- match ?x with Some n' => orw ?a (POk (Some n', _, _)) | None => orw ?a PFail end => assert (orw a (match x with Some n' => POk (Some n', (S j2 + length (spell b))%nat, w) | None => PFail end)); [|destruct x; assumption] end.
      apply orw_warn; [exact Hb| |].
      { intros HL. apply negb_true_iff. apply even_not_misleading. destruct (Hq HL) as [_ [_ [_ [[H|H] _]]]]; [left; exact H|right; rewrite (Hsp HL); exact H]. }
      intros _. change (same (bytes "?") (bytes "?")) with true. cbn iota. destruct (denote a) as [na|]; cbn [result obind] in *; [|apply orw_bind_fail; exact HA].
      eapply orw_bind; [exact HA|]. cbn beta iota. unfold consume. destruct (at_tok _ _ _ Hs4) as [t4 [Ht4 [Et4 Es4]]]. rewrite Et4. cbn [pbind]. change (is_tok Op (bytes ":") t4) with (is_o ":" t4). rewrite (proj2 (is_o_true ":" t4) Es4). cbn [pbind].
      destruct (denote b) as [nb|]; cbn [result obind] in *; [|apply orw_bind_fail; exact HB].
      eapply orw_bind; [exact HB|]. apply orw_refl.
  - (* types *)
    intros l IHl op r t IHt f col mode P i w Hw Hf Hs Hl Hfo Hfu Hb Hq. cbn [wf] in Hw. pairs Hw. cbn [spell follows fits] in *. rewrite (app_length (spell l)) in *. cbn [length] in *.
    pose proof (rank_known _ _ (Some 10%nat) Hw eq_refl) as Rk. rewrite Rk in Hf. apply andb_true_iff in Hf. destruct Hf as [Htk Hf].
    apply spelled_app in Hs. destruct Hs as [Hs1 Hs2]. apply spelled_cons in Hs2. destruct Hs2 as [Hs2 Hs3].
    set (rs := match r with None => [] | Some false => [o "&"] | Some true => [o "&"; (Id, bytes "mut")] end) in *. rewrite (app_length rs) in *. apply spelled_app in Hs3. destruct Hs3 as [Hs3 Hs4].
    set (j1 := (i + length (spell l))%nat) in *. set (j2 := (S j1 + length rs)%nat) in *.
    replace (i + (length (spell l) + S (length rs + length (spell t))))%nat with (j2 + length (spell t))%nat in * by (unfold j2, j1; lia). pose proof (spell_pos t W1) as Hpos.
    apply reaches_tail with (e := l); try assumption; try reflexivity; try (unfold j2, j1 in *; lia).
    + fold j1. rewrite (at_sym _ _ _ Hs2). exact W2.
    + intros HL. destruct (Hq HL) as [T [M [Hc Hp]]]. cbn [tidy] in T. pairs T. split; [exact T|]. split; [exact M|]. split; [exact Hc|exact Hp].
    + cbn [denote]. intros ->. reflexivity.
    + intros f' n Hn Hf'. fold j1. fold j1 in Hf'. cbn [denote]. rewrite Hn. cbn [obind]. destruct (tail_op f' col (mode && numeric_head l) P n _ w _ Hs2) as [t1 [Ht [Ev Et]]]. rewrite Et, Rk. cbn zeta. clear Et.
      pose proof (rank_sticky _ _ Rk) as Hst. rewrite !same_has. rewrite (has_const _ op false Hw [";"%string] eq_refl).
      rewrite (has_sub ["."%string] sticky op eq_refl Hst), (has_sub ["("%string] sticky op eq_refl Hst), (has_sub ["["%string] sticky op eq_refl Hst).
      unfold tryParseBinary. rewrite (space_eq _ _ Ht), miss_takes, Htk, Ev. cbn [negb].
      assert (Hsp : lenient = false -> space ts j1 = sp).
      { intros HL. destruct (Hq HL) as [_ [_ [Hc _]]]. destruct (Hc j1 ltac:(unfold j2, j1; lia) t1 Ht) as [_ [_ H]]. apply H; [|rewrite Ev; congruence]. unfold sym_of in Hs2. rewrite Ht in Hs2. injection Hs2 as H2 _. exact H2. }
      assert (HA : orw (parse f' col false P_PREFIX_UNARY j2 w) (result (denote t) (j2 + length (spell t)) w)).
      { apply parse_done; try assumption.
        - unfold fuelok, j2 in *; lia.
        - intros HL. destruct (Hq HL) as [T [_ [Hc [_ N]]]]. cbn [tidy] in T. pairs T. split; [assumption|]. split; [reflexivity|]. split; [intros k Hk; apply Hc; unfold j2, j1 in *; lia|]. split; [left; reflexivity|exact N]. }
      match goal with |- match ?x with Some n' => orw ?a (POk (Some n', _, _)) | None => orw ?a PFail end => assert (orw a (match x with Some n' => POk (Some n', (j2 + length (spell t))%nat, w) | None => PFail end)); [|destruct x; assumption] end.
      apply orw_warn; [exact Hb| |].
      { intros HL. apply negb_true_iff. apply even_not_misleading. destruct (Hq HL) as [_ [_ [_ [[H|H] _]]]]; [left; exact H|right; rewrite (Hsp HL); exact H]. }
      intros _. rewrite !same_has. rewrite (has_const _ op false Hw ["?"%string] eq_refl), <- has_app. cbn [app]. rewrite Hw.
      assert (HT : orw (parseTypeAnnot ts (parse f') col (S j1) w) (match denote t with Some n' => POk (ref r n', (j2 + length (spell t))%nat, w) | None => PFail end)).
      { destruct (spell_starts t W1) as [s0 [l0 [E0 HS]]]. assert (sym_at j2 = s0) as Ej2. { rewrite E0 in Hs4. apply spelled_cons in Hs4. destruct Hs4 as [H _]. apply at_sym. exact H. }
        assert (exists t2, tok j2 = POk t2 /\ sym_of t2 = s0) as [t2 [Et2 Es2]]. { destruct (in_tok ts j2 ltac:(lia)) as [t2 [_ [H1 H2]]]. exists t2. split; [exact H1|congruence]. }
        unfold parseTypeAnnot, tryConsume. rewrite E0 in W. cbn [first hd] in W. destruct r as [[]|]; unfold rs in *; cbn [length] in *.
        - apply spelled_cons in Hs3. destruct Hs3 as [Hs3 Hs3']. apply spelled_one in Hs3'. destruct (at_tok _ _ _ Hs3) as [t3 [_ [Et3 Es3]]]. destruct (at_tok _ _ _ Hs3') as [t4 [_ [Et4 Es4]]].
          rewrite Et3. cbn [pbind]. change (is_tok Op (bytes "&") t3) with (is_o "&" t3). rewrite (proj2 (is_o_true "&" t3) Es3). cbn [pbind]. rewrite Et4. cbn [pbind]. unfold sym_of in Es4. injection Es4 as Ek4 Ev4. unfold is_tok. rewrite Ek4, Ev4, same_refl. cbn [andb pbind].
          replace (S (S (S j1))) with j2 by (unfold j2; lia). destruct (denote t) as [nt|]; cbn [result] in HA; [|apply orw_bind_fail; exact HA]. eapply orw_bind; [exact HA|]. apply orw_refl.
        - apply spelled_one in Hs3. destruct (at_tok _ _ _ Hs3) as [t3 [_ [Et3 Es3]]].
          rewrite Et3. cbn [pbind]. change (is_tok Op (bytes "&") t3) with (is_o "&" t3). rewrite (proj2 (is_o_true "&" t3) Es3). cbn [pbind]. replace (S (S j1)) with j2 by (unfold j2; lia). rewrite Et2. cbn [pbind].
          assert (is_tok Id (bytes "mut") t2 = false) as ->. { apply negb_true_iff in W. etransitivity; [|exact W]. unfold is_tok, sym_is. rewrite <- Es2. unfold sym_of. cbn [fst snd]. destruct (t_kind t2); reflexivity. }
          cbn [pbind]. destruct (denote t) as [nt|]; cbn [result] in HA; [|apply orw_bind_fail; exact HA]. eapply orw_bind; [exact HA|]. apply orw_refl.
        - replace (S j1) with j2 by (unfold j2; lia). rewrite Et2. cbn [pbind]. change (is_tok Op (bytes "&") t2) with (is_o "&" t2). rewrite is_o_sym, Es2. apply negb_true_iff in W. rewrite W. cbn [pbind].
          destruct (denote t) as [nt|]; cbn [result] in HA; [|apply orw_bind_fail; exact HA]. eapply orw_bind; [exact HA|]. apply orw_refl. }
      destruct (denote t) as [nt|] eqn:Dt; cbn [obind] in *; [|apply orw_bind_fail; exact HT]. eapply orw_bind; [exact HT|]. cbn beta iota.
      eapply orw_bind; [apply createBinary_cast with (bare := bare_logic l); try assumption|].
      * intros Hk. destruct (denote_logic l n Hn W3 Hk) as [H|H]; auto.
      * intros HL. destruct (Hq HL) as [T _]. cbn [tidy] in T. pairs T. apply negb_true_iff. assumption.
      * apply orw_refl.
  - exact A_nil.
  - intros s l e IHe a IHa. exact (A_cons s l e a IHe IHa).
Qed.
End complete.
