(** Lemmas for ParserProps.v: the tokens, the operators, and what is built of them. *)
From Coq Require Import String Ascii.
From Verif Require Export ParserSpec.
From Coq Require Import List Lia ZArith Bool.
Import ListNotations.
Open Scope Z_scope.
Open Scope list_scope.
Notation length := List.length.

Lemma same_spec a b : same a b = true <-> a = b.
Proof. unfold same. destruct (list_eq_dec Z.eq_dec a b); intuition congruence. Qed.
Lemma same_refl a : same a a = true. Proof. apply same_spec; reflexivity. Qed.
Lemma PRECEDENCE_rank v : PRECEDENCE v = rank v.
Proof.
  unfold PRECEDENCE, rank, ranks, BINOPS. cbn [precedence_from List.find snd fst option_map].
  repeat (match goal with |- context [if has ?l v then _ else _] => destruct (has l v); [reflexivity|] end). reflexivity.
Qed.
Lemma rtl_eq p : RIGHT_TO_LEFT p = right_to_left p. Proof. reflexivity. Qed.
Lemma rank_range v q : rank v = Some q -> (2 <= q <= 17)%nat.
Proof.
  unfold rank, ranks. cbn [List.find snd fst option_map].
  repeat (match goal with |- context [if has ?l v then _ else _] => destruct (has l v); [intros H; injection H; lia|] end). cbn. discriminate.
Qed.
Lemma has_In l v : has l v = true <-> exists s, In s l /\ v = bytes s.
Proof.
  unfold has. rewrite existsb_exists. split; intros [s [H1 H2]]; exists s; (split; [exact H1|]); apply same_spec; exact H2.
Qed.
Lemma has_app l l' v : has (l ++ l') v = has l v || has l' v. Proof. apply existsb_app. Qed.
(** [has l v] is known as soon as v is among known strings *)
Lemma has_const l v (b : bool) : has l v = true -> forall l' , forallb (fun s => Bool.eqb (has l' (bytes s)) b) l = true -> has l' v = b.
Proof.
  intros H l' F. apply has_In in H. destruct H as [s [Hs ->]]. rewrite forallb_forall in F. specialize (F s Hs). apply Bool.eqb_prop in F. exact F.
Qed.
Lemma same_has v s : same v (bytes s) = has [s] v.
Proof. unfold has. cbn [existsb]. rewrite orb_false_r. reflexivity. Qed.
Lemma rank_known l v r : has l v = true -> forallb (fun s => match rank (bytes s), r with Some a, Some b => (a =? b)%nat | None, None => true | _, _ => false end) l = true -> rank v = r.
Proof.
  intros H F. apply has_In in H. destruct H as [s [Hs ->]]. rewrite forallb_forall in F. specialize (F s Hs). cbn beta in F.
  destruct (rank (bytes s)), r; try discriminate; [|reflexivity]. apply Nat.eqb_eq in F. congruence.
Qed.

(** precedence *)
Lemma takes_spec p q : takes p q = true <-> (q < p \/ q = p /\ right_to_left p = true)%nat.
Proof. unfold takes. rewrite orb_true_iff, andb_true_iff, Nat.ltb_lt, Nat.eqb_eq. reflexivity. Qed.
Lemma takes_down p q r : takes p q = true -> takes p r = false -> takes q r = false.
Proof.
  intros H1 H2. destruct (takes q r) eqn:E; [|reflexivity]. rewrite takes_spec in *.
  assert (takes p r = true); [|congruence]. apply takes_spec. destruct H1 as [H1|[-> H1]], E as [E|[-> E]]; try (left; lia). right; auto.
Qed.
Lemma ends_down p q s : takes p q = true -> ends p s = true -> ends q s = true.
Proof.
  intros H. unfold ends. destruct s as [[] v]; try reflexivity. rewrite !andb_true_iff. intros [H1 H2]. split; [exact H1|].
  destruct (rank v) as [r|]; [|reflexivity]. apply negb_true_iff in H2. rewrite (takes_down p q r H H2). reflexivity.
Qed.
Lemma takes_unary q : (2 <= q)%nat -> takes unary q = false.
Proof. intros H. unfold takes, unary. replace (q <? 1)%nat with false by (symmetry; apply Nat.ltb_ge; lia). replace (q =? 1)%nat with false by (symmetry; apply Nat.eqb_neq; lia). reflexivity. Qed.
Lemma takes_anything q : (2 <= q <= 17)%nat -> takes anything q = true.
Proof. intros H. apply takes_spec. left. unfold anything. lia. Qed.
Lemma takes_of_op v q : rank v = Some q -> takes unary q = false.
Proof. intros H. apply takes_unary. apply rank_range in H. lia. Qed.
Lemma fits_anything e : wf e = true -> fits anything e = true.
Proof.
  induction e; try reflexivity; cbn [wf fits]; intros H.
  - repeat (apply andb_true_iff in H; destruct H as [H ?]). destruct (rank op) eqn:R; [|discriminate]. rewrite takes_anything by (eapply rank_range; eassumption). cbn. auto.
  - repeat (apply andb_true_iff in H; destruct H as [H ?]). auto.
  - repeat (apply andb_true_iff in H; destruct H as [H ?]). rewrite (rank_known _ _ (Some 10%nat) H) by reflexivity. cbn [takes]. auto.
Qed.

(** where the tokens are *)
Section tokens.
Variable ts : list token.
Notation spelled := (spelled ts). Notation sym_at := (sym_at ts). Notation tok := (tok ts).
Lemma spelled_nil i : spelled i []. Proof. intros [|k] s H; discriminate. Qed.
Lemma spelled_cons i s l : spelled i (s :: l) <-> option_map sym_of (nth_error ts i) = Some s /\ spelled (S i) l.
Proof.
  split.
  - intros H. split; [specialize (H 0%nat s eq_refl); rewrite Nat.add_0_r in H; exact H|]. intros k x Hx. specialize (H (S k) x Hx). rewrite Nat.add_succ_r in H. exact H.
  - intros [H1 H2] [|k] x Hx; [injection Hx as <-; rewrite Nat.add_0_r; exact H1|]. rewrite Nat.add_succ_r. exact (H2 k x Hx).
Qed.
Lemma spelled_app i a b : spelled i (a ++ b) <-> spelled i a /\ spelled (i + length a) b.
Proof.
  revert i. induction a as [|s a IH]; intros i; cbn [app length].
  - rewrite Nat.add_0_r. split; [intros H; split; [apply spelled_nil|exact H]|tauto].
  - rewrite !spelled_cons, IH, and_assoc. replace (i + S (length a))%nat with (S i + length a)%nat by lia. reflexivity.
Qed.
Lemma spelled_one i s : spelled i [s] <-> option_map sym_of (nth_error ts i) = Some s.
Proof. rewrite spelled_cons. split; [tauto|]. intros H; split; [exact H|apply spelled_nil]. Qed.
Lemma spelled_len i l : spelled i l -> l <> [] -> (i + length l <= length ts)%nat.
Proof.
  intros H Hl. destruct (exists_last Hl) as [l' [s ->]]. apply spelled_app in H. destruct H as [_ H]. apply spelled_one in H.
  assert (nth_error ts (i + length l') <> None) by (destruct (nth_error ts (i + length l')); [discriminate|discriminate H]).
  apply nth_error_Some in H0. rewrite app_length. cbn [length]. lia.
Qed.
Lemma spelled_first i l : spelled i l -> l <> [] -> forall d, sym_at i = first l d.
Proof.
  intros H Hl d. destruct l as [|s l]; [contradiction|]. apply spelled_cons in H. destruct H as [H _]. unfold ParserSpec.sym_at. cbn [first hd].
  destruct (nth_error ts i); [injection H as <-; reflexivity|discriminate].
Qed.
Lemma at_sym i s : option_map sym_of (nth_error ts i) = Some s -> sym_at i = s.
Proof. intros H. unfold ParserSpec.sym_at. destruct (nth_error ts i); [injection H as <-; reflexivity|discriminate]. Qed.
Lemma at_tok i s : option_map sym_of (nth_error ts i) = Some s -> exists t, nth_error ts i = Some t /\ tok i = POk t /\ sym_of t = s.
Proof. unfold ParserModel.tok. intros H. destruct (nth_error ts i) as [t|]; [injection H as <-; exists t; auto|discriminate]. Qed.
Lemma in_tok i : (i < length ts)%nat -> exists t, nth_error ts i = Some t /\ tok i = POk t /\ sym_at i = sym_of t.
Proof.
  intros H. unfold ParserModel.tok, ParserSpec.sym_at. destruct (nth_error ts i) as [t|] eqn:E; [exists t; auto|]. apply nth_error_None in E. lia.
Qed.
Lemma tok_inv i t : tok i = POk t -> nth_error ts i = Some t /\ sym_at i = sym_of t /\ (i < length ts)%nat.
Proof.
  unfold ParserModel.tok, ParserSpec.sym_at. destruct (nth_error ts i) eqn:E; [|discriminate]. intros H. injection H as <-. repeat split. apply nth_error_Some. congruence.
Qed.
End tokens.
Lemma is_o_sym v t : is_o v t = sym_is (sym_of t) (o v).
Proof. unfold is_o, is_tok, sym_is, sym_of, o. cbn [fst snd]. destruct (t_kind t); reflexivity. Qed.
Lemma sym_is_o s v : sym_is s (o v) = true <-> s = o v.
Proof.
  unfold sym_is, o. destruct s as [k x]. cbn [fst snd]. destruct k; cbn [andb]; try (split; intros H; congruence). rewrite same_spec. split; intros H; congruence.
Qed.
Lemma sym_is_id s v : sym_is s (Id, v) = true <-> s = (Id, v).
Proof.
  unfold sym_is. destruct s as [k x]. cbn [fst snd]. destruct k; cbn [andb]; try (split; intros H; congruence). rewrite same_spec. split; intros H; congruence.
Qed.
Lemma is_o_true v t : is_o v t = true <-> sym_of t = o v.
Proof. rewrite is_o_sym. apply sym_is_o. Qed.
Lemma is_o_op v x t : sym_of t = (Op, x) -> is_o v t = same x (bytes v).
Proof. unfold sym_of, is_o, is_tok. intros H. injection H as -> ->. reflexivity. Qed.
Lemma is_o_not_op v t : t_kind t <> Op -> is_o v t = false.
Proof. unfold is_o, is_tok. destruct (t_kind t); try reflexivity. contradiction. Qed.

(** what is built *)
Lemma or_flags_none f : or_flags f no_flags = f.
Proof. destruct f as [[] [] [] [] []]; reflexivity. Qed.
Lemma createPrefix_unop op n : has ["++"; "+"; "--"; "-"; "!"; "~"; "?"; "*"; "&"; "-%"]%string op = true ->
  (numeric n = true -> n_value n <> []) -> createPrefix op n = POk (unop op n).
Proof.
  intros Hop Hn. destruct n as [k v f p items]. unfold createPrefix, unop, numeric in *. cbn [n_kind n_value n_flags n_parens n_items] in *.
  rewrite !same_has. change (has ["+"; "-"]%string op) with (has (["+"%string] ++ ["-"%string]) op). rewrite has_app.
  destruct ((has ["+"%string] op || has ["-"%string] op) && match k with K_int | K_real => true | _ => false end) eqn:E.
  - apply andb_true_iff in E. destruct E as [E1 E2]. specialize (Hn E2). destruct v as [|c v]; [contradiction|]. unfold signed.
    assert (same [c] op = (c =? hd 0 op)) as ->.
    { rewrite <- has_app in E1. apply has_In in E1. destruct E1 as [s [[<-|[<-|[]]] ->]]; unfold same; destruct (list_eq_dec _ _ _) as [H|H]; cbn; symmetry;
      try (injection H as ->; reflexivity); apply Z.eqb_neq; intros ->; apply H; reflexivity. }
    destruct ((c =? 43) || (c =? 45)); reflexivity.
  - destruct (has ["!"%string] op); reflexivity.
Qed.
Lemma autoName_spec n : getAutoName n = match auto_name n with Some v => POk v | None => PFail end.
Proof.
  revert n. fix IH 1. intros [k v f p items]. cbn [getAutoName auto_name].
  replace (hasIdentifierChars v && nkind_beq k K_call) with (nkind_beq k K_call && existsb is_name_char v).
  2: { rewrite andb_comm. f_equal. }
  destruct (nkind_beq k K_call && existsb is_name_char v); [reflexivity|]. destruct items as [|x items]; [reflexivity|].
  replace ((if nkind_beq k K_and && negb (length (x :: items) =? 1)%nat then if nkind_beq k K_if then 1%nat else 0%nat else 0%nat) =? 0)%nat with true; [apply IH|].
  destruct k; cbn [nkind_beq andb]; try reflexivity. destruct (length (x :: items) =? 1)%nat; reflexivity.
Qed.
Lemma auto_name_some n v : auto_name n = Some v -> v <> [].
Proof.
  revert n v. fix IH 1. intros [k v0 f p items] v. cbn [auto_name]. destruct (nkind_beq k K_call && existsb is_name_char v0) eqn:E.
  - intros H. injection H as <-. intros ->. rewrite andb_false_r in E. discriminate.
  - destruct items as [|x items]; [discriminate|]. apply IH.
Qed.
Lemma createBinary_binop op l r w : has ["?"; "->"; "=>"]%string op = false -> (has ["&&"; "||"]%string op = true \/ n_parens l = true \/ (n_kind l <> K_and /\ n_kind l <> K_or) ) ->
  (forall v f p items, r = Node K_call v f p items -> f_dot f = true -> items <> []) ->
  createBinary op l r w = match binop op l r with Some n => POk (n, w) | None => PFail end.
Proof.
  intros Hop Hl Hr. unfold createBinary, binop. rewrite !same_has.
  destruct (has ["||"%string] op) eqn:E1.
  { unfold flattenIfSame, operands. destruct (nkind_beq (n_kind l) K_or), (nkind_beq (n_kind r) K_or); reflexivity. }
  destruct (has ["&&"%string] op) eqn:E2.
  { unfold flattenIfSame, operands. destruct (nkind_beq (n_kind l) K_and), (nkind_beq (n_kind r) K_and); reflexivity. }
  assert (negb (nkind_beq (n_kind l) K_and || nkind_beq (n_kind l) K_or) || n_parens l = true) as ->.
  { destruct Hl as [Hl|[->|[H1 H2]]]; [|apply orb_true_r|destruct (n_kind l); try reflexivity; contradiction].
    change (has (["&&"%string] ++ ["||"%string]) op = true) in Hl. rewrite has_app, E1, E2 in Hl. discriminate. }
  cbn [warn_unless].
  change (has (["?"%string] ++ ["->"%string] ++ ["=>"%string]) op = false) in Hop. rewrite !has_app in Hop. apply orb_false_iff in Hop. destruct Hop as [_ Hop]. apply orb_false_iff in Hop. destruct Hop as [-> ->].
  destruct (has ["|>"%string] op).
  { destruct r as [k v f p items]. unfold pipelineRight. destruct k; try reflexivity. cbn [nkind_beq negb]. destruct (f_dot f) eqn:Ed; [|reflexivity].
    specialize (Hr _ _ _ _ eq_refl Ed). destruct items as [|x items]; [contradiction|]. reflexivity. }
  destruct (has ["<|"%string] op).
  { destruct l as [k v f p items]. unfold pipelineLeft. destruct k; try reflexivity. cbn [nkind_beq negb pbind]. repeat f_equal. destruct f as [[] [] [] [] []]; reflexivity. }
  destruct (has [":="%string] op); [|reflexivity].
  destruct l as [k v f p items]. unfold letShorthand. destruct k; try reflexivity. destruct f as [[] [] [] [] []]; try reflexivity. destruct items; reflexivity.
Qed.
(** the kinds of nodes *)
Definition good (n : node) : Prop := n_kind n <> K_argid /\ (numeric n = true -> n_value n <> []) /\
  (n_kind n = K_call -> f_dot (n_flags n) = true -> n_items n <> []).
Ltac andb_all := repeat match goal with H : _ && _ = true |- _ => apply andb_true_iff in H; let H' := fresh in destruct H as [H H'] end.
Lemma is_nil_false v : negb (is_nil v) = true -> v <> []. Proof. destruct v; [discriminate|congruence]. Qed.
Lemma obind_some {A B} (x : option A) (f : A -> option B) b : obind x f = Some b -> exists a, x = Some a /\ f a = Some b.
Proof. destruct x as [a|]; [|discriminate]. intros H. exists a. split; [reflexivity|exact H]. Qed.
Lemma omap_some {A B} (x : option A) (f : A -> B) b : option_map f x = Some b -> exists a, x = Some a /\ b = f a.
Proof. destruct x as [a|]; [|discriminate]. intros H. injection H as <-. exists a. split; reflexivity. Qed.
Lemma nkind_true a b : nkind_beq a b = true -> a = b. Proof. apply internal_nkind_dec_bl. Qed.
Lemma good_call v f p items : (f_dot f = true -> items <> []) -> good (Node K_call v f p items).
Proof. intros H. split; [discriminate|]. split; [discriminate|]. cbn. auto. Qed.
Lemma good_other k v f p items : k <> K_argid -> k <> K_int -> k <> K_real -> k <> K_call -> good (Node k v f p items).
Proof. intros H1 H2 H3 H4. split; [exact H1|]. split; [destruct k; try discriminate; contradiction|]. intros H. contradiction. Qed.
Lemma unop_good op n : good n -> good (unop op n).
Proof.
  intros Hn. unfold unop. destruct (has ["+"; "-"]%string op && numeric n) eqn:E.
  - destruct n as [k v f p items]. destruct Hn as [H1 [H2 H3]]. split; [exact H1|]. split; [|exact H3]. intros _. cbn [n_value n_kind].
    apply andb_true_iff in E. destruct E as [E1 E2]. specialize (H2 E2). cbn [n_value] in H2. unfold signed. destruct v as [|c v]; [contradiction|]. destruct ((c =? 43) || (c =? 45)).
    + destruct (same [c] op); discriminate. + destruct op; discriminate.
  - destruct (has ["!"]%string op); [apply good_other; discriminate|apply good_call; discriminate].
Qed.
Lemma binop_good op l r n : good l -> good r -> binop op l r = Some n -> good n.
Proof.
  intros Hl Hr. unfold binop. destruct (has ["||"]%string op); [intros H; injection H as <-; apply good_other; discriminate|].
  destruct (has ["&&"]%string op); [intros H; injection H as <-; apply good_other; discriminate|].
  destruct (has ["|>"]%string op).
  { destruct r as [k v f p items]. destruct k; try discriminate. intros H. injection H as <-. destruct Hr as [_ [_ Hr]]. apply good_call. intros Hd. specialize (Hr eq_refl Hd). cbn in Hr. rewrite Hd.
    destruct items; [contradiction|discriminate]. }
  destruct (has ["<|"]%string op).
  { destruct l as [k v f p items]. destruct k; try discriminate. intros H. injection H as <-. apply good_call. intros _. destruct items; discriminate. }
  destruct (has [":="]%string op).
  { destruct l as [k v [[] [] [] [] []] p items]; destruct k; try discriminate. destruct items; [|discriminate]. intros H. injection H as <-. apply good_other; discriminate. }
  intros H. injection H as <-. apply good_call. discriminate.
Qed.
Lemma call_good e n l b : good n -> (forall v f p items, n = Node K_call v f p items -> (match e with EIndex _ _ | EPost _ _ => f_dot f = false | EDot _ _ => items <> [] | _ => True end)) -> good (call e n l b).
Proof.
  intros Hn Hd. unfold call. destruct e; try (apply good_other; discriminate); destruct n as [k v0 f p items]; destruct k; try (apply good_other; discriminate).
  - apply good_call. discriminate.
  - apply good_call. intros H. pose proof (Hd v0 f p items eq_refl) as Hd'. cbn in H, Hd'. congruence.
  - apply good_call. intros _. pose proof (Hd v0 f p items eq_refl) as Hd'. cbn in Hd'. destruct items; [contradiction|discriminate].
  - apply good_call. intros H. pose proof (Hd v0 f p items eq_refl) as Hd'. cbn in H, Hd'. congruence.
Qed.
Lemma denote_good e : forall n, wf e = true -> denote e = Some n -> good n.
Proof.
  induction e; intros n Hw Hd; cbn [wf denote] in *; andb_all.
  - injection Hd as <-. destruct k; try discriminate; try (apply good_other; discriminate); apply is_nil_false in Hw.
    all: split; [discriminate|]; split; [intros _; exact Hw|discriminate].
  - destruct (has ["true"; "false"]%string v); injection Hd as <-; [apply good_other; discriminate|apply good_call; discriminate].
  - injection Hd as <-. apply good_other; discriminate.
  - apply omap_some in Hd. destruct Hd as [n0 [Hd ->]]. specialize (IHe _ Hw Hd). destruct n0. exact IHe.
  - apply obind_some in Hd. destruct Hd as [[l nm] [_ Hd]]. injection Hd as <-. apply good_other; discriminate.
  - apply omap_some in Hd. destruct Hd as [n0 [Hd ->]]. apply unop_good. eauto.
  - apply omap_some in Hd. destruct Hd as [n0 [Hd ->]]. apply good_call. discriminate.
  - apply omap_some in Hd. destruct Hd as [n0 [Hd ->]]. apply good_call. discriminate.
  - apply obind_some in Hd. destruct Hd as [n0 [Hd Ha]]. apply obind_some in Ha. destruct Ha as [[l nm] [_ Ha]]. injection Ha as <-. apply call_good; [eauto|].
    intros v f p items ->. destruct e; try exact I; cbn [denote] in Hd.
    + apply omap_some in Hd. destruct Hd as [n1 [_ Hd]]. injection Hd as _ -> _ _. reflexivity.
    + apply omap_some in Hd. destruct Hd as [n1 [_ Hd]]. injection Hd as _ _ _ ->. discriminate.
    + apply obind_some in Hd. destruct Hd as [n1 [_ Hd]]. apply obind_some in Hd. destruct Hd as [[l' nm'] [_ Hd]]. apply (f_equal (option_map n_flags)) in Hd. cbn in Hd. injection Hd as <-. reflexivity.
  - apply obind_some in Hd. destruct Hd as [n0 [Hd Ha]]. apply obind_some in Ha. destruct Ha as [[l nm] [_ Ha]]. injection Ha as <-. apply good_call. discriminate.
  - apply obind_some in Hd. destruct Hd as [n0 [Hd Ha]]. apply obind_some in Ha. destruct Ha as [n1 [Ha Hb]]. eapply binop_good; [| |exact Hb]; eauto.
  - apply obind_some in Hd. destruct Hd as [n0 [Hd Ha]]. apply obind_some in Ha. destruct Ha as [n1 [Ha Hb]]. apply obind_some in Hb. destruct Hb as [n2 [Hb Hc]]. injection Hc as <-. apply good_other; discriminate.
  - apply obind_some in Hd. destruct Hd as [n0 [Hd Ha]]. apply obind_some in Ha. destruct Ha as [n1 [Ha Hb]]. unfold castop in Hb. destruct (has ["->"]%string op); injection Hb as <-; apply good_other; discriminate.
Qed.
Lemma denote_logic e : forall n, denote e = Some n -> wf e = true -> (n_kind n = K_and \/ n_kind n = K_or) -> n_parens n = true \/ bare_logic e = true.
Proof.
  induction e; intros n Hd Hw Hk; cbn [wf denote] in *; andb_all.
  - injection Hd as <-. destruct k, Hk; discriminate.
  - destruct (has ["true"; "false"]%string v); injection Hd as <-; destruct Hk; discriminate.
  - injection Hd as <-. destruct Hk; discriminate.
  - apply omap_some in Hd. destruct Hd as [n0 [Hd ->]]. left. destruct n0; reflexivity.
  - apply obind_some in Hd. destruct Hd as [[l nm] [_ Hd]]. injection Hd as <-. destruct Hk; discriminate.
  - apply omap_some in Hd. destruct Hd as [n0 [Hd ->]]. unfold unop in Hk. destruct (has ["+"; "-"]%string op && numeric n0) eqn:E.
    + apply andb_true_iff in E. destruct E as [_ E]. destruct n0 as [k ? ? ? ?]. cbn in Hk. destruct Hk as [-> | ->]; discriminate.
    + destruct (has ["!"]%string op), Hk; discriminate.
  - apply omap_some in Hd. destruct Hd as [n0 [Hd ->]]. destruct Hk; discriminate.
  - apply omap_some in Hd. destruct Hd as [n0 [Hd ->]]. destruct Hk; discriminate.
  - apply obind_some in Hd. destruct Hd as [n0 [Hd Ha]]. apply obind_some in Ha. destruct Ha as [[l nm] [_ Ha]]. injection Ha as <-. unfold call in Hk.
    destruct e, n0 as [[] ? ? ? ?], Hk; discriminate.
  - apply obind_some in Hd. destruct Hd as [n0 [Hd Ha]]. apply obind_some in Ha. destruct Ha as [[l nm] [_ Ha]]. injection Ha as <-. destruct Hk; discriminate.
  - apply obind_some in Hd. destruct Hd as [n0 [Hd Ha]]. apply obind_some in Ha. destruct Ha as [n1 [Ha Hb]]. right. cbn [bare_logic]. unfold binop in Hb.
    change (has (["&&"%string] ++ ["||"%string]) op = true). rewrite has_app. destruct (has ["||"]%string op); [apply orb_true_r|]. destruct (has ["&&"]%string op); [reflexivity|]. exfalso.
    destruct (has ["|>"]%string op). { destruct n1 as [[] ? ? ? ?]; try discriminate. injection Hb as <-. destruct Hk; discriminate. }
    destruct (has ["<|"]%string op). { destruct n0 as [[] ? ? ? ?]; try discriminate. injection Hb as <-. destruct Hk; discriminate. }
    destruct (has [":="]%string op). { destruct n0 as [[] ? [[] [] [] [] []] ? []]; try discriminate. injection Hb as <-. destruct Hk; discriminate. }
    injection Hb as <-. destruct Hk; discriminate.
  - apply obind_some in Hd. destruct Hd as [n0 [Hd Ha]]. apply obind_some in Ha. destruct Ha as [n1 [Ha Hb]]. apply obind_some in Hb. destruct Hb as [n2 [Hb Hc]]. injection Hc as <-. destruct Hk; discriminate.
  - apply obind_some in Hd. destruct Hd as [n0 [Hd Ha]]. apply obind_some in Ha. destruct Ha as [n1 [Ha Hb]]. unfold castop in Hb. destruct (has ["->"]%string op); injection Hb as <-; destruct Hk; discriminate.
Qed.
(** a call *)
Lemma call_spec e n l b : wf e = true -> denote e = Some n -> follows e (o "(") = true -> createCallExpression n l b = POk (call e n l b).
Proof.
  intros Hw Hd Hf. destruct e; cbn [wf denote follows] in *; andb_all; try discriminate.
  - injection Hd as <-. destruct k; reflexivity.
  - destruct (has ["true"; "false"]%string v); injection Hd as <-; [reflexivity|]. apply is_nil_false in Hw. destruct v as [|c v]; [contradiction|]. destruct b; reflexivity.
  - injection Hd as <-. reflexivity.
  - apply omap_some in Hd. destruct Hd as [[k v f p items] [Hd ->]]. reflexivity.
  - apply obind_some in Hd. destruct Hd as [[l' nm] [_ Hd]]. injection Hd as <-. reflexivity.
  - apply omap_some in Hd. destruct Hd as [n0 [Hd ->]]. apply has_In in Hw. destruct Hw as [s [[<-|[<-|[<-|[<-|[]]]]] ->]]; destruct b; reflexivity.
  - apply omap_some in Hd. destruct Hd as [n0 [Hd ->]]. apply is_nil_false in Hw. destruct id as [|c v]; [contradiction|]. destruct b; reflexivity.
  - apply obind_some in Hd. destruct Hd as [n0 [Hd Ha]]. apply obind_some in Ha. destruct Ha as [[l' nm] [_ Ha]]. injection Ha as <-. unfold call.
    destruct e; destruct n0 as [[] v9 f9 p9 its9]; try reflexivity; unfold createCallExpression; cbn; rewrite ?andb_false_r, ?orb_true_r; reflexivity.
  - apply obind_some in Hd. destruct Hd as [n0 [Hd Ha]]. apply obind_some in Ha. destruct Ha as [[l' nm] [_ Ha]]. injection Ha as <-. destruct (has_dots a), nm, b; reflexivity.
  - unfold ends in Hf. destruct (rank op); [|discriminate]. discriminate.
Qed.
