(** Lemmas for C70. *)
From Coq Require Import String List ZArith Bool Lia.
From Verif Require Import LexerSpec DecSpec DecProps LitModel NamesSpec NamesModel NamesScope.
Import ListNotations.
Notation length := List.length.
Open Scope Z_scope.

(** ** Numerals and names *)
Lemma dec_decimal n : decimal (dec n) (Z.of_nat n).
Proof.
  unfold dec. assert (B : 0 <= Z.of_nat n < 10 ^ Z.of_nat (S n)).
  { split; [lia|]. induction n as [|n IH]; [reflexivity|]. rewrite (Nat2Z.inj_succ (S n)), Z.pow_succ_r by lia. lia. }
  destruct (DecProps.loop_spec (S n) (Z.of_nat n) [] B ltac:(lia)) as (s & E & D & V & N & L).
  rewrite E, app_nil_r. split; [exact D|]. split; [exact V|]. split; [exact N|exact L].
Qed.
Lemma dec_inj n m : dec n = dec m -> n = m.
Proof. intros E. destruct (dec_decimal n) as (_ & V & _). destruct (dec_decimal m) as (_ & W & _). rewrite E in V. lia. Qed.

Lemma candidate_derived b d : derived b (candidate b d).
Proof. destruct d; [left; reflexivity|right]. exists (dec (S d)), (Z.of_nat (S d)). split; [apply dec_decimal|reflexivity]. Qed.
Lemma candidate_inj b d d' : candidate b d = candidate b d' -> d = d'.
Proof.
  destruct d as [|d], d' as [|d']; cbn [candidate]; intros E; auto.
  - exfalso. apply (f_equal (@length Z)) in E. rewrite !app_length in E. cbn in E. lia.
  - exfalso. apply (f_equal (@length Z)) in E. rewrite !app_length in E. cbn in E. lia.
  - apply app_inv_head in E. apply app_inv_head in E. now apply dec_inj.
Qed.

Lemma pick_spec us id : forall fuel d,
  ~ In (candidate id (pick fuel us id d)) us \/ (forall k, (k < fuel)%nat -> In (candidate id (d + k)) us).
Proof.
  induction fuel as [|f IH]; intros d; cbn [pick]; [right; intros; lia|].
  destruct (in_dec name_eq (candidate id d) us) as [I|N]; [|left; exact N].
  destruct (IH (S d)) as [L|R]; [left; exact L|right]. intros [|k] K; [rewrite Nat.add_0_r; exact I|].
  replace (d + S k)%nat with (S d + k)%nat by lia. apply R. lia.
Qed.
Lemma pick_free us id : ~ In (candidate id (pick (S (length us)) us id 0)) us.
Proof.
  destruct (pick_spec us id (S (length us)) 0) as [L|R]; [exact L|exfalso].
  assert (ND : NoDup (map (candidate id) (seq 0 (S (length us))))).
  { apply FinFun.Injective_map_NoDup; [|apply seq_NoDup]. intros a b E. now apply candidate_inj in E. }
  apply NoDup_incl_length with (l' := us) in ND; [rewrite map_length, seq_length in ND; lia|].
  intros x I. apply in_map_iff in I as (k & <- & I). apply in_seq in I. apply (R k). lia.
Qed.

Lemma decimal_last s k : decimal s k -> exists t c, s = t ++ [c] /\ 48 <= c <= 57.
Proof.
  intros (D & _ & N & _). destruct (exists_last N) as (t & c & ->). exists t, c. split; [reflexivity|].
  apply Forall_app in D as [_ D]. inversion D; auto.
Qed.
Lemma derived_not_reserved b n : b <> [] -> ~ reserved b -> derived b n -> n = b \/ (exists s k, decimal s k /\ 0 < k /\ n = b ++ text "_" ++ s) -> ~ reserved n.
Proof.
  intros NB NR _ [->|(s & k & D & K & ->)]; [exact NR|]. intros [(t & j & T & [E|E])|E].
  - destruct b as [|x b]; [congruence|]. cbn in E. injection E as _ E.
    destruct T as (T & _). rewrite <- E in T. apply Forall_app in T as [_ T]. inversion T as [|? ? H]. unfold digit in H. lia.
  - destruct (decimal_last _ _ D) as (u & c & -> & C). change (text "_v") with ([95] ++ [118]) in E. rewrite !app_assoc in E. apply app_inj_tail in E as [_ E]. lia.
  - destruct D as (_ & V & N & _). destruct s as [|c s]; [congruence|].
    destruct b as [|x b]; [congruence|]. destruct b as [|y b]; cbn in E.
    + injection E as _ -> ->. cbn in V. unfold value in V. cbn in V. lia.
    + injection E as _ _ E. destruct b as [|z b]; cbn in E; [discriminate|]. injection E as _ E. destruct b; discriminate.
Qed.
Lemma candidate_not_reserved b d : b <> [] -> ~ reserved b -> ~ reserved (candidate b d).
Proof.
  intros NB NR. apply (derived_not_reserved b); auto; [apply candidate_derived|]. destruct d; [left; reflexivity|right].
  exists (dec (S d)), (Z.of_nat (S d)). split; [apply dec_decimal|]. split; [lia|reflexivity].
Qed.

Lemma tempvar_reserved k : reserved (tempvar k).
Proof. left. exists (dec k), (Z.of_nat k). split; [apply dec_decimal|left; reflexivity]. Qed.
Lemma blockvar_reserved k : reserved (blockvar k).
Proof. left. exists (dec k), (Z.of_nat k). split; [apply dec_decimal|right; reflexivity]. Qed.
Lemma tempvar_inj k j : tempvar k = tempvar j -> k = j.
Proof. intros E. apply app_inv_head in E. now apply dec_inj. Qed.
Lemma blockvar_inj k j : blockvar k = blockvar j -> k = j.
Proof. intros E. apply app_inv_head in E. apply app_inv_tail in E. now apply dec_inj. Qed.
Lemma temp_hd k : hd 0 (tempvar k) = 95. Proof. reflexivity. Qed.
Lemma block_hd k : hd 0 (blockvar k) = 66. Proof. reflexivity. Qed.
Lemma o_hd : hd 0 (text "o_0") = 111. Proof. reflexivity. Qed.
Lemma temp_block k j : tempvar k <> blockvar j.
Proof. intros E. apply (f_equal (hd 0)) in E. rewrite temp_hd, block_hd in E. discriminate. Qed.
Lemma temp_o k : tempvar k <> text "o_0".
Proof. intros E. apply (f_equal (hd 0)) in E. rewrite temp_hd, o_hd in E. discriminate. Qed.
Lemma block_o k : blockvar k <> text "o_0".
Proof. intros E. apply (f_equal (hd 0)) in E. rewrite block_hd, o_hd in E. discriminate. Qed.

(** ** Lookups *)
Lemma meaning_app_out F1 F2 n : ~ In n (map fst F1) -> meaning (F1 ++ F2) n = meaning F2 n.
Proof.
  induction F1 as [|[m e] F1 IH]; intros N; [reflexivity|]. cbn in *. destruct (name_eq m n) as [->|_]; [exfalso; auto|]. apply IH. tauto.
Qed.
Lemma meaning_out F n : ~ In n (map fst F) -> meaning F n = EGlobal n.
Proof. intros N. rewrite <- (app_nil_r F). rewrite meaning_app_out; auto. Qed.
Lemma meaning_in F1 F2 n e : NoDup (map fst F1) -> In (n, e) F1 -> meaning (F1 ++ F2) n = e.
Proof.
  induction F1 as [|[m x] F1 IH]; intros ND I; [destruct I|]. cbn in *. inversion ND; subst.
  destruct I as [I|I]; [injection I as -> ->; destruct (name_eq n n); congruence|].
  destruct (name_eq m n) as [->|_]; [|auto]. exfalso. apply H1. apply in_map_iff. exists (n, e). auto.
Qed.
Lemma meaning_rev pe F n e : NoDup (map fst pe) -> In (n, e) pe -> meaning (rev pe ++ F) n = e.
Proof.
  intros ND I. apply meaning_in; [rewrite map_rev; now apply NoDup_rev|now apply -> in_rev].
Qed.

Definition local_in (l : Z) (p : list (name * entity)) : Prop := In (ELocal l) (map snd p).

Lemma decls_ok pe : forall F here X,
  NoDup (map fst pe) -> (forall n, In n (map fst pe) -> ~ In n here) ->
  NoDup (map snd pe) -> (forall l, local_in l pe -> ~ In (ELocal l) (map snd F)) ->
  stmts_ok (rev pe ++ F) (rev (map fst pe) ++ here) X -> stmts_ok F here (decls pe X).
Proof.
  induction pe as [|[n e] pe IH]; intros F here X N1 N2 N3 N4 OK; [exact OK|]. cbn [decls stmts_ok]. cbn [map fst snd] in *.
  inversion N1 as [|? ? NI1 N1']; subst. inversion N3 as [|? ? NI3 N3']; subst. split.
  - split; [apply N2; now left|]. intros l ->. apply N4. unfold local_in. cbn. now left.
  - apply IH; auto.
    + intros m I [->|J]; [contradiction|]. exact (N2 m (or_intror I) J).
    + intros l I [E|J]; [|exact (N4 l (or_intror I) J)]. cbn in E. subst e. contradiction.
    + cbn [rev] in OK. rewrite <- !app_assoc in OK. exact OK.
Qed.
