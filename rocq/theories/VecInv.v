(** Representation invariant of a heap and the vecs living over it. *)
From Verif Require Import VecModel VecPackProofs ArcProofs CommonLemmas VecMem WordsLemmas.
From Coq Require Import Permutation.
Open Scope nat_scope.

Section Inv.
Context {A : Type} (e : elt) (He : (0 < esz e < 2 ^ 31)%Z).
Implicit Types (h : heap (A:=A)) (v : vec (A:=A)) (p : ptr) (s S : list (option A)).
Local Notation size := (size e).
Local Notation data := (data e).
Local Notation vcapa := (vcapa e).

(** [vrep h v S]: v is well-formed over h and its first size() slots are S. *)
Inductive vrep h v S : Prop :=
| vrep_small (rest : list (option A)) :
    HAS_SMALL e = true ->
    smallword e (v_pack v) (Z.of_nat (length S)) ->
    v_data v = None -> v_size v = 0 ->
    v_buf v = S ++ rest -> length (v_buf v) = small_capa e -> vrep h v S
| vrep_null :
    HAS_SMALL e = false -> v_pack v = 0%Z -> v_data v = None -> v_size v = 0 ->
    v_buf v = [] -> S = [] -> vrep h v S
| vrep_big (b : nat) (c : Z) (sh : bool) (k : block) (rest : list (option A)) :
    v_data v = Some b -> v_size v = length S -> v_pack v = bigword e c sh -> big_ok e c ->
    (SHAREABLE e = false -> sh = false) ->
    nth_error h b = Some (Some k) -> b_slots k = S ++ rest ->
    (Z.of_nat (length S) <= c <= Z.of_nat (length (b_slots k)))%Z ->
    (TRIVIAL e = false -> raw_list rest) -> v_buf v = raw_buf e -> vrep h v S.

Definition points_to (b : nat) v : bool := match v_data v with Some b' => b' =? b | None => false end.
Definition refs (vs : list (vec (A:=A) * list (option A))) (b : nat) : nat :=
  length (filter (fun x => points_to b (fst x)) vs).

(** No live block has a negative count. *)
Definition pos h : Prop := forall b k, nth_error h b = Some (Some k) -> (0 <= b_arc k)%Z.
Lemma pos_hset h b x : pos h -> (forall k, x = Some k -> (0 <= b_arc k)%Z) -> pos (hset h b x).
Proof.
  intros P H b' k K. destruct (Nat.eq_dec b' b) as [->|N].
  - destruct (Nat.lt_ge_cases b (length h)).
    + rewrite hset_eq in K by auto. injection K as E. auto.
    + apply nth_error_lt in K. rewrite hset_length in K. lia.
  - rewrite hset_neq in K by exact N. eauto.
Qed.
Lemma pos_app h k : pos h -> (0 <= b_arc k)%Z -> pos (h ++ [Some k]).
Proof.
  intros P H b k' K. destruct (Nat.lt_ge_cases b (length h)).
  - rewrite nth_error_app1 in K by auto. eauto.
  - rewrite nth_error_app2 in K by auto. destruct (b - length h) as [|n]; cbn in K; [congruence|destruct n; discriminate].
Qed.

(** Two vecs sharing a block are both empty or both non-empty. *)
Definition empt (vs : list (vec (A:=A) * list (option A))) : Prop :=
  forall v S w T b, In (v, S) vs -> In (w, T) vs -> v_data v = Some b -> v_data w = Some b ->
    S = [] -> T = [].

Record Inv h (vs : list (vec (A:=A) * list (option A))) : Prop := {
  inv_rep : forall v S, In (v, S) vs -> vrep h v S;
  inv_arc : forall b k, nth_error h b = Some (Some k) -> Z.of_nat (refs vs b) = (b_arc k + 1)%Z;
  inv_uniq : forall v S b, In (v, S) vs -> v_data v = Some b -> (0 <= vcapa v)%Z -> refs vs b = 1;
  inv_pos : pos h;
  inv_empt : empt vs
}.

Lemma small_capa_Z : Z.of_nat (small_capa e) = SMALL_CAPA e.
Proof. unfold small_capa. pose proof (SMALL_CAPA_range e ltac:(lia)). lia. Qed.
Lemma no_small : HAS_SMALL e = false -> SMALL_CAPA e = 0%Z.
Proof. unfold HAS_SMALL. destruct (Z.eqb_spec (SMALL_CAPA e) 0); auto. discriminate. Qed.
Lemma has_small : HAS_SMALL e = true -> (0 < SMALL_CAPA e)%Z.
Proof. apply HAS_SMALL_pos. lia. Qed.
Lemma has_small_trivial : HAS_SMALL e = true -> TRIVIAL e = true.
Proof.
  unfold HAS_SMALL, SMALL_CAPA, TRIVIAL. destruct (e_trivial e); auto.
Qed.
Lemma nontrivial_capa : TRIVIAL e = false -> SMALL_CAPA e = 0%Z.
Proof. intros T. apply no_small. destruct (HAS_SMALL e) eqn:H; auto. apply has_small_trivial in H. congruence. Qed.

(** ** Accessors under vrep *)
Lemma vrep_size h v S : vrep h v S -> size v = length S.
Proof.
  intros [rest HS (W & Sm & Sz) Hd Hz Hb L|HS Hp Hd Hz Hb ->|b c sh k rest Hd Hz Hp B Hsh Hn Hs Hc R Hb];
    unfold VecModel.size, vsize.
  - rewrite Sm, Sz. lia.
  - unfold is_small. rewrite HS, Hz. reflexivity.
  - rewrite Hp, bigword_not_small by (auto; lia). rewrite Hz. lia.
Qed.

Lemma vrep_small_capa_bound h v S : vrep h v S -> v_data v = None -> (Z.of_nat (length S) <= SMALL_CAPA e)%Z.
Proof.
  intros [rest HS (W & Sm & Sz) Hd Hz Hb L|HS Hp Hd Hz Hb ->|b c sh k rest Hd Hz Hp B Hsh Hn Hs Hc R Hb] N.
  - rewrite <- small_capa_Z, <- L, Hb, app_length. lia.
  - cbn. pose proof (SMALL_CAPA_range e ltac:(lia)). lia.
  - congruence.
Qed.

Lemma vrep_capa_nodata h v S : vrep h v S -> v_data v = None -> vcapa v = SMALL_CAPA e.
Proof.
  intros [rest HS (W & Sm & Sz) Hd Hz Hb L|HS Hp Hd Hz Hb ->|b c sh k rest Hd Hz Hp B Hsh Hn Hs Hc R Hb] N;
    unfold VecModel.vcapa, capa.
  - rewrite HS, Sm. reflexivity.
  - rewrite HS, Hp, no_small by auto. reflexivity.
  - congruence.
Qed.

Lemma vrep_data_big h v S b : vrep h v S -> v_data v = Some b -> data v = PBlk b.
Proof.
  intros [rest HS (W & Sm & Sz) Hd Hz Hb L|HS Hp Hd Hz Hb ->|b' c sh k rest Hd Hz Hp B Hsh Hn Hs Hc R Hb] N;
    try congruence.
  unfold VecModel.data. rewrite Hp, bigword_not_small by (auto; lia). rewrite Hd. congruence.
Qed.

(** Own storage of a vec that is allowed to write in place. *)
Lemma vrep_slots h v S : vrep h v S -> data v <> PNull ->
  exists rest, slots_at v h (data v) = Ok (S ++ rest) /\
    (TRIVIAL e = false -> raw_list rest) /\
    ((0 <= vcapa v)%Z -> (vcapa v <= Z.of_nat (length (S ++ rest)))%Z).
Proof.
  intros V N. destruct V as [rest HS (W & Sm & Sz) Hd Hz Hb L|HS Hp Hd Hz Hb ->|b c sh k rest Hd Hz Hp B Hsh Hn Hs Hc R Hb].
  - exists rest. unfold VecModel.data. rewrite Sm. cbn [slots_at]. rewrite Hb. split; [reflexivity|]. split.
    + intros T. apply has_small_trivial in HS. congruence.
    + intros _. unfold VecModel.vcapa, capa. rewrite HS, Sm, <- Hb, L, small_capa_Z. lia.
  - exfalso. apply N. unfold VecModel.data, is_small. rewrite HS, Hd. reflexivity.
  - exists rest. unfold VecModel.data. rewrite Hp, bigword_not_small by (auto; lia). rewrite Hd.
    cbn [slots_at]. rewrite (get_block_ok _ _ _ Hn). cbn [rbind]. rewrite Hs. split; [reflexivity|].
    split; [exact R|]. intros C. unfold VecModel.vcapa in *. rewrite Hp, capa_bigword in * by (auto; lia).
    rewrite <- Hs. destruct B as [B _]. destruct sh; lia.
Qed.

Lemma vrep_null_facts h v S : vrep h v S -> data v = PNull -> S = [] /\ vcapa v = 0%Z /\ v = vec0 e.
Proof.
  intros V N. destruct V as [rest HS (W & Sm & Sz) Hd Hz Hb L|HS Hp Hd Hz Hb ->|b c sh k rest Hd Hz Hp B Hsh Hn Hs Hc R Hb];
    unfold VecModel.data in N.
  - rewrite Sm in N. discriminate.
  - split; [reflexivity|]. split.
    + unfold VecModel.vcapa, capa. rewrite HS, Hp. reflexivity.
    + destruct v as [vd vz vp vb]. cbn in *. subst. unfold vec0. f_equal.
      unfold raw_buf, small_capa. rewrite no_small by auto. reflexivity.
  - rewrite Hp, bigword_not_small in N by (auto; lia). rewrite Hd in N. discriminate.
Qed.

(** ** refs *)
Lemma refs_cons x vs b : refs (x :: vs) b = (if points_to b (fst x) then 1 else 0) + refs vs b.
Proof. unfold refs. cbn [filter]. destruct (points_to b (fst x)); reflexivity. Qed.
Lemma refs_perm vs vs' b : Permutation vs vs' -> refs vs b = refs vs' b.
Proof.
  intros H. unfold refs. apply Permutation_length. induction H; cbn.
  - constructor.
  - destruct (points_to b (fst x)); auto.
  - destruct (points_to b (fst x)), (points_to b (fst y)); auto; constructor.
  - etransitivity; eauto.
Qed.
Lemma refs_in vs v S b : In (v, S) vs -> v_data v = Some b -> 1 <= refs vs b.
Proof.
  intros H E. unfold refs.
  assert (I : In (v, S) (filter (fun x => points_to b (fst x)) vs)).
  { apply filter_In. split; [exact H|]. cbn. unfold points_to. rewrite E. apply Nat.eqb_refl. }
  destruct (filter _ vs); [destruct I|cbn; lia].
Qed.
Lemma refs_0 vs b : refs vs b = 0 -> forall v S, In (v, S) vs -> v_data v <> Some b.
Proof. intros H v S I E. pose proof (refs_in _ _ _ _ I E). lia. Qed.
Lemma refs_pos vs b : 1 <= refs vs b -> exists v S, In (v, S) vs /\ v_data v = Some b.
Proof.
  unfold refs. destruct (filter _ vs) as [|[v S] l] eqn:E; cbn; [lia|]. intros _.
  assert (I : In (v, S) (filter (fun x => points_to b (fst x)) vs)) by (rewrite E; left; reflexivity).
  apply filter_In in I. destruct I as [I P]. exists v, S. split; [exact I|]. cbn in P.
  unfold points_to in P. destruct (v_data v) as [b'|]; [|discriminate].
  apply Nat.eqb_eq in P. congruence.
Qed.

Lemma empt_incl vs vs' : incl vs' vs -> empt vs -> empt vs'.
Proof. intros H E v S w T b I1 I2. apply (E v S w T b); apply H; assumption. Qed.
Lemma empt_tail x vs : empt (x :: vs) -> empt vs.
Proof. apply empt_incl. intros y H. right. exact H. Qed.
Lemma empt_alone v S vs : empt vs -> (forall b, v_data v = Some b -> refs vs b = 0) -> empt ((v, S) :: vs).
Proof.
  intros E H v1 S1 w T b [E1|I1] [E2|I2] D1 D2 N.
  - congruence.
  - injection E1 as <- <-. exfalso. eapply refs_0; eauto.
  - injection E2 as <- <-. exfalso. eapply refs_0; eauto.
  - eapply E; eauto.
Qed.
Lemma empt_same v S v' S' vs : v_data v' = v_data v -> (S = [] <-> S' = []) ->
  empt ((v, S) :: vs) -> empt ((v', S') :: vs).
Proof.
  intros Dv HS E v1 S1 w T b [E1|I1] [E2|I2] D1 D2 N.
  - congruence.
  - injection E1 as <- <-. apply (E v S w T b); [left; auto|right; auto|congruence|auto|apply HS; auto].
  - injection E2 as <- <-. apply HS. apply (E v1 S1 v S b); [right; auto|left; auto|auto|congruence|auto].
  - apply (E v1 S1 w T b); [right; auto|right; auto|auto|auto|auto].
Qed.
Lemma empt_copy v S v' vs : v_data v' = v_data v -> empt ((v, S) :: vs) -> empt ((v', S) :: (v, S) :: vs).
Proof.
  intros Dv E v1 S1 w T b I1 I2 D1 D2 N.
  assert (G : forall u U, In (u, U) ((v', S) :: (v, S) :: vs) -> v_data u = Some b ->
            exists u', In (u', U) ((v, S) :: vs) /\ v_data u' = Some b).
  { intros u U [G|G] Du; [injection G as <- <-; exists v; split; [left; auto|congruence]|eauto]. }
  destruct (G _ _ I1 D1) as (u1 & G1 & G2). destruct (G _ _ I2 D2) as (u2 & G3 & G4).
  exact (E _ _ _ _ _ G1 G3 G2 G4 N).
Qed.

Lemma Inv_perm h vs vs' : Permutation vs vs' -> Inv h vs -> Inv h vs'.
Proof.
  intros P [I1 I2 I3 I4 I5]. constructor.
  - intros v S H. apply I1. eapply Permutation_in; [symmetry; exact P|exact H].
  - intros b k H. rewrite <- (refs_perm _ _ b P). auto.
  - intros v S b H E C. rewrite <- (refs_perm _ _ b P). eapply I3; eauto.
    eapply Permutation_in; [symmetry; exact P|exact H].
  - exact I4.
  - apply (empt_incl vs); [|exact I5]. intros x H. eapply Permutation_in; [symmetry; exact P|exact H].
Qed.

Lemma Inv_nil : Inv [] [].
Proof.
  constructor.
  - intros v S [].
  - intros b k H. destruct b; discriminate.
  - intros v S b [].
  - intros b k H. destruct b; discriminate.
  - intros v S w T b [].
Qed.

(** vrep of a vec only depends on its own block. *)
Lemma vrep_frame h h' v S :
  vrep h v S -> (forall b, v_data v = Some b -> nth_error h' b = nth_error h b) -> vrep h' v S.
Proof.
  intros V F. destruct V as [rest HS (W & Sm & Sz) Hd Hz Hb L|HS Hp Hd Hz Hb ->|b c sh k rest Hd Hz Hp B Hsh Hn Hs Hc R Hb].
  - eapply vrep_small; eauto. split; auto.
  - apply vrep_null; auto.
  - eapply vrep_big; eauto. rewrite F; auto.
Qed.
(** ... and not on its refcount. *)
Lemma vrep_frame_arc h h' v S :
  vrep h v S ->
  (forall b k, v_data v = Some b -> nth_error h b = Some (Some k) ->
     exists k', nth_error h' b = Some (Some k') /\ b_slots k' = b_slots k) -> vrep h' v S.
Proof.
  intros V F. destruct V as [rest HS (W & Sm & Sz) Hd Hz Hb L|HS Hp Hd Hz Hb ->|b c sh k rest Hd Hz Hp B Hsh Hn Hs Hc R Hb].
  - eapply vrep_small; eauto. split; auto.
  - apply vrep_null; auto.
  - destruct (F b k Hd Hn) as (k' & E & Es). eapply vrep_big; eauto; rewrite ?Es; auto.
Qed.

Lemma vrep_live h v S b : vrep h v S -> v_data v = Some b -> exists k, nth_error h b = Some (Some k).
Proof.
  intros V E. destruct V as [rest HS (W & Sm & Sz) Hd Hz Hb L|HS Hp Hd Hz Hb ->|b' c sh k rest Hd Hz Hp B Hsh Hn Hs Hc R Hb];
    try congruence. exists k. congruence.
Qed.

(** ** Writing one's own storage *)
Lemma data_setbuf v s : data (setbuf v s) = data v.
Proof. reflexivity. Qed.

Lemma write_size_data v n : v_data (write_size e n v) = v_data v \/ is_small e (v_pack v) = true.
Proof. unfold write_size. destruct (is_small e (v_pack v)); auto. Qed.

Lemma Inv_store h v S vs s S1 rest1 :
  Inv h ((v, S) :: vs) -> (0 <= vcapa v)%Z -> data v <> PNull ->
  slots_at v h (data v) = Ok s -> length (S1 ++ rest1) = length s ->
  (Z.of_nat (length S1) <= vcapa v)%Z ->
  (TRIVIAL e = false -> raw_list rest1) ->
  let r := store v h (data v) (S1 ++ rest1) in
  Inv (snd r) ((write_size e (length S1) (fst r), S1) :: vs) /\
  data (write_size e (length S1) (fst r)) = data v /\
  vcapa (write_size e (length S1) (fst r)) = vcapa v.
Proof.
  intros [I1 I2 I3 I4 I5] C N SL LL LC RAW r.
  pose proof (I1 v S (or_introl eq_refl)) as V.
  destruct V as [rest HS (W & Sm & Sz) Hd Hz Hb L|HS Hp Hd Hz Hb HS0|b c sh k rest Hd Hz Hp B Hsh Hn Hs Hc R Hb].
  - (* inline *)
    assert (D : data v = PThis) by (unfold VecModel.data; rewrite Sm; reflexivity).
    unfold r. rewrite D in *. cbn [store fst snd] in *. cbn in SL. injection SL as <-.
    assert (VC : vcapa v = SMALL_CAPA e) by (unfold VecModel.vcapa, capa; rewrite HS, Sm; reflexivity).
    rewrite VC in LC. pose proof (SMALL_CAPA_range e ltac:(lia)) as SCR.
    destruct (write_small_spec e (v_pack v) (Z.of_nat (length S1)) HS W ltac:(lia)) as (W' & Sm' & Sz').
    assert (EW : write_size e (length S1) (setbuf v (S1 ++ rest1)) =
                 write_small_v e (length S1) (setbuf v (S1 ++ rest1))).
    { unfold write_size. cbn. rewrite Sm. reflexivity. }
    rewrite EW.
    split; [|split].
    + constructor.
      * intros v' S' [E|H].
        -- injection E as <- <-. eapply vrep_small; cbn; eauto.
           ++ split; auto.
           ++ congruence.
        -- apply I1. right; exact H.
      * intros b k H. rewrite <- (I2 b k H). rewrite !refs_cons. cbn. unfold points_to. cbn. rewrite Hd. reflexivity.
      * intros v' S' b [E|H] E' C'.
        -- injection E as <- <-. discriminate.
        -- rewrite <- (I3 v' S' b (or_intror H) E' C'). rewrite !refs_cons. cbn.
           unfold points_to. cbn. rewrite Hd. reflexivity.
      * exact I4.
      * apply empt_alone; [eapply empt_tail; exact I5|]. cbn. discriminate.
    + unfold VecModel.data. cbn. rewrite Sm'. reflexivity.
    + rewrite VC. unfold VecModel.vcapa, capa. cbn. rewrite HS, Sm'. reflexivity.
  - exfalso. apply N. unfold VecModel.data, is_small. rewrite HS, Hd. reflexivity.
  - (* heap block, not shared *)
    assert (NSm : is_small e (v_pack v) = false) by (rewrite Hp; apply bigword_not_small; auto; lia).
    assert (D : data v = PBlk b) by (unfold VecModel.data; rewrite NSm, Hd; reflexivity).
    unfold r. rewrite D in *. cbn [store] in *. rewrite Hn in *. cbn [fst snd].
    cbn in SL. rewrite (get_block_ok _ _ _ Hn) in SL. cbn in SL. injection SL as <-.
    pose proof (I3 v S b (or_introl eq_refl) Hd C) as U.
    rewrite refs_cons in U. cbn [fst] in U. unfold points_to in U at 1. rewrite Hd, Nat.eqb_refl in U.
    assert (U0 : refs vs b = 0) by lia.
    assert (Lb : b < length h) by (apply nth_error_lt in Hn; exact Hn).
    assert (Ew : write_size e (length S1) v =
       {| v_data := v_data v; v_size := length S1; v_pack := v_pack v; v_buf := v_buf v |})
      by (unfold write_size; rewrite NSm; reflexivity).
    rewrite Ew.
    assert (PT : forall b', points_to b' {| v_data := v_data v; v_size := length S1; v_pack := v_pack v; v_buf := v_buf v |} = points_to b' v) by reflexivity.
    split; [|split].
    + constructor.
      * intros v' S' [E|H].
        -- injection E as <- <-. eapply vrep_big with (b := b) (c := c) (sh := sh) (rest := rest1); cbn; eauto.
           ++ apply hset_eq. exact Lb.
           ++ cbn. reflexivity.
           ++ cbn. rewrite LL. unfold VecModel.vcapa in LC, C. rewrite Hp, capa_bigword in LC, C by (auto; lia).
              destruct B as [B _]. destruct sh; lia.
        -- apply (vrep_frame h); [apply I1; right; exact H|]. intros b' E.
           apply hset_neq. intros ->. eapply refs_0; eauto.
      * intros b' k' H. rewrite refs_cons. cbn [fst]. rewrite PT.
        destruct (Nat.eq_dec b' b) as [->|Nb].
        -- rewrite hset_eq in H by exact Lb. injection H as <-. cbn.
           rewrite <- (I2 b k Hn). rewrite refs_cons. reflexivity.
        -- rewrite hset_neq in H by exact Nb. rewrite <- (I2 b' k' H). rewrite refs_cons. reflexivity.
      * intros v' S' b' [E|H] E' C'.
        -- injection E as <- <-. rewrite refs_cons. cbn [fst]. rewrite PT.
           cbn in E'. replace b' with b in * by congruence.
           unfold points_to. rewrite Hd, Nat.eqb_refl. lia.
        -- rewrite <- (I3 v' S' b' (or_intror H) E' C'). rewrite !refs_cons. reflexivity.
      * apply pos_hset; [exact I4|]. intros k0 E0. injection E0 as <-. cbn. eauto.
      * apply empt_alone; [eapply empt_tail; exact I5|]. cbn. intros b' E'. congruence.
    + unfold VecModel.data. cbn. rewrite NSm, Hd. reflexivity.
    + reflexivity.
Qed.

(** ** Adding and removing vecs *)
Lemma refs_fresh h vs b : Inv h vs -> length h <= b -> refs vs b = 0.
Proof.
  intros I L. destruct (refs vs b) eqn:E; [reflexivity|exfalso].
  destruct (refs_pos vs b) as (v & S & H & D); [lia|].
  destruct (vrep_live _ _ _ _ (inv_rep _ _ I v S H) D) as (k & K).
  apply nth_error_lt in K. lia.
Qed.

Lemma Inv_nodata h v S vs : v_data v = None -> Inv h ((v, S) :: vs) -> Inv h vs.
Proof.
  intros N [I1 I2 I3 I4 I5]. constructor.
  - intros v' S' H. apply I1. right; exact H.
  - intros b k H. rewrite <- (I2 b k H), refs_cons. cbn. unfold points_to. rewrite N. reflexivity.
  - intros v' S' b H E C. rewrite <- (I3 v' S' b (or_intror H) E C), refs_cons. cbn.
    unfold points_to. rewrite N. reflexivity.
  - exact I4.
  - eapply empt_tail; exact I5.
Qed.
Lemma Inv_add_nodata h v S vs : v_data v = None -> vrep h v S -> Inv h vs -> Inv h ((v, S) :: vs).
Proof.
  intros N V [I1 I2 I3 I4 I5]. constructor.
  - intros v' S' [E|H]; [injection E as <- <-; exact V|auto].
  - intros b k H. rewrite <- (I2 b k H), refs_cons. cbn. unfold points_to. rewrite N. reflexivity.
  - intros v' S' b [E|H] E' C; [injection E as <- <-; congruence|].
    rewrite <- (I3 v' S' b H E' C), refs_cons. cbn. unfold points_to. rewrite N. reflexivity.
  - exact I4.
  - apply empt_alone; [exact I5|]. congruence.
Qed.

Lemma vrep_vec0 h : vrep h (vec0 e) [].
Proof.
  destruct (HAS_SMALL e) eqn:HS.
  - eapply vrep_small with (rest := raw_buf e); cbn; auto.
    + apply smallword_0. exact HS.
    + unfold raw_buf. apply repeat_length.
  - apply vrep_null; cbn; auto. unfold raw_buf, small_capa. rewrite no_small by auto. reflexivity.
Qed.

Lemma Inv_add_block h vs v S rest c :
  Inv h vs -> big_ok e c ->
  (Z.of_nat (length S) <= c <= Z.of_nat (length (S ++ rest)))%Z ->
  (TRIVIAL e = false -> raw_list rest) ->
  Inv (h ++ [Some {| b_arc := 0; b_slots := S ++ rest |}])
      ((write_big e (length h) (length S) c v, S) :: vs).
Proof.
  intros I B LC RAW. pose proof I as [I1 I2 I3 I4 I5].
  assert (F : refs vs (length h) = 0) by (eapply refs_fresh; eauto).
  constructor.
  - intros v' S' [E|H].
    + injection E as <- <-. eapply vrep_big with (b := length h) (c := c) (sh := false) (rest := rest); cbn; eauto.
      * rewrite nth_error_app2 by lia. rewrite Nat.sub_diag. reflexivity.
      * reflexivity.
      * exact LC.
    + apply (vrep_frame h); [auto|]. intros b E.
      destruct (vrep_live _ _ _ _ (I1 _ _ H) E) as (k & K).
      apply nth_error_app1. apply nth_error_lt in K. exact K.
  - intros b k H. rewrite refs_cons. cbn [fst]. unfold points_to. cbn [v_data write_big].
    destruct (Nat.lt_ge_cases b (length h)) as [L|L].
    + rewrite nth_error_app1 in H by lia. destruct (Nat.eqb_spec (length h) b); [lia|].
      cbn. auto.
    + assert (b = length h).
      { apply nth_error_lt in H. rewrite app_length in H. cbn in H. lia. }
      subst b. rewrite nth_error_app2, Nat.sub_diag in H by lia. injection H as <-.
      rewrite Nat.eqb_refl, F. reflexivity.
  - intros v' S' b [E|H] E' C.
    + injection E as <- <-. cbn in E'. injection E' as <-. rewrite refs_cons, F. cbn [fst].
      unfold points_to. cbn. rewrite Nat.eqb_refl. reflexivity.
    + rewrite refs_cons. cbn [fst]. unfold points_to. cbn [v_data write_big].
      destruct (Nat.eqb_spec (length h) b) as [<-|N].
      * exfalso. eapply refs_0; eauto.
      * cbn. eapply I3; eauto.
  - apply pos_app; [exact I4|cbn; lia].
  - apply empt_alone; [exact I5|]. cbn. intros b E. injection E as <-. exact F.
Qed.

Lemma alloc_ok h n : (SMALL_CAPA e < Z.of_nat n < 2 ^ 31 - 1)%Z ->
  alloc e h n = Exit \/
  exists c m, alloc e h n = Ok (h ++ [Some {| b_arc := 0; b_slots := repeat None m |}], length h, c) /\
    big_ok e c /\ (Z.of_nat n <= c <= Z.of_nat m)%Z.
Proof.
  intros H. unfold alloc. pose proof (SMALL_CAPA_range e ltac:(lia)) as SCR.
  destruct (alloc_count_any (SHAREABLE e) (esz e) (Z.of_nat n + Z.b2z (HAS_SMALL e))%Z He)
    as [E|(got & E & L & _)].
  - destruct (HAS_SMALL e); cbn; lia.
  - left. rewrite E. reflexivity.
  - right. rewrite E. cbn [rbind].
    set (c := if HAS_SMALL e then looks_big e got else got).
    assert (B : big_ok e c /\ (Z.of_nat n <= c <= got)%Z).
    { unfold c, big_ok. destruct (HAS_SMALL e) eqn:HS; cbn in L.
      - destruct (looks_big_spec e got HS ltac:(lia)) as [O M].
        split; [split|]; try (intros _; exact M); lia.
      - split; [split; [lia|discriminate]|lia]. }
    destruct B as [B LC]. exists c, (Z.to_nat got).
    destruct (Z.ltb_spec c (Z.of_nat n)); [lia|].
    destruct (Z.leb_spec c (SMALL_CAPA e)); [lia|]. cbn [orb].
    split; [reflexivity|]. split; [exact B|]. lia.
Qed.

(** Heap after releasing block [b]. *)
Lemma Inv_drop_last h v S vs b :
  Inv h ((v, S) :: vs) -> v_data v = Some b -> refs vs b = 0 -> Inv (hset h b None) vs.
Proof.
  intros [I1 I2 I3 I4 I5] D U. constructor.
  - intros v' S' H. apply (vrep_frame h); [apply I1; right; exact H|].
    intros b' E. apply hset_neq. intros ->. eapply refs_0; eauto.
  - intros b' k H. destruct (Nat.eq_dec b' b) as [->|N].
    + destruct (vrep_live _ _ _ _ (I1 _ _ (or_introl eq_refl)) D) as (k' & K).
      rewrite hset_eq in H by (apply nth_error_lt in K; exact K). discriminate.
    + rewrite hset_neq in H by exact N. rewrite <- (I2 b' k H), refs_cons. cbn [fst].
      unfold points_to. rewrite D. destruct (Nat.eqb_spec b b'); [congruence|reflexivity].
  - intros v' S' b' H E C. rewrite <- (I3 v' S' b' (or_intror H) E C), refs_cons. cbn [fst].
    unfold points_to. rewrite D. destruct (Nat.eqb_spec b b'); [|reflexivity].
    subst b'. exfalso. eapply refs_0; eauto.
  - apply pos_hset; [exact I4|discriminate].
  - eapply empt_tail; exact I5.
Qed.

Lemma Inv_drop_one h v S vs b k :
  Inv h ((v, S) :: vs) -> v_data v = Some b -> nth_error h b = Some (Some k) -> 1 <= refs vs b ->
  Inv (hset h b (Some {| b_arc := b_arc k - 1; b_slots := b_slots k |})) vs.
Proof.
  intros [I1 I2 I3 I4 I5] D K U.
  assert (Lb : b < length h) by (apply nth_error_lt in K; exact K).
  constructor.
  - intros v' S' H. apply (vrep_frame_arc h); [apply I1; right; exact H|].
    intros b' k' E K'. destruct (Nat.eq_dec b' b) as [->|N].
    + rewrite hset_eq by exact Lb. eexists. split; [reflexivity|]. cbn. congruence.
    + rewrite hset_neq by exact N. eauto.
  - intros b' k' H. destruct (Nat.eq_dec b' b) as [->|N].
    + rewrite hset_eq in H by exact Lb. injection H as <-. cbn.
      pose proof (I2 b k K) as R. rewrite refs_cons in R. cbn [fst] in R. unfold points_to in R.
      rewrite D, Nat.eqb_refl in R. lia.
    + rewrite hset_neq in H by exact N. rewrite <- (I2 b' k' H), refs_cons. cbn [fst].
      unfold points_to. rewrite D. destruct (Nat.eqb_spec b b'); [congruence|reflexivity].
  - intros v' S' b' H E C.
    pose proof (I3 v' S' b' (or_intror H) E C) as R. rewrite refs_cons in R. cbn [fst] in R.
    unfold points_to in R. rewrite D in R. pose proof (refs_in _ _ _ _ H E).
    destruct (Nat.eqb_spec b b'); lia.
  - apply pos_hset; [exact I4|]. intros k0 E0. injection E0 as <-. cbn.
    pose proof (I2 b k K) as R. rewrite refs_cons in R. cbn [fst] in R. unfold points_to in R.
    rewrite D, Nat.eqb_refl in R. lia.
  - eapply empt_tail; exact I5.
Qed.

Lemma masked_capa h v S b : vrep h v S -> v_data v = Some b ->
  exists c, shared_capa e (v_pack v) = c /\ Z.land (wrap 32 (vcapa v)) NOT_SIGN = c /\
    (SMALL_CAPA e < c < 2 ^ 31)%Z /\ (Z.of_nat (length S) <= c)%Z /\ mark_unique e (v_pack v) = bigword e c false /\
    ((0 <= vcapa v)%Z -> vcapa v = c) /\ big_ok e c /\
    (exists k, nth_error h b = Some (Some k) /\ (c <= Z.of_nat (length (b_slots k)))%Z).
Proof.
  intros V E. destruct V as [rest HS (W & Sm & Sz) Hd Hz Hb L|HS Hp Hd Hz Hb HS0|b' c sh k rest Hd Hz Hp B Hsh Hn Hs Hc R Hb];
    try congruence.
  pose proof (SMALL_CAPA_range e ltac:(lia)) as SCR.
  exists c. rewrite Hp. unfold VecModel.vcapa. rewrite Hp.
  rewrite shared_capa_bigword, capa_bigword by (auto; lia).
  destruct B as [B1 B2].
  split; [reflexivity|]. split; [apply mask_capa; lia|]. split; [lia|]. split; [lia|].
  split; [apply mark_unique_bigword; auto; [lia|split; auto]|]. split; [destruct sh; lia|].
  split; [split; auto|].
  exists k. split; [congruence|]. lia.
Qed.

(** Releasing a reference (SHARED__Dealloc). *)
Lemma shared_dealloc_ok h v (l : list A) vs b :
  Inv h ((v, map Some l) :: vs) -> v_data v = Some b ->
  exists h', shared_dealloc e h (PBlk b) (length l) (shared_capa e (v_pack v)) = Ok h' /\ Inv h' vs /\
    length h' = length h.
Proof.
  intros I D. pose proof I as [I1 I2 I3 I4 I5].
  pose proof (I1 _ _ (or_introl eq_refl)) as V.
  destruct (masked_capa _ _ _ _ V D) as (c & Ec & _ & [Lc1 Lc2] & Ll & _ & _ & _ & (k & K & Lk)).
  rewrite Ec. unfold shared_dealloc. destruct (Z.leb_spec c (SMALL_CAPA e)); [lia|].
  rewrite (get_block_ok _ _ _ K). cbn [rbind].
  assert (Lb : b < length h) by (apply nth_error_lt in K; exact K).
  pose proof (I2 b k K) as R. rewrite refs_cons in R. cbn [fst] in R. unfold points_to in R.
  rewrite D, Nat.eqb_refl in R.
  assert (SL : exists rest, b_slots k = map Some l ++ rest /\ (TRIVIAL e = false -> raw_list rest)).
  { destruct V as [rest HS (W & Sm & Sz) Hd Hz Hb L|HS Hp Hd Hz Hb HS0|b' c' sh k' rest Hd Hz Hp B Hsh Hn Hs Hc RW Hb];
      try congruence. exists rest. split; [|exact RW]. replace b with b' in * by congruence. congruence. }
  destruct SL as (rest & SL & RW).
  (* common tail: destroy and free *)
  assert (TAIL : forall a, refs vs b = 0 ->
     exists h', (let! (_, h0) := destroy_range e (vec0 e) (hset h b (Some {| b_arc := a; b_slots := b_slots k |})) (PBlk b) 0 (length l)
                 in free e h0 b c) = Ok h' /\ Inv h' vs /\ length h' = length h).
  { intros a U.
    set (h1 := hset h b (Some {| b_arc := a; b_slots := b_slots k |})).
    assert (K1 : nth_error h1 b = Some (Some {| b_arc := a; b_slots := b_slots k |})) by (apply hset_eq; exact Lb).
    assert (S1 : slots_at (vec0 e) h1 (PBlk b) = Ok ([] ++ map Some l ++ rest)).
    { cbn. rewrite (get_block_ok _ _ _ K1). cbn. rewrite SL. reflexivity. }
    pose proof (destroy_mid e (vec0 e) h1 (PBlk b) [] rest l S1) as DM. cbn [length app] in DM.
    rewrite DM. cbn [store]. rewrite K1. cbn [rbind b_arc].
    set (D' := if TRIVIAL e then map Some l else repeat None (length l)).
    assert (LD : length D' = length l) by (unfold D'; destruct (TRIVIAL e); rewrite ?map_length, ?repeat_length; reflexivity).
    unfold h1. rewrite hset_hset.
    unfold free. unfold get_block. rewrite hset_eq by exact Lb. cbn [rbind b_slots].
    assert (LL : length (D' ++ rest) = length (b_slots k)).
    { rewrite SL, !app_length, LD, map_length. reflexivity. }
    rewrite LL. destruct (Z.ltb_spec (Z.of_nat (length (b_slots k))) c); [lia|].
    assert (RR : TRIVIAL e || forallb is_raw (D' ++ rest) = true).
    { unfold D'. destruct (TRIVIAL e) eqn:T; [reflexivity|]. cbn. apply raw_forallb.
      apply raw_app. split; [apply raw_repeat|auto]. }
    rewrite RR. rewrite set_block_ok by (rewrite hset_length; exact Lb). rewrite hset_hset.
    eexists. split; [reflexivity|]. split; [eapply Inv_drop_last; eauto|apply hset_length]. }
  destruct (SHAREABLE e) eqn:SH.
  - rewrite set_block_ok by exact Lb. cbn [rbind].
    destruct (Z.ltb_spec (b_arc k) 0); [lia|].
    destruct (Z.eqb_spec (b_arc k) 0) as [Z0|Z0].
    + apply TAIL. lia.
    + eexists. split; [reflexivity|]. split; [|apply hset_length].
      eapply Inv_drop_one; eauto. lia.
  - (* not shareable: always the only reference *)
    assert (U : refs vs b = 0).
    { assert (C : (0 <= vcapa v)%Z).
      { destruct V as [rest' HS (W & Sm & Sz) Hd Hz Hb L|HS Hp Hd Hz Hb HS0|b' c' sh k' rest' Hd Hz Hp B Hsh Hn Hs Hc RW' Hb];
          try congruence.
        unfold VecModel.vcapa. rewrite Hp, capa_bigword by (auto; lia). rewrite (Hsh SH).
        destruct B as [B _]. pose proof (SMALL_CAPA_range e ltac:(lia)). lia. }
      pose proof (I3 _ _ b (or_introl eq_refl) D C) as U. rewrite refs_cons in U. cbn [fst] in U.
      unfold points_to in U. rewrite D, Nat.eqb_refl in U. lia. }
    destruct (TAIL (b_arc k) U) as (h' & E & I').
    exists h'. split; [|exact I']. rewrite <- E.
    replace (Some {| b_arc := b_arc k; b_slots := b_slots k |}) with (Some k) by (destruct k; reflexivity).
    rewrite hset_id by exact K. reflexivity.
Qed.

(** Releasing a uniquely owned block whose elements have been relocated. *)
Lemma uniq_dealloc_ok h v S vs b :
  Inv h ((v, S) :: vs) -> v_data v = Some b -> refs vs b = 0 ->
  (TRIVIAL e = false -> raw_list S) ->
  uniq_dealloc e h (PBlk b) (shared_capa e (v_pack v)) = Ok (hset h b None) /\ Inv (hset h b None) vs.
Proof.
  intros I D U RW. pose proof I as [I1 I2 I3 I4 I5].
  pose proof (I1 _ _ (or_introl eq_refl)) as V.
  destruct (masked_capa _ _ _ _ V D) as (c & Ec & _ & [Lc1 Lc2] & Ll & _ & _ & _ & (k & K & Lk)).
  split; [|eapply Inv_drop_last; eauto].
  pose proof (I2 b k K) as R. rewrite refs_cons in R. cbn [fst] in R. unfold points_to in R.
  rewrite D, Nat.eqb_refl, U in R.
  unfold uniq_dealloc, is_unique.
  assert (EU : (if SHAREABLE e then let! k0 := get_block h b in Ok (b_arc k0 =? 0)%Z else Ok true) = Ok true).
  { destruct (SHAREABLE e); [|reflexivity]. rewrite (get_block_ok _ _ _ K). cbn [rbind].
    destruct (Z.eqb_spec (b_arc k) 0); [reflexivity|lia]. }
  rewrite EU. cbn [rbind]. unfold free. rewrite (get_block_ok _ _ _ K). cbn [rbind]. rewrite Ec.
  destruct (Z.ltb_spec (Z.of_nat (length (b_slots k))) c); [lia|].
  assert (RR : TRIVIAL e || forallb is_raw (b_slots k) = true).
  { destruct (TRIVIAL e) eqn:T; [reflexivity|]. cbn. apply raw_forallb.
    destruct V as [rest HS (W & Sm & Sz) Hd Hz Hb L|HS Hp Hd Hz Hb HS0|b' c' sh k' rest Hd Hz Hp B Hsh Hn Hs Hc RW' Hb];
      try congruence.
    replace b' with b in * by congruence. rewrite K in Hn. injection Hn as <-. rewrite Hs.
    apply raw_app. split; auto. }
  rewrite RR. apply set_block_ok. apply nth_error_lt in K. exact K.
Qed.

(** Asking whether the refcount is zero. *)
Lemma is_unique_ok h v S vs b :
  Inv h ((v, S) :: vs) -> v_data v = Some b ->
  is_unique e h (PBlk b) = Ok (refs vs b =? 0).
Proof.
  intros I D. pose proof I as [I1 I2 I3 I4 I5].
  pose proof (I1 _ _ (or_introl eq_refl)) as V.
  destruct (vrep_live _ _ _ _ V D) as (k & K).
  pose proof (I2 b k K) as R. rewrite refs_cons in R. cbn [fst] in R. unfold points_to in R.
  rewrite D, Nat.eqb_refl in R.
  unfold is_unique. destruct (SHAREABLE e) eqn:SH.
  - rewrite (get_block_ok _ _ _ K). cbn [rbind]. f_equal.
    destruct (Z.eqb_spec (b_arc k) 0), (Nat.eqb_spec (refs vs b) 0); auto; lia.
  - f_equal. symmetry. apply Nat.eqb_eq.
    assert (C : (0 <= vcapa v)%Z).
    { destruct V as [rest' HS (W & Sm & Sz) Hd Hz Hb L|HS Hp Hd Hz Hb HS0|b' c' sh k' rest' Hd Hz Hp B Hsh Hn Hs Hc RW' Hb];
        try congruence.
      unfold VecModel.vcapa. rewrite Hp, capa_bigword by (auto; lia). rewrite (Hsh SH).
      destruct B as [B _]. pose proof (SMALL_CAPA_range e ltac:(lia)). lia. }
    pose proof (I3 _ _ b (or_introl eq_refl) D C) as U. rewrite refs_cons in U. cbn [fst] in U.
    unfold points_to in U. rewrite D, Nat.eqb_refl in U. lia.
Qed.

(** Reacquiring ownership. *)
Lemma mark_unique_inv h v S vs b :
  Inv h ((v, S) :: vs) -> v_data v = Some b -> refs vs b = 0 ->
  let v' := set_pack (mark_unique e (v_pack v)) v in
  Inv h ((v', S) :: vs) /\ data v' = data v /\ vcapa v' = Z.land (wrap 32 (vcapa v)) NOT_SIGN /\ size v' = size v.
Proof.
  intros I D U v'. pose proof I as [I1 I2 I3 I4 I5].
  pose proof (I1 _ _ (or_introl eq_refl)) as V.
  destruct (masked_capa _ _ _ _ V D) as (c & Ec & Em & Lc & Ll & Eu & _ & B & _).
  assert (V' : vrep h v' S).
  { destruct V as [rest HS (W & Sm & Sz) Hd Hz Hb L|HS Hp Hd Hz Hb HS0|b' c' sh k' rest Hd Hz Hp B' Hsh Hn Hs Hc RW' Hb];
      try congruence.
    assert (c' = c).
    { rewrite Hp in Ec. rewrite shared_capa_bigword in Ec by (auto; lia). exact Ec. }
    subst c'. eapply vrep_big with (b := b') (c := c) (sh := false); cbn; eauto. }
  split; [|split; [|split]].
  - constructor.
    + intros w T [E|H]; [injection E as <- <-; exact V'|apply I1; right; exact H].
    + intros b' k H. rewrite <- (I2 b' k H), !refs_cons. reflexivity.
    + intros w T b' [E|H] E' C.
      * injection E as <- <-. cbn in E'. replace b' with b by congruence. rewrite refs_cons, U. cbn [fst].
        unfold points_to. cbn. rewrite D, Nat.eqb_refl. reflexivity.
      * rewrite <- (I3 w T b' (or_intror H) E' C), !refs_cons. reflexivity.
    + exact I4.
    + eapply empt_same; [| |exact I5]; [reflexivity|tauto].
  - rewrite (vrep_data_big _ _ _ b V' D), (vrep_data_big _ _ _ b V D). reflexivity.
  - rewrite Em. unfold VecModel.vcapa, v'. cbn. rewrite Eu. rewrite capa_bigword by (auto; lia). reflexivity.
  - rewrite (vrep_size _ _ _ V), (vrep_size _ _ _ V'). reflexivity.
Qed.
End Inv.
