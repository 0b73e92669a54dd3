(** Lemmas about the raw memory operations of VecModel.v. *)
From Verif Require Import VecModel VecPackProofs CommonLemmas.
Open Scope nat_scope.

Section Mem.
Context {A : Type} (e : elt).
Implicit Types (h : heap (A:=A)) (v : vec (A:=A)) (p : ptr) (s l : list (option A)).

Definition raw_list s : Prop := Forall (fun x => x = None) s.

(** ** Heap update *)
Definition hset h (b : nat) k := match upd h b k with Some h' => h' | None => h end.

Lemma hset_length h b k : length (hset h b k) = length h.
Proof.
  unfold hset. destruct (upd h b k) eqn:E; [|reflexivity]. apply upd_Some in E. tauto.
Qed.
Lemma hset_eq h b k : b < length h -> nth_error (hset h b k) b = Some k.
Proof.
  intros H. unfold hset. destruct (upd h b k) eqn:E.
  - apply upd_Some in E. tauto.
  - rewrite upd_spec in E by lia. discriminate.
Qed.
Lemma hset_neq h b k b' : b' <> b -> nth_error (hset h b k) b' = nth_error h b'.
Proof.
  intros H. unfold hset. destruct (upd h b k) eqn:E; [|reflexivity].
  apply upd_Some in E. destruct E as (_ & _ & _ & E). apply E. auto.
Qed.
Lemma hset_id h b k : nth_error h b = Some k -> hset h b k = h.
Proof.
  intros H. apply list_ext. intros i. destruct (Nat.eq_dec i b) as [->|N].
  - rewrite hset_eq; [symmetry; exact H|]. apply nth_error_lt in H. exact H.
  - apply hset_neq; auto.
Qed.
Lemma hset_hset h b k k' : hset (hset h b k) b k' = hset h b k'.
Proof.
  apply list_ext. intros i. destruct (Nat.eq_dec i b) as [->|N].
  - destruct (Nat.lt_ge_cases b (length h)).
    + rewrite !hset_eq; auto. rewrite hset_length. auto.
    + rewrite !(proj2 (nth_error_None _ _)); auto; rewrite ?hset_length; auto.
  - rewrite !hset_neq; auto.
Qed.
Lemma set_block_ok h b k : b < length h -> set_block h b k = Ok (hset h b k).
Proof.
  intros H. unfold set_block, hset. destruct (upd h b k) eqn:E; [reflexivity|].
  rewrite upd_spec in E by lia. discriminate.
Qed.
Lemma get_block_ok h b k : nth_error h b = Some (Some k) -> get_block h b = Ok k.
Proof. intros H. unfold get_block. rewrite H. reflexivity. Qed.
Lemma get_block_inv h b k : get_block h b = Ok k -> nth_error h b = Some (Some k).
Proof. unfold get_block. destruct (nth_error h b) as [[k'|]|]; congruence. Qed.

Definition setbuf v s : vec (A:=A) :=
  {| v_data := v_data v; v_size := v_size v; v_pack := v_pack v; v_buf := s |}.

Definition store v h p s : vec * heap :=
  match p with
  | PThis => (setbuf v s, h)
  | PBlk b => match nth_error h b with
              | Some (Some k) => (v, hset h b (Some {| b_arc := b_arc k; b_slots := s |}))
              | _ => (v, h)
              end
  | PNull => (v, h)
  end.

Lemma set_slots_store v h p s0 s : slots_at v h p = Ok s0 -> set_slots v h p s = Ok (store v h p s).
Proof.
  destruct p as [|b|]; cbn; intros H; [reflexivity| |discriminate].
  destruct (get_block h b) as [k| |] eqn:E; try discriminate.
  pose proof (get_block_inv _ _ _ E) as E'. rewrite E'. cbn [rbind].
  rewrite set_block_ok by (apply nth_error_lt in E'; exact E'). reflexivity.
Qed.

Lemma slots_store v h p s0 s :
  slots_at v h p = Ok s0 -> slots_at (fst (store v h p s)) (snd (store v h p s)) p = Ok s.
Proof.
  destruct p as [|b|]; cbn; intros H; [reflexivity| |discriminate].
  destruct (get_block h b) as [k| |] eqn:E; try discriminate.
  pose proof (get_block_inv _ _ _ E) as E'. rewrite E'. cbn [fst snd].
  unfold get_block. rewrite hset_eq by (apply nth_error_lt in E'; exact E'). reflexivity.
Qed.

Lemma store_id v h p s : slots_at v h p = Ok s -> store v h p s = (v, h).
Proof.
  destruct p as [|b|]; cbn; intros H; [injection H as <-; destruct v; reflexivity| |discriminate].
  destruct (get_block h b) as [k| |] eqn:E; try discriminate. cbn in H. injection H as <-.
  pose proof (get_block_inv _ _ _ E) as E'. rewrite E'. f_equal. apply hset_id.
  rewrite E'. destruct k; reflexivity.
Qed.

Lemma store_store v h p s0 s1 s2 : slots_at v h p = Ok s0 ->
  store (fst (store v h p s1)) (snd (store v h p s1)) p s2 = store v h p s2.
Proof.
  destruct p as [|b|]; cbn; intros H; [reflexivity| |discriminate].
  destruct (get_block h b) as [k| |] eqn:E; try discriminate.
  pose proof (get_block_inv _ _ _ E) as E'. rewrite E'. cbn [fst snd].
  rewrite hset_eq by (apply nth_error_lt in E'; exact E'). cbn. rewrite hset_hset. reflexivity.
Qed.

(** ** put *)
Lemma put_nil off s : put off [] s = s.
Proof. unfold put. cbn [length app]. rewrite Nat.add_0_r. apply firstn_skipn. Qed.
Lemma put_length off l s : off + length l <= length s -> length (put off l s) = length s.
Proof.
  intros H. unfold put. rewrite !app_length, firstn_length, skipn_length. lia.
Qed.
Lemma put_mid (x y z l : list (option A)) : length l = length y ->
  put (length x) l (x ++ y ++ z) = x ++ l ++ z.
Proof.
  intros H. unfold put. rewrite firstn_mid. f_equal. f_equal.
  rewrite app_assoc, skipn_app, skipn_all2 by (rewrite app_length; lia).
  rewrite app_length. replace (length x + length l - (length x + length y)) with 0 by lia.
  reflexivity.
Qed.

Lemma read_range_ok v h p s off n : slots_at v h p = Ok s -> off + n <= length s ->
  read_range v h p off n = Ok (firstn n (skipn off s)).
Proof.
  intros H L. unfold read_range. destruct (Nat.eqb_spec n 0) as [->|Hn]; [reflexivity|].
  rewrite H. cbn [rbind]. destruct (Nat.leb_spec (off + n) (length s)); [reflexivity|lia].
Qed.
Lemma read_range_mid v h p (x y z : list (option A)) : slots_at v h p = Ok (x ++ y ++ z) ->
  read_range v h p (length x) (length y) = Ok y.
Proof.
  intros H. rewrite (read_range_ok _ _ _ _ _ _ H) by (rewrite !app_length; lia).
  rewrite skipn_app, skipn_all, Nat.sub_diag. cbn [app skipn]. rewrite firstn_mid. reflexivity.
Qed.
Lemma read_range_0 v h p off : read_range v h p off 0 = Ok [].
Proof. reflexivity. Qed.

Lemma write_range_ok v h p s off l : slots_at v h p = Ok s -> off + length l <= length s ->
  write_range v h p off l = Ok (store v h p (put off l s)).
Proof.
  intros H L. unfold write_range. destruct l as [|x l].
  - rewrite put_nil, store_id by exact H. reflexivity.
  - rewrite H. cbn [rbind]. destruct (Nat.leb_spec (off + length (x :: l)) (length s)); [|lia].
    eapply set_slots_store; exact H.
Qed.

Lemma raw_forallb l : raw_list l -> forallb is_raw l = true.
Proof. induction 1 as [|x l Hx Hl IH]; cbn; [reflexivity|]. rewrite Hx. exact IH. Qed.
Lemma raw_repeat n : raw_list (repeat None n).
Proof. apply Forall_forall. intros x Hx. apply repeat_spec in Hx. exact Hx. Qed.
Lemma raw_app l l' : raw_list (l ++ l') <-> raw_list l /\ raw_list l'.
Proof. apply Forall_app. Qed.
Lemma raw_firstn n l : raw_list l -> raw_list (firstn n l).
Proof. intros H. rewrite <- (firstn_skipn n l) in H. apply raw_app in H. tauto. Qed.
Lemma raw_skipn n l : raw_list l -> raw_list (skipn n l).
Proof. intros H. rewrite <- (firstn_skipn n l) in H. apply raw_app in H. tauto. Qed.
Lemma live_map (x : list A) : forallb is_live (map Some x) = true.
Proof. induction x; cbn; auto. Qed.

Lemma construct_ok v h p s off l : slots_at v h p = Ok s -> off + length l <= length s ->
  (TRIVIAL e = false -> raw_list (firstn (length l) (skipn off s))) ->
  construct_range e v h p off l = Ok (store v h p (put off l s)).
Proof.
  intros H L R. unfold construct_range. rewrite (read_range_ok _ _ _ _ _ _ H L). cbn [rbind].
  destruct (TRIVIAL e); cbn [orb].
  - apply write_range_ok; auto.
  - rewrite (raw_forallb _ (R eq_refl)). apply write_range_ok; auto.
Qed.

Lemma construct_mid v h p (x y z l : list (option A)) :
  slots_at v h p = Ok (x ++ y ++ z) -> length l = length y ->
  (TRIVIAL e = false -> raw_list y) ->
  construct_range e v h p (length x) l = Ok (store v h p (x ++ l ++ z)).
Proof.
  intros H E R. erewrite construct_ok; [|exact H| |].
  - rewrite put_mid by exact E. reflexivity.
  - rewrite !app_length. lia.
  - intros T. rewrite E. rewrite skipn_app, skipn_all, Nat.sub_diag. cbn [app skipn].
    rewrite firstn_mid. auto.
Qed.

Lemma destroy_mid v h p (x z : list (option A)) (y : list A) :
  slots_at v h p = Ok (x ++ map Some y ++ z) ->
  destroy_range e v h p (length x) (length y) =
    Ok (store v h p (x ++ (if TRIVIAL e then map Some y else repeat None (length y)) ++ z)).
Proof.
  intros H. unfold destroy_range. destruct (TRIVIAL e).
  - rewrite store_id by exact H. reflexivity.
  - rewrite <- (map_length Some y) at 1. rewrite (read_range_mid _ _ _ _ _ _ H). cbn [rbind].
    rewrite live_map. erewrite write_range_ok; [|exact H|].
    + rewrite put_mid by (rewrite repeat_length, map_length; reflexivity). reflexivity.
    + rewrite !app_length, repeat_length, map_length. lia.
Qed.

Lemma destroy_0 v h p off : destroy_range e v h p off 0 = Ok (v, h).
Proof. unfold destroy_range. destruct (TRIVIAL e); reflexivity. Qed.
Lemma mem_move_0 v h d doff p soff : mem_move e v h d doff p soff 0 = Ok (v, h).
Proof. unfold mem_move. cbn. destruct (TRIVIAL e); reflexivity. Qed.
Lemma copy_ctor_0 v h d doff p soff : copy_ctor e v h d doff p soff 0 = Ok (v, h).
Proof. unfold copy_ctor, construct_range. cbn. destruct (TRIVIAL e); reflexivity. Qed.

(** Moving a live run inside one storage, opening or closing a gap after [a]. *)
Lemma mem_move_same v h p (a m : list A) (R1 R2 : list (option A)) ins :
  slots_at v h p = Ok (map Some a ++ R1 ++ map Some m ++ R2) ->
  (TRIVIAL e = false -> raw_list R1 /\ raw_list R2) ->
  length a + ins + length m <= length (map Some a ++ R1 ++ map Some m ++ R2) ->
  exists X R', mem_move e v h p (length a + ins) p (length a + length R1) (length m)
      = Ok (store v h p (map Some a ++ X ++ map Some m ++ R')) /\
    length X = ins /\ length (map Some a ++ X ++ map Some m ++ R') =
                      length (map Some a ++ R1 ++ map Some m ++ R2) /\
    (TRIVIAL e = false -> raw_list X /\ raw_list R').
Proof.
  intros H RAW L.
  assert (RD : read_range v h p (length a + length R1) (length m) = Ok (map Some m)).
  { rewrite <- (map_length Some m) at 1. rewrite <- (map_length Some a), <- app_length.
    rewrite app_assoc in H. apply (read_range_mid _ _ _ _ _ _ H). }
  unfold mem_move. rewrite RD. cbn [rbind].
  assert (PUT : forall R, length R = length (R1 ++ map Some m ++ R2) ->
    put (length a + ins) (map Some m) (map Some a ++ R) =
    map Some a ++ firstn ins R ++ map Some m ++ skipn (ins + length m) R).
  { intros R HR. unfold put. rewrite firstn_app, map_length.
    rewrite firstn_all2 by (rewrite map_length; lia).
    replace (length a + ins - length a) with ins by lia. rewrite <- app_assoc. f_equal. f_equal. f_equal.
    rewrite skipn_app, skipn_all2 by (rewrite map_length; lia). rewrite !map_length. cbn [app].
    f_equal. lia. }
  rewrite !app_length, !map_length in L.
  destruct (TRIVIAL e) eqn:T.
  - erewrite write_range_ok; [|exact H|rewrite !app_length, !map_length; lia].
    rewrite PUT by reflexivity.
    eexists _, _. split; [reflexivity|]. split; [rewrite firstn_length, !app_length, map_length; lia|].
    split; [|discriminate].
    rewrite !app_length, firstn_length, skipn_length, !app_length, !map_length. lia.
  - destruct (RAW eq_refl) as [W1 W2]. rewrite live_map.
    assert (H' := H). rewrite app_assoc in H'.
    replace (length a + length R1) with (length (map Some a ++ R1)) by (rewrite app_length, map_length; lia).
    erewrite write_range_ok; [|exact H'|rewrite !app_length, repeat_length, !map_length; lia].
    rewrite put_mid by (rewrite repeat_length, map_length; reflexivity). cbn [rbind].
    rewrite <- app_assoc.
    set (R := R1 ++ repeat None (length m) ++ R2).
    assert (WR : raw_list R) by (unfold R; apply raw_app; split; [auto|apply raw_app; split; [apply raw_repeat|auto]]).
    assert (LR : length R = length (R1 ++ map Some m ++ R2)).
    { unfold R. rewrite !app_length, repeat_length, map_length. reflexivity. }
    pose proof (slots_store v h p _ (map Some a ++ R) H) as SS.
    destruct (store v h p (map Some a ++ R)) as [v1 h1] eqn:ST. cbn [fst snd] in SS.
    assert (LR' := LR). rewrite !app_length, map_length in LR'.
    erewrite construct_ok; [|exact SS| |].
    + rewrite PUT by exact LR.
      pose proof (store_store v h p _ (map Some a ++ R)
        (map Some a ++ firstn ins R ++ map Some m ++ skipn (ins + length m) R) H) as S2.
      rewrite ST in S2. cbn [fst snd] in S2. rewrite S2.
      eexists _, _. split; [reflexivity|].
      split; [rewrite firstn_length; lia|]. split.
      * rewrite !app_length, firstn_length, skipn_length, !map_length. lia.
      * intros _. split; [apply raw_firstn; auto|apply raw_skipn; auto].
    + rewrite !app_length, !map_length. lia.
    + intros _. apply raw_firstn. rewrite skipn_app, skipn_all2 by (rewrite map_length; lia).
      apply raw_skipn. auto.
Qed.

(** The two memory steps of the in-place path. *)
Lemma hold_mem v h p (a d m q : list A) rest ins :
  slots_at v h p = Ok (map Some (a ++ d ++ m ++ q) ++ rest) ->
  (TRIVIAL e = false -> raw_list rest) ->
  length a + ins + length m <= length (map Some (a ++ d ++ m ++ q) ++ rest) ->
  exists X R',
    (let! (v, h) := (let! (v, h) := destroy_range e v h p (length a) (length d) in
                     destroy_range e v h p (length (a ++ d ++ m ++ q) - length q) (length q)) in
     if ins =? length d then Ok (v, h)
     else mem_move e v h p (length a + ins) p (length a + length d)
            (length (a ++ d ++ m ++ q) - (length a + length d + length q)))
    = Ok (store v h p (map Some a ++ X ++ map Some m ++ R')) /\
    length X = ins /\
    length (map Some a ++ X ++ map Some m ++ R') = length (map Some (a ++ d ++ m ++ q) ++ rest) /\
    (TRIVIAL e = false -> raw_list X /\ raw_list R').
Proof.
  intros H RAW L.
  set (D := if TRIVIAL e then map Some d else repeat None (length d)).
  set (Q := if TRIVIAL e then map Some q else repeat None (length q)).
  assert (LD : length D = length d) by (unfold D; destruct (TRIVIAL e); rewrite ?map_length, ?repeat_length; reflexivity).
  assert (LQ : length Q = length q) by (unfold Q; destruct (TRIVIAL e); rewrite ?map_length, ?repeat_length; reflexivity).
  rewrite !map_app, <- !app_assoc in H, L.
  assert (D1 : destroy_range e v h p (length a) (length d)
     = Ok (store v h p (map Some a ++ D ++ map Some m ++ map Some q ++ rest))).
  { rewrite <- (map_length Some a). apply destroy_mid. exact H. }
  rewrite D1. cbn [rbind].
  pose proof (slots_store v h p _ (map Some a ++ D ++ map Some m ++ map Some q ++ rest) H) as S1.
  pose proof (fun s2 => store_store v h p _ (map Some a ++ D ++ map Some m ++ map Some q ++ rest) s2 H) as SS1.
  destruct (store v h p (map Some a ++ D ++ map Some m ++ map Some q ++ rest)) as [v1 h1].
  cbn [fst snd] in S1, SS1.
  assert (D2 : destroy_range e v1 h1 p (length (a ++ d ++ m ++ q) - length q) (length q)
     = Ok (store v1 h1 p ((map Some a ++ D ++ map Some m) ++ Q ++ rest))).
  { replace (length (a ++ d ++ m ++ q) - length q) with (length (map Some a ++ D ++ map Some m))
      by (rewrite !app_length, !map_length, LD; lia).
    apply destroy_mid. rewrite <- !app_assoc. exact S1. }
  rewrite D2, SS1. rewrite <- !app_assoc. cbn [rbind].
  pose proof (slots_store v h p _ (map Some a ++ D ++ map Some m ++ Q ++ rest) H) as S2.
  pose proof (fun s2 => store_store v h p _ (map Some a ++ D ++ map Some m ++ Q ++ rest) s2 H) as SS2.
  destruct (store v h p (map Some a ++ D ++ map Some m ++ Q ++ rest)) as [v2 h2] eqn:ST2.
  cbn [fst snd] in S2, SS2.
  assert (RAW2 : TRIVIAL e = false -> raw_list D /\ raw_list (Q ++ rest)).
  { intros T. unfold D, Q. rewrite T. split; [apply raw_repeat|]. apply raw_app. split; [apply raw_repeat|auto]. }
  rewrite !app_length, !map_length in L.
  destruct (Nat.eqb_spec ins (length d)) as [->|N].
  - exists D, (Q ++ rest). rewrite ST2. split; [reflexivity|]. split; [exact LD|]. split; [|exact RAW2].
    rewrite ?map_app, <- ?app_assoc, !app_length, !map_length, LD, LQ. lia.
  - destruct (mem_move_same v2 h2 p a m D (Q ++ rest) ins S2 RAW2) as (X & R' & E & LX & LL & RX).
    + rewrite !app_length, !map_length. lia.
    + exists X, R'. rewrite LD in E.
      replace (length (a ++ d ++ m ++ q) - (length a + length d + length q)) with (length m)
        by (rewrite !app_length; lia).
      rewrite E, SS2. split; [reflexivity|]. split; [exact LX|]. split; [|exact RX].
      rewrite LL. rewrite ?map_app, <- ?app_assoc, !app_length, !map_length, LD, LQ. lia.
Qed.
End Mem.
