(* Proofs about JumpModel. *)
Require Import List Arith Bool Lia.
From Verif Require Import JumpSpec JumpModel.

Section Eval.
  Context {St V : Type}.
  Variable op : nat -> V -> V -> St -> St * V.
  Variable truthy : V -> bool.
  Variable nothing : V.
  Variable times : nat -> St -> nat.
  Notation E := (ev op truthy nothing times).

  Lemma bind_out : forall (r : St * res V) k g v,
    snd (bind r k) = Out g v ->
    snd r = Out g v \/ exists x, snd r = Val x /\ snd (k (fst r) x) = Out g v.
  Proof.
    intros [s [x | h x]] k g v H; cbn in *; [right; exists x; auto | left; exact H].
  Qed.

  Lemma out_leaves : forall e s g v, snd (E e s) = Out g v -> leaves_to g e.
  Proof.
    induction e as [| n a IHa b IHb | c IHc a IHa b IHb | a IHa b IHb | a IHa b IHb | n b IHb
                   | a IHa b IHb | h e IHe | h k e IHe]; intros s g v H; cbn in *.
    - discriminate.
    - apply bind_out in H. destruct H as [H | (x & _ & H)]; [left; eauto |].
      apply bind_out in H. destruct H as [H | (y & _ & H)]; [right; eauto | discriminate].
    - apply bind_out in H. destruct H as [H | (x & _ & H)]; [left; eauto |].
      destruct (truthy x); right; [left | right]; eauto.
    - apply bind_out in H. destruct H as [H | (x & _ & H)]; [left; eauto |].
      destruct (truthy x); [right; eauto | discriminate].
    - apply bind_out in H. destruct H as [H | (x & _ & H)]; [left; eauto |].
      destruct (truthy x); [discriminate | right; eauto].
    - revert s H. generalize (times n). intro t. intro s. generalize (t s). clear t.
      intro k. revert s. induction k as [| k IH]; intros s H; cbn in H; [discriminate |].
      apply bind_out in H. destruct H as [H | (x & _ & H)]; eauto.
    - apply bind_out in H. destruct H as [H | (x & _ & H)]; [left | right]; eauto.
    - apply bind_out in H. destruct H as [H | (x & _ & H)]; [right; eauto | cbn in H; inversion H; auto].
    - unfold catch in H. destruct (snd (E e s)) as [x | g' x] eqn:D; [discriminate |].
      destruct (Nat.eqb_spec g' h) as [-> | N]; cbn in H; [discriminate |].
      inversion H; subst. split; eauto.
  Qed.

  Lemma uses_leaves : forall g e, leaves_to g e -> uses g e = true.
  Proof.
    intros g. induction e; cbn; intros H.
    - contradiction.
    - apply orb_true_iff. tauto.
    - rewrite !orb_true_iff. tauto.
    - apply orb_true_iff. tauto.
    - apply orb_true_iff. tauto.
    - auto.
    - apply orb_true_iff. tauto.
    - apply orb_true_iff. destruct H as [-> | H]; [left; apply Nat.eqb_refl | right; auto].
    - tauto.
  Qed.

  Lemma catch_unused : forall h e s, uses h e = false -> catch h (E e s) = E e s.
  Proof.
    intros h e s U. unfold catch. destruct (E e s) as [s' [x | g x]] eqn:D; cbn; [reflexivity |].
    destruct (Nat.eqb_spec g h) as [-> | N]; [| reflexivity].
    exfalso. assert (L : leaves_to h e) by (apply (out_leaves e s h x); rewrite D; reflexivity).
    apply uses_leaves in L. congruence.
  Qed.

  Lemma never_val : forall e s v, never e = true -> snd (E e s) <> Val v.
  Proof.
    induction e as [| n a IHa b IHb | c IHc a IHa b IHb | a IHa b IHb | a IHa b IHb | n b IHb
                   | a IHa b IHb | h e IHe | h k e IHe]; intros s v H; cbn in H; try discriminate; cbn.
    - apply andb_true_iff in H. destruct H as [Ha Hb]. unfold bind.
      destruct (snd (E c s)) as [x | g x]; [| discriminate].
      destruct (truthy x); auto.
    - unfold bind. destruct (snd (E a s)) as [x | g x]; [auto | discriminate].
    - unfold bind. destruct (snd (E e s)) as [x | g x]; discriminate.
    - apply andb_true_iff in H. destruct H as [Hn Hu]. apply negb_true_iff in Hu.
      rewrite catch_unused by exact Hu. auto.
  Qed.

  Lemma bind_jump_never : forall e s (k : St -> V -> St * res V), never e = true -> bind (E e s) k = E e s.
  Proof.
    intros e s k N. unfold bind. destruct (E e s) as [s' [x | g x]] eqn:D; cbn; [| reflexivity].
    exfalso. apply (never_val e s x N). rewrite D. reflexivity.
  Qed.

  Lemma inject_eq : forall h e, inject h e =
    if never e then e else
    match e with
    | Block g k e0 => if uses g e0 then Jump h e else Block g k (inject h e0)
    | Seq a b => Seq a (inject h b)
    | If c a b => If c (inject h a) (inject h b)
    | _ => Jump h e
    end.
  Proof. intros h e. destruct e; reflexivity. Qed.

  Lemma inject_ok : forall h e n s, h < n -> numbered n e -> E (inject h e) s = E (Jump h e) s.
  Proof.
    intros h.
    induction e as [| m a IHa b IHb | c IHc a IHa b IHb | a IHa b IHb | a IHa b IHb | m b IHb
                   | a IHa b IHb | g e IHe | g k e IHe]; intros n s L W;
      rewrite inject_eq;
      match goal with |- context [if ?x then _ else _] => destruct x eqn:N end;
      try (cbn [ev]; symmetry; apply (bind_jump_never _ s _ N)); try reflexivity.
    - cbn [numbered] in W. destruct W as (Wc & Wa & Wb). cbn [ev].
      unfold bind. destruct (E c s) as [s' [x | g x]]; cbn [fst snd]; [| reflexivity].
      destruct (truthy x); [rewrite (IHa n s' L Wa) | rewrite (IHb n s' L Wb)]; reflexivity.
    - cbn [numbered] in W. destruct W as (Wa & Wb). cbn [ev].
      unfold bind. destruct (E a s) as [s' [x | g x]]; cbn [fst snd]; [| reflexivity].
      rewrite (IHb n s' L Wb); reflexivity.
    - cbn [numbered] in W. destruct W as (Wg & We).
      destruct (uses g e) eqn:U; [reflexivity |].
      cbn [ev]. rewrite (catch_unused g e s U).
      rewrite (IHe (S g) s) by (assumption || lia). cbn [ev].
      unfold catch. destruct (E e s) as [s' [x | g' x]] eqn:D; cbn.
      + destruct (Nat.eqb_spec h g); [lia | reflexivity].
      + destruct (Nat.eqb_spec g' g) as [-> | ?]; [| reflexivity].
        exfalso. assert (Q : leaves_to g e) by (apply (out_leaves e s g x); rewrite D; reflexivity).
        apply uses_leaves in Q. congruence.
  Qed.
End Eval.

Lemma numbered_inject : forall h e n, numbered n e -> numbered n (inject h e).
Proof.
  intros h. induction e; intros m W; rewrite inject_eq;
    match goal with |- context [if ?x then _ else _] => destruct x eqn:N end; try exact W; cbn in *.
  - destruct W as (A & B & C). repeat split; auto.
  - destruct W as (A & B). split; auto.
  - destruct (uses h0 e); cbn; [exact W |]. destruct W. split; auto.
Qed.

Lemma numbered_mono : forall e n m, m <= n -> numbered n e -> numbered m e.
Proof.
  induction e; cbn; intros p q L W; try exact I.
  - destruct W; split; eauto.
  - destruct W as (A & B & C). repeat split; eauto.
  - destruct W; split; eauto.
  - destruct W; split; eauto.
  - eauto.
  - destruct W; split; eauto.
  - eauto.
  - destruct W; split; [lia | assumption].
Qed.

Lemma finish_cases : forall h k e,
  finish h k e = Block h k (splice e) \/ (finish h k e = e /\ uses h e = false /\ k = Plain).
Proof.
  intros h k e. unfold finish. destruct k; auto.
  destruct (single e); cbn; auto. destruct (uses h e); auto.
Qed.

Lemma numbered_splice : forall e n, numbered n e -> numbered n (splice e).
Proof.
  induction e; intros m W; cbn in *; try exact W.
  - destruct W; split; auto.
  - destruct k; try exact W. destruct (uses h e); [exact W |].
    destruct W. eapply numbered_mono; [| eassumption]. lia.
Qed.

Lemma splice_ok : forall (St V : Type) (op : nat -> V -> V -> St -> St * V) truthy nothing times e s,
  ev op truthy nothing times (splice e) s = ev op truthy nothing times e s.
Proof.
  intros St V op truthy nothing times. induction e; intros s; try reflexivity.
  - cbn. unfold bind. destruct (snd _); [apply IHe2 | reflexivity].
  - cbn. destruct k; try reflexivity. destruct (uses h e) eqn:U; [reflexivity |].
    symmetry. apply catch_unused. exact U.
Qed.

Lemma numbered_finish : forall h k e n, n <= h -> numbered (S h) e -> numbered n (finish h k e).
Proof.
  intros h k e n L W. destruct (finish_cases h k e) as [-> | [-> _]].
  - cbn. split; [exact L | apply numbered_splice; exact W].
  - eapply numbered_mono; [| exact W]. lia.
Qed.

Lemma simp_seq : forall K outer a b,
  simp K outer (Seq a b) = Seq (simp None outer a) (simp K outer b) \/
  (exists a0 c, a = And a0 c /\ never c = true /\
    simp K outer (Seq a b) = If (simp None outer a0) (simp K outer c) (simp K outer b)) \/
  (exists a0 c, a = Or a0 c /\ never c = true /\
    simp K outer (Seq a b) = If (simp None outer a0) (simp K outer b) (simp K outer c)).
Proof.
  intros K outer a b. cbn [simp]. destruct a; auto.
  - destruct (never a2) eqn:N; [right; left; eauto | left; reflexivity].
  - destruct (never a2) eqn:N; [right; right; eauto | left; reflexivity].
Qed.

(* induction that also reaches the operands of an item *)
Fixpoint size (e : ex) : nat :=
  match e with
  | Empty => 1
  | Op _ a b | And a b | Or a b | Seq a b => S (size a + size b)
  | If c a b => S (size c + size a + size b)
  | Rep _ b => S (size b)
  | Jump _ e0 => S (size e0)
  | Block _ _ e0 => S (size e0)
  end.

Lemma ex_big : forall P : ex -> Prop,
  (forall e, (forall e', size e' < size e -> P e') -> P e) -> forall e, P e.
Proof.
  intros P H. assert (Q : forall n e, size e < n -> P e).
  { induction n as [| n IH]; intros e L; [lia |]. apply H. intros e' L'. apply IH. lia. }
  intro e. apply (Q (S (size e))). lia.
Qed.

Ltac split_ex IH e :=
  destruct e as [| m a b | c a b | a b | a b | m b | a b | h e | h k e];
  [| pose proof (IH a ltac:(cbn; lia)) as IHa; pose proof (IH b ltac:(cbn; lia)) as IHb
   | pose proof (IH c ltac:(cbn; lia)) as IHc; pose proof (IH a ltac:(cbn; lia)) as IHa; pose proof (IH b ltac:(cbn; lia)) as IHb
   | pose proof (IH a ltac:(cbn; lia)) as IHa; pose proof (IH b ltac:(cbn; lia)) as IHb
   | pose proof (IH a ltac:(cbn; lia)) as IHa; pose proof (IH b ltac:(cbn; lia)) as IHb
   | pose proof (IH b ltac:(cbn; lia)) as IHb
   | pose proof (IH a ltac:(cbn; lia)) as IHa; pose proof (IH b ltac:(cbn; lia)) as IHb
   | pose proof (IH e ltac:(cbn; lia)) as IHe
   | pose proof (IH e ltac:(cbn; lia)) as IHe].

Lemma numbered_simp : forall e n kills outer, numbered n e -> numbered n (simp kills outer e).
Proof.
  intro e. pattern e. apply ex_big. clear e. intros e IH.
  split_ex IH e; intros n kills outer W.
  - exact I.
  - cbn in *. destruct W; split; auto.
  - cbn in *. destruct W as (A & B & C). repeat split; auto.
  - cbn in *. destruct W; split; auto.
  - cbn in *. destruct W; split; auto.
  - cbn in *. auto.
  - destruct (simp_seq kills outer a b) as [-> | [(a0 & c & -> & N & ->) | (a0 & c & -> & N & ->)]]; cbn in W.
    + destruct W; cbn; split; auto.
    + destruct W as ((A & B) & C). cbn. repeat split; auto; apply IH; auto; cbn; lia.
    + destruct W as ((A & B) & C). cbn. repeat split; auto; apply IH; auto; cbn; lia.
  - cbn [numbered simp] in *. destruct (redundant kills _); [auto | apply numbered_inject; auto].
  - cbn [numbered simp] in *. destruct W as [A B]. apply numbered_finish; auto.
Qed.

(* where a jump to g goes, one step *)
Definition goes (outer : nat -> option nat) (g : nat) : nat :=
  match outer g with Some k => k | None => g end.

Record Inv (n : nat) (K : option nat) (outer : nat -> option nat) (e : ex) : Prop := {
  inv_outer : forall g k, outer g = Some k -> k < g /\ g < n /\ outer k = None;
  inv_kills : forall k, K = Some k -> k < n /\ outer k = None;
  inv_free  : forall g, leaves_to g e -> g < n;
  inv_le    : forall k g, K = Some k -> leaves_to g e -> goes outer g <= k;
  inv_mono  : forall a b, leaves_to a e -> leaves_to b e -> a <= b -> goes outer a <= goes outer b
}.

Lemma chase_goes : forall n K outer e g, Inv n K outer e -> chase (S g) outer g = goes outer g.
Proof.
  intros n K outer e g I. unfold goes. cbn [chase]. destruct (outer g) as [k |] eqn:D; [| reflexivity].
  destruct (inv_outer _ _ _ _ I g k D) as (A & B & C).
  destruct g as [| g]; [lia |]. cbn [chase]. rewrite C. reflexivity.
Qed.

Lemma goes_le : forall n K outer e g, Inv n K outer e -> goes outer g <= g.
Proof.
  intros n K outer e g I. unfold goes. destruct (outer g) as [k |] eqn:D; [| lia].
  destruct (inv_outer _ _ _ _ I g k D) as (A & B & C). lia.
Qed.

Lemma Inv_part : forall n K outer e e' K',
  Inv n K outer e -> (forall g, leaves_to g e' -> leaves_to g e) -> K' = K \/ K' = None ->
  Inv n K' outer e'.
Proof.
  intros n K outer e e' K' [A B C D F] S HK. split; auto.
  - intros k Hk. destruct HK as [-> | ->]; [auto | discriminate].
  - intros k g Hk. destruct HK as [-> | ->]; [intros; eauto | discriminate].
Qed.

Lemma Inv_jump : forall n K outer h e,
  Inv n K outer (Jump h e) -> (forall g, leaves_to g e -> g <= h) ->
  Inv n (Some (goes outer h)) outer e.
Proof.
  intros n K outer h e I O. pose proof I as [A B C D F]. cbn in *. split; auto.
  - intros k Hk. inversion Hk; subst k. pose proof (goes_le _ _ _ _ h I) as L.
    assert (h < n) by (apply C; auto). split; [lia |].
    unfold goes. destruct (outer h) as [k |] eqn:Q; [| exact Q]. apply A in Q. tauto.
  - intros k g Hk Hg. inversion Hk; subst k. apply F; auto.
Qed.

Lemma Inv_block : forall n K outer h k e,
  Inv n K outer (Block h k e) -> n <= h ->
  Inv (S h) (tail_kills k K h) (fun g => if Nat.eqb g h then K else outer g) e.
Proof.
  intros n K outer h kd e I L. pose proof I as [A B C D F]. cbn in C, D, F.
  assert (G1 : forall g, g < n -> (if Nat.eqb g h then K else outer g) = outer g).
  { intros g Hg. destruct (Nat.eqb_spec g h); [lia | reflexivity]. }
  assert (G2 : forall g, g < n -> goes (fun g => if Nat.eqb g h then K else outer g) g = goes outer g).
  { intros g Hg. unfold goes. rewrite (G1 g Hg). reflexivity. }
  assert (Gh : goes (fun g => if Nat.eqb g h then K else outer g) h = match K with Some k => k | None => h end).
  { unfold goes. rewrite Nat.eqb_refl. reflexivity. }
  assert (Fr : forall g, leaves_to g e -> g = h \/ (g <> h /\ g < n)).
  { intros g Hg. destruct (Nat.eq_dec g h); [auto | right; split; auto]. }
  assert (X : forall k g, K = Some k -> leaves_to g e ->
    goes (fun g => if Nat.eqb g h then K else outer g) g <= k).
  { intros k g Hk Hg. destruct (Fr g Hg) as [-> | [Ne Lt]].
    - rewrite Gh, Hk. lia.
    - rewrite G2 by exact Lt. apply D; auto. }
  split.
  - intros g k Hg. cbv beta in *. destruct (Nat.eqb_spec g h) as [-> | Ne].
    + destruct (B k Hg) as [Bk Bo]. repeat split; try lia. rewrite (G1 k Bk). exact Bo.
    + destruct (A g k Hg) as (A1 & A2 & A3). repeat split; try lia. rewrite G1 by lia. exact A3.
  - intros k Hk. assert (T : K = Some k \/ (K = None /\ k = h)).
    { unfold tail_kills in Hk. destruct kd; try discriminate; destruct K; inversion Hk; auto. }
    destruct T as [T | [T ->]].
    + destruct (B k T) as [Bk Bo]. split; [lia |]. rewrite (G1 k Bk). exact Bo.
    + split; [lia |]. rewrite Nat.eqb_refl. exact T.
  - intros g Hg. destruct (Fr g Hg); lia.
  - intros k g Hk Hg. assert (T : K = Some k \/ (K = None /\ k = h)).
    { unfold tail_kills in Hk. destruct kd; try discriminate; destruct K; inversion Hk; auto. }
    destruct T as [T | [T ->]]; [apply X; auto |].
    destruct (Fr g Hg) as [-> | [Ne Lt]].
    + rewrite Gh, T. lia.
    + rewrite G2 by exact Lt. pose proof (goes_le _ _ _ _ g I). lia.
  - intros a b Ha Hb Hab. destruct (Fr b Hb) as [-> | [Nb Lb]].
    + rewrite Gh. destruct K as [k |] eqn:EK; [apply X; auto |].
      destruct (Fr a Ha) as [-> | [Na La]]; [rewrite Gh; lia |].
      rewrite G2 by exact La. pose proof (goes_le _ _ _ _ a I). lia.
    + destruct (Fr a Ha) as [-> | [Na La]]; [lia |].
      rewrite !G2 by assumption. apply F; auto.
Qed.

Section Sound.
  Context {St V : Type}.
  Variable op : nat -> V -> V -> St -> St * V.
  Variable truthy : V -> bool.
  Variable nothing : V.
  Variable times : nat -> St -> nat.
  Notation E := (ev op truthy nothing times).

  (* finishing, and jumping to the block whose value this is, is the same *)
  Definition view (K : option nat) (c : nat -> nat) (r : St * res V) : St * res V :=
    (fst r, match snd r with
            | Val v => match K with Some k => Out k v | None => Val v end
            | Out g v => Out (c g) v
            end).

  Lemma view_bind : forall K c (r r' : St * res V) k k',
    view None c r = view None (fun g => g) r' ->
    (forall s x, view K c (k s x) = view K (fun g => g) (k' s x)) ->
    view K c (bind r k) = view K (fun g => g) (bind r' k').
  Proof.
    intros K c [s x] [s' x'] k k' H HK. unfold view in H. cbn in H. inversion H; subst s'.
    unfold bind; cbn [fst snd].
    destruct x as [v | g v], x' as [v' | g' v']; try discriminate.
    - inversion H2; subst. apply HK.
    - inversion H2; subst. reflexivity.
  Qed.

  Theorem simp_view : forall e n K outer s,
    numbered n e -> outward e -> Inv n K outer e ->
    view K (goes outer) (E e s) = view K (fun g => g) (E (simp K outer e) s).
  Proof.
    intro e. pattern e. apply ex_big. clear e. intros e IH.
    split_ex IH e; intros n K outer s W O I.
    - reflexivity.
    - cbn in W, O. destruct W as [Wa Wb], O as [Oa Ob]. cbn [simp ev].
      apply view_bind; [apply IHa with (n := n); auto; eapply Inv_part; eauto; cbn; auto |].
      intros s1 x. apply view_bind; [apply IHb with (n := n); auto; eapply Inv_part; eauto; cbn; auto |].
      reflexivity.
    - cbn in W, O. destruct W as (Wc & Wa & Wb), O as (Oc & Oa & Ob). cbn [simp ev].
      apply view_bind; [apply IHc with (n := n); auto; eapply Inv_part; eauto; cbn; auto |].
      intros s1 x. destruct (truthy x).
      + apply IHa with (n := n); auto. eapply Inv_part; eauto; cbn; auto.
      + apply IHb with (n := n); auto. eapply Inv_part; eauto; cbn; auto.
    - cbn in W, O. destruct W as [Wa Wb], O as [Oa Ob]. cbn [simp ev].
      apply view_bind; [apply IHa with (n := n); auto; eapply Inv_part; eauto; cbn; auto |].
      intros s1 x. destruct (truthy x); [| reflexivity].
      assert (Q : view None (goes outer) (E b s1) = view None (fun g => g) (E (simp None outer b) s1)).
      { apply IHb with (n := n); auto. eapply Inv_part; eauto; cbn; auto. }
      revert Q. unfold view. destruct (E b s1) as [s2 [v | g v]], (E (simp None outer b) s1) as [s2' [v' | g' v']];
        cbn; intro Q; inversion Q; reflexivity.
    - cbn in W, O. destruct W as [Wa Wb], O as [Oa Ob]. cbn [simp ev].
      apply view_bind; [apply IHa with (n := n); auto; eapply Inv_part; eauto; cbn; auto |].
      intros s1 x. destruct (truthy x); [reflexivity |].
      assert (Q : view None (goes outer) (E b s1) = view None (fun g => g) (E (simp None outer b) s1)).
      { apply IHb with (n := n); auto. eapply Inv_part; eauto; cbn; auto. }
      revert Q. unfold view. destruct (E b s1) as [s2 [v | g v]], (E (simp None outer b) s1) as [s2' [v' | g' v']];
        cbn; intro Q; inversion Q; reflexivity.
    - cbn in W, O. cbn [simp ev].
      assert (Q : forall s, view None (goes outer) (E b s) = view None (fun g => g) (E (simp None outer b) s)).
      { intro s1. apply IHb with (n := n); auto. eapply Inv_part; eauto; cbn; auto. }
      generalize (times m s). intro t. revert s. induction t as [| t IHt]; intros s; cbn [again]; [reflexivity |].
      apply view_bind; [apply Q |]. intros; apply IHt.
    - destruct (simp_seq K outer a b) as [-> | [(a0 & c & -> & N & ->) | (a0 & c & -> & N & ->)]]; cbn in W, O.
      + destruct W as [Wa Wb], O as [Oa Ob]. cbn [ev].
        apply view_bind; [apply IHa with (n := n); auto; eapply Inv_part; eauto; cbn; auto |].
        intros s1 x. apply IHb with (n := n); auto. eapply Inv_part; eauto; cbn; auto.
      + destruct W as ((Wa & Wc) & Wb), O as ((Oa & Oc) & Ob). cbn [ev].
        transitivity (view K (goes outer) (bind (E a0 s) (fun s1 x => if truthy x then E c s1 else E b s1))).
        { f_equal. unfold bind. destruct (E a0 s) as [s1 [x | g x]]; cbn [fst snd]; [| reflexivity].
          destruct (truthy x); [| reflexivity].
          apply (bind_jump_never op truthy nothing times c s1 (fun s2 _ => E b s2) N). }
        apply view_bind.
        * apply IH with (n := n); auto; [cbn; lia |]. eapply Inv_part; eauto; cbn; auto.
        * intros s1 x. destruct (truthy x).
          -- apply IH with (n := n); auto; [cbn; lia |]. eapply Inv_part; eauto; cbn; auto.
          -- apply IHb with (n := n); auto. eapply Inv_part; eauto; cbn; auto.
      + destruct W as ((Wa & Wc) & Wb), O as ((Oa & Oc) & Ob). cbn [ev].
        transitivity (view K (goes outer) (bind (E a0 s) (fun s1 x => if truthy x then E b s1 else E c s1))).
        { f_equal. unfold bind. destruct (E a0 s) as [s1 [x | g x]]; cbn [fst snd]; [| reflexivity].
          destruct (truthy x); [reflexivity |].
          apply (bind_jump_never op truthy nothing times c s1 (fun s2 _ => E b s2) N). }
        apply view_bind.
        * apply IH with (n := n); auto; [cbn; lia |]. eapply Inv_part; eauto; cbn; auto.
        * intros s1 x. destruct (truthy x).
          -- apply IHb with (n := n); auto. eapply Inv_part; eauto; cbn; auto.
          -- apply IH with (n := n); auto; [cbn; lia |]. eapply Inv_part; eauto; cbn; auto.
    - cbn in W, O. destruct O as [Oh Oe]. cbn [simp].
      rewrite (chase_goes n K outer _ h I).
      destruct (redundant K (goes outer h)) eqn:R.
      + unfold redundant in R. destruct K as [k |]; [| discriminate].
        apply Nat.leb_le in R.
        assert (R' : goes outer h <= k) by (apply (inv_le _ _ _ _ I k h); [reflexivity | cbn; auto]).
        assert (G : goes outer h = k) by lia.
        rewrite <- (IHe n (Some k) outer s); auto.
        * cbn [ev]. unfold bind, view. destruct (E e s) as [s' [v | g v]]; cbn; congruence.
        * eapply Inv_part; eauto. cbn; auto.
      + assert (I' := Inv_jump _ _ _ _ _ I Oh).
        assert (Ln : goes outer h < n) by (apply (inv_kills _ _ _ _ I' _ eq_refl)).
        rewrite (inject_ok op truthy nothing times _ _ n s Ln (numbered_simp _ _ _ _ W)).
        assert (Q := IHe n _ outer s W Oe I'). cbn [ev].
        revert Q. unfold bind, view.
        destruct (E e s) as [s1 [v | g v]], (E (simp (Some (goes outer h)) outer e) s) as [s1' [v' | g' v']];
          cbn; intro Q; inversion Q; subst; reflexivity.
    - cbn in W, O. destruct W as [Wh We]. cbn [simp].
      set (outer' := fun g => if Nat.eqb g h then K else outer g).
      assert (I' : Inv (S h) (tail_kills k K h) outer' e) by (apply (Inv_block n); auto).
      assert (Q := IHe (S h) _ outer' s We O I').
      set (e1 := simp (tail_kills k K h) outer' e) in *.
      assert (U : E (finish h k e1) s = catch h (E e1 s)).
      { destruct (finish_cases h k e1) as [-> | (-> & Z & _)].
        - cbn [ev]. rewrite splice_ok. reflexivity.
        - symmetry. apply catch_unused. exact Z. }
      rewrite U. cbn [ev].
      assert (GO : forall g v, snd (E e s) = Out g v -> g <> h -> goes outer' g = goes outer g /\ goes outer g < h).
      { intros g v D Ne. assert (Lv : leaves_to g (Block h k e)) by (split; [exact Ne | eapply out_leaves; eauto]).
        pose proof (inv_free _ _ _ _ I g Lv). pose proof (goes_le _ _ _ _ g I). split; [| lia].
        unfold goes, outer'. destruct (Nat.eqb_spec g h); [lia | reflexivity]. }
      assert (Gh : goes outer' h = match K with Some k => k | None => h end).
      { unfold goes, outer'. rewrite Nat.eqb_refl. reflexivity. }
      assert (HK : forall k0, K = Some k0 -> k0 < h).
      { intros k0 Hk. pose proof (inv_kills _ _ _ _ I k0 Hk). lia. }
      assert (T : tail_kills k K h = None \/ tail_kills k K h = Some (match K with Some k => k | None => h end)).
      { unfold tail_kills. destruct k, K; auto. }
      revert Q. unfold view, catch.
      destruct (E e s) as [s1 [v | g v]] eqn:D1, (E e1 s) as [s2 [v' | g' v']] eqn:D2; cbn [fst snd].
      + intro Q. destruct T as [T | T]; rewrite T in Q; inversion Q; subst; reflexivity.
      + intro Q. destruct T as [T | T]; rewrite T in Q; inversion Q; subst.
        destruct K as [k0 |]; [| rewrite Nat.eqb_refl; reflexivity].
        pose proof (HK k0 eq_refl). destruct (Nat.eqb_spec k0 h); [lia | reflexivity].
      + intro Q. destruct (Nat.eqb_spec g h) as [-> | Ne]; cbn [fst snd].
        * rewrite Gh in Q. destruct T as [T | T]; rewrite T in Q; inversion Q; subst; reflexivity.
        * destruct (GO g v eq_refl Ne) as [G1 G2]. rewrite G1 in Q.
          destruct T as [T | T]; rewrite T in Q; inversion Q; subst.
          destruct K as [k0 |]; [f_equal; f_equal; congruence | lia].
      + intro Q. destruct (Nat.eqb_spec g h) as [-> | Ne]; cbn [fst snd].
        * rewrite Gh in Q. inversion Q; subst.
          destruct K as [k0 |]; [| rewrite Nat.eqb_refl; reflexivity].
          pose proof (HK k0 eq_refl). destruct (Nat.eqb_spec k0 h); [lia | reflexivity].
        * destruct (GO g v eq_refl Ne) as [G1 G2]. rewrite G1 in Q. inversion Q; subst.
          destruct (Nat.eqb_spec (goes outer g) h); [lia | reflexivity].
  Qed.
End Sound.

Lemma simplify_same : forall e, program e -> outward e -> same e (simplify e).
Proof.
  intros e [W C] O St V op truthy nothing times s.
  assert (I : Inv 0 None (fun _ => None) e).
  { split; try discriminate; intros; exfalso; eapply C; eauto. }
  pose proof (simp_view op truthy nothing times e 0 None (fun _ => None) s W O I) as Q.
  unfold simplify. revert Q. unfold view.
  destruct (ev op truthy nothing times e s) as [s1 [v | g v]],
           (ev op truthy nothing times (simp None (fun _ => None) e) s) as [s2 [v' | g' v']];
    cbn; intro Q; inversion Q; subst; reflexivity.
Qed.

Lemma ends_inject : forall h g e, ends_in g (inject h e) -> g = h \/ ends_in g e.
Proof.
  intros h g. induction e; rewrite inject_eq;
    match goal with |- context [if ?x then _ else _] => destruct x eqn:N end; auto; cbn.
  - tauto.
  - destruct (uses h0 e); cbn; [auto |]. destruct k; tauto.
Qed.

Lemma tidy_inject : forall h e n, h < n -> numbered n e -> tidy e -> tidy (inject h e).
Proof.
  intros h. induction e; intros m L W T; rewrite inject_eq;
    match goal with |- context [if ?x then _ else _] => destruct x eqn:N end; auto; cbn in *.
  - destruct W as (A & B & C), T as (A' & B' & C'). repeat split; eauto.
  - destruct W as (A & B), T as (A' & B'). repeat split; eauto.
  - destruct (uses h0 e); cbn; [auto |]. destruct W as (A & B), T as (A' & B').
    split; [apply (IHe (S h0)); auto; lia |].
    intros Hk H. apply ends_inject in H. destruct H; [lia | apply B'; auto].
Qed.

Lemma chase_le : forall outer, (forall g k, outer g = Some k -> k < g) ->
  forall fuel h, chase fuel outer h <= h.
Proof.
  intros outer A. induction fuel as [| fuel IH]; intros h; cbn; [lia |].
  destruct (outer h) as [k |] eqn:D; [| lia]. apply A in D. specialize (IH k). lia.
Qed.

Lemma ends_splice : forall g e, ends_in g (splice e) -> ends_in g e.
Proof.
  intros g. induction e; cbn; auto.
  destruct k; cbn; auto. destruct (uses h e); cbn; auto.
Qed.

Lemma tidy_splice : forall e, tidy e -> tidy (splice e).
Proof.
  induction e; cbn; intros T; auto.
  - destruct T; split; auto.
  - destruct k; cbn; auto. destruct (uses h e); cbn; tauto.
Qed.

Lemma simp_tidy : forall e n K outer,
  numbered n e -> (forall g, leaves_to g e -> g < n) ->
  (forall g k, outer g = Some k -> k < g) -> (forall k, K = Some k -> k < n) ->
  tidy (simp K outer e) /\ (forall k g, K = Some k -> ends_in g (simp K outer e) -> g < k).
Proof.
  intro e. pattern e. apply ex_big. clear e. intros e IH.
  split_ex IH e; intros n K outer W F A B.
  - cbn. tauto.
  - cbn in *. destruct W. split; [| tauto].
    split; [apply (IHa n) | apply (IHb n)]; auto; discriminate.
  - cbn in *. destruct W as (Wc & Wa & Wb).
    destruct (IHa n K outer) as [Ta Ea]; auto. destruct (IHb n K outer) as [Tb Eb]; auto.
    repeat split; auto.
    + apply (IHc n); auto; discriminate.
    + intros k g Hk [H | H]; eauto.
  - cbn in *. destruct W. split; [| tauto].
    split; [apply (IHa n) | apply (IHb n)]; auto; discriminate.
  - cbn in *. destruct W. split; [| tauto].
    split; [apply (IHa n) | apply (IHb n)]; auto; discriminate.
  - cbn in *. split; [| tauto]. apply (IHb n); auto; discriminate.
  - destruct (simp_seq K outer a b) as [-> | [(a0 & c & -> & N & ->) | (a0 & c & -> & N & ->)]]; cbn in W, F |- *.
    + destruct W as (Wa & Wb).
      destruct (IHb n K outer) as [Tb Eb]; auto.
      split; [split; [apply (IHa n); auto; discriminate | auto] | eauto].
    + destruct W as ((Wa & Wc) & Wb).
      destruct (IHb n K outer) as [Tb Eb]; auto.
      destruct (IH c ltac:(cbn; lia) n K outer) as [Tc Ec]; auto.
      destruct (IH a0 ltac:(cbn; lia) n None outer) as [Ta _]; auto; try discriminate.
      repeat split; auto. intros k g Hk [H | H]; eauto.
    + destruct W as ((Wa & Wc) & Wb).
      destruct (IHb n K outer) as [Tb Eb]; auto.
      destruct (IH c ltac:(cbn; lia) n K outer) as [Tc Ec]; auto.
      destruct (IH a0 ltac:(cbn; lia) n None outer) as [Ta _]; auto; try discriminate.
      repeat split; auto. intros k g Hk [H | H]; eauto.
  - cbn in W, F. cbn [simp]. pose proof (chase_le outer A (S h) h) as L.
    set (h' := chase (S h) outer h) in *. assert (h < n) by (apply F; auto).
    destruct (redundant K h') eqn:R.
    + apply (IHe n); auto.
    + destruct (IHe n (Some h') outer) as [T X]; auto.
      { intros k Hk. inversion Hk; subst. lia. }
      split.
      * apply (tidy_inject _ _ n); [lia | apply numbered_simp; auto | auto].
      * intros k g Hk Hg. subst K. unfold redundant in R. apply Nat.leb_gt in R.
        apply ends_inject in Hg. destruct Hg as [-> | Hg]; [lia |].
        specialize (X h' g eq_refl Hg). lia.
  - cbn in W, F. cbn [simp]. destruct W as [Wh We].
    assert (TK : forall q, tail_kills k K h = Some q -> q <= h).
    { intros q Hq. unfold tail_kills in Hq. destruct k; try discriminate; destruct K as [k0 |]; inversion Hq; subst;
        try lia; specialize (B q eq_refl); lia. }
    destruct (IHe (S h) (tail_kills k K h) (fun g => if Nat.eqb g h then K else outer g)) as [T X]; auto.
    { intros g Hg. destruct (Nat.eq_dec g h); [lia |]. specialize (F g (conj n0 Hg)). lia. }
    { intros g q Hg. cbv beta in Hg. destruct (Nat.eqb_spec g h) as [-> | Ne]; [| eauto].
      specialize (B q Hg). lia. }
    { intros q Hq. apply TK in Hq. lia. }
    set (e1 := simp _ _ e) in *.
    assert (NE : k <> ValueFn -> exists q, tail_kills k K h = Some q /\ (forall k0, K = Some k0 -> q = k0)).
    { intro Hk. unfold tail_kills. destruct k; try congruence; destruct K as [k0 |]; eexists; split; try reflexivity;
        intros ? Hx; inversion Hx; reflexivity. }
    assert (EndB : k <> ValueFn -> forall k0 g, K = Some k0 -> ends_in g e1 -> g < k0).
    { intros Hk k0 g H0 Hg. destruct (NE Hk) as (q & Hq & Q). rewrite <- (Q k0 H0). eauto. }
    destruct (finish_cases h k e1) as [D | (D & _ & ->)].
    + rewrite D. split.
      * cbn. split; [apply tidy_splice; exact T |]. intros Hk Hg. apply ends_splice in Hg.
        destruct (NE Hk) as (q & Hq & _).
        specialize (X q h Hq Hg). apply TK in Hq. lia.
      * cbn. intros k0 g H0 Hg. destruct k; [| | contradiction];
          apply ends_splice in Hg; apply (EndB ltac:(discriminate) k0 g H0 Hg).
    + rewrite D. split; [exact T |]. intros k0 g H0 Hg.
      apply (EndB ltac:(discriminate) k0 g H0 Hg).
Qed.

Lemma simplify_tidy : forall e, program e -> tidy (simplify e).
Proof.
  intros e [W C]. apply (simp_tidy e 0); auto; try discriminate.
  intros g Hg. destruct (C g Hg).
Qed.
