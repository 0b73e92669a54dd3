(** C04: the packed vec representation is unambiguous. *)
From Verif Require Import VecPack VecPackProofs ArcModel ArcProofs WordsLemmas.
Open Scope Z_scope.

(** Writing a heap representation: every capacity the allocator hands out for a
    vec of [n] elements (n more than fit inline), after the one-slot adjustment of
    vec.h:104-118, packs into a control word that is read back as not inline, as
    exactly that capacity, at least [n], at most what was allocated; marking it
    shared makes capa() negative, keeps the masked capacity, and marking it unique
    again restores the word. *)
Theorem packed_big_roundtrip :
  forall e n got,
    0 < esz e < 2 ^ 31 -> SMALL_CAPA e < n < 2 ^ 31 - 1 ->
    alloc_count (SHAREABLE e) (esz e) (n + Z.b2z (HAS_SMALL e)) = Ok got ->
    let c := if HAS_SMALL e then looks_big e got else got in
    let p := pack e c in
    n <= c <= got /\
    word 32 p /\ is_small e p = false /\ vsize e p n = n /\
    capa e p = c /\ shared_capa e p = c /\
    (SHAREABLE e = true ->
     let q := mark_shared e p in
     word 32 q /\ is_small e q = false /\ vsize e q n = n /\
     capa e q < 0 /\ shared_capa e q = c /\
     mark_shared e q = q /\ mark_unique e q = p).
Proof.
  intros e n got He Hn HA c p.
  pose proof (SMALL_CAPA_range e ltac:(lia)) as SC.
  assert (Hc : 0 < n + Z.b2z (HAS_SMALL e) < 2 ^ 31) by (destruct (HAS_SMALL e); cbn; lia).
  destruct (alloc_count_any (SHAREABLE e) (esz e) _ He Hc) as [X|(m & E & L & _)];
    [congruence|]. rewrite HA in E. injection E as <-.
  assert (B : big_ok e c /\ n <= c <= got).
  { unfold c, big_ok. destruct (HAS_SMALL e) eqn:HS; cbn in L.
    - destruct (looks_big_spec e got HS ltac:(lia)) as [O M].
      split; [split|]; try (intros _; exact M); lia.
    - split; [split; [lia|discriminate]|lia]. }
  destruct B as [B LC].
  assert (P : p = bigword e c false) by reflexivity. rewrite P.
  pose proof (bigword_not_small e c false ltac:(lia) B) as NS.
  split; [exact LC|]. split; [apply pack_word; unfold word; change (2 ^ 32) with (2 ^ 31 + 2 ^ 31); lia|].
  split; [exact NS|]. split; [unfold vsize; rewrite NS; reflexivity|].
  split; [exact (capa_bigword e c false ltac:(lia) B)|].
  split; [apply shared_capa_bigword; auto; lia|].
  intros SH q. unfold q. rewrite mark_shared_bigword by (auto; lia).
  pose proof (bigword_not_small e c true ltac:(lia) B) as NS2.
  split; [apply pack_word; unfold word; change (2 ^ 32) with (2 ^ 31 + 2 ^ 31); lia|].
  split; [exact NS2|]. split; [unfold vsize; rewrite NS2; reflexivity|].
  split; [rewrite capa_bigword by (auto; lia); lia|].
  split; [apply shared_capa_bigword; auto; try lia; congruence|].
  split; [apply mark_shared_bigword; auto; lia|].
  apply mark_unique_bigword; auto; try lia; congruence.
Qed.
Print Assumptions packed_big_roundtrip.

(** Two heap representations with the same control word have the same capacity and
    the same sharing flag. *)
Theorem packed_big_injective :
  forall e c sh c' sh',
    0 < esz e -> big_ok e c -> big_ok e c' ->
    bigword e c sh = bigword e c' sh' -> c = c' /\ sh = sh'.
Proof. intros; eapply bigword_inj; eauto. Qed.
Print Assumptions packed_big_injective.

(** Writing an inline representation: whatever the struct held before, after
    storing inline size [n] it reads as inline, of size [n], with the inline
    capacity; and a vec that reads as inline is never one that was written as a
    heap representation. *)
Theorem packed_small_roundtrip :
  forall e p n bigsize,
    0 < esz e -> HAS_SMALL e = true -> word 32 p -> 0 <= n <= SMALL_CAPA e ->
    let q := write_small e p n in
    is_small e q = true /\ vsize e q bigsize = n /\ capa e q = SMALL_CAPA e /\
    (forall c sh, big_ok e c -> q <> bigword e c sh).
Proof.
  intros e p n bs He HS W Hn q. pose proof (SMALL_CAPA_range e He) as SC.
  destruct (write_small_spec e p n HS W ltac:(lia)) as (W' & S1 & S2). fold q in W', S1, S2.
  split; [exact S1|]. split; [unfold vsize; rewrite S1; exact S2|].
  split; [unfold capa; rewrite HS, S1; reflexivity|].
  intros c sh B E. rewrite E in S1. rewrite bigword_not_small in S1 by auto. discriminate.
Qed.
Print Assumptions packed_small_roundtrip.

(** Storing any bytes in any inline element leaves the inline flag and size as
    they were, provided the element size is not one of 5, 7, 13, 14, 15. *)
Theorem inline_elements_clear_of_control_word :
  forall e p n i bytes,
    0 < esz e -> HAS_SMALL e = true -> ~ In (esz e) [5; 7; 13; 14; 15] ->
    word 32 p -> is_small e p = true -> small_size e p = n -> 0 <= i < SMALL_CAPA e ->
    let q := overwrite_pack p (i * esz e) ((i + 1) * esz e) bytes in
    is_small e q = true /\ small_size e q = n.
Proof.
  intros e p n i f He HS Ly W S1 S2 Hi q.
  destruct (inline_write_keeps_control e p n i f He HS) as (_ & A & B); auto.
  - apply layout_ok_iff; auto.
  - split; auto.
Qed.
Print Assumptions inline_elements_clear_of_control_word.

(** FINDING.  For element sizes 5, 7, 13, 14 and 15 (e.g. a struct of five bytes)
    the property is false of the code: there is an inline element whose bytes
    overlap the control word, so that storing an ordinary value in it turns the
    inline vec into one that reads as a heap vec with a bogus pointer. *)
Theorem inline_elements_clear_of_control_word_refuted :
  forall e, e_trivial e = true -> e_aligned e = true -> In (esz e) [5; 7; 13; 14; 15] ->
  forall p, word 32 p ->
  exists i bytes, 0 <= i < SMALL_CAPA e /\
    is_small e (overwrite_pack p (i * esz e) ((i + 1) * esz e) bytes) = false.
Proof.
  intros e T A HI p W.
  assert (K : forall i, HAS_SMALL e = true -> PACK_CAPA e = false -> i * esz e <= 12 < (i + 1) * esz e ->
     is_small e (overwrite_pack p (i * esz e) ((i + 1) * esz e) (fun _ => 1)) = false).
  { intros i HS PC Hi. unfold is_small. rewrite HS. unfold IS_BIG_MASK. rewrite PC.
    rewrite land15. apply Z.eqb_neq. unfold overwrite_pack.
    destruct (Z.leb_spec (i * esz e) 12); [|lia].
    destruct (Z.ltb_spec 12 ((i + 1) * esz e)); [|lia]. cbn [andb].
    change (wrap 8 1) with 1.
    set (b13 := if (_ <=? 13) && _ then _ else _). set (b14 := if (_ <=? 14) && _ then _ else _).
    set (b15 := if (_ <=? 15) && _ then _ else _). clearbody b13 b14 b15.
    replace (1 + b13 * 2 ^ 8 + b14 * 2 ^ 16 + b15 * 2 ^ 24)
      with (1 + (b13 * 16 + b14 * 2 ^ 12 + b15 * 2 ^ 20) * 16) by lia.
    rewrite Z.mod_add by lia. cbn. lia. }
  cbn [In] in HI.
  assert (S : SMALL_CAPA e = 15 / esz e) by (unfold SMALL_CAPA; rewrite T, A; reflexivity).
  destruct HI as [E|[E|[E|[E|[E|[]]]]]]; rewrite <- E in S; cbn in S;
    assert (HS : HAS_SMALL e = true) by (unfold HAS_SMALL; rewrite S; reflexivity);
    assert (PC : PACK_CAPA e = false) by (unfold PACK_CAPA; rewrite <- E; rewrite HS; reflexivity).
  - exists 2, (fun _ => 1). split; [lia|]. apply K; auto; lia.
  - exists 1, (fun _ => 1). split; [lia|]. apply K; auto; lia.
  - exists 0, (fun _ => 1). split; [lia|]. apply K; auto; lia.
  - exists 0, (fun _ => 1). split; [lia|]. apply K; auto; lia.
  - exists 0, (fun _ => 1). split; [lia|]. apply K; auto; lia.
Qed.
Print Assumptions inline_elements_clear_of_control_word_refuted.

(** Concrete types: fu::str (bytes), an array of int, an array of vec. *)
Definition elt_byte := {| esz := 1; e_trivial := true; e_aligned := true; e_copiable := true |}.
Definition elt_int := {| esz := 4; e_trivial := true; e_aligned := true; e_copiable := true |}.
Definition elt_vec := {| esz := 16; e_trivial := false; e_aligned := true; e_copiable := true |}.
Definition elt_5 := {| esz := 5; e_trivial := true; e_aligned := true; e_copiable := true |}.

Example pack_examples :
  SMALL_CAPA elt_byte = 15 /\ SMALL_CAPA elt_int = 3 /\ SMALL_CAPA elt_vec = 0 /\
  alloc_count true 1 (100 + 1) = Ok 112 /\ looks_big elt_byte 112 = 111 /\
  capa elt_byte (pack elt_byte 111) = 111 /\
  capa elt_byte (mark_shared elt_byte (pack elt_byte 111)) = 111 - 2 ^ 31 /\
  alloc_count true 16 100 = Ok 127 /\
  vsize elt_byte (write_small elt_byte 0xffffffff 15) 77 = 15 /\
  is_small elt_5 (write_small elt_5 0 3) = true /\
  is_small elt_5 (overwrite_pack (write_small elt_5 0 3) 10 15 (fun _ => 1)) = false.
Proof. repeat split; reflexivity. Qed.
