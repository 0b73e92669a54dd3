(** C22 - TEA mixing is a permutation and digests are collision-free encodings. *)
From Verif Require Import WordsLemmas TeaModel TeaProofs.
Open Scope Z_scope.

(** A state is a pair of 32-bit words. *)
Definition is_state (t : tea) : Prop := word 32 (fst t) /\ word 32 (snd t).

(** r4, r8 and r16 are bijections of the states. *)
Theorem tea_rounds_bijective : forall r, r = r4 \/ r = r8 \/ r = r16 ->
  forall u, is_state u -> exists t, is_state t /\ r t = u /\ (forall t', is_state t' -> r t' = u -> t' = t).
Proof.
  intros r Hr u Hu.
  assert (E : exists n, r = tea_rounds n 0) by (destruct Hr as [->|[->| ->]]; eexists; reflexivity).
  destruct E as [n ->]. destruct (rounds_bij n 0) as (_ & I & S). destruct (S u Hu) as (t & Ht & E).
  exists t. split; [exact Ht|]. split; [exact E|].
  intros t' Ht' E'. symmetry. apply I; auto. rewrite E, E'. reflexivity.
Qed.
Print Assumptions tea_rounds_bijective.

(** Hashing a value into a state loses neither the state nor the value. *)
Theorem tea_hash_injective :
  (forall s s' o, is_state s -> is_state s' -> is_state o -> hash_tea s o = hash_tea s' o -> s = s') /\
  (forall s o o', is_state s -> is_state o -> is_state o' -> hash_tea s o = hash_tea s o' -> o = o') /\
  (forall s s' v, is_state s -> is_state s' -> word 64 v -> hash_u64 s v = hash_u64 s' v -> s = s') /\
  (forall s v v', is_state s -> word 64 v -> word 64 v' -> hash_u64 s v = hash_u64 s v' -> v = v') /\
  (forall s s' v, is_state s -> is_state s' -> word 32 v -> hash_u32 s v = hash_u32 s' v -> s = s') /\
  (forall s v v', is_state s -> word 32 v -> word 32 v' -> hash_u32 s v = hash_u32 s v' -> v = v').
Proof.
  assert (W0 : word 32 0) by (unfold word; lia).
  repeat split; intros.
  - rewrite !hash_tea_absorb in H2. apply absorb_inj_l in H2; auto. destruct H1; split; auto.
  - rewrite !hash_tea_absorb in H2. apply absorb_inj_r in H2; auto; [|destruct H0; split; auto|destruct H1; split; auto].
    injection H2 as E1 E2. destruct o, o'; cbn in *; congruence.
  - rewrite !hash_u64_absorb in H2. apply absorb_inj_l in H2; auto. split; apply wrap_word; lia.
  - rewrite !hash_u64_absorb in H2. apply absorb_inj_r in H2; auto; try (split; apply wrap_word; lia).
    injection H2 as E1 E2. apply halves_inj; auto.
  - rewrite !hash_u32_absorb in H2. apply absorb_inj_l in H2; auto. split; auto.
  - rewrite !hash_u32_absorb in H2. apply absorb_inj_r in H2; auto; try (split; auto). congruence.
Qed.
Print Assumptions tea_hash_injective.

(** Hashing bytes is total, and two equally long inputs that differ inside one
    aligned eight-byte block only (e.g. any two different inputs of the same
    length up to 8) never collide, whatever surrounds the block. *)
Theorem tea_hash_bytes_block_injective : forall k p m m' q s,
  is_state s -> Forall byte (p ++ m ++ q) -> Forall byte m' ->
  length p = (8 * k)%nat -> length m = length m' ->
  (length m = 8%nat \/ (length m < 8)%nat /\ q = []) -> m <> m' ->
  exists h h', hash_bytes s (p ++ m ++ q) = Some h /\ hash_bytes s (p ++ m' ++ q) = Some h' /\ h <> h'.
Proof.
  intros k p m m' q s Hs Hb Hm' Hp Hl Hq Hne. rewrite !Forall_app in Hb. destruct Hb as (B1 & B2 & B3).
  destruct (hash_bytes_word (p ++ m ++ q) s) as (h & E & _); [rewrite !Forall_app; auto|auto|].
  destruct (hash_bytes_word (p ++ m' ++ q) s) as (h' & E' & _); [rewrite !Forall_app; auto|auto|].
  exists h, h'. split; [exact E|]. split; [exact E'|]. intros Eh.
  apply (hash_bytes_one_block k p m m' q s Hp B1 B2 Hm' B3 Hs Hl Hq Hne). congruence.
Qed.
Print Assumptions tea_hash_bytes_block_injective.

(** Lengths are not hashed: "a" and "\0a" collide in every state (finding). *)
Theorem tea_hash_bytes_length_collision : forall s, hash_bytes s [97] = hash_bytes s [0; 97].
Proof. intros s. reflexivity. Qed.
Print Assumptions tea_hash_bytes_length_collision.

(** Full-length digests of 64-bit values are injective; every digest has the
    requested length and alphabet. *)
Theorem tea_digests_injective : forall chars,
  (chars <= 0 \/ 11 <= chars -> forall v v', word 64 v -> word 64 v' -> digest62 v chars = digest62 v' chars -> v = v') /\
  (chars <= 0 \/ 16 <= chars -> forall v v', word 64 v -> word 64 v' -> digest16 v chars = digest16 v' chars -> v = v').
Proof. exact digests_proof. Qed.
Print Assumptions tea_digests_injective.

Theorem tea_digest_shape : forall v chars,
  Forall (fun c => 48 <= c <= 57 \/ 97 <= c <= 122 \/ 65 <= c <= 90) (digest62 v chars) /\
  Forall (fun c => 48 <= c <= 57 \/ 97 <= c <= 102) (digest16 v chars) /\
  length (digest62 v chars) = (if (0 <? chars) && (chars <? 11) then Z.to_nat chars else 11%nat) /\
  length (digest16 v chars) = (if (0 <? chars) && (chars <? 16) then Z.to_nat chars else 16%nat).
Proof. exact digests_shape_proof. Qed.
Print Assumptions tea_digest_shape.

(** The u64 form of a state determines it, so the digest of a state does. *)
Theorem tea_u64_injective : forall t t', is_state t -> is_state t' -> tea_u64 t = tea_u64 t' -> t = t'.
Proof. exact tea_u64_inj. Qed.
Print Assumptions tea_u64_injective.

(** A seed passed through [non_zero] is never the all-zero state, and a non-zero one is kept. *)
Theorem tea_non_zero_spec : forall t, is_state t ->
  is_state (tea_non_zero t) /\ tea_non_zero t <> (0, 0) /\ (t <> (0, 0) -> tea_non_zero t = t).
Proof.
  intros [a b] H. unfold tea_non_zero. cbn [fst snd].
  destruct (Z.eqb_spec a 0) as [->|Na]; [destruct (Z.eqb_spec b 0) as [->|Nb]|]; cbn [andb].
  - split; [repeat split; cbn; lia|]. split; [discriminate|]. intros N. destruct N. reflexivity.
  - split; [exact H|]. split; [congruence|auto].
  - split; [exact H|]. split; [congruence|auto].
Qed.
Print Assumptions tea_non_zero_spec.

Example tea_cases :
  is_state (r16 (1, 2)) /\ r16 (1, 2) <> r16 (2, 1) /\
  hash_bytes (0, 0) [1; 2; 3; 4; 5; 6; 7; 8; 9] <> hash_bytes (0, 0) [1; 2; 3; 4; 5; 6; 7; 9; 9] /\
  digest16 0xdeadbeef 0 = [102; 101; 101; 98; 100; 97; 101; 100; 48; 48; 48; 48; 48; 48; 48; 48].
Proof. repeat split; vm_compute; try discriminate; try reflexivity. Qed.
