(** C06: buffer size rounding never under-allocates. *)
From Verif Require Import ArcModel ArcProofs WordsLemmas.
Open Scope Z_scope.

(** A refcounted request of [bytes] either gets a block of exactly [2^k] bytes
    (k from 7 to 31) whose part after the 16-byte header holds the request, and
    no smaller admissible power of two would do; or the process exits.  It exits
    exactly when header plus request exceed 2^31 bytes. *)
Theorem arc_alloc_never_under_allocates :
  forall bytes, 0 <= bytes < 2 ^ 64 - 16 ->
    (bytes + 16 <= 2 ^ 31 /\
     exists k, 7 <= k <= 31 /\ arc_alloc_bytes bytes = Ok (2 ^ k - 16) /\
       bytes <= 2 ^ k - 16 /\ (k = 7 \/ 2 ^ (k - 1) < bytes + 16))
    \/ (2 ^ 31 < bytes + 16 /\ arc_alloc_bytes bytes = Exit).
Proof.
  intros bytes H. destruct (Z.le_gt_cases (bytes + 16) (2 ^ 31)) as [L|L].
  - left. split; [exact L|]. destruct (arc_alloc_ok bytes) as (k & Hk & E & B & T); [lia|lia|].
    exists k. split; [lia|]. split; [exact E|]. split; [exact B|].
    destruct T as [T|T].
    + left. apply (Z.pow_inj_r 2); cbn; lia.
    + right. replace k with (1 + (k - 1)) in T by lia. rewrite Z.pow_add_r in T by lia.
      change (2 ^ 1) with 2 in T. lia.
  - right. split; [lia|]. apply arc_alloc_exit. lia.
Qed.
Print Assumptions arc_alloc_never_under_allocates.

(** The same in elements: asking for [cnt] elements of [esz] bytes yields at
    least [cnt] usable elements that fit the block, or the process exits; the
    outcome is never undefined. *)
Theorem alloc_count_covers_request :
  forall shareable esz cnt, 0 < esz < 2 ^ 31 -> 0 < cnt < 2 ^ 31 ->
    alloc_count shareable esz cnt = Exit \/
    exists n, alloc_count shareable esz cnt = Ok n /\ cnt <= n < 2 ^ 31 /\ n * esz <= 0x7fffffff.
Proof.
  intros. destruct (alloc_count_any shareable esz cnt) as [E|(n & E & L & M & _)]; auto.
  right. exists n. auto.
Qed.
Print Assumptions alloc_count_covers_request.

(** The unshared allocator. *)
Theorem uniq_alloc_never_under_allocates :
  forall bytes, 0 <= bytes < 2 ^ 64 ->
    uniq_alloc_bytes bytes = Exit \/
    exists k, 7 <= k <= 30 /\ uniq_alloc_bytes bytes = Ok (2 ^ k) /\ bytes <= 2 ^ k.
Proof.
  intros bytes H. unfold uniq_alloc_bytes. destruct (Z.le_gt_cases bytes (2 ^ 31)) as [L|L].
  - destruct (round_up_ok bytes) as (k & Hk & E & B & T); [lia|]. rewrite E. cbn [rbind].
    destruct (Z.ltb_spec 0x7fffffff (2 ^ k)); [left; reflexivity|right].
    exists k. split; [|split; [reflexivity|exact B]].
    assert (k <> 31) by (intros ->; cbn in *; lia). lia.
  - left. rewrite round_up_exit by lia. reflexivity.
Qed.
Print Assumptions uniq_alloc_never_under_allocates.

Example arc_alloc_examples :
  arc_alloc_bytes 1 = Ok 112 /\ arc_alloc_bytes 112 = Ok 112 /\ arc_alloc_bytes 113 = Ok 240 /\
  arc_alloc_bytes 0x7ffffff0 = Ok 0x7ffffff0 /\ arc_alloc_bytes 0x7ffffff1 = Exit /\
  alloc_count true 8 15 = Ok 30 /\ uniq_alloc_bytes 0x80000000 = Exit.
Proof. repeat split; reflexivity. Qed.
