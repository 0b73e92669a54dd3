(** C40 - event-loop user data packing round-trips. *)
From Verif Require Import WordsLemmas KsfdModel KsfdProofs.
Open Scope Z_scope.

(** A 4-bit kind, a file descriptor below 2^24, and 32 bits of user data come
    back exactly; of the state, the four sticky bits come back (or-ed into the
    caller's). *)
Theorem ksfd_roundtrip : forall kind fd st user st0,
  word 4 kind -> word 24 fd -> word 8 st -> word 32 user ->
  exists k, ksfd_pack kind fd st user = Some k /\ word 64 k /\
    ksfd_unpack k st0 = (kind, fd, Z.lor st0 (st mod 16), user).
Proof. exact pack_unpack_proof. Qed.
Print Assumptions ksfd_roundtrip.

(** Distinct quadruples (with 4-bit states) have distinct packings. *)
Theorem ksfd_no_collision : forall kind fd st user kind' fd' st' user' k,
  word 4 kind -> word 24 fd -> word 4 st -> word 32 user ->
  word 4 kind' -> word 24 fd' -> word 4 st' -> word 32 user' ->
  ksfd_pack kind fd st user = Some k -> ksfd_pack kind' fd' st' user' = Some k ->
  (kind, fd, st, user) = (kind', fd', st', user').
Proof.
  intros kind fd st user kind' fd' st' user' k H1 H2 H3 H4 H1' H2' H3' H4' E E'.
  assert (W : forall x, word 4 x -> word 8 x) by (unfold word; lia).
  destruct (pack_unpack_proof kind fd st user 0 H1 H2 (W _ H3) H4) as (k1 & E1 & _ & U1).
  destruct (pack_unpack_proof kind' fd' st' user' 0 H1' H2' (W _ H3') H4') as (k2 & E2 & _ & U2).
  assert (k1 = k2) as -> by congruence. rewrite U1 in U2. rewrite !Z.lor_0_l in U2.
  unfold word in H3, H3'. rewrite !Z.mod_small in U2 by lia. exact U2.
Qed.
Print Assumptions ksfd_no_collision.

(** A descriptor that does not fit is rejected, not truncated. *)
Theorem ksfd_rejects_wide_fd : forall kind fd st user, ~ word 24 fd -> ksfd_pack kind fd st user = None.
Proof.
  intros kind fd st user H. unfold ksfd_pack.
  destruct (Z.leb_spec 0 fd), (Z.leb_spec fd 16777215); try reflexivity. exfalso; apply H; unfold word; lia.
Qed.
Print Assumptions ksfd_rejects_wide_fd.

Example ksfd_case : ksfd_pack 5 77 0x2b 0xdeadbeef = Some 0xdeadbeef00004db5 /\
  ksfd_unpack 0xdeadbeef00004db5 0x10 = (5, 77, 0x1b, 0xdeadbeef).
Proof. vm_compute. auto. Qed.
