(** C25 - ASCII case mapping and trim. *)
From Verif Require Import WordsLemmas AsciiModel AsciiProofs.
Open Scope Z_scope.

(** [upper]/[lower] (and the in-place [to_upper]/[to_lower]) never fail, keep
    the length, rewrite exactly the ASCII letters of the other case, are
    idempotent, and each undoes the other up to case. *)
Theorem ascii_case_maps : forall s, Forall byte s -> exists u l,
  upper s = Some u /\ lower s = Some l /\ to_upper s = Some u /\ to_lower s = Some l /\
  length u = length s /\ length l = length s /\
  (forall i c, nth_error s i = Some c ->
     nth_error u i = Some (if (97 <=? c) && (c <=? 122) then c - 32 else c) /\
     nth_error l i = Some (if (65 <=? c) && (c <=? 90) then c + 32 else c)) /\
  upper u = Some u /\ lower l = Some l /\ lower u = Some l /\ upper l = Some u.
Proof. exact case_maps_proof. Qed.
Print Assumptions ascii_case_maps.

(** [trim] never fails and strips a prefix and suffix of bytes <= ' ', such that
    what is left neither starts nor ends with one (so the strip is maximal). *)
Theorem ascii_trim_maximal : forall s, exists pre mid suf,
  trim s = Some mid /\ s = pre ++ mid ++ suf /\
  Forall (fun c => c <= 32) pre /\ Forall (fun c => c <= 32) suf /\
  (forall c r, mid = c :: r -> 32 < c) /\ (forall r c, mid = r ++ [c] -> 32 < c).
Proof. exact trim_proof. Qed.
Print Assumptions ascii_trim_maximal.

Example ascii_cases :
  upper [102;85;33;122] = Some [70;85;33;90] /\ lower [102;85;33;90] = Some [102;117;33;122] /\
  trim [32;9;102;32;117;10] = Some [102;32;117] /\ trim [32;32] = Some [] /\ trim [] = Some [].
Proof. vm_compute. auto. Qed.
