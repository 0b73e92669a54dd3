(** C36 - levenshtein is the edit distance. *)
From Verif Require Import CommonLemmas LevModel LevSpec LevProofs.

(** For every pair of strings the function returns (never fails), and what it
    returns is the length of a shortest script of single-character edits. *)
Theorem levenshtein_is_edit_distance :
  forall a b : list Z, exists n, levenshtein a b = Some n /\ is_edit_distance a b n.
Proof. exact levenshtein_spec. Qed.
Print Assumptions levenshtein_is_edit_distance.

Theorem levenshtein_symmetric_and_separating :
  forall a b : list Z,
    levenshtein a b = levenshtein b a /\ (levenshtein a b = Some 0 <-> a = b).
Proof. exact levenshtein_laws_proof. Qed.
Print Assumptions levenshtein_symmetric_and_separating.

(** "kitten" vs "sitten", and a case where prefix, middle and suffix all matter. *)
Example levenshtein_cases :
  levenshtein [107;105;116;116;101;110]%Z [115;105;116;116;101;110]%Z = Some 1 /\
  levenshtein [1;2;3;4;5;6]%Z [1;9;3;7;7;5;6]%Z = Some 3.
Proof. vm_compute. auto. Qed.
