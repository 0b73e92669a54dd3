(** Decimal numerals. *)
From Verif Require Export DecModel.
Open Scope Z_scope.

Definition digit (c : Z) : Prop := 48 <= c <= 57.
(** The number a string of digits denotes, most significant first. *)
Definition value (s : list Z) : Z := fold_left (fun a c => 10 * a + (c - 48)) s 0.
(** s is the usual decimal numeral of n: digits only, no leading zero except "0" itself. *)
Definition decimal (s : list Z) (n : Z) : Prop :=
  Forall digit s /\ value s = n /\ s <> [] /\ (s = [48] \/ exists c s', s = c :: s' /\ c <> 48).
(** The signed numeral: a minus sign exactly for negatives. *)
Definition sdecimal (s : list Z) (n : Z) : Prop :=
  (0 <= n /\ decimal s n) \/ (n < 0 /\ exists s', s = 45 :: s' /\ decimal s' (- n)).
(** str, read from position off: the digits ds and then something that is not a digit. *)
Definition digits_at (str : list Z) (off : nat) (ds : list Z) : Prop :=
  exists rest, skipn off str = ds ++ rest /\ (off <= length str)%nat /\ Forall digit ds /\
    (rest = [] \/ exists c r, rest = c :: r /\ ~ digit c).
