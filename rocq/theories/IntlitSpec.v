(** Integer literals, from their grammar: sign? prefix? digits-and-underscores u? *)
From Verif Require Export IntlitModel.
Open Scope Z_scope.

(** The digit a character stands for. *)
Definition digit_of (c : Z) : option Z :=
  if (48 <=? c) && (c <=? 57) then Some (c - 48)
  else if (97 <=? c) && (c <=? 122) then Some (c - 97 + 10) else None.
(** The body of a literal in base b: underscores and digits below b, most significant first. *)
Inductive denotes (b : Z) : list Z -> Z -> Prop :=
| den_nil : denotes b [] 0
| den_us s n : denotes b s n -> denotes b (s ++ [95]) n
| den_digit s n c d : denotes b s n -> digit_of c = Some d -> d < b -> denotes b (s ++ [c]) (n * b + d).

Inductive sign := Plus | Minus | NoSign.
Inductive radix := Hex | Oct | Bin | Dec.
Definition sign_text s := match s with Plus => [43] | Minus => [45] | NoSign => [] end.
Definition radix_text r := match r with Hex => [48; 120] | Oct => [48; 111] | Bin => [48; 98] | Dec => [] end.
Definition radix_base r := match r with Hex => 16 | Oct => 8 | Bin => 2 | Dec => 10 end.
(** The text with the given parts.  For a decimal literal the body must not itself look like a
    prefix, and a body never ends in the suffix letter. *)
Definition literal (s : sign) (r : radix) (body : list Z) (u : bool) : list Z :=
  sign_text s ++ radix_text r ++ body ++ (if u then [117] else []).

Definition fits_signed (bits v : Z) : Prop := - 2 ^ (bits - 1) <= v < 2 ^ (bits - 1).
Definition fits_unsigned (bits v : Z) : Prop := 0 <= v < 2 ^ bits.
(** bits is the least of 8, 16, 32, 64 in which v fits. *)
Definition least_size (fits : Z -> Z -> Prop) (bits v : Z) : Prop :=
  (bits = 8 \/ bits = 16 \/ bits = 32 \/ bits = 64) /\ fits bits v /\
  forall b, b = 8 \/ b = 16 \/ b = 32 \/ b = 64 -> fits b v -> bits <= b.
(** The parts are the ones a reader would see: no sign in front of an unsigned text, no prefix in front
    of a decimal body, no u at the end of an unsuffixed body. *)
Definition reads_as (s : sign) (r : radix) (body : list Z) (u : bool) : Prop :=
  let tail := body ++ (if u then [117] else []) in
  (s = NoSign -> forall c t, radix_text r ++ tail = c :: t -> c <> 43 /\ c <> 45) /\
  (r = Dec -> forall p t, tail = 48 :: p :: t -> p <> 120 /\ p <> 111 /\ p <> 98) /\
  (u = false -> forall t, body <> t ++ [117]).
(** The characters a literal's body is made of: never one of [:;<=>?]. *)
Definition word_chars (body : list Z) : Prop := Forall (fun c => byte c /\ ~ 58 <= c <= 63) body.
