(** What it should take for a type to be assigned to another. *)
From Verif Require Import CanonSpec TypesModel LifetimeSpec.
Open Scope Z_scope.

(** every bit of the one is in the other *)
Definition within (a b : Z) : Prop := forall i, Z.testbit a i = true -> Z.testbit b i = true.
(** A proper type: its canon is one, quals and facts are 32 bits. *)
Definition typed (t : type) (c : CanonSpec.canon) : Prop :=
  TypesModel.canon t = written c /\ well_formed c /\ word 32 (quals t) /\ word 32 (vfacts t).
Definition mutref (t : type) : Prop := Z.testbit (quals t) 0 = true.
Definition isref (t : type) : Prop := lifetime t <> [].

(** What the guest is known to be includes all the host is known to be; its quals include all the host wants, and its
    canon is accepted; or it is the empty value, which goes anywhere but into a mutable reference or a never.  A
    reference wants a reference, other than as an argument. *)
Definition can_pass (zeroes_ok : bool) (h g : type) (hc gc : CanonSpec.canon) : Prop :=
  within (vfacts h) (vfacts g) /\
  (within (quals h) (quals g) /\ accepts hc gc \/
   zeroes_ok = true /\ TypesModel.canon g = c_zeroes /\ ~ mutref h /\ TypesModel.canon h <> c_never).
Definition can_assign (zeroes_ok as_argument : bool) (h g : type) (hc gc : CanonSpec.canon) : Prop :=
  can_pass zeroes_ok h g hc gc /\ (as_argument = true \/ (isref h -> isref g)).
(** The compiler insists on the facts, but for being a type's name. *)
Definition facts_ok (h g : type) : Prop := forall i, i <> 2 -> Z.testbit (vfacts h) i = true -> Z.testbit (vfacts g) i = true.

(** A lifetime with something of an argument in it; something of an argument and not of what it refers to. *)
Definition from_argument (L : list region) : Prop := exists r c, In (r, c) L /\ r mod 4 = 3.
Definition from_argument_itself (L : list region) : Prop :=
  exists r c, In (r, c) L /\ r mod 4 = 3 /\ match c with None => True | Some ps => exists p, In p ps /\ length p = 1%nat end.
