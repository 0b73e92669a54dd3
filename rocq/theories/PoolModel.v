(** Model of lib/ev/Pool.fu. Slots are one-based ids ([Z]); [None] is a failed
    assert or an out-of-range access. *)
From Verif Require Export Words.
Open Scope Z_scope.

Section Pool.
(** The item type: a struct (or union, as lib/ev/Loop.fu:14-17) with a field
    [Pool__next_free], default-constructible. *)
Context {T : Type} (next : T -> Z) (set_next : Z -> T -> T) (dflt : T).
(** [process::DEBUG]. *)
Context (DEBUG : bool).

(** lib/ev/Pool.fu:2-10. *)
Record pool := { items : list T; first_free : Z; debug : Z }.
Definition empty_pool : pool := {| items := []; first_free := 0; debug := 0 |}.

(** The debug bit of zero-based slot [i] (lines 18-19, 45-49, 74-78); slots past
    31 are not tracked. *)
Definition tracked (i : nat) : bool := DEBUG && (i <? 32)%nat.
Definition dbit (p : pool) (i : nat) : bool := Z.testbit (debug p) (Z.of_nat i).

(** lib/ev/Pool.fu:12-22 [fn []]: the zero-based slot that [pool[i]] denotes. *)
Definition pool_slot (p : pool) (id : Z) : option nat :=
  if 0 <? id then
    let i := Z.to_nat (id - 1) in
    if tracked i && negb (dbit p i) then None
    else if (i <? length (items p))%nat then Some i else None
  else None.
(** Reading and assigning through the reference it returns. *)
Definition pool_get (p : pool) (id : Z) : option T :=
  do i <- pool_slot p id; nth_error (items p) i.
Definition pool_set (p : pool) (id : Z) (x : T) : option pool :=
  do i <- pool_slot p id;
  do its <- upd (items p) i x;
  Some {| items := its; first_free := first_free p; debug := debug p |}.

(** lib/ev/Pool.fu:45-52: debug bookkeeping at the end of [alloc]. *)
Definition alloc_finish (p : pool) (i : nat) : option (Z * pool) :=
  if tracked i then
    if dbit p i then None
    else Some (Z.of_nat i + 1,
               {| items := items p; first_free := first_free p;
                  debug := Z.lor (debug p) (2 ^ Z.of_nat i) |})
  else Some (Z.of_nat i + 1, p).

(** lib/ev/Pool.fu:24-53 [alloc]. *)
Definition pool_alloc (p : pool) : option (Z * pool) :=
  let first := first_free p in
  if first <? 0 then None
  else if 0 <? first then
    let i := Z.to_nat (first - 1) in
    do item <- nth_error (items p) i;
    let n := next item in
    if n <? 0 then None
    else
      do its <- upd (items p) i (set_next 0 item);
      alloc_finish {| items := its; first_free := n; debug := debug p |} i
  else
    alloc_finish {| items := items p ++ [dflt]; first_free := first; debug := debug p |} (length (items p)).

(** lib/ev/Pool.fu:55-79 [free] (the caller's slot variable becomes 0). *)
Definition pool_free (p : pool) (id : Z) : option pool :=
  if 0 <? id then
    let i := Z.to_nat (id - 1) in
    do its <- upd (items p) i (set_next (first_free p) dflt);
    if tracked i then
      if dbit p i then
        Some {| items := its; first_free := Z.of_nat i + 1;
                debug := Z.ldiff (debug p) (2 ^ Z.of_nat i) |}
      else None
    else Some {| items := its; first_free := Z.of_nat i + 1; debug := debug p |}
  else None.
End Pool.
Arguments pool : clear implicits.
