(** Model of src/levenshtein.fu (bytes are [Z]; lengths are below 2^31 so the
    int arithmetic does not overflow and is modelled in [nat]). *)
From Verif Require Import Common.

(** src/levenshtein.fu:19-25: the inner loop.  The index loop over [ia] reads
    a[ia] and reads/writes cache[ia]; it is modelled by walking both arrays in
    step ([None] if the cache were shorter than [a]).  Result: the rewritten
    cache and the final [result]. *)
Fixpoint lev_inner (code : Z) (a : list Z) (cache : list nat) (d0 result : nat)
  : option (list nat * nat) :=
  match a with
  | [] => Some ([], result)
  | ca :: a' =>
    match cache with
    | [] => None
    | cc :: cache' =>
      let d1 := if (code =? ca)%Z then d0 else d0 + 1 in
      let d0' := cc in
      let result' := Nat.min (Nat.min (result + 1) (d0' + 1)) d1 in
      do '(cs, r) <- lev_inner code a' cache' d0' result';
      Some (result' :: cs, r)
    end
  end.

(** src/levenshtein.fu:13-26: the outer loop over [b]; starts each row with
    d0 = result = ib. *)
Fixpoint lev_outer (a b : list Z) (cache : list nat) (ib result : nat) : option nat :=
  match b with
  | [] => Some result
  | code :: b' =>
    do '(cache', r) <- lev_inner code a cache ib ib;
    lev_outer a b' cache' (ib + 1) r
  end.

(** src/levenshtein.fu:5-29 [levenshtein_NM]; cache = a.map(|_, i| i + 1). *)
Definition lev_NM (a b : list Z) : option nat :=
  match a with
  | [] => Some (length b)
  | _ => match b with
         | [] => Some (length a)
         | _ => lev_outer a b (seq 1 (length a)) 0 0
         end
  end.

(** src/levenshtein.fu:34-38: length of the common prefix. *)
Fixpoint common_prefix (a b : list Z) : nat :=
  match a, b with
  | x :: a', y :: b' => if (x =? y)%Z then S (common_prefix a' b') else 0
  | _, _ => 0
  end.

(** src/levenshtein.fu:44-49: the backwards loop; returns (a_suffix, b_suffix). *)
Fixpoint trim_suffix (fuel : nat) (a b : list Z) (ea eb : nat) : option (nat * nat) :=
  match fuel with
  | O => None
  | S f =>
    if negb (ea =? 0) && negb (eb =? 0) then
      do x <- nth_error a (ea - 1);
      do y <- nth_error b (eb - 1);
      if negb (x =? y)%Z then Some (ea, eb) else trim_suffix f a b (ea - 1) (eb - 1)
    else Some (ea, eb)
  end.

(** src/levenshtein.fu:31-56 [levenshtein]. *)
Definition levenshtein (a b : list Z) : option nat :=
  let p := common_prefix a b in
  let a1 := skipn p a in
  let b1 := skipn p b in
  do '(ea, eb) <- trim_suffix (S (length a1)) a1 b1 (length a1) (length b1);
  lev_NM (firstn ea a1) (firstn eb b1).
