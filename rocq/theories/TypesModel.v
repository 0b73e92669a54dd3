(** Model of src/types.fu: types - a canon, quals, value facts and a lifetime - what can be assigned to what, relaxing,
    and the common super- and subtypes.
    Not here: printing (explainQuals, explainVFacts), the getters, speculateStruct/despeculateStruct.
    Quals is u32 and so are the value facts (flags); None is a BUG (SELF_TEST is on, fail.fu:4), a throw, a trap, or (where
    there is fuel) a recursion which does not end. *)
From Verif Require Export CanonModel.
Open Scope Z_scope.

(** module.fu:364-377; VFacts: module.fu:383-401 *)
Record type := T { quals : Z; vfacts : Z; canon : list Z; lifetime : list Z }.
Definition AlwaysTrue : Z := 1. Definition AlwaysFalse : Z := 2. Definition Typename : Z := 4.
Definition LeftAligned : Z := 8. Definition RightAligned : Z := 16.
Definition andnot (a b : Z) : Z := Z.land a (Z.lxor b 4294967295).
Definition with_quals (t : type) (q : Z) : type := T q (vfacts t) (canon t) (lifetime t).
Definition with_vfacts (t : type) (v : Z) : type := T (quals t) v (canon t) (lifetime t).
Definition with_lifetime (t : type) (l : list Z) : type := T (quals t) (vfacts t) (canon t) l.
(** a struct is true when the fields which are not marked with ? are *)
Definition truthy (t : type) : bool := match canon t with [] => false | _ => true end.
Definition nonempty (l : list Z) : bool := match l with [] => false | _ => true end.

(** types.fu:10, 68-75 *)
Definition q_non_compund : Z := 8.
Definition c_void : list Z := [118; 111; 105; 100].
Definition c_never : list Z := [110; 101; 118; 101; 114].
Definition c_zeroes : list Z := [122; 101; 114; 111; 101; 115].
Definition t_zeroes : type := T 0 0 c_zeroes [].
Definition t_never : type := T 0 0 c_never [].
Definition is_void (t : type) : bool := beq (canon t) c_void.
Definition is_never (t : type) : bool := beq (canon t) c_never.
Definition is_zeroes (t : type) : bool := beq (canon t) c_zeroes.
Definition is_ref (t : type) : bool := nonempty (lifetime t).
(** quals.fu:51-54; the canon's first byte has to be there *)
Definition is_sliceable (t : type) : bool := starts_with (canon t) LBRA.

(** types.fu:120-137 *)
Definition areVFactsAssignable (host guest : Z) : option bool :=
  let h := andnot host Typename in let g := andnot guest Typename in
  do _ <- check (Z.land h g =? h); Some (Z.land host guest =? host).
Definition areQualsAssignable (host guest : Z) : bool := Z.land host guest =? host.
Definition isLifetimeAssignable (host guest : list Z) : bool := negb (nonempty host) || nonempty guest.
(** types.fu:144-162; CANNOT_definit_mutrefs is on *)
Definition isAssignableAsArgument (host guest : type) (DONT_match_zeroes : bool) : option bool :=
  do _ <- check (truthy host && truthy guest);
  do v <- areVFactsAssignable (vfacts host) (vfacts guest);
  if negb v then Some false else
  do c <- (if areQualsAssignable (quals host) (quals guest) then isCanonAssignable (canon host) (canon guest) else Some false);
  Some (c || negb DONT_match_zeroes && is_zeroes guest && (Z.land (quals host) q_mutref =? 0) && negb (is_never host)).
Definition isAssignable (host guest : type) (DONT_match_zeroes asArgument : bool) : option bool :=
  do a <- isAssignableAsArgument host guest DONT_match_zeroes;
  Some (a && (asArgument || isLifetimeAssignable (lifetime host) (lifetime guest))).

(** types.fu:205-251 *)
Definition clear_vfacts (t : type) : type := with_vfacts t 0.
Definition clear_refs (t : type) : type := T (andnot (quals t) q_mutref) (vfacts t) (canon t) [].
Definition clear_mutref (t : type) : type := with_quals t (andnot (quals t) q_mutref).
Definition definitType (t : type) (asTypename : bool) : option type :=
  let t := if negb (truthy t) || is_never t then t_zeroes else t in
  let t := clear_mutref t in
  let t := if is_ref t then with_lifetime t Region_ZEROES else t in
  do _ <- check (negb (is_never t));
  let v := Z.lor AlwaysFalse (if asTypename then Typename else 0) in
  let v := if is_sliceable t then Z.lor v (Z.lor LeftAligned RightAligned) else v in
  Some (with_vfacts t v).

(** types.fu:378-402 *)
Definition createArray (item : type) : option type :=
  do s <- (if truthy item then serializeType (quals item) (canon item) else None);
  Some (T (Z.lor (Z.lor (Z.lor (Z.land (quals item) q_rx_copy) q_rx_resize) q_non_compund) (if is_void item then q_rx_copy else 0)) 0
          (LBRA :: s ++ [RBRA]) (lifetime item)).
(** types.fu:368-373; add_ref: 184-189 *)
Definition add_ref (t : type) (l : list Z) : option type :=
  do l <- Lifetime_add (lifetime t) l false; do _ <- check (nonempty l); Some (with_lifetime t l).
Definition createSlice (item : type) (l : list Z) : option type :=
  do out <- createArray item; add_ref (with_quals out (andnot (quals out) (Z.lor q_rx_copy q_rx_resize))) l.
(** context.fu:389-401, as far as the tags and the canon go; the empty canon when it is not sliceable *)
Definition tryClear_sliceable (t : type) : option (Z * list Z) :=
  if is_sliceable t then do s <- cut (canon t) 1 (zlen (canon t) - 1); parseType s else Some (0, []).

(** types.fu:430-474; the empty canon when there is none *)
Definition no_type : type := T 0 0 [] [].
Fixpoint type_trySuper (fuel : nat) (a b : type) (DONT_match_zeroes : bool) : option type :=
  match fuel with
  | O => None
  | S f =>
      do c <- canon_trySuper (canon a) (canon b);
      match c with
      | [] => if is_zeroes a && negb DONT_match_zeroes then do d <- definitType b true; type_trySuper f b d false
              else if is_zeroes b && negb DONT_match_zeroes then do d <- definitType a true; type_trySuper f a d false
              else Some no_type
      | _ =>
          do l <- (if nonempty (lifetime a) && nonempty (lifetime b) then Lifetime_union (lifetime a) (lifetime b) false else Some []);
          Some (T (Z.land (quals a) (quals b)) (Z.land (vfacts a) (vfacts b)) c l)
      end
  end.
Definition type_tryIntersect (a b : type) : option type :=
  do c <- canon_tryIntersect (canon a) (canon b);
  match c with
  | [] => Some no_type
  | _ =>
      do l <- Lifetime_inter (lifetime a) (lifetime b);
      if negb (nonempty l) && (nonempty (lifetime a) || nonempty (lifetime b)) then Some no_type
      else Some (T (Z.lor (quals a) (quals b)) (Z.lor (vfacts a) (vfacts b)) c l)
  end.

(** types.fu:530-546 *)
Definition will_relax (t slot : type) (relax_mask : Z) : Z := Z.land (andnot (quals t) (quals slot)) relax_mask.
Definition try_relax (t slot : type) (relax_mask : Z) : type * Z :=
  let w := will_relax t slot relax_mask in (with_quals t (andnot (quals t) w), w).
Definition force_relax (t : type) (relax_mask : Z) : type := with_quals t (andnot (quals t) relax_mask).
(** types.fu:548-592: whether it comes from an argument, and then whether from one without dereferencing.  The first such
    path ends the search; simplified: the paths into that region are all read first. *)
Fixpoint first_direct (lt : list Z) (es : list entry) (from_arg : bool) : option (bool * bool) :=
  match es with
  | [] => Some (from_arg, false)
  | e :: es =>
      if isArgIdx (e_r e) then
        do q <- walk_loop (S (length (e_paths lt e))) (e_paths lt e) 0;
        if existsb (fun sts => match last_step sts with Some st => s_first st | None => false end) (fst q) then Some (true, true)
        else do _ <- check (snd q =? zlen (e_paths lt e)); first_direct lt es true
      else first_direct lt es from_arg
  end.
Definition mask_retval_relaxable (t : type) (relaxed_quals : Z) : option Z :=
  do es <- Lifetime_each (lifetime t);
  do q <- first_direct (lifetime t) es false;
  if negb (fst q) then Some 0 else
  let decay := if snd q then Z.land (quals t) (Z.lor q_rx_copy q_rx_resize) else 0 in
  Some (Z.lor (Z.land relaxed_quals q_mutref) (if Z.land relaxed_quals decay =? decay then decay else 0)).
(** types.fu:594-624 *)
Definition into_Typename (t : type) : type := with_vfacts (clear_refs t) Typename.
Definition clear_Typename (t : type) (clearAlwaysFalse : bool) : type :=
  with_vfacts t (andnot (vfacts t) (Z.lor Typename (if clearAlwaysFalse then AlwaysFalse else 0))).
Definition clear_all (t : type) : type := T (andnot (quals t) q_TAGS) 0 (canon t) (lifetime t).
