(** Model of src/hacks.fu:11-46: closure ids.  The identity is (modid, revision, globid, locid);
    modid, globid, locid are i32, revision is u32. *)
From Verif Require Export VarintModel.
Open Scope Z_scope.

(** hacks.fu:11-28 [serialize]: None is the BUG at 20. *)
Definition serialize (modid revision globid locid : Z) : option (list Z) :=
  if globid <=? 0 then None else
  do r <- append_varint [96] (wrap 32 modid);
  do r <- append_varint r revision;
  do r <- append_varint r (wrap 32 globid);
  append_varint r (wrap 32 locid).

(** hacks.fu:30-46 [tryParseClosureID]: Some None is the empty (false) ClosureID returned for a name
    that is not a closure id; None is a throw or the BUG of the deferred check. *)
Definition try_parse (id : list Z) : option (option (Z * Z * Z * Z)) :=
  if (3 <? Z.of_nat (length id)) && (match id with c :: _ => c =? 96 | [] => false end) then
    do a <- parse_varint 1 id;
    do b <- parse_varint (snd a) id;
    do c <- parse_varint (snd b) id;
    do d <- parse_varint (snd c) id;
    if snd d =? Z.of_nat (length id) then
      Some (Some (signed 32 (fst a), fst b, signed 32 (fst c), signed 32 (fst d)))
    else None
  else Some None.

(** src/usertypes.fu:26-64 [createUserTypeCanon]; kind_letter is Some 'e' for an enum, Some 'm' for
    flags and None for the other kinds; None is a throw. *)
Definition create_canon (kind_letter : option Z) (base_prim : list Z) (modid index : Z) (spec_pat : list Z) (hash : Z) : option (list Z) :=
  let hash := Z.lxor hash (wshr hash 32) in
  let hash := Z.lxor hash (wshr hash 16) in
  let hash := Z.lxor hash (wshr hash 8) in
  let sigil := wrap 8 (Z.lor hash 128) in
  let res := base_prim ++ [sigil] in
  if (modid <? 0) || (index <? 0) then None else
  if 2 ^ 31 <=? index + 1 then None else
  do res <- append_varint res (wrap 32 modid);
  do res <- append_varint res (wrap 32 (index + 1));
  do res <- match base_prim with
            | [] => Some res
            | _ => match res with
                   | c :: r => if (c =? 101) || (c =? 109) then None
                               else Some (match kind_letter with Some k => k :: r | None => c :: r end)
                   | [] => None
                   end
            end;
  Some (res ++ spec_pat).

(** src/quals.fu:62-84 [basePrimPrefixLen]: one category letter, then the digits. *)
Fixpoint digits_len (l : list Z) : nat :=
  match l with c :: l' => if (c <? 48) || (57 <? c) then 0%nat else S (digits_len l') | [] => 0%nat end.
Definition base_prim_prefix_len (canon : list Z) : option Z :=
  match canon with
  | c :: r => if (c =? 105) || (c =? 117) || (c =? 102) || (c =? 98) || (c =? 99) || (c =? 101) || (c =? 109)
              then Some (1 + Z.of_nat (digits_len r)) else None
  | [] => None
  end.

(** src/usertypes.fu:7-24 [parseUserTypeCanon]: (modid, index). *)
Definition parse_canon (canon : list Z) : option (Z * Z) :=
  do c <- nth_error canon 0;
  do offset <- (if c <? 128 then do n <- base_prim_prefix_len canon; Some (n + 1) else Some 1);
  do a <- parse_varint offset canon;
  do b <- parse_varint (snd a) canon;
  if (snd b =? Z.of_nat (length canon)) || (match nth_error canon (Z.to_nat (snd b)) with Some c => c =? 40 | None => false end)
  then Some (signed 32 (fst a), signed 32 (fst b) - 1) else None.
