(** Model of src/canon.fu (type canons and their generic patterns), and of what canons are made with: targets
    (src/module.fu:540-611), user type canons (src/usertypes.fu), serialized types (src/context.fu:355-383),
    addresses of functions (src/types.fu:478-502).
    Strings are lists of bytes (Z); i32 and u32 are Z.  None is a throw, a BUG (SELF_TEST is on, fail.fu:4) or a trap. *)
From Verif Require Export LifetimeModel.
Open Scope Z_scope.

(** str[a .. b]; out of range traps *)
Definition cut (str : list Z) (a b : Z) : option (list Z) :=
  if (0 <=? a) && (a <=? b) && (b <=? zlen str) then Some (slice str a b) else None.
(** prelude.fu:462-470, 342-348 on a char *)
Definition starts_with (a : list Z) (c : Z) : bool := match a with x :: _ => x =? c | [] => false end.
Definition ends_with (a : list Z) (c : Z) : bool := match a with [] => false | _ => last a 0 =? c end.
Fixpoint find_char_from (a : list Z) (c i : Z) : Z :=
  match a with [] => -1 | x :: a => if x =? c then i else find_char_from a c (i + 1) end.
Definition find_char (a : list Z) (c : Z) : Z := find_char_from a c 0.
Definition LPAR : Z := 40. Definition RPAR : Z := 41. Definition COLON : Z := 58. Definition LBRA : Z := 91. Definition RBRA : Z := 93.
Definition PIPE : Z := 124. Definition AT : Z := 64.

(** ** module.fu:540-568: targets, three numbers packed in a u64 *)
Definition signed32 (v : Z) : Z := if v <? 2 ^ 31 then v else v - 2 ^ 32.
Definition sign_rotate (v : Z) : Z := Z.lxor (wshl 32 (wrap 32 v) 1) (if v <? 0 then 4294967295 else 0).
Definition sign_unrotate (v : Z) : Z := signed32 (Z.lxor (wshr v 1) (if Z.testbit v 0 then 4294967295 else 0)).
Definition t_modid (t : Z) : Z := signed32 (wrap 32 (Z.land (wshr t 40) 1048575)).
Definition t_globid (t : Z) : Z := signed32 (wrap 32 (Z.land (wshr t 20) 1048575)).
Definition t_locid (t : Z) : Z := sign_unrotate (wrap 32 (Z.land t 1048575)).
Definition Target (modid globid locid : Z) : option Z :=
  if (0 <=? modid) && (0 <? globid)
  then Some (Z.lor (Z.lor (wshl 64 (wrap 64 modid) 40) (wshl 64 (wrap 64 globid) 20)) (sign_rotate locid))
  else None.

(** ** module.fu:572-611 *)
Definition parseLocalOrGlobal (str : list Z) (offset : Z) : option (Z * Z) :=
  do q <- parse_varint offset str; do r <- parse_varint (snd q) str; do s <- parse_varint (snd r) str;
  do t <- Target (signed32 (fst q)) (signed32 (fst r)) (sign_unrotate (fst s)); Some (t, snd s).
Definition appendLocalOrGlobal (str : list Z) (t : Z) : option (list Z) :=
  if (0 <=? t_modid t) && (0 <? t_globid t) then
    do str <- append_varint str (wrap 32 (t_modid t)); do str <- append_varint str (wrap 32 (t_globid t));
    append_varint str (sign_rotate (t_locid t))
  else None.
Definition parseGlobal (str : list Z) (offset : Z) : option (Z * Z) :=
  do q <- parse_varint offset str; do r <- parse_varint (snd q) str;
  do t <- Target (signed32 (fst q)) (signed32 (fst r)) 0; Some (t, snd r).
Definition appendGlobal (str : list Z) (t : Z) : option (list Z) :=
  if (0 <=? t_modid t) && (0 <? t_globid t) && (t_locid t =? 0) then
    do str <- append_varint str (wrap 32 (t_modid t)); append_varint str (wrap 32 (t_globid t))
  else None.

(** ** types.fu:478-502 *)
Fixpoint append_targets (res : list Z) (targets : list Z) : option (list Z) :=
  match targets with [] => Some res | t :: ts => do res <- appendLocalOrGlobal res t; append_targets res ts end.
Definition packAddrOfFn (targets : list Z) : option (list Z) := append_targets [AT] targets.
Fixpoint unpack_loop (fuel : nat) (canon : list Z) (offset : Z) : option (list Z) :=
  match fuel with
  | O => None
  | S f => if offset <? zlen canon
           then do q <- parseLocalOrGlobal canon offset; do ts <- unpack_loop f canon (snd q); Some (fst q :: ts)
           else Some []
  end.
Definition unpackAddrOfFn (canon : list Z) : option (list Z) :=
  if starts_with canon AT then unpack_loop (S (length canon)) canon 1 else None.

(** ** quals.fu:62-85 *)
Definition is_cat (c : Z) : bool :=
  (c =? 105) || (c =? 117) || (c =? 102) || (c =? 98) || (c =? 99) || (c =? 101) || (c =? 109).
Fixpoint digits_end (fuel : nat) (canon : list Z) (offset : Z) : Z :=
  match fuel with
  | O => offset
  | S f => let c := nth (Z.to_nat offset) canon 0 in
           if (c <? 48) || (57 <? c) then offset else digits_end f canon (offset + 1)
  end.
Definition basePrimPrefixLen (canon : list Z) : option Z :=
  match canon with
  | [] => None
  | c :: _ => if is_cat c then Some (digits_end (S (length canon)) canon 1) else None
  end.
(** usertypes.fu:7-24 *)
Definition parseUserTypeCanon (canon : list Z) : option (Z * Z) :=
  match canon with
  | [] => None
  | c :: _ =>
      do offset <- (if c <? 128 then option_map (fun x => x + 1) (basePrimPrefixLen canon) else Some 1);
      do q <- parse_varint offset canon; do r <- parse_varint (snd q) canon;
      if (snd r =? zlen canon) || (nth (Z.to_nat (snd r)) canon 0 =? LPAR)
      then Some (signed32 (fst q), signed32 (fst r) - 1) else None
  end.
(** usertypes.fu:26-64; kind: 'e' for an enum, 'm' for flags, otherwise none.  The name is not used. *)
Definition sigil_of (hash : Z) : Z :=
  let hash := Z.lxor hash (wshr hash 32) in
  let hash := Z.lxor hash (wshr hash 16) in
  let hash := Z.lxor hash (wshr hash 8) in
  wrap 8 (Z.lor hash 128).
Inductive ukind := KEnum | KFlags | KOther.
Definition createUserTypeCanon (kind : ukind) (basePrim : list Z) (modid index : Z) (specPat : list Z) (hash : Z) : option (list Z) :=
  let res := basePrim ++ [sigil_of hash] in
  if negb ((0 <=? modid) && (0 <=? index)) then None else
  do res <- append_varint res (wrap 32 modid); do res <- append_varint res (wrap 32 (index + 1));
  do res <- match basePrim, res with
            | [], _ => Some res
            | _, c :: rest =>
                if (c =? 101) || (c =? 109) then None
                else Some (match kind with KEnum => 101 :: rest | KFlags => 109 :: rest | KOther => res end)
            | _, [] => Some res
            end;
  Some (res ++ specPat).

(** ** context.fu:355-383; the quals of a parsed type before its usage is filled in *)
Definition serializeType (quals : Z) (canon : list Z) : option (list Z) :=
  do res <- append_varint [] (Z.land quals q_TAGS);
  match canon with [] => None | _ => Some (res ++ canon) end.
Definition parseType (str : list Z) : option (Z * list Z) :=
  do q <- parse_varint 0 str; Some (fst q, slice_from str (snd q)).

(** ** canon.fu:31-59 scan: the offset, isLast (only ever set), isDeep *)
Fixpoint scan_from (fuel : nat) (str : list Z) (sep offset depth : Z) (isLast isDeep : bool) : option (Z * bool * bool) :=
  match fuel with
  | O => None
  | S f =>
      if offset <? zlen str then
        do c <- (if offset <? 0 then None else nth_error str (Z.to_nat offset));
        if c =? LPAR then scan_from f str sep (offset + 1) (depth + 1) isLast true
        else if c =? RPAR then scan_from f str sep (offset + 1) (depth - 1) isLast isDeep
        else if (c =? sep) && (depth =? 0) then Some (offset, isLast, isDeep)
        else scan_from f str sep (offset + 1) depth isLast isDeep
      else Some (offset, true, isDeep)
  end.
Definition scan_sep (str : list Z) (sep offset : Z) (isLast : bool) : option (Z * bool * bool) :=
  scan_from (S (length str)) str sep offset 0 isLast false.

(** canon.fu:65-86 eachSubPattern.  What visit does: Some None goes on, Some (Some r) leaves the loop with r. *)
Record sub := { sp_text : list Z; sp_of : Z; sp_deep : bool; sp_last : bool }.
Fixpoint sub_loop {R} (fuel : nat) (pattern : list Z) (offset : Z) (visit : sub -> option (option R)) : option (option R) :=
  match fuel with
  | O => None
  | S f =>
      do q <- parseGlobal pattern offset;
      let (spec_of, start) := (q : Z * Z) in
      do s <- scan_sep pattern PIPE start false;
      let '(offset, isLast, isDeep) := s in
      do text <- cut pattern start offset;
      do v <- visit {| sp_text := text; sp_of := spec_of; sp_deep := isDeep; sp_last := isLast |};
      match v with
      | Some r => Some (Some r)
      | None => if (isLast : bool) then Some None else sub_loop f pattern (offset + 1) visit
      end
  end.
Definition eachSubPattern {R} (pattern : list Z) (visit : sub -> option (option R)) : option (option R) :=
  sub_loop (S (length pattern)) pattern 0 visit.

(** canon.fu:88-112 eachArgSpecType *)
Record argspec := { arg_text : list Z; arg_deep : bool; arg_last : bool; arg_first : bool }.
Fixpoint arg_loop {R} (fuel : nat) (subPattern : list Z) (start : Z) (visit : argspec -> option (option R)) : option (option R) :=
  match fuel with
  | O => None
  | S f =>
      do s <- scan_sep subPattern COLON start false;
      let '(offset, isLast, isDeep) := s in
      do text <- cut subPattern start offset;
      do v <- visit {| arg_text := text; arg_deep := isDeep; arg_last := isLast; arg_first := start =? 0 |};
      match v with
      | Some r => Some (Some r)
      | None => if (isLast : bool) then Some None else arg_loop f subPattern (offset + 1) visit
      end
  end.
Definition eachArgSpecType {R} (subPattern : list Z) (visit : argspec -> option (option R)) : option (option R) :=
  arg_loop (S (length subPattern)) subPattern 0 visit.

(** canon.fu:117-128; the empty string when there is no pattern *)
Definition tryGetPattern (canon : list Z) : option (list Z) :=
  if ends_with canon RPAR then cut canon (find_char canon LPAR + 1) (zlen canon - 1) else Some [].
Definition trimPattern (canon : list Z) : list Z :=
  let x := find_char canon LPAR in if 0 <=? x then firstn (Z.to_nat x) canon else canon.

(** ** canon.fu:133-247 *)
(** 206-240: the two sequences of arguments, zipped; true: continue :NEXT_HOST_PAIR *)
Fixpoint zip_args (fuel : nat) (rec : list Z -> list Z -> option bool) (host guest : list Z) (h1 g1 : Z) (isLastHost isLastGuest : bool)
  : option bool :=
  match fuel with
  | O => None
  | S f =>
      let h0 := h1 in let g0 := g1 in
      do s <- scan_sep host COLON h1 isLastHost;
      do t <- scan_sep guest COLON g1 isLastGuest;
      let '(h1, isLastHost, _) := s in
      let '(g1, isLastGuest, _) := t in
      if negb (Bool.eqb isLastHost isLastGuest) then Some false else
      do hostItem <- cut host h0 h1; do guestItem <- cut guest g0 g1;
      do r <- rec hostItem guestItem;
      if (r : bool) then Some true
      else if isLastHost then Some false
      else zip_args f rec host guest (h1 + 1) (g1 + 1) isLastHost isLastGuest
  end.
Fixpoint assignable (fuel : nat) (host guest : list Z) : option bool :=
  match fuel with
  | O => None
  | S f =>
      if negb (ends_with guest RPAR) then
        if starts_with guest LBRA then
          if starts_with host LBRA then
            do h <- cut host 1 (zlen host - 1); do g <- cut guest 1 (zlen guest - 1); assignable f h g
          else Some false
        else match host, guest with
             | [], _ | _, [] => None
             | _, _ => Some (beq host guest)
             end
      else
        let g0 := find_char guest LPAR + 1 in
        let g1 := zlen guest - 1 in
        if negb (ends_with host RPAR) then do base <- cut guest 0 (g0 - 1); Some (beq host base) else
        let h0 := find_char host LPAR + 1 in
        let h1 := zlen host - 1 in
        do hc <- nth_error host 0; do gc <- nth_error guest 0;
        if negb (hc =? gc) then Some false else
        do hp <- cut host h0 h1;
        do r <- eachSubPattern hp (fun h =>
          do gp <- cut guest g0 g1;
          do m <- eachSubPattern gp (fun g =>
            if negb (sp_of g =? sp_of h) then Some None
            else if negb (sp_deep h) && negb (sp_deep g) then
              Some (if beq (sp_text h) (sp_text g) then Some tt else None)
            else if sp_deep h && sp_deep g then
              do z <- zip_args (S (length (sp_text h))) (assignable f) (sp_text h) (sp_text g) 0 0 false false;
              Some (if (z : bool) then Some tt else None)
            else Some None);
          Some (match m with Some tt => None | None => Some tt end));
        Some (match r with Some tt => false | None => true end)
  end.
Definition isCanonAssignable (host guest : list Z) : option bool := assignable (S (length host)) host guest.

(** canon.fu:10-24; the empty string: none *)
Definition canon_tryIntersect (a b : list Z) : option (list Z) :=
  let (a, b) := if zlen a <? zlen b then (b, a) else (a, b) in
  do r <- isCanonAssignable a b; Some (if (r : bool) then a else []).
Definition canon_trySuper (a b : list Z) : option (list Z) :=
  let (a, b) := if zlen b <? zlen a then (b, a) else (a, b) in
  do r <- isCanonAssignable a b; Some (if (r : bool) then a else []).
