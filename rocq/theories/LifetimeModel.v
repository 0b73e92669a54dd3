(** Model of src/lifetime.fu: paths into memory, their encoding as bytes, lifetimes as sorted lists of regions.
    Bytes, u32s and i32s are Z.  None is a BUG (SELF_TEST is on, fail.fu:4), a trap or an undefined shift.
    Simplifications: the i32 sums flatOffset + flatCount are unbounded here (regions below 2^31 slots); slices of
    the strings are taken between offsets the parser returned and so never trap. *)
From Verif Require Export VarintModel UsageModel.
Open Scope Z_scope.

Definition check (b : bool) : option unit := if b then Some tt else None.
(** str[a .. b] and str[a ..] *)
Definition slice (str : list Z) (a b : Z) : list Z := firstn (Z.to_nat (b - a)) (skipn (Z.to_nat a) str).
Definition slice_from (str : list Z) (a : Z) : list Z := skipn (Z.to_nat a) str.
Definition beq (a b : list Z) : bool := if list_eq_dec Z.eq_dec a b then true else false.
Definition zlen (str : list Z) : Z := Z.of_nat (length str).

(** lifetime.fu:224-230 *)
Record subregion := SR { flatCount : Z; flatOffset : Z }.
Definition path := list subregion.
Definition sr_eqb (a b : subregion) : bool := (flatCount a =? flatCount b) && (flatOffset a =? flatOffset b).
Fixpoint path_eqb (a b : path) : bool :=
  match a, b with [], [] => true | x :: a, y :: b => sr_eqb x y && path_eqb a b | _, _ => false end.

(** lifetime.fu:7 *)
Definition SR_empty : list Z := [0; 0].
(** lifetime.fu:27-30 *)
Definition isZeroes (r : Z) : bool := r =? 5.
Definition isStaticOrZeroes (r : Z) : bool := Z.land r 11 =? 1.
Definition isTemporary (r : Z) : bool := r =? 9.
Definition isArgIdx (r : Z) : bool := Z.land r 3 =? 3.

(** ** lifetime.fu:79-158 walkPaths.  What its callbacks are told about one subregion. *)
Record step := { s_sub : subregion; s_first : bool; s_last : bool; s_lastPath : bool; s_prefix : list Z }.
(** lifetime.fu:101-144: the subregions of one path *)
Fixpoint walk_path (fuel : nat) (str : list Z) (path0 offset : Z) (isFirst : bool) : option (list step * Z) :=
  match fuel with
  | O => None
  | S f =>
      let subregion0 := offset in
      do q <- parse7bit str offset;
      let (raw_flatOffset, offset) := (q : Z * Z) in
      let isLast := Z.land raw_flatOffset 1 =? 0 in
      do q <- (if isLast then parse7bit str offset else Some (3, offset));
      let (raw_flatCount, offset) := (q : Z * Z) in
      let st := {| s_sub := SR (wshr raw_flatCount 1) (wshr raw_flatOffset 1); s_first := isFirst; s_last := isLast;
                   s_lastPath := Z.land raw_flatCount 1 =? 0; s_prefix := slice str path0 subregion0 |} in
      if isLast then Some ([st], offset)
      else do q <- walk_path f str path0 offset false; Some (st :: fst q, snd q)
  end.
(** isLastPath as the last subregion left it (lifetime.fu:112) *)
Definition path_is_last (sts : list step) : bool := match rev sts with st :: _ => s_lastPath st | [] => false end.
Fixpoint walk_loop (fuel : nat) (str : list Z) (offset : Z) : option (list (list step) * Z) :=
  match fuel with
  | O => None
  | S f =>
      do q <- walk_path (S (length str)) str offset offset true;
      let (sts, offset) := (q : list step * Z) in
      if path_is_last sts then Some ([sts], offset)
      else do q <- walk_loop f str offset; Some (sts :: fst q, snd q)
  end.
Definition walk_paths (str : list Z) (offset : Z) (tailOK : bool) : option (list (list step) * Z) :=
  do q <- walk_loop (S (length str)) str offset;
  do _ <- check (tailOK || (snd q =? zlen str));
  Some q.
(** The last subregion's callback data (onLastSubRegion) *)
Definition last_step (sts : list step) : option step := hd_error (rev sts).

(** lifetime.fu:162-219 assertPathsValid, as this file calls it (region_flatCount negative: not checked) *)
Definition path_of (sts : list step) : path := map s_sub sts.
Definition last_count (p : path) : Z := match rev p with s :: _ => flatCount s | [] => 0 end.
Definition assertPathsValid (str : list Z) (mismatchOK : bool) (minPathDepth : Z) : option unit :=
  do q <- walk_paths str 0 false;
  let paths := map path_of (fst q) in
  do _ <- check (Z.of_nat (length paths) <=? 64);
  do _ <- check (forallb (fun p => (Z.of_nat (length p) <=? 64) && (minPathDepth <=? Z.of_nat (length p))) paths);
  check (mismatchOK || match paths with [] => true | p :: ps => forallb (fun q => last_count q =? last_count p) ps end).

(** lifetime.fu:252-271 parsePaths; 232-250 parsePaths_each visits the same paths in the same order *)
Definition parsePaths (str : list Z) : option (list path) :=
  do q <- walk_paths str 0 false; Some (map path_of (fst q)).

(** lifetime.fu:305-323 *)
Definition appendSubRegion (str : list Z) (s : subregion) (isLast isLastPath : bool) : option (list Z) :=
  do _ <- check ((0 <=? flatOffset s) && (0 <? flatCount s) && (isLast || (flatCount s =? 1)));
  do str <- append7bit str (Z.lor (wshl 32 (flatOffset s) 1) (if isLast then 0 else 1));
  if isLast then append7bit str (Z.lor (wshl 32 (flatCount s) 1) (if isLastPath then 0 else 1)) else Some str.
(** lifetime.fu:325-372 *)
Fixpoint append_path (str : list Z) (p : path) (isLastPath : bool) : option (list Z) :=
  match p with
  | [] => Some str
  | s :: p' =>
      do str <- appendSubRegion str s (match p' with [] => true | _ => false end) isLastPath;
      append_path str p' isLastPath
  end.
Fixpoint append_path_list (str : list Z) (ps : list path) : option (list Z) :=
  match ps with
  | [] => Some str
  | p :: ps' =>
      do _ <- check (match p with [] => false | _ => true end);
      do str <- append_path str p (match ps' with [] => true | _ => false end);
      append_path_list str ps'
  end.
Definition appendPaths (str : list Z) (ps : list path) (emptyOK mismatchOK : bool) : option (list Z) :=
  do _ <- check (emptyOK || match ps with [] => false | _ => true end);
  do out <- append_path_list str ps;
  do _ <- (match out with [] => check emptyOK | _ => assertPathsValid (skipn (length str) out) mismatchOK 1 end);
  Some out.

(** lifetime.fu:377-426 Paths_union of one path into a list: the new list, and whether it was added.
    Left of i is [done]; splice(i, 1) with i-- moves on to the next host. *)
Fixpoint add_path_loop (done rest : list path) (p : path) : option (list path * bool) :=
  match rest with
  | [] => Some (done ++ [p], true)
  | host :: rest' =>
      let minL := Nat.min (length p) (length host) in
      do _ <- check (negb (minL =? 0)%nat);
      if path_eqb (firstn (minL - 1) p) (firstn (minL - 1) host) then
        do a_sr <- nth_error host (minL - 1);
        do b_sr <- nth_error p (minL - 1);
        let a0 := flatOffset a_sr in let a1 := a0 + flatCount a_sr in
        let b0 := flatOffset b_sr in let b1 := b0 + flatCount b_sr in
        let host_within_path := (b0 <=? a0) && (a1 <=? b1) in
        let path_within_host := (a0 <=? b0) && (b1 <=? a1) in
        if path_within_host && (length host <=? length p)%nat then Some (done ++ host :: rest', false)
        else if host_within_path && (length p <=? length host)%nat then add_path_loop done rest' p
        else add_path_loop (done ++ [host]) rest' p
      else add_path_loop (done ++ [host]) rest' p
  end.
Definition add_path (result : list path) (p : path) : option (list path) :=
  do q <- add_path_loop [] result p; Some (fst q).
Fixpoint add_paths (result ps : list path) : option (list path) :=
  match ps with [] => Some result | p :: ps => do result <- add_path result p; add_paths result ps end.
(** lifetime.fu:431-440 *)
Definition Paths_union (str a b : list Z) (mismatchOK : bool) : option (list Z) :=
  do result <- parsePaths a;
  do b <- parsePaths b;
  do result <- add_paths result b;
  appendPaths str result false mismatchOK.

(** lifetime.fu:452-491: one pair of paths.  [inter] comes in as the previous pair left it: it is cleared only when
    two paths do not overlap.  Some None: cleared, next pair. *)
Definition overlap (a b : subregion) : Z :=
  Z.min (flatOffset b + flatCount b - flatOffset a) (flatOffset a + flatCount a - flatOffset b).
Fixpoint inter_path (inter a b : path) : option (option path) :=
  match a, b with
  | x :: a', y :: b' =>
      if overlap x y <=? 0 then Some None else
      let s := SR (Z.min (flatCount x) (flatCount y)) (Z.max (flatOffset x) (flatOffset y)) in
      do _ <- check (flatCount s <=? overlap x y);
      inter_path (inter ++ [s]) a' b'
  | _, _ => do _ <- check (match inter with [] => false | _ => true end); Some (Some (inter ++ a ++ b))
  end.
Fixpoint inter_pairs (result : list path) (inter : path) (pairs : list (path * path)) : option (list path) :=
  match pairs with
  | [] => Some result
  | (a, b) :: pairs =>
      do q <- inter_path inter a b;
      match q with
      | None => inter_pairs result [] pairs
      | Some inter => do result <- add_path result inter; inter_pairs result inter pairs
      end
  end.
(** lifetime.fu:442-497 *)
Definition Paths_inter (str a b : list Z) : option (list Z) :=
  let (a, b) := if zlen a <? zlen b then (b, a) else (a, b) in
  do a <- parsePaths a;
  do b <- parsePaths b;
  do result <- inter_pairs [] [] (list_prod a b);
  appendPaths str result true true.

(** ** lifetime.fu:502-616 Paths_hasInter *)
(** usage.fu:106-113 *)
Record rwquals := RW { rw_usage : Z; rw_written : Z }.
Definition abs_usage (rw : rwquals) (flatOffset : Z) : option rwquals :=
  do u <- structUsageFromFieldUsage (rw_usage rw) flatOffset;
  do w <- structUsageFromFieldUsage (rw_written rw) flatOffset;
  Some (RW u w).
(** 511-527: the subregions at the last common level, or None if some level is disjoint *)
Fixpoint common (a b : path) (x y : subregion) : option (subregion * subregion) :=
  match a, b with
  | x :: a, y :: b => if overlap x y <=? 0 then None else common a b x y
  | _, _ => Some (x, y)
  end.
(** 529-545 TEST_verifyUsageBitRanges *)
Definition verify_ranges (a : subregion) (rw : rwquals) : option unit :=
  do range <- getRegionUsage (flatOffset a) (flatCount a);
  check ((Z.land range (rw_usage rw) =? rw_usage rw) && negb (Z.land range (rw_usage rw) =? 0)
         && (Z.land (rw_written rw) (rw_usage rw) =? rw_written rw)).
(** 547-554 checkUsage: false is "continue with the next pair" *)
Definition check_usage (a : subregion) (rw : Z) : option bool :=
  do range <- getRegionUsage (flatOffset a) (flatCount a); Some (negb (Z.land range rw =? 0)).
Definition writes (rw : option rwquals) : bool := match rw with None => true | Some rw => negb (rw_written rw =? 0) end.
(** 556-611: whether this pair counts *)
Definition pair_inter (a_path b_path : path) (rw_left rw_right : option rwquals) : option bool :=
  match common a_path b_path (SR 0 0) (SR 0 0) with
  | None => Some false
  | Some (a, b) =>
      do lft <- (match rw_left with
        | Some l =>
            if (length a_path <=? length b_path)%nat then
              do abs_left <- abs_usage l (flatOffset a);
              do _ <- verify_ranges a abs_left;
              do ok <- check_usage b (if writes rw_right then rw_usage abs_left else rw_written abs_left);
              Some (ok, abs_left)
            else Some (true, RW 0 0)
        | None => Some (true, RW 0 0)
        end);
      let (ok, abs_left) := (lft : bool * rwquals) in
      if negb ok then Some false else
      match rw_right with
      | Some r =>
          if (length b_path <=? length a_path)%nat then
            do abs_right <- abs_usage r (flatOffset b);
            do _ <- verify_ranges b abs_right;
            do ok <- check_usage a (if writes rw_left then rw_usage abs_right else rw_written abs_right);
            if negb ok then Some false else
            match rw_left with
            | Some _ =>
                if (length b_path =? length a_path)%nat then
                  Some (negb (Z.land (rw_written abs_right) (rw_usage abs_left) =? 0) ||
                        negb (Z.land (rw_written abs_left) (rw_usage abs_right) =? 0))
                else Some true
            | None => Some true
            end
          else Some true
      | None => Some true
      end
  end.
Fixpoint some_pair (pairs : list (path * path)) (l r : option rwquals) : option bool :=
  match pairs with
  | [] => Some false
  | (a, b) :: pairs => do q <- pair_inter a b l r; if (q : bool) then Some true else some_pair pairs l r
  end.
Definition Paths_hasInter (a b : list Z) (rw_left rw_right : option rwquals) : option bool :=
  do a <- parsePaths a;
  do b <- parsePaths b;
  some_pair (list_prod a b) rw_left rw_right.

(** ** Lifetimes *)
(** module.fu:539-543, lifetime.fu:662-684 *)
Definition sign_rotate (v : Z) : Z := Z.lxor (wshl 32 (wrap 32 v) 1) (if v <? 0 then 2 ^ 32 - 1 else 0).
Definition sign_unrotate (v : Z) : Z := signed 32 (Z.lxor (wshr v 1) (if Z.land v 1 =? 0 then 0 else 2 ^ 32 - 1)).
Definition appendLocid (str : list Z) (locid : Z) : option (list Z) := append7bit str (wshl 32 (sign_rotate locid) 1).
Definition unpackLocid (r : Z) : Z := if Z.land r 1 =? 0 then sign_unrotate (wshr r 1) else 0.

(** lifetime.fu:689-701 *)
Definition Lifetime_from_locid (locid flatCount : Z) : option (list Z) :=
  do _ <- check (negb (locid =? 0));
  do str <- appendLocid [] locid;
  appendSubRegion str (SR flatCount 0) true true.
(** lifetime.fu:703-713 *)
Definition Lifetime_from_argidx (argidx : Z) (paths : list Z) : option (list Z) :=
  do _ <- check (0 <=? argidx);
  do str <- append7bit [] (Z.lor (wshl 32 argidx 2) 3);
  Some (str ++ paths).
(** lifetime.fu:717-727 *)
Definition Lifetime_AAR (locid : Z) : option (list Z) :=
  do _ <- check (locid <? 0);
  do str <- appendLocid [] locid;
  Some (str ++ SR_empty).

(** lifetime.fu:804-823: the order regions are stored in, innermost first; 0 is the same region *)
Definition cmp3 (a b : Z) : Z := if a <? b then -1 else if b <? a then 1 else 0.
Definition region_cmp (l r : Z) : Z :=
  if negb (Bool.eqb (isStaticOrZeroes l) (isStaticOrZeroes r)) then (if isStaticOrZeroes r then -1 else 1)
  else if negb (Bool.eqb (isTemporary l) (isTemporary r)) then (if isTemporary r then 1 else -1)
  else if Z.land l 3 =? 2 then (if Z.land r 3 =? 2 then cmp3 l r else 1)
  else if Z.land r 3 =? 2 then -1 else cmp3 r l.

(** lifetime.fu:776-779, 1045-1046: one region of a string, and where it ends *)
Record entry := { e_r : Z; e_start : Z; e_paths0 : Z; e_end : Z }.
Definition load (chars : list Z) (offset : Z) : option entry :=
  do q <- parse7bit chars offset;
  do w <- walk_paths chars (snd q) true;
  Some {| e_r := fst q; e_start := offset; e_paths0 := snd q; e_end := snd w |}.

(** lifetime.fu:732-883 merge, with [rest] given, as all its callers do: then l_done and r_done stay false.
    The callbacks are one function of an event; Ret is a return out of the caller. *)
Inductive ev :=
| EBoth (r_both sr_left sr_right : list Z) (locid : Z)
| EEither (raw : list Z)
| ELeftDone | ERightDone
| ERest (raw : list Z).
Inductive act (St Res : Type) := Go (s : St) | Ret (r : Res).
Arguments Go {St Res}. Arguments Ret {St Res}.
Definition whole (chars : list Z) (e : entry) : list Z := slice chars (e_start e) (e_end e).
Section MERGE.
Context {St Res : Type} (on : St -> ev -> option (act St Res)) (lc rc : list Z).
(** done: then the rest, and out *)
Definition finish (s : St) (d : ev) (rest : list Z) : option (act St Res) :=
  do a <- on s d; match a with Ret r => Some (Ret r) | Go s => on s (ERest rest) end.
(** [l], [r]: the loaded region, or None (dirty); [lo], [ro]: the offsets *)
Fixpoint merge_loop (fuel : nat) (s : St) (l : option entry) (lo : Z) (r : option entry) (ro : Z) : option (act St Res) :=
  match fuel with
  | O => None
  | S f =>
      do l' <- (match l with
                | Some e => Some (Some e)
                | None => if lo <? zlen lc then do e <- load lc lo; Some (Some e) else Some None
                end);
      match l' with
      | None => finish s ELeftDone (slice_from rc (match r with None => ro | Some e => e_start e end))
      | Some le =>
          do r' <- (match r with
                    | Some e => Some (Some e)
                    | None => if ro <? zlen rc then do e <- load rc ro; Some (Some e) else Some None
                    end);
          match r' with
          | None => finish s ERightDone (slice_from lc (e_start le))
          | Some re =>
              let cmp := region_cmp (e_r le) (e_r re) in
              if cmp =? 0 then
                do a <- on s (EBoth (slice lc (e_start le) (e_paths0 le)) (slice lc (e_paths0 le) (e_end le))
                                    (slice rc (e_paths0 re) (e_end re)) (unpackLocid (e_r re)));
                match a with Ret x => Some (Ret x) | Go s => merge_loop f s None (e_end le) None (e_end re) end
              else if cmp <? 0 then
                do a <- on s (EEither (whole lc le));
                match a with Ret x => Some (Ret x) | Go s => merge_loop f s None (e_end le) (Some re) (e_end re) end
              else
                do a <- on s (EEither (whole rc re));
                match a with Ret x => Some (Ret x) | Go s => merge_loop f s (Some le) (e_end le) None (e_end re) end
          end
      end
  end.
Definition merge (s : St) : option (act St Res) := merge_loop (S (length lc + length rc)) s None 0 None 0.
End MERGE.

(** lifetime.fu:888-925 *)
Definition Lifetime_union (a b : list Z) (mismatchOK : bool) : option (list Z) :=
  do x <- merge (fun result e =>
    match e with
    | EEither raw => Some (Go (result ++ raw))
    | EBoth r_both sr_left sr_right _ =>
        let result := result ++ r_both in
        if beq sr_left sr_right || beq sr_left SR_empty then Some (Go (result ++ sr_left))
        else if beq sr_right SR_empty then Some (Go (result ++ sr_right))
        else do result <- Paths_union result sr_left sr_right mismatchOK; Some (Go result)
    | ELeftDone => Some (match result with [] => Ret b | _ => Go result end)
    | ERightDone => Some (match result with [] => Ret a | _ => Go result end)
    | ERest either => Some (Go (result ++ either))
    end) a b [];
  match x with Go result => Some result | Ret r => Some r end.
(** lifetime.fu:927-963 *)
Definition Lifetime_inter (a b : list Z) : option (list Z) :=
  do x <- merge (Res := list Z) (fun result e =>
    match e with
    | EBoth r_both sr_left sr_right _ =>
        if beq sr_left sr_right || beq sr_right SR_empty then Some (Go (result ++ r_both ++ sr_left))
        else if beq sr_left SR_empty then Some (Go (result ++ r_both ++ sr_right))
        else do inter <- Paths_inter [] sr_left sr_right;
             Some (Go (match inter with [] => result | _ => result ++ r_both ++ inter end))
    | _ => Some (Go result)
    end) a b [];
  match x with Go result => Some result | Ret r => Some r end.
(** lifetime.fu:965-995 *)
Definition same_region_inter (l r : option rwquals) : bool :=
  match l, r with
  | Some l, Some r => negb (Z.land (rw_written l) (rw_usage r) =? 0) || negb (Z.land (rw_written r) (rw_usage l) =? 0)
  | _, _ => true
  end.
Definition Lifetime_hasInter (a b : list Z) (rw_left rw_right : option rwquals) : option bool :=
  if negb (writes rw_left) && negb (writes rw_right) then Some false else
  do x <- merge (fun (s : unit) e =>
    match e with
    | EBoth _ sr_left sr_right _ =>
        do hit <- (if beq sr_left sr_right then Some (same_region_inter rw_left rw_right)
                   else if beq sr_left SR_empty || beq sr_right SR_empty then Some true
                   else Paths_hasInter sr_left sr_right rw_left rw_right);
        Some (if (hit : bool) then Ret true else Go s)
    | _ => Some (Go s)
    end) a b tt;
  match x with Go _ => Some false | Ret r => Some r end.
(** lifetime.fu:997-1022 *)
Definition Lifetime_interLocids (a b : list Z) : option (list Z) :=
  do x <- merge (Res := list Z) (fun result e =>
    match e with
    | EBoth _ sr_left sr_right locid =>
        if locid =? 0 then Some (Go result) else
        do hit <- (if beq sr_left sr_right || beq sr_left SR_empty || beq sr_right SR_empty then Some true
                   else Paths_hasInter sr_left sr_right None None);
        Some (Go (if (hit : bool) then result ++ [locid] else result))
    | _ => Some (Go result)
    end) a b [];
  match x with Go result => Some result | Ret r => Some r end.
(** lifetime.fu:1026-1031 *)
Definition Lifetime_add (l r : list Z) (mismatchOK : bool) : option (list Z) :=
  match r with [] => Some l | _ => Lifetime_union l r mismatchOK end.

(** lifetime.fu:1036-1065 Lifetime_each: the regions it visits *)
Fixpoint each_loop (fuel : nat) (chars : list Z) (offset : Z) : option (list entry) :=
  match fuel with
  | O => None
  | S f => if offset <? zlen chars then do e <- load chars offset; do es <- each_loop f chars (e_end e); Some (e :: es)
           else Some []
  end.
Definition Lifetime_each (chars : list Z) : option (list entry) := each_loop (S (length chars)) chars 0.
Definition e_raw (chars : list Z) (e : entry) : list Z := slice chars (e_start e) (e_paths0 e).
Definition e_paths (chars : list Z) (e : entry) : list Z := slice chars (e_paths0 e) (e_end e).

(** lifetime.fu:23-25, 35-37 *)
Definition Region_STATIC : list Z := 1 :: SR_empty.
Definition Region_ZEROES : list Z := 5 :: SR_empty.
Definition Region_TEMP : list Z := 9 :: SR_empty.
(** lifetime.fu:1149-1157 *)
Definition hasTemporary (lt : list Z) : bool := beq (firstn (length Region_TEMP) lt) Region_TEMP.
Definition hasStatic (lt : list Z) : bool :=
  let n := length lt in
  (3 <=? n)%nat && beq (skipn (n - 2) lt) SR_empty && isStaticOrZeroes (nth (n - 3) lt 0).
(** lifetime.fu:1175-1189, 1204-1210 Lifetime_has by locid, and by argidx *)
Definition argidx_of (r : Z) : Z := if Z.land r 1 =? 0 then 0 else wshr r 2.
Definition Lifetime_has_locid (lt : list Z) (search : Z) : option bool :=
  do es <- Lifetime_each lt; Some (existsb (fun e => unpackLocid (e_r e) =? search) es).
Definition Lifetime_has_argidx (lt : list Z) (search : Z) : option bool :=
  do es <- Lifetime_each lt; Some (existsb (fun e => isArgIdx (e_r e) && (argidx_of (e_r e) =? search)) es).

(** ** Operations on lifetimes *)
Section OP.
Variable each : list Z -> list (list step) -> option (list Z).
Fixpoint op_regions (lt : list Z) (minPathDepth : Z) (es : list entry) (result : list Z) : option (list Z) :=
  match es with
  | [] => Some result
  | e :: es =>
      let result := result ++ e_raw lt e in
      let paths := e_paths lt e in
      if beq paths SR_empty then op_regions lt minPathDepth es (result ++ paths) else
      do _ <- check (negb (unpackLocid (e_r e) =? 0));
      let result0 := length result in
      do w <- walk_paths paths 0 false;
      do result <- each result (fst w);
      do _ <- assertPathsValid (skipn result0 result) false minPathDepth;
      op_regions lt minPathDepth es result
  end.
End OP.
(** lifetime.fu:1235-1261 *)
Definition Lifetime_op (lt : list Z) (minPathDepth : Z) (each : list Z -> list (list step) -> option (list Z)) : option (list Z) :=
  do es <- Lifetime_each lt; op_regions each lt minPathDepth es [].
(** The callbacks run on each path's last subregion. *)
Fixpoint on_last (f : list Z -> step -> option (list Z)) (result : list Z) (paths : list (list step)) : option (list Z) :=
  match paths with
  | [] => Some result
  | sts :: paths => do st <- last_step sts; do result <- f result st; on_last f result paths
  end.
(** lifetime.fu:1263-1284 *)
Definition field_step (fc fo : Z) (result : list Z) (st : step) : option (list Z) :=
  do _ <- check (fc + fo <=? flatCount (s_sub st));
  appendSubRegion (result ++ s_prefix st) (SR fc (flatOffset (s_sub st) + fo)) (s_last st) (s_lastPath st).
Definition Lifetime_op_field (lt : list Z) (fc fo : Z) : option (list Z) := Lifetime_op lt 1 (on_last (field_step fc fo)).
(** lifetime.fu:1286-1317: the first region's first path decides *)
Definition Lifetime_op_mask (lt : list Z) (quals : Z) : option (list Z) :=
  do q <- mask_region quals;
  let (fo, fc) := (q : Z * Z) in
  do _ <- check (0 <? fc);
  do es <- Lifetime_each lt;
  match es with
  | [] => None
  | e :: _ =>
      do w <- walk_paths (e_paths lt e) 0 false;
      match fst w with
      | [] => None
      | sts :: _ =>
          do st <- last_step sts;
          if q_USAGE_bitsize <? flatCount (s_sub st) then Some lt
          else do _ <- check (fc <=? flatCount (s_sub st)); Lifetime_op_field lt fc fo
      end
  end.
(** lifetime.fu:1319-1345 *)
Definition deref_step (fc : Z) (result : list Z) (st : step) : option (list Z) :=
  do _ <- check (flatCount (s_sub st) =? 1);
  do result <- appendSubRegion (result ++ s_prefix st) (s_sub st) false (s_lastPath st);
  appendSubRegion result (SR fc 0) true (s_lastPath st).
Definition Lifetime_op_deref (lt : list Z) (fc : Z) : option (list Z) := Lifetime_op lt 2 (on_last (deref_step fc)).
(** lifetime.fu:1347-1413 *)
Fixpoint join_subs (parent : step) (result : list Z) (child : list step) : option (list Z) :=
  match child with
  | [] => Some result
  | c :: child =>
      let result := if s_first c then result ++ s_prefix parent else result in
      do fo <- (if s_first c then
                  do _ <- check (flatOffset (s_sub c) + flatCount (s_sub c) <=? flatCount (s_sub parent));
                  Some (flatOffset (s_sub c) + flatOffset (s_sub parent))
                else Some (flatOffset (s_sub c)));
      do result <- appendSubRegion result (SR (flatCount (s_sub c)) fo) (s_last c) (s_lastPath parent && s_lastPath c);
      join_subs parent result child
  end.
Definition join_step (child : list Z) (result : list Z) (parent : step) : option (list Z) :=
  do w <- walk_paths child 0 false; join_subs parent result (concat (fst w)).
Definition Lifetime_op_join (lt child : list Z) : option (list Z) := Lifetime_op lt 1 (on_last (join_step child)).
(** lifetime.fu:1212-1215 *)
Definition Lifetime_makeShared (lt : list Z) (fc : Z) : option (list Z) :=
  do x <- Lifetime_op_deref lt fc; Lifetime_union x Region_STATIC false.

(** lifetime.fu:621-657; clz of an empty mask is undefined *)
Fixpoint popcount_loop (n : nat) (x : Z) : Z :=
  match n with O => 0 | S n => (if Z.testbit x (Z.of_nat n) then 1 else 0) + popcount_loop n x end.
Fixpoint shift_usage_loop (firsts : list step) (usage result : Z) : option Z :=
  match firsts with
  | [] => Some result
  | st :: firsts =>
      do u <- (if s_last st then
          do lz <- clz usage;
          do _ <- check ((q_USAGE_bitsize - lz <=? flatCount (s_sub st)) || (popcount_loop 32 usage <=? flatCount (s_sub st)));
          structUsageFromFieldUsage usage (flatOffset (s_sub st))
        else getRegionUsage (flatOffset (s_sub st)) (flatCount (s_sub st)));
      shift_usage_loop firsts usage (Z.lor result u)
  end.
Definition Lifetime_shiftUsage (paths : list Z) (usage : Z) : option Z :=
  do w <- walk_paths paths 0 false;
  shift_usage_loop (concat (map (firstn 1) (fst w))) usage 0.
