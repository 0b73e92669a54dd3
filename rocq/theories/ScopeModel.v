(** Model of src/scope.fu (name lookup) and of the solver code that opens, closes, saves and swaps scopes
    (src/solver.fu: Scope_pop/Scope_snap 757-797, entering a function body 7371-7396, ScopeSkip_push 6830-6844,
    LocalScope_union 657-699, the memo of a local function 6360-6361 and of a group of them 3570-3594).
    Strings are lists of bytes; i32 and u64 are Z.  None is a throw, a BUG (SELF_TEST is on, fail.fu:4), an access
    out of bounds, or a loop that does not end. *)
From Verif Require Export CanonModel.
Open Scope Z_scope.

Fixpoint str_eqb (a b : list Z) : bool :=
  match a, b with [], [] => true | x :: a, y :: b => (x =? y) && str_eqb a b | _, _ => false end.

(** ** scope.fu:11-37 and module.fu:241-245.  A scope item is a name and a u64: the target in the low 62 bits,
    bit 63: shadows, bit 62: canSkipRest (a cache). *)
Record scope_skip := Skip { sk_start : Z; sk_end : Z }.
Record scope_item := Item { si_id : list Z; si_packed : Z }.
Definition LOW62 : Z := 0x3fffffffffffffff.
Definition BIT63 : Z := 0x8000000000000000.
Definition BIT62 : Z := 0x4000000000000000.
(** scope.fu:20-21 *)
Definition si_target (si : scope_item) : Z := Z.land (si_packed si) LOW62.
(** scope.fu:23-24 *)
Definition si_shadows (si : scope_item) : bool := negb (Z.land (si_packed si) BIT63 =? 0).
(** scope.fu:26-27 *)
Definition si_canSkipRest (si : scope_item) : bool := negb (Z.land (si_packed si) BIT62 =? 0).
(** scope.fu:29-30 *)
Definition canSkipRest_set (si : scope_item) : scope_item := Item (si_id si) (Z.lor (si_packed si) BIT62).
(** scope.fu:32-33; the complement is within 64 bits *)
Definition canSkipRest_clear (si : scope_item) : scope_item := Item (si_id si) (Z.land (si_packed si) (2 ^ 64 - 1 - BIT62)).
(** scope.fu:35-37 *)
Definition ScopeItem (id : list Z) (target : Z) (shadows : bool) : scope_item :=
  Item id (Z.lor (Z.land target LOW62) (if shadows then BIT63 else 0)).

(** ** scope.fu:169-324: search.  It is a resumable loop; scope_iterator says where to resume, in three bands. *)
Definition BAND_ITEMS : Z := 0x10000000.
Definition BAND_ITEMS_END : Z := 0x1fffffff.
Definition BAND_FIELDS : Z := 0x60000000.
Definition BAND_FIELDS_END : Z := 0x6fffffff.
Definition BAND_EXTRA : Z := 0x70000000.
Definition BAND_EXTRA_END : Z := 0x7fffffff.

(** items.len *)
Definition slen {A} (l : list A) : Z := Z.of_nat (length l).
(** items[i] *)
Definition at_ {A} (l : list A) (i : Z) : option A := if i <? 0 then None else nth_error l (Z.to_nat i).

(** scope.fu:200-216, the loop of nextSkip: [rskips] are the skips from the last to the first *)
Fixpoint nextSkip_loop (rskips : list scope_skip) (it trap : Z) : Z * Z :=
  match rskips with
  | [] => (it, trap)
  | ss :: rest =>
      let s1 := sk_end ss - 1 in
      if s1 <? it then (it, s1) else
      let s0 := sk_start ss - 1 in
      nextSkip_loop rest (if s0 <? it then s0 else it) trap
  end.
(** scope.fu:200-220 *)
Definition nextSkip (skips : list scope_skip) (len it trap : Z) : option (Z * Z) :=
  let r := nextSkip_loop (rev skips) it trap in
  if len <=? snd r then None else Some r.

(** scope.fu:229-257, the loop over the items; Some (Some i): items[i] has the name; Some None: nothing left.
    Each turn that goes on lowers the iterator, so a turn for every item and one more are enough. *)
Fixpoint scan (turns : nat) (items : list scope_item) (id : list Z) (skips : list scope_skip) (it trap : Z)
  : option (option (Z * scope_item)) :=
  match turns with
  | O => None
  | S turns =>
      if it <=? 0 then Some None else
      let it := it - 1 in
      if it =? trap then
        do r <- nextSkip skips (slen items) it trap;
        scan turns items id skips (fst r + 1) (snd r)
      else
        do item <- at_ items it;
        if str_eqb (si_id item) id then Some (Some (it, item))
        else scan turns items id skips it trap
  end.

(** scope.fu:285-296 *)
Fixpoint scan_fields (n : nat) (fields : list scope_item) (id : list Z) : option (option (Z * scope_item)) :=
  match n with
  | O => Some None
  | S n =>
      do item <- nth_error fields n;
      if str_eqb (si_id item) id then Some (Some (Z.of_nat n, item)) else scan_fields n fields id
  end.

(** What a call of search gives back: the target (0: the empty Target), and the values of [ref shadows],
    [ref scope_iterator] and [ref items] when it returns. *)
Record answer := Answer { an_target : Z; an_shadows : bool; an_iter : Z; an_items : list scope_item }.

(** scope.fu:304-323 *)
Definition search_extra (items : list scope_item) (extra : list Z) (it : Z) : option answer :=
  let it := if it <? BAND_EXTRA then BAND_EXTRA + slen extra else it in
  if (BAND_EXTRA <? it) && (it <? BAND_EXTRA_END) then
    let it := it - BAND_EXTRA - 1 in
    do t <- at_ extra it;
    Some (Answer t false (it + BAND_EXTRA) items)
  else Some (Answer 0 false it items).

(** scope.fu:274-297 *)
Definition search_fields (items : list scope_item) (id : list Z) (extra : list Z) (fields : list scope_item) (it : Z) : option answer :=
  let it := if it <? BAND_FIELDS then BAND_FIELDS + slen fields else it in
  if (BAND_FIELDS <? it) && (it <? BAND_FIELDS_END) then
    do r <- scan_fields (Z.to_nat (it - BAND_FIELDS)) fields id;
    match r with
    | Some (i, item) => Some (Answer (si_target item) false (i + BAND_FIELDS) items)
    | None => search_extra items extra (-1)
    end
  else search_extra items extra it.

(** scope.fu:169-272 *)
Definition search (items : list scope_item) (id : list Z) (it : Z) (skips : list scope_skip) (extra : list Z) (fields : list scope_item)
  : option answer :=
  if it <? 0 then None else
  let it := if it <? BAND_ITEMS then BAND_ITEMS + slen items else it in
  if (BAND_ITEMS <? it) && (it <? BAND_ITEMS_END) then
    let it0 := it - BAND_ITEMS in
    do r <- nextSkip skips (slen items) (it0 - 1) (-1);
    do f <- scan (S (length items)) items id skips (fst r + 1) (snd r);
    match f with
    | Some (i, item) =>
        let i := if si_canSkipRest item then 0 else i in
        Some (Answer (si_target item) (si_shadows item) (i + BAND_ITEMS) items)
    | None =>
        (* scope.fu:260-270 *)
        if it0 <? slen items then
          do item <- at_ items it0;
          if str_eqb (si_id item) id then
            do items' <- upd items (Z.to_nat it0) (canSkipRest_set item);
            search_fields items' id extra fields (-1)
          else None
        else search_fields items id extra fields (-1)
    end
  else search_fields items id extra fields it.

(** ** solver.fu:6830-6844: ScopeSkip_push *)
Definition if_last (skips : list scope_skip) : scope_skip := last skips (Skip 0 0).
Definition ScopeSkip_push (skips : list scope_skip) (start end_ : Z) : option (list scope_skip) :=
  if negb (start <=? end_) then None else
  if end_ =? start then Some skips else
  let l := if_last skips in
  if negb (sk_end l <=? start) then None else
  match skips with
  | [] => Some [Skip start end_]
  | _ => if sk_end l =? start then Some (removelast skips ++ [Skip (sk_start l) end_]) else Some (skips ++ [Skip start end_])
  end.

(** ** solver.fu:662-691: reveal, the union of what a caller ([local]) and a callee ([eph], [eph_end]) see.
    None: the range is dropped; the inner loop carries [local] and [last]. *)
Definition MAX32 : Z := 2147483647.
Fixpoint reveal_one (local : scope_skip) (last : Z) (eph : list scope_skip) (eph_end : Z) : option scope_skip :=
  let turn (e : scope_skip) (go : scope_skip -> Z -> option scope_skip) : option scope_skip :=
    let local := if (last <=? sk_start local) && (sk_start local <? sk_start e) then Skip (sk_start e) (sk_end local) else local in
    if sk_end local <=? sk_start local then None else
    if sk_end local <? sk_start e then Some local else go local (sk_end e) in
  match eph with
  | [] => turn (Skip eph_end MAX32) (fun local _ => Some local)
  | e :: eph => turn e (fun local last => reveal_one local last eph eph_end)
  end.
Definition reveal (local eph : list scope_skip) (eph_end : Z) : list scope_skip :=
  flat_map (fun l => match reveal_one l 0 eph eph_end with Some s => [s] | None => [] end) local.

(** ** The solver's use of the scope, as a machine of events.
    Only [_scope.items] and its skips [_ss.items] are kept (implicits, usings, converts and so on are handled by the
    same code in the same places).  A call of search and what happens between two calls of it in one while loop
    (solver.fu:2312-2318: overloads are specialized, bodies solved, names looked up) are separate events. *)

(** What a local function remembers (solver.fu:6360-6361): eph.scope_skip and eph.scope_memo.items_len. *)
Record memo := Memo { me_skip : list scope_skip; me_len : Z }.

Inductive frame :=
| FBlock (len0 : Z) (fns : list memo)                                  (* let scope0 = Scope_snap(); defer Scope_pop(scope0) *)
| FBody (ss0 : list scope_skip) (root0 : option Z) (len0 : Z) (fns : list memo)  (* solver.fu:7371-7379, 7465-7474 *)
| FSearch (id : list Z) (extra : list Z) (fields : list scope_item) (it : Z)     (* a while loop over search *)
| FUnion (ss0 : list scope_skip).                                      (* solver.fu:2583-2592 *)

Record state := State { st_items : list scope_item; st_ss : list scope_skip; st_root : option Z; st_frames : list frame }.

Inductive event :=
| EPush (id : list Z) (target : Z) (shadows : bool)  (* Scope_set *)
| EFn                     (* a function is declared here, and remembers its scope *)
| EGroup (n : nat)        (* the last n functions declared here can all see each other *)
| EOpen                   (* a block *)
| EBody (n : nat)         (* the body of the n-th local function that is still remembered is entered *)
| EGlobal                 (* the body of a function that is not local is entered *)
| ELookup (id : list Z) (extra : list Z) (fields : list scope_item)
| ENext                   (* the innermost lookup moves on *)
| EClose                  (* the innermost of these ends: block, body, lookup *)
| EUnion (n : nat).       (* an autocall of the n-th function: caller and callee scopes are united *)

Definition frame_fns (f : frame) : list memo :=
  match f with FBlock _ fns => fns | FBody _ _ _ fns => fns | _ => [] end.
Definition all_fns (fs : list frame) : list memo := flat_map frame_fns fs.
Definition add_fn (m : memo) (fs : list frame) : option (list frame) :=
  match fs with
  | FBlock len0 fns :: fs => Some (FBlock len0 (m :: fns) :: fs)
  | FBody ss0 r0 len0 fns :: fs => Some (FBody ss0 r0 len0 (m :: fns) :: fs)
  | _ => None
  end.
(** solver.fu:3570-3594: all of the group get the memo of the last *)
Definition regroup (n : nat) (fns : list memo) : list memo :=
  match fns with
  | [] => []
  | m :: _ => map (fun x => Memo (me_skip x) (me_len m)) (firstn n fns) ++ skipn n fns
  end.
Definition group_fns (n : nat) (fs : list frame) : option (list frame) :=
  match fs with
  | FBlock len0 fns :: fs => Some (FBlock len0 (regroup n fns) :: fs)
  | FBody ss0 r0 len0 fns :: fs => Some (FBody ss0 r0 len0 (regroup n fns) :: fs)
  | _ => None
  end.
(** names are declared in a block or a body, not in the middle of a lookup *)
Definition can_push (fs : list frame) : bool :=
  match fs with FSearch _ _ _ _ :: _ | FUnion _ :: _ => false | _ => true end.
(** items.shrink(len) *)
Definition shrink (items : list scope_item) (len : Z) : list scope_item := firstn (Z.to_nat len) items.

(** solver.fu:7371-7396 and 7465-7474: enter a body; [m]: eph.scope_memo and eph.scope_skip, or None for a function
    that is not local.  [_root_scope] is taken to be set as soon as some function is being solved (in the code it
    counts as unset while all its lengths are 0). *)
Definition enter (m : option memo) (s : state) : option state :=
  let len := slen (st_items s) in
  do ss <- match st_root s with
           | None => Some (st_ss s)
           | Some root =>
               let start := match m with Some m => me_len m | None => root end in
               ScopeSkip_push (match m with Some m => me_skip m | None => [] end) start len
           end;
  Some (State (st_items s) ss (match st_root s with None => Some len | r => r end)
              (FBody (st_ss s) (st_root s) len [] :: st_frames s)).

(** One event; what it shows: for ENext the target found (0: none) and its shadows flag. *)
Definition step (s : state) (e : event) : option (state * option (Z * bool)) :=
  match e with
  | EPush id t sh =>
      if can_push (st_frames s)
      then Some (State (st_items s ++ [ScopeItem id t sh]) (st_ss s) (st_root s) (st_frames s), None) else None
  | EFn =>
      match st_root s with
      | None => None
      | Some _ => do fs <- add_fn (Memo (st_ss s) (slen (st_items s))) (st_frames s);
                  Some (State (st_items s) (st_ss s) (st_root s) fs, None)
      end
  | EGroup n => do fs <- group_fns n (st_frames s); Some (State (st_items s) (st_ss s) (st_root s) fs, None)
  | EOpen => Some (State (st_items s) (st_ss s) (st_root s) (FBlock (slen (st_items s)) [] :: st_frames s), None)
  | EBody n => do m <- nth_error (all_fns (st_frames s)) n; do s <- enter (Some m) s; Some (s, None)
  | EGlobal => do s <- enter None s; Some (s, None)
  | ELookup id extra fields => Some (State (st_items s) (st_ss s) (st_root s) (FSearch id extra fields 0 :: st_frames s), None)
  | ENext =>
      match st_frames s with
      | FSearch id extra fields it :: fs =>
          do a <- search (st_items s) id it (st_ss s) extra fields;
          Some (State (an_items a) (st_ss s) (st_root s) (FSearch id extra fields (an_iter a) :: fs),
                Some (an_target a, an_shadows a))
      | _ => None
      end
  | EClose =>
      match st_frames s with
      | FBlock len0 _ :: fs => Some (State (shrink (st_items s) len0) (st_ss s) (st_root s) fs, None)
      | FBody ss0 root0 len0 _ :: fs => Some (State (shrink (st_items s) len0) ss0 root0 fs, None)
      | FSearch _ _ _ _ :: fs => Some (State (st_items s) (st_ss s) (st_root s) fs, None)
      | FUnion ss0 :: fs => Some (State (st_items s) ss0 (st_root s) fs, None)
      | [] => None
      end
  | EUnion n =>
      do m <- nth_error (all_fns (st_frames s)) n;
      Some (State (st_items s) (reveal (st_ss s) (me_skip m) (me_len m)) (st_root s) (FUnion (st_ss s) :: st_frames s), None)
  end.

Fixpoint run (s : state) (es : list event) : option (state * list (Z * bool)) :=
  match es with
  | [] => Some (s, [])
  | e :: es =>
      do r <- step s e; do q <- run (fst r) es;
      Some (fst q, match snd r with Some o => o :: snd q | None => snd q end)
  end.
Definition init : state := State [] [] None [].

(** ** scope.fu:129-150: each; the positions it visits, in order *)
Fixpoint each_go (skips : list scope_skip) (len i0 : Z) : list Z :=
  let turn (ss : scope_skip) (go : Z -> list Z) : list Z :=
    if sk_end ss <=? i0 then go i0
    else map (fun k => i0 + Z.of_nat k) (seq 0 (Z.to_nat (sk_start ss - i0))) ++ go (sk_end ss) in
  match skips with
  | [] => turn (Skip len len) (fun _ => [])
  | ss :: skips => turn ss (fun i0 => each_go skips len i0)
  end.
Definition each {T} (items : list T) (skips : list scope_skip) (start : Z) : option (list (Z * T)) :=
  fold_right (fun i acc => do acc <- acc; do x <- at_ items i; Some ((i, x) :: acc)) (Some [])
             (each_go skips (slen items) start).
(** scope.fu:120-127 *)
Definition count {T} (items : list T) (skips : list scope_skip) : option Z := do l <- each items skips 0; Some (slen l).

(** scope.fu:152-167: reveach; [n] is i before the test of the loop, the function does not change i *)
Fixpoint reveach_go (turns : nat) (rskips : list scope_skip) (i : Z) : option (list Z) :=
  match turns with
  | O => None
  | S turns =>
      if i <=? 0 then Some [] else
      let i := i - 1 in
      match rskips with
      | ss :: rest => if i =? sk_end ss - 1 then reveach_go turns rest (sk_start ss)
                      else do l <- reveach_go turns rskips i; Some (i :: l)
      | [] => do l <- reveach_go turns rskips i; Some (i :: l)
      end
  end.
Definition reveach {T} (items : list T) (skips : list scope_skip) : option (list (Z * T)) :=
  do l <- reveach_go (2 * length items + length skips + 1) (rev skips) (slen items);
  fold_right (fun i acc => do acc <- acc; do x <- at_ items i; Some ((i, x) :: acc)) (Some []) l.

(** ** scope.fu:42-70: collect; [pub i]: overloads[i].flags & F_PUB *)
Fixpoint collect_go (items : list scope_item) (modid : Z) (pub : list bool) (public private : list scope_item)
  : option (list scope_item * list scope_item) :=
  match items with
  | [] => Some (public, private)
  | item :: items =>
      if negb (t_modid (si_target item) =? modid) then collect_go items modid pub public private else
      let item := canSkipRest_clear item in
      do p <- at_ pub (t_globid (si_target item) - 1);
      if p then collect_go items modid pub (public ++ [item]) private else collect_go items modid pub public (private ++ [item])
  end.
Definition collect (items : list scope_item) (modid : Z) (pub : list bool) : option (list scope_item * Z) :=
  do r <- collect_go items modid pub [] []; Some (fst r ++ snd r, slen (fst r)).

(** ** scope.fu:329-362: the two other searches *)
Definition search_targets (targets : list Z) (it : Z) : option (Z * Z) :=
  if it <? slen targets then do t <- at_ targets it; Some (t, it + 1) else Some (0, it).
Fixpoint scan_up (turns : nat) (l : list scope_item) (id : list Z) (it off : Z) : option (Z * option scope_item) :=
  match turns with
  | O => None
  | S turns =>
      if it <? off + slen l then
        do item <- at_ l (it - off);
        if str_eqb (si_id item) id then Some (it + 1, Some item) else scan_up turns l id (it + 1) off
      else Some (it, None)
  end.
Definition search_public (items : list scope_item) (id : list Z) (it : Z) (fields : list scope_item) : option (Z * Z) :=
  do r <- scan_up (S (length items)) items id it 0;
  match snd r with
  | Some item => Some (si_target item, fst r)
  | None =>
      do r <- scan_up (S (length fields)) fields id (fst r) (slen items);
      match snd r with
      | Some item => Some (si_target item, fst r)
      | None => Some (0, fst r)
      end
  end.

(** ** scope.fu:367-413 and module.fu:519-534: Scope_create for a nested overload; [T]: what it stores *)
Record extended (T : Type) := Ext { args_n_locals : list T; args_neg : Z }.
Arguments Ext {T}. Arguments args_n_locals {T}. Arguments args_neg {T}.
Definition indexOfLocal (args_neg locid : Z) : Z := args_neg - (if 0 <? locid then 1 else 0) + locid.
Definition nextIndexOfLocal {T} (ext : extended T) (asArgument : bool) : Z :=
  if asArgument then -1 - args_neg ext else slen (args_n_locals ext) + (1 - args_neg ext).
Definition create_local {T} (modid nest : Z) (ext : extended T) (asArgument : bool) (x : T) : option (extended T * Z) :=
  let position := nextIndexOfLocal ext asArgument in
  do target <- Target modid nest position;
  do l <- insert_at (if asArgument then O else length (args_n_locals ext)) x (args_n_locals ext);
  Some (Ext l (args_neg ext + (if asArgument then 1 else 0)), target).
