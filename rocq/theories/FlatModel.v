(** Model of src/flat.fu: sorted-array Set, Map and CountedSet. *)
From Verif Require Import Common.

Section Flat.
Context {K : Type} (cmp : K -> K -> Z).

(** src/flat.fu:33-61 [bfind] - binary search, calling [hit(i)] or [miss(lo)].
    [BBad] marks an out-of-bounds read, the signed overflow of [hi + lo]
    (int is 32 bits) or an exhausted loop bound. *)
Inductive bres := BHit (i : nat) | BMiss (i : nat) | BBad.

Fixpoint bfind_loop (fuel : nat) (keys : list K) (key : K) (lo hi : nat) : bres :=
  match fuel with
  | O => BBad
  | S f =>
    if lo <? hi then
      if (2^31 <=? Z.of_nat (hi + lo))%Z then BBad else
      let i := Nat.div2 (hi + lo) in
      match nth_error keys i with
      | None => BBad
      | Some k =>
        let c := cmp k key in
        if (c =? 0)%Z then BHit i
        else if (c <? 0)%Z then bfind_loop f keys key (i + 1) hi
        else bfind_loop f keys key lo i
      end
    else BMiss lo
  end.

Definition bfind (keys : list K) (key : K) : bres :=
  bfind_loop (S (length keys)) keys key 0 (length keys).

(** src/flat.fu:63-74 [has]. *)
Definition set_has (s : list K) (key : K) : option bool :=
  match bfind s key with BHit _ => Some true | BMiss _ => Some false | BBad => None end.

(** src/flat.fu:76-88 [add(key)]: result is (set', "was added"). *)
Definition set_add (s : list K) (key : K) : option (list K * bool) :=
  match bfind s key with
  | BHit _ => Some (s, false)
  | BMiss i => do s' <- insert_at i key s; Some (s', true)
  | BBad => None
  end.

(** src/flat.fu:160-172 [remove(key)]. *)
Definition set_remove (s : list K) (key : K) : option (list K * bool) :=
  match bfind s key with
  | BHit i => do s' <- splice_out i 1 s; Some (s', true)
  | BMiss _ => Some (s, false)
  | BBad => None
  end.

(** src/flat.fu:28 [clear]. *)
Definition set_clear (s : list K) : list K := [].

(** src/flat.fu:178-202 [add(a, b)]: in-place union, one insert per new key. *)
Fixpoint add_all_loop (fuel : nat) (a b : list K) (x y : nat) : option (list K) :=
  match fuel with
  | O => None
  | S f =>
    if (x <? length a) && (y <? length b) then
      do X <- nth_error a x;
      do Y <- nth_error b y;
      let c := cmp X Y in
      if (0 <=? c)%Z then
        if negb (c =? 0)%Z then
          do a' <- insert_at x Y a; add_all_loop f a' b (x + 1) (y + 1)
        else add_all_loop f a b (x + 1) (y + 1)
      else add_all_loop f a b (x + 1) y
    else
      if y <? length b then Some (a ++ skipn y b) else Some a
  end.
Definition set_add_all (a b : list K) : option (list K) :=
  add_all_loop (S (length a + length b)) a b 0 0.

(** src/flat.fu:204-229 [keep(a, b)]: in-place intersection. *)
Fixpoint keep_loop (fuel : nat) (a b : list K) (x y : nat) : option (list K) :=
  match fuel with
  | O => None
  | S f =>
    if (x <? length a) && (y <? length b) then
      do X <- nth_error a x;
      do Y <- nth_error b y;
      let c := cmp X Y in
      if (c =? 0)%Z then keep_loop f a b (x + 1) (y + 1)
      else if (0 <? c)%Z then keep_loop f a b x (y + 1)
      else do a' <- splice_out x 1 a; keep_loop f a' b x y
    else
      if x <? length a then Some (firstn x a) else Some a
  end.
Definition set_keep (a b : list K) : option (list K) :=
  keep_loop (S (length a + length b)) a b 0 0.

(** src/flat.fu:231-253 [remove(a, b)]: in-place difference. *)
Fixpoint remove_all_loop (fuel : nat) (a b : list K) (x y : nat) : option (list K) :=
  match fuel with
  | O => None
  | S f =>
    if (x <? length a) && (y <? length b) then
      do X <- nth_error a x;
      do Y <- nth_error b y;
      let c := cmp X Y in
      if (c =? 0)%Z then do a' <- splice_out x 1 a; remove_all_loop f a' b x (y + 1)
      else if (0 <? c)%Z then remove_all_loop f a b x (y + 1)
      else remove_all_loop f a b (x + 1) y
    else Some a
  end.
Definition set_remove_all (a b : list K) : option (list K) :=
  remove_all_loop (S (length a + length b)) a b 0 0.

(** src/flat.fu:258-294 [merge], instantiated with left/right/both callbacks.
    A callback gets (state, item, li, ri) and yields the new state and whether
    it returned from the enclosing function early. *)
Section Merge.
Context {St : Type} (cb_left cb_right cb_both : St -> K -> nat -> nat -> St * bool).

Fixpoint merge3_loop (fuel : nat) (l r : list K) (li ri : nat) (st : St) : option (St * bool) :=
  match fuel with
  | O => None
  | S f =>
    let l_done := li =? length l in
    let r_done := ri =? length r in
    if l_done && r_done then Some (st, false) else
    do c <- (if l_done then Some 1%Z else if r_done then Some (-1)%Z
             else do L <- nth_error l li; do R <- nth_error r ri; Some (cmp L R));
    if (c =? 0)%Z then
      do L <- nth_error l li;
      let '(st', stop) := cb_both st L li ri in
      if stop then Some (st', true) else merge3_loop f l r (li + 1) (ri + 1) st'
    else if (c <? 0)%Z then
      do L <- nth_error l li;
      let '(st', stop) := cb_left st L li ri in
      if stop then Some (st', true) else merge3_loop f l r (li + 1) ri st'
    else
      do R <- nth_error r ri;
      let '(st', stop) := cb_right st R li ri in
      if stop then Some (st', true) else merge3_loop f l r li (ri + 1) st'
  end.
Definition merge3 (l r : list K) (st : St) : option (St * bool) :=
  merge3_loop (S (length l + length r)) l r 0 0 st.

(** src/flat.fu:258-294 [merge], instantiated with left_or_both/right: line
    275-279 advances [ri] by [cmp == 0]. *)
Fixpoint merge2_loop (fuel : nat) (l r : list K) (li ri : nat) (st : St) : option (St * bool) :=
  match fuel with
  | O => None
  | S f =>
    let l_done := li =? length l in
    let r_done := ri =? length r in
    if l_done && r_done then Some (st, false) else
    do c <- (if l_done then Some 1%Z else if r_done then Some (-1)%Z
             else do L <- nth_error l li; do R <- nth_error r ri; Some (cmp L R));
    if (c <=? 0)%Z then
      do L <- nth_error l li;
      let '(st', stop) := cb_left st L li ri in
      if stop then Some (st', true)
      else merge2_loop f l r (li + 1) (if (c =? 0)%Z then ri + 1 else ri) st'
    else
      do R <- nth_error r ri;
      let '(st', stop) := cb_right st R li ri in
      if stop then Some (st', true) else merge2_loop f l r li (ri + 1) st'
  end.
Definition merge2 (l r : list K) (st : St) : option (St * bool) :=
  merge2_loop (S (length l + length r)) l r 0 0 st.
End Merge.

(** src/flat.fu:299-306 [has_inter]: early [return true] from the both-callback. *)
Definition set_has_inter (l r : list K) : option bool :=
  do '(_, stopped) <- merge3 (fun st _ _ _ => (st, false)) (fun st _ _ _ => (st, false))
                             (fun st _ _ _ => (st, true)) l r tt;
  Some stopped.

(** src/flat.fu:404-411 [misses_some(l, from)]. *)
Definition set_misses_some (l from : list K) : option bool :=
  do '(_, stopped) <- merge3 (fun st _ _ _ => (st, false)) (fun st _ _ _ => (st, true))
                             (fun st _ _ _ => (st, false)) l from tt;
  Some stopped.

(** src/flat.fu:308-343 [inter]; state = (useResult, result). *)
Definition inter_body (l r : list K) : option (list K) :=
  do '((useResult, result), _) <-
    merge3
      (fun '((u, res) : bool * list K) _ left _ =>
         (if negb u then (true, firstn left l) else (u, res), false))
      (fun st _ _ _ => (st, false))
      (fun '((u, res) : bool * list K) item _ _ =>
         (if u then (u, res ++ [item]) else (u, res), false))
      l r (false, []);
  Some (if useResult then result else l).
Definition set_inter (l r : list K) : option (list K) :=
  if length r <? length l then inter_body r l else inter_body l r.

(** src/flat.fu:345-375 [union]. *)
Definition union_body (l r : list K) : option (list K) :=
  do '((useResult, result), _) <-
    merge2
      (fun '((u, res) : bool * list K) item _ _ =>
         (if u then (u, res ++ [item]) else (u, res), false))
      (fun '((u, res) : bool * list K) item left _ =>
         let '(u1, res1) := if negb u then (true, res ++ firstn left l) else (u, res) in
         ((u1, res1 ++ [item]), false))
      l r (false, []);
  Some (if useResult then result else l).
Definition set_union (l r : list K) : option (list K) :=
  if length l <? length r then union_body r l else union_body l r.

(** src/flat.fu:377-399 [diff(from, remove)] (note: merges (remove, from)). *)
Definition set_diff (from remove : list K) : option (list K) :=
  do '((useResult, result), _) <-
    merge2
      (fun '((u, res) : bool * list K) _ _ right =>
         (if negb u then (true, firstn right from) else (u, res), false))
      (fun '((u, res) : bool * list K) item _ _ =>
         (if u then (u, res ++ [item]) else (u, res), false))
      remove from (false, []);
  Some (if useResult then result else from).

(** ** flat Map: src/flat.fu:444-447 *)
Section FMap.
Context {V : Type} (vdefault : V).

Record fmap := { fm_keys : list K; fm_vals : list V }.

(** src/flat.fu:146-158, 453-455 [get]. *)
Definition fm_get (m : fmap) (key : K) : option V :=
  match bfind (fm_keys m) key with
  | BHit i => nth_error (fm_vals m) i
  | BMiss _ => Some vdefault
  | BBad => None
  end.

(** src/flat.fu:449-451 [has]. *)
Definition fm_has (m : fmap) (key : K) : option bool := set_has (fm_keys m) key.

(** src/flat.fu:90-105, 477-481 [update]/[set]. *)
Definition fm_set (m : fmap) (key : K) (v : V) : option (fmap * bool) :=
  match bfind (fm_keys m) key with
  | BHit i => do vs <- upd (fm_vals m) i v; Some ({| fm_keys := fm_keys m; fm_vals := vs |}, false)
  | BMiss i =>
    do ks <- insert_at i key (fm_keys m);
    do vs <- insert_at i v (fm_vals m);
    Some ({| fm_keys := ks; fm_vals := vs |}, true)
  | BBad => None
  end.

(** src/flat.fu:107-124, 483-487 [ref], followed by the caller's in-place
    modification [f] of the returned reference; also returns the old value. *)
Definition fm_ref (m : fmap) (key : K) (init : V) (f : V -> option V) : option (fmap * V) :=
  do '(ks, vs, idx) <-
    match bfind (fm_keys m) key with
    | BHit i => Some (fm_keys m, fm_vals m, i)
    | BMiss i =>
      do vs <- insert_at i init (fm_vals m);
      do ks <- insert_at i key (fm_keys m);
      Some (ks, vs, i)
    | BBad => None
    end;
  do old <- nth_error vs idx;
  do new <- f old;
  do vs' <- upd vs idx new;
  Some ({| fm_keys := ks; fm_vals := vs' |}, old).

(** src/flat.fu:126-144, 489-502 [if] with a visitor that may overwrite the
    value and may remove the entry: [visit v = (v', remove?)]. *)
Definition fm_if (m : fmap) (key : K) (visit : V -> option (V * bool)) : option (fmap * bool) :=
  match bfind (fm_keys m) key with
  | BHit i =>
    do v <- nth_error (fm_vals m) i;
    do '(v', rm) <- visit v;
    do vs <- upd (fm_vals m) i v';
    if (rm : bool) then
      do ks' <- splice_out i 1 (fm_keys m);
      do vs' <- splice_out i 1 vs;
      Some ({| fm_keys := ks'; fm_vals := vs' |}, true)
    else Some ({| fm_keys := fm_keys m; fm_vals := vs |}, true)
  | BMiss _ => Some (m, false)
  | BBad => None
  end.

(** src/flat.fu:495-502 [remove]. *)
Definition fm_remove (m : fmap) (key : K) : option (fmap * bool) :=
  fm_if m key (fun v => Some (v, true)).

(** src/flat.fu:504-507 [clear]. *)
Definition fm_clear (m : fmap) : fmap := {| fm_keys := []; fm_vals := [] |}.

(** src/flat.fu:457-462 [each]: visits (key i, val i) for i < vals.len, in order. *)
Fixpoint fm_each_loop (ks : list K) (vs : list V) : option (list (K * V)) :=
  match vs with
  | [] => Some []
  | v :: vs' =>
    match ks with
    | [] => None
    | k :: ks' => do rest <- fm_each_loop ks' vs'; Some ((k, v) :: rest)
    end
  end.
Definition fm_each (m : fmap) : option (list (K * V)) := fm_each_loop (fm_keys m) (fm_vals m).
End FMap.
Arguments fmap : clear implicits.

(** ** CountedSet: src/flat.fu:512-565; CountType = i32 *)
Definition i32_max : Z := (2^31 - 1)%Z.
Definition cset := fmap Z.

(** signed [x + y] on i32; overflow is undefined. *)
Definition i32_add (x y : Z) : option Z :=
  let s := (x + y)%Z in
  if ((- 2^31 <=? s) && (s <=? i32_max))%Z then Some s else None.

(** src/flat.fu:549-554 [incr]: true iff the count was zero before. *)
Definition cs_incr (c : cset) (key : K) : option (cset * bool) :=
  do '(c', old) <- fm_ref c key 0%Z (fun v => i32_add v 1);
  Some (c', (old =? 0)%Z).

(** src/flat.fu:556-565 [try_decr]: true iff the last occurrence was removed. *)
Definition cs_try_decr (c : cset) (key : K) : option (cset * bool) :=
  match bfind (fm_keys c) key with
  | BHit i =>
    do v <- nth_error (fm_vals c) i;
    do v' <- i32_add v (-1);
    do '(c', _) <- fm_if c key (fun _ => Some (v', (v' =? 0)%Z));
    Some (c', (v' =? 0)%Z)
  | BMiss _ => Some (c, false)
  | BBad => None
  end.

(** src/flat.fu:532-534 [count]. *)
Definition cs_count (c : cset) (key : K) : option Z := fm_get 0%Z c key.

(** src/flat.fu:526-530 [total]. *)
Fixpoint cs_total_loop (vs : list Z) (acc : Z) : option Z :=
  match vs with
  | [] => Some acc
  | v :: vs' => do acc' <- i32_add acc v; cs_total_loop vs' acc'
  end.
Definition cs_total (c : cset) : option Z := cs_total_loop (fm_vals c) 0.

(** src/flat.fu:545-547 [remove]. *)
Definition cs_remove (c : cset) (key : K) : option (cset * bool) := fm_remove c key.
End Flat.
Arguments fmap : clear implicits.
Arguments fm_keys {K V}.
Arguments fm_vals {K V}.
Arguments Build_fmap {K V}.
