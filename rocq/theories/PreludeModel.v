(** Model of the generic array helpers in src/prelude.fu (PRELUDE_SRC).
    Arrays are lists; an element access outside the array is [None].
    Element equality is [eqb]; callbacks are pure functions. *)
From Verif Require Export Common.
Open Scope nat_scope.

Section Arrays.
Context {T : Type} (eqb : T -> T -> bool).

(** ** find *)

(** prelude.fu:346-353 find of one item: [for (i = 0; i < len; i++) if h[i] == needle return i];
    [h] is the part of the haystack from index i on.  Result: Some i, or None for -1. *)
Fixpoint find_item_from (h : list T) (c : T) (i : nat) : option nat :=
  match h with
  | [] => None
  | x :: h' => if eqb x c then Some i else find_item_from h' c (S i)
  end.
Definition find_item (h : list T) (c : T) : option nat := find_item_from h c 0.

(** prelude.fu:417-421 scan for the tail item:
    [while (haystack[i] != last) if (++i == haystack.len) return -1].
    None: out of bounds (or out of fuel); Some None: return -1. *)
Fixpoint scan (fuel : nat) (h : list T) (i : nat) (last : T) : option (option nat) :=
  match fuel with
  | O => None
  | S fuel' =>
      do x <- nth_error h i;
      if eqb x last then Some (Some i)
      else if S i =? length h then Some None
      else scan fuel' h (S i) last
  end.

(** prelude.fu:425-453 the match loop over j; true when the whole needle matches.
    [base] is i - needle_len_m1. *)
Fixpoint match_rest (fuel : nat) (h n : list T) (base m j : nat) : option bool :=
  match fuel with
  | O => None
  | S fuel' =>
      do x <- nth_error h (base + j);
      do y <- nth_error n j;
      if negb (eqb x y) then Some false
      else if S j =? m then Some true
      else match_rest fuel' h n base m (S j)
  end.

(** prelude.fu:433-441 [for (j = needle_len_m1; j --> 0; )]: distance from the tail to the
    previous item equal to the tail, needle.len if there is none. *)
Fixpoint calc_skip (j : nat) (n : list T) (m : nat) (last : T) : option nat :=
  match j with
  | O => Some (length n)
  | S j' =>
      do y <- nth_error n j';
      if eqb y last then Some (m - j') else calc_skip j' n m last
  end.

(** prelude.fu:413-454 the outer loop.  The int [i] may not pass 2^31 - 1. *)
Fixpoint find_loop (fuel : nat) (h n : list T) (m : nat) (last : T) (i skip : nat) : option (option nat) :=
  match fuel with
  | O => None
  | S fuel' =>
      if i <? length h then
        do s <- scan (length h) h i last;
        match s with
        | None => Some None
        | Some i =>
            do ok <- match_rest (length n) h n (i - m) m 0;
            if ok then Some (Some (i - m))
            else
              do skip <- (if skip =? 0 then calc_skip m n m last else Some skip);
              if (2 ^ 31 <=? Z.of_nat (i + skip))%Z then None else
              find_loop fuel' h n m last (i + skip) skip
        end
      else Some None
  end.

(** prelude.fu:356-457 find of a sub-array.  Outer None: trap; inner None: -1. *)
Definition find_arr (h n : list T) : option (option nat) :=
  if (length h <? length n) || (length n <=? 0) then
    Some (if length n =? 0 then Some 0 else None)
  else if length n =? 1 then do c <- nth_error n 0; Some (find_item h c)
  else
    let m := length n - 1 in
    do last <- nth_error n m;
    find_loop (S (length h)) h n m last m 0.

(** get_view (include/fu/view.h, C07), arguments in contract. *)
Definition view_between (h : list T) (a b : nat) : list T := firstn (b - a) (skipn a h).

(** prelude.fu:334-343 the windowed variants; [start] / [end] default to the whole
    array; the result is shifted back by start.  Bounds in contract
    (0 <= start <= end <= len) - get_view asserts that. *)
Definition find_window (h n : list T) (start end_ : nat) : option (option nat) :=
  if (start <=? end_) && (end_ <=? length h) then
    do r <- find_arr (view_between h start end_) n;
    Some (match r with Some k => Some (k + start) | None => None end)
  else None.
Definition find_start (h n : list T) (start : nat) : option (option nat) :=
  find_window h n start (length h).

(** prelude.fu:327 [has]. *)
Definition has (h n : list T) : option bool :=
  do r <- find_arr h n; Some (match r with Some _ => true | None => false end).

(** Element-wise array equality: [==] on arrays is the generic [<>] being zero
    (prelude.fu:799-811, 835-837), modelled in CmpModel.v; here the resulting test. *)
Fixpoint eqb_list (a b : list T) : bool :=
  match a, b with
  | [], [] => true
  | x :: a', y :: b' => eqb x y && eqb_list a' b'
  | _, _ => false
  end.

(** prelude.fu:462-482 [starts], [ends]. *)
Definition starts_item (a : list T) (c : T) : option bool :=
  if length a =? 0 then Some false else do x <- nth_error a 0; Some (eqb x c).
Definition ends_item (a : list T) (c : T) : option bool :=
  if length a =? 0 then Some false else do x <- nth_error a (length a - 1); Some (eqb x c).
Definition starts (a w : list T) : bool :=
  (length w <=? length a) && eqb_list (view_between a 0 (length w)) w.
Definition ends (a w : list T) : bool :=
  (length w <=? length a) && eqb_list (view_between a (length a - length w) (length a)) w.

(** ** split / join / replace *)

(** prelude.fu:645-661 [split(str, sep, each)]: the list of (piece, first, last) the
    callback receives, in order.  [N] is the separator length; the separator is given as an
    array ([sep: T] searches for the one-item array, prelude.fu:346-353, 363-364). *)
Fixpoint split_loop (fuel : nat) (s sep : list T) (N last : nat) : option (list (list T * bool * bool)) :=
  match fuel with
  | O => None
  | S fuel' =>
      do r <- find_start s sep last;
      match r with
      | Some next =>
          do rest <- split_loop fuel' s sep N (next + N);
          Some ((view_between s last next, last =? 0, false) :: rest)
      | None =>
          if last =? 0 then Some [(s, true, true)]
          else Some [(view_between s last (length s), false, true)]
      end
  end.
Definition split_each (s sep : list T) : option (list (list T * bool * bool)) :=
  if length sep =? 0 then Some [(s, true, true)]
  else split_loop (S (S (length s))) s sep (length sep) 0.

(** prelude.fu:663-668 [split]: collects the pieces. *)
Definition split_on (s sep : list T) : option (list (list T)) :=
  do l <- split_each s sep; Some (map (fun p => fst (fst p)) l).

(** prelude.fu:676-690 [replace]. The callback runs over the pieces in order; [return str]
    inside it leaves replace. *)
Fixpoint replace_loop (s w : list T) (l : list (list T * bool * bool)) (result : list T) : list T :=
  match l with
  | [] => result
  | (sub, first, last) :: l' =>
      if negb first then replace_loop s w l' ((result ++ w) ++ sub)
      else if last then s
      else replace_loop s w l' (result ++ sub)
  end.
Definition replace (s all w : list T) : option (list T) :=
  do l <- split_each s all; Some (replace_loop s w l []).

(** [res[a .. a + len] .= src] (include/fu/vec/view_assign.h): the window must lie inside res. *)
Definition blit (res : list (option T)) (a : nat) (src : list T) : option (list (option T)) :=
  if a + length src <=? length res
  then Some (firstn a res ++ map Some src ++ skipn (a + length src) res) else None.

(** prelude.fu:610-643 [join].  The separator is absent, an item or an array. *)
Inductive sep_t := SepNone | SepItem (c : T) | SepArr (l : list T).
Definition sep_len (s : sep_t) : nat := match s with SepNone => 0 | SepItem _ => 1 | SepArr l => length l end.
(* 616-618 *)
Fixpoint join_size (N : nat) (a : list (list T)) (size : nat) : nat :=
  match a with [] => size | x :: a' => join_size N a' (size + (N + length x)) end.
(* 626-640 *)
Fixpoint join_loop (sep : sep_t) (a : list (list T)) (res : list (option T)) (size : nat) : option (list (option T)) :=
  match a with
  | [] => Some res
  | range :: a' =>
      do res <- match sep with
                | SepArr l => blit res size l
                | SepItem c => upd res size (Some c)
                | SepNone => Some res
                end;
      let size := size + sep_len sep in
      do res <- blit res size range;
      join_loop sep a' res (size + length range)
  end.
(** The result is [None] cells where grow_junk's junk was left in place. *)
Definition join (a : list (list T)) (sep : sep_t) : option (list (option T)) :=
  match a with
  | [] => Some []
  | [x] => Some (map Some x)
  | x :: a' =>
      let size := join_size (sep_len sep) a' (length x) in
      let res := repeat None size in
      do res <- blit res 0 x;
      join_loop sep a' res (length x)
  end.

(** ** In-place helpers *)

(** prelude.fu:870-876 [reverse]: [for (i = 0; i < len >> 1; i++) a.swap(i, len - 1 - i)]. *)
Fixpoint reverse_loop (fuel i n1 : nat) (a : list T) : option (list T) :=
  match fuel with
  | O => Some a
  | S fuel' => do a' <- swap_at i (n1 - i) a; reverse_loop fuel' (S i) n1 a'
  end.
Definition reverse (a : list T) : option (list T) :=
  reverse_loop (length a / 2) 0 (length a - 1) a.

(** prelude.fu:514-526 [partition] *)
Fixpoint partition_loop (fuel : nat) (pred : T -> nat -> bool) (i keep : nat) (a : list T) : option (nat * list T) :=
  match fuel with
  | O => Some (keep, a)
  | S fuel' =>
      do x <- nth_error a i;
      if negb (pred x i) then
        do a' <- (if keep <? i then swap_at i keep a else Some a);
        partition_loop fuel' pred (S i) (S keep) a'
      else partition_loop fuel' pred (S i) keep a
  end.
Definition partition_by (pred : T -> nat -> bool) (start : nat) (a : list T) : option (nat * list T) :=
  partition_loop (length a - start) pred start start a.

(** prelude.fu:528-551 [remove(predicate)]: for trivial items it runs the compaction and then
    hits [assert(false)] (line 545); otherwise shrink(partition). *)
Definition remove_pred (trivial : bool) (pred : T -> nat -> bool) (a : list T) : option (list T) :=
  if trivial then None
  else do r <- partition_by pred 0 a;
       let '(keep, a') := r in
       if keep <=? length a' then Some (firstn keep a') else None.

(** prelude.fu:288-292 [resize(len, v)]: resize_junk then fill the tail.
    Junk cells are [None]. *)
Fixpoint fill_loop (fuel i : nat) (v : T) (a : list (option T)) : option (list (option T)) :=
  match fuel with
  | O => Some a
  | S fuel' => do a' <- upd a i (Some v); fill_loop fuel' (S i) v a'
  end.
Definition resize_with (len : nat) (v : T) (a : list T) : option (list (option T)) :=
  let len0 := length a in
  let junk := map Some (firstn len a) ++ repeat None (len - len0) in
  fill_loop (len - len0) len0 v junk.

(** prelude.fu:878-894 [all], [some] over [each] (863-868). *)
Fixpoint all_loop (pred : T -> nat -> bool) (a : list T) (i : nat) : bool :=
  match a with [] => true | x :: a' => if negb (pred x i) then false else all_loop pred a' (S i) end.
Definition all (pred : T -> nat -> bool) (a : list T) : bool := all_loop pred a 0.
Fixpoint some_loop (pred : T -> nat -> bool) (a : list T) (i : nat) : bool :=
  match a with [] => false | x :: a' => if pred x i then true else some_loop pred a' (S i) end.
Definition some (pred : T -> nat -> bool) (a : list T) : bool := some_loop pred a 0.

(** prelude.fu:899-935 accessors; None: assertion / out of bounds. *)
Definition only (a : list T) : option T := if length a =? 1 then nth_error a 0 else None.
Definition first (a : list T) : option T := nth_error a 0.
Definition last_ (a : list T) : option T := if length a =? 0 then None else nth_error a (length a - 1).
(** [if_only], [if_first], [if_last], [if(exists)] with a default value for else. *)
Definition if_only (a : list T) (d : T) : option T := if length a =? 1 then nth_error a 0 else Some d.
Definition if_first (a : list T) (d : T) : option T := if length a =? 0 then Some d else nth_error a 0.
Definition if_last (a : list T) (d : T) : option T := if length a =? 0 then Some d else nth_error a (length a - 1).
(** [i.unsigned < a.len.unsigned]: i is any 32-bit int. *)
Definition if_exists (a : list T) (i : Z) (d : T) : option T :=
  if (i mod 2 ^ 32 <? Z.of_nat (length a))%Z then nth_error a (Z.to_nat (i mod 2 ^ 32)) else Some d.
(** [ensure(exists i)]: grow fills with defaults; yields the item and the grown array. *)
Definition ensure (dflt : T) (a : list T) (i : nat) : option (T * list T) :=
  let a' := if length a <=? i then a ++ repeat dflt (S i - length a) else a in
  do x <- nth_error a' i; Some (x, a').

(** prelude.fu:949-958 [steal(start)] and 960-971 [steal(start, end)]: ret starts as [size]
    defaults, each ret[i] is swapped with a[i + start], then the tail / window is cut off. *)
Fixpoint steal_loop (fuel i start : nat) (ret a : list T) : option (list T * list T) :=
  match fuel with
  | O => Some (ret, a)
  | S fuel' =>
      do x <- nth_error ret i;
      do y <- nth_error a (i + start);
      do ret' <- upd ret i y;
      do a' <- upd a (i + start) x;
      steal_loop fuel' (S i) start ret' a'
  end.
Definition steal_from (dflt : T) (a : list T) (start : nat) : option (list T * list T) :=
  if start <=? length a then
    let size := length a - start in
    do r <- steal_loop size 0 start (repeat dflt size) a;
    let '(ret, a') := r in Some (ret, firstn start a')
  else None.
Definition steal_between (dflt : T) (a : list T) (start end_ : nat) : option (list T * list T) :=
  if start <=? end_ then
    let size := end_ - start in
    do r <- steal_loop size 0 start (repeat dflt size) a;
    let '(ret, a') := r in
    do a'' <- splice_out start size a'; Some (ret, a'')
  else None.

End Arrays.
Arguments SepNone {T}.

(** prelude.fu:852-861 [map]: res starts as a.len junk cells. *)
Fixpoint map_loop {T U} (f : T -> nat -> U) (a : list T) (i : nat) (res : list (option U)) : option (list (option U)) :=
  match a with
  | [] => Some res
  | x :: a' => do res' <- upd res i (Some (f x i)); map_loop f a' (S i) res'
  end.
Definition map_ {T U} (f : T -> nat -> U) (a : list T) : option (list (option U)) :=
  map_loop f a 0 (repeat None (length a)).
