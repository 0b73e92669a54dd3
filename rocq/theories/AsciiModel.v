(** Model of lib/ascii.fu.  Bytes are [Z] in 0..255. *)
From Verif Require Export Words.
Open Scope Z_scope.

(** lib/ascii.fu:46-51 [upper(c: byte)].  'a'=97 'z'=122 'A'=65. *)
Definition upper_c (c : Z) : Z :=
  if (97 <=? c) && (c <=? 122) then wrap 8 (c + (65 - 97)) else c.

(** lib/ascii.fu:53-58 [lower(c: byte)]. *)
Definition lower_c (c : Z) : Z :=
  if (65 <=? c) && (c <=? 90) then wrap 8 (c + (97 - 65)) else c.

(** lib/ascii.fu:2-10 [to_upper(ref str)] and 22-32 [upper(mut str)]: the index
    loop [for (mut i = 0; i < str.len; i++)] rewriting str[i] in place.
    [fuel] is the trip count len - i. *)
Fixpoint to_upper_loop (fuel : nat) (i : nat) (s : list Z) : option (list Z) :=
  match fuel with
  | O => Some s
  | S fuel' =>
      do c <- nth_error s i;
      do s' <- (if (97 <=? c) && (c <=? 122) then upd s i (wrap 8 (c + (65 - 97))) else Some s);
      to_upper_loop fuel' (S i) s'
  end.
Definition to_upper (s : list Z) : option (list Z) := to_upper_loop (length s) 0 s.
Definition upper (s : list Z) : option (list Z) := to_upper_loop (length s) 0 s.

(** lib/ascii.fu:12-20 [to_lower] and 34-44 [lower(mut str)]. *)
Fixpoint to_lower_loop (fuel : nat) (i : nat) (s : list Z) : option (list Z) :=
  match fuel with
  | O => Some s
  | S fuel' =>
      do c <- nth_error s i;
      do s' <- (if (65 <=? c) && (c <=? 90) then upd s i (wrap 8 (c + (97 - 65))) else Some s);
      to_lower_loop fuel' (S i) s'
  end.
Definition to_lower (s : list Z) : option (list Z) := to_lower_loop (length s) 0 s.
Definition lower (s : list Z) : option (list Z) := to_lower_loop (length s) 0 s.

(** lib/ascii.fu:62-65: first loop of [trim]; [fuel] = len - start. *)
Fixpoint trim_start (fuel : nat) (start : nat) (s : list Z) : option nat :=
  match fuel with
  | O => Some start
  | S fuel' =>
      do c <- nth_error s start;
      if 32 <? c then Some start else trim_start fuel' (S start) s
  end.

(** lib/ascii.fu:67-70: second loop [for (; end --> start; )]; the result is
    [end + 1], the exclusive end used on line 72.  [fuel] = end - start; when
    it runs out the C condition fails after one last decrement, so end + 1 = start. *)
Fixpoint trim_end (fuel : nat) (start : nat) (s : list Z) : option nat :=
  match fuel with
  | O => Some start
  | S fuel' =>
      do c <- nth_error s (start + fuel');
      if 32 <? c then Some (S (start + fuel')) else trim_end fuel' start s
  end.

(** lib/ascii.fu:60-73 [trim]. *)
Definition trim (s : list Z) : option (list Z) :=
  do start <- trim_start (length s) 0 s;
  do e <- trim_end (length s - start) start s;
  Some (sub_list start e s).
