(** Model of lib/path.fu.  Strings are lists of bytes (Z); '.' is 46 and '/' is 47.  None is an access out of
    bounds (or fuel running out).  [split] and [join] are those of src/prelude.fu, modelled in PreludeModel.v. *)
From Verif Require Export PreludeModel.
Open Scope nat_scope.

Notation str := (list Z).
Definition is_nil {A} (l : list A) : bool := match l with [] => true | _ => false end.
Definition c_dot : Z := 46.
Definition c_slash : Z := 47.
Definition str_eqb (a b : str) : bool := eqb_list Z.eqb a b.

(** path.fu:2-12 ext: [for (i = len; i --> 0; )]; the argument is i before the decrement. *)
Fixpoint ext_loop (i : nat) (path : str) : option str :=
  match i with
  | O => Some []
  | S i =>
      do c <- nth_error path i;
      if Z.eqb c c_dot then Some (skipn i path)
      else if Z.eqb c c_slash then Some []
      else ext_loop i path
  end.
Definition ext (path : str) : option str := ext_loop (length path) path.

(** path.fu:14-24 noext *)
Fixpoint noext_loop (i : nat) (path : str) : option str :=
  match i with
  | O => Some []
  | S i =>
      do c <- nth_error path i;
      if Z.eqb c c_dot then Some (firstn i path)
      else if Z.eqb c c_slash then Some []
      else noext_loop i path
  end.
Definition noext (path : str) : option str := noext_loop (length path) path.

(** path.fu:26-33 dirname: starts at [len - 1], so the last character is not looked at. *)
Fixpoint dirname_loop (i : nat) (path : str) : option str :=
  match i with
  | O => Some []
  | S i =>
      do c <- nth_error path i;
      if Z.eqb c c_slash then Some (firstn (i + 1) path) else dirname_loop i path
  end.
Definition dirname (path : str) : option str := dirname_loop (length path - 1) path.

(** path.fu:35-42 filename *)
Fixpoint filename_loop (i : nat) (path : str) : option str :=
  match i with
  | O => Some path
  | S i =>
      do c <- nth_error path i;
      if Z.eqb c c_slash then Some (skipn (i + 1) path) else filename_loop i path
  end.
Definition filename (path : str) : option str := filename_loop (length path) path.

(** path.fu:48-52: [for (i = path.len; i --> 0; )] drop "." and inner empty parts. *)
Fixpoint drop_loop (i : nat) (path : list str) : option (list str) :=
  match i with
  | O => Some path
  | S i =>
      do part <- nth_error path i;
      if str_eqb part [c_dot] || (is_nil part && (0 <? i) && (i <? length path - 1))
      then do path <- splice_out i 1 path; drop_loop i path
      else drop_loop i path
  end.
(** path.fu:54-60: [for (i = 1; i < path.len; i++)] cancel ".." with the part before it.
    Every turn lowers 2 * len - i. *)
Fixpoint dots_loop (fuel i : nat) (path : list str) : option (list str) :=
  match fuel with
  | O => None
  | S fuel =>
      if i <? length path then
        do part <- nth_error path i;
        if str_eqb part [c_dot; c_dot] then
          let i := i - 1 in
          do path <- splice_out i 2 path;
          let i := if i =? 0 then i else i - 1 in
          dots_loop fuel (S i) path
        else dots_loop fuel (S i) path
      else Some path
  end.

(** Every cell of a grown string has been written (else None). *)
Fixpoint settled {A} (l : list (option A)) : option (list A) :=
  match l with
  | [] => Some []
  | Some x :: l => do r <- settled l; Some (x :: r)
  | None :: _ => None
  end.

(** path.fu:44-63 normalize *)
Definition normalize (p : str) : option str :=
  do path <- split_on Z.eqb p [c_slash];
  do path <- drop_loop (length path) path;
  do path <- dots_loop (S (2 * length path)) 1 path;
  do r <- join path (SepItem c_slash);
  settled r.

(** path.fu:70-79: the common part, up to and including its last slash. *)
Fixpoint same_loop (fuel i : nat) (from to : str) (same : nat) : option nat :=
  match fuel with
  | O => Some same
  | S fuel =>
      do a <- nth_error from i;
      do b <- nth_error to i;
      if negb (Z.eqb b a) then Some same
      else same_loop fuel (S i) from to (if Z.eqb b c_slash then i + 1 else same)
  end.
(** path.fu:82-84: one "../" per slash of [from] after the common part. *)
Fixpoint ups_loop (rest : str) (res : str) : str :=
  match rest with
  | [] => res
  | c :: rest => ups_loop rest (if Z.eqb c c_slash then res ++ [c_dot; c_dot; c_slash] else res)
  end.
(** path.fu:65-88 relative *)
Definition relative (from to : str) : option str :=
  let min := if length from <? length to then length from else length to in
  do same <- same_loop min 0 from to 0;
  Some (ups_loop (skipn same from) [] ++ skipn same to).

(** path.fu:90-95 join *)
Definition join_path (a b : str) : option str :=
  do bs <- starts_item Z.eqb b c_slash;
  if bs then normalize b
  else
    do ae <- ends_item Z.eqb a c_slash;
    if ae then normalize (a ++ b) else normalize ((a ++ [c_slash]) ++ b).
