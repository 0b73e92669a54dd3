(** What an import is to mean, in terms of directories and files. *)
From Coq Require Import List Arith ZArith Bool Lia.
Import ListNotations.

Notation str := (list Z).
Definition sep : Z := 47.

Definition ends_in_slash (p : str) : bool := match rev p with c :: _ => Z.eqb c sep | [] => false end.

(** A directory and those above it: [d], then every shorter beginning of it that ends in a slash,
    longest first. *)
Definition upwards (d : str) : list str :=
  d :: filter ends_in_slash (rev (map (fun k => firstn k d) (seq 1 (length d - 1)))).

(** The file [name] looked for from directory [d]: in [d], in those above it, in the library.
    The first that exists. *)
Definition nearest (exists_ : str -> bool) (lib : option str) (d name : str) : option str :=
  find exists_ (map (fun x => x ++ name) (upwards d) ++ match lib with Some b => [b ++ name] | None => [] end).

(** The first of several names that is found at all. *)
Fixpoint first_found {A} (f : A -> option str) (l : list A) : option str :=
  match l with
  | [] => None
  | x :: t => match f x with Some r => Some r | None => first_found f t end
  end.

(** The meaning of an import of one of [names] from directory [d]: the nearest file of the first
    name that has one; else a file the test suite has put there; else nothing. *)
Definition meaning (exists_ has : str -> bool) (lib : option str) (d : str) (names : list str) : option str :=
  match first_found (nearest exists_ lib d) names with
  | Some r => Some r
  | None => find has (map (fun x => d ++ x) names)
  end.

(** ** Imports *)
Definition dot_fu_ : str := [46; 102; 117]%Z.                (* ".fu" *)
Definition ends_in_fu (p : str) : bool := if list_eq_dec Z.eq_dec (skipn (length p - 3) p) dot_fu_ then true else false.
Fixpoint until_slash (p : str) : str :=
  match p with c :: t => if Z.eqb c sep then [] else c :: until_slash t | [] => [] end.
(** What follows the last slash. *)
Definition last_part (p : str) : str := rev (until_slash (rev p)).

(** A file in directory [r_dir] imports [r_name], or mentions [r_id] in [r_name]. *)
Record request := { r_dir : str; r_name : str; r_id : option str }.
(** As the compiler writes it: "dir\vname" or "dir\vname\tid". *)
Definition spell (q : request) : str :=
  r_dir q ++ [11%Z] ++ r_name q ++ match r_id q with Some i => 9%Z :: i | None => [] end.
(** The names it may have: the file itself; or [name.fu], [name/name.fu], [name/id.fu]. *)
Definition conventions (q : request) : list str :=
  let n := r_name q in
  let common := [n ++ dot_fu_; n ++ [sep] ++ last_part n ++ dot_fu_] in
  match r_id q with
  | Some i => common ++ [n ++ [sep] ++ i ++ dot_fu_]
  | None => if ends_in_fu n then [n] else common
  end.
(** Directories end in a slash; names and identifiers are not empty and have no control
    characters; identifiers have no dot. *)
Definition proper (q : request) : Prop :=
  (exists x, r_dir q = x ++ [sep]) /\ ~ In 11%Z (r_dir q)
  /\ r_name q <> [] /\ ~ In 11%Z (r_name q) /\ ~ In 9%Z (r_name q)
  /\ match r_id q with Some i => i <> [] /\ ~ In 11%Z i /\ ~ In 9%Z i /\ ~ In 46%Z i | None => True end.

(** What the request is to give: the file it means, or else itself. *)
Definition wanted (exists_ has : str -> bool) (lib : option str) (q : request) : str :=
  match meaning exists_ has lib (r_dir q) (conventions q) with Some r => r | None => spell q end.

(** The names looked for: one of the conventions, if none before it is found. *)
Definition tried (exists_ : str -> bool) (lib : option str) (q : request) (x : str) : Prop :=
  exists l1 l2, conventions q = l1 ++ x :: l2 /\ forall y, In y l1 -> nearest exists_ lib (r_dir q) y = None.
(** No two lookups are for the same path with different meanings. *)
Definition no_clash (exists_ : str -> bool) (lib : option str) (l : list request) : Prop :=
  forall q q' x x' d d', In q l -> In q' l -> tried exists_ lib q x -> tried exists_ lib q' x' ->
    In d (upwards (r_dir q)) -> In d' (upwards (r_dir q')) -> d ++ x = d' ++ x' ->
    nearest exists_ lib d x = nearest exists_ lib d' x'.

(** What the answer to a request has to be at the least: the request itself, an existing file with
    the last part of one of the names, or a file the test suite has put in the very directory; and
    where the first name is in the very directory, that file. *)
Definition acceptable (exists_ has : str -> bool) (q : request) (r : str) : Prop :=
  (r = spell q
   \/ exists x, In x (conventions q)
      /\ (exists_ r = true /\ last_part r = last_part x \/ has r = true /\ r = r_dir q ++ x))
  /\ (forall x t, conventions q = x :: t -> exists_ (r_dir q ++ x) = true -> r = r_dir q ++ x).

(** The library directory: next to the compiler, if the compiler's directory is known. *)
Definition library (fudir : str) : option str :=
  if ends_in_slash fudir then Some (fudir ++ [108; 105; 98; 47]%Z) else None.
