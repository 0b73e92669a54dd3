(** Model of resolveFile (src/context.fu:11-117).  A string is a list of bytes; "" is also the
    answer "none".  [file::size(path) >= 0] is a predicate on paths; [ctx.fuzzy] and [ctx.files]
    are finite maps (C20), here functions. *)
From Verif Require Import PathModel.
From Coq Require Import List Arith ZArith Bool Lia.
Import ListNotations.

Definition vt : Z := 11.
Definition tab : Z := 9.
Definition dot_fu : str := [46; 102; 117]%Z.
Definition slib : str := [108; 105; 98; 47]%Z.     (* "lib/" *)

(** path.fu:26-33; the model of path.fu says None for an access out of bounds, which there is none. *)
Definition dir_up (p : str) : str := match dirname p with Some d => d | None => [] end.

Definition cache := str -> option str.
Definition set_cache (c : cache) (k v : str) : cache := fun k' => if str_eqb k' k then Some v else c k'.

Section Resolve.
Variables (exists_ : str -> bool) (fudir : str).

(** context.fu:11-48; [n] bounds the number of nested calls: each has a shorter [from]. *)
Fixpoint resolve (n : nat) (from name : str) (c : cache) : str * cache :=
  let path := from ++ name in
  match c path with
  | Some cached => ((if str_eqb cached [vt] then [] else cached), c)
  | None =>
      let '(r, c') :=
        if exists_ path then (path, c)
        else
          let fallback := dir_up from in
          if is_nil fallback || (length from <=? length fallback) then
            let p := fudir ++ slib ++ name in
            if ends Z.eqb fudir [c_slash] && exists_ p then (p, c) else ([], c)
          else match n with
               | O => ([], c)
               | S n' => resolve n' fallback name c
               end
      in (r, set_cache c' path (if is_nil r then [vt] else r))
  end.
Definition resolve_file (from name : str) (c : cache) : str * cache := resolve (length from) from name c.

(** context.fu:103-106 [run]: the first strategy result that is not empty. *)
Fixpoint run_names (from : str) (names : list str) (c : cache) : str * cache :=
  match names with
  | [] => ([], c)
  | x :: l => let '(r, c') := resolve_file from x c in
              if is_nil r then run_names from l c' else (r, c')
  end.

(** helpers.fu:308-313 [find(last:)], plus one. *)
Fixpoint after_last (i : nat) (s : str) (x : Z) : nat :=
  match i with
  | O => O
  | S i' => if Z.eqb (nth i' s 0%Z) x then i else after_last i' s x
  end.

(** context.fu:63-98: the parts of an import: directory and the names to try.  None: it is not of
    that form. *)
Definition names_of (name : str) : list str :=
  if ends Z.eqb name dot_fu then [name]
  else
    let '(name, alt) :=
      match find_item Z.eqb name tab with
      | Some i =>
          if (0 <? i) && (i <? length name - 1)
             && match find_item Z.eqb (skipn (i + 1) name) tab with None => true | Some _ => false end
          then (firstn i name, [firstn i name ++ [c_slash] ++ skipn (i + 1) name ++ dot_fu])
          else (name, [])
      | None => (name, [])
      end in
    [name ++ dot_fu; name ++ [c_slash] ++ skipn (after_last (length name) name c_slash) name ++ dot_fu] ++ alt.
Definition parts (path : str) : option (str * list str) :=
  match find_item Z.eqb path vt with
  | Some i =>
      if (0 <? i) && (i <? length path - 1)
         && match find_item Z.eqb (skipn (i + 1) path) vt with None => true | Some _ => false end
      then Some (firstn i path, names_of (skipn (i + 1) path))
      else None
  | None => None
  end.

(** context.fu:50-57, 103-106: the test suite's files. *)
Fixpoint run_prepopulated (has : str -> bool) (from : str) (names : list str) : str :=
  match names with
  | [] => []
  | x :: l => if has (from ++ x) then from ++ x else run_prepopulated has from l
  end.

(** context.fu:59-117. *)
Definition resolve_import (has : str -> bool) (path : str) (c : cache) : str * cache :=
  match parts path with
  | None => (path, c)
  | Some (from, names) =>
      let '(r, c') := run_names from names c in
      if negb (is_nil r) then (r, c')
      else let p := run_prepopulated has from names in
           if negb (is_nil p) then (p, c') else (path, c')
  end.

(** Any number of imports, one after another. *)
Fixpoint resolve_all (has : str -> bool) (l : list str) (c : cache) : list str * cache :=
  match l with
  | [] => ([], c)
  | p :: l' => let '(r, c1) := resolve_import has p c in
               let '(rs, c2) := resolve_all has l' c1 in (r :: rs, c2)
  end.
End Resolve.
