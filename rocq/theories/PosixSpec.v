(** What the operating system does with the calls that lib/file.fu, lib/fs.fu and
    src/build.fu make, as far as the theorems need it: names, files, descriptors and
    directories; which calls may fail, and how much a read or a write may transfer.
    This is the specification of the environment, not a model of code in /repo. *)
From Coq Require Import List Arith ZArith Bool Lia.
Import ListNotations.
Set Implicit Arguments.

Definition bytes := list Z.
Definition path := list Z.

Inductive call :=
| COpenW (p : path)              (* open, O_WRONLY|O_CREAT|O_TRUNC *)
| COpenR (p : path)              (* open, O_RDONLY *)
| CWrite (fd : Z) (d : bytes)
| CRead (fd : Z) (n : Z)
| CClose (fd : Z)
| CStat (p : path)
| CMkdir (p : path)
| CRename (a b : path)
| CUnlink (p : path).

(** What a call gives back: its return value, errno, and for read and stat the data. *)
Record res := { ret : Z; errno : Z; got : bytes }.

(** A program that makes calls; after each it goes on according to the result. *)
Inductive prog (R : Type) :=
| Ret (r : R)
| Sys (c : call) (k : res -> prog R).
Arguments Ret {R}.
Arguments Sys {R}.

(** ** State of the system *)
Record os := {
  names : path -> option nat;          (* which file a name stands for *)
  files : nat -> bytes;                (* contents of files *)
  fresh : nat;                         (* files from here on do not exist yet *)
  fds : Z -> option (nat * nat);       (* open descriptors: file and position *)
  dirs : bool * list path -> bool      (* directories: (absolute?, components) *)
}.
Definition content (s : os) (p : path) : option bytes := option_map (files s) (names s p).

Definition path_eqb (a b : path) : bool := if list_eq_dec Z.eq_dec a b then true else false.
Definition set_name (f : path -> option nat) (p : path) (x : option nat) : path -> option nat :=
  fun q => if path_eqb q p then x else f q.
Definition set_file (f : nat -> bytes) (i : nat) (x : bytes) : nat -> bytes :=
  fun j => if Nat.eqb j i then x else f j.
Definition set_fd (f : Z -> option (nat * nat)) (d : Z) (x : option (nat * nat)) : Z -> option (nat * nat) :=
  fun e => if Z.eqb e d then x else f e.
Definition dir_eqb (a b : bool * list path) : bool :=
  if list_eq_dec (list_eq_dec Z.eq_dec) (snd a) (snd b) then Bool.eqb (fst a) (fst b) else false.
Definition add_dir (f : bool * list path -> bool) (d : bool * list path) : bool * list path -> bool :=
  fun e => if dir_eqb e d then true else f e.

(** The directory a string names: its components between slashes. *)
Definition slash : Z := 47.
Fixpoint comps (p : path) (cur : path) : list path :=
  match p with
  | [] => match cur with [] => [] | _ => [cur] end
  | c :: q => if Z.eqb c slash then match cur with [] => comps q [] | _ => cur :: comps q [] end
              else comps q (cur ++ [c])
  end.
Definition absolute (p : path) : bool := match p with c :: _ => Z.eqb c slash | [] => false end.
Definition dir_of (p : path) : bool * list path := (absolute p, comps p []).

(** Some errno values. *)
Definition ENOENT : Z := 2.
Definition EEXIST : Z := 17.
Definition EFBIG : Z := 27.
Definition ERANGE : Z := 34.

Definition fail (e : Z) : res := {| ret := -1; errno := e; got := [] |}.
Definition ok (v : Z) : res := {| ret := v; errno := 0; got := [] |}.

(** How obliging the system is: [full_reads]: a read of a file gives all that was asked for
    and is there; [some_written]: a write of something writes something; [may_fail]: the calls
    that may fail at any time. *)
Record mood := { full_reads : bool; some_written : bool; may_fail : call -> bool }.

(** One call.  A call that may fail may do so with any error, without effect except
    that a descriptor is gone after close.  *)
Inductive os_step (m : mood) (s : os) : call -> res -> os -> Prop :=
| O_fail c e : may_fail m c = true -> (e > 0)%Z -> (forall d, c <> CClose d) -> os_step m s c (fail e) s
| O_close_fail d e : may_fail m (CClose d) = true -> (e > 0)%Z ->
    os_step m s (CClose d) (fail e)
      {| names := names s; files := files s; fresh := fresh s; fds := set_fd (fds s) d None; dirs := dirs s |}
| O_close d : os_step m s (CClose d) (ok 0)
      {| names := names s; files := files s; fresh := fresh s; fds := set_fd (fds s) d None; dirs := dirs s |}
| O_openw_new p d : names s p = None -> fds s d = None -> (d > 2)%Z ->
    os_step m s (COpenW p) (ok d)
      {| names := set_name (names s) p (Some (fresh s)); files := set_file (files s) (fresh s) [];
         fresh := S (fresh s); fds := set_fd (fds s) d (Some (fresh s, 0)); dirs := dirs s |}
| O_openw_old p d i : names s p = Some i -> fds s d = None -> (d > 2)%Z ->
    os_step m s (COpenW p) (ok d)
      {| names := names s; files := set_file (files s) i []; fresh := fresh s;
         fds := set_fd (fds s) d (Some (i, 0)); dirs := dirs s |}
| O_openr p d i : names s p = Some i -> fds s d = None -> (d > 2)%Z ->
    os_step m s (COpenR p) (ok d)
      {| names := names s; files := files s; fresh := fresh s;
         fds := set_fd (fds s) d (Some (i, 0)); dirs := dirs s |}
| O_openr_none p : names s p = None -> os_step m s (COpenR p) (fail ENOENT) s
| O_write d i o w n : fds s d = Some (i, o) -> n <= length w ->
    (some_written m = true -> w <> [] -> 0 < n) ->
    os_step m s (CWrite d w) (ok (Z.of_nat n))
      {| names := names s;
         files := set_file (files s) i (firstn o (files s i) ++ firstn n w ++ skipn (o + n) (files s i));
         fresh := fresh s; fds := set_fd (fds s) d (Some (i, o + n)); dirs := dirs s |}
| O_read d i o n k : fds s d = Some (i, o) -> (Z.of_nat k <= n)%Z ->
    k <= length (files s i) - o ->
    ((0 < n)%Z -> o < length (files s i) -> 0 < k) ->
    (full_reads m = true -> Z.of_nat k = n \/ k = length (files s i) - o) ->
    os_step m s (CRead d n) {| ret := Z.of_nat k; errno := 0; got := firstn k (skipn o (files s i)) |}
      {| names := names s; files := files s; fresh := fresh s;
         fds := set_fd (fds s) d (Some (i, o + k)); dirs := dirs s |}
| O_stat p i : names s p = Some i ->
    os_step m s (CStat p) {| ret := 0; errno := 0; got := [Z.of_nat (length (files s i))] |} s
| O_stat_none p : names s p = None -> os_step m s (CStat p) (fail ENOENT) s
| O_rename a b i : names s a = Some i -> a <> b ->
    os_step m s (CRename a b) (ok 0)
      {| names := set_name (set_name (names s) b (Some i)) a None; files := files s; fresh := fresh s;
         fds := fds s; dirs := dirs s |}
| O_rename_none a b : names s a = None -> os_step m s (CRename a b) (fail ENOENT) s
| O_unlink_none p : names s p = None -> os_step m s (CUnlink p) (fail ENOENT) s
| O_unlink p i : names s p = Some i ->
    os_step m s (CUnlink p) (ok 0)
      {| names := set_name (names s) p None; files := files s; fresh := fresh s; fds := fds s; dirs := dirs s |}
| O_mkdir p a cs c : dir_of p = (a, cs ++ [c]) -> dirs s (a, cs) = true -> dirs s (a, cs ++ [c]) = false ->
    os_step m s (CMkdir p) (ok 0)
      {| names := names s; files := files s; fresh := fresh s; fds := fds s; dirs := add_dir (dirs s) (dir_of p) |}
| O_mkdir_exists p : dirs s (dir_of p) = true -> os_step m s (CMkdir p) (fail EEXIST) s
| O_mkdir_none p a cs c : dir_of p = (a, cs ++ [c]) -> dirs s (a, cs) = false -> dirs s (a, cs ++ [c]) = false ->
    os_step m s (CMkdir p) (fail ENOENT) s.

(** A run: from one state with a program to another with what is left of it.  Stopping in the
    middle is a crash. *)
Inductive run (m : mood) {R : Type} : os -> prog R -> os -> prog R -> Prop :=
| Run_here s p : run m s p s p
| Run_call s c k r s' s2 p2 : os_step m s c r s' -> run m s' (k r) s2 p2 -> run m s (Sys c k) s2 p2.

(** Any number of programs take turns. *)
Inductive together (m : mood) {R : Type} : os -> list (prog R) -> os -> list (prog R) -> Prop :=
| To_here s l : together m s l s l
| To_call s l1 c k l2 r s' s2 l' : os_step m s c r s' ->
    together m s' (l1 ++ k r :: l2) s2 l' ->
    together m s (l1 ++ Sys c k :: l2) s2 l'.

(** ** Words for the theorems *)
(** No two names for one file, and no name for a file that does not exist yet. *)
Definition tidy (s : os) : Prop :=
  (forall p q i, names s p = Some i -> names s q = Some i -> p = q)
  /\ (forall p i, names s p = Some i -> (i < fresh s)%nat).

(** A path spelled out from its components, each followed by a slash; a component is plain if
    it is not empty and has no slash in it. *)
Definition text (a : bool) (cs : list path) : path :=
  (if a then [slash] else []) ++ flat_map (fun c => c ++ [slash]) cs.
Definition plain (c : path) : Prop := c <> [] /\ ~ In slash c.
(** [p] is the path with components [cs], written with or without a slash at the end. *)
Definition spelled (p : path) (a : bool) (cs : list path) : Prop :=
  Forall plain cs /\ cs <> [] /\ (p = text a cs \/ p ++ [slash] = text a cs).

(** What one writer is to do: which data, to which file, by way of which temporary one. *)
Record job := { j_tmp : path; j_dest : path; j_data : bytes }.
