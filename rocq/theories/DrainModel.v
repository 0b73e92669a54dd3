(* Model of lib/FD.fu (read, read_exhaustive, read_discard) and of the reading
   loop of lib/exec.fu.  Sizes are not limited to 31 bits. *)
From Coq Require Import List Arith ZArith Bool.
From Verif Require Import DrainSpec.
Import ListNotations.

Section Drain.
  Context {A : Type}.

  (* a byte[]: the memory it has, how much of it is in use, and whether it is
     shared with another one (include/fu/vec.h:123-190) *)
  Record buf := { cells : list A; size : nat; shared : bool }.

  Definition content (b : buf) : list A := firstn (size b) (cells b).

  (* capa() (vec.h:125-132): with the sign bit set if shared; which negative
     number it is does not matter, so it is -1 here *)
  Definition capa (b : buf) : Z := if shared b then (-1)%Z else Z.of_nat (length (cells b)).

  Variable junk : buf -> list A.           (* the spare room of a new allocation *)

  (* data_mut() (vec.h:1105-1110): its own copy, of whatever capacity *)
  Definition data_mut (b : buf) : buf :=
    if shared b
    then {| cells := content b ++ junk b; size := size b; shared := false |}
    else b.

  (* append_copy(fu_ZERO(), data, n): the contents of fu::vec after append are
     the subject of C01..; what capacity results is left open *)
  Definition append_copy (b : buf) (xs : list A) : buf :=
    {| cells := content b ++ xs ++ junk b; size := size b + length xs; shared := false |}.

  (* the kernel writes xs at data() + pos: None if that is outside the memory *)
  Definition poke (b : buf) (pos : nat) (xs : list A) : option buf :=
    if Nat.leb (pos + length xs) (length (cells b))
    then Some {| cells := firstn pos (cells b) ++ xs ++ skipn (pos + length xs) (cells b);
                 size := size b; shared := shared b |}
    else None.

  (* UNSAFE__WriteSize (vec.h:184-192) *)
  Definition write_size (b : buf) (n : nat) : buf :=
    {| cells := cells b; size := n; shared := shared b |}.

  Variable w : source A.

  (* the result of read(): buffer, taken so far, bytes_read, maybe_more, err *)
  Record answer := { a_buf : buf; a_taken : nat; a_read : nat; a_more : bool; a_err : option Z }.

  (* FD read (lib/FD.fu:48-90): the i-th call, c bytes having been taken *)
  Definition fd_read (i c : nat) (b : buf) : option answer :=
    let current_size := size b in
    let available_capa := (capa b - Z.of_nat current_size)%Z in
    let direct := Z.ltb 1024 available_capa in
    let b1 := if direct then data_mut b else b in
    let out_capa := if direct then available_capa else 65536%Z in
    match fails w i with
    | Some e => Some {| a_buf := b1; a_taken := c; a_read := 0; a_more := false; a_err := Some e |}
    | None =>
        let n := give w i out_capa (arrived w i - c) in
        let xs := bytes w c n in
        let done b' := Some {| a_buf := b'; a_taken := c + n; a_read := n;
                               a_more := Z.eqb (Z.of_nat n) out_capa; a_err := None |} in
        if direct then
          match poke b1 current_size xs with
          | None => None
          | Some b2 => done (if Nat.ltb 0 n then write_size b2 (current_size + n) else b2)
          end
        else done (if Nat.ltb 0 n then append_copy b1 xs else b1)
    end.

  Inductive outcome :=
  | Going                                   (* more calls to come *)
  | Fault                                   (* memory overrun *)
  | Done (b : buf) (taken total : nat) (err : option Z) (calls : nat).

  Variable retry : Z -> bool.               (* should_retry_immediately, lib/Errno.fu *)

  (* read_exhaustive (lib/FD.fu:95-120) *)
  Fixpoint read_exhaustive (fuel i c total : nat) (b : buf) : outcome :=
    match fuel with
    | O => Going
    | S fuel' =>
        match fd_read i c b with
        | None => Fault
        | Some a =>
            match a_err a with
            | Some e =>
                if retry e then read_exhaustive fuel' (S i) (a_taken a) total (a_buf a)
                else Done (a_buf a) (a_taken a) total (Some e) (S i)
            | None =>
                if a_more a
                then read_exhaustive fuel' (S i) (a_taken a) (total + a_read a) (a_buf a)
                else Done (a_buf a) (a_taken a) (total + a_read a) None (S i)
            end
        end
    end.

  (* read_discard (lib/FD.fu:122-152): taken, discarded, err, calls *)
  Fixpoint read_discard (fuel i c total : nat) : option (nat * nat * option Z * nat) :=
    match fuel with
    | O => None
    | S fuel' =>
        match fails w i with
        | Some e => Some (c, total, Some e, S i)
        | None =>
            let n := give w i 65536%Z (arrived w i - c) in
            if Z.eqb (Z.of_nat n) 65536%Z
            then read_discard fuel' (S i) (c + n) (total + n)
            else Some (c + n, total + n, None, S i)
        end
    end.

  (* the loop of exec (lib/exec.fu:35-63), fread taking the place of read;
     size is kept in a variable of its own *)
  Fixpoint exec_loop (fuel i c sz : nat) (b : buf) : outcome :=
    match fuel with
    | O => Going
    | S fuel' =>
        let avail := (capa b - Z.of_nat sz)%Z in
        let direct := andb (Z.ltb 0 avail) (Z.ltb 65536 avail) in
        let b1 := if direct then data_mut b else b in
        let cap := if direct then avail else 65536%Z in
        let n := give w i cap (arrived w i - c) in
        let xs := bytes w c n in
        let written := if direct then poke b1 sz xs else Some b1 in
        match written with
        | None => Fault
        | Some b2 =>
            if Nat.eqb n 0 then Done b2 c sz None (S i)
            else
              let sz' := sz + n in
              exec_loop fuel' (S i) (c + n) sz'
                (if direct then write_size b2 sz' else append_copy b2 xs)
        end
    end.

  (* exec (lib/exec.fu:3-68): status and err, given errno of a failing popen,
     and what pclose returns and leaves in errno *)
  Definition exec (popen_fails : option Z) (pclose : Z) (errno : Z) (fuel : nat) (out : buf)
    : option (outcome * Z * Z) :=
    match popen_fails with
    | Some e => Some (Done out 0 (size out) None 0, (-1)%Z, e)
    | None =>
        match exec_loop fuel 0 0 (size out) out with
        | Going => None
        | r => Some (r, pclose, if Z.eqb pclose (-1) then errno else 0%Z)
        end
    end.
End Drain.
Arguments buf : clear implicits. Arguments outcome : clear implicits.
