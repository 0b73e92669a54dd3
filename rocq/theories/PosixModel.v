(** Model of lib/file.fu (write, read), lib/fs.fu (mkdir_p) and src/build.fu (atomic_write,
    tmpfile, update_file) as programs that make system calls.
    Simplifications: a path holds no NUL byte; the mode bits are left out; the numeric
    error values are those of Linux. *)
From Verif Require Export PosixSpec.
From Coq Require Import List Arith ZArith Bool Lia.
Import ListNotations.
Set Implicit Arguments.
Open Scope Z_scope.

(** file.fu:33-46: the loop of [write]; [n] is the length of what is left (every round that
    goes on shortens it), [k] is what follows the loop. *)
Fixpoint write_loop {R} (n : nat) (fd : Z) (buf : bytes) (k : Z -> prog R) : prog R :=
  match n, buf with
  | S n', _ :: _ =>
      Sys (CWrite fd buf) (fun r =>
        if ret r <=? 0 then k (if ret r <? 0 then errno r else 0)
        else write_loop n' fd (skipn (Z.to_nat (ret r)) buf) k)
  | _, _ => k 0
  end.

(** file.fu:11-51, 81-82. *)
Definition file_write {R} (p : path) (data : bytes) (k : Z -> prog R) : prog R :=
  Sys (COpenW p) (fun r =>
    if ret r =? -1 then k (errno r)
    else
      let fd := ret r in
      write_loop (length data) fd data (fun err =>
        Sys (CClose fd) (fun r' =>
          k (if negb (ret r' =? 0) && (err =? 0) then errno r' else err)))).

(** Bytes stored at an address inside a buffer. *)
Definition overlay (mem : bytes) (at_ : nat) (d : bytes) : bytes :=
  firstn at_ mem ++ d ++ skipn (at_ + length d) mem.

(** file.fu:178-197: the loop of [read].  [base] is where [buf] points: it is set before the
    loop (line 178) and does not move. *)
Fixpoint read_loop {R} (n : nat) (fd : Z) (base : nat) (check len1 : Z) (mem : bytes) (len0 : Z)
    (k : Z -> bytes -> Z -> prog R) : prog R :=
  if len1 - len0 <=? 0 then k 0 mem len0
  else match n with
       | O => k 0 mem len0
       | S n' =>
         Sys (CRead fd (len1 - len0 + check)) (fun r =>
           if ret r <=? 0 then k (if ret r <? 0 then errno r else 0) mem len0
           else read_loop n' fd base check len1 (overlay mem base (got r)) (len0 + ret r) k)
       end.

(** file.fu:92-250.  [size]: what the caller knows of the file's size, 0 if nothing.
    [junk]: the memory behind [output] after it has grown, as it was before: the new elements
    and the spare capacity.  The cap on a request by SSIZE_MAX (line 185) is left out: sizes
    are below 2^31 (line 132). *)
Definition int_max : Z := 2147483647.
Definition file_read {R} (p : path) (output : bytes) (size : Z) (junk : bytes)
    (k : Z -> bytes -> prog R) : prog R :=
  let go := fun size =>
    let len0 := Z.of_nat (length output) in
    let len1 := len0 + size in
    if int_max - 16 <? len1 then k EFBIG output
    else Sys (COpenR p) (fun r =>
      if ret r =? -1 then k (errno r) output
      else
        let fd := ret r in
        let mem := output ++ junk in
        let check := if len1 <? Z.of_nat (length mem) then 1 else 0 in
        read_loop (Z.to_nat size) fd (length output) check len1 mem len0 (fun err mem' len0' =>
          Sys (CClose fd) (fun r' =>
            let err' := if negb (ret r' =? 0) && (err =? 0) then errno r' else err in
            if len0' =? len1 then k err' (firstn (Z.to_nat len1) mem')
            else k ERANGE (firstn (Z.to_nat len0') mem'))))
  in
  if size <=? 0
  then Sys (CStat p) (fun r => if ret r =? 0 then go (hd 0 (got r)) else k (errno r) output)
  else go size.

(** fs.fu:32-49: the last slash before the end, not the first byte of the path. *)
Fixpoint last_slash (i : nat) (p : path) : option nat :=
  match i with
  | O => None
  | S O => None
  | S i' => if Z.eqb (nth i' p 0) slash then Some i' else last_slash i' p
  end.

(** fs.fu:12-51 [visit]; [p] ends in the byte that is replaced by NUL.  [n] bounds the
    number of nested calls: each is for a shorter path. *)
Fixpoint visit {R} (n : nat) (p : path) (k : Z -> prog R) : prog R :=
  match n with
  | O => k 0
  | S n' =>
    let N := (length p - 1)%nat in
    Sys (CMkdir (firstn N p)) (fun r =>
      let err := if ret r =? 0 then 0 else errno r in
      if negb (ret r =? 0) && (errno r =? ENOENT) then
        match last_slash N p with
        | None => k err
        | Some i => visit n' (firstn (i + 1) p) (fun e =>
            if e =? 0 then
              Sys (CMkdir (firstn N p)) (fun r' => k (if ret r' =? 0 then err else errno r'))
            else k err)
        end
      else k err)
  end.

(** fs.fu:7-10, 53-57. *)
Definition mkdir_p {R} (p : path) (k : Z -> prog R) : prog R :=
  let p' := match rev p with c :: _ => if Z.eqb c slash then p else p ++ [slash] | [] => [slash] end in
  visit (length p') p' k.

(** build.fu:117-126 ([tmp] is what [tmpfile] gave). *)
Definition atomic_write {R} (tmp fname : path) (data : bytes) (k : Z -> prog R) : prog R :=
  let finish := fun err => if negb (err =? 0) then Sys (CUnlink tmp) (fun _ => k err) else k err in
  file_write tmp data (fun e =>
    if negb (e =? 0) then finish e
    else Sys (CRename tmp fname) (fun r => finish (if ret r =? 0 then 0 else errno r))).

(** build.fu:100-115: the name of a temporary file, from 64 random bits. *)
Fixpoint tmp_digits (n : nat) (r : Z) : path :=
  match n with
  | O => []
  | S n' => let v := Z.land r 31 in
            (if v <? 10 then 48 + v else 97 + v - 10) :: tmp_digits n' (Z.shiftr r 5)
  end.
Definition tmpfile (dir_tmp : path) (r : Z) : path := dir_tmp ++ tmp_digits 8 r.
