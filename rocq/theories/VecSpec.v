(** What a user of fu vecs expects: variables holding independent immutable lists.
    Knows nothing about buffers, sharing, capacities or reference counts. *)
From Verif Require Export Common.
Open Scope nat_scope.

Section VecSpec.
Context {A : Type}.

(** Operations on numbered variables.  [New], [Copy] and [MoveNew] create the next
    variable. *)
Inductive op :=
| New (l : list A)                       (** let v = [ ... ]            *)
| Copy (j : nat)                         (** let v = CLONE(w)           *)
| MoveNew (j : nat)                      (** let v = STEAL(w)           *)
| AssignCopy (i j : nat)                 (** v = CLONE(w), v, w distinct *)
| AssignMove (i j : nat)                 (** v = STEAL(w), v, w distinct *)
| Destroy (i : nat)                      (** end of scope               *)
| Push (i : nat) (x : A)
| Insert (i at_ : nat) (x : A)
| Unshift (i : nat) (x : A)
| SetElem (i at_ : nat) (x : A)          (** v.mutref(at_) = x          *)
| Resize (i n : nat)
| Grow (i n : nat)
| Shrink (i n : nat)
| Clear (i : nat)
| Pop (i : nat)
| SpliceDel (i at_ del : nat)            (** v.splice(at_, del)         *)
| SpliceEmpty (i at_ del n : nat)        (** then n default elements    *)
| ShiftPop (i n m : nat)                 (** drop n left, m right       *)
| Reserve (i n : nat)
| SpliceMove (i at_ del j : nat)         (** v.splice(at_, del, move w), w dies *)
| AppendMove (i del j : nat)             (** v.append(del, move w), w dies      *)
| SpliceCopy (i at_ del j off n : nat)   (** v.splice(at_, del, w[off, off+n)), w may be v *)
| AppendCopy (i del j off n : nat).      (** v.append(del, w[off, off+n))       *)

(** Variables: [None] once destroyed. *)
Definition vars := list (option (list A)).

Fixpoint lset {X} (l : list X) (i : nat) (x : X) : list X :=
  match l, i with
  | [], _ => []
  | _ :: t, O => x :: t
  | y :: t, S j => y :: lset t j x
  end.

Definition var (s : vars) (i : nat) : option (list A) :=
  match nth_error s i with Some (Some l) => Some l | _ => None end.

(** Vec sizes are 32-bit: every intermediate size must stay below 2^31 - 1. *)
Definition fitsb (n : nat) : bool := (Z.of_nat n <? 2 ^ 31 - 1)%Z.
Definition require (b : bool) {X} (x : option X) : option X := if b then x else None.

(** [sstep copiable dflt o s]: [None] when the program is out of contract (unknown or
    destroyed variable, index out of range, copying a non-copiable element type,
    oversized vec). *)
Definition sstep (copiable : bool) (dflt : A) (o : op) (s : vars) : option vars :=
  let upd_var i f := do l <- var s i; do l' <- f l;
                     require (fitsb (length l')) (Some (lset s i (Some l'))) in
  match o with
  | New l => require (fitsb (length l)) (Some (s ++ [Some l]))
  | Copy j => do l <- var s j; require copiable (Some (s ++ [Some l]))
  | MoveNew j => do l <- var s j; Some (lset s j (Some []) ++ [Some l])
  | AssignCopy i j => do _ <- var s i; do l <- var s j;
                      require (copiable && negb (i =? j)) (Some (lset s i (Some l)))
  | AssignMove i j => do _ <- var s i; do l <- var s j;
                      require (negb (i =? j)) (Some (lset (lset s i (Some l)) j (Some [])))
  | Destroy i => do _ <- var s i; Some (lset s i None)
  | Push i x => upd_var i (fun l => Some (l ++ [x]))
  | Insert i k x => upd_var i (fun l => require (k <=? length l) (Some (firstn k l ++ x :: skipn k l)))
  | Unshift i x => upd_var i (fun l => Some (x :: l))
  | SetElem i k x => upd_var i (fun l => require (k <? length l) (Some (firstn k l ++ x :: skipn (S k) l)))
  | Resize i n => upd_var i (fun l => require (fitsb n) (Some (firstn n l ++ repeat dflt (n - length l))))
  | Grow i n => upd_var i (fun l => require (fitsb n) (Some (l ++ repeat dflt (n - length l))))
  | Shrink i n => upd_var i (fun l => Some (firstn n l))
  | Clear i => upd_var i (fun _ => Some [])
  | Pop i => upd_var i (fun l => Some (removelast l))
  | SpliceDel i k d => upd_var i (fun l => Some (firstn k l ++ skipn (k + d) l))
  | SpliceEmpty i k d n => upd_var i (fun l => require ((k <=? length l) && fitsb (length l + n))
                             (Some (firstn k l ++ repeat dflt n ++ skipn (k + d) l)))
  | ShiftPop i n m => upd_var i (fun l => Some (firstn (length l - n - m) (skipn n l)))
  | Reserve i n => upd_var i (fun l => require (fitsb n) (Some l))
  | SpliceMove i k d j => do w <- var s j;
      do s' <- upd_var i (fun l => require (negb (i =? j) && (k <=? length l) && fitsb (length l + length w))
                            (Some (firstn k l ++ w ++ skipn (k + d) l)));
      Some (lset s' j None)
  | AppendMove i d j => do w <- var s j;
      do s' <- upd_var i (fun l => require (negb (i =? j) && (d <=? length l) && fitsb (length l + length w))
                            (Some (firstn (length l - d) l ++ w)));
      Some (lset s' j None)
  | SpliceCopy i k d j off n => do w <- var s j;
      upd_var i (fun l => require (copiable && (k <=? length l) && (off + n <=? length w) && fitsb (length l + n)
            && negb (negb (length l =? 0) && (k =? 0) && (d =? length l) && (off =? 0) && negb (n =? length l)))
          (Some (firstn k l ++ firstn n (skipn off w) ++ skipn (k + d) l)))
  | AppendCopy i d j off n => do w <- var s j;
      upd_var i (fun l => require (copiable && (d <=? length l) && (off + n <=? length w) && fitsb (length l + n)
            && negb (negb (length l =? 0) && (d =? length l) && (off =? 0) && negb (n =? length l)))
          (Some (firstn (length l - d) l ++ firstn n (skipn off w))))
  end.
(** The last condition of the two copying operations excludes replacing the whole of
    a non-empty v by a strict prefix (or a longer prefix) of a view starting at v's own storage:
    the code takes that for self-assignment and does nothing (see VecProps.v,
    [splice_copy_whole_refuted]). *)

Fixpoint srun (copiable : bool) (dflt : A) (ops : list op) (s : vars) : option vars :=
  match ops with
  | [] => Some s
  | o :: t => do s' <- sstep copiable dflt o s; srun copiable dflt t s'
  end.
End VecSpec.
Arguments op A : clear implicits.
Arguments vars A : clear implicits.
