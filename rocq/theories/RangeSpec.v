(** What an edit through a range should do to the elements of the range.  Knows
    nothing about trims or about the rest of the vec. *)
From Verif Require Export RangeModel.
Open Scope nat_scope.

Section Spec.
Context {A : Type} (dflt : A).

(** Replace [del] elements at [at_] by [x]. *)
Definition edit (at_ del : nat) (x mid : list A) : list A := firstn at_ mid ++ x ++ skipn (at_ + del) mid.

(** [rspec s o mid]: the edited range; [None] if the arguments are out of contract
    (the assertions of vec_range.h, the source variable missing or the vec itself). *)
Definition inr (x : Z) (n : nat) : bool := ((0 <=? x) && (x <=? Z.of_nat n))%Z.
Definition rspec (copiable : bool) (i : nat) (s : vars A) (o : rop A) (mid : list A) : option (list A) :=
  let n := length mid in
  match o with
  | RSet idx x => require (inr idx n && (Z.to_nat idx <? n)) (Some (edit (Z.to_nat idx) 1 [x] mid))
  | RPush x => Some (mid ++ [x])
  | RInsert idx x => require (inr idx n) (Some (edit (Z.to_nat idx) 0 [x] mid))
  | RUnshift x => Some (x :: mid)
  | RResize k => require (inr k (Z.to_nat (2 ^ 31 - 2))) (Some (firstn (Z.to_nat k) mid ++ repeat dflt (Z.to_nat k - n)))
  | RGrow k => require (Z.of_nat n <=? k)%Z (Some (mid ++ repeat dflt (Z.to_nat k - n)))
  | RShrink k => require (inr k n) (Some (firstn (Z.to_nat k) mid))
  | RClear => Some []
  | RPop => Some (removelast mid)
  | RSplice idx del => require (inr idx n && inr del (n - Z.to_nat idx)) (Some (edit (Z.to_nat idx) (Z.to_nat del) [] mid))
  | RSpliceMove idx del j =>
      do w <- var s j;
      require (negb (i =? j) && inr idx n && inr del (n - Z.to_nat idx)) (Some (edit (Z.to_nat idx) (Z.to_nat del) w mid))
  | RSpliceCopy idx del j off k =>
      do w <- var s j;
      require (copiable && inr idx n && inr del (n - Z.to_nat idx) && (off + k <=? length w))
        (Some (edit (Z.to_nat idx) (Z.to_nat del) (firstn k (skipn off w)) mid))
  | RAppendMove del j =>
      do w <- var s j;
      require (negb (i =? j) && inr del n) (Some (firstn (n - Z.to_nat del) mid ++ w))
  | RAppendCopy del j off k =>
      do w <- var s j;
      require (copiable && inr del n && (off + k <=? length w))
        (Some (firstn (n - Z.to_nat del) mid ++ firstn k (skipn off w)))
  | RAssignMove j => do w <- var s j; require (negb (i =? j)) (Some w)
  | RAssignCopy j => do w <- var s j; require (copiable && negb (i =? j)) (Some w)
  end.

(** What the release build makes of arguments outside the contract: every index is
    clamped into the range [0, n], every count into what is left of the range. *)
Definition clampZ (x hi : Z) : Z := Z.max 0 (Z.min x hi).
Definition sanitized (n : Z) (o : rop A) : rop A :=
  let cut idx del := clampZ del (n - clampZ idx n) in
  match o with
  | RInsert idx x => RInsert (clampZ idx n) x
  | RResize k => RResize (Z.max 0 k)
  | RGrow k => RGrow (Z.max n k)
  | RShrink k => RShrink (clampZ k n)
  | RSplice idx del => RSplice (clampZ idx n) (cut idx del)
  | RSpliceMove idx del j => RSpliceMove (clampZ idx n) (cut idx del) j
  | RSpliceCopy idx del j off k => RSpliceCopy (clampZ idx n) (cut idx del) j off k
  | RAppendMove del j => RAppendMove (clampZ del n) j
  | RAppendCopy del j off k => RAppendCopy (clampZ del n) j off k
  | _ => o
  end.

(** How many elements an operation adds (for the size limit). *)
Definition radd (s : vars A) (o : rop A) (mid : list A) : nat :=
  let w j := match var s j with Some w => length w | None => 0 end in
  match o with
  | RPush _ | RInsert _ _ | RUnshift _ => 1
  | RResize k | RGrow k => Z.to_nat k - length mid
  | RSpliceMove _ _ j | RAppendMove _ j | RAssignMove j | RAssignCopy j => w j
  | RSpliceCopy _ _ _ _ k | RAppendCopy _ _ _ k => k
  | _ => 0
  end.

(** The elements a range denotes. *)
Definition denotes (r : range) (l : list A) : list A :=
  firstn (length l - Z.to_nat (Left r) - Z.to_nat (Right r)) (skipn (Z.to_nat (Left r)) l).
Definition within (r : range) (l : list A) : Prop :=
  (0 <= r_trim r < 2 ^ 64 /\ 0 <= Left r /\ 0 <= Right r /\ Left r + Right r <= Z.of_nat (length l))%Z.

(** The two misbehaviours found: see RangeProps.v. *)
Definition trimmed_append (o : rop A) : bool :=
  match o with RAppendMove del _ => (del =? 0)%Z | RAppendCopy del _ _ _ => (del =? 0)%Z | _ => true end.
Definition whole_prefix (r : range) (o : rop A) (l : list A) : bool :=
  match o with
  | RSpliceCopy idx del j off k =>
      negb (length l =? 0) && (r_trim r =? 0)%Z && (idx =? 0)%Z && (Z.to_nat del =? length l) && (off =? 0) && negb (k =? length l)
  | _ => false
  end.

(** The variables an operation may change: the vec under the range, and a moved-from source. *)
Definition rwrites (i : nat) (o : rop A) : list nat :=
  match o with
  | RSpliceMove _ _ j | RAppendMove _ j | RAssignMove j => [i; j]
  | _ => [i]
  end.
Definition moves (o : rop A) : bool :=
  match o with RSpliceMove _ _ _ | RAppendMove _ _ | RAssignMove _ => true | _ => false end.

(** A sequence of edits (without moving sources) through one range whose vec is
    [pre ++ mid ++ suf]: only [mid] changes. *)
Fixpoint rspecs (copiable : bool) (r : range) (s : vars A) (os : list (rop A)) (pre mid suf : list A) : option (list A) :=
  match os with
  | [] => Some mid
  | o :: t =>
      let l := pre ++ mid ++ suf in
      do mid' <- rspec copiable (r_var r) s o mid;
      require (negb (moves o) && fitsb (length l + radd s o mid) && trimmed_append o && negb (whole_prefix r o l))
        (rspecs copiable r (lset s (r_var r) (Some (pre ++ mid' ++ suf))) t pre mid' suf)
  end.
End Spec.
