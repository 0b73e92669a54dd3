(** Model of include/fu/vec_range.h (vec_range_mut and the get_range family) over the vec machine,
    release build (argument clamping, no assertions). *)
From Verif Require Export VecMachine.
Open Scope Z_scope.

(** vec_range.h:19-20: the vec (a variable) and the packed trims. *)
Record range := { r_var : nat; r_trim : Z }.
(** vec_range.h:22-28 *)
Definition Left (r : range) : Z := signed 32 (Z.land (r_trim r) 0xffffffff).
Definition Right (r : range) : Z := signed 32 (wshr (r_trim r) 32).
(** vec_range.h:62-64; [n] is m_vec->size(). *)
Definition rsize (n : Z) (r : range) : Z := n - (Left r + Right r).
(** vec_range.h:37-40 *)
Definition whole (i : nat) : range := {| r_var := i; r_trim := 0 |}.

Definition max0 (x : Z) : Z := if 0 <? x then x else 0.

(** vec_range.h:672-683, 714-725 [get_range(v, start)] *)
Definition get_range_from (n : Z) (r : range) (start : Z) : range :=
  let end_ := rsize n r in
  let start := max0 start in
  let start := if start <? end_ then start else end_ in
  {| r_var := r_var r; r_trim := wadd 64 (r_trim r) (wrap 64 start) |}.
(** vec_range.h:685-696, 727-738 [get_range_start0(v, end)] *)
Definition get_range_to (n : Z) (r : range) (end_ : Z) : range :=
  let size := rsize n r in
  let end_ := max0 end_ in
  let end_ := if wrap 32 end_ <=? wrap 32 size then end_ else size in
  {| r_var := r_var r; r_trim := wadd 64 (r_trim r) (wshl 64 (wrap 64 (size - end_)) 32) |}.
(** vec_range.h:698-711, 740-753 [get_range(v, start, end)] *)
Definition get_range_between (n : Z) (r : range) (start end_ : Z) : range :=
  let size := rsize n r in
  let end_ := max0 end_ in
  let start := max0 start in
  let end_ := if wrap 32 end_ <=? wrap 32 size then end_ else size in
  let start := if start <? end_ then start else end_ in
  {| r_var := r_var r;
     r_trim := wadd 64 (r_trim r) (Z.lor (wrap 64 start) (wshl 64 (wrap 64 (size - end_)) 32)) |}.

Section Ops.
Context {A : Type}.

(** Operations through a range; signed arguments as in the API. *)
Inductive rop :=
| RSet (idx : Z) (x : A)                          (* r.mutref(idx) = x *)
| RPush (x : A)
| RInsert (idx : Z) (x : A)
| RUnshift (x : A)
| RResize (n : Z)
| RGrow (n : Z)
| RShrink (n : Z)
| RClear
| RPop
| RSplice (idx del : Z)
| RSpliceMove (idx del : Z) (j : nat)             (* r.splice(idx, del, STEAL(w)) *)
| RSpliceCopy (idx del : Z) (j off n : nat)       (* r.splice(idx, del, w[off, off+n)) *)
| RAppendMove (del : Z) (j : nat)
| RAppendCopy (del : Z) (j off n : nat)
| RAssignMove (j : nat)                           (* r = STEAL(w) *)
| RAssignCopy (j : nat).                          (* r = w *)

(** The vec operation a range operation performs, given the vec's size [n] and the
    size [nw] of the source variable; [None]: dereferences the poison pointer. *)
Definition compile (o : rop) (n nw : Z) (r : range) : option (op A) :=
  let i := r_var r in
  let sz := rsize n r in
  let L := Left r in
  match o with
  (* vec_range.h:98-118, release non-retail *)
  | RSet idx x => if wrap 32 idx <? wrap 32 sz then Some (SetElem i (Z.to_nat (idx + L)) x) else None
  (* vec_range.h:227-231 *)
  | RPush x => Some (Insert i (Z.to_nat (n - Right r)) x)
  (* vec_range.h:233-247 *)
  | RInsert idx x =>
      let idx := max0 idx in
      let idx := if idx <? sz then idx else sz in
      Some (Insert i (Z.to_nat (L + idx)) x)
  (* vec_range.h:249-251: fu_ZERO is not MAYBE_POS, no clamp *)
  | RUnshift x => Some (Insert i (Z.to_nat (L + 0)) x)
  (* vec_range.h:285-301 *)
  | RResize k =>
      let k := max0 k in
      let dif := k - sz in
      let del := if 0 <? dif then 0 else - dif in
      let add := if dif <? 0 then 0 else dif in
      Some (SpliceEmpty i (Z.to_nat (L + sz - del)) (Z.to_nat del) (Z.to_nat add))
  (* vec_range.h:303-317 *)
  | RGrow k =>
      let k := if sz <? k then k else sz in
      Some (SpliceEmpty i (Z.to_nat (L + sz)) 0 (Z.to_nat (k - sz)))
  (* vec_range.h:319-336 *)
  | RShrink k =>
      let k := max0 k in
      let k := if k <? sz then k else sz in
      let del := sz - k in
      Some (SpliceDel i (Z.to_nat (L + sz - del)) (Z.to_nat del))
  (* vec_range.h:338-340 *)
  | RClear => Some (SpliceDel i (Z.to_nat (L + sz - sz)) (Z.to_nat sz))
  (* vec_range.h:342-351 *)
  | RPop => if sz =? 0 then Some (SpliceDel i (Z.to_nat L) 0)   (* does nothing *)
            else Some (SpliceDel i (Z.to_nat (L + sz - 1)) 1)
  (* vec_range.h:353-379 *)
  | RSplice idx del =>
      let idx := max0 idx in
      let idx := if idx <? sz then idx else sz in
      let mx := sz - idx in
      let del := max0 del in
      let del := if del <? mx then del else mx in
      Some (SpliceDel i (Z.to_nat (L + idx)) (Z.to_nat del))
  (* vec_range.h:123-146 *)
  | RSpliceMove idx del j =>
      let idx := max0 idx in
      let del := max0 del in
      let idx := if sz <? idx then sz else idx in
      let mx := sz - idx in
      let del := if mx <? del then mx else del in
      Some (SpliceMove i (Z.to_nat (L + idx)) (Z.to_nat del) j)
  (* vec_range.h:148-171 *)
  | RSpliceCopy idx del j off k =>
      let idx := max0 idx in
      let del := max0 del in
      let idx := if sz <? idx then sz else idx in
      let mx := sz - idx in
      let del := if mx <? del then mx else del in
      Some (SpliceCopy i (Z.to_nat (L + idx)) (Z.to_nat del) j off k)
  (* vec_range.h:177-193: splices at the end of the range, not [del] before it *)
  | RAppendMove del j =>
      let del := max0 del in
      let del := if sz <? del then sz else del in
      Some (SpliceMove i (Z.to_nat (L + sz)) (Z.to_nat del) j)
  (* vec_range.h:195-221 *)
  | RAppendCopy del j off k =>
      let del := max0 del in
      let del := if sz <? del then sz else del in
      Some (SpliceCopy i (Z.to_nat (L + sz)) (Z.to_nat del) j off k)
  (* vec_range.h:396-404 *)
  | RAssignMove j => if r_trim r =? 0 then Some (AssignMove i j)
                     else Some (SpliceMove i (Z.to_nat L) (Z.to_nat sz) j)
  (* vec_range.h:406-414 and 419-429 *)
  | RAssignCopy j => if r_trim r =? 0 then Some (AssignCopy i j)
                     else Some (SpliceCopy i (Z.to_nat L) (Z.to_nat sz) j 0 (Z.to_nat nw))
  end.

(** The source variable of an operation, if any. *)
Definition src_var (o : rop) : option nat :=
  match o with
  | RSpliceMove _ _ j | RSpliceCopy _ _ j _ _ | RAppendMove _ j | RAppendCopy _ j _ _
  | RAssignMove j | RAssignCopy j => Some j
  | _ => None
  end.

Definition rexec (dflt : A) (e : elt) (o : rop) (r : range) (m : machine A) : res (machine A) :=
  let! v := getv m (r_var r) in
  let! nw := match src_var o with
             | Some j => let! w := getv m j in Ok (Z.of_nat (size e w))
             | None => Ok 0
             end in
  match compile o (Z.of_nat (size e v)) nw r with
  | Some p => exec dflt e p m
  | None => UB
  end.

Fixpoint rrun (dflt : A) (e : elt) (os : list rop) (r : range) (m : machine A) : res (machine A) :=
  match os with
  | [] => Ok m
  | o :: t => let! m' := rexec dflt e o r m in rrun dflt e t r m'
  end.
End Ops.
Arguments rop A : clear implicits.
