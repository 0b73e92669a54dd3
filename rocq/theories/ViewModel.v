(** Model of the read-only views (include/fu/view.h) and of slices
    (include/fu/vec/LEGACY_slice.h), release build: clamping instead of assertions. *)
From Verif Require Export VecMachine Words.
Open Scope Z_scope.

(** A view into the storage of one owner: element offset from the owner's data() and
    size.  view.h:12-30 ([m_data], [m_size]). *)
Record view_t := { w_off : Z; w_size : Z }.
(** view.h:32-36: the view of a whole vec of [n] elements. *)
Definition view_all (n : Z) : view_t := {| w_off := 0; w_size := n |}.

Definition pos0 (x : Z) : Z := if 0 <? x then x else 0.

(** view.h:266-278 [get_view(v, start)]; 315-327 [get_view_mut] is the same code. *)
Definition get_view_from (v : view_t) (start : Z) : view_t :=
  let end_ := w_size v in
  let start := pos0 start in
  let start := if start <? end_ then start else end_ in
  {| w_off := w_off v + start; w_size := end_ - start |}.
(** view.h:280-293 [get_view_start0(v, end)]; 329-342 the mutable one. *)
Definition get_view_to (v : view_t) (end_ : Z) : view_t :=
  let size := w_size v in
  let end_ := pos0 end_ in
  let end_ := if wrap 32 end_ <=? wrap 32 size then end_ else size in
  {| w_off := w_off v; w_size := end_ |}.
(** view.h:295-313 [get_view(v, start, end)]; 344-361 the mutable one. *)
Definition get_view_between (v : view_t) (start end_ : Z) : view_t :=
  let size := w_size v in
  let end_ := pos0 end_ in
  let start := pos0 start in
  let end_ := if wrap 32 end_ <=? wrap 32 size then end_ else size in
  let start := if start <? end_ then start else end_ in
  {| w_off := w_off v + start; w_size := end_ - start |}.

(** view.h:46-64 [operator\[\]], release non-retail: the element offset addressed, or
    [None] for the poison pointer. *)
Definition view_index (v : view_t) (idx : Z) : option Z :=
  if wrap 32 idx <? wrap 32 (w_size v) then Some (w_off v + idx) else None.

(** view.h:371-387 [into_view<Dest>] : bytes reinterpreted; element sizes [ss], [sd]
    and the number of destination elements; the assertion it makes. *)
Definition into_view_size (n ss sd : Z) : Z := n * ss / sd.
Definition into_view_ok (n ss sd addr align : Z) : bool :=
  (addr mod align =? 0) && (into_view_size n ss sd * sd / ss =? n).

Section Slices.
Context {A : Type} (dflt : A) (e : elt).

(** LEGACY_slice.h:17-21 [slice(vec&&, start, end)]: in place; vec.h:436-438 turns
    negative counts into 0; [v.size() - end] is signed 32-bit. *)
Definition slice_move (i : nat) (start end_ : Z) (m : machine A) : res (machine A) :=
  let! v := getv m i in
  let n := Z.of_nat (size e v) in
  if (2 ^ 31 <=? n - end_) then UB
  else exec dflt e (ShiftPop i (Z.to_nat (pos0 start)) (Z.to_nat (pos0 (n - end_)))) m.
(** LEGACY_slice.h:11-15 [slice(vec&&, start)]. *)
Definition slice_move_from (i : nat) (start : Z) (m : machine A) : res (machine A) :=
  exec dflt e (ShiftPop i (Z.to_nat (pos0 start)) 0) m.

(** LEGACY_slice.h:32-64 [slice(const vec&, start, end)]: the result is a new variable. *)
Definition slice_copy (j : nat) (start end_ : Z) (m : machine A) : res (machine A) :=
  let! w := getv m j in
  let s := Z.of_nat (size e w) in
  let fresh := length (m_vars m) in
  if TRIVIAL e && (start =? 0) && (SMALL_CAPA e <? end_) then
    let! m1 := exec dflt e (Copy j) m in
    slice_move fresh 0 end_ m1
  else if negb (TRIVIAL e) && (start =? 0) && (end_ =? s) then
    exec dflt e (Copy j) m
  else
    let end_ := if end_ <? s then end_ else s in
    let start := pos0 start in
    let count := pos0 (end_ - start) in
    let! (v, h) := init_copy e w (m_heap m) (src_of dflt e true w (Z.to_nat start)) (Z.to_nat count) in
    Ok {| m_heap := h; m_vars := m_vars m ++ [Some v] |}.

(** Reading the elements a view of variable [i] covers. *)
Definition read_view (m : machine A) (i : nat) (w : view_t) : res (list (option A)) :=
  let! v := getv m i in
  if (w_off w <? 0) || (w_size w <? 0) then UB
  else read_range v (m_heap m) (data e v) (Z.to_nat (w_off w)) (Z.to_nat (w_size w)).
End Slices.
