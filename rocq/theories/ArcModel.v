(** Model of the buffer allocator: include/fu/mem/arc.cpp and arc.h.
    Only the size arithmetic and the refuse-to-allocate outcome are modelled;
    the memory itself is the heap of VecModel.v.  malloc is assumed to succeed
    (the code does not check it). *)
From Verif Require Export Words.
Open Scope Z_scope.

(** Outcome of a runtime operation: normal, [std::exit(101)], or undefined
    behaviour / failed debug assertion. *)
Inductive res (X : Type) : Type :=
| Ok (x : X)
| Exit
| UB.
Arguments Ok {X} x.
Arguments Exit {X}.
Arguments UB {X}.

Definition rbind {X Y} (m : res X) (f : X -> res Y) : res Y :=
  match m with Ok x => f x | Exit => Exit | UB => UB end.
Notation "'let!' x ':=' m 'in' k" := (rbind m (fun x => k))
  (at level 200, x strict pattern, m at level 100, k at level 200).

(** include/fu/mem/arc.cpp:9-20 [next_pow2(uint32_t v)]. *)
Definition next_pow2 (v : Z) : Z :=
  let v := wsub 32 v 1 in
  let v := Z.lor v (wshr v 1) in
  let v := Z.lor v (wshr v 2) in
  let v := Z.lor v (wshr v 4) in
  let v := Z.lor v (wshr v 8) in
  let v := Z.lor v (wshr v 16) in
  wadd 32 v 1.

(** include/fu/mem/arc.h:34 [MIN_ALLOC]. *)
Definition MIN_ALLOC : Z := 128.
(** include/fu/mem/arc.h:67 [sizeof(fu_ARC) == 16]. *)
Definition ARC_HEADER : Z := 16.

(** include/fu/mem/arc.cpp:24-38 [fu_POW2MEM_RoundUp]; [bytes] is a size_t,
    truncated to uint32_t by the cast. *)
Definition round_up (bytes : Z) : res Z :=
  let rnd := next_pow2 (wrap 32 bytes) in
  if (rnd <? bytes) || (0x80000000 <? rnd) then Exit
  else Ok (if MIN_ALLOC <? rnd then rnd else MIN_ALLOC).

(** include/fu/mem/arc.cpp:181-220 [fu_ARC_ALLOC]: the in/out byte count;
    statistics and leak counters left out. *)
Definition arc_alloc_bytes (bytes : Z) : res Z :=
  let! blk := round_up (wadd 64 bytes ARC_HEADER) in
  let usable := wsub 64 blk ARC_HEADER in
  if 0x7fffffff <? usable then Exit else Ok usable.

(** include/fu/mem/arc.cpp:237-250 [fu_UNIQ_ALLOC]. *)
Definition uniq_alloc_bytes (bytes : Z) : res Z :=
  let! blk := round_up bytes in
  if 0x7fffffff <? blk then Exit else Ok blk.

(** include/fu/mem/arc.h:78-92 [fu_ALLOC<T, SHAREABLE>]: element count in,
    element count out. *)
Definition alloc_count (shareable : bool) (esz cnt : Z) : res Z :=
  let cnt := if 1 <? cnt then cnt else 1 in
  let! bytes := (if shareable then arc_alloc_bytes (cnt * esz)
                 else uniq_alloc_bytes (cnt * esz)) in
  Ok (bytes / esz).
