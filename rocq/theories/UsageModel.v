(** Model of src/usage.fu (usage masks) and of the mask-to-region step of src/lifetime.fu.
    Quals is u32 (module.fu:3-4); i32s are Z.  None is a shift by 32 bits or more, or clz/ctz of 0: undefined in C. *)
From Verif Require Export Words.
Open Scope Z_scope.

(** usage.fu:6-15, module.fu:4 *)
Definition q_mutref : Z := wshl 32 1 0.
Definition q_rx_copy : Z := wshl 32 1 1.
Definition q_rx_resize : Z := wshl 32 1 2.
Definition q_TAGS : Z := Z.lor (Z.lor q_mutref q_rx_copy) q_rx_resize.
Definition q_USAGE : Z := Z.lxor q_TAGS (2 ^ 32 - 1).
Definition Quals_bitsize : Z := 32.
Definition q_TAGS_bitsize : Z := 3.
Definition q_USAGE_bitsize : Z := Quals_bitsize - q_TAGS_bitsize.
Definition q_USAGE_offset : Z := q_TAGS_bitsize.

(** u32 shifts by a u32 amount; an i32 amount is first cast to u32. *)
Definition shl32 (x k : Z) : option Z := if wrap 32 k <? 32 then Some (wshl 32 x (wrap 32 k)) else None.
Definition shr32 (x k : Z) : option Z := if wrap 32 k <? 32 then Some (wshr x (wrap 32 k)) else None.

(** usage.fu:25-31 *)
Definition getMaxUsage (flatCount : Z) : option Z :=
  if q_USAGE_bitsize <=? flatCount then Some q_USAGE
  else do x <- shr32 q_USAGE (q_USAGE_bitsize - flatCount); Some (Z.land x q_USAGE).

(** usage.fu:51-52, 65-66: [while (offset >= q_USAGE_bitsize) offset -= q_USAGE_bitsize]; the fuel
    handed in is the offset itself, which is enough. *)
Fixpoint reduce (fuel : nat) (offset : Z) : Z :=
  match fuel with
  | O => offset
  | S fuel' => if q_USAGE_bitsize <=? offset then reduce fuel' (offset - q_USAGE_bitsize) else offset
  end.
Definition reduced (offset : Z) : Z := reduce (Z.to_nat offset) offset.

(** usage.fu:46-58 *)
Definition shiftRight (quals offset : Z) : option Z :=
  let keep := Z.land quals q_TAGS in
  let usage := Z.land quals q_USAGE in
  let offset := reduced offset in
  do a <- shr32 usage offset;
  do b <- shl32 usage (q_USAGE_bitsize - offset);
  Some (Z.lor keep (Z.land (Z.lor a b) q_USAGE)).
(** usage.fu:60-72 *)
Definition shiftLeft (quals offset : Z) : option Z :=
  let keep := Z.land quals q_TAGS in
  let usage := Z.land quals q_USAGE in
  let offset := reduced offset in
  do a <- shl32 usage offset;
  do b <- shr32 usage (q_USAGE_bitsize - offset);
  Some (Z.lor keep (Z.land (Z.lor a b) q_USAGE)).

(** usage.fu:33-36 *)
Definition getRegionUsage (flatOffset flatCount : Z) : option Z :=
  do m <- getMaxUsage flatCount; shiftLeft m flatOffset.
(** usage.fu:38-41, on the quals *)
Definition setMaxUsage (quals flatCount : Z) : option Z :=
  do m <- getMaxUsage flatCount; Some (Z.lor (Z.land quals q_TAGS) m).
(** usage.fu:74-77 *)
Definition structUsageFromFieldUsage (quals memberFlatOffset : Z) : option Z := shiftLeft quals memberFlatOffset.
(** usage.fu:79-86 *)
Definition fieldUsageFromStructUsage (quals structUsage memberFlatOffset memberFlatCount : Z) : option Z :=
  let quals := Z.land quals (Z.lxor q_USAGE (2 ^ 32 - 1)) in
  let quals := Z.lor quals structUsage in
  do quals <- shiftRight quals memberFlatOffset;
  do m <- getMaxUsage memberFlatCount;
  Some (Z.land quals (Z.lor q_TAGS m)).

(** lib/bit.fu:5, 8: __builtin_clz, __builtin_ctz on u32; undefined for 0. *)
Definition clz (x : Z) : option Z := if x =? 0 then None else Some (31 - Z.log2 x).
Fixpoint ctz_loop (fuel : nat) (x i : Z) : Z :=
  match fuel with O => i | S f => if Z.testbit x i then i else ctz_loop f x (i + 1) end.
Definition ctz (x : Z) : option Z := if x =? 0 then None else Some (ctz_loop 32 x 0).

(** lifetime.fu:1286-1293 (Lifetime_op_mask): the region (flatOffset, flatCount) a mask is turned into. *)
Definition mask_region (quals : Z) : option (Z * Z) :=
  let usage := Z.land quals q_USAGE in
  do lz <- clz usage;
  do tz <- ctz usage;
  let flatOffset := tz - q_USAGE_offset in
  Some (flatOffset, q_USAGE_bitsize - flatOffset - lz).
