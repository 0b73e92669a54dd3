(** Model of lib/BitSet.fu.  [_data] is a list of bytes (Z in 0..255); int arguments are Z;
    None is a trap (index out of bounds, or vec.grow asked to shrink). *)
From Verif Require Export Words.
Open Scope Z_scope.

(** [_data[i]] for an int i; fu indexing traps outside 0..len-1. *)
Definition at_ (d : list Z) (i : Z) : option Z := if i <? 0 then None else nth_error d (Z.to_nat i).
Definition put (d : list Z) (i : Z) (x : Z) : option (list Z) := if i <? 0 then None else upd d (Z.to_nat i) x.
Definition len (d : list Z) : Z := Z.of_nat (length d).
(** vec.grow / resize / shrink with zero fill (include/fu/vec.h:862-880; verified in C01).
    grow to less than the current size is outside its contract. *)
Definition grow (d : list Z) (n : Z) : option (list Z) :=
  if n <? len d then None else Some (d ++ repeat 0 (Z.to_nat (n - len d))).
Definition resize (d : list Z) (n : Z) : option (list Z) :=
  if n <? 0 then None else Some (firstn (Z.to_nat n) d ++ repeat 0 (Z.to_nat n - length d)).
(** u8 complement and shift. *)
Definition not8 (x : Z) : Z := Z.lxor x 255.
Definition shl8 (x k : Z) : Z := wrap 8 (Z.shiftl x k).

(** BitSet.fu:13-15, 33-36: no_neg, bucket, bit, mask. *)
Definition bucket_of (idx : Z) : Z := Z.lor (Z.shiftr idx 3) (Z.land idx (- 2 ^ 31)).
Definition mask_of (idx : Z) : Z := shl8 1 (Z.land idx 7).

(** BitSet.fu:71-79 [_shrink_to_fit]: [while (end --> 0) if (_data[end]) break]. *)
Fixpoint shrink_loop (end_ : nat) (d : list Z) : option (list Z) :=
  match end_ with
  | O => Some []
  | S e => do x <- nth_error d e; if x =? 0 then shrink_loop e d else Some (firstn (S e) d)
  end.
Definition shrink_to_fit (d : list Z) : option (list Z) := shrink_loop (length d) d.

(** BitSet.fu:6-9 [clear]. *)
Definition clear (d : list Z) : list Z := [].

(** BitSet.fu:11-29 [clear(start)]. *)
Definition clear_from (d : list Z) (idx : Z) : option (list Z) :=
  let bucket := bucket_of idx in
  let idx_flr := Z.shiftl bucket 3 in
  let shrink := if idx_flr <? idx then bucket + 1 else bucket in
  do d <- (if shrink <? len d then resize d shrink else Some d);
  do d <- (if bucket <? len d then
             let rem := idx - idx_flr in
             do x <- at_ d bucket;
             put d bucket (Z.land x (not8 (shl8 255 rem)))
           else Some d);
  shrink_to_fit d.

(** BitSet.fu:31-47 [add(idx)]: the new data and whether the bit was new. *)
Definition add (d : list Z) (idx : Z) : option (list Z * bool) :=
  let bucket := bucket_of idx in
  let mask := mask_of idx in
  do d <- (if len d <=? bucket then grow d (bucket + 1) else Some d);
  do entry <- at_ d bucket;
  let ret := Z.land entry mask =? 0 in
  do d <- put d bucket (Z.lor entry mask);
  Some (d, ret).

(** BitSet.fu:49-58 [add(other)] (and 60-64 [|=]); the loop over i < N. *)
Fixpoint or_loop (fuel : nat) (i : Z) (d o : list Z) : option (list Z) :=
  match fuel with
  | O => Some d
  | S f => do x <- at_ d i; do y <- at_ o i; do d' <- put d i (Z.lor x y); or_loop f (i + 1) d' o
  end.
Definition add_set (d o : list Z) : option (list Z) :=
  let N := len o in
  do d <- (if len d <? N then grow d N else Some d);
  or_loop (Z.to_nat N) 0 d o.

(** BitSet.fu:81-89 [remove(other)]. *)
Fixpoint andn_loop (fuel : nat) (i : Z) (d o : list Z) : option (list Z) :=
  match fuel with
  | O => Some d
  | S f => do x <- at_ d i; do y <- at_ o i; do d' <- put d i (Z.land x (not8 y)); andn_loop f (i + 1) d' o
  end.
Definition remove_set (d o : list Z) : option (list Z) :=
  let N := Z.min (len d) (len o) in
  do d <- andn_loop (Z.to_nat N) 0 d o;
  if N =? len d then shrink_to_fit d else Some d.

(** BitSet.fu:91-100 [has]. *)
Definition has (d : list Z) (idx : Z) : option bool :=
  let bucket := bucket_of idx in
  let mask := mask_of idx in
  if bucket <? len d then do x <- at_ d bucket; Some (negb (Z.land x mask =? 0)) else Some false.

(** BitSet.fu:102-133 [remove(idx)]: the new data and whether the bit was set. *)
Definition remove (d : list Z) (idx : Z) : option (list Z * bool) :=
  let bucket := bucket_of idx in
  let mask := mask_of idx in
  if bucket <? len d then
    do item <- at_ d bucket;
    if negb (Z.land item mask =? 0) then
      do d <- put d bucket (Z.land item (not8 mask));
      do d <- (if (item =? mask) && (len d =? bucket + 1) then shrink_to_fit d else Some d);
      Some (d, true)
    else Some (d, false)
  else Some (d, false).

(** BitSet.fu:135-157 [add_range(end)].  end + 7 must not overflow. *)
Fixpoint fill_loop (fuel : nat) (i : Z) (d : list Z) : option (list Z) :=
  match fuel with
  | O => Some d
  | S f => do d' <- put d i 255; fill_loop f (i + 1) d'
  end.
(* 151-153: [do tail |= 1 << (i & 7); while (++i < end)]; fuel = end - i >= 1 *)
Fixpoint tail_loop (fuel : nat) (i : Z) (tail : Z) : Z :=
  match fuel with
  | O => tail
  | S f => tail_loop f (i + 1) (Z.lor tail (shl8 1 (Z.land i 7)))
  end.
Definition add_range (d : list Z) (end_ : Z) : option (list Z) :=
  let no_neg := Z.land end_ (- 2 ^ 31) in
  let floorBytes := Z.lor (Z.shiftr end_ 3) no_neg in
  if 2 ^ 31 <=? end_ + 7 then None else
  let ceilBytes := Z.lor (Z.shiftr (end_ + 7) 3) no_neg in
  do d <- grow d ceilBytes;
  do d <- fill_loop (Z.to_nat floorBytes) 0 d;
  if floorBytes <? ceilBytes then
    let i := Z.shiftl floorBytes 3 in
    put d floorBytes (tail_loop (Z.to_nat (end_ - i)) i 0)
  else Some d.

(** lib/bit.fu:2 [popcount(u64)] (__builtin_popcountll): the number of one bits. *)
Fixpoint ones (bits : nat) (x : Z) : Z :=
  match bits with O => 0 | S b => Z.b2z (Z.testbit x (Z.of_nat b)) + ones b x end.
Definition popcount64 (x : Z) : Z := ones 64 x.
(** The little-endian u64 at byte offset 8*i (BitSet.fu:164 [.view(u64)]). *)
Fixpoint le_word (l : list Z) : Z := match l with [] => 0 | x :: l' => Z.lor x (Z.shiftl (le_word l') 8) end.
(** BitSet.fu:159-177 [popcount]. *)
Fixpoint words_loop (n : nat) (d : list Z) (sum : Z) : Z :=
  match n with O => sum | S n' => words_loop n' (skipn 8 d) (sum + popcount64 (le_word (firstn 8 d))) end.
Fixpoint tail_word (l : list Z) (tail : Z) : Z :=
  match l with [] => tail | x :: l' => tail_word l' (Z.lor (wshl 64 tail 8) x) end.
Definition popcount (d : list Z) : Z :=
  let N := (length d / 8)%nat in
  words_loop N d 0 + popcount64 (tail_word (skipn (8 * N) d) 0).

(** BitSet.fu:179-192 [each]: the visited indices in order. *)
Fixpoint each_bit (bits : nat) (b item i : Z) : list Z :=
  match bits with
  | O => []
  | S n => (if Z.land item (shl8 1 b) =? 0 then [] else [Z.lor (Z.shiftl i 3) b]) ++ each_bit n (b + 1) item i
  end.
Fixpoint each_loop (d : list Z) (i : Z) : list Z :=
  match d with
  | [] => []
  | item :: d' => (if item =? 0 then [] else each_bit 8 0 item i) ++ each_loop d' (i + 1)
  end.
Definition each (d : list Z) : list Z := each_loop d 0.

(** BitSet.fu:197-205 [negated]. *)
Definition negated (d : list Z) (end_ : Z) : option (list Z) :=
  do r <- add_range [] end_; remove_set r d.

(** BitSet.fu:210-220 [has_inter]. *)
Fixpoint inter_loop (fuel : nat) (i : Z) (a b : list Z) : option bool :=
  match fuel with
  | O => Some false
  | S f => do x <- at_ a i; do y <- at_ b i; if Z.land x y =? 0 then inter_loop f (i + 1) a b else Some true
  end.
Definition has_inter (a b : list Z) : option bool :=
  inter_loop (Z.to_nat (Z.min (len a) (len b))) 0 a b.

(** BitSet.fu:222-232 [has_missing].  The loop runs over a's length and reads b. *)
Fixpoint missing_loop (fuel : nat) (i : Z) (a b : list Z) : option bool :=
  match fuel with
  | O => Some false
  | S f => do x <- at_ a i; do y <- at_ b i; if Z.land (not8 x) y =? 0 then missing_loop f (i + 1) a b else Some true
  end.
Definition has_missing (a b : list Z) : option bool :=
  if len a <? len b then Some true else missing_loop (length a) 0 a b.
