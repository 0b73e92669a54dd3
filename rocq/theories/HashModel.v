(** Model of lib/hash.fu: a robin-hood index over a dense array.
    Slots, hashes and probe counts are ints (Z); a DataPos is a nat, 0 meaning none.  Bit operations on ints are those
    of unbounded two's complement integers: hash + probe, which can pass 2^31 - 1 (125-134), does not wrap here (the
    masked result would be the same).
    None is an access out of bounds, or a loop that does not end (the fuel is enough otherwise: HashProofs.v). *)
From Verif Require Export Common.
Open Scope Z_scope.

(** hash.fu:4-14 *)
Record ientry := IE { ie_hash : Z; ie_pos : nat }.
Record dentry (K V : Type) := DE { de_key : K; de_value : V; de_hash : Z; de_collision : nat }.
Arguments DE {K V}. Arguments de_key {K V}. Arguments de_value {K V}. Arguments de_hash {K V}. Arguments de_collision {K V}.
(** hash.fu:77-81; the hasher is a function of the key *)
Record hmap (K V : Type) := HM { hm_index : list ientry; hm_data : list (dentry K V) }.
Arguments HM {K V}. Arguments hm_index {K V}. Arguments hm_data {K V}.
Definition empty_map {K V} : hmap K V := HM [] [].

(** arr[i] with an int i *)
Definition getz {A} (l : list A) (i : Z) : option A := if i <? 0 then None else nth_error l (Z.to_nat i).
Definition setz {A} (l : list A) (i : Z) (x : A) : option (list A) := if i <? 0 then None else upd l (Z.to_nat i) x.
Definition swapz {A} (i j : Z) (l : list A) : option (list A) :=
  do x <- getz l i; do y <- getz l j; do l <- setz l i y; setz l j x.
Definition lenz {A} (l : list A) : Z := Z.of_nat (length l).

(** hash.fu:92-102.  lib/bit.fu:8 ctz, of a nonzero int *)
Definition hash_mask (index : list ientry) : Z := if lenz index =? 0 then 0 else lenz index - 1.
Fixpoint ctz_from (fuel : nat) (x i : Z) : Z :=
  match fuel with O => i | S f => if Z.testbit x i then i else ctz_from f x (i + 1) end.
Definition max_probes (index : list ientry) : Z := if lenz index =? 0 then 0 else ctz_from 32 (lenz index) 0.
Definition nonneg (hash : Z) : Z := if hash <? 0 then Z.lnot hash else hash.

(** hash.fu:298-314 *)
Fixpoint compact (fuel : nat) (index : list ientry) (mask i_free : Z) : option (list ientry) :=
  match fuel with
  | O => None
  | S f =>
      let i := Z.land (i_free + 1) mask in
      do other <- getz index i;
      let diff := Z.land (i - ie_hash other) mask in
      if (diff =? 0) || (ie_pos other =? 0)%nat then Some index
      else do index <- swapz i i_free index; compact f index mask i
  end.
(** Enough for any index: HashProofs.v *)
Definition compact_fuel (index : list ientry) : nat := S (length index * length index).

(** ** hash.fu:235-296 *)
(** 263-273: the first free slot from [ideal] on; Some None when the search comes round to i *)
Fixpoint find_dest (fuel : nat) (index : list ientry) (mask i i_dest : Z) : option (option Z) :=
  match fuel with
  | O => None
  | S f =>
      do e <- getz index i_dest;
      if (ie_pos e =? 0)%nat then Some (Some i_dest)
      else let i_dest := Z.land (i_dest + 1) mask in
           if i_dest =? i then Some None else find_dest f index mask i i_dest
  end.
(** 276-285 *)
Fixpoint shift_back (fuel : nat) (index : list ientry) (mask ideal i_dest : Z) : option (list ientry * Z) :=
  match fuel with
  | O => None
  | S f =>
      if i_dest =? ideal then Some (index, i_dest) else
      let i_prev := Z.land (i_dest - 1) mask in
      do e <- getz index i_prev;
      if 1 + Z.land (i_prev - ie_hash e) mask <? Z.land (i_dest - ideal) mask
      then do index <- swapz i_dest i_prev index; shift_back f index mask ideal i_prev
      else Some (index, i_dest)
  end.
(** 254-295; [probe--] before [probe++] looks at the same slot again *)
Fixpoint rehash (fuel : nat) (index : list ientry) (old_len old_mask old_probes mask max_probes probe : Z)
  : option (list ientry) :=
  match fuel with
  | O => None
  | S f =>
      if old_len <=? probe then Some index else
      let i := Z.land (probe + old_probes) old_mask in
      do index_entry <- getz index i;
      let ideal := Z.land (ie_hash index_entry) mask in
      let diff := Z.land (i - ideal) mask in
      if ((old_len <=? ideal) || (max_probes <=? diff)) && negb (ie_pos index_entry =? 0)%nat then
        do d <- find_dest (S (length index)) index mask i ideal;
        match d with
        | None => rehash f index old_len old_mask old_probes mask max_probes (probe + 1)
        | Some i_dest =>
            do q <- shift_back (S (length index)) index mask ideal i_dest;
            let (index, i_dest) := (q : list ientry * Z) in
            do index <- swapz i i_dest index;
            do index <- compact (compact_fuel index) index mask i;
            rehash f index old_len old_mask old_probes mask max_probes probe
        end
      else rehash f index old_len old_mask old_probes mask max_probes (probe + 1)
  end.
(** vec.h grow: new entries are zeroes *)
Definition grow (index : list ientry) (len : Z) : list ientry :=
  index ++ repeat (IE 0 0) (Z.to_nat len - length index).
Definition rehash_fuel (old_len : nat) : nat := S (old_len + old_len * (2 * old_len) * (2 * old_len)).
Definition increase_capacity (index : list ientry) : option (list ientry) :=
  let old_len := lenz index in
  let old_mask := hash_mask index in
  let old_probes := max_probes index in
  let len := Z.max (old_len * 2) 2 in
  let bigger := grow index len in
  rehash (rehash_fuel (length index)) bigger old_len old_mask old_probes (hash_mask bigger) (max_probes bigger) 0.
(** The int old_len * 2 must not overflow, nor the allocator give up: the program ends. *)
Definition MAX_INDEX : Z := 2 ^ 30.

Section MAP.
Context {K V : Type} (eqb : K -> K -> bool) (hasher : K -> Z) (default : V).
(** hash.fu:98-101; hasher: the int digest of the key *)
Definition hash_of (k : K) : Z := nonneg (hasher k).

(** hash.fu:106-107 *)
Definition entry_at (data : list (dentry K V)) (data_pos : nat) : option (dentry K V) :=
  match data_pos with O => None | S p => nth_error data p end.
Definition set_entry (data : list (dentry K V)) (data_pos : nat) (e : dentry K V) : option (list (dentry K V)) :=
  match data_pos with O => None | S p => upd data p e end.

(** ** hash.fu:122-230 *)
Inductive routed := Found (i : Z) (data_pos collision : nat) | Available (i fair_i : Z) | Unavailable.
(** 176-195: the bucket; Some None: the key is not in it *)
Fixpoint bucket (fuel : nat) (data : list (dentry K V)) (key : K) (data_pos collision : nat) : option (option (nat * nat)) :=
  match fuel with
  | O => None
  | S f =>
      do e <- entry_at data data_pos;
      if eqb (de_key e) key then Some (Some (data_pos, collision))
      else if (de_collision e =? 0)%nat then Some None
      else bucket f data key (de_collision e) data_pos
  end.
Fixpoint route_loop (fuel : nat) (m : hmap K V) (key : K) (hash probe : Z) (fair_i : option Z) : option routed :=
  match fuel with
  | O => Some Unavailable
  | S f =>
      let mask := hash_mask (hm_index m) in
      let i := Z.land (hash + probe) mask in
      do e <- getz (hm_index m) i;
      if (ie_pos e =? 0)%nat then Some (Available i (match fair_i with None => i | Some x => x end))
      else if ie_hash e =? hash then
        do b <- bucket (S (length (hm_data m))) (hm_data m) key (ie_pos e) 0;
        Some (match b with Some (data_pos, collision) => Found i data_pos collision | None => Available i i end)
      else
        let dist := Z.land (i - ie_hash e) mask in
        let fair_i := match fair_i with None => if dist <? probe then Some i else None | Some x => Some x end in
        route_loop f m key hash (probe + 1) fair_i
  end.
Definition route (m : hmap K V) (key : K) (hash : Z) : option routed :=
  route_loop (Z.to_nat (max_probes (hm_index m))) m key hash 0 None.

(** hash.fu:206-224: the index after it; the slot is fair_i *)
Fixpoint shift_right (fuel : nat) (index : list ientry) (mask i fair_i : Z) : option (list ientry) :=
  match fuel with
  | O => None
  | S f =>
      let prev_i := Z.land (i - 1) mask in
      do e <- getz index prev_i;
      do index <- setz index i e;
      if prev_i =? fair_i then Some index else shift_right f index mask prev_i fair_i
  end.
Definition make_fair (index : list ientry) (mask i fair_i : Z) : option (list ientry) :=
  if i =? fair_i then Some index
  else do index <- shift_right (S (length index)) index mask i fair_i; setz index fair_i (IE 0 0).

(** hash.fu:319-335 if_ref: the position of the value visited *)
Definition if_ref (m : hmap K V) (key : K) (hash : Z) : option (option nat) :=
  do r <- route m key hash;
  Some (match r with Found _ data_pos _ => Some data_pos | _ => None end).

(** hash.fu:340-387 ref: the map, and the position of the value visited; Some None is running out of memory *)
Fixpoint ref_loop (fuel : nat) (m : hmap K V) (key : K) (hash : Z) (init : V) : option (option (hmap K V * nat)) :=
  match fuel with
  | O => None
  | S f =>
      do r <- route m key hash;
      match r with
      | Found _ data_pos _ => Some (Some (m, data_pos))
      | Available i fair_i =>
          do index <- make_fair (hm_index m) (hash_mask (hm_index m)) i fair_i;
          do index_entry <- getz index fair_i;
          let data := hm_data m ++ [DE key init hash (ie_pos index_entry)] in
          let data_pos := length data in
          do index <- setz index fair_i (IE hash data_pos);
          Some (Some (HM index data, data_pos))
      | Unavailable =>
          if MAX_INDEX <=? lenz (hm_index m) then Some None
          else do index <- increase_capacity (hm_index m); ref_loop f (HM index (hm_data m)) key hash init
      end
  end.
Definition ref (m : hmap K V) (key : K) (hash : Z) (init : V) : option (option (hmap K V * nat)) :=
  ref_loop 33 m key hash init.

(** hash.fu:392-473 remove *)
(** 413-417: unlinking, in the array or in the slot *)
Definition unlink (m : hmap K V) (i : Z) (data_pos collision next : nat) : option (hmap K V) :=
  match collision with
  | O => do e <- getz (hm_index m) i;
         do index <- setz (hm_index m) i (IE (ie_hash e) next); Some (HM index (hm_data m))
  | _ => do e <- entry_at (hm_data m) collision;
         do data <- set_entry (hm_data m) collision (DE (de_key e) (de_value e) (de_hash e) next);
         Some (HM (hm_index m) data)
  end.
(** 450-459: the one entry of the bucket that points to the last item *)
Fixpoint relink (fuel : nat) (data : list (dentry K V)) (collision last_pos data_pos : nat) : option (list (dentry K V)) :=
  match fuel with
  | O => None
  | S f =>
      do e <- entry_at data collision;
      if (de_collision e =? last_pos)%nat
      then set_entry data collision (DE (de_key e) (de_value e) (de_hash e) data_pos)
      else relink f data (de_collision e) last_pos data_pos
  end.
(** 435-463 *)
Fixpoint repoint (fuel : nat) (m : hmap K V) (hash probe : Z) (last_pos data_pos : nat) : option (hmap K V) :=
  match fuel with
  | O => Some m
  | S f =>
      let i := Z.land (hash + probe) (hash_mask (hm_index m)) in
      do e <- getz (hm_index m) i;
      if negb (ie_hash e =? hash) || (ie_pos e =? 0)%nat then repoint f m hash (probe + 1) last_pos data_pos
      else if (ie_pos e =? last_pos)%nat then
        do index <- setz (hm_index m) i (IE (ie_hash e) data_pos); Some (HM index (hm_data m))
      else do data <- relink (S (length (hm_data m))) (hm_data m) (ie_pos e) last_pos data_pos;
           Some (HM (hm_index m) data)
  end.
(** true: removed *)
Definition remove_at (m : hmap K V) (i : Z) (data_pos collision : nat) : option (hmap K V) :=
  do e <- entry_at (hm_data m) data_pos;
  let next := de_collision e in
  do m <- unlink m i data_pos collision next;
  do index <- (if ((collision =? 0) && (next =? 0))%nat
               then compact (compact_fuel (hm_index m)) (hm_index m) (hash_mask (hm_index m)) i
               else Some (hm_index m));
  let last_pos := length (hm_data m) in
  do m <- (if (last_pos =? data_pos)%nat then Some (HM index (hm_data m))
           else do data <- swap_at (data_pos - 1) (last_pos - 1) (hm_data m);
                do e <- entry_at data data_pos;
                repoint (Z.to_nat (max_probes index)) (HM index data) (de_hash e) 0 last_pos data_pos);
  Some (HM (hm_index m) (removelast (hm_data m))).
Definition remove (m : hmap K V) (key : K) (hash : Z) : option (hmap K V * bool) :=
  do r <- route m key hash;
  match r with
  | Found i data_pos collision => do m <- remove_at m i data_pos collision; Some (m, true)
  | _ => Some (m, false)
  end.

(** ** The API, hash.fu:478-546 *)
Definition hm_get (m : hmap K V) (key : K) : option (V * bool) :=
  do p <- if_ref m key (hash_of key);
  match p with
  | None => Some (default, false)
  | Some p => do e <- entry_at (hm_data m) p; Some (de_value e, true)
  end.
(** [f]: what the visitor does with the value; set assigns it, 496-502 *)
Definition hm_ref (m : hmap K V) (key : K) (init : V) (f : V -> V) : option (option (hmap K V)) :=
  do r <- ref m key (hash_of key) init;
  match r with
  | None => Some None
  | Some (m, p) =>
      do e <- entry_at (hm_data m) p;
      do data <- set_entry (hm_data m) p (DE (de_key e) (f (de_value e)) (de_hash e) (de_collision e));
      Some (Some (HM (hm_index m) data))
  end.
Definition hm_set (m : hmap K V) (key : K) (value : V) : option (option (hmap K V)) := hm_ref m key default (fun _ => value).
(** if_ref with a visitor that writes, 543-546 *)
Definition hm_if_ref (m : hmap K V) (key : K) (f : V -> V) : option (hmap K V * bool) :=
  do p <- if_ref m key (hash_of key);
  match p with
  | None => Some (m, false)
  | Some p =>
      do e <- entry_at (hm_data m) p;
      do data <- set_entry (hm_data m) p (DE (de_key e) (f (de_value e)) (de_hash e) (de_collision e));
      Some (HM (hm_index m) data, true)
  end.
Definition hm_remove (m : hmap K V) (key : K) : option (hmap K V * bool) := remove m key (hash_of key).
Definition hm_clear (m : hmap K V) : hmap K V := HM [] [].
Definition hm_len (m : hmap K V) : nat := length (hm_data m).

(** 516-536; the visitor may change the value, and then may call remove (true).  Also returned: the pairs it saw. *)
Fixpoint each_loop (fuel : nat) (visit : K -> V -> V * bool) (m : hmap K V) (i : nat) : option (hmap K V * list (K * V)) :=
  match fuel with
  | O => None
  | S f =>
      match nth_error (hm_data m) i with
      | None => Some (m, [])
      | Some e =>
          let (v, rem) := visit (de_key e) (de_value e) in
          do data <- upd (hm_data m) i (DE (de_key e) v (de_hash e) (de_collision e));
          let m := HM (hm_index m) data in
          do q <- (if (rem : bool) then do r <- remove m (de_key e) (de_hash e); each_loop f visit (fst r) i
                   else each_loop f visit m (S i));
          Some (fst q, (de_key e, de_value e) :: snd q)
      end
  end.
Definition hm_each (visit : K -> V -> V * bool) (m : hmap K V) : option (hmap K V * list (K * V)) :=
  each_loop (S (length (hm_data m))) visit m 0.

(** ** hash.fu:551-610 Verify; false: an assertion fails.  The bit set is the list of the indices set in it. *)
Fixpoint verify_bucket (fuel : nat) (data : list (dentry K V)) (data_pos : nat) (reach : list nat) : option (bool * list nat) :=
  match data_pos with
  | O => Some (true, reach)
  | S i =>
      match fuel with
      | O => None
      | S f =>
          do e <- entry_at data data_pos;
          if existsb (Nat.eqb i) reach then Some (false, reach)
          else verify_bucket f data (de_collision e) (i :: reach)
      end
  end.
Fixpoint verify_loop (fuel : nat) (m : hmap K V) (i max_dist : Z) (reach : list nat) : option bool :=
  match fuel with
  | O => Some (length reach =? length (hm_data m))%nat
  | S f =>
      do e <- getz (hm_index m) i;
      if (ie_pos e =? 0)%nat then verify_loop f m (i + 1) 0 reach else
      let mask := hash_mask (hm_index m) in
      let ideal := Z.land (ie_hash e) mask in
      let dist := Z.land (i - ideal) mask in
      if (dist <? max_probes (hm_index m)) && (dist <=? max_dist) then
        do q <- verify_bucket (S (length (hm_data m))) (hm_data m) (ie_pos e) reach;
        if fst q then verify_loop f m (i + 1) (dist + 1) (snd q) else Some false
      else Some false
  end.
Definition Verify (m : hmap K V) : option bool :=
  let mask := hash_mask (hm_index m) in
  do max_dist <-
    (if lenz (hm_index m) =? 0 then Some 0 else
     let i := lenz (hm_index m) - 1 in
     do e <- getz (hm_index m) i;
     if (ie_pos e =? 0)%nat then Some 0
     else Some (Z.land (i - Z.land (ie_hash e) mask) mask + 1));
  verify_loop (length (hm_index m)) m 0 max_dist [].
End MAP.

(** ** Histories.  None: a trap; Some None: out of memory *)
Inductive hop (K V : Type) :=
| HGet (k : K) | HSet (k : K) (v : V) | HRef (k : K) (init : V) (f : V -> V) | HIfRef (k : K) (f : V -> V)
| HRemove (k : K) | HEach (visit : K -> V -> V * bool) | HClear | HLen.
Arguments HGet {K V}. Arguments HSet {K V}. Arguments HRef {K V}. Arguments HIfRef {K V}. Arguments HRemove {K V}.
Arguments HEach {K V}. Arguments HClear {K V}. Arguments HLen {K V}.
Inductive hres (K V : Type) := RNone | RGet (v : V) (exists_ : bool) | RBool (b : bool) | REach (l : list (K * V)) | RLen (n : nat).
Arguments RNone {K V}. Arguments RGet {K V}. Arguments RBool {K V}. Arguments REach {K V}. Arguments RLen {K V}.
Definition hm_op {K V} (eqb : K -> K -> bool) (hasher : K -> Z) (default : V) (m : hmap K V) (o : hop K V)
  : option (option (hmap K V * hres K V)) :=
  match o with
  | HGet k => do q <- hm_get eqb hasher default m k; Some (Some (m, RGet (fst q) (snd q)))
  | HSet k v => do q <- hm_set eqb hasher default m k v; Some (option_map (fun m => (m, RNone)) q)
  | HRef k i f => do q <- hm_ref eqb hasher m k i f; Some (option_map (fun m => (m, RNone)) q)
  | HIfRef k f => do q <- hm_if_ref eqb hasher m k f; Some (Some (fst q, RBool (snd q)))
  | HRemove k => do q <- hm_remove eqb hasher m k; Some (Some (fst q, RBool (snd q)))
  | HEach visit => do q <- hm_each eqb visit m; Some (Some (fst q, REach (snd q)))
  | HClear => Some (Some (hm_clear m, RNone))
  | HLen => Some (Some (m, RLen (hm_len m)))
  end.
