(** Model of fu::vec<T>: include/fu/vec.h, on a heap of refcounted blocks.

    A block is the element area of one allocation; each slot is [Some a] (a live
    element with value [a]) or [None] (raw memory).  For element types with a
    non-trivial destructor the model checks object lifetimes: constructing over a
    live element, destroying or copying a raw slot, or freeing a block that still
    holds live elements is [UB] (double construct / double destroy / leak), as is
    any access outside a live block.  For trivial types raw slots may be copied.

    Simplifications, all stated here once:
    - single-threaded (the refcount operations are atomic in the code; concurrent
      use of distinct vecs sharing a block is treated in ArcThreads*.v);
    - the release build's clamping of arguments is modelled; the arguments that the
      code receives as signed ints are natural numbers here, and the negative values
      that shrink/grow/resize/reserve compute and clamp to 0 appear as truncated
      subtraction;
    - a sum of sizes that overflows fu::i is [UB] (it is undefined in C++);
    - inline element bytes are kept apart from the control word (VecPack.v proves
      for which sizes that is faithful);
    - the element's copy constructor yields an equal value and its destructor has no
      other effect on this heap;
    - [TRIVIAL] element areas written by memset 0 hold the default value. *)
From Verif Require Export VecPack ArcModel.
Open Scope nat_scope.

Section Model.
Context {A : Type} (dflt : A) (e : elt).

Local Notation trivial := (TRIVIAL e).
Local Notation shareable := (SHAREABLE e).

Definition small_capa : nat := Z.to_nat (SMALL_CAPA e).

(** include/fu/mem/arc.h:36 [m_arc]: number of references minus one. *)
Record block := { b_arc : Z; b_slots : list (option A) }.
Definition heap := list (option block).

(** vec.h:67-91: big.data, big.size, the control word, and the inline elements. *)
Record vec := { v_data : option nat; v_size : nat; v_pack : Z; v_buf : list (option A) }.

Inductive ptr := PThis | PBlk (b : nat) | PNull.

(** vec.h:93 default constructor / vec.h:167-171 [UNSAFE__Reset]. *)
Definition raw_buf : list (option A) := repeat None small_capa.
Definition vec0 : vec := {| v_data := None; v_size := 0; v_pack := 0; v_buf := raw_buf |}.

(** vec.h:199-206 *)
Definition size (v : vec) : nat := Z.to_nat (vsize e (v_pack v) (Z.of_nat (v_size v))).
(** vec.h:219-225 *)
Definition data (v : vec) : ptr :=
  if is_small e (v_pack v) then PThis
  else match v_data v with Some b => PBlk b | None => PNull end.
Definition vcapa (v : vec) : Z := capa e (v_pack v).
Definition vshared_capa (v : vec) : Z := shared_capa e (v_pack v).

(** vec.h:160-165 [UNSAFE__WriteBig]; overwrites the inline bytes. *)
Definition write_big (b : nat) (n : nat) (c : Z) (v : vec) : vec :=
  {| v_data := Some b; v_size := n; v_pack := pack e c; v_buf := raw_buf |}.
(** vec.h:180-187; the pointer and size words become inline element bytes. *)
Definition write_small_v (n : nat) (v : vec) : vec :=
  {| v_data := None; v_size := 0; v_pack := write_small e (v_pack v) (Z.of_nat n);
     v_buf := v_buf v |}.
(** vec.h:189-197 [UNSAFE__WriteSize] *)
Definition write_size (n : nat) (v : vec) : vec :=
  if is_small e (v_pack v) then write_small_v n v
  else {| v_data := v_data v; v_size := n; v_pack := v_pack v; v_buf := v_buf v |}.
Definition set_pack (p : Z) (v : vec) : vec :=
  {| v_data := v_data v; v_size := v_size v; v_pack := p; v_buf := v_buf v |}.

(** ** Raw memory *)
Definition get_block (h : heap) (b : nat) : res block :=
  match nth_error h b with Some (Some k) => Ok k | _ => UB end.
Definition set_block (h : heap) (b : nat) (k : option block) : res heap :=
  match upd h b k with Some h' => Ok h' | None => UB end.

(** All slots reachable from a pointer; [v] is the vec that PThis points into. *)
Definition slots_at (v : vec) (h : heap) (p : ptr) : res (list (option A)) :=
  match p with
  | PThis => Ok (v_buf v)
  | PBlk b => let! k := get_block h b in Ok (b_slots k)
  | PNull => UB
  end.
Definition set_slots (v : vec) (h : heap) (p : ptr) (s : list (option A)) : res (vec * heap) :=
  match p with
  | PThis => Ok ({| v_data := v_data v; v_size := v_size v; v_pack := v_pack v; v_buf := s |}, h)
  | PBlk b => let! k := get_block h b in
              let! h' := set_block h b (Some {| b_arc := b_arc k; b_slots := s |}) in
              Ok (v, h')
  | PNull => UB
  end.

Definition is_raw (s : option A) : bool := match s with None => true | Some _ => false end.
Definition is_live (s : option A) : bool := match s with None => false | Some _ => true end.

(** Reads [n] slots at offset [off]; nothing is touched when n = 0. *)
Definition read_range (v : vec) (h : heap) (p : ptr) (off n : nat) : res (list (option A)) :=
  if n =? 0 then Ok []
  else let! s := slots_at v h p in
       if off + n <=? length s then Ok (firstn n (skipn off s)) else UB.
(** Overwrites the slots at [off] with [l]. *)
Definition put (off : nat) (l s : list (option A)) : list (option A) :=
  firstn off s ++ l ++ skipn (off + length l) s.
Definition write_range (v : vec) (h : heap) (p : ptr) (off : nat) (l : list (option A))
  : res (vec * heap) :=
  match l with
  | [] => Ok (v, h)
  | _ => let! s := slots_at v h p in
         if off + length l <=? length s then set_slots v h p (put off l s) else UB
  end.
(** Constructs over raw memory: for non-trivial types the target must be raw. *)
Definition construct_range (v : vec) (h : heap) (p : ptr) (off : nat) (l : list (option A))
  : res (vec * heap) :=
  let! old := read_range v h p off (length l) in
  if trivial || forallb is_raw old then write_range v h p off l else UB.

(** vec.h:832-840 [DESTROY_range] on [off, off+n). *)
Definition destroy_range (v : vec) (h : heap) (p : ptr) (off n : nat) : res (vec * heap) :=
  if trivial then Ok (v, h)
  else let! old := read_range v h p off n in
       if forallb is_live old then write_range v h p off (repeat None n) else UB.

(** vec.h:755-764 [MEMCPY_range]/[MEMMOVE_range], within [v]'s own view of memory:
    bitwise copy; for a non-trivial type this relocates the objects, so the source
    slots become raw before the target is written. *)
Definition mem_move (v : vec) (h : heap) (d : ptr) (doff : nat) (s : ptr) (soff n : nat)
  : res (vec * heap) :=
  let! l := read_range v h s soff n in
  if trivial then write_range v h d doff l
  else if forallb is_live l then
         let! (v, h) := write_range v h s soff (repeat None n) in
         construct_range v h d doff l
       else UB.

(** vec.h:766-775 [CPY_ctor_range]: memcpy for trivial types, else copy
    constructors into raw memory from live elements. *)
Definition copy_ctor (v : vec) (h : heap) (d : ptr) (doff : nat) (s : ptr) (soff n : nat)
  : res (vec * heap) :=
  let! l := read_range v h s soff n in
  if trivial || forallb is_live l then construct_range v h d doff l else UB.

(** ** Blocks *)
(** arc.h:78-92 and vec.h:626-633: allocates at least [n] (+1 when inline
    representations exist) elements; returns the recorded capacity. *)
Definition alloc (h : heap) (n : nat) : res (heap * nat * Z) :=
  let want := (Z.of_nat n + Z.b2z (HAS_SMALL e))%Z in
  let! got := alloc_count shareable (esz e) want in
  let c := if HAS_SMALL e then looks_big e got else got in
  if (c <? Z.of_nat n)%Z || (c <=? SMALL_CAPA e)%Z then UB
  else Ok (h ++ [Some {| b_arc := 0; b_slots := repeat None (Z.to_nat got) |}], length h, c).

(** arc.cpp:163-179 [fu_ARC_DEALLOC]/[fu_UNIQ_DEALLOC]: the recorded capacity must
    not exceed the allocation (the debug assertion), and no live non-trivial element
    may be left behind. *)
Definition free (h : heap) (b : nat) (c : Z) : res heap :=
  let! k := get_block h b in
  if (Z.of_nat (length (b_slots k)) <? c)%Z then UB
  else if trivial || forallb is_raw (b_slots k) then set_block h b None else UB.

(** arc.h:57-60 [unique()] and vec.h:399-405. *)
Definition is_unique (h : heap) (p : ptr) : res bool :=
  if shareable then
    match p with PBlk b => let! k := get_block h b in Ok (b_arc k =? 0)%Z | _ => UB end
  else Ok true.

(** vec.h:265-287 [SHARED__Dealloc(old_data, old_size, shared_capa)]. *)
Definition shared_dealloc (h : heap) (p : ptr) (n : nat) (c : Z) : res heap :=
  if (c <=? SMALL_CAPA e)%Z then UB else
  match p with
  | PBlk b =>
    let! k := get_block h b in
    if shareable then
      let! h := set_block h b (Some {| b_arc := b_arc k - 1; b_slots := b_slots k |}) in
      if (b_arc k <? 0)%Z then UB
      else if (b_arc k =? 0)%Z then
        let! (_, h) := destroy_range vec0 h p 0 n in free h b c
      else Ok h
    else
      let! (_, h) := destroy_range vec0 h p 0 n in free h b c
  | _ => UB
  end.

(** vec.h:302-316 [UNIQ__Dealloc_DontRunDtors(old_data, old_capa)]; not being the
    unique owner is a failed debug assertion. *)
Definition uniq_dealloc (h : heap) (p : ptr) (c : Z) : res heap :=
  match p with
  | PBlk b => let! u := is_unique h p in if u then free h b c else UB
  | _ => UB
  end.

(** vec.h:739-752 [UNSAFE__Relocate]. *)
Definition relocate (v : vec) (h : heap) (idx del ins pop : nat) (new old : ptr) (old_size : nat)
  : res (vec * heap) :=
  let! (v, h) := mem_move v h new 0 old 0 idx in
  mem_move v h new (idx + ins) old (idx + del) (old_size - (idx + del + pop)).

(** ** [_Splice], vec.h:411-737 *)
Record spliced := { s_vec : vec; s_heap : heap; s_ptr : ptr; s_old : nat; s_new : nat }.

(** vec.h:464-506, the in-place path (CONSIDER_HOLDING_GROUND). *)
Definition hold_ground (clear : bool) (idx del ins pop : nat) (old_size new_size : nat)
  (old_data : ptr) (v : vec) (h : heap) : res spliced :=
  let! (v, h) :=
    (if clear then destroy_range v h old_data 0 old_size
     else let! (v, h) := destroy_range v h old_data idx del in
          destroy_range v h old_data (old_size - pop) pop) in
  let! (v, h) :=
    (if clear then Ok (v, h)
     else if ins =? del then Ok (v, h)      (* MEMMOVE_range: d == s *)
     else mem_move v h old_data (idx + ins) old_data (idx + del) (old_size - (idx + del + pop))) in
  Ok {| s_vec := write_size new_size v; s_heap := h; s_ptr := old_data;
        s_old := old_size; s_new := new_size |}.

(** vec.h:645-737, after the new storage has been installed. *)
Definition move_or_copy (clear : bool) (idx del ins pop : nat) (old_size new_size : nat)
  (old_data new_data : ptr) (old_capa : Z) (v : vec) (h : heap) : res spliced :=
  let sh_capa := Z.land (wrap 32 old_capa) NOT_SIGN in
  let done v h := Ok {| s_vec := v; s_heap := h; s_ptr := new_data;
                        s_old := old_size; s_new := new_size |} in
  let! mv :=
    (if trivial then Ok false
     else if (0 <? old_capa)%Z then Ok true
     else if (0 <? sh_capa)%Z && (sh_capa <? Z.of_nat new_size)%Z then is_unique h old_data
     else Ok false) in
  if mv then
    let! (v, h) :=
      (if clear then destroy_range v h old_data 0 old_size
       else let! (v, h) := destroy_range v h old_data idx del in
            let! (v, h) := destroy_range v h old_data (old_size - pop) pop in
            relocate v h idx del ins pop new_data old_data old_size) in
    let! h := (if (SMALL_CAPA e <? sh_capa)%Z then uniq_dealloc h old_data sh_capa else Ok h) in
    done v h
  else
    let! (v, h) :=
      (if (trivial || shareable) && negb clear then
         let! (v, h) := copy_ctor v h new_data 0 old_data 0 idx in
         copy_ctor v h new_data (idx + ins) old_data (idx + del) (old_size - (idx + del + pop))
       else Ok (v, h)) in
    if trivial then
      let! h := shared_dealloc h old_data old_size sh_capa in done v h
    else if (SMALL_CAPA e <? sh_capa)%Z then
      let! h := shared_dealloc h old_data old_size sh_capa in done v h
    else done v h.

(** vec.h:604-642, allocation of the new storage. *)
Definition reallocate (init clear : bool) (idx del ins pop : nat) (old_size new_size : nat)
  (old_data : ptr) (old_capa : Z) (v : vec) (h : heap) : res spliced :=
  if (Z.of_nat new_size <=? SMALL_CAPA e)%Z then
    let v := if HAS_SMALL e then write_small_v new_size v else vec0 in
    if init then Ok {| s_vec := v; s_heap := h; s_ptr := PThis; s_old := old_size; s_new := new_size |}
    else move_or_copy clear idx del ins pop old_size new_size old_data PThis old_capa v h
  else
    let! (h, b, c) := alloc h new_size in
    if init || (trivial && (old_capa =? SMALL_CAPA e)%Z) then
      let! (v, h) :=
        (if HAS_SMALL e && negb init
         then relocate v h idx del ins pop (PBlk b) old_data old_size else Ok (v, h)) in
      Ok {| s_vec := write_big b new_size c v; s_heap := h; s_ptr := PBlk b;
            s_old := old_size; s_new := new_size |}
    else
      let v := write_big b new_size c v in
      if init then Ok {| s_vec := v; s_heap := h; s_ptr := PBlk b; s_old := old_size; s_new := new_size |}
      else move_or_copy clear idx del ins pop old_size new_size old_data (PBlk b) old_capa v h.

Definition splice_ (init clear resv : bool) (idx del ins pop push : nat) (v : vec) (h : heap)
  : res spliced :=
  let old_size := if init then 0 else size v in
  let old_capa := if init then SMALL_CAPA e else vcapa v in
  let old_data := if init then PThis else data v in
  let idx := Nat.min idx old_size in
  let del := Nat.min del (old_size - idx) in
  let pop := Nat.min pop (old_size - idx - del) in
  let new_size := if clear then 0 else old_size + (ins + push) - del - pop in
  if (2 ^ 31 - 1 <=? Z.of_nat (old_size + ins + push))%Z then UB   (* fu::i overflow *)
  else if init then reallocate init clear idx del ins pop old_size new_size old_data old_capa v h
  else if (Z.of_nat new_size <=? old_capa)%Z then
    hold_ground clear idx del ins pop old_size new_size old_data v h
  else if (SMALL_CAPA e <? Z.of_nat new_size)%Z
          && (Z.of_nat new_size <=? Z.land (wrap 32 old_capa) NOT_SIGN)%Z then
    if negb resv && trivial && (push + ins =? 0)
       && ((idx + del + pop =? old_size) || (del =? 0)) then
      Ok {| s_vec := {| v_data := v_data v; v_size := new_size; v_pack := v_pack v; v_buf := v_buf v |};
            s_heap := h; s_ptr := PNull; s_old := old_size; s_new := new_size |}
    else
      let! u := is_unique h old_data in
      if u then
        hold_ground clear idx del ins pop old_size new_size old_data
          (set_pack (mark_unique e (v_pack v)) v) h
      else if negb clear && negb resv && (del + pop + ins + push =? 0) then
        Ok {| s_vec := v; s_heap := h; s_ptr := PNull; s_old := old_size; s_new := new_size |}
      else reallocate init clear idx del ins pop old_size new_size old_data old_capa v h
  else reallocate init clear idx del ins pop old_size new_size old_data old_capa v h.

(** ** API, vec.h:845-1110.  Each returns the updated vec and heap. *)
Definition fin (s : spliced) : res (vec * heap) := Ok (s_vec s, s_heap s).

(** vec.h:870-872 [push(T&& )]: constructs at old_size. *)
Definition push (x : A) (v : vec) (h : heap) : res (vec * heap) :=
  let! s := splice_ false false false 0 0 0 0 1 v h in
  construct_range (s_vec s) (s_heap s) (s_ptr s) (s_old s) [Some x].
(** vec.h:874-877 [insert]: constructs at the caller's i, not the clamped one. *)
Definition insert (i : nat) (x : A) (v : vec) (h : heap) : res (vec * heap) :=
  let! s := splice_ false false false i 0 1 0 0 v h in
  construct_range (s_vec s) (s_heap s) (s_ptr s) i [Some x].
(** vec.h:879-881 *)
Definition unshift (x : A) (v : vec) (h : heap) : res (vec * heap) :=
  let! s := splice_ false false false 0 0 1 0 0 v h in
  construct_range (s_vec s) (s_heap s) (s_ptr s) 0 [Some x].
(** vec.h:901-909 [resize<true>]; DEF_initRange (vec.h:786-830) zero-fills. *)
Definition resize (n : nat) (v : vec) (h : heap) : res (vec * heap) :=
  let! s := splice_ false false false 0 0 0 (size v - n) (n - size v) v h in
  construct_range (s_vec s) (s_heap s) (s_ptr s) (s_old s) (repeat (Some dflt) (s_new s - s_old s)).
(** vec.h:911-915 *)
Definition grow (n : nat) (v : vec) (h : heap) : res (vec * heap) :=
  let! s := splice_ false false false 0 0 0 0 (n - size v) v h in
  construct_range (s_vec s) (s_heap s) (s_ptr s) (s_old s) (repeat (Some dflt) (s_new s - s_old s)).
(** vec.h:917-919 *)
Definition shrink (n : nat) (v : vec) (h : heap) : res (vec * heap) :=
  let! s := splice_ false false false 0 0 0 (size v - n) 0 v h in fin s.
(** vec.h:921-923 *)
Definition clear (v : vec) (h : heap) : res (vec * heap) :=
  let! s := splice_ false true false 0 0 0 0 0 v h in fin s.
(** vec.h:925-927 *)
Definition pop (v : vec) (h : heap) : res (vec * heap) :=
  let! s := splice_ false false false 0 0 0 1 0 v h in fin s.
(** vec.h:929-932 [splice(idx, del)] *)
Definition splice_del (idx del : nat) (v : vec) (h : heap) : res (vec * heap) :=
  let! s := splice_ false false false idx del 0 0 0 v h in fin s.
(** vec.h:934-938 *)
Definition splice_empty (idx del count : nat) (v : vec) (h : heap) : res (vec * heap) :=
  let! s := splice_ false false false idx del count 0 0 v h in
  construct_range (s_vec s) (s_heap s) (s_ptr s) idx (repeat (Some dflt) count).
(** vec.h:940-950 [shift()], [shift(n)], [shift_pop(n, m)] *)
Definition shift_pop (n m : nat) (v : vec) (h : heap) : res (vec * heap) :=
  let! s := splice_ false false false 0 n 0 m 0 v h in fin s.

(** Destructor, vec.h:234-252 and 258-263. *)
Definition dtor (v : vec) (h : heap) : res heap :=
  if (SMALL_CAPA e <? vshared_capa v)%Z
  then shared_dealloc h (match v_data v with Some b => PBlk b | None => PNull end)
         (v_size v) (vshared_capa v)
  else Ok h.

(** Copy constructor, vec.h:326-342: returns the source (whose flag changes), the
    copy, and the heap.  Only instantiable for copiable T. *)
Definition copy (c : vec) (h : heap) : res (vec * vec * heap) :=
  if negb shareable then UB else
  if (SMALL_CAPA e <? vshared_capa c)%Z then
    let m := set_pack (mark_shared e (v_pack c)) c in
    match v_data c with
    | Some b => let! k := get_block h b in
                let! h := set_block h b (Some {| b_arc := b_arc k + 1; b_slots := b_slots k |}) in
                Ok (m, m, h)
    | None => UB
    end
  else Ok (c, c, h).

(** [src.slow_check_unique()], vec.h:381-397: also clears the shared mark. *)
Definition check_unique (v : vec) (h : heap) : res (bool * vec) :=
  if negb shareable then Ok (true, v)
  else if (SMALL_CAPA e <=? vcapa v)%Z then Ok (true, v)
  else let! u := is_unique h (match v_data v with Some b => PBlk b | None => PNull end) in
       if u then Ok (true, set_pack (mark_unique e (v_pack v)) v) else Ok (false, v).

(** Fills a gap in [v] from the storage of another vec [src] (vec.h:969-985 and
    1027-1043): memcpy for trivial types, else relocate from a unique source or copy
    from a shared one; then releases the source's block. *)
Definition absorb (at_ : nat) (s : spliced) (src : vec) : res (vec * vec * heap) :=
  let v := s_vec s in let h := s_heap s in
  let src_data := data src in let n := size src in
  let! (v, h) :=
    (if trivial then let! l := read_range src h src_data 0 n in
                     write_range v h (s_ptr s) at_ l
     else Ok (v, h)) in
  let c := vshared_capa src in
  if (SMALL_CAPA e <? c)%Z then
    let! (u, src) := (if trivial then Ok (false, src) else check_unique src h) in
    if u then
      let! l := read_range src h src_data 0 n in
      if forallb is_live l then
        let! (_, h) := write_range src h src_data 0 (repeat None n) in
        let! (v, h) := construct_range v h (s_ptr s) at_ l in
        let! h := uniq_dealloc h src_data (Z.land (wrap 32 (vcapa src)) NOT_SIGN) in
        Ok (v, vec0, h)
      else UB
    else if shareable then
      let! (v, h) :=
        (if trivial then Ok (v, h)
         else let! l := read_range src h src_data 0 n in
              if forallb is_live l then construct_range v h (s_ptr s) at_ l else UB) in
      let! h := shared_dealloc h (match v_data src with Some b => PBlk b | None => PNull end)
                  (v_size src) c in
      Ok (v, vec0, h)
    else
      (* trivially destructible but not copiable: vec.h:979 [else if constexpr] is
         compiled out, the source keeps its block *)
      Ok (v, src, h)
  else Ok (v, src, h).

(** vec.h:957-986 [splice(idx, del, vec&& src)]. *)
Definition splice_move (idx del : nat) (src v : vec) (h : heap) : res (vec * vec * heap) :=
  let! s := splice_ false false false idx del (size src) 0 0 v h in
  absorb idx s src.
(** vec.h:1014-1044 [append(del, vec&& src)]. *)
Definition append_move (del : nat) (src v : vec) (h : heap) : res (vec * vec * heap) :=
  let! s := splice_ false false false 0 0 0 del (size src) v h in
  absorb (s_old s - del) s src.

(** A [const T*] source: own storage at an offset, a heap block at an offset, or
    memory outside every vec's storage (literals, another vec's inline elements,
    system buffers), whose contents are given. *)
Inductive csrc := SThis (off : nat) | SBlk (b off : nat) | SExt (l : list A).

Definition read_src (v : vec) (h : heap) (s : csrc) (n : nat) : res (list (option A)) :=
  match s with
  | SThis off => read_range v h PThis off n
  | SBlk b off => read_range v h (PBlk b) off n
  | SExt l => if n <=? length l then Ok (map Some (firstn n l)) else UB
  end.
Definition ctor_from (v : vec) (h : heap) (d : ptr) (doff : nat) (l : list (option A)) :=
  if trivial || forallb is_live l then construct_range v h d doff l else UB.

(** vec.h:999, 1060: the pointer comparison [src_data < old_data ||
    src_data > old_data + old_size], negated: the source starts inside [0, old_size]
    of the vec's own storage. *)
Definition src_inside (v : vec) (s : csrc) : bool :=
  match data v, s with
  | PThis, SThis off => off <=? size v
  | PBlk b, SBlk b' off => (b =? b') && (off <=? size v)
  | _, _ => false
  end.
Definition src_at_start (s : csrc) : bool :=
  match s with SThis off => off =? 0 | SBlk _ off => off =? 0 | SExt _ => false end.

(** vec.h:1085-1088 [UNSAFE__init_copy] into a default-constructed vec. *)
Definition init_copy (owner : vec) (h : heap) (src : csrc) (n : nat) : res (vec * heap) :=
  let! s := splice_ true false false 0 0 0 0 n vec0 h in
  let! l := read_src owner (s_heap s) src n in
  ctor_from (s_vec s) (s_heap s) (s_ptr s) 0 l.

(** vec.h:1073-1081 [UNSAFE__self_splice]: through a temporary, destroyed at the end. *)
Definition self_splice (idx del : nat) (src : csrc) (n : nat) (v : vec) (h : heap)
  : res (vec * heap) :=
  let! (tmp, h) := init_copy v h src n in
  let! (v, tmp, h) := splice_move idx del tmp v h in
  let! h := dtor tmp h in
  Ok (v, h).

(** vec.h:993-1009 [splice_copy]. *)
Definition splice_copy (idx del : nat) (src : csrc) (n : nat) (v : vec) (h : heap)
  : res (vec * heap) :=
  if negb (src_inside v src) then
    let! s := splice_ false false false idx del n 0 0 v h in
    let! l := read_src (s_vec s) (s_heap s) src n in
    ctor_from (s_vec s) (s_heap s) (s_ptr s) idx l
  else if negb (idx =? 0) || negb (del =? size v) || negb (src_at_start src) then
    self_splice idx del src n v h
  else Ok (v, h).
(** vec.h:1053-1071 [append_copy]. *)
Definition append_copy (del : nat) (src : csrc) (n : nat) (v : vec) (h : heap)
  : res (vec * heap) :=
  let idx := size v - del in
  if negb (src_inside v src) then
    let! s := splice_ false false false 0 0 0 del n v h in
    let! l := read_src (s_vec s) (s_heap s) src n in
    ctor_from (s_vec s) (s_heap s) (s_ptr s) idx l
  else if negb (del =? size v) || negb (src_at_start src) then
    self_splice idx del src n v h
  else Ok (v, h).

(** vec.h:1117-1142 [reserve(new_capa)] / [_DoReserve]. *)
Definition reserve (n : nat) (v : vec) (h : heap) : res (vec * heap) :=
  if (vcapa v <? Z.of_nat n)%Z then
    if n =? 0 then
      if shareable then let! s := splice_ false false true 0 0 0 0 0 v h in fin s else Ok (v, h)
    else
      let! s := splice_ false false true 0 0 0 0 (n - size v) v h in
      Ok (write_size (s_old s) (s_vec s), s_heap s)
  else Ok (v, h).
(** vec.h:1144-1158 [reserve()], [data_mut()]. *)
Definition data_mut (v : vec) (h : heap) : res (vec * heap) :=
  if shareable then reserve 0 v h else Ok (v, h).
(** vec.h:1207-1226 [mutref(i) = x] (bounds-checked): for a non-trivial type the
    assignment replaces a live element. *)
Definition set_elem (i : nat) (x : A) (v : vec) (h : heap) : res (vec * heap) :=
  let! (v, h) := data_mut v h in
  if i <? size v then
    let! old := read_range v h (data v) i 1 in
    if trivial || forallb is_live old then write_range v h (data v) i [Some x] else UB
  else UB.
(** vec.h:1186-1205 [operator[]] (bounds-checked). *)
Definition get_elem (i : nat) (v : vec) (h : heap) : res A :=
  if i <? size v then
    let! l := read_range v h (data v) i 1 in
    match l with [Some x] => Ok x | _ => UB end
  else UB.
(** Literals: vec.h:1090-1093 [UNSAFE__init_move] into a fresh vec. *)
Definition of_list (l : list A) (h : heap) : res (vec * heap) :=
  init_copy vec0 h (SExt l) (length l).

(** What a reader sees: the first size() slots. *)
Definition view (h : heap) (v : vec) : res (list (option A)) :=
  read_range v h (data v) 0 (size v).
End Model.
