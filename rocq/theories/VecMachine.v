(** Programs over vecs: the operations of VecModel.v on a table of variables sharing
    one heap.  Using an unknown variable is [UB] (the compiler rejects such programs). *)
From Verif Require Export VecModel VecSpec.
Open Scope nat_scope.

Section Machine.
Context {A : Type} (dflt : A) (e : elt).
Local Notation vec := (vec (A:=A)).
Local Notation heap := (heap (A:=A)).

Record machine := { m_heap : heap; m_vars : list (option vec) }.

Definition getv (m : machine) (i : nat) : res vec :=
  match nth_error (m_vars m) i with Some (Some v) => Ok v | _ => UB end.

(** Runs an operation on variable [i]. *)
Definition on (m : machine) (i : nat) (f : vec -> heap -> res (vec * heap)) : res machine :=
  let! v := getv m i in
  let! (v', h') := f v (m_heap m) in
  Ok {| m_heap := h'; m_vars := lset (m_vars m) i (Some v') |}.

(** The view w[off, off+n) as a [const T*] (include/fu/view.h:266-354): inline elements
    of another variable are memory no operation on [v] touches. *)
Definition src_of (same : bool) (w : vec) (off : nat) : csrc :=
  match data e w with
  | PThis => if same then SThis off
             else SExt (map (fun o => match o with Some a => a | None => dflt end) (skipn off (v_buf w)))
  | PBlk b => SBlk b off
  | PNull => SExt []
  end.

Definition exec (o : op A) (m : machine) : res machine :=
  match o with
  | New l => let! (v, h) := of_list e l (m_heap m) in
             Ok {| m_heap := h; m_vars := m_vars m ++ [Some v] |}
  | Copy j => let! w := getv m j in
              let! (c, v, h) := copy e w (m_heap m) in
              Ok {| m_heap := h; m_vars := lset (m_vars m) j (Some c) ++ [Some v] |}
  (* vec.h:344-348 *)
  | MoveNew j => let! w := getv m j in
                 Ok {| m_heap := m_heap m; m_vars := lset (m_vars m) j (Some (vec0 e)) ++ [Some w] |}
  (* vec.h:350-355 then 364-371 *)
  | AssignCopy i j => let! v := getv m i in
                      let! w := getv m j in
                      let! (c, t, h) := copy e w (m_heap m) in
                      let! h := dtor e v h in
                      Ok {| m_heap := h; m_vars := lset (lset (m_vars m) j (Some c)) i (Some t) |}
  (* vec.h:364-371 *)
  | AssignMove i j => let! v := getv m i in
                      let! w := getv m j in
                      let! h := dtor e v (m_heap m) in
                      Ok {| m_heap := h; m_vars := lset (lset (m_vars m) i (Some w)) j (Some (vec0 e)) |}
  | Destroy i => let! v := getv m i in
                 let! h := dtor e v (m_heap m) in
                 Ok {| m_heap := h; m_vars := lset (m_vars m) i None |}
  | Push i x => on m i (push e x)
  | Insert i k x => on m i (insert e k x)
  | Unshift i x => on m i (unshift e x)
  | SetElem i k x => on m i (set_elem e k x)
  | Resize i n => on m i (resize dflt e n)
  | Grow i n => on m i (grow dflt e n)
  | Shrink i n => on m i (shrink e n)
  | Clear i => on m i (clear e)
  | Pop i => on m i (pop e)
  | SpliceDel i k d => on m i (splice_del e k d)
  | SpliceEmpty i k d n => on m i (splice_empty dflt e k d n)
  | ShiftPop i n k => on m i (shift_pop e n k)
  | Reserve i n => on m i (reserve e n)
  | SpliceMove i k d j =>
      let! v := getv m i in
      let! w := getv m j in
      let! (v', w', h) := splice_move e k d w v (m_heap m) in
      let! h := dtor e w' h in
      Ok {| m_heap := h; m_vars := lset (lset (m_vars m) i (Some v')) j None |}
  | AppendMove i d j =>
      let! v := getv m i in
      let! w := getv m j in
      let! (v', w', h) := append_move e d w v (m_heap m) in
      let! h := dtor e w' h in
      Ok {| m_heap := h; m_vars := lset (lset (m_vars m) i (Some v')) j None |}
  | SpliceCopy i k d j off n =>
      let! w := getv m j in
      on m i (splice_copy e k d (src_of (i =? j) w off) n)
  | AppendCopy i d j off n =>
      let! w := getv m j in
      on m i (append_copy e d (src_of (i =? j) w off) n)
  end.

Fixpoint run (ops : list (op A)) (m : machine) : res machine :=
  match ops with
  | [] => Ok m
  | o :: t => let! m' := exec o m in run t m'
  end.

Definition start : machine := {| m_heap := []; m_vars := [] |}.

(** What reading variable [i] through its view yields. *)
Definition read_var (m : machine) (i : nat) : res (list (option A)) :=
  let! v := getv m i in view e (m_heap m) v.
End Machine.
Arguments machine A : clear implicits.
