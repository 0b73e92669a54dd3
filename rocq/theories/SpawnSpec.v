(** Descriptors, and what POSIX says about them. *)
From Coq Require Import List Arith Bool Lia.
Import ListNotations.

(** What a descriptor may refer to: something the parent had open before, an end of one of the
    three pipes (numbered by the stream they are for: 0 stdin, 1 stdout, 2 stderr), /dev/null. *)
Inductive obj := Had (n : nat) | ReadEnd (stream : nat) | WriteEnd (stream : nat) | DevNull.
(** A descriptor table; [true]: closed when a program is started (FD_CLOEXEC). *)
Definition table := nat -> option (obj * bool).
Definition put (t : table) (f : nat) (v : option (obj * bool)) : table := fun g => if Nat.eqb g f then v else t g.
Definition same (t u : table) : Prop := forall f, t f = u f.

(** What posix_spawn is told to do in the child before the program is started. *)
Inductive action := AClose (f : nat) | ADup2 (f g : nat) | AOpenNull (f : nat).
(** open: the lowest free descriptor.  posix_spawn first closes the one wanted, so it is at most that. *)
Definition lowest (t : table) (f : nat) : nat :=
  match find (fun g => match t g with None => true | Some _ => false end) (seq 0 (S f)) with Some g => g | None => f end.
Definition act (a : action) (t : table) : option table :=
  match a with
  | AClose f => Some (put t f None)
  | ADup2 f g => match t f with
                 | Some (o, _) => Some (put t g (Some (o, false)))     (* also if f = g: clears FD_CLOEXEC *)
                 | None => None
                 end
  | AOpenNull f =>
      let t1 := put t f None in
      let g := lowest t1 f in
      let t2 := put t1 g (Some (DevNull, true)) in                    (* the flags include O_CLOEXEC *)
      if Nat.eqb g f then Some t2 else Some (put (put t2 f (Some (DevNull, false))) g None)
  end.
Fixpoint acts (l : list action) (t : table) : option table :=
  match l with [] => Some t | a :: l => match act a t with Some t' => acts l t' | None => None end end.
(** Starting a program. *)
Definition exec (t : table) : table := fun f => match t f with Some (o, false) => Some (o, false) | _ => None end.

(** ** What is relied on *)
Inductive mode := Ignore | Parent | Pipe.

(** The parent has its own three streams; descriptors of new pipes were free. *)
Definition has_streams (t : table) : Prop := t 0 <> None /\ t 1 <> None /\ t 2 <> None.
Definition fresh_pair (t : table) (p : nat * nat) : Prop := t (fst p) = None /\ t (snd p) = None /\ fst p <> snd p.

(** What the child is to have as stream [s]. *)
Definition wanted_stream (t : table) (s : nat) (m : mode) : option obj :=
  match m with
  | Ignore => Some DevNull
  | Parent => option_map fst (t s)
  | Pipe => Some (if Nat.eqb s 0 then ReadEnd 0 else WriteEnd s)
  end.
Definition sees (c : table) (s : nat) : option obj := option_map fst (c s).

(** The descriptors of the pipes the system gives are free, and different. *)
Definition pipe_fds (m : mode) (answer : option (nat * nat)) : list nat :=
  match m, answer with Pipe, Some (r, w) => [r; w] | _, _ => [] end.
Definition all_free (t : table) (l : list nat) : Prop := NoDup l /\ forall f, In f l -> t f = None.

(** What the parent is to keep: its end of each pipe, at the descriptors it is told. *)
Definition ends_kept (out_m err_m in_m : mode) (out_fd err_fd in_fd : nat) : list (nat * obj) :=
  match out_m with Pipe => [(out_fd, ReadEnd 1)] | _ => [] end
  ++ match err_m with Pipe => [(err_fd, ReadEnd 2)] | _ => [] end
  ++ match in_m with Pipe => [(in_fd, WriteEnd 0)] | _ => [] end.
