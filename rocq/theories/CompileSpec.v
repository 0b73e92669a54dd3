(** What compiler.fu builds, and in what order: the files which a program consists of, and when a module is up to date. *)
From Verif Require Export Common CompileModel.
From Coq Require Export Relations.Relation_Operators.
Open Scope nat_scope.

Section SPEC.
Context {Pat Ast Out : Type}.
Variable parse : name -> list Z -> option (Ast * list Pat).
Variable resolve : (name -> list Z) -> name -> Pat -> name.
Variable solve : nat -> name -> Ast -> list nat -> (nat -> option Out) -> option Out.
Notation module := (@module Pat Ast Out).
Notation state := (@state Pat Ast Out).

(** The text of file [f] on disk [d] imports file [g] *)
Definition imports (d : name -> list Z) (f g : name) : Prop :=
  exists ast pats p, d f <> [] /\ parse f (d f) = Some (ast, pats) /\ In p pats /\ resolve d f p = g.
Definition reaches (d : name -> list Z) : name -> name -> Prop := clos_refl_trans name (imports d).
Definition circular (d : name -> list Z) (f : name) : Prop := clos_trans name (imports d) f f.
(** A program which can be loaded: each file is there, can be parsed, and does not import itself, even over others *)
Definition good (d : name -> list Z) (main : name) : Prop :=
  forall f, reaches d main f -> d f <> [] /\ parse f (d f) <> None /\ ~ circular d f.

(** Mod [j] is imported, directly or not, by a module whose imports are [l] *)
Inductive uses (ms : list module) : list nat -> nat -> Prop :=
| uses_in : forall l j, In j l -> uses ms l j
| uses_more : forall l i m j, In i l -> nth_error ms i = Some m -> uses ms (m_imports m) j -> uses ms l j.
(** [v]: what a module with imports [l] sees of the others - the outputs of the prelude and of the modules it uses *)
Definition view (ms : list module) (l : list nat) (v : nat -> option Out) : Prop :=
  forall j, (j = 0 \/ uses ms l j -> v j = out_of ms j) /\ (~ (j = 0 \/ uses ms l j) -> v j = None).

(** Mod [m], number [i], says what its file says: it was made from the text on the disk, its imports are the modules of the files
    which that text imports, and they come before it *)
Definition loaded (d : name -> list Z) (ms : list module) (m : module) (ast : Ast) (l : list (Pat * nat)) : Prop :=
  let f := m_fname m in
  m_in m = Some (d f, ast, l) /\ d f <> [] /\ parse f (d f) = Some (ast, map fst l) /\ 1 <= m_depth m /\
  forall p j, In (p, j) l -> 1 <= j /\ exists mj, nth_error ms j = Some mj /\ m_fname mj = resolve d f p /\ 1 <= m_depth mj < m_depth m.
(** ... and its output is what the solver makes of it, and of the outputs of the modules it uses *)
Definition up_to_date (d : name -> list Z) (ms : list module) (i : nat) (m : module) : Prop :=
  exists ast l o v, loaded d ms m ast l /\ m_out m = Some o /\ view ms (map snd l) v /\ solve i (m_fname m) ast (map snd l) v = Some o.
(** All but the prelude *)
Definition all_up_to_date (d : name -> list Z) (ms : list module) : Prop :=
  forall i m, 1 <= i -> nth_error ms i = Some m -> up_to_date d ms i m.

(** The solver depends on what it looks up, and not on how the table is represented *)
Definition looks_up : Prop := forall i f a l v v', (forall j, v j = v' j) -> solve i f a l v = solve i f a l v'.
(** The prelude: module 0, compiled beforehand; no file is named like it *)
Definition prelude_ok (pre : module) : Prop := m_out pre <> None /\ m_depth pre = 0 /\ forall d f p, resolve d f p <> m_fname pre.
Definition start (pre : module) : state := State [pre] (fun _ => None).
Definition finite_disk (d : name -> list Z) (fs : list name) : Prop := forall f, d f <> [] -> In f fs.

(** A module without an output, and all that import it, must be built again *)
Inductive stale (ms : list module) : nat -> Prop :=
| stale_out : forall i m, 1 <= i -> nth_error ms i = Some m -> m_out m = None -> stale ms i
| stale_import : forall i m j, 1 <= i -> nth_error ms i = Some m -> In j (m_imports m) -> stale ms j -> stale ms i.

(** Watch mode: the first build, then a rebuild for each later disk; the state and the outcome after the last *)
Fixpoint rebuilds (fuel : nat) (parallel : bool) (main : name) (s : state) (r : outcome unit) (ds : list (name -> list Z)) : option (state * outcome unit) :=
  match ds with
  | [] => Some (s, r)
  | d :: ds => match rebuild parse resolve solve fuel parallel main s d with Some (s, r) => rebuilds fuel parallel main s r ds | None => None end
  end.
Definition watch (fuel : nat) (parallel : bool) (main : name) (pre : module) (d : name -> list Z) (ds : list (name -> list Z)) : option (state * outcome unit) :=
  let (s, r) := compile parse resolve solve fuel parallel d (start pre) main in rebuilds fuel parallel main s r ds.
(** A text of one "\v" stands for a missing file in the cache *)
Definition no_vtab (d : name -> list Z) : Prop := forall f, d f <> [11%Z].
Definition same_resolution (d d' : name -> list Z) : Prop := forall f p, resolve d f p = resolve d' f p.
End SPEC.
