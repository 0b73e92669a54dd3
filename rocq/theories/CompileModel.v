(** Model of src/compiler.fu: loading a module and what it imports (compile_lexParseDeps, 13-113), solving and generating code for
    all modules by the depth of their imports (compile, 193-270), and incremental rebuilds in watch mode (watch_needsRebuild,
    487-515; watch_pruneModules, 117-171); with getModule, setModule, getFile and updateFile of src/context.fu (150-196).
    Names of files and their contents are lists of bytes.  The state is ctx.modules and ctx.files.
    Not modelled, but arguments: [parse] - the lexer and the parser, given a name and a text: the tree and the patterns of the
    imports, or an error; [resolve] - resolveFile and path::join, given the disk, the importing file and the pattern; [solve] - the
    solver and the code generator, given the modid, the name, the tree, the modids of the imports, and the outputs of the modules
    which it imports (see [visible]).
    Simplified: messages, statistics, the stack of tokens for messages (via); that two names differ only in capitalization
    (setFile, 122-135) is not an error; errors of the file system other than a missing file; a module's tree is kept after it is
    solved; a file which consists of one "\v" (it is taken for a missing one
    the second time); the disk does not change while one build runs. *)
From Verif Require Export Common.
Open Scope nat_scope.

Definition name := list Z.
Definition name_eqb (a b : name) : bool := if list_eq_dec Z.eq_dec a b then true else false.
Inductive cerror := Circle | NoFile | ParseError | SolveError | Bug.
Inductive outcome (A : Type) := Done (a : A) | Error (e : cerror) | Trap.
Arguments Done {A}. Arguments Error {A}. Arguments Trap {A}.

Section COMPILE.
Context {Pat Ast Out : Type}.
Variable parse : name -> list Z -> option (Ast * list Pat).
Variable resolve : (name -> list Z) -> name -> Pat -> name.
Variable solve : nat -> name -> Ast -> list nat -> (nat -> option Out) -> option Out.

(** module.fu:34-76: [in] - src, tree, imports with their modids (0: none yet); dep_depth, 0: none yet; out.  The modid is the place
    in ctx.modules. *)
Record module := Mod { m_fname : name; m_in : option (list Z * Ast * list (Pat * nat)); m_depth : nat; m_out : option Out }.
Record state := State { modules : list module; files : name -> option (list Z) }.
Definition blank (f : name) : module := Mod f None 0 None.
Definition m_imports (m : module) : list nat := match m_in m with Some (_, _, l) => map snd l | None => [] end.
(** context.fu:164-176, 178-184 *)
Fixpoint index_of (ms : list module) (f : name) (i : nat) : option nat :=
  match ms with [] => None | m :: ms => if name_eqb (m_fname m) f then Some i else index_of ms f (S i) end.
Definition getModule (s : state) (f : name) : state * nat :=
  match index_of (modules s) f 0 with
  | Some i => (s, i)
  | None => (State (modules s ++ [blank f]) (files s), length (modules s))
  end.
Fixpoint set_nth {A} (l : list A) (i : nat) (x : A) : list A :=
  match l, i with [], _ => [] | _ :: l, O => x :: l | y :: l, S i => y :: set_nth l i x end.
Definition setModule (s : state) (i : nat) (m : module) : state := State (set_nth (modules s) i m) (files s).
(** context.fu:146-162 *)
Definition getFile (disk : name -> list Z) (s : state) (f : name) : state * list Z :=
  match files s f with
  | Some src => (s, src)
  | None => (State (modules s) (fun g => if name_eqb f g then Some (disk f) else files s g), disk f)
  end.

(** compiler.fu:80-104: the imports, with their modids, and dep_depth *)
Fixpoint load_imports (load : state -> name -> state * outcome (nat * nat)) (disk : name -> list Z) (f : name) (s : state) (pats : list Pat) (depth : nat)
  : state * outcome (list (Pat * nat) * nat) :=
  match pats with
  | [] => (s, Done ([], depth))
  | p :: pats =>
      match load s (resolve disk f p) with
      | (s, Done (j, dj)) =>
          if j =? 0 then (s, Error Bug) else
          match load_imports load disk f s pats (if depth <=? dj then S dj else depth) with
          | (s, Done (l, depth)) => (s, Done ((p, j) :: l, depth))
          | (s, Error e) => (s, Error e)
          | (s, Trap) => (s, Trap)
          end
      | (s, Error e) => (s, Error e)
      | (s, Trap) => (s, Trap)
      end
  end.
(** compiler.fu:13-113: the modid and dep_depth *)
Fixpoint load (fuel : nat) (disk : name -> list Z) (s : state) (f : name) : state * outcome (nat * nat) :=
  match fuel with
  | O => (s, Trap)
  | S fuel =>
      let (s, i) := getModule s f in
      match nth_error (modules s) i with
      | None => (s, Trap)
      | Some m =>
          match m_in m with
          | Some _ => if m_depth m =? 0 then (s, Error Circle) else (s, Done (i, m_depth m))
          | None =>
              match m_out m with
              | Some _ => (s, Error Bug)
              | None =>
                  let (s, src) := getFile disk s f in
                  match src with
                  | [] => (s, Error NoFile)
                  | _ =>
                      match parse f src with
                      | None => (s, Error ParseError)
                      | Some (ast, pats) =>
                          let s := setModule s i (Mod f (Some (src, ast, map (fun p => (p, 0)) pats)) (m_depth m) (m_out m)) in
                          if negb (m_depth m =? 0) then (s, Error Bug) else
                          match load_imports (load fuel disk) disk f s pats 1 with
                          | (s, Done (l, depth)) => (setModule s i (Mod f (Some (src, ast, l)) depth (m_out m)), Done (i, depth))
                          | (s, Error e) => (s, Error e)
                          | (s, Trap) => (s, Trap)
                          end
                      end
                  end
              end
          end
      end
  end.

(** 175-189.  The solver looks at the modules which are imported, directly or not, and at the prelude.  The fuel is enough: dep_depth
    is smaller from import to import *)
Fixpoint sees (fuel : nat) (ms : list module) (l : list nat) (j : nat) : bool :=
  match fuel with
  | O => false
  | S fuel => existsb (fun i => (i =? j) || sees fuel ms (match nth_error ms i with Some m => m_imports m | None => [] end) j) l
  end.
Definition out_of (ms : list module) (j : nat) : option Out := match nth_error ms j with Some m => m_out m | None => None end.
Definition visible (ms : list module) (l : list nat) (j : nat) : option Out := if (j =? 0) || sees (S (list_max (map m_depth ms))) ms l j then out_of ms j else None.
(** A module which was not loaded has no tree: "solve: Unexpected sof" *)
Definition compile_solveCodegen (ms : list module) (i : nat) : outcome Out :=
  match nth_error ms i with
  | None => Trap
  | Some m =>
      match m_out m, m_in m with
      | Some _, _ => Error Bug
      | None, None => Error Bug
      | None, Some (_, ast, l) => match solve i (m_fname m) ast (map snd l) (visible ms (map snd l)) with Some o => Done o | None => Error SolveError end
      end
  end.
Definition with_out (m : module) (o : Out) : module := Mod (m_fname m) (m_in m) (m_depth m) (Some o).
Definition has_out (ms : list module) (i : nat) : bool := match out_of ms i with Some _ => true | None => false end.
Definition set_out (ms : list module) (i : nat) (o : Out) : list module :=
  match nth_error ms i with Some m => set_nth ms i (with_out m o) | None => ms end.
(** 252-264 *)
Fixpoint solve_each (ms : list module) (l : list nat) : list module * outcome unit :=
  match l with
  | [] => (ms, Done tt)
  | i :: l =>
      if has_out ms i then solve_each ms l else
      match compile_solveCodegen ms i with
      | Done o => solve_each (set_out ms i o) l
      | Error e => (ms, Error e)
      | Trap => (ms, Trap)
      end
  end.
(** 216-250: all against the same modules; then what succeeded is stored, and the first error thrown *)
Definition results (ms : list module) (l : list nat) : list (nat * outcome Out) :=
  map (fun i => (i, compile_solveCodegen ms i)) (filter (fun i => negb (has_out ms i)) l).
Fixpoint store (ms : list module) (l : list (nat * outcome Out)) : list module * outcome unit :=
  match l with
  | [] => (ms, Done tt)
  | (i, Done o) :: l => store (set_out ms i o) l
  | (_, Error e) :: l => (fst (store ms l), Error e)
  | (_, Trap) :: l => (fst (store ms l), Trap)
  end.
Definition solve_par (ms : list module) (l : list nat) : list module * outcome unit := store ms (results ms l).
(** 200-206; dep_order.ensure(exists: d) ~= i *)
Fixpoint push_at (d i : nat) (l : list (list nat)) : list (list nat) :=
  match d, l with
  | O, [] => [[i]]
  | O, x :: l => (x ++ [i]) :: l
  | S d, [] => [] :: push_at d i []
  | S d, x :: l => x :: push_at d i l
  end.
Definition dep_order (ms : list module) : list (list nat) := fold_left (fun l '(i, m) => push_at (m_depth m) i l) (combine (seq 0 (length ms)) ms) [].
Fixpoint solve_levels (parallel : bool) (ms : list module) (levels : list (list nat)) : list module * outcome unit :=
  match levels with
  | [] => (ms, Done tt)
  | l :: levels =>
      match (if parallel then solve_par ms l else solve_each ms l) with
      | (ms, Done tt) => solve_levels parallel ms levels
      | r => r
      end
  end.
(** 193-270 *)
Definition compile (fuel : nat) (parallel : bool) (disk : name -> list Z) (s : state) (f : name) : state * outcome unit :=
  match load fuel disk s f with
  | (s, Done _) => let (ms, r) := solve_levels parallel (modules s) (dep_order (modules s)) in (State ms (files s), r)
  | (s, Error e) => (s, Error e)
  | (s, Trap) => (s, Trap)
  end.

(** ** Watch mode *)
(** 117-125 *)
Definition clear (m : module) : module := blank (m_fname m).
Definition clear_at (ms : list module) (i : nat) : list module := match nth_error ms i with Some m => set_nth ms i (clear m) | None => ms end.
(** 131-144: without an output; not the prelude *)
Definition no_out (ms : list module) : list nat := filter (fun i => negb (has_out ms i)) (seq 1 (length ms - 1)).
(** 150-165: one round; whether there was something to do *)
Fixpoint prune_round (ms : list module) (invalid : list nat) (repeat : bool) (l : list nat) : list module * list nat * bool :=
  match l with
  | [] => (ms, invalid, repeat)
  | i :: l =>
      let imports := match nth_error ms i with Some m => m_imports m | None => [] end in
      if existsb (fun j => existsb (Nat.eqb j) invalid) imports then prune_round (clear_at ms i) (i :: invalid) true l
      else prune_round ms invalid repeat l
  end.
Fixpoint prune_loop (fuel : nat) (ms : list module) (invalid : list nat) : option (list module) :=
  match fuel with
  | O => None
  | S fuel =>
      let '(ms, invalid, repeat) := prune_round ms invalid false (seq 1 (length ms - 1)) in
      if repeat then prune_loop fuel ms invalid else Some ms
  end.
(** 127-171 *)
Definition watch_pruneModules (s : state) : option state :=
  let invalid := no_out (modules s) in
  let ms := fold_left clear_at invalid (modules s) in
  match invalid with
  | [] => Some (State ms (files s))
  | _ => option_map (fun ms => State ms (files s)) (prune_loop (S (length ms)) ms invalid)
  end.
(** 487-515, context.fu:190-196: what is read again is not as it was; "\v" in place of an empty text *)
Definition shown (o : option (list Z)) : list Z := match o with None => [] | Some [] => [11%Z] | Some src => src end.
Definition watch_needsRebuild (disk : name -> list Z) (s : state) : state * bool :=
  fold_left (fun '(t, some) i =>
    match nth_error (modules t) i with
    | None => (t, some)
    | Some m => let (t, src) := getFile disk t (m_fname m) in
                if name_eqb (shown (files s (m_fname m))) (shown (Some src)) then (t, some) else (State (clear_at (modules t) i) (files t), true)
    end) (seq 1 (length (modules s) - 1)) (State (modules s) (fun _ => None), false).
(** 433-447, 519-...: files changed; then a rebuild *)
Definition rebuild (fuel : nat) (parallel : bool) (main : name) (s : state) (disk : name -> list Z) : option (state * outcome unit) :=
  let (s, _) := watch_needsRebuild disk s in
  option_map (fun s => compile fuel parallel disk s main) (watch_pruneModules s).
End COMPILE.
