(** What scopes should do, with no positions, skips or caches: an environment is the list of the names in force,
    outermost first.  A block or a body gives back the environment it found; a function body starts from the
    environment its function was declared in. *)
From Verif Require Import ScopeModel.
Open Scope Z_scope.

Record binding := Bind { b_id : list Z; b_target : Z; b_shadows : bool }.
Definition env := list binding.

(** All that a name means, nearest first: the bindings of that name in force, then the fields, then the extra
    targets of the lookup. *)
Definition meanings (e : env) (id : list Z) (extra : list Z) (fields : list scope_item) : list (Z * bool) :=
  map (fun b => (b_target b, b_shadows b)) (rev (filter (fun b => str_eqb (b_id b) id) e)) ++
  map (fun f => (si_target f, false)) (rev (filter (fun f => str_eqb (si_id f) id) fields)) ++
  map (fun t => (t, false)) (rev extra).

(** What is open: blocks and bodies keep the environment to go back to and the functions declared directly in them
    (each with the environment its body starts from, latest first); a lookup keeps what it has yet to give. *)
Inductive sframe :=
| SBlock (back : env) (fns : list env)
| SBody (back : env) (root_back : option env) (fns : list env)
| SLookup (rest : list (Z * bool)).
Definition sframe_fns (f : sframe) : list env := match f with SBlock _ l => l | SBody _ _ l => l | SLookup _ => [] end.

(** [sc_root]: the environment of the module when its outermost function body was entered *)
Record scopes := Scopes { sc_env : env; sc_root : option env; sc_open : list sframe }.

Definition with_fns (g : list env -> list env) (fs : list sframe) : option (list sframe) :=
  match fs with
  | SBlock b l :: fs => Some (SBlock b (g l) :: fs)
  | SBody b r l :: fs => Some (SBody b r (g l) :: fs)
  | _ => None
  end.
Definition same_as_latest (n : nat) (l : list env) : list env :=
  match l with [] => [] | e :: _ => map (fun _ => e) (firstn n l) ++ skipn n l end.
Definition enter_body (e : env) (s : scopes) : scopes :=
  Scopes e (match sc_root s with None => Some (sc_env s) | r => r end) (SBody (sc_env s) (sc_root s) [] :: sc_open s).

Definition lexical_step (s : scopes) (e : event) : option (scopes * option (Z * bool)) :=
  match e with
  | EPush id t sh =>
      match sc_open s with
      | SLookup _ :: _ => None
      | _ => Some (Scopes (sc_env s ++ [Bind id t sh]) (sc_root s) (sc_open s), None)
      end
  | EFn =>
      match sc_root s with
      | None => None
      | Some _ => match with_fns (cons (sc_env s)) (sc_open s) with
                  | Some fs => Some (Scopes (sc_env s) (sc_root s) fs, None) | None => None end
      end
  | EGroup n =>
      match with_fns (same_as_latest n) (sc_open s) with
      | Some fs => Some (Scopes (sc_env s) (sc_root s) fs, None) | None => None end
  | EOpen => Some (Scopes (sc_env s) (sc_root s) (SBlock (sc_env s) [] :: sc_open s), None)
  | EBody n =>
      match nth_error (flat_map sframe_fns (sc_open s)) n with
      | Some e => Some (enter_body e s, None)
      | None => None
      end
  | EGlobal => Some (enter_body (match sc_root s with Some e => e | None => sc_env s end) s, None)
  | ELookup id extra fields =>
      Some (Scopes (sc_env s) (sc_root s) (SLookup (meanings (sc_env s) id extra fields) :: sc_open s), None)
  | ENext =>
      match sc_open s with
      | SLookup [] :: _ => Some (s, Some (0, false))
      | SLookup (x :: rest) :: fs => Some (Scopes (sc_env s) (sc_root s) (SLookup rest :: fs), Some x)
      | _ => None
      end
  | EClose =>
      match sc_open s with
      | SBlock b _ :: fs => Some (Scopes b (sc_root s) fs, None)
      | SBody b r _ :: fs => Some (Scopes b r fs, None)
      | SLookup _ :: fs => Some (Scopes (sc_env s) (sc_root s) fs, None)
      | [] => None
      end
  | EUnion _ => None
  end.

Fixpoint lexical_run (s : scopes) (es : list event) : option (list (Z * bool)) :=
  match es with
  | [] => Some []
  | e :: es =>
      match lexical_step s e with
      | Some (s', o) => match lexical_run s' es with
                        | Some l => Some (match o with Some o => o :: l | None => l end)
                        | None => None
                        end
      | None => None
      end
  end.
Definition lexical_init : scopes := Scopes [] None [].

(** Histories without autocalls, with targets of 62 bits and fewer than 0x0fffffff names, fields and extra items. *)
Definition LIMIT : Z := 0x0fffffff.
Definition fair_event (e : event) : Prop :=
  match e with
  | EPush _ t _ => 0 <= t < 2 ^ 62
  | ELookup _ extra fields => slen extra < LIMIT /\ slen fields < LIMIT
  | EUnion _ => False
  | _ => True
  end.
Definition pushes (es : list event) : Z :=
  slen (filter (fun e => match e with EPush _ _ _ => true | _ => false end) es).
Definition fair (es : list event) : Prop := Forall fair_event es /\ pushes es < LIMIT.

(** ** Skips *)
(** position [k] is hidden *)
Definition hidden (skips : list scope_skip) (k : Z) : Prop := exists s, In s skips /\ sk_start s <= k < sk_end s.
(** the skips are not empty, do not touch each other's insides, and go up, from [lo] to at most [hi] *)
Fixpoint tidy_skips (lo : Z) (skips : list scope_skip) (hi : Z) : Prop :=
  match skips with
  | [] => lo <= hi
  | s :: rest => lo <= sk_start s /\ sk_start s < sk_end s /\ tidy_skips (sk_end s) rest hi
  end.

(** [l] are the positions and the elements of [items] from [start] that are not hidden, in order *)
Definition lists_visible {T} (items : list T) (skips : list scope_skip) (start : Z) (l : list (Z * T)) : Prop :=
  (forall i x, In (i, x) l <-> start <= i /\ ~ hidden skips i /\ at_ items i = Some x /\ 0 <= i) /\
  (forall a b c d, nth_error l a = Some c -> nth_error l b = Some d -> (a < b)%nat -> fst c < fst d).

(** ** A function declares its arguments and locals, in any order *)
Fixpoint create_all {T} (modid nest : Z) (ext : extended T) (l : list (bool * T)) : option (extended T * list Z) :=
  match l with
  | [] => Some (ext, [])
  | (arg, x) :: l =>
      do r <- create_local modid nest ext arg x; do q <- create_all modid nest (fst r) l; Some (fst q, snd r :: snd q)
  end.
