(** C70.  What the solver guarantees about the tree it hands to the code generator, and the two shapes
    the generator does not get right (excluded here, refuted in NamesProps.v). *)
From Coq Require Import String List ZArith Bool Lia.
From Verif Require Import LexerSpec DecSpec NamesSpec NamesModel.
Import ListNotations.
Notation length := List.length.
Open Scope Z_scope.

(** All locals met so far; those bound by a let; those of them bound by a let inside an expression or
    taken out of a block; the ones in scope. *)
Record sc := { seen : list Z; decl : list Z; hois : list Z; vis : list Z }.
Definition with_vis v (c : sc) : sc := {| seen := seen c; decl := decl c; hois := hois c; vis := v |}.
(** A let. *)
Definition bind (c : sc) (l : Z) : sc :=
  if in_dec Z.eq_dec l (decl c) then c
  else {| seen := l :: seen c; decl := l :: decl c; hois := hois c; vis := l :: vis c |}.
(** A let inside an expression. *)
Definition hbind (c : sc) (l : Z) : sc :=
  bind {| seen := seen c; decl := decl c; hois := l :: hois c; vis := vis c |} l.

Fixpoint walk_h (c : sc) (hs : list Z) : sc :=
  match hs with
  | [] => c
  | l :: hs => walk_h (if (0 <? l) && negb (if in_dec Z.eq_dec l (decl c) then true else false) then hbind c l else c) hs
  end.
Fixpoint walk_e (c : sc) (e : expr) : sc :=
  match e with
  | ENop | EUse _ | EGlob _ => c
  | ESeq a b => walk_e (walk_e c a) b
  | ELet l i => walk_e (hbind c l) i
  | ETemp e => walk_e c e
  | ESub hs _ b => let c1 := walk_h c hs in with_vis (vis c1) (walk_s c1 b)
  end
with walk_s (c : sc) (ss : stmts) : sc :=
  match ss with
  | SNil => c
  | SExp e r => walk_s (walk_e c e) r
  | SLet l i r => walk_s (walk_e (bind c l) i) r
  | SFor d i b r => walk_s (with_vis (vis c) (walk_s (walk_e (match d with None => c | Some l => bind c l end) i) b)) r
  | STry a err b r =>
      let c1 := with_vis (vis c) (walk_s c a) in
      let c2 := match err with None => c1 | Some l => {| seen := l :: seen c1; decl := decl c1; hois := hois c1; vis := l :: vis c1 |} end in
      walk_s (with_vis (vis c) (walk_s c2 b)) r
  end.

(** The globals a piece of code uses. *)
Fixpoint glob_e (e : expr) : list name :=
  match e with
  | ENop | EUse _ => []
  | EGlob g => [g]
  | ESeq a b => glob_e a ++ glob_e b
  | ELet _ i => glob_e i
  | ETemp e => glob_e e
  | ESub _ _ b => glob_s b
  end
with glob_s (ss : stmts) : list name :=
  match ss with
  | SNil => []
  | SExp e r => glob_e e ++ glob_s r
  | SLet _ i r => glob_e i ++ glob_s r
  | SFor _ i b r => glob_e i ++ glob_s b ++ glob_s r
  | STry a _ b r => glob_s a ++ glob_s b ++ glob_s r
  end.

Section Scope.
Variable src : Z -> name.
(** No global used earlier in the statement has the name of the local, or that name with a number. *)
Definition uncaptured (G : list name) (l : Z) : Prop := forall g, In g G -> ~ derived (base src l) g.

Fixpoint wf_h (c : sc) (G : list name) (hs : list Z) : Prop :=
  match hs with
  | [] => True
  | l :: hs =>
      (l <= 0 \/ In l (decl c) \/ (~ In l (seen c) /\ uncaptured G l)) /\
      wf_h (if (0 <? l) && negb (if in_dec Z.eq_dec l (decl c) then true else false) then hbind c l else c) G hs
  end.
(** Locals are used in scope and bound once, unless they are in scope already because they were taken
    out of a block; [G] are the globals used in the statement so far. *)
Fixpoint wf_e (c : sc) (G : list name) (e : expr) : Prop :=
  match e with
  | ENop => True
  | ESeq a b => wf_e c G a /\ wf_e (walk_e c a) (G ++ glob_e a) b
  | EUse l => In l (vis c)
  | EGlob g => ~ reserved g
  | ELet l i => 0 < l /\ (In l (decl c) /\ In l (vis c) \/ ~ In l (seen c) /\ uncaptured G l) /\ wf_e (hbind c l) G i
  | ETemp e => wf_e c G e
  | ESub hs _ b => wf_h c G hs /\ wf_s (walk_h c hs) b
  end
with wf_s (c : sc) (ss : stmts) : Prop :=
  match ss with
  | SNil => True
  | SExp e r => wf_e c [] e /\ wf_s (walk_e c e) r
  | SLet l i r =>
      0 < l /\ (In l (hois c) /\ In l (vis c) \/ ~ In l (seen c)) /\ wf_e (bind c l) [] i /\ wf_s (walk_e (bind c l) i) r
  | SFor d i b r =>
      let c1 := match d with None => c | Some l => bind c l end in
      (forall l, d = Some l -> 0 < l /\ (In l (hois c) /\ In l (vis c) \/ ~ In l (seen c))) /\
      wf_e c1 [] i /\ wf_s (walk_e c1 i) b /\ wf_s (with_vis (vis c) (walk_s (walk_e c1 i) b)) r
  | STry a err b r =>
      let c1 := with_vis (vis c) (walk_s c a) in
      let c2 := match err with None => c1 | Some l => {| seen := l :: seen c1; decl := decl c1; hois := hois c1; vis := l :: vis c1 |} end in
      wf_s c a /\ (forall l, err = Some l -> 0 < l /\ ~ In l (seen c1)) /\ wf_s c2 b /\ wf_s (with_vis (vis c) (walk_s c2 b)) r
  end.

(** Arguments have negative numbers, all different; an unused one is not used. *)
Definition in_args (args : list (Z * bool)) : sc :=
  {| seen := rev (map fst args); decl := []; hois := []; vis := rev (map fst (filter (fun a => negb (snd a)) args)) |}.
Definition wf_fn (args : list (Z * bool)) (b : stmts) : Prop :=
  NoDup (map fst args) /\ Forall (fun a => fst a < 0) args /\ wf_s (in_args args) b /\
  (forall l, base src l <> [] /\ ~ reserved (base src l)).
End Scope.
