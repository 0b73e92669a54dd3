(** What paths mean, independently of lib/path.fu (C18, C19, C20).
    Components are what lies between slashes ([splits], PreludeSpec.v). *)
From Verif Require Export PreludeSpec.
Open Scope nat_scope.

Notation comp := (list Z).
Definition slash : Z := 47.
Definition dot : comp := [46]%Z.
Definition dotdot : comp := [46; 46]%Z.

(** Walking the components: how far above the start, and the names below that point, innermost first. *)
Definition walk_step (st : nat * list comp) (c : comp) : nat * list comp :=
  if list_eq_dec Z.eq_dec c [] then st
  else if list_eq_dec Z.eq_dec c dot then st
  else if list_eq_dec Z.eq_dec c dotdot then
    match st with (ups, []) => (S ups, []) | (ups, _ :: names) => (ups, names) end
  else (fst st, c :: snd st).
Definition walk (cs : list comp) : nat * list comp := fold_left walk_step cs (0, []).

Definition absolute (p : list Z) : Prop := exists rest, p = slash :: rest.
(** The path climbs [ups] levels above its start (or tries to, at the root) and then descends [names]. *)
Definition goes (p : list Z) (ups : nat) (names : list comp) : Prop :=
  exists cs, splits [slash] p cs /\ walk cs = (ups, names).
(** Two paths name the same location from any current directory: both absolute or both relative, same names,
    and, if relative, the same climb.  At the root ".." stays put. *)
Definition same_location (p q : list Z) : Prop :=
  (absolute p <-> absolute q) /\
  exists u v names, goes p u names /\ goes q v names /\ (~ absolute p -> u = v).

(** A path in normal form: no ".", no inner empty component, ".." at most first. *)
Definition normal (p : list Z) : Prop :=
  exists cs, splits [slash] p cs /\
    forall i c, nth_error cs i = Some c ->
      (c = dot -> False) /\
      (c = [] -> i = 0 \/ S i = length cs) /\
      (c = dotdot -> i = 0).

(** Proper names, and the text of a path made of them. *)
Definition name (c : comp) : Prop := c <> [] /\ c <> dot /\ c <> dotdot /\ ~ In slash c.
Definition path_text (root : bool) (names : list comp) (trail : bool) : list Z :=
  joined [slash] ((if root then [[]] else []) ++ names ++ (if trail then [[]] else [])).
