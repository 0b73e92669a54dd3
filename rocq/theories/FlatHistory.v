(** Running whole histories of flat Set / Map / CountedSet operations through
    the model (src/flat.fu).  The op types are the user-level ones of FlatSpec. *)
From Verif Require Import Common FlatModel FlatSpec.

Section H.
Context {K : Type} (cmp : K -> K -> Z).

Definition set_step (o : sop K) (s : list K) : option (list K) :=
  match o with
  | SAdd k => do '(s', _) <- set_add cmp s k; Some s'
  | SRemove k => do '(s', _) <- set_remove cmp s k; Some s'
  | SClear => Some (set_clear s)
  | SAddAll b => set_add_all cmp s b
  | SKeep b => set_keep cmp s b
  | SRemoveAll b => set_remove_all cmp s b
  end.
Fixpoint set_run (os : list (sop K)) (s : list K) : option (list K) :=
  match os with [] => Some s | o :: os' => do s' <- set_step o s; set_run os' s' end.

(** How many keys a history can add at most (for the 2^30-element limit). *)
Fixpoint adds (os : list (sop K)) : nat :=
  match os with
  | [] => 0
  | SAdd _ :: os' => S (adds os')
  | SAddAll b :: os' => length b + adds os'
  | _ :: os' => adds os'
  end.

Context {V : Type}.
Definition map_step (o : mop K V) (m : fmap K V) : option (fmap K V) :=
  match o with
  | MSet k v => do '(m', _) <- fm_set cmp m k v; Some m'
  | MRemove k => do '(m', _) <- fm_remove cmp m k; Some m'
  | MClear => Some (fm_clear m)
  | MModify k init f => do '(m', _) <- fm_ref cmp m k init (fun v => Some (f v)); Some m'
  end.
Fixpoint map_run (os : list (mop K V)) (m : fmap K V) : option (fmap K V) :=
  match os with [] => Some m | o :: os' => do m' <- map_step o m; map_run os' m' end.
Definition map_empty : fmap K V := {| fm_keys := []; fm_vals := [] |}.

Definition cs_step (o : cop K) (c : fmap K Z) : option (fmap K Z * bool) :=
  match o with
  | CIncr k => cs_incr cmp c k
  | CDecr k => cs_try_decr cmp c k
  | CRemove k => cs_remove cmp c k
  | CClear => Some (fm_clear c, true)
  end.
Fixpoint cs_run (os : list (cop K)) (c : fmap K Z) : option (fmap K Z) :=
  match os with [] => Some c | o :: os' => do '(c', _) <- cs_step o c; cs_run os' c' end.
End H.
