(** What clients of the pool rely on: a ghost map from the ids they hold to the
    contents they last stored there. *)
From Verif Require Export PoolModel.
Open Scope Z_scope.

(** The [Pool__next_free] field behaves as a field, and a default item has it zero. *)
Record field_ok {T} (next : T -> Z) (set_next : Z -> T -> T) (dflt : T) : Prop := {
  get_set : forall n t, next (set_next n t) = n;
  set_set : forall n m t, set_next n (set_next m t) = set_next n t;
  set_dflt : set_next 0 dflt = dflt
}.

Definition mset {T} (m : Z -> option T) (k : Z) (v : option T) : Z -> option T :=
  fun k' => if k' =? k then v else m k'.

(** Histories: allocate at any time; write and free only ids one holds. *)
Inductive preach {T} (next : T -> Z) set_next (dflt : T) (DEBUG : bool) : pool T -> (Z -> option T) -> Prop :=
| p_init : preach next set_next dflt DEBUG empty_pool (fun _ => None)
| p_alloc : forall p m id p', preach next set_next dflt DEBUG p m ->
    pool_alloc next set_next dflt DEBUG p = Some (id, p') ->
    preach next set_next dflt DEBUG p' (mset m id (Some dflt))
| p_free : forall p m id p', preach next set_next dflt DEBUG p m -> m id <> None ->
    pool_free set_next dflt DEBUG p id = Some p' ->
    preach next set_next dflt DEBUG p' (mset m id None)
| p_write : forall p m id x p', preach next set_next dflt DEBUG p m -> m id <> None ->
    pool_set DEBUG p id x = Some p' ->
    preach next set_next dflt DEBUG p' (mset m id (Some x)).
