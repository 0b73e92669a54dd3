(** C39 - the slot Pool never hands out a live slot. *)
From Verif Require Import WordsLemmas PoolModel PoolSpec PoolProofs.
Open Scope Z_scope.

(** After any history of alloc / write / free (of held ids), in debug and release
    builds alike:
    - alloc succeeds with a positive id nobody holds, and grows the storage
      only when every existing id is held;
    - a held id reads back what was last stored, and can be written and freed;
      a freed id is the next one handed out, reset to the default contents;
    - in debug builds, using or freeing a low id that is not held is caught. *)
Theorem pool_history : forall (T : Type) (next : T -> Z) set_next (dflt : T) (DEBUG : bool),
  field_ok next set_next dflt ->
  forall p m, preach next set_next dflt DEBUG p m ->
  (exists id p', pool_alloc next set_next dflt DEBUG p = Some (id, p') /\ 0 < id /\ m id = None /\
     (Z.of_nat (length (items p)) < id -> forall k, 0 < k <= Z.of_nat (length (items p)) -> m k <> None)) /\
  (forall id x, m id = Some x ->
     pool_get DEBUG p id = Some x /\
     (forall y, exists p', pool_set DEBUG p id y = Some p') /\
     (exists p', pool_free set_next dflt DEBUG p id = Some p' /\
        exists p'', pool_alloc next set_next dflt DEBUG p' = Some (id, p'') /\ pool_get DEBUG p'' id = Some dflt)) /\
  (DEBUG = true -> forall id, id <= 32 -> m id = None ->
     pool_get DEBUG p id = None /\ pool_free set_next dflt DEBUG p id = None).
Proof. exact (fun T next set_next dflt DEBUG F p m => pool_history_proof next set_next dflt F DEBUG p m). Qed.
Print Assumptions pool_history.

(** Non-vacuity: a union item whose only field is the next-free link itself
    (the Loop.fu situation), and a history that reuses a slot. *)
Example pool_field_ok : field_ok (fun t : Z => t) (fun n _ => n) 0.
Proof. split; reflexivity. Qed.
Example pool_case :
  let N := fun t : Z => t in let S := fun (n _ : Z) => n in
  exists p1 p2 p3 p4, pool_alloc N S 0 true empty_pool = Some (1, p1) /\ pool_alloc N S 0 true p1 = Some (2, p2) /\
    pool_free S 0 true p2 1 = Some p3 /\ pool_alloc N S 0 true p3 = Some (1, p4) /\ pool_free S 0 true p3 1 = None.
Proof. cbn zeta. eexists _, _, _, _. repeat split; vm_compute; reflexivity. Qed.
