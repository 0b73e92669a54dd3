(** C27's vocabulary: what it means for a value to have a type, for two values to have
    equal contents, and for two values to live in one memory. *)
From Verif Require Export CmpModel.
Open Scope Z_scope.

(** Contents: the value without addresses. *)
Inductive content := CPrim (z : Z) | CArr (l : list content) | CStruct (l : list content).
Fixpoint erase (v : val) : content :=
  match v with VPrim z => CPrim z | VArr _ l => CArr (map erase l) | VStruct l => CStruct (map erase l) end.

Inductive has_ty : ty -> val -> Prop :=
| ht_prim z : has_ty TPrim (VPrim z)
| ht_arr u p l : Forall (has_ty u) l -> has_ty (TArr u) (VArr p l)
| ht_struct fs l : Forall2 (fun f x => has_ty (snd f) x) fs l -> has_ty (TStruct fs) (VStruct l).

(** Two values read from one memory: arrays starting at the same address hold the same
    elements at every index they both have; recursively for paired elements. *)
Inductive one_memory : val -> val -> Prop :=
| om_prim x y : one_memory (VPrim x) (VPrim y)
| om_arr p l q k :
    (p = q -> forall i x y, nth_error l i = Some x -> nth_error k i = Some y -> erase x = erase y) ->
    (forall i x y, nth_error l i = Some x -> nth_error k i = Some y -> one_memory x y) ->
    one_memory (VArr p l) (VArr q k)
| om_struct l k :
    (forall i x y, nth_error l i = Some x -> nth_error k i = Some y -> one_memory x y) ->
    one_memory (VStruct l) (VStruct k).

(** Shorter first, then by the first differing element. *)
Definition shortlex_lt (a b : list Z) : Prop :=
  (length a < length b)%nat \/
  (length a = length b /\ exists p x y a' b', a = p ++ x :: a' /\ b = p ++ y :: b' /\ x < y).
Definition bytes_of (v : val) : list Z :=
  match v with VArr _ l => map (fun x => match x with VPrim z => z | _ => 0 end) l | _ => [] end.
