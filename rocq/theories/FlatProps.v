(** C35 - flat Set / Map / CountedSet are a finite set / map / multiset.
    Only property theorems and their non-vacuity checks live here. *)
From Coq Require Import Sorted.
From Verif Require Import CommonLemmas FlatModel FlatSpec FlatProofs FlatMapProofs FlatHistory FlatHistoryProofs.

(** Any history of set operations, from the empty set, ends with exactly the
    members the set-theoretic reading gives; storage stays strictly sorted (so
    there are no duplicates); [has] answers membership; nothing goes wrong as
    long as no more than 2^30 keys are ever inserted. *)
Theorem flat_set_history :
  forall (K : Type) (cmp : K -> K -> Z), cmp_lawful cmp ->
  forall os : list (sop K),
    Forall (fun o => match o with
                     | SAddAll b | SKeep b | SRemoveAll b => StronglySorted (fun x y => (cmp x y < 0)%Z) b
                     | _ => True end) os ->
    (Z.of_nat (adds os) <= 2^30)%Z ->
    exists s, set_run cmp os [] = Some s /\
      StronglySorted (fun x y => (cmp x y < 0)%Z) s /\
      (forall k, In k s <-> spec_run os (fun _ => False) k) /\
      (forall k, exists b, set_has cmp s k = Some b /\ (b = true <-> spec_run os (fun _ => False) k)).
Proof. exact flat_set_history_proof. Qed.
Print Assumptions flat_set_history.

(** [add]/[remove] report whether they changed the set. *)
Theorem flat_set_reports :
  forall (K : Type) (cmp : K -> K -> Z), cmp_lawful cmp ->
  forall (s : list K) (k : K),
    StronglySorted (fun x y => (cmp x y < 0)%Z) s -> (Z.of_nat (length s) <= 2^30)%Z ->
    (exists s' b, set_add cmp s k = Some (s', b) /\ (b = true <-> ~ In k s) /\
       (forall x, In x s' <-> x = k \/ In x s)) /\
    (exists s' b, set_remove cmp s k = Some (s', b) /\ (b = true <-> In k s) /\
       (forall x, In x s' <-> x <> k /\ In x s)).
Proof. exact flat_set_reports_proof. Qed.
Print Assumptions flat_set_reports.

(** The pure bulk operations are the set operations. *)
Theorem flat_set_bulk :
  forall (K : Type) (cmp : K -> K -> Z), cmp_lawful cmp ->
  forall a b : list K,
    StronglySorted (fun x y => (cmp x y < 0)%Z) a -> StronglySorted (fun x y => (cmp x y < 0)%Z) b ->
    (exists s, set_inter cmp a b = Some s /\ StronglySorted (fun x y => (cmp x y < 0)%Z) s /\
       forall k, In k s <-> In k a /\ In k b) /\
    (exists s, set_union cmp a b = Some s /\ StronglySorted (fun x y => (cmp x y < 0)%Z) s /\
       forall k, In k s <-> In k a \/ In k b) /\
    (exists s, set_diff cmp a b = Some s /\ StronglySorted (fun x y => (cmp x y < 0)%Z) s /\
       forall k, In k s <-> In k a /\ ~ In k b) /\
    (exists r, set_has_inter cmp a b = Some r /\ (r = true <-> exists k, In k a /\ In k b)) /\
    (exists r, set_misses_some cmp a b = Some r /\ (r = true <-> exists k, In k b /\ ~ In k a)).
Proof. exact flat_set_bulk_proof. Qed.
Print Assumptions flat_set_bulk.

(** Any history of map operations: get, has and each agree with the partial
    function obtained by reading the history literally. *)
Theorem flat_map_history :
  forall (K V : Type) (cmp : K -> K -> Z) (default : V), cmp_lawful cmp ->
  forall os : list (mop K V),
    (Z.of_nat (length os) <= 2^30)%Z ->
    let spec := mspec_run (fun a b => (cmp a b =? 0)%Z) os (fun _ => None) in
    exists m, map_run cmp os map_empty = Some m /\
      (forall k, fm_get cmp default m k = Some (match spec k with Some v => v | None => default end)) /\
      (forall k, fm_has cmp m k = Some (match spec k with Some _ => true | None => false end)) /\
      (exists visited, fm_each m = Some visited /\
         StronglySorted (fun x y => (cmp x y < 0)%Z) (map fst visited) /\
         forall k v, In (k, v) visited <-> spec k = Some v).
Proof. exact flat_map_history_proof. Qed.
Print Assumptions flat_map_history.

(** Any history of counted-set operations: [count] is the multiplicity, and
    [total] the sum of all multiplicities. *)
Theorem flat_countedset_history :
  forall (K : Type) (cmp : K -> K -> Z), cmp_lawful cmp ->
  forall os : list (cop K),
    (Z.of_nat (length os) <= 2^30)%Z ->
    let mult := cspec_run (fun a b => (cmp a b =? 0)%Z) os (fun _ => 0) in
    exists c, cs_run cmp os map_empty = Some c /\
      (forall k, cs_count cmp c k = Some (Z.of_nat (mult k))) /\
      (forall U, NoDup U -> (forall k, mult k <> 0 -> In k U) -> cs_total c = Some (Z.of_nat (msum mult U))).
Proof. exact flat_countedset_history_proof. Qed.
Print Assumptions flat_countedset_history.

(** The booleans reported by a counted-set operation after any history. *)
Theorem flat_countedset_reports :
  forall (K : Type) (cmp : K -> K -> Z), cmp_lawful cmp ->
  forall (os : list (cop K)) (k : K),
    (Z.of_nat (length os) < 2^30)%Z ->
    let mult := cspec_run (fun a b => (cmp a b =? 0)%Z) os (fun _ => 0) in
    exists c, cs_run cmp os map_empty = Some c /\
      (exists c', cs_incr cmp c k = Some (c', (mult k =? 0))) /\
      (exists c', cs_try_decr cmp c k = Some (c', (mult k =? 1))) /\
      (exists c', cs_remove cmp c k = Some (c', negb (mult k =? 0))).
Proof. exact flat_countedset_reports_proof. Qed.
Print Assumptions flat_countedset_reports.

(** Non-vacuity: integer keys with subtraction-free comparison are lawful, and a
    concrete history runs. *)
Definition zcmp (a b : Z) : Z := if (a <? b)%Z then (-1)%Z else if (a =? b)%Z then 0%Z else 1%Z.
Example zcmp_lawful : cmp_lawful zcmp.
Proof.
  unfold zcmp; split; intros a b; [| |intros c];
    repeat match goal with |- context[Z.ltb ?x ?y] => destruct (Z.ltb_spec x y)
                         | |- context[Z.eqb ?x ?y] => destruct (Z.eqb_spec x y) end; lia.
Qed.
Example flat_set_history_case :
  set_run zcmp [SAdd 5; SAdd 1; SAddAll [1; 3; 9]; SRemove 5; SKeep [1; 3; 7; 9]; SRemoveAll [9]]%Z [] = Some [1; 3]%Z
  /\ set_union zcmp [1; 4]%Z [2; 4; 6]%Z = Some [1; 2; 4; 6]%Z
  /\ set_diff zcmp [1; 4; 8]%Z [2; 4; 6]%Z = Some [1; 8]%Z.
Proof. vm_compute. auto. Qed.
Example flat_countedset_case :
  exists c, cs_run zcmp [CIncr 5; CIncr 1; CIncr 5; CDecr 1]%Z map_empty = Some c
  /\ cs_count zcmp c 5%Z = Some 2%Z /\ cs_total c = Some 2%Z.
Proof.
  exists {| fm_keys := [5%Z]; fm_vals := [2%Z] |}.
  split; [vm_compute; reflexivity|]. split; vm_compute; reflexivity.
Qed.
