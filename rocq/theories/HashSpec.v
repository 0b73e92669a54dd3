(** What a hash Map promises, without reference to its representation: a finite map, read and changed by its
    operations.  A map is a function from keys to optional values; two maps are the same when they agree everywhere. *)
From Verif Require Import HashModel.

Section SPEC.
Context {K V : Type} (eqb : K -> K -> bool) (default : V).
Definition fmap := K -> option V.
Definition upd_map (M : fmap) (k : K) (v : option V) : fmap := fun k' => if eqb k' k then v else M k'.
(** l lists the map, each key once *)
Definition lists (M : fmap) (l : list (K * V)) : Prop :=
  NoDup (map fst l) /\ forall k v, In (k, v) l <-> M k = Some v.
Definition some {A} (o : option A) : bool := match o with Some _ => true | None => false end.
Definition get_or (M : fmap) (k : K) (d : V) : V := match M k with Some v => v | None => d end.
(** one operation on the map M: the map after it, and what it returns *)
Inductive spec_op (M : fmap) : hop K V -> fmap -> hres K V -> Prop :=
| S_get k : spec_op M (HGet k) M (RGet (get_or M k default) (some (M k)))
| S_set k v : spec_op M (HSet k v) (upd_map M k (Some v)) RNone
| S_ref k init f : spec_op M (HRef k init f) (upd_map M k (Some (f (get_or M k init)))) RNone
| S_if_ref k f : spec_op M (HIfRef k f) (upd_map M k (option_map f (M k))) (RBool (some (M k)))
| S_remove k : spec_op M (HRemove k) (upd_map M k None) (RBool (some (M k)))
| S_each visit l : lists M l ->
    spec_op M (HEach visit)
      (fun k => match M k with None => None | Some v => if snd (visit k v) then None else Some (fst (visit k v)) end) (REach l)
| S_clear : spec_op M HClear (fun _ => None) RNone
| S_len l : lists M l -> spec_op M HLen M (RLen (length l)).
(** a history, its results, and the map at the end *)
Inductive spec_run : fmap -> list (hop K V) -> list (hres K V) -> fmap -> Prop :=
| run_nil M M' : (forall k, M k = M' k) -> spec_run M [] [] M'
| run_cons M o M1 r os rs M' : spec_op M o M1 r -> spec_run M1 os rs M' -> spec_run M (o :: os) (r :: rs) M'.
End SPEC.

(** The program: Some (Some (results, map)); Some None when memory runs out; None for a trap. *)
Fixpoint hm_run {K V} (eqb : K -> K -> bool) (hasher : K -> Z) (default : V) (m : hmap K V) (os : list (hop K V))
  : option (option (list (hres K V) * hmap K V)) :=
  match os with
  | [] => Some (Some ([], m))
  | o :: os =>
      do q <- hm_op eqb hasher default m o;
      match q with
      | None => Some None
      | Some (m, r) =>
          do q <- hm_run eqb hasher default m os;
          Some (option_map (fun q => (r :: fst q, snd q)) q)
      end
  end.
(** ** Growing soundly.  Slot i of an index is used when an entry is in it; its probe distance is how far it is from
    where its hash would have it, going round. *)
Definition slot (ix : list ientry) (i : Z) : ientry := nth (Z.to_nat (i mod lenz ix)) ix (IE 0 0).
Definition slot_used (ix : list ientry) (i : Z) : Prop := ie_pos (slot ix i) <> 0%nat.
Definition probe_distance (ix : list ientry) (i : Z) : Z := (i - ie_hash (slot ix i)) mod lenz ix.
(** in order: a slot's probe distance is below the number of probes made (log2 of the length), and if it is not zero then the slot
    before is used and its probe distance is at most one less *)
Definition in_order (ix : list ientry) : Prop :=
  forall i, slot_used ix i -> probe_distance ix i < Z.log2 (lenz ix) /\
    (probe_distance ix i = 0 \/ slot_used ix (i - 1) /\ probe_distance ix i <= probe_distance ix (i - 1) + 1).
(** Whenever [ref] grows the index, growing ends, with an index in order. *)
Fixpoint ref_grows {K V} (eqb : K -> K -> bool) (fuel : nat) (m : hmap K V) (key : K) (hash : Z) : Prop :=
  match fuel with
  | O => True
  | S f =>
      match route eqb m key hash with
      | Some Unavailable =>
          MAX_INDEX <= lenz (hm_index m) \/
          exists ix, increase_capacity (hm_index m) = Some ix /\ in_order ix /\ ref_grows eqb f (HM ix (hm_data m)) key hash
      | _ => True
      end
  end.
Fixpoint run_grows {K V} (eqb : K -> K -> bool) (hasher : K -> Z) (default : V) (m : hmap K V) (os : list (hop K V)) : Prop :=
  match os with
  | [] => True
  | o :: os =>
      match o with HSet k _ | HRef k _ _ => ref_grows eqb 33 m k (hash_of hasher k) | _ => True end /\
      match hm_op eqb hasher default m o with Some (Some (m, _)) => run_grows eqb hasher default m os | _ => True end
  end.
(** An index with at most two slots, or with a free one *)
Definition roomy (index : list ientry) : Prop := (length index <= 2)%nat \/ exists e, In e index /\ ie_pos e = 0%nat.

(** Every key that is set when there is no place left for it comes to an index that is roomy *)
Fixpoint run_roomy {K V} (eqb : K -> K -> bool) (hasher : K -> Z) (default : V) (m : hmap K V) (os : list (hop K V)) : Prop :=
  match os with
  | [] => True
  | o :: os =>
      match o with HSet k _ | HRef k _ _ => route eqb m k (hash_of hasher k) = Some Unavailable -> roomy (hm_index m) | _ => True end /\
      match hm_op eqb hasher default m o with Some (Some (m, _)) => run_roomy eqb hasher default m os | _ => True end
  end.
(** A small map: a new key is only set when the keys in the map have fewer than four different hashes *)
Definition hashes_in {K V} (hasher : K -> Z) (m : hmap K V) : nat :=
  length (nodup Z.eq_dec (map (fun e => hash_of hasher (de_key e)) (hm_data m))).
Fixpoint run_small {K V} (eqb : K -> K -> bool) (hasher : K -> Z) (default : V) (m : hmap K V) (os : list (hop K V)) : Prop :=
  match os with
  | [] => True
  | o :: os =>
      match o with HSet k _ | HRef k _ _ => In k (map de_key (hm_data m)) \/ (hashes_in hasher m < 4)%nat | _ => True end /\
      match hm_op eqb hasher default m o with Some (Some (m, _)) => run_small eqb hasher default m os | _ => True end
  end.
