(** What lifetimes mean, and how they are written. *)
From Verif Require Export LifetimeModel.
From Coq Require Export Sorted.
Open Scope Z_scope.

(** A place: the slot taken at each level, following a reference from one level to the next.  A path covers the
    places whose slots are in its ranges, and all that can be reached from them. *)
Definition place := list Z.
Fixpoint covers (p : path) (x : place) : Prop :=
  match p, x with
  | [], _ => True
  | s :: p, y :: x => flatOffset s <= y < flatOffset s + flatCount s /\ covers p x
  | _ :: _, [] => False
  end.
(** A path goes through one slot per level and ends in a range. *)
Definition sub_ok (s : subregion) : Prop := 0 <= flatOffset s < 2 ^ 31 /\ 0 < flatCount s < 2 ^ 31 - flatOffset s.
Fixpoint path_ok (p : path) : Prop :=
  match p with
  | [] => False
  | [s] => sub_ok s
  | s :: p' => sub_ok s /\ flatCount s = 1 /\ path_ok p'
  end.

(** A lifetime: regions, each with paths into it, or None: all of it. *)
Definition region := (Z * option (list path))%type.
Definition inside (L : list region) (r : Z) (x : place) : Prop :=
  exists c, In (r, c) L /\ match c with None => True | Some ps => exists p, In p ps /\ covers p x end.
Definition region_ok (g : region) : Prop :=
  word 32 (fst g) /\ match snd g with None => True | Some ps => ps <> [] /\ Forall path_ok ps end.

(** The order of regions: the temporary, then arguments and locals from the innermost out, then the negative locids
    (arguments seen as locals), then statics. *)
Definition class (r : Z) : Z :=
  if r =? 9 then 0 else if Z.land r 11 =? 1 then 3 else if r mod 4 =? 2 then 2 else 1.
Definition before (a b : Z) : Prop :=
  class a < class b \/ class a = class b /\ (if class a =? 2 then a < b else b < a).
Definition lifetime_ok (L : list region) : Prop :=
  Forall region_ok L /\ StronglySorted (fun g h => before (fst g) (fst h)) L.

(** ** Bytes.  A number: seven bits at a time, the low ones first, the top bit set on all but the last byte. *)
Inductive num7 : Z -> list Z -> Prop :=
| num7_last v : 0 <= v < 128 -> num7 v [v]
| num7_more v bs : 128 <= v -> num7 (v / 128) bs -> num7 v (128 + v mod 128 :: bs).
(** A path: the offsets of its levels, marked (the low bit) where another level follows; then the size of the last
    range, marked where another path follows. *)
Inductive path_bytes (lastPath : bool) : path -> list Z -> Prop :=
| pb_last s bo bc : num7 (2 * flatOffset s) bo -> num7 (2 * flatCount s + if lastPath then 0 else 1) bc ->
    path_bytes lastPath [s] (bo ++ bc)
| pb_more s p bo bs : num7 (2 * flatOffset s + 1) bo -> path_bytes lastPath p bs -> path_bytes lastPath (s :: p) (bo ++ bs).
Inductive paths_bytes : list path -> list Z -> Prop :=
| psb_last p bs : path_bytes true p bs -> paths_bytes [p] bs
| psb_more p ps bs cs : path_bytes false p bs -> paths_bytes ps cs -> paths_bytes (p :: ps) (bs ++ cs).
Definition content_bytes (c : option (list path)) (bs : list Z) : Prop :=
  match c with None => bs = SR_empty | Some ps => paths_bytes ps bs end.
Inductive lifetime_bytes : list region -> list Z -> Prop :=
| lb_nil : lifetime_bytes [] []
| lb_cons r c L br bc bs : num7 r br -> content_bytes c bc -> lifetime_bytes L bs ->
    lifetime_bytes ((r, c) :: L) (br ++ bc ++ bs).
(** The string [s] stands for the lifetime [L]. *)
Definition is_lifetime (s : list Z) (L : list region) : Prop := lifetime_bytes L s /\ lifetime_ok L.

(** ** Aliasing.  A reference with a path and usage masks for the last range, slot by slot (modulo 29): what it may
    read, what it may write.  Without masks: everything. *)
Fixpoint touches (p : path) (mask : option Z) (x : place) : Prop :=
  match p, x with
  | [s], y :: _ => flatOffset s <= y < flatOffset s + flatCount s /\
      match mask with None => True | Some m => Z.testbit m (3 + (y - flatOffset s) mod 29) = true end
  | s :: p, y :: x => flatOffset s <= y < flatOffset s + flatCount s /\ touches p mask x
  | _, _ => False
  end.
