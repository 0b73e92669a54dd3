(** Model of the generic three-way comparison [<>] and of [==], [!=], [<], [>], [<=], [>=]
    (src/prelude.fu:779-850), for every type built from primitives, arrays and structs. *)
From Verif Require Export Common.
Open Scope Z_scope.

(** Types: primitives (an int, bool, byte; a float through its bit pattern - prelude.fu:779-797),
    arrays / views, structs with per field whether the field's type is trivial. *)
Inductive ty := TPrim | TArr (t : ty) | TStruct (fields : list (bool * ty)).

(** Values.  An array carries the address of its first element (m_data). *)
Inductive val := VPrim (z : Z) | VArr (ptr : Z) (l : list val) | VStruct (l : list val).

(** prelude.fu:796: [a < b ? -1 : a > b ? +1 : 0]. *)
Definition prim_cmp (a b : Z) : Z := if a <? b then -1 else if b <? a then 1 else 0.

(** prelude.fu:807-808 [for (i = 0; i < a.len && !cmp; i++) cmp = a[i] <> b[i]];
    None: b[i] out of bounds. *)
Fixpoint arr_loop (f : val -> val -> option Z) (l k : list val) (cmp : Z) : option Z :=
  match l with
  | [] => Some cmp
  | x :: l' =>
      if cmp =? 0 then
        match k with
        | y :: k' => do c <- f x y; arr_loop f l' k' c
        | [] => None
        end
      else Some cmp
  end.

(** prelude.fu:791-831 [<>].  None: ill-typed operands or an out-of-bounds read. *)
Fixpoint cmp (t : ty) (a b : val) {struct t} : option Z :=
  match t with
  | TPrim => match a, b with VPrim x, VPrim y => Some (prim_cmp x y) | _, _ => None end
  | TArr u =>
      match a, b with
      | VArr p l, VArr q k =>
          let c := prim_cmp (Z.of_nat (length l)) (Z.of_nat (length k)) in
          let quick := p =? q in
          if negb quick then arr_loop (cmp u) l k c else Some c
      | _, _ => None
      end
  | TStruct fs =>
      match a, b with
      | VStruct l, VStruct k =>
          let pass := fun triv : bool =>
            (fix go (fs : list (bool * ty)) (l k : list val) : option Z :=
               match fs, l, k with
               | [], _, _ => Some 0
               | (tr, u) :: fs', x :: l', y :: k' =>
                   if Bool.eqb tr triv then
                     do c <- cmp u x y; if c =? 0 then go fs' l' k' else Some c
                   else go fs' l' k'
               | _, _, _ => None
               end) fs l k in
          do c <- pass true;                  (* 819-822 *)
          if c =? 0 then pass false           (* 824-827 *)
          else Some c
      | _, _ => None
      end
  end.

(** prelude.fu:835-841: [==] and [!=] on non-primitives. *)
Definition eq_ (t : ty) (a b : val) : option bool := do c <- cmp t a b; Some (c =? 0).
Definition ne_ (t : ty) (a b : val) : option bool := do c <- cmp t a b; Some (negb (c =? 0)).
(** prelude.fu:846-849: ordering operators on byte arrays. *)
Definition str_lt (a b : val) : option bool := do c <- cmp (TArr TPrim) a b; Some (c <? 0).
Definition str_gt (a b : val) : option bool := do c <- cmp (TArr TPrim) a b; Some (0 <? c).
Definition str_le (a b : val) : option bool := do c <- cmp (TArr TPrim) a b; Some (c <=? 0).
Definition str_ge (a b : val) : option bool := do c <- cmp (TArr TPrim) a b; Some (0 <=? c).

(** prelude.fu:836 [==] on f32 is the C++ operator: IEEE equality, here on bit patterns
    (sign 1, exponent 8, mantissa 23 bits). *)
Definition f32_nan (x : Z) : bool := 0x7f800000 <? Z.land x 0x7fffffff.
Definition f32_zero (x : Z) : bool := Z.land x 0x7fffffff =? 0.
Definition f32_eq (x y : Z) : bool :=
  negb (f32_nan x) && negb (f32_nan y) && ((x =? y) || (f32_zero x && f32_zero y)).
