(* What a bitmap glyph shows at a point.  Nothing here depends on the library. *)
From Coq Require Import List ZArith NArith Bool.

(* a box: x from x_min up to but not including x_max, y likewise, y upwards *)
Record box := { x_min : Z; x_max : Z; y_min : Z; y_max : Z }.

Definition proper (b : box) : Prop := (x_min b <= x_max b /\ y_min b <= y_max b)%Z.

Definition inside (b : box) (x y : Z) : bool :=
  (Z.leb (x_min b) x && Z.ltb x (x_max b) && Z.leb (y_min b) y && Z.ltb y (y_max b))%bool.

(* texels: how many, and what they are *)
Record mem := { len : Z; at_ : Z -> N }.

(* a glyph: its box, and where its top left texel is *)
Record glyph := { gbox : box; top_left : Z }.

(* what is shown at (x, y): the rows of the glyph are stored from the top down,
   each from left to right; nothing outside its box *)
Definition pixel (m : mem) (g : glyph) (x y : Z) : N :=
  let b := gbox g in
  if inside b x y
  then at_ m (top_left g + (y_max b - 1 - y) * (x_max b - x_min b) + (x - x_min b))
  else 0%N.

(* the texels of the glyph are there *)
Definition stored (m : mem) (g : glyph) : Prop :=
  (0 <= top_left g /\
   top_left g + (x_max (gbox g) - x_min (gbox g)) * (y_max (gbox g) - y_min (gbox g)) <= len m)%Z.
