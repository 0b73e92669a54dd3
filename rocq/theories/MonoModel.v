(* Model of make_mono_bounds, lib/ui/BitmapFont.fu:42-92, with the boxes of
   lib/ui/Font.fu:2-9.  Coordinates are not limited to 16 bits. *)
From Coq Require Import List ZArith NArith Bool.
From Verif Require Import MonoSpec.
Import ListNotations.
Local Open Scope Z_scope.

(* lib/ui/Font.fu:7-9 *)
Definition width (b : box) : Z := x_max b - x_min b.
Definition height (b : box) : Z := y_max b - y_min b.
Definition stride (b : box) : Z := width b * height b.

(* a box counts as true if a field is not 0 (43, 47) *)
Definition truthy (b : box) : bool :=
  negb (Z.eqb (x_min b) 0 && Z.eqb (x_max b) 0 && Z.eqb (y_min b) 0 && Z.eqb (y_max b) 0).

(* the first glyph with a box, else the last (46-49) *)
Fixpoint first_box (cur : box) (gs : list glyph) : box :=
  match gs with
  | [] => cur
  | g :: r => if truthy (gbox g) then gbox g else first_box (gbox g) r
  end.

(* 51-56 *)
Definition widen (b : box) (g : glyph) : box :=
  {| x_min := Z.min (x_min b) (x_min (gbox g));
     y_min := Z.min (y_min b) (y_min (gbox g));
     x_max := Z.max (x_max b) (x_max (gbox g));
     y_max := Z.max (y_max b) (y_max (gbox g)) |}.

(* indexing a byte[] (86): None out of bounds *)
Definition get (m : mem) (i : Z) : option N :=
  if (Z.leb 0 i && Z.ltb i (len m))%bool then Some (at_ m i) else None.
Definition put (m : mem) (i : Z) (v : N) : option mem :=
  if (Z.leb 0 i && Z.ltb i (len m))%bool
  then Some {| len := len m; at_ := fun j => if Z.eqb j i then v else at_ m j |}
  else None.

(* for x: dest_texels[dest_offset + x] = src_texels[src_offset + x] (85-86) *)
Fixpoint copy_row (n : nat) (src : mem) (so d : Z) (dest : mem) : option mem :=
  match n with
  | O => Some dest
  | S n' =>
      match get src so with
      | None => None
      | Some v =>
          match put dest d v with
          | None => None
          | Some dest' => copy_row n' src (so + 1) (d + 1) dest'
          end
      end
  end.

(* for y (84-90) *)
Fixpoint copy_rows (h : nat) (src_w dest_w : Z) (src : mem) (so d : Z) (dest : mem) : option mem :=
  match h with
  | O => Some dest
  | S h' =>
      match copy_row (Z.to_nat src_w) src so d dest with
      | None => None
      | Some dest' => copy_rows h' src_w dest_w src (so + src_w) (d + dest_w) dest'
      end
  end.

(* one glyph (69-91); None if an assertion fails or an index is out of bounds *)
Definition move_glyph (db : box) (src : mem) (i : Z) (g : glyph) (dest : mem) : option (glyph * mem) :=
  let dest_stride := stride db in
  let dest_w := Z.max (width db) 0 in
  let dest_h := Z.max (height db) 0 in
  let sb := gbox g in
  let src_offset := top_left g in
  let top_left' := i * dest_stride in
  let left := x_min sb - x_min db in
  let top := y_max db - y_max sb in
  let src_w := Z.max (width sb) 0 in
  let src_h := Z.max (height sb) 0 in
  if (Z.leb 0 left && Z.leb 0 top && Z.leb src_w dest_w && Z.leb src_h dest_h)%bool then
    match copy_rows (Z.to_nat src_h) src_w dest_w src src_offset (top_left' + (top * dest_w + left)) dest with
    | None => None
    | Some dest' => Some ({| gbox := db; top_left := top_left' |}, dest')
    end
  else None.

(* each (69-91) *)
Fixpoint move_glyphs (db : box) (src : mem) (i : Z) (gs : list glyph) (dest : mem)
  : option (list glyph * mem) :=
  match gs with
  | [] => Some ([], dest)
  | g :: r =>
      match move_glyph db src i g dest with
      | None => None
      | Some (g', dest') =>
          match move_glyphs db src (i + 1) r dest' with
          | None => None
          | Some (r', dest'') => Some (g' :: r', dest'')
          end
      end
  end.

(* make_mono_bounds (42-92): the new box, glyphs and texels; resize gives zeros *)
Definition make_mono_bounds (cur : box) (gs : list glyph) (texels : mem) : option (box * list glyph * mem) :=
  if truthy cur then Some (cur, gs, texels)
  else
    let db := fold_left widen gs (first_box cur gs) in
    match move_glyphs db texels 0 gs
            {| len := Z.of_nat (length gs) * stride db; at_ := fun _ => 0%N |} with
    | None => None
    | Some (gs', dest) => Some (db, gs', dest)
    end.

(* each (lib/ui/BitmapFont.fu:22-40): the glyphs its argument is called with, in
   order; None if an index or the slice of the texels is out of bounds *)
Fixpoint each_from (n : nat) (i : Z) (mb : box) (gs : list glyph) (texels : mem) : option (list glyph) :=
  match n with
  | O => Some []
  | S n' =>
      match (if Z.eqb (stride mb) 0 then nth_error gs (Z.to_nat i)
             else Some {| gbox := mb; top_left := i * stride mb |}) with
      | None => None
      | Some g =>
          if (Z.leb 0 (top_left g) && Z.leb (top_left g) (top_left g + stride (gbox g)) &&
              Z.leb (top_left g + stride (gbox g)) (len texels))%bool
          then match each_from n' (i + 1) mb gs texels with
               | None => None
               | Some r => Some (g :: r)
               end
          else None
      end
  end.

(* 23-27 *)
Definition glyph_count (mb : box) (gs : list glyph) (texels : mem) : Z :=
  if Z.eqb (stride mb) 0 then Z.of_nat (length gs) else Z.quot (len texels) (stride mb).

Definition each (mb : box) (gs : list glyph) (texels : mem) : option (list glyph) :=
  each_from (Z.to_nat (glyph_count mb gs texels)) 0 mb gs texels.

(* count (17-20): the count handed to the first call, 0 if there is none *)
Definition count (mb : box) (gs : list glyph) (texels : mem) : Z :=
  if Z.ltb 0 (glyph_count mb gs texels) then glyph_count mb gs texels else 0.
