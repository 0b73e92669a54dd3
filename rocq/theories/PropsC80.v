(* C80: giving every glyph of a font the same box changes no glyph's looks. *)
From Coq Require Import List ZArith NArith Bool Lia.
From Verif Require Import MonoSpec MonoModel MonoProof.
Import ListNotations.
Local Open Scope Z_scope.

(* If the font has no common box yet, and the texels of every glyph are there,
   then no assertion fails and no index is out of bounds; the new box is the
   least that contains the box of every glyph; every glyph has it, with texels
   of its own; and every glyph shows at every point what it showed before. *)
Theorem C80_every_glyph_looks_the_same : forall gs texels,
  gs <> [] ->
  (forall g, In g gs -> proper (gbox g) /\ stored texels g) ->
  let within a b := x_min b <= x_min a /\ y_min b <= y_min a /\ x_max a <= x_max b /\ y_max a <= y_max b in
  exists db gs' texels',
    make_mono_bounds {| x_min := 0; x_max := 0; y_min := 0; y_max := 0 |} gs texels = Some (db, gs', texels') /\
    (forall g, In g gs -> within (gbox g) db) /\
    (forall u, (forall g, In g gs -> within (gbox g) u) -> within db u) /\
    len texels' = Z.of_nat (length gs) * ((x_max db - x_min db) * (y_max db - y_min db)) /\
    length gs' = length gs /\
    forall i g g', nth_error gs i = Some g -> nth_error gs' i = Some g' ->
      gbox g' = db /\ stored texels' g' /\
      forall x y, pixel texels' g' x y = pixel texels g x y.
Proof.
  intros gs texels N H within.
  destruct (make_mono_ok {| x_min := 0; x_max := 0; y_min := 0; y_max := 0 |} gs texels eq_refl N H)
    as (db & gs' & t' & E & W & L & Len & F).
  exists db, gs', t'. split; [exact E |]. unfold contains in W, L. unfold within.
  split; [intros g Hg; specialize (W g Hg); lia |].
  split.
  { intros u Hu. assert (Q := L u). cut (x_min u <= x_min db /\ x_max db <= x_max u /\ y_min u <= y_min db /\ y_max db <= y_max u); [lia |].
    apply Q. intros g Hg. specialize (Hu g Hg). lia. }
  split; [exact Len |].
  split; [clear - F; induction F; cbn; congruence |].
  clear - F. induction F as [| a b l l' P F IH]; intros i g g' E1 E2; destruct i as [| i]; cbn in *; try discriminate.
  - injection E1 as <-. injection E2 as <-. exact P.
  - eapply IH; eauto.
Qed.
Print Assumptions C80_every_glyph_looks_the_same.

(* Doing it again changes nothing, unless all boxes are 0. *)
Theorem C80_twice_is_once : forall cur gs texels db gs' texels',
  make_mono_bounds cur gs texels = Some (db, gs', texels') ->
  ~ (x_min db = 0 /\ x_max db = 0 /\ y_min db = 0 /\ y_max db = 0) ->
  make_mono_bounds db gs' texels' = Some (db, gs', texels').
Proof.
  intros cur gs texels db gs' t' _ N. unfold make_mono_bounds.
  destruct (truthy db) eqn:T; [reflexivity |]. exfalso. apply N. unfold truthy in T.
  apply negb_false_iff in T. rewrite !andb_true_iff, !Z.eqb_eq in T. tauto.
Qed.
Print Assumptions C80_twice_is_once.

(* each visits the glyphs of a font without a common box, and after the call the
   new glyphs, as many, all their texels there; unless the common box is empty
   it does so whatever is in the glyph array, which is no longer needed.  count
   says how many. *)
Theorem C80_each_visits_the_same_glyphs : forall gs texels db gs' texels',
  let none := {| x_min := 0; x_max := 0; y_min := 0; y_max := 0 |} in
  gs <> [] ->
  (forall g, In g gs -> proper (gbox g) /\ stored texels g) ->
  make_mono_bounds none gs texels = Some (db, gs', texels') ->
  each none gs texels = Some gs /\ count none gs texels = Z.of_nat (length gs) /\
  each db gs' texels' = Some gs' /\ count db gs' texels' = Z.of_nat (length gs) /\
  ((x_max db - x_min db) * (y_max db - y_min db) <> 0 ->
   forall any, each db any texels' = Some gs' /\ count db any texels' = Z.of_nat (length gs)).
Proof.
  intros gs texels db gs' t' none N H E.
  destruct (each_glyphs none gs texels eq_refl H) as [A B].
  destruct (each_mono none gs texels db gs' t' eq_refl N H E) as (P & Q & R).
  split; [exact A |]. split; [exact B |]. split; [exact P |]. split; [exact Q |]. exact R.
Qed.
Print Assumptions C80_each_visits_the_same_glyphs.

(* An empty font has no glyphs to visit, count says 0, and it
   stays empty. *)
Theorem C80_empty_font : forall texels,
  let none := {| x_min := 0; x_max := 0; y_min := 0; y_max := 0 |} in
  each none [] texels = Some [] /\ count none [] texels = 0 /\
  exists texels', make_mono_bounds none [] texels = Some (none, [], texels') /\ len texels' = 0.
Proof.
  intros texels none. split; [reflexivity |]. split; [reflexivity |].
  eexists. split; reflexivity.
Qed.
Print Assumptions C80_empty_font.

Local Definition mem_of (l : list N) : mem :=
  {| len := Z.of_nat (length l); at_ := fun i => nth (Z.to_nat i) l 0%N |}.
Local Definition bx a b c d : box := {| x_min := a; x_max := b; y_min := c; y_max := d |}.

(* a comma-like and a dash-like glyph, and a space *)
Local Definition ex_glyphs : list glyph :=
  [ {| gbox := bx 0 0 0 0; top_left := 0 |};
    {| gbox := bx 1 2 (-1) 1; top_left := 0 |};
    {| gbox := bx 0 3 1 2; top_left := 2 |} ].
Local Definition ex_texels : mem := mem_of [7; 8; 1; 2; 3]%N.

Example ex_hyp : ex_glyphs <> [] /\ forall g, In g ex_glyphs -> proper (gbox g) /\ stored ex_texels g.
Proof.
  split; [discriminate |]. intros g H. cbn in H.
  decompose [or] H; try contradiction; subst; unfold proper, stored; cbn; lia.
Qed.

Example ex_result :
  match make_mono_bounds (bx 0 0 0 0) ex_glyphs ex_texels with
  | Some (db, gs, m) =>
      db = bx 0 3 (-1) 2 /\ map top_left gs = [0; 9; 18] /\
      map (fun i => at_ m (Z.of_nat i)) (seq 0 27) =
        [0;0;0; 0;0;0; 0;0;0;
         0;0;0; 0;7;0; 0;8;0;
         1;2;3; 0;0;0; 0;0;0]%N
  | None => False
  end.
Proof. vm_compute. repeat split; reflexivity. Qed.

Example ex_each :
  match make_mono_bounds (bx 0 0 0 0) ex_glyphs ex_texels with
  | Some (db, gs, m) => each db [] m = Some gs /\ count db [] m = 3
  | None => False
  end.
Proof. vm_compute. split; reflexivity. Qed.
