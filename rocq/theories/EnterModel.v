(** * C76: what is to be done on entry to a loop.

    src/codegen.fu:3187-3247 (cgLoop: preheaders).  A loop with something to be
    done on entry is rewritten into a block with a loop without; the code is then
    that of the block (C75).  The generator rewrites a loop when it gets to it,
    here it is done before.

    What is to be done is a block [(Some h, ss)], a block whose name nothing
    jumps to [(None, ss)], or another statement [(None, [x])]. *)

From Coq Require Import List Arith Bool.
From Verif Require Import LoopSpec.
Import ListNotations.

Section Enter.

Variable W : Type.

(** 3198-3203: a statement that is not a block becomes one, keeping its
    [helpers]: those of a jump are what it jumps to *)
Definition pre_label (hp : option nat) (ss : list (st W)) : option nat :=
  match hp, ss with
  | None, [Jump h] => Some h
  | None, [Loop h _ _ _ _ _ _ _] => Some h
  | _, _ => hp
  end.

Definition init_st (init : option (W -> W)) : list (st W) :=
  match init with Some f => [Act f] | None => [] end.

(** 3205-3246 ([None] is [BUG]) *)
Definition lower_loop (h : nat) (init : option (W -> W)) (c : option (cond W)) (lb : option nat) (ss : list (st W))
    (hb : option nat) (body : list (st W)) (post : option (W -> W)) (until : option (cond W)) : option (st W) :=
  match c, until with
  | Some _, Some _ => None
  | Some c, None =>
      Some (Block lb (init_st init ++
        [If c lb (ss ++ [Loop h None None None hb body post (Some c)]) None []]))
  | None, _ =>
      Some (Block lb (init_st init ++ ss ++ [Loop h None None None hb body post until]))
  end.

Fixpoint lower (x : st W) : option (st W) :=
  let fix lowers (ss : list (st W)) : option (list (st W)) :=
    match ss with
    | [] => Some []
    | x :: ss => match lower x, lowers ss with Some x, Some ss => Some (x :: ss) | _, _ => None end
    end in
  match x with
  | If c ha a hb b =>
      match lowers a, lowers b with Some a, Some b => Some (If c ha a hb b) | _, _ => None end
  | Block h ss => match lowers ss with Some ss => Some (Block h ss) | None => None end
  | Loop h init c pre hb body post until =>
      match lowers body with
      | None => None
      | Some body' =>
          match pre with
          | None => Some (Loop h init c None hb body' post until)
          | Some (hp, ss) =>
              match lowers ss with
              | None => None
              | Some ss' => lower_loop h init c (pre_label hp ss) ss' hb body' post until
              end
          end
      end
  | x => Some x
  end.

Fixpoint lowers (ss : list (st W)) : option (list (st W)) :=
  match ss with
  | [] => Some []
  | x :: ss => match lower x, lowers ss with Some x, Some ss => Some (x :: ss) | _, _ => None end
  end.

End Enter.

Arguments pre_label {W}. Arguments init_st {W}. Arguments lower_loop {W}. Arguments lower {W}. Arguments lowers {W}.
