(* C77: the jumps the compiler removes as redundant are redundant. *)
Require Import List Arith Bool Lia.
From Verif Require Import JumpSpec JumpModel JumpProof.

(* The simplified body of a function does what the body did, in every state and
   whatever its operations do: same state afterwards, same value.  Missing from
   the full claim (all programs): a jump whose expression itself jumps out, less
   far than the jump it is in -- see C77_return_or_continue_refuted. *)
Theorem C77_simplified_does_the_same_partial :
  forall e, program e -> outward e -> same e (simplify e).
Proof. exact simplify_same. Qed.
Print Assumptions C77_simplified_does_the_same_partial.

(* No block of the simplified body ends in a jump to its own end. *)
Theorem C77_no_jump_to_own_end :
  forall e, program e -> tidy (simplify e).
Proof. exact simplify_tidy. Qed.
Print Assumptions C77_no_jump_to_own_end.

(* fn f() { while (..) { if (a) { continue; }  a || continue;  if (b) return x; else continue; }
            return { a; if (b) break y; else { :k { if (a) break :k z; break w; } } } }
   with `break` to the block of the return *)
Local Definition a_ := Op 1 Empty Empty.
Local Definition b_ := Op 2 Empty Empty.
Local Definition example : ex :=
  Block 0 ValueFn
    (Seq (Rep 0 (Block 1 Plain
            (Seq (If a_ (Block 2 Plain (Jump 1 Empty)) Empty)
            (Seq (Or a_ (Jump 1 Empty))
                 (If b_ (Jump 0 (Op 3 Empty Empty)) (Jump 1 Empty))))))
         (Jump 0 (Block 3 Plain
            (Seq a_
                 (If b_ (Jump 3 (Op 4 Empty Empty))
                        (Block 4 Plain
                           (Seq (If a_ (Jump 4 (Op 5 Empty Empty)) Empty)
                                (Jump 3 (Op 6 Empty Empty))))))))).

Example example_ok : program example /\ outward example.
Proof.
  unfold program. cbn. repeat split; try lia; try tauto.
Qed.

(* what is left: the continues at the end of the loop's body and the block of
   the return are gone, and the return is moved into the branches *)
Example example_simplified : simplify example =
  Block 0 ValueFn
    (Seq (Rep 0 (Block 1 Plain
            (Seq (If a_ (Jump 1 Empty) Empty)
                 (If a_ (If b_ (Jump 0 (Op 3 Empty Empty)) Empty) Empty))))
         (Seq a_
              (If b_ (Jump 0 (Op 4 Empty Empty))
                     (Block 4 Plain
                        (Seq (If a_ (Jump 0 (Op 5 Empty Empty)) Empty)
                             (Jump 0 (Op 6 Empty Empty))))))).
Proof. reflexivity. Qed.

(* fn f() { while (..) return c ? x : continue;  y } : the `continue` is taken
   to be redundant and dropped, and f returns nothing instead of going on. *)
Local Definition bad : ex :=
  Block 0 ValueFn
    (Seq (Rep 0 (Block 1 Plain (Jump 0 (If (Op 0 Empty Empty) (Op 3 Empty Empty) (Jump 1 Empty)))))
         (Op 5 Empty Empty)).

Theorem C77_return_or_continue_refuted :
  ~ (forall e, program e -> same e (simplify e)).
Proof.
  intro H.
  assert (P : program bad) by (unfold program; cbn; repeat split; try lia; try tauto).
  specialize (H bad P unit nat (fun n _ _ s => (s, n)) (fun v => negb (Nat.eqb v 0)) 0 (fun _ _ => 3) tt).
  cbn in H. discriminate.
Qed.
Print Assumptions C77_return_or_continue_refuted.

Example bad_simplified : simplify bad =
  Block 0 ValueFn
    (Seq (Rep 0 (If (Op 0 Empty Empty) (Jump 0 (Op 3 Empty Empty)) (Jump 0 Empty)))
         (Op 5 Empty Empty)).
Proof. reflexivity. Qed.
