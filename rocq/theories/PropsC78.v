(* C78: everything that is read is kept, and everything there is is read. *)
From Coq Require Import List Arith ZArith Bool Lia.
From Verif Require Import DrainSpec DrainModel DrainProof.
Import ListNotations.

(* However the source behaves and however the buffer's capacity develops: the
   memory of the buffer is never overrun; when read_exhaustive returns, the
   buffer holds what it held, followed by exactly the bytes taken from the
   source, in order; their number is what is added to the total; an error is
   the last call's, and never one to be retried; what was read before it is
   there. *)
Theorem C78_nothing_is_lost :
  forall A (w : source A) junk retry fuel i c total (b : buf A),
  lawful w -> size b <= length (cells b) ->
  match read_exhaustive junk w retry fuel i c total b with
  | Going => True
  | Fault => False
  | Done b' c' total' err i' =>
      size b' <= length (cells b') /\ c <= c' /\ total' = total + (c' - c) /\ i < i' /\
      content b' = content b ++ bytes w c (c' - c) /\
      err = fails w (pred i') /\
      match err with Some e => retry e = false | None => True end
  end.
Proof. intros A w junk retry fuel i c total b L W. exact (exhaustive_ok junk w retry L fuel i c total b W). Qed.
Print Assumptions C78_nothing_is_lost.

(* If the source gives all it has, up to what it is asked for, then on success
   all that had arrived by the last call has been read: nothing is left behind
   that would not be announced again. *)
Theorem C78_nothing_is_left :
  forall A (w : source A) junk retry fuel i c total (b b' : buf A) c' total' i',
  lawful w -> willing w -> (forall p q, p <= q -> arrived w p <= arrived w q) ->
  size b <= length (cells b) -> c <= arrived w i ->
  read_exhaustive junk w retry fuel i c total b = Done b' c' total' None i' ->
  c' = arrived w (pred i').
Proof.
  intros A w junk retry fuel i c total b b' c' total' i' L WW M W H R.
  exact (exhaustive_all junk w retry L WW M fuel i c total b b' c' total' i' W H R).
Qed.
Print Assumptions C78_nothing_is_left.

(* It comes to an end if only so much arrives, and from some call on it is not
   interrupted. *)
Theorem C78_reading_ends :
  forall A (w : source A) junk retry last most,
  lawful w -> (forall i, arrived w i <= most) ->
  (forall i e, last <= i -> fails w i = Some e -> retry e = false) ->
  forall i c total (b : buf A), size b <= length (cells b) -> c <= most ->
  exists fuel b' c' total' err i',
    read_exhaustive junk w retry fuel i c total b = Done b' c' total' err i'.
Proof.
  intros A w junk retry last most L Bd R i c total b W H.
  exists (S ((last - i) + (most - c))).
  apply (exhaustive_ends junk w retry L last most Bd R); auto.
Qed.
Print Assumptions C78_reading_ends.

(* read_discard counts what it takes, and on success leaves nothing *)
Theorem C78_discarding :
  forall A (w : source A) fuel i c total c' total' err i',
  lawful w -> read_discard w fuel i c total = Some (c', total', err, i') ->
  c <= c' /\ total' = total + (c' - c) /\ i < i' /\ err = fails w (pred i') /\
  (willing w -> (forall p q, p <= q -> arrived w p <= arrived w q) -> c <= arrived w i ->
   err = None -> c' = arrived w (pred i')).
Proof.
  intros A w fuel i c total c' total' err i' L H.
  destruct (discard_ok w L _ _ _ _ _ _ _ _ H) as (H1 & H2 & H3 & H4). repeat split; auto.
  intros WW M Hc ->. exact (discard_all w L WW M _ _ _ _ _ _ _ Hc H).
Qed.
Print Assumptions C78_discarding.

(* exec of a command that writes N bytes returns, with its exit status, and with
   exactly these bytes after what was in stdout; err is pclose's. *)
Theorem C78_exec_has_the_whole_output :
  forall A (w : source A) junk N pclose errno (b : buf A),
  lawful w -> willing w -> (forall i, arrived w i = N) -> size b <= length (cells b) ->
  exists b' k, exec junk w None pclose errno (S N) b =
      Some (Done b' N (size b') None k, pclose, if Z.eqb pclose (-1) then errno else 0%Z) /\
    size b' <= length (cells b') /\ content b' = content b ++ bytes w 0 N.
Proof.
  intros A w junk N pclose errno b L WW Ar W. exact (exec_whole junk w L WW N Ar pclose errno b W).
Qed.
Print Assumptions C78_exec_has_the_whole_output.

(* A command that cannot be started: the error is returned, the status is -1, and
   nothing is written to stdout. *)
Theorem C78_exec_failing_to_start :
  forall A (w : source A) junk e pclose errno fuel (b : buf A),
  exists r, exec junk w (Some e) pclose errno fuel b = Some (r, (-1)%Z, e) /\
    exists taken sz err k, r = Done b taken sz err k.
Proof. intros. eexists. split; [reflexivity |]. eauto. Qed.
Print Assumptions C78_exec_failing_to_start.

(* A source of 3 bytes in two parts, interrupted at first. *)
Local Definition src : source nat := {|
  byte_at := fun n => n + 10;
  arrived := fun i => if Nat.leb i 1 then 2 else 3;
  fails := fun i => if Nat.eqb i 0 then Some 4%Z else None;
  give := fun _ cap avail => Z.to_nat (Z.min cap (Z.of_nat avail)) |}.

Example src_ok : lawful src /\ willing src /\ (forall p q, p <= q -> arrived src p <= arrived src q).
Proof.
  split; [| split].
  - intros i cap avail. cbn [give src]. lia.
  - intros i cap avail H. cbn [give src]. lia.
  - intros p q H. cbn [arrived src]. destruct (Nat.leb_spec p 1), (Nat.leb_spec q 1); lia.
Qed.

Example src_read :
  read_exhaustive (fun _ => []) src (Z.eqb 4) 5 0 0 0 {| cells := [1; 2; 3]; size := 2; shared := true |}
  = Done {| cells := [1; 2; 10; 11]; size := 4; shared := false |} 2 2 None 2.
Proof. reflexivity. Qed.

(* into the buffer's own spare room *)
Example src_direct :
  match read_exhaustive (fun _ => []) src (Z.eqb 4) 5 0 0 0
          {| cells := [1; 2] ++ repeat 0 1100; size := 2; shared := false |} with
  | Done b' c' total' err i' => content b' = [1; 2; 10; 11] /\ c' = 2 /\ total' = 2 /\ err = None /\ i' = 2
                               /\ length (cells b') = 1102
  | _ => False
  end.
Proof. vm_compute. auto 10. Qed.
