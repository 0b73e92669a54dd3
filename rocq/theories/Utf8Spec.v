(** UTF-8, from the definition: the value bits spread over a lead byte and continuation bytes. *)
From Verif Require Export Utf8Model.
Open Scope Z_scope.

Definition cont_byte (b : Z) : Prop := 128 <= b < 192.
(** [shape bs c]: bs is a lead byte followed by the continuation bytes it announces, and carries c. *)
Inductive shape : list Z -> Z -> Prop :=
| sh1 c : 0 <= c < 128 -> shape [c] c
| sh2 a b : 192 <= a < 224 -> cont_byte b -> shape [a; b] ((a - 192) * 64 + (b - 128))
| sh3 a b d : 224 <= a < 240 -> cont_byte b -> cont_byte d ->
    shape [a; b; d] ((a - 224) * 4096 + (b - 128) * 64 + (d - 128))
| sh4 a b d e : 240 <= a < 248 -> cont_byte b -> cont_byte d -> cont_byte e ->
    shape [a; b; d; e] ((a - 240) * 262144 + (b - 128) * 4096 + (d - 128) * 64 + (e - 128)).
(** The shortest form: the length the code point needs. *)
Definition needs (c : Z) : nat :=
  if c <? 128 then 1%nat else if c <? 2048 then 2%nat else if c <? 65536 then 3%nat else 4%nat.
Definition valid (bs : list Z) (c : Z) : Prop := shape bs c /\ length bs = needs c /\ c < 1114112.

(** The events of reading the given sequences one after another, the first starting at position i:
    each(c, position of the sequence's last byte). *)
Fixpoint reads (i : nat) (l : list (list Z * Z)) : list event :=
  match l with
  | [] => []
  | (bs, c) :: l' => Each c (i + length bs - 1) :: reads (i + length bs) l'
  end.
