(** Model of src/intlit.fu.  Text is a list of bytes (Z); u64s are Z; None is an index out of bounds. *)
From Verif Require Export Words.
Open Scope Z_scope.

Record intlit := {
  base : Z; minsize_i : Z; minsize_u : Z; minsize_f : Z;
  is_signed : bool; is_unsigned : bool; is_negative : bool;
  absval : Z;
  err : option nat   (* which message: 0 overflow, 1 ambiguous, 2 oversized signed, 3 oversized unsigned *)
}.

(** [error ||= e] *)
Definition or_else (a b : option nat) : option nat := match a with Some _ => a | None => b end.

(** intlit.fu:78-125: the second constructor. *)
Definition intlit_of (abs : Z) (neg : bool) (e : option nat) (uns sig : bool) (b : Z) : intlit :=
  let e := or_else e (if sig && uns then Some 1%nat else None) in
  let sizeval := if neg && negb (abs =? 0) then wsub 64 abs 1 else abs in
  let mi := if sizeval <? 128 then 8 else if sizeval <? 32768 then 16
            else if sizeval <? 2147483648 then 32 else if sizeval <? 9223372036854775808 then 64 else 128 in
  let mu := if neg then 255 else if abs <? 256 then 8 else if abs <? 65536 then 16
            else if abs <? 4294967296 then 32 else 64 in
  let mf := if abs <? 16777216 then 32 else 64 in
  let e := or_else e (if sig then (if 64 <? mi then Some 2%nat else None) else (if 64 <? mu then Some 3%nat else None)) in
  {| base := wrap 8 b; minsize_i := mi; minsize_u := mu; minsize_f := mf;
     is_signed := sig; is_unsigned := uns; is_negative := neg; absval := abs; err := e |}.

(** intlit.fu:49-67: the digit loop. *)
Fixpoint digits_loop (value : list Z) (b : Z) (abs : Z) (e : option nat) : Z * option nat :=
  match value with
  | [] => (abs, e)
  | c :: v =>
      if c =? 95 then digits_loop v b abs e
      else
        let ci := if c <? 97 then wsub 64 c 48 else wadd 64 (wsub 64 c 97) 10 in
        let last := abs in
        let abs := wadd 64 (wmul 64 abs b) ci in
        digits_loop v b abs (if last =? abs / b then e else or_else e (Some 0%nat))
  end.

(** intlit.fu:26-76: the first constructor. *)
Definition intlit_parse (text : list Z) : option intlit :=
  do c_sign <- nth_error text 0;
  let has_sign := (c_sign =? 45) || (c_sign =? 43) in
  let pvs := if has_sign then skipn 1 text else text in
  let c_prefix := if (1 <? length pvs)%nat then nth 1 pvs 0 else 0 in
  let prefix := if ((c_prefix =? 120) || (c_prefix =? 111) || (c_prefix =? 98)) && (nth 0 pvs 0 =? 48) then c_prefix else 0 in
  let vs := if prefix =? 0 then pvs else skipn 2 pvs in
  let c_suffix := last vs 0 in
  let suffix := if c_suffix =? 117 then c_suffix else 0 in
  let value := if suffix =? 0 then vs else removelast vs in
  let b := if prefix =? 120 then 16 else if prefix =? 111 then 8 else if prefix =? 98 then 2 else 10 in
  let '(abs, e) := digits_loop value b 0 None in
  let uns := suffix =? 117 in
  let neg := has_sign && (c_sign =? 45) in
  Some (intlit_of abs neg e uns (neg || (suffix =? 105)) b).
