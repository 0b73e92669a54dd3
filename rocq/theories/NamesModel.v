(** Model of how the code generator names locals: src/codegen.fu:890-949 localID, 684-722 xHH and
    valid_identifier, src/cpp.fu:6-41 KEYWORDS and ID; and of where the declarations go:
    codegen.fu:1005-1022 and 1095-1117 cgBlock (hoisting, _ids_used), 1715-1762 binding, 1937-1957 cgLet,
    2655-2675 (uses), 2715-2721 rootNS, 3238-3315 cgLoop, 3317-3344 cgTryCatch, 3746-3768
    TEMPVAR_declare, 3817-3855 cgNodes.  Only names: types, values and control flow are left out. *)
From Coq Require Import String Ascii List ZArith Bool Lia.
From Verif Require Import LexerSpec DecModel LitModel NamesSpec.
Import ListNotations.
Notation length := List.length.
Open Scope Z_scope.

(** cpp.fu:6-26; the table is indexed by length there. *)
Definition KEYWORDS : list name := words ""
  "do if or and asm for int new not try xor auto bool case char else enum goto long this true void bitor break catch class compl const false float or_eq short throw union using while and_eq bitand delete double export extern friend inline not_eq public return signed sizeof static struct switch typeid xor_eq alignas alignof char8_t concept default mutable nullptr private typedef virtual wchar_t char16_t char32_t continue co_await co_yield decltype explicit noexcept operator reflexpr register requires template typename unsigned volatile consteval constexpr constinit co_return namespace protected const_cast static_cast dynamic_cast synchronized thread_local atomic_cancel atomic_commit static_assert atomic_noexcept reinterpret_cast".
(** ascii::upper *)
Definition upper (c : Z) : Z := if (97 <=? c) && (c <=? 122) then c - 32 else c.
(** cpp.fu:28-41 *)
Definition ID (id : name) : name :=
  if in_dec name_eq id KEYWORDS then
    match id with a :: b :: t => a :: upper b :: t | _ => id end
  else id.

(** codegen.fu:706-722; the loop runs from the end, and what it writes is not looked at again. *)
Definition is_id_char (c : Z) : bool :=
  (97 <=? c) && (c <=? 122) || (65 <=? c) && (c <=? 90) || (48 <=? c) && (c <=? 57) || (c =? 95).
Definition valid_identifier (str : name) : name := ID (flat_map (fun c => if is_id_char c then [c] else xHH c) str).

(** [~ n] for a counter: fu::i64dec; counters are nat here (i32 in the code). *)
Definition dec (n : nat) : list Z := match u64dec_loop (S n) (Z.of_nat n) [] with Some s => s | None => [] end.

(** The solved tree, as far as names go. *)
Inductive expr :=
| ENop | ESeq (a b : expr)
| EUse (l : Z)                                (** a local or an argument *)
| EGlob (g : name)                            (** a global variable or a function *)
| ELet (l : Z) (i : expr)                     (** a let in an expression *)
| ETemp (e : expr)                            (** an expression that needs a TEMPVAR *)
| ESub (hs : list Z) (v : bool) (b : stmts)   (** a block: the locals in its lifetime, whether it has a value *)
with stmts :=
| SNil
| SExp (e : expr) (r : stmts)
| SLet (l : Z) (i : expr) (r : stmts)
| SFor (d : option Z) (i : expr) (b r : stmts)   (** [i]: the init of [d], the conditions, the post; then the body *)
| STry (a : stmts) (err : option Z) (b r : stmts).

(** codegen.fu:169-192 cg_CurrentFn.  _ids_dedupe_p and _ids_dedupe_n are one map on locids; 0 is absent. *)
Record st := { used : list name; dup : Z -> nat; declared : list Z; hoisted : list Z; temps : nat; labels : nat }.
Definition set_used u (s : st) : st := {| used := u; dup := dup s; declared := declared s; hoisted := hoisted s; temps := temps s; labels := labels s |}.

(** codegen.fu:914-918 *)
Definition candidate (id : name) (dupes : nat) : name := match dupes with O => id | _ => id ++ text "_" ++ dec dupes end.
(** codegen.fu:912-931.  A round per used name is enough (proved: [pick_free]). *)
Fixpoint pick (fuel : nat) (us : list name) (id : name) (dupes : nat) : nat :=
  match fuel with
  | O => dupes
  | S f => if in_dec name_eq (candidate id dupes) us then pick f us id (S dupes) else dupes
  end.

Section Names.
(** The names of the locals in the program (CLOSURE-ID-HACK already undone: 896-899). *)
Variable src : Z -> name.

(** codegen.fu:901 *)
Definition base (l : Z) : name := valid_identifier (ID (src l)).
(** codegen.fu:939-945: no dedupe *)
Definition name_of (s : st) (l : Z) : name := candidate (base l) (dup s l).
(** codegen.fu:909-937: dedupe.  The map is written only if dupes is not 0. *)
Definition dedupe (s : st) (l : Z) : st :=
  let d := pick (S (length (used s))) (used s) (base l) 0 in
  {| used := used s ++ [candidate (base l) d];
     dup := fun x => if x =? l then (match d with O => dup s l | _ => d end) else dup s x;
     declared := declared s; hoisted := hoisted s; temps := temps s; labels := labels s |}.
(** codegen.fu:1002-1003 isHoistable *)
Definition isHoistable (l : Z) : bool := 0 <? l.
Definition has (l : Z) (ls : list Z) : bool := if in_dec Z.eq_dec l ls then true else false.
(** codegen.fu:1922-1932 set_isHoisted *)
Definition set_isHoisted (s : st) (l : Z) : st :=
  {| used := used s; dup := dup s; declared := declared s; hoisted := l :: hoisted s; temps := temps s; labels := labels s |}.
(** codegen.fu:1727-1762 binding: whether the local is to be declared at all, and whether as a TEMPVAR. *)
Definition binding (s : st) (l : Z) : bool * bool * st :=
  let already := isHoistable l && has l (declared s) in
  let s1 := if isHoistable l && negb already then {| used := used s; dup := dup s; declared := l :: declared s; hoisted := hoisted s; temps := temps s; labels := labels s |} else s in
  let s2 := if already then s1 else dedupe s1 l in
  let h := isHoistable l && has l (hoisted s) in
  (negb (h && already), h, s2).

Definition tempvar (k : nat) : name := text "_" ++ dec k.
Definition blockvar (k : nat) : name := text "BL_" ++ dec k ++ text "_v".

(** codegen.fu:1011-1022: the locals hoisted before a block; the result: their declarations, first to last *)
Fixpoint hoist (s : st) (hs : list Z) : list (name * entity) * st :=
  match hs with
  | [] => ([], s)
  | l :: hs =>
      if isHoistable l && negb (has l (declared s)) then
        let '(_, _, s1) := binding (set_isHoisted s l) l in
        let '(p, s2) := hoist s1 hs in ((name_of s1 l, ELocal l) :: p, s2)
      else hoist s hs
  end.
Fixpoint decls (p : list (name * entity)) (r : cstmts) : cstmts :=
  match p with [] => r | (n, e) :: p => CDecl n e (decls p r) end.

(** The head of a [for] (3287), and the catch variable (3325: not through binding). *)
Definition for_head (s : st) (d : option Z) : option (name * entity) * list (name * entity) * st :=
  match d with
  | None => (None, [], s)
  | Some l => let '(new, h, s1) := binding s l in let n := name_of s1 l in
              if h then (None, if new then [(n, ELocal l)] else [], s1) else (Some (n, ELocal l), [], s1)
  end.
Definition err_head (s : st) (err : option Z) : list (name * entity) * st :=
  match err with
  | None => ([], s)
  | Some l => let s1 := dedupe s l in ([(name_of s1 l, ELocal l)], s1)
  end.

(** cgNode of an expression: the text, the TEMPVARs it leaves, the state.
    cgNodes of statements: each one's TEMPVARs go before it (3843-3847). *)
Fixpoint gen_e (s : st) (e : expr) : cexpr * list (name * entity) * st :=
  match e with
  | ENop => (CNop, [], s)
  | ESeq a b =>
      let '(ca, pa, s1) := gen_e s a in let '(cb, pb, s2) := gen_e s1 b in (CSeq ca cb, pa ++ pb, s2)
  | EUse l => (CName (name_of s l) (ELocal l), [], s)
  | EGlob g => (if in_dec name_eq g (used s) then CRoot g (EGlobal g) else CName g (EGlobal g), [], s)
  | ELet l i =>
      (** 1951-1954: hoisted; then binding, and the init last *)
      let '(new, _, s1) := binding (set_isHoisted s l) l in
      let n := name_of s1 l in
      let '(ci, pi, s2) := gen_e s1 i in
      (CSeq (CName n (ELocal l)) ci, (if new then [(n, ELocal l)] else []) ++ pi, s2)
  | ETemp e =>
      let n := tempvar (temps s) in
      let '(ce, pe, s1) := gen_e {| used := used s; dup := dup s; declared := declared s; hoisted := hoisted s; temps := S (temps s); labels := labels s |} e in
      (CSeq ce (CName n (EHelper n)), (n, EHelper n) :: pe, s1)
  | ESub hs v b =>
      let '(ph, s1) := hoist s hs in
      let n := blockvar (labels s1) in
      let s2 := {| used := used s1; dup := dup s1; declared := declared s1; hoisted := hoisted s1; temps := temps s1; labels := S (labels s1) |} in
      let '(cb, s3) := gen_s s2 b (if v then CExp (CName n (EHelper n)) CNil else CNil) in
      (** 1115: _ids_used is cut back; TEMPVARs declared inside stay inside (cgNodes) *)
      (CSeq (CSub cb) (if v then CName n (EHelper n) else CNop), ph ++ (if v then [(n, EHelper n)] else []), set_used (used s1) s3)
  end
with gen_s (s : st) (ss : stmts) (trail : cstmts) : cstmts * st :=
  match ss with
  | SNil => (trail, s)
  | SExp e r =>
      let '(ce, pe, s1) := gen_e s e in let '(cr, s2) := gen_s s1 r trail in (decls pe (CExp ce cr), s2)
  | SLet l i r =>
      let '(new, h, s1) := binding s l in
      let n := name_of s1 l in
      let '(ci, pi, s2) := gen_e s1 i in
      let '(cr, s3) := gen_s s2 r trail in
      (if h then decls ((if new then [(n, ELocal l)] else []) ++ pi) (CExp (CSeq (CName n (ELocal l)) ci) cr)
       else decls pi (CInit n (ELocal l) ci cr), s3)
  | SFor d i b r =>
      let '(dd, pd, s1) := for_head s d in
      let '(ci, pi, s2) := gen_e s1 i in
      let '(cb, s3) := gen_s s2 b CNil in
      let '(cr, s4) := gen_s (set_used (used s2) s3) r trail in
      (decls (pd ++ pi) (CFor dd ci cb cr), s4)
  | STry a err b r =>
      let '(ca, s1) := gen_s s a CNil in
      let s1 := set_used (used s) s1 in
      let '(pe, s2) := err_head s1 err in
      let '(cb, s3) := gen_s s2 b CNil in
      let '(cr, s4) := gen_s (set_used (used s2) s3) r trail in
      (CTry ca (text "o_0") (decls pe cb) cr, s4)
  end.

(** codegen.fu:1341-1355 cgFnSignature, 1720-1748: an unused argument is not named, but its name is taken. *)
Fixpoint gen_args (s : st) (args : list (Z * bool)) : list (name * entity) * st :=
  match args with
  | [] => ([], s)
  | (l, unused) :: args =>
      let '(_, _, s1) := binding s l in
      let '(p, s2) := gen_args s1 args in ((if unused : bool then [] else [(name_of s1 l, ELocal l)]) ++ p, s2)
  end.
Definition start : st := {| used := []; dup := fun _ => O; declared := []; hoisted := []; temps := 0; labels := 0 |}.
Definition gen_fn (args : list (Z * bool)) (b : stmts) : list (name * entity) * cstmts :=
  let '(p, s) := gen_args start args in (p, fst (gen_s s b CNil)).
End Names.
