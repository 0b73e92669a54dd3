(** What the tokens of a source text are. *)
From Verif Require Import LexerModel Utf8Spec.
From Coq Require Import String Ascii.
Open Scope Z_scope.
Open Scope list_scope.

Definition text (s : string) : list Z := map (fun c => Z.of_nat (nat_of_ascii c)) (list_ascii_of_string s).

(** ** Characters *)
Definition digit (c : Z) : Prop := 48 <= c <= 57.
Definition letter (c : Z) : Prop := 65 <= c <= 90 \/ 97 <= c <= 122 \/ c = 95.
Definition starts (P : Z -> Prop) (s : list Z) : Prop := match s with [] => False | c :: _ => P c end.
Definition small_letter (c : Z) : Z := if (65 <=? c) && (c <=? 90) then c + 32 else c.

(** ** Operators: one of the single characters, or one of the longer ones *)
Definition single_ops : list Z := text "{}[]()!?~@#$%^&*/-+<=>,.;:|".
Definition long_ops : list (list Z) := map text
  ["++"; "--"; "<<"; ">>"; "=="; "!="; "<="; ">="; "=>"; "->"; "|>"; "<|"; "??"; "?:"; ".."; "..."; "::"; "&&"; "||"; "[]"; "[..]";
   "+="; "-="; "*="; "/="; "%="; "&="; "|="; "^="; "<<="; ">>="; "~="; "&&="; "||="; ".="; ":=";
   "+%"; "-%"; "*%"; "+%="; "-%="; "*%="; "<>"; "!<>"]%string.

(** ** Numbers *)
Definition num_digit (hex : bool) (c : Z) : Prop := digit c \/ hex = true /\ (97 <= c <= 102 \/ 65 <= c <= 70).
Definition exp_mark (hex : bool) (c : Z) : Prop := if hex then c = 112 \/ c = 80 else c = 101 \/ c = 69.
(** What may follow the first digit: digits; an underscore or a dot before a digit; an exponent mark with maybe a sign.
    One dot at most, one exponent at most, no dot after it.  Before: whether there were a dot and an exponent; after: now. *)
Inductive num_tail (hex : bool) : bool -> bool -> list Z -> bool -> bool -> Prop :=
| nt_end d e : num_tail hex d e [] d e
| nt_digit d e c w d' e' : num_digit hex c -> num_tail hex d e w d' e' -> num_tail hex d e (c :: w) d' e'
| nt_under d e w d' e' : starts (num_digit hex) w -> num_tail hex d e w d' e' -> num_tail hex d e (95 :: w) d' e'
| nt_dot w d' e' : starts (num_digit hex) w -> num_tail hex true false w d' e' -> num_tail hex false false (46 :: w) d' e'
| nt_exp d c s w d' e' : exp_mark hex c -> s = [] \/ s = [43] \/ s = [45] -> num_tail hex d true w d' e' -> num_tail hex d false (c :: s ++ w) d' e'.
(** What cannot be read on after it *)
Definition number_ends (hex : bool) (f : list Z) : Prop :=
  match f with
  | [] => True
  | c :: f => ~ num_digit hex c /\ ~ exp_mark hex c /\ (c = 46 \/ c = 95 -> ~ starts (num_digit hex) f)
  end.
Definition num_kind (dot exp : bool) : kind := if dot || exp then Real else Int.

(** ** What is between quotes, and what it stands for *)
Definition hex_digit (c v : Z) : Prop := 48 <= c <= 57 /\ v = c - 48 \/ 65 <= c <= 70 /\ v = c - 65 + 10 \/ 97 <= c <= 102 /\ v = c - 97 + 10.
Inductive hex_number : list Z -> Z -> Prop :=
| hn_nil : hex_number [] 0
| hn_snoc ds v c d : hex_number ds v -> hex_digit c d -> hex_number (ds ++ [c]) (16 * v + d).
Definition escapes : list (Z * Z) := [(92, 92); (110, 10); (114, 13); (116, 9); (102, 12); (118, 11); (48, 0); (97, 7); (98, 8); (101, 27)].
Inductive literal (quot : Z) : list Z -> list Z -> Prop :=
| l_end : literal quot [] []
| l_char c w v : c <> quot -> c <> 92 -> (c = 10 -> quot = 96) -> literal quot w v -> literal quot (c :: w) (c :: v)
| l_escape c b w v : In (c, b) escapes \/ c = quot /\ b = quot -> literal quot w v -> literal quot (92 :: c :: w) (b :: v)
| l_hex h l hv lv w v : hex_digit h hv -> hex_digit l lv -> literal quot w v -> literal quot (92 :: 120 :: h :: l :: w) (16 * hv + lv :: v)
| l_unicode ds cp bs w v : hex_number ds cp -> (1 <= List.length ds <= 6)%nat -> valid bs cp -> literal quot w v ->
    literal quot (92 :: 117 :: 123 :: ds ++ 125 :: w) (bs ++ v).

(** ** A piece of the source: [piece raw f t] - it can be read before [f], and is the token t, or none *)
Inductive piece : list Z -> list Z -> option (kind * list Z) -> Prop :=
| p_space c f : c <= 32 -> piece [c] f None
| p_line_comment w f : ~ In 10 w -> piece (47 :: 47 :: w ++ [10]) f None
| p_line_comment_end w : ~ In 10 w -> piece (47 :: 47 :: w) [] None
| p_block_comment w f : (forall a b, w ++ [42] <> a ++ 42 :: 47 :: b) -> piece (47 :: 42 :: w ++ [42; 47]) f None
| p_block_comment_open w : (forall a b, w <> a ++ 42 :: 47 :: b) -> piece (47 :: 42 :: w) [] None
| p_id c w f : letter c -> Forall (fun c => letter c \/ digit c) w -> ~ starts (fun c => letter c \/ digit c) f -> piece (c :: w) f (Some (Id, c :: w))
| p_radix x max w f : (x = 111 \/ x = 79) /\ max = 55 \/ (x = 98 \/ x = 66) /\ max = 49 -> w <> [] ->
    Forall (fun c => 48 <= c <= max) w -> ~ starts (fun c => 48 <= c <= max) f -> piece (48 :: x :: w) f (Some (Int, map small_letter (48 :: x :: w)))
| p_hex x w f dot exp : x = 120 \/ x = 88 -> num_tail true false false w dot exp -> num_digit true (last w 0) -> (dot = true -> exp = true) -> number_ends true f ->
    piece (48 :: x :: w) f (Some (num_kind dot exp, map small_letter (48 :: x :: w)))
| p_decimal c w f dot exp : digit c -> (c = 48 -> ~ starts (fun c => digit c \/ In c (text "xXoObB")) (w ++ f)) ->
    num_tail false false false w dot exp -> digit (last (c :: w) 0) -> number_ends false f ->
    piece (c :: w) f (Some (num_kind dot exp, map small_letter (c :: w)))
| p_string q w v f : q = 34 \/ q = 96 -> literal q w v -> piece (q :: w ++ [q]) f (Some (Str, v))
| p_char w b f : literal 39 w [b] -> piece (39 :: w ++ [39]) f (Some (Char, [b]))
| p_op raw f : (exists c, raw = [c] /\ In c single_ops) \/ In raw long_ops ->
    (forall op rest, In op long_ops -> raw ++ f = op ++ rest -> (List.length op <= List.length raw)%nat) ->
    (forall rest, raw ++ f <> 47 :: 47 :: rest /\ raw ++ f <> 47 :: 42 :: rest) -> piece raw f (Some (Op, raw)).

(** ** Where it is: lines from 1; columns from 1, in bytes *)
Definition line_of (pre : list Z) : nat := S (count_occ Z.eq_dec pre 10).
Fixpoint column (pre : list Z) (col : Z) : Z := match pre with [] => col | c :: pre => column pre (if c =? 10 then 1 else col + 1) end.
Definition col_of (pre : list Z) : Z := column pre 1.

Inductive pieces : list Z -> list Z -> list token -> Prop :=
| ps_end pre : pieces pre [] []
| ps_gap pre raw rest ts : piece raw rest None -> pieces (pre ++ raw) rest ts -> pieces pre (raw ++ rest) ts
| ps_token pre raw rest k v ts : piece raw rest (Some (k, v)) -> pieces (pre ++ raw) rest ts ->
    pieces pre (raw ++ rest) (Tok k v (line_of pre) (col_of pre) (List.length raw) :: ts).
(** All of the source, between a token for its start and one for its end - on a line of its own. *)
Definition tokens_of (src : list Z) (ts : list token) : Prop :=
  exists body, pieces [] src body /\ ts = Tok Sof [] 1 1 0 :: body ++ [Tok Eof [] (S (line_of src)) 0 0].

(** The pieces read so far: [pre] and [rest] to [pre'] and [rest'] *)
Inductive read_to : list Z -> list Z -> list Z -> list Z -> Prop :=
| rt_here pre rest : read_to pre rest pre rest
| rt_piece pre raw rest k pre' rest' : piece raw rest k -> read_to (pre ++ raw) rest pre' rest' -> read_to pre (raw ++ rest) pre' rest'.

(** A token covers a part of the source: where it starts, what it is *)
Definition covers (src : list Z) (t : token) (start : nat) : Prop :=
  exists pre raw post, src = pre ++ raw ++ post /\ start = List.length pre /\ t_line t = line_of pre /\ t_col t = col_of pre /\ t_chars t = List.length raw /\ raw <> [] /\
  match t_kind t with
  | Id | Op => t_value t = raw
  | Int | Real => t_value t = map small_letter raw
  | Str => exists q w, (q = 34 \/ q = 96) /\ raw = q :: w ++ [q] /\ literal q w (t_value t)
  | Char => exists w b, raw = 39 :: w ++ [39] /\ t_value t = [b] /\ literal 39 w [b]
  | Sof | Eof => False
  end.
(** One after another, from [i] on, not overlapping *)
Fixpoint covers_in_order (src : list Z) (ts : list token) (i : nat) : Prop :=
  match ts with
  | [] => (i <= List.length src)%nat
  | t :: ts => exists start, (i <= start)%nat /\ covers src t start /\ covers_in_order src ts (start + t_chars t)
  end.
(** Before, in the text *)
Definition before (t u : token) : Prop := (t_line t < t_line u)%nat \/ t_line t = t_line u /\ t_col t < t_col u.
