(** What a type canon says, apart from how it is written.
    A canon is a base (a primitive, a user type, ...), with any number of generic patterns; or an array of some type.  A
    pattern names a template - its module and its number - and the types it was given: each is its tags and its canon. *)
From Verif Require Import CanonModel.
Open Scope Z_scope.

Inductive canon :=
| Plain (base : list Z) (pats : list (Z * Z * list (Z * canon)))
| Array (tags : Z) (item : canon).
Definition pat : Type := Z * Z * list (Z * canon).
Definition pat_args (p : pat) : list (Z * canon) := snd p.

(** ** As written *)
Definition varint (v : Z) : list Z := match append_varint [] v with Some bs => bs | None => [] end.
Fixpoint join (sep : Z) (l : list (list Z)) : list Z :=
  match l with [] => [] | [x] => x | x :: l => x ++ sep :: join sep l end.
Fixpoint written (c : canon) : list Z :=
  match c with
  | Plain base [] => base
  | Plain base ps =>
      base ++ LPAR :: join PIPE (map (fun p => match p with (m, g, args) =>
        varint m ++ varint g ++ join COLON (map (fun a => varint (fst a) ++ written (snd a)) args) end) ps) ++ [RPAR]
  | Array t c => LBRA :: varint t ++ written c ++ [RBRA]
  end.
Definition written_type (a : Z * canon) : list Z := varint (fst a) ++ written (snd a).
Definition written_args (args : list (Z * canon)) : list Z := join COLON (map written_type args).
Definition written_pat (p : pat) : list Z := match p with (m, g, args) => varint m ++ varint g ++ written_args args end.

(** A base is not empty, has none of ( ) : | in it, and is not an array's.  Templates are numbered below 2^20; a pattern
    has an argument; the tags are three bits. *)
Definition good_base (b : list Z) : Prop :=
  b <> [] /\ hd 0 b <> LBRA /\ Forall (fun c => c <> LPAR /\ c <> RPAR /\ c <> COLON /\ c <> PIPE) b.
Inductive well_formed : canon -> Prop :=
| wf_plain b ps : good_base b ->
    (forall m g args, In (m, g, args) ps -> 0 <= m < 2 ^ 20 /\ 0 < g < 2 ^ 20 /\ args <> [] /\
       forall t c, In (t, c) args -> 0 <= t < 8 /\ well_formed c) ->
    well_formed (Plain b ps)
| wf_array t c : 0 <= t < 8 -> well_formed c -> well_formed (Array t c).

(** Whether a pattern is anywhere in it *)
Fixpoint generic (c : canon) : bool := match c with Plain _ ps => match ps with [] => false | _ => true end | Array _ c => generic c end.
Definition deep (args : list (Z * canon)) : bool := existsb (fun a => generic (snd a)) args.

(** ** What should be accepted: a host accepts a guest when the host is plain and the guest has the same base, whatever
    its patterns; or for every pattern of the host the guest has one of the same template, each of whose arguments is
    accepted by the host's. *)
Inductive matches : canon -> canon -> Prop :=
| m_plain b ps : matches (Plain b []) (Plain b ps)
| m_array t h g : matches h g -> matches (Array t h) (Array t g)
| m_pats hb hps gb gps : hps <> [] -> gps <> [] ->
    (forall m g ha, In (m, g, ha) hps -> exists ga, In (m, g, ga) gps /\
       Forall2 (fun h g => fst h = fst g /\ matches (snd h) (snd g)) ha ga) ->
    matches (Plain hb hps) (Plain gb gps).

(** ** What is accepted.  On its own, or inside another one, where arrays have to be the same and bases with patterns
    are not looked at.  One argument is enough. *)
Inductive accepts : canon -> canon -> Prop :=
| a_plain b ps : accepts (Plain b []) (Plain b ps)
| a_array ht h gt g : accepts_inside (ht, h) (gt, g) -> accepts (Array ht h) (Array gt g)
| a_pats hb hps gb gps : hps <> [] -> gps <> [] -> hd 0 hb = hd 0 gb -> accepts_pats hps gps -> accepts (Plain hb hps) (Plain gb gps)
with accepts_inside : Z * canon -> Z * canon -> Prop :=
| i_plain t b ps : accepts_inside (t, Plain b []) (t, Plain b ps)
| i_array t t' c : accepts_inside (t, Array t' c) (t, Array t' c)
| i_pats t hb hps gb gps : hps <> [] -> gps <> [] -> accepts_pats hps gps -> accepts_inside (t, Plain hb hps) (t, Plain gb gps)
with accepts_pats : list pat -> list pat -> Prop :=
| p_all hps gps : (forall hp, In hp hps -> exists gp, In gp gps /\ fst gp = fst hp /\ accepts_args (snd hp) (snd gp)) -> accepts_pats hps gps
with accepts_args : list (Z * canon) -> list (Z * canon) -> Prop :=
| g_same args : deep args = false -> accepts_args args args
| g_any ha ga i h g : deep ha = true -> deep ga = true -> nth_error ha i = Some h -> nth_error ga i = Some g ->
    (S i = length ha <-> S i = length ga) -> accepts_inside h g -> accepts_args ha ga.

(** ** Taking a pattern apart: the parts are visited in order, until the visitor leaves *)
Fixpoint foldv {X R} (visit : X -> option (option R)) (l : list X) : option (option R) :=
  match l with [] => Some None | x :: l => do v <- visit x; match v with Some r => Some (Some r) | None => foldv visit l end end.
Definition good_args (args : list (Z * canon)) : Prop := args <> [] /\ forall t c, In (t, c) args -> 0 <= t < 8 /\ well_formed c.
Definition good_pats (ps : list pat) : Prop := ps <> [] /\ forall m g args, In (m, g, args) ps -> 0 <= m < 2 ^ 20 /\ 0 < g < 2 ^ 20 /\ good_args args.
(** the number of a template: 20 bits each *)
Definition target_of (p : pat) : Z := match p with (m, g, _) => m * 2 ^ 40 + g * 2 ^ 20 end.
Fixpoint subs (ps : list pat) : list sub :=
  match ps with
  | [] => []
  | p :: ps => {| sp_text := written_args (snd p); sp_of := target_of p; sp_deep := deep (snd p); sp_last := match ps with [] => true | _ => false end |} :: subs ps
  end.
Fixpoint argspecs (first : bool) (args : list (Z * canon)) : list argspec :=
  match args with
  | [] => []
  | a :: args => {| arg_text := written_type a; arg_deep := generic (snd a); arg_last := match args with [] => true | _ => false end; arg_first := first |} :: argspecs false args
  end.

(** ** Canons with at most one pattern and one argument to it, wherever they occur *)
Inductive simple : canon -> Prop :=
| s_plain b : simple (Plain b [])
| s_one b m g t c : simple c -> simple (Plain b [(m, g, [(t, c)])])
| s_array t c : simple c -> simple (Array t c).
(** any number of patterns, with an argument each *)
Inductive one_argument : canon -> Prop :=
| o_plain b ps : (forall m g args, In (m, g, args) ps -> exists t c, args = [(t, c)] /\ one_argument c) -> one_argument (Plain b ps)
| o_array t c : one_argument c -> one_argument (Array t c).
