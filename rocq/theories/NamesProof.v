(** C70: the generated names resolve. *)
From Coq Require Import String List ZArith Bool Lia.
From Verif Require Import LexerSpec DecSpec NamesSpec NamesModel NamesScope NamesLemmas.
Import ListNotations.
Notation length := List.length.
Open Scope Z_scope.

Scheme expr_mut := Induction for expr Sort Prop with stmts_mut := Induction for stmts Sort Prop.
Combined Scheme expr_stmts_ind from expr_mut, stmts_mut.

Section Proof.
Variable src : Z -> name.
Hypothesis HB : forall l, base src l <> [] /\ ~ reserved (base src l).
Local Notation base := (base src).
Local Notation name_of := (name_of src).
Local Notation binding := (binding src).
Local Notation dedupe := (dedupe src).

(** ** Equations *)
Local Lemma ge_seq s a b : gen_e src s (ESeq a b) =
      let '(ca, pa, s1) := gen_e src s a in let '(cb, pb, s2) := gen_e src s1 b in (CSeq ca cb, pa ++ pb, s2).
Proof. reflexivity. Qed.
Local Lemma ge_let s l i : gen_e src s (ELet l i) =
      
      let '(new, _, s1) := binding (set_isHoisted s l) l in
      let n := name_of s1 l in
      let '(ci, pi, s2) := gen_e src s1 i in
      (CSeq (CName n (ELocal l)) ci, (if new then [(n, ELocal l)] else []) ++ pi, s2).
Proof. reflexivity. Qed.
Local Lemma ge_temp s e : gen_e src s (ETemp e) =
      let n := tempvar (temps s) in
      let '(ce, pe, s1) := gen_e src {| used := used s; dup := dup s; declared := declared s; hoisted := hoisted s; temps := S (temps s); labels := labels s |} e in
      (CSeq ce (CName n (EHelper n)), (n, EHelper n) :: pe, s1).
Proof. reflexivity. Qed.
Local Lemma ge_sub s hs v b : gen_e src s (ESub hs v b) =
      let '(ph, s1) := hoist src s hs in
      let n := blockvar (labels s1) in
      let s2 := {| used := used s1; dup := dup s1; declared := declared s1; hoisted := hoisted s1; temps := temps s1; labels := S (labels s1) |} in
      let '(cb, s3) := gen_s src s2 b (if v then CExp (CName n (EHelper n)) CNil else CNil) in
      
      (CSeq (CSub cb) (if v then CName n (EHelper n) else CNop), ph ++ (if v then [(n, EHelper n)] else []), set_used (used s1) s3).
Proof. reflexivity. Qed.
Local Lemma gs_exp s e r trail : gen_s src s (SExp e r) trail =
      let '(ce, pe, s1) := gen_e src s e in let '(cr, s2) := gen_s src s1 r trail in (decls pe (CExp ce cr), s2).
Proof. reflexivity. Qed.
Local Lemma gs_let s l i r trail : gen_s src s (SLet l i r) trail =
      let '(new, h, s1) := binding s l in
      let n := name_of s1 l in
      let '(ci, pi, s2) := gen_e src s1 i in
      let '(cr, s3) := gen_s src s2 r trail in
      (if h then decls ((if new then [(n, ELocal l)] else []) ++ pi) (CExp (CSeq (CName n (ELocal l)) ci) cr)
       else decls pi (CInit n (ELocal l) ci cr), s3).
Proof. reflexivity. Qed.
Local Lemma gs_for s d i b r trail : gen_s src s (SFor d i b r) trail =
      let '(dd, pd, s1) := for_head src s d in
      let '(ci, pi, s2) := gen_e src s1 i in
      let '(cb, s3) := gen_s src s2 b CNil in
      let '(cr, s4) := gen_s src (set_used (used s2) s3) r trail in
      (decls (pd ++ pi) (CFor dd ci cb cr), s4).
Proof. reflexivity. Qed.
Local Lemma gs_try s a err b r trail : gen_s src s (STry a err b r) trail =
      let '(ca, s1) := gen_s src s a CNil in
      let s1 := set_used (used s) s1 in
      let '(pe, s2) := err_head src s1 err in
      let '(cb, s3) := gen_s src s2 b CNil in
      let '(cr, s4) := gen_s src (set_used (used s2) s3) r trail in
      (CTry ca (text "o_0") (decls pe cb) cr, s4).
Proof. reflexivity. Qed.
Local Lemma we_seq c G a b : wf_e src c G (ESeq a b) =
      (wf_e src c G a /\ wf_e src (walk_e c a) (G ++ glob_e a) b).
Proof. reflexivity. Qed.
Local Lemma we_let c G l i : wf_e src c G (ELet l i) =
      (0 < l /\ (In l (decl c) /\ In l (vis c) \/ ~ In l (seen c) /\ uncaptured src G l) /\ wf_e src (hbind c l) G i).
Proof. reflexivity. Qed.
Local Lemma we_sub c G hs v b : wf_e src c G (ESub hs v b) =
      (wf_h src c G hs /\ wf_s src (walk_h c hs) b).
Proof. reflexivity. Qed.
Local Lemma ws_exp c e r : wf_s src c (SExp e r) =
      (wf_e src c [] e /\ wf_s src (walk_e c e) r).
Proof. reflexivity. Qed.
Local Lemma ws_let c l i r : wf_s src c (SLet l i r) =
      (0 < l /\ (In l (hois c) /\ In l (vis c) \/ ~ In l (seen c)) /\ wf_e src (bind c l) [] i /\ wf_s src (walk_e (bind c l) i) r).
Proof. reflexivity. Qed.
Local Lemma ws_for c d i b r : wf_s src c (SFor d i b r) =
      (let c1 := match d with None => c | Some l => bind c l end in
      (forall l, d = Some l -> 0 < l /\ (In l (hois c) /\ In l (vis c) \/ ~ In l (seen c))) /\
      wf_e src c1 [] i /\ wf_s src (walk_e c1 i) b /\ wf_s src (with_vis (vis c) (walk_s (walk_e c1 i) b)) r).
Proof. reflexivity. Qed.
Local Lemma ws_try c a err b r : wf_s src c (STry a err b r) =
      (let c1 := with_vis (vis c) (walk_s c a) in
      let c2 := match err with None => c1 | Some l => {| seen := l :: seen c1; decl := decl c1; hois := hois c1; vis := l :: vis c1 |} end in
      wf_s src c a /\ (forall l, err = Some l -> 0 < l /\ ~ In l (seen c1)) /\ wf_s src c2 b /\ wf_s src (with_vis (vis c) (walk_s c2 b)) r).
Proof. reflexivity. Qed.

Record Inv (c : sc) (s : st) : Prop := {
  i_decl : declared s = decl c;
  i_hois : hoisted s = hois c;
  i_vs : incl (vis c) (seen c);
  i_ds : incl (decl c) (seen c);
  i_hd : incl (hois c) (decl c);
  i_pos : forall l, In l (decl c) -> 0 < l;
  i_used : forall l, In l (vis c) -> In (name_of s l) (used s);
  i_dup : forall l, ~ In l (seen c) -> dup s l = O;
  i_res : forall n, In n (used s) -> ~ reserved n }.

Definition newer (s s' : st) (n : name) : Prop :=
  (exists k, (temps s <= k < temps s')%nat /\ n = tempvar k) \/ (exists k, (labels s <= k < labels s')%nat /\ n = blockvar k).
Lemma newer_reserved s s' n : newer s s' n -> reserved n.
Proof. intros [(k & _ & ->)|(k & _ & ->)]; [apply tempvar_reserved|apply blockvar_reserved]. Qed.

(** The effect of an expression: declarations [p] to go before the statement. *)
Record Step (G : list name) (c : sc) (s : st) (p : list (name * entity)) (c' : sc) (s' : st) : Prop := {
  r_inv : Inv c' s';
  r_used : forall n, In n (used s') <-> In n (used s) \/ exists l, In (n, ELocal l) p;
  r_t : (temps s <= temps s')%nat;
  r_l : (labels s <= labels s')%nat;
  r_pre : forall n e, In (n, e) p ->
    (exists l, e = ELocal l /\ In l (vis c') /\ ~ In l (seen c) /\ n = name_of s' l /\ ~ In n (used s) /\ forall g, In g G -> g <> n) \/
    (e = EHelper n /\ newer s s' n);
  r_nd1 : NoDup (map fst p);
  r_nd2 : NoDup (map snd p);
  r_vis : forall l, In l (vis c') -> In l (vis c) \/ local_in l p;
  r_vis1 : incl (vis c) (vis c');
  r_seen : incl (seen c) (seen c');
  r_keep : forall l, In l (seen c) -> name_of s' l = name_of s l }.

Lemma step_refl G c s : Inv c s -> Step G c s [] c s.
Proof.
  intros I. constructor; auto; try (constructor; fail); try apply incl_refl.
  - intros n. split; [now left|]. intros [H|(l & [])]; exact H.
  - intros n e [].
Qed.

Lemma in_fst (n : name) (p : list (name * entity)) : In n (map fst p) <-> exists e, In (n, e) p.
Proof.
  rewrite in_map_iff. split; [intros ([m e] & <- & I); exists e; exact I|intros (e & I); exists (n, e); auto].
Qed.
Lemma in_snd (e : entity) (p : list (name * entity)) : In e (map snd p) <-> exists n, In (n, e) p.
Proof.
  rewrite in_map_iff. split; [intros ([m x] & <- & I); exists m; exact I|intros (n & I); exists (n, e); auto].
Qed.
Lemma NoDup_app {A} (a b : list A) : NoDup a -> NoDup b -> (forall x, In x a -> In x b -> False) -> NoDup (a ++ b).
Proof.
  induction a as [|x a IH]; intros N1 N2 D; [exact N2|]. inversion N1; subst. cbn. constructor.
  - rewrite in_app_iff. intros [H|H]; [auto|]. apply (D x); cbn; auto.
  - apply IH; auto. intros y I J. apply (D y); cbn; auto.
Qed.

Lemma step_trans G G' c s p c1 s1 q c2 s2 : incl G G' -> Step G c s p c1 s1 -> Step G' c1 s1 q c2 s2 -> Step G c s (p ++ q) c2 s2.
Proof.
  intros IG A B. pose proof (r_t _ _ _ _ _ _ A). pose proof (r_t _ _ _ _ _ _ B). pose proof (r_l _ _ _ _ _ _ A). pose proof (r_l _ _ _ _ _ _ B).
  constructor.
  - exact (r_inv _ _ _ _ _ _ B).
  - intros n. rewrite (r_used _ _ _ _ _ _ B n), (r_used _ _ _ _ _ _ A n). split.
    + intros [[U|(l & U)]|(l & U)]; [now left|right; exists l; apply in_or_app; now left|right; exists l; apply in_or_app; now right].
    + intros [U|(l & U)]; [now left; left|]. apply in_app_or in U as [U|U]; [left; right; now exists l|right; now exists l].
  - lia.
  - lia.
  - intros n e I. apply in_app_or in I as [I|I].
    + destruct (r_pre _ _ _ _ _ _ A n e I) as [(l & -> & V & S1 & -> & U & Q)|[-> [(k & K & ->)|(k & K & ->)]]].
      * left. exists l. split; [reflexivity|]. split; [now apply (r_vis1 _ _ _ _ _ _ B)|]. split; [exact S1|].
        split; [symmetry; apply (r_keep _ _ _ _ _ _ B); now apply (i_vs _ _ (r_inv _ _ _ _ _ _ A))|]. split; assumption.
      * right. split; [reflexivity|]. left. exists k. split; [lia|reflexivity].
      * right. split; [reflexivity|]. right. exists k. split; [lia|reflexivity].
    + destruct (r_pre _ _ _ _ _ _ B n e I) as [(l & -> & V & S1 & -> & U & Q)|[-> [(k & K & ->)|(k & K & ->)]]].
      * left. exists l. split; [reflexivity|]. split; [exact V|]. split; [intros X; apply S1; now apply (r_seen _ _ _ _ _ _ A)|].
        split; [reflexivity|]. split; [intros X; apply U; apply (r_used _ _ _ _ _ _ A); now left|]. intros g IGg. apply Q. now apply IG.
      * right. split; [reflexivity|]. left. exists k. split; [lia|reflexivity].
      * right. split; [reflexivity|]. right. exists k. split; [lia|reflexivity].
  - rewrite map_app. apply NoDup_app; [exact (r_nd1 _ _ _ _ _ _ A)|exact (r_nd1 _ _ _ _ _ _ B)|].
    intros n IA IB. apply in_fst in IA as (e & IA). apply in_fst in IB as (e' & IB).
    destruct (r_pre _ _ _ _ _ _ A n e IA) as [(l & -> & V & S1 & E1 & U & Q)|[-> NW]];
    destruct (r_pre _ _ _ _ _ _ B n e' IB) as [(l' & -> & V' & S1' & E1' & U' & Q')|[-> NW']].
    + apply U'. apply (r_used _ _ _ _ _ _ A). right. now exists l.
    + apply newer_reserved in NW'. revert NW'. apply (i_res _ _ (r_inv _ _ _ _ _ _ A)). apply (r_used _ _ _ _ _ _ A). right. now exists l.
    + apply newer_reserved in NW. revert NW. apply (i_res _ _ (r_inv _ _ _ _ _ _ B)). apply (r_used _ _ _ _ _ _ B). right. now exists l'.
    + destruct NW as [(k & K & ->)|(k & K & ->)], NW' as [(j & J & E)|(j & J & E)].
      * apply tempvar_inj in E. lia.
      * now apply temp_block in E.
      * symmetry in E. now apply temp_block in E.
      * apply blockvar_inj in E. lia.
  - rewrite map_app. apply NoDup_app; [exact (r_nd2 _ _ _ _ _ _ A)|exact (r_nd2 _ _ _ _ _ _ B)|].
    intros e IA IB. apply in_snd in IA as (n & IA). apply in_snd in IB as (n' & IB).
    destruct (r_pre _ _ _ _ _ _ A n e IA) as [(l & -> & V & S1 & E1 & U & Q)|[-> NW]];
    destruct (r_pre _ _ _ _ _ _ B n' _ IB) as [(l' & E & V' & S1' & E1' & U' & Q')|[E NW']]; try discriminate.
    + injection E as <-. apply S1'. now apply (i_vs _ _ (r_inv _ _ _ _ _ _ A)).
    + injection E as <-. destruct NW as [(k & K & ->)|(k & K & ->)], NW' as [(j & J & E)|(j & J & E)].
      * apply tempvar_inj in E. lia.
      * now apply temp_block in E.
      * symmetry in E. now apply temp_block in E.
      * apply blockvar_inj in E. lia.
  - intros l V. apply (r_vis _ _ _ _ _ _ B) in V as [V|V].
    + apply (r_vis _ _ _ _ _ _ A) in V as [V|V]; [now left|right]. unfold local_in in *. rewrite map_app. apply in_or_app. now left.
    + right. unfold local_in in *. rewrite map_app. apply in_or_app. now right.
  - eapply incl_tran; [exact (r_vis1 _ _ _ _ _ _ A)|exact (r_vis1 _ _ _ _ _ _ B)].
  - eapply incl_tran; [exact (r_seen _ _ _ _ _ _ A)|exact (r_seen _ _ _ _ _ _ B)].
  - intros l S1. rewrite (r_keep _ _ _ _ _ _ B) by (now apply (r_seen _ _ _ _ _ _ A)). now apply (r_keep _ _ _ _ _ _ A).
Qed.

(** ** One binding *)
Lemma has_spec l ls : has l ls = true <-> In l ls.
Proof. unfold has. destruct (in_dec Z.eq_dec l ls); split; intros; auto; discriminate. Qed.
Lemma has_false l ls : ~ In l ls -> has l ls = false.
Proof. intros N. destruct (has l ls) eqn:E; [apply has_spec in E; contradiction|reflexivity]. Qed.

Lemma dedupe_name s l : dup s l = O ->
  name_of (dedupe s l) l = candidate (base l) (pick (S (length (used s))) (used s) (base l) 0) /\
  ~ In (name_of (dedupe s l) l) (used s) /\ used (dedupe s l) = used s ++ [name_of (dedupe s l) l] /\
  (forall x, x <> l -> name_of (dedupe s l) x = name_of s x).
Proof.
  intros D0. set (d := pick (S (length (used s))) (used s) (base l) 0).
  assert (E : name_of (dedupe s l) l = candidate (base l) d).
  { unfold NamesModel.name_of, NamesModel.dedupe. cbn [dup]. rewrite Z.eqb_refl. fold d. destruct d; [rewrite D0|]; reflexivity. }
  rewrite E. split; [reflexivity|]. split; [apply pick_free|]. split; [reflexivity|].
  intros x N. unfold NamesModel.name_of, NamesModel.dedupe. cbn [dup]. destruct (Z.eqb_spec x l); [contradiction|reflexivity].
Qed.

(** A fresh local gets a name nothing in scope has. *)
Lemma fresh_step G c s l s0 hs : Inv c s -> ~ In l (seen c) -> uncaptured src G l ->
  used s0 = used s -> dup s0 = dup s -> temps s0 = temps s -> labels s0 = labels s ->
  forall c', seen c' = l :: seen c -> vis c' = l :: vis c -> declared s0 = decl c' -> hoisted s0 = hs -> hois c' = hs ->
  incl (decl c') (l :: decl c) -> incl hs (decl c') -> (forall x, In x (decl c') -> 0 < x) ->
  Step G c s [(name_of (dedupe s0 l) l, ELocal l)] c' (dedupe s0 l).
Proof.
  intros I NS UC E1 E2 E3 E4 c' C1 C2 C3 C4 C5 C6 C7 C8.
  assert (D0 : dup s0 l = O) by (rewrite E2; now apply (i_dup _ _ I)).
  destruct (dedupe_name s0 l D0) as (NM & NI & US & OT). rewrite E1 in NI, US.
  assert (KE : forall x, x <> l -> name_of (dedupe s0 l) x = name_of s x).
  { intros x N. rewrite OT by exact N. unfold NamesModel.name_of. now rewrite E2. }
  constructor.
  - constructor.
    + exact C3.
    + cbn. now rewrite C4, C5.
    + rewrite C1, C2. intros x [->|X]; [now left|right; now apply (i_vs _ _ I)].
    + rewrite C1. intros x X. apply C6 in X as [->|X]; [now left|right; now apply (i_ds _ _ I)].
    + now rewrite C5.
    + exact C8.
    + rewrite C2, US. intros x X. apply in_or_app. destruct (Z.eq_dec x l) as [->|N]; [right; now left|]. left.
      destruct X as [X|X]; [congruence|]. rewrite KE by exact N. now apply (i_used _ _ I).
    + rewrite C1. intros x X. assert (x <> l) by (intros ->; apply X; now left). unfold NamesModel.dedupe. cbn [dup].
      destruct (Z.eqb_spec x l); [contradiction|]. rewrite E2. apply (i_dup _ _ I). intros Y; apply X; now right.
    + rewrite US. intros n N. apply in_app_or in N as [N|[<-|[]]]; [now apply (i_res _ _ I)|].
      rewrite NM. destruct (HB l). now apply candidate_not_reserved.
  - intros n. rewrite US, in_app_iff. split.
    + intros [U|[<-|[]]]; [now left|]. right. exists l. now left.
    + intros [U|(x & [X|[]])]; [now left|]. right. injection X as <- <-. now left.
  - cbn. lia.
  - cbn. lia.
  - intros n e [X|[]]. injection X as <- <-. left. exists l. split; [reflexivity|]. split; [rewrite C2; now left|]. split; [exact NS|].
    split; [reflexivity|]. split; [exact NI|]. intros g Ig ->. apply (UC _ Ig). rewrite NM. apply candidate_derived.
  - repeat constructor. intros [].
  - repeat constructor. intros [].
  - rewrite C2. intros x [->|X]; [right; now left|now left].
  - rewrite C2. intros x X. now right.
  - rewrite C1. intros x X. now right.
  - intros x X. apply KE. congruence.
Qed.

Lemma let_fresh G c s l : Inv c s -> 0 < l -> ~ In l (seen c) -> uncaptured src G l ->
  exists s1, binding s l = (true, false, s1) /\ Step G c s [(name_of s1 l, ELocal l)] (bind c l) s1.
Proof.
  intros I P NS UC. assert (ND : ~ In l (decl c)) by (intros X; apply NS; now apply (i_ds _ _ I)).
  assert (NH : ~ In l (hois c)) by (intros X; apply ND; now apply (i_hd _ _ I)).
  unfold NamesModel.binding, isHoistable. rewrite (i_decl _ _ I), (i_hois _ _ I). replace (0 <? l) with true by (symmetry; now apply Z.ltb_lt).
  rewrite (has_false _ _ ND), (has_false _ _ NH). cbn [andb negb]. eexists. split; [reflexivity|].
  unfold bind. destruct (in_dec Z.eq_dec l (decl c)); [contradiction|].
  eapply (fresh_step G c s l _ (hois c)); eauto; cbn; auto.
  - apply incl_refl.
  - apply incl_tl, (i_hd _ _ I).
  - intros x [<-|X]; [exact P|now apply (i_pos _ _ I)].
Qed.
Lemma hlet_fresh G c s l : Inv c s -> 0 < l -> ~ In l (seen c) -> uncaptured src G l ->
  exists s1, binding (set_isHoisted s l) l = (true, true, s1) /\ Step G c s [(name_of s1 l, ELocal l)] (hbind c l) s1.
Proof.
  intros I P NS UC. assert (ND : ~ In l (decl c)) by (intros X; apply NS; now apply (i_ds _ _ I)).
  unfold NamesModel.binding, isHoistable. cbn [declared hoisted set_isHoisted]. rewrite (i_decl _ _ I).
  replace (0 <? l) with true by (symmetry; now apply Z.ltb_lt).
  rewrite (has_false _ _ ND). assert (HH : has l (l :: hoisted s) = true) by (apply has_spec; now left). rewrite HH. cbn [andb negb].
  eexists. split; [reflexivity|]. unfold hbind, bind. cbn [decl]. destruct (in_dec Z.eq_dec l (decl c)); [contradiction|].
  eapply (fresh_step G c s l _ (l :: hois c)); eauto; cbn; auto.
  - now rewrite (i_hois _ _ I).
  - apply incl_refl.
  - intros x [<-|X]; [now left|right; now apply (i_hd _ _ I)].
  - intros x [<-|X]; [exact P|now apply (i_pos _ _ I)].
Qed.
Lemma hlet_old G c s l : Inv c s -> 0 < l -> In l (decl c) ->
  binding (set_isHoisted s l) l = (false, true, set_isHoisted s l) /\ Step G c s [] (hbind c l) (set_isHoisted s l).
Proof.
  intros I P ID. unfold NamesModel.binding, isHoistable. cbn [declared hoisted set_isHoisted]. rewrite (i_decl _ _ I).
  replace (0 <? l) with true by (symmetry; now apply Z.ltb_lt). assert (H1 : has l (decl c) = true) by (now apply has_spec).
  assert (HH : has l (l :: hoisted s) = true) by (apply has_spec; now left). rewrite H1, HH. cbn [andb negb]. split; [reflexivity|].
  unfold hbind, bind. cbn [decl]. destruct (in_dec Z.eq_dec l (decl c)); [|contradiction].
  destruct I. constructor; cbn; auto; try apply incl_refl; try (constructor; fail); try lia.
  - constructor; cbn; auto; [now rewrite i_hois0|]. intros x [<-|X]; auto.
  - intros n. split; [now left|]. intros [H|(x & [])]; exact H.
Qed.
Lemma let_old c s l : Inv c s -> In l (hois c) -> binding s l = (false, true, s) /\ bind c l = c.
Proof.
  intros I IH. pose proof (i_hd _ _ I l IH) as ID. pose proof (i_pos _ _ I l ID) as P.
  unfold NamesModel.binding, isHoistable. rewrite (i_decl _ _ I), (i_hois _ _ I).
  replace (0 <? l) with true by (symmetry; now apply Z.ltb_lt). assert (H1 : has l (decl c) = true) by (now apply has_spec).
  assert (HH : has l (hois c) = true) by (now apply has_spec). rewrite H1, HH. cbn. split; [reflexivity|].
  unfold bind. destruct (in_dec Z.eq_dec l (decl c)); [reflexivity|contradiction].
Qed.

Lemma temp_step G c s : Inv c s ->
  Step G c s [(tempvar (temps s), EHelper (tempvar (temps s)))] c
    {| used := used s; dup := dup s; declared := declared s; hoisted := hoisted s; temps := S (temps s); labels := labels s |}.
Proof.
  intros I. constructor; cbn; auto; try apply incl_refl; try lia.
  - destruct I; constructor; auto.
  - intros n. split; [now left|]. intros [H|(l & [X|[]])]; [exact H|discriminate].
  - intros n e [X|[]]. injection X as <- <-. right. split; [reflexivity|]. left. exists (temps s). cbn. split; [lia|reflexivity].
  - repeat constructor. intros [].
  - repeat constructor. intros [].
Qed.
Definition next_label (s : st) : st :=
  {| used := used s; dup := dup s; declared := declared s; hoisted := hoisted s; temps := temps s; labels := S (labels s) |}.
Lemma label_step G c s (v : bool) : Inv c s ->
  Step G c s (if v then [(blockvar (labels s), EHelper (blockvar (labels s)))] else []) c (next_label s).
Proof.
  intros I. constructor; cbn; auto; try apply incl_refl; try lia.
  - destruct I; constructor; auto.
  - intros n. split; [now left|]. intros [H|(l & X)]; [exact H|]. destruct v; [destruct X as [X|[]]; discriminate|destruct X].
  - intros n e X. destruct v; [|destruct X]. destruct X as [X|[]]. injection X as <- <-. right. split; [reflexivity|].
    right. exists (labels s). cbn. split; [lia|reflexivity].
  - destruct v; repeat constructor. intros [].
  - destruct v; repeat constructor. intros [].
Qed.

Lemma hoist_step G hs : forall c s, Inv c s -> wf_h src c G hs ->
  let '(p, s') := hoist src s hs in Step G c s p (walk_h c hs) s'.
Proof.
  induction hs as [|l hs IH]; intros c s I W; cbn [hoist walk_h]; [now apply step_refl|].
  cbn [wf_h] in W. destruct W as [W1 W2]. unfold has. rewrite (i_decl _ _ I). unfold isHoistable.
  destruct (Z.ltb_spec 0 l) as [P|P]; cbn [andb] in *; [|now apply IH].
  destruct (in_dec Z.eq_dec l (decl c)) as [ID|ND]; cbn [negb] in *; [now apply IH|].
  destruct W1 as [W1|[W1|[NS UC]]]; [lia|contradiction|].
  destruct (hlet_fresh G c s l I P NS UC) as (s1 & -> & S1).
  specialize (IH (hbind c l) s1 (r_inv _ _ _ _ _ _ S1) W2). destruct (hoist src s1 hs) as [p s2].
  change ((name_of s1 l, ELocal l) :: p) with ([(name_of s1 l, ELocal l)] ++ p). eapply step_trans; [apply incl_refl|exact S1|exact IH].
Qed.

(** ** Lemma 1: states *)
Record SStep (c : sc) (s : st) (c' : sc) (s' : st) : Prop := {
  q_inv : Inv c' s';
  q_used : incl (used s) (used s');
  q_t : (temps s <= temps s')%nat;
  q_l : (labels s <= labels s')%nat;
  q_seen : incl (seen c) (seen c');
  q_keep : forall l, In l (seen c) -> name_of s' l = name_of s l }.
Lemma step_sstep G c s p c' s' : Step G c s p c' s' -> SStep c s c' s'.
Proof. intros A. destruct A. constructor; auto. intros n N. apply r_used0. now left. Qed.
Lemma sstep_trans c s c1 s1 c2 s2 : SStep c s c1 s1 -> SStep c1 s1 c2 s2 -> SStep c s c2 s2.
Proof.
  intros A B. destruct A, B. constructor; auto; try lia; try (eapply incl_tran; eassumption).
  intros l L. rewrite q_keep1 by auto. auto.
Qed.
Lemma sstep_refl c s : Inv c s -> SStep c s c s.
Proof. intros I. constructor; auto; apply incl_refl. Qed.

(** Leaving a block. *)
Lemma restore c s c' s' u : Inv c s -> SStep c s c' s' -> incl (used s) u -> (forall n, In n u -> ~ reserved n) ->
  Inv (with_vis (vis c) c') (set_used u s').
Proof.
  intros I A IU R. destruct A, I, q_inv0. constructor; cbn; auto.
  - eapply incl_tran; eauto.
  - intros l L. change (name_of (set_used u s') l) with (name_of s' l). rewrite q_keep0 by auto. auto.
Qed.
Lemma sub_step G c s c' s' : Inv c s -> SStep c s c' s' -> Step G c s [] (with_vis (vis c) c') (set_used (used s) s').
Proof.
  intros I A. pose proof (restore c s c' s' (used s) I A (incl_refl _) (i_res _ _ I)) as J. destruct A.
  constructor; cbn; auto; try apply incl_refl; try (constructor; fail).
  - intros n. split; [now left|]. intros [H|(l & [])]; exact H.
  - intros n e [].
Qed.
Lemma restore_sstep c s c1 s1 c' s' : Inv c s -> SStep c s c1 s1 -> SStep c1 s1 c' s' ->
  SStep c s (with_vis (vis c) c') (set_used (used s1) s').
Proof.
  intros I A B. pose proof (sstep_trans _ _ _ _ _ _ A B) as C. constructor; cbn; auto.
  - apply (restore c s c' s'); auto; [exact (q_used _ _ _ _ A)|exact (i_res _ _ (q_inv _ _ _ _ A))].
  - exact (q_used _ _ _ _ A).
  - exact (q_t _ _ _ _ C).
  - exact (q_l _ _ _ _ C).
  - exact (q_seen _ _ _ _ C).
  - exact (q_keep _ _ _ _ C).
Qed.

Lemma uncap_nil l : uncaptured src [] l.
Proof. intros g []. Qed.

(** A let at the head of a statement: the declaration it makes, if any. *)
Lemma let_step c s l : Inv c s -> 0 < l -> (In l (hois c) /\ In l (vis c) \/ ~ In l (seen c)) ->
  (binding s l = (false, true, s) /\ bind c l = c /\ In l (vis c)) \/
  exists s1, binding s l = (true, false, s1) /\ Step [] c s [(name_of s1 l, ELocal l)] (bind c l) s1.
Proof.
  intros I P [[H V]|N]; [left|right].
  - destruct (let_old c s l I H). auto.
  - apply let_fresh; auto. apply uncap_nil.
Qed.
Lemma err_step c s l : Inv c s -> 0 < l -> ~ In l (seen c) ->
  Step [] c s [(name_of (dedupe s l) l, ELocal l)] {| seen := l :: seen c; decl := decl c; hois := hois c; vis := l :: vis c |} (dedupe s l).
Proof.
  intros I P N. apply (fresh_step [] c s l s (hois c)); auto.
  - apply uncap_nil.
  - exact (i_decl _ _ I).
  - exact (i_hois _ _ I).
  - apply incl_tl, incl_refl.
  - exact (i_hd _ _ I).
  - exact (i_pos _ _ I).
Qed.

Lemma gen_steps :
  (forall e G c s, Inv c s -> wf_e src c G e -> let '(_, p, s') := gen_e src s e in Step G c s p (walk_e c e) s') /\
  (forall ss c s trail, Inv c s -> wf_s src c ss -> let '(_, s') := gen_s src s ss trail in SStep c s (walk_s c ss) s').
Proof.
  apply expr_stmts_ind.
  - intros G c s I _. now apply step_refl.
  - intros a IA b IB G c s I W. rewrite we_seq in W. destruct W as [WA WB]. rewrite ge_seq; cbn [walk_e walk_s]. specialize (IA G c s I WA). destruct (gen_e src s a) as [[ca pa] s1].
    specialize (IB _ _ s1 (r_inv _ _ _ _ _ _ IA) WB). destruct (gen_e src s1 b) as [[cb pb] s2].
    eapply step_trans; [|exact IA|exact IB]. apply incl_appl, incl_refl.
  - intros l G c s I _. now apply step_refl.
  - intros g G c s I _. now apply step_refl.
  - intros l i IH G c s I W. rewrite we_let in W. destruct W as (P & [[ID IV]|[NS UC]] & W); rewrite ge_let; cbn [walk_e walk_s].
    + destruct (hlet_old G c s l I P ID) as [-> S1]. specialize (IH G _ _ (r_inv _ _ _ _ _ _ S1) W).
      destruct (gen_e src (set_isHoisted s l) i) as [[ci pi] s2]. eapply step_trans; [apply incl_refl|exact S1|exact IH].
    + destruct (hlet_fresh G c s l I P NS UC) as (s1 & -> & S1). specialize (IH G _ _ (r_inv _ _ _ _ _ _ S1) W).
      destruct (gen_e src s1 i) as [[ci pi] s2]. eapply step_trans; [apply incl_refl|exact S1|exact IH].
  - intros e IH G c s I W. rewrite ge_temp; cbn [walk_e walk_s]. pose proof (temp_step G c s I) as S1. specialize (IH G c _ (r_inv _ _ _ _ _ _ S1) W).
    destruct (gen_e src _ e) as [[ce pe] s1]. eapply (step_trans G G _ _ [_]); [apply incl_refl|exact S1|exact IH].
  - intros hs v b IH G c s I W. rewrite we_sub in W. destruct W as [WH WB]. rewrite ge_sub; cbn [walk_e walk_s]. pose proof (hoist_step G hs c s I WH) as S1. destruct (hoist src s hs) as [ph s1].
    pose proof (label_step G (walk_h c hs) s1 v (r_inv _ _ _ _ _ _ S1)) as S2.
    specialize (IH (walk_h c hs) (next_label s1) (if v then CExp (CName (blockvar (labels s1)) (EHelper (blockvar (labels s1)))) CNil else CNil) (r_inv _ _ _ _ _ _ S2) WB).
    unfold next_label in *. destruct (gen_s src _ b _) as [cb s3].
    pose proof (sub_step G _ _ _ _ (r_inv _ _ _ _ _ _ S2) IH) as S3. cbn [used] in S3.
    eapply step_trans; [apply incl_refl|exact S1|]. rewrite <- (app_nil_r (if v then _ else _)). eapply step_trans; [apply incl_refl|exact S2|exact S3].
  - intros c s trail I _. now apply sstep_refl.
  - intros e IE r IR c s trail I W. rewrite ws_exp in W. destruct W as [WE WR]. rewrite gs_exp; cbn [walk_e walk_s]. specialize (IE [] c s I WE). destruct (gen_e src s e) as [[ce pe] s1].
    specialize (IR _ s1 trail (r_inv _ _ _ _ _ _ IE) WR). destruct (gen_s src s1 r trail) as [cr s2].
    eapply sstep_trans; [eapply step_sstep; exact IE|exact IR].
  - intros l i IE r IR c s trail I W. rewrite ws_let in W. destruct W as (P & CD & WE & WR). rewrite gs_let; cbn [walk_e walk_s].
    assert (S1 : exists new h s1, binding s l = (new, h, s1) /\ SStep c s (bind c l) s1).
    { destruct (let_step c s l I P CD) as [(E & -> & _)|(s1 & E & S1)]; eexists _, _, _; (split; [exact E|]);
        [now apply sstep_refl|eapply step_sstep; exact S1]. }
    destruct S1 as (new & h & s1 & -> & S1). specialize (IE [] _ s1 (q_inv _ _ _ _ S1) WE). destruct (gen_e src s1 i) as [[ci pi] s2].
    specialize (IR _ s2 trail (r_inv _ _ _ _ _ _ IE) WR). destruct (gen_s src s2 r trail) as [cr s3].
    eapply sstep_trans; [exact S1|]. eapply sstep_trans; [eapply step_sstep; exact IE|exact IR].
  - intros d i IE b IB r IR c s trail I W. rewrite gs_for; cbn [walk_e walk_s]. rewrite ws_for in W. cbv zeta in W. destruct W as (CD & WE & WB & WR).
    assert (S1 : exists dd pd s1, for_head src s d = (dd, pd, s1) /\ SStep c s (match d with None => c | Some l => bind c l end) s1).
    { unfold for_head. destruct d as [l|]; [|eexists _, _, _; split; [reflexivity|now apply sstep_refl]]. destruct (CD l eq_refl) as [P CD'].
      destruct (let_step c s l I P CD') as [(E & -> & _)|(s1 & E & S1)]; rewrite E; eexists _, _, _; (split; [reflexivity|]);
        [now apply sstep_refl|eapply step_sstep; exact S1]. }
    destruct S1 as (dd & pd & s1 & -> & S1). specialize (IE [] _ s1 (q_inv _ _ _ _ S1) WE). destruct (gen_e src s1 i) as [[ci pi] s2].
    specialize (IB _ s2 CNil (r_inv _ _ _ _ _ _ IE) WB). destruct (gen_s src s2 b CNil) as [cb s3].
    assert (S2 : SStep c s (walk_e (match d with None => c | Some l => bind c l end) i) s2) by (eapply sstep_trans; [exact S1|eapply step_sstep; exact IE]).
    pose proof (restore_sstep _ _ _ _ _ _ I S2 IB) as S3.
    specialize (IR _ _ trail (q_inv _ _ _ _ S3) WR). destruct (gen_s src (set_used (used s2) s3) r trail) as [cr s4].
    eapply sstep_trans; [exact S3|exact IR].
  - intros a IA err b IB r IR c s trail I W. rewrite gs_try; cbn [walk_e walk_s]. rewrite ws_try in W. cbv zeta in W. destruct W as (WA & CE & WB & WR).
    specialize (IA c s CNil I WA). destruct (gen_s src s a CNil) as [ca s1].
    pose proof (step_sstep _ _ _ _ _ _ (sub_step [] _ _ _ _ I IA)) as S1. cbv zeta.
    set (c1 := with_vis (vis c) (walk_s c a)) in *. set (s1' := set_used (used s) s1) in *.
    set (c2 := match err with None => c1 | Some l => {| seen := l :: seen c1; decl := decl c1; hois := hois c1; vis := l :: vis c1 |} end) in *.
    assert (S2 : exists pe s2, err_head src s1' err = (pe, s2) /\ SStep c1 s1' c2 s2).
    { subst c2. unfold err_head. destruct err as [l|]; [|eexists _, _; split; [reflexivity|now apply sstep_refl, S1]]. destruct (CE l eq_refl) as [P N].
      eexists _, _. split; [reflexivity|]. eapply step_sstep. apply err_step; auto. apply S1. }
    destruct S2 as (pe & s2 & -> & S2). specialize (IB c2 s2 CNil (q_inv _ _ _ _ S2) WB). destruct (gen_s src s2 b CNil) as [cb s3].
    assert (S02 : SStep c s c2 s2) by (eapply sstep_trans; [exact S1|exact S2]).
    pose proof (restore_sstep _ _ _ _ _ _ I S02 IB) as S3.
    specialize (IR _ _ trail (q_inv _ _ _ _ S3) WR). destruct (gen_s src (set_used (used s2) s3) r trail) as [cr s4].
    eapply sstep_trans; [exact S3|exact IR].
Qed.

(** ** Lemma 2: lookups *)
Definition agree (F : env) (c : sc) (s : st) : Prop := forall l, In l (vis c) -> meaning F (name_of s l) = ELocal l.
Definition old (s : st) (n : name) : Prop :=
  (exists k, (k < temps s)%nat /\ n = tempvar k) \/ (exists k, (k < labels s)%nat /\ n = blockvar k) \/ n = text "o_0".
Lemma old_reserved s n : old s n -> reserved n.
Proof. intros [(k & _ & ->)|[(k & _ & ->)| ->]]; [apply tempvar_reserved|apply blockvar_reserved|right; reflexivity]. Qed.
Lemma old_newer s s' n : old s n -> newer s s' n -> False.
Proof.
  intros [(k & K & ->)|[(k & K & ->)| ->]] [(j & J & E)|(j & J & E)].
  - apply tempvar_inj in E. lia.
  - now apply temp_block in E.
  - symmetry in E. now apply temp_block in E.
  - apply blockvar_inj in E. lia.
  - symmetry in E. now apply temp_o in E.
  - symmetry in E. now apply block_o in E.
Qed.
Definition trail_ok (F : env) (s : st) (trail : cstmts) : Prop :=
  trail = CNil \/ exists k, (k < labels s)%nat /\ trail = CExp (CName (blockvar k) (EHelper (blockvar k))) CNil /\
                            meaning F (blockvar k) = EHelper (blockvar k).
Record EnvOK (F : env) (here : list name) (c : sc) (s : st) (Q : name -> Prop) (QL : Z -> Prop) (trail : cstmts) : Prop := {
  e_agree : agree F c s;
  e_dom : forall n, In n (map fst F) -> In n (used s) \/ reserved n \/ Q n;
  e_ent : forall l, In (ELocal l) (map snd F) -> In l (seen c) \/ QL l;
  e_here : forall n, In n here -> In n (used s) \/ old s n;
  e_trail : trail_ok F s trail }.

Lemma old_le s s' n : (temps s <= temps s')%nat -> (labels s <= labels s')%nat -> old s n -> old s' n.
Proof.
  intros T L [(k & K & ->)|[(k & K & ->)| ->]]; [left|right; left|right; right; reflexivity]; exists k; split; auto; lia.
Qed.
Lemma trail_le F s s' t : (labels s <= labels s')%nat -> trail_ok F s t -> trail_ok F s' t.
Proof. intros L [->|(k & K & E & M)]; [left; reflexivity|right; exists k; split; [lia|auto]]. Qed.

Lemma env_weaken F here c s Q QL trail c2 s2 : EnvOK F here c s Q QL trail ->
  (forall l, In l (vis c2) -> In l (vis c) /\ name_of s2 l = name_of s l) -> incl (seen c) (seen c2) -> incl (used s) (used s2) ->
  (temps s <= temps s2)%nat -> (labels s <= labels s2)%nat -> EnvOK F here c2 s2 Q QL trail.
Proof.
  intros [A B C D E] V S1 U T L. constructor.
  - intros l IL. destruct (V l IL) as [V1 ->]. now apply A.
  - intros n N. destruct (B n N) as [X|X]; auto.
  - intros l X. destruct (C l X); auto.
  - intros n N. destruct (D n N) as [X|X]; [left; auto|right; eapply old_le; eauto].
  - eapply trail_le; eauto.
Qed.

(** Declarations, taken from those of an expression. *)
Lemma enter F here c s Q QL trail p c1 s1 p' c2 s2 :
  Inv c s -> Step [] c s p c1 s1 -> EnvOK F here c s Q QL trail -> (forall l, In l (seen c1) -> ~ QL l) ->
  incl p' p -> NoDup (map fst p') -> NoDup (map snd p') ->
  (forall l, In l (vis c2) -> (In l (vis c) \/ local_in l p') /\ name_of s2 l = name_of s1 l) ->
  incl (seen c) (seen c2) -> (forall l, local_in l p' -> In l (seen c2)) ->
  incl (used s1) (used s2) -> (temps s1 <= temps s2)%nat -> (labels s1 <= labels s2)%nat ->
  EnvOK (rev p' ++ F) (rev (map fst p') ++ here) c2 s2 Q QL trail /\ stmts_ok F here (decls p' CNil) /\
  (forall n e, In (n, e) p' -> meaning (rev p' ++ F) n = e).
Proof.
  intros I S E HQ IP N1 N2 V2 SC SL U2 T2 L2.
  assert (RV : forall n, In n (rev (map fst p')) <-> In n (map fst p')) by (intros; symmetry; apply in_rev).
  assert (KP : forall n, ~ In n (map fst p') -> meaning (rev p' ++ F) n = meaning F n).
  { intros n N. apply meaning_app_out. rewrite map_rev. now rewrite <- in_rev. }
  assert (MP : forall n e, In (n, e) p' -> meaning (rev p' ++ F) n = e) by (intros; now apply meaning_rev).
  pose proof (r_t _ _ _ _ _ _ S). pose proof (r_l _ _ _ _ _ _ S).
  split; [|split]; [|apply decls_ok; auto|exact MP].
  - constructor.
    + intros l IL. destruct (V2 l IL) as [[V|V] ->].
      * assert (US : In (name_of s l) (used s)) by now apply (i_used _ _ I).
        rewrite (r_keep _ _ _ _ _ _ S) by now apply (i_vs _ _ I). rewrite KP; [now apply (e_agree _ _ _ _ _ _ _ E)|].
        intros X. apply in_fst in X as (e & X). apply IP in X. destruct (r_pre _ _ _ _ _ _ S _ _ X) as [(x & _ & _ & _ & _ & NU & _)|[_ NW]]; [contradiction|].
        apply newer_reserved in NW. revert NW. now apply (i_res _ _ I).
      * apply in_snd in V as (n & V). pose proof (IP _ V) as V'. destruct (r_pre _ _ _ _ _ _ S _ _ V') as [(x & X & _ & _ & NM & _)|[X _]]; [|discriminate].
        injection X as <-. rewrite <- NM. now apply MP.
    + intros n N. rewrite map_app, map_rev in N. apply in_app_or in N as [N|N].
      * apply RV in N. apply in_fst in N as (e & N). apply IP in N. destruct (r_pre _ _ _ _ _ _ S _ _ N) as [(x & -> & _)|[_ NW]].
        -- left. apply U2. apply (r_used _ _ _ _ _ _ S). right. now exists x.
        -- right. left. eapply newer_reserved; eauto.
      * destruct (e_dom _ _ _ _ _ _ _ E n N) as [X|X]; [|now right]. left. apply U2. apply (r_used _ _ _ _ _ _ S). now left.
    + intros l X. rewrite map_app, map_rev in X. apply in_app_or in X as [X|X].
      * left. apply SL. unfold local_in. now apply in_rev.
      * destruct (e_ent _ _ _ _ _ _ _ E l X) as [Y|Y]; [left; now apply SC|now right].
    + intros n N. apply in_app_or in N as [N|N].
      * apply RV in N. apply in_fst in N as (e & N). apply IP in N. destruct (r_pre _ _ _ _ _ _ S _ _ N) as [(x & -> & _)|[_ [(k & K & ->)|(k & K & ->)]]].
        -- left. apply U2. apply (r_used _ _ _ _ _ _ S). right. now exists x.
        -- right. left. exists k. split; [lia|reflexivity].
        -- right. right. left. exists k. split; [lia|reflexivity].
      * destruct (e_here _ _ _ _ _ _ _ E n N) as [X|X]; [left; apply U2; apply (r_used _ _ _ _ _ _ S); now left|right]. eapply old_le; [| |exact X]; lia.
    + destruct (e_trail _ _ _ _ _ _ _ E) as [->|(k & K & -> & M)]; [left; reflexivity|right]. exists k. split; [lia|]. split; [reflexivity|].
      rewrite KP; [exact M|]. intros X. apply in_fst in X as (e & X). apply IP in X.
      destruct (r_pre _ _ _ _ _ _ S _ _ X) as [(x & -> & _ & _ & _ & _)|[_ NW]].
      * apply (i_res _ _ (r_inv _ _ _ _ _ _ S) (blockvar k)); [|apply blockvar_reserved]. apply (r_used _ _ _ _ _ _ S). right. now exists x.
      * apply (old_newer s s1 (blockvar k)); [|exact NW]. right. left. exists k. split; [exact K|reflexivity].
  - intros n N H1. apply in_fst in N as (e & N). apply IP in N.
    destruct (e_here _ _ _ _ _ _ _ E n H1) as [X|X]; destruct (r_pre _ _ _ _ _ _ S _ _ N) as [(x & -> & _ & _ & NM & NU & _)|[_ NW]].
    + contradiction.
    + apply newer_reserved in NW. revert NW. now apply (i_res _ _ I).
    + apply old_reserved in X. revert X. apply (i_res _ _ (r_inv _ _ _ _ _ _ S)). apply (r_used _ _ _ _ _ _ S). right. now exists x.
    + now apply (old_newer s s1 n).
  - intros l X Y. apply in_snd in X as (n & X). apply IP in X. destruct (r_pre _ _ _ _ _ _ S _ _ X) as [(x & Z1 & V & NS & _)|[Z1 _]]; [|discriminate].
    injection Z1 as <-. destruct (e_ent _ _ _ _ _ _ _ E l Y) as [B|B]; [contradiction|]. revert B. apply HQ. now apply (i_vs _ _ (r_inv _ _ _ _ _ _ S)).
  - exact Logic.I.
Qed.

Lemma decls_cut p : forall q F here, stmts_ok F here (decls (p ++ q) CNil) ->
  (forall X, stmts_ok (rev p ++ F) (rev (map fst p) ++ here) X -> stmts_ok F here (decls p X)) /\
  stmts_ok (rev p ++ F) (rev (map fst p) ++ here) (decls q CNil).
Proof.
  induction p as [|[n e] p IH]; intros q F here OK; [split; auto|]. cbn [app decls stmts_ok] in OK. destruct OK as [FR OK].
  destruct (IH _ _ _ OK) as [A B]. cbn [rev map fst]. rewrite <- !app_assoc. cbn [app]. split; [|exact B].
  intros X HX. cbn [decls stmts_ok]. split; [exact FR|]. now apply A.
Qed.

Lemma advance G F c s p c1 s1 : Inv c s -> Step G c s p c1 s1 -> agree F c s -> (forall n x, In (n, x) p -> meaning F n = x) -> agree F c1 s1.
Proof.
  intros I S A M l V. apply (r_vis _ _ _ _ _ _ S) in V as [V|V].
  - rewrite (r_keep _ _ _ _ _ _ S) by now apply (i_vs _ _ I). now apply A.
  - apply in_snd in V as (n & V). destruct (r_pre _ _ _ _ _ _ S _ _ V) as [(x & X & _ & _ & NM & _)|[X _]]; [|discriminate].
    injection X as <-. rewrite <- NM. now apply M.
Qed.
Lemma step_loc_seen G c s p c1 s1 l : Step G c s p c1 s1 -> local_in l p -> In l (vis c1) /\ ~ In l (seen c).
Proof.
  intros S V. apply in_snd in V as (n & V). destruct (r_pre _ _ _ _ _ _ S _ _ V) as [(x & X & V1 & NS & _)|[X _]]; [|discriminate].
  injection X as <-. auto.
Qed.
Lemma env_block F here c s Q QL trail h : EnvOK F here c s Q QL trail -> (forall n, In n h -> In n here) -> EnvOK F h c s Q QL CNil.
Proof. intros [A B C D E] H. constructor; auto. left. reflexivity. Qed.

Definition OkE (e : expr) : Prop := forall G c s F (Q : name -> Prop) (QL : Z -> Prop), Inv c s -> wf_e src c G e ->
  let '(ce, p, s') := gen_e src s e in
  agree F c s -> (forall n x, In (n, x) p -> meaning F n = x) ->
  (forall n, In n (map fst F) -> In n (used s') \/ reserved n \/ Q n) -> (forall g, In g (glob_e e) -> ~ Q g) ->
  (forall l, In (ELocal l) (map snd F) -> In l (seen c) \/ local_in l p \/ QL l) -> (forall l, In l (seen (walk_e c e)) -> ~ QL l) ->
  expr_ok F ce.
Definition OkS (ss : stmts) : Prop := forall c s F here (Q : name -> Prop) (QL : Z -> Prop) trail, Inv c s -> wf_s src c ss ->
  EnvOK F here c s Q QL trail -> (forall g, In g (glob_s ss) -> ~ Q g) -> (forall l, In l (seen (walk_s c ss)) -> ~ QL l) ->
  stmts_ok F here (fst (gen_s src s ss trail)).

Lemma head e c s p0 c1 s1 F here Q QL trail : OkE e ->
  Inv c s -> Step [] c s p0 c1 s1 -> wf_e src c1 [] e -> EnvOK F here c s Q QL trail ->
  (forall l, In l (seen (walk_e c1 e)) -> ~ QL l) -> (forall g, In g (glob_e e) -> ~ Q g) ->
  let '(ce, pi, s2) := gen_e src s1 e in
  Step [] c s (p0 ++ pi) (walk_e c1 e) s2 /\ Step [] c1 s1 pi (walk_e c1 e) s2 /\
  (forall p', p' = p0 ++ pi \/ p' = pi ++ p0 ->
   EnvOK (rev p' ++ F) (rev (map fst p') ++ here) (walk_e c1 e) s2 Q QL trail /\ stmts_ok F here (decls p' CNil) /\ expr_ok (rev p' ++ F) ce).
Proof.
  intros OE I S0 W E HQL HQ. pose proof (proj1 gen_steps e [] c1 s1 (r_inv _ _ _ _ _ _ S0) W) as S1.
  unfold OkE in OE. pose proof (fun F Q QL => OE [] c1 s1 F Q QL (r_inv _ _ _ _ _ _ S0) W) as OE'. clear OE. destruct (gen_e src s1 e) as [[ce pi] s2].
  assert (S : Step [] c s (p0 ++ pi) (walk_e c1 e) s2) by (eapply step_trans; [apply incl_refl|exact S0|exact S1]).
  split; [exact S|]. split; [exact S1|]. intros p' HP.
  assert (IP : forall x, In x p' <-> In x (p0 ++ pi)) by (intros x; destruct HP as [->| ->]; rewrite ?in_app_iff; tauto).
  assert (N1 : NoDup (map fst p')).
  { pose proof (r_nd1 _ _ _ _ _ _ S) as N. destruct HP as [->| ->]; [exact N|]. rewrite map_app in *.
    apply (Permutation.Permutation_NoDup (l := map fst p0 ++ map fst pi)); [apply Permutation.Permutation_app_comm|exact N]. }
  assert (N2 : NoDup (map snd p')).
  { pose proof (r_nd2 _ _ _ _ _ _ S) as N. destruct HP as [->| ->]; [exact N|]. rewrite map_app in *.
    apply (Permutation.Permutation_NoDup (l := map snd p0 ++ map snd pi)); [apply Permutation.Permutation_app_comm|exact N]. }
  assert (LI : forall l, local_in l p' <-> local_in l (p0 ++ pi)).
  { intros l. unfold local_in. rewrite !in_snd. split; intros (n & N); exists n; now apply IP. }
  destruct (enter F here c s Q QL trail (p0 ++ pi) (walk_e c1 e) s2 p' (walk_e c1 e) s2 I S E HQL) as (E1 & D & M); auto.
  - intros x X. now apply IP.
  - intros l V. split; [|reflexivity]. apply (r_vis _ _ _ _ _ _ S) in V as [V|V]; [now left|right; now apply LI].
  - exact (r_seen _ _ _ _ _ _ S).
  - intros l V. apply LI in V. apply (i_vs _ _ (r_inv _ _ _ _ _ _ S)). now apply (step_loc_seen _ _ _ _ _ _ _ S V).
  - apply incl_refl.
  - split; [exact E1|]. split; [exact D|]. apply (OE' (rev p' ++ F) Q QL).
    + assert (AC : agree (rev p' ++ F) c s).
      { intros l V. rewrite <- (r_keep _ _ _ _ _ _ S) by now apply (i_vs _ _ I). apply (e_agree _ _ _ _ _ _ _ E1). now apply (r_vis1 _ _ _ _ _ _ S). }
      apply (advance [] _ c s p0); auto. intros n x X. apply M. apply IP. apply in_or_app. now left.
    + intros n x X. apply M. apply IP. apply in_or_app. now right.
    + exact (e_dom _ _ _ _ _ _ _ E1).
    + exact HQ.
    + intros l X. rewrite map_app, map_rev in X. apply in_app_or in X as [X|X].
      * apply in_rev in X. apply LI in X. unfold local_in in X. rewrite map_app in X. apply in_app_or in X as [X|X]; [left|right; now left].
        apply (i_vs _ _ (r_inv _ _ _ _ _ _ S0)). now apply (step_loc_seen _ _ _ _ _ _ _ S0 X).
      * destruct (e_ent _ _ _ _ _ _ _ E l X) as [Y|Y]; [left; now apply (r_seen _ _ _ _ _ _ S0)|right; now right].
    + exact HQL.
Qed.

Lemma bind_mono c l : incl (seen c) (seen (bind c l)).
Proof. unfold bind. destruct (in_dec Z.eq_dec l (decl c)); [apply incl_refl|apply incl_tl, incl_refl]. Qed.
Lemma hbind_mono c l : incl (seen c) (seen (hbind c l)).
Proof. unfold hbind, bind. cbn [decl]. destruct (in_dec Z.eq_dec l (decl c)); [apply incl_refl|apply incl_tl, incl_refl]. Qed.
Lemma walk_h_mono hs : forall c, incl (seen c) (seen (walk_h c hs)).
Proof.
  induction hs as [|l hs IH]; intros c; [apply incl_refl|]. cbn [walk_h]. eapply incl_tran; [|apply IH].
  destruct (_ && _); [apply hbind_mono|apply incl_refl].
Qed.
Lemma walk_mono : (forall e c, incl (seen c) (seen (walk_e c e))) /\ (forall ss c, incl (seen c) (seen (walk_s c ss))).
Proof.
  apply expr_stmts_ind; intros; cbn [walk_e walk_s]; cbv zeta; try apply incl_refl.
  - eapply incl_tran; [apply H|apply H0].
  - eapply incl_tran; [apply hbind_mono|apply H].
  - apply H.
  - cbn [seen with_vis]. eapply incl_tran; [apply walk_h_mono|apply H].
  - eapply incl_tran; [apply H|apply H0].
  - eapply incl_tran; [apply (bind_mono c l)|]. eapply incl_tran; [apply H|apply H0].
  - eapply incl_tran; [|apply H1]. cbn [seen with_vis]. eapply incl_tran; [|apply H0]. eapply incl_tran; [|apply H].
    destruct d; [apply bind_mono|apply incl_refl].
  - eapply incl_tran; [|apply H1]. cbn [seen with_vis]. eapply incl_tran; [|apply H0].
    destruct err; cbn [seen with_vis]; [apply incl_tl|]; apply H.
Qed.

Lemma gen_ok : (forall e, OkE e) /\ (forall ss, OkS ss).
Proof.
  apply expr_stmts_ind.
  - intros G c s F Q QL I _. cbn. auto.
  - intros a IA b IB G c s F Q QL I W. rewrite we_seq in W. destruct W as [WA WB]. rewrite ge_seq.
    pose proof (proj1 gen_steps a G c s I WA) as SA. pose proof (fun F Q QL => IA G c s F Q QL I WA) as IA'. clear IA.
    destruct (gen_e src s a) as [[ca pa] s1].
    pose proof (proj1 gen_steps b _ _ s1 (r_inv _ _ _ _ _ _ SA) WB) as SB. pose proof (fun F Q QL => IB _ _ s1 F Q QL (r_inv _ _ _ _ _ _ SA) WB) as IB'. clear IB.
    destruct (gen_e src s1 b) as [[cb pb] s2]. intros A M D HQ E HQL. cbn [expr_ok]. cbn [glob_e] in HQ. cbn [walk_e] in HQL. split.
    + apply (IA' F (fun n => Q n \/ exists l, In (n, ELocal l) pb) (fun l => QL l \/ local_in l pb)); auto.
      * intros n x X. apply M. apply in_or_app. now left.
      * intros n X. destruct (D n X) as [Y|[Y|Y]]; auto. apply (r_used _ _ _ _ _ _ SB) in Y as [Y|Y]; auto.
      * intros g X [Y|(l & Y)]; [apply (HQ g); auto; apply in_or_app; now left|].
        destruct (r_pre _ _ _ _ _ _ SB _ _ Y) as [(x & _ & _ & _ & _ & _ & N)|[Z1 _]]; [|discriminate]. apply (N g); [|reflexivity]. apply in_or_app. now right.
      * intros l X. destruct (E l X) as [Y|[Y|Y]]; auto. unfold local_in in Y. rewrite map_app in Y. apply in_app_or in Y as [Y|Y]; auto.
      * intros l X [Y|Y]; [apply (HQL l); auto; now apply (r_seen _ _ _ _ _ _ SB)|]. destruct (step_loc_seen _ _ _ _ _ _ _ SB Y). contradiction.
    + apply (IB' F Q QL); auto.
      * apply (advance G F c s pa _ s1 I SA A). intros n x X. apply M. apply in_or_app. now left.
      * intros n x X. apply M. apply in_or_app. now right.
      * intros g X. apply HQ. apply in_or_app. now right.
      * intros l X. destruct (E l X) as [Y|[Y|Y]]; auto; [left; now apply (r_seen _ _ _ _ _ _ SA)|].
        unfold local_in in Y. rewrite map_app in Y. apply in_app_or in Y as [Y|Y]; auto. left.
        apply (i_vs _ _ (r_inv _ _ _ _ _ _ SA)). now apply (step_loc_seen _ _ _ _ _ _ _ SA Y).
  - intros l G c s F Q QL I W. cbn. intros A _ _ _ _ _. now apply A.
  - intros g G c s F Q QL I W. cbn. intros A _ D HQ _ _. destruct (in_dec name_eq g (used s)) as [U|U]; [reflexivity|]. cbn.
    apply meaning_out. intros X. destruct (D g X) as [Y|[Y|Y]]; [contradiction|now apply W|]. apply (HQ g); auto.
  - intros l i IH G c s F Q QL I W. rewrite we_let in W. destruct W as (P & CD & W). rewrite ge_let.
    assert (S1 : exists new s1, binding (set_isHoisted s l) l = (new, true, s1) /\
       Step G c s (if new : bool then [(name_of s1 l, ELocal l)] else []) (hbind c l) s1 /\ In l (vis (hbind c l))).
    { destruct CD as [[ID IV]|[NS UC]].
      - destruct (hlet_old G c s l I P ID) as [E S1]. exists false, (set_isHoisted s l). split; [exact E|]. split; [exact S1|]. now apply (r_vis1 _ _ _ _ _ _ S1).
      - destruct (hlet_fresh G c s l I P NS UC) as (s1 & E & S1). exists true, s1. split; [exact E|]. split; [exact S1|].
        apply (step_loc_seen _ _ _ _ _ _ l S1). now left. }
    destruct S1 as (new & s1 & -> & S1 & V). set (p1 := if new then [(name_of s1 l, ELocal l)] else []) in *.
    pose proof (proj1 gen_steps i G _ s1 (r_inv _ _ _ _ _ _ S1) W) as SB. pose proof (fun F Q QL => IH G _ s1 F Q QL (r_inv _ _ _ _ _ _ S1) W) as IH'. clear IH.
    destruct (gen_e src s1 i) as [[ci pi] s2]. intros A M D HQ E HQL. cbn [expr_ok].
    assert (A1 : agree F (hbind c l) s1) by (apply (advance G F c s p1 _ s1 I S1 A); intros n x X; apply M; apply in_or_app; now left).
    split; [now apply A1|]. apply (IH' F Q QL); auto.
    + intros n x X. apply M. apply in_or_app. now right.
    + intros y X. destruct (E y X) as [Y|[Y|Y]]; auto; [left; now apply (r_seen _ _ _ _ _ _ S1)|].
      unfold local_in in Y. rewrite map_app in Y. apply in_app_or in Y as [Y|Y]; auto. left.
      apply (i_vs _ _ (r_inv _ _ _ _ _ _ S1)). now apply (step_loc_seen _ _ _ _ _ _ _ S1 Y).
  - intros e IH G c s F Q QL I W. rewrite ge_temp. pose proof (temp_step G c s I) as S1. change (wf_e src c G e) in W.
    pose proof (fun F Q QL => IH G c _ F Q QL (r_inv _ _ _ _ _ _ S1) W) as IH'. clear IH.
    destruct (gen_e src _ e) as [[ce pe] s1]. intros A M D HQ E HQL. cbn [expr_ok]. split; [|apply M; now left].
    apply (IH' F Q QL); auto.
    + intros n x X. apply M. now right.
    + intros y X. destruct (E y X) as [Y|[[Y|Y]|Y]]; auto. discriminate.
  - intros hs v b IH G c s F Q QL I W. rewrite we_sub in W. destruct W as [WH WB]. rewrite ge_sub.
    pose proof (hoist_step G hs c s I WH) as S1. destruct (hoist src s hs) as [ph s1].
    pose proof (label_step G (walk_h c hs) s1 v (r_inv _ _ _ _ _ _ S1)) as S2.
    cbv zeta. set (tr := if v then CExp (CName (blockvar (labels s1)) (EHelper (blockvar (labels s1)))) CNil else CNil).
    pose proof (fun F Q QL => IH (walk_h c hs) (next_label s1) F [] Q QL tr (r_inv _ _ _ _ _ _ S2) WB) as IH'. clear IH.
    fold (next_label s1). destruct (gen_s src (next_label s1) b tr) as [cb s3]. cbn [fst] in IH'. intros A M D HQ E HQL. cbn [expr_ok].
    assert (A1 : agree F (walk_h c hs) s1) by (apply (advance G F c s ph _ s1 I S1 A); intros n x X; apply M; apply in_or_app; now left).
    assert (MV : v = true -> meaning F (blockvar (labels s1)) = EHelper (blockvar (labels s1))).
    { intros ->. apply M. apply in_or_app. right. now left. }
    split; [|destruct v; [now apply MV|exact Logic.I]]. apply (IH' F Q QL); auto. constructor.
    + exact A1.
    + exact D.
    + intros l X. destruct (E l X) as [Y|[Y|Y]]; auto; [left; now apply (r_seen _ _ _ _ _ _ S1)|].
      unfold local_in in Y. rewrite map_app in Y. apply in_app_or in Y as [Y|Y]; [left|destruct v; [destruct Y as [Y|[]]; discriminate|destruct Y]].
      apply (i_vs _ _ (r_inv _ _ _ _ _ _ S1)). now apply (step_loc_seen _ _ _ _ _ _ _ S1 Y).
    + intros n [].
    + subst tr. destruct v; [right|left; reflexivity]. exists (labels s1). split; [cbn; lia|]. split; [reflexivity|]. now apply MV.
  - intros c s F here Q QL trail I _ E _ _. cbn. destruct (e_trail _ _ _ _ _ _ _ E) as [->|(k & _ & -> & M)]; cbn; auto.
  - intros e IE r IR c s F here Q QL trail I W E HQ HQL. rewrite ws_exp in W. destruct W as [WE WR]. rewrite gs_exp. cbn [glob_s] in HQ. cbn [walk_s] in HQL.
    pose proof (proj2 walk_mono r (walk_e c e)) as MS.
    pose proof (head e c s [] c s F here Q QL trail IE I (step_refl _ _ _ I) WE E) as H.
    destruct (gen_e src s e) as [[ce pe] s1]. destruct H as (S1 & _ & H); [auto|intros g X; apply HQ; apply in_or_app; now left|].
    destruct (H pe (or_introl eq_refl)) as (E1 & D & OK). cbn [app] in S1.
    pose proof (IR _ s1 _ _ Q QL trail (r_inv _ _ _ _ _ _ S1) WR E1) as OR. destruct (gen_s src s1 r trail) as [cr s2]. cbn [fst] in *.
    rewrite <- (app_nil_r pe) in D. destruct (decls_cut _ _ _ _ D) as [DX _]. apply DX. cbn [stmts_ok]. split; [exact OK|].
    apply OR; auto. intros g X. apply HQ. apply in_or_app. now right.
  - intros l i IE r IR c s F here Q QL trail I W E HQ HQL. rewrite ws_let in W. destruct W as (P & CD & WE & WR). rewrite gs_let. cbn [glob_s] in HQ. cbn [walk_s] in HQL.
    pose proof (proj2 walk_mono r (walk_e (bind c l) i)) as MS. destruct (let_step c s l I P CD) as [(B & BC & V)|(s1 & B & S0)]; rewrite B.
    + rewrite BC in *. pose proof (head i c s [] c s F here Q QL trail IE I (step_refl _ _ _ I) WE E) as H. cbv zeta.
      destruct (gen_e src s i) as [[ci pi] s2]. destruct H as (S1 & _ & H); [auto|intros g X; apply HQ; apply in_or_app; now left|].
      destruct (H pi (or_introl eq_refl)) as (E1 & D & OK). cbn [app] in S1.
      pose proof (IR _ s2 _ _ Q QL trail (r_inv _ _ _ _ _ _ S1) WR E1) as OR. destruct (gen_s src s2 r trail) as [cr s3]. cbn [fst app] in *.
      rewrite <- (app_nil_r pi) in D. destruct (decls_cut _ _ _ _ D) as [DX _]. apply DX. cbn [stmts_ok expr_ok]. split; [split; [|exact OK]|].
      * rewrite <- (r_keep _ _ _ _ _ _ S1) by now apply (i_vs _ _ I). apply (e_agree _ _ _ _ _ _ _ E1). now apply (r_vis1 _ _ _ _ _ _ S1).
      * apply OR; auto. intros g X. apply HQ. apply in_or_app. now right.
    + pose proof (head i c s _ _ s1 F here Q QL trail IE I S0 WE E) as H. cbv zeta.
      destruct (gen_e src s1 i) as [[ci pi] s2]. destruct H as (S1 & _ & H); [auto|intros g X; apply HQ; apply in_or_app; now left|].
      destruct (H _ (or_intror eq_refl)) as (E1 & D & OK).
      pose proof (IR _ s2 _ _ Q QL trail (r_inv _ _ _ _ _ _ S1) WR E1) as OR. destruct (gen_s src s2 r trail) as [cr s3]. cbn [fst] in *.
      destruct (decls_cut _ _ _ _ D) as [DX DY]. apply DX. cbn [decls stmts_ok] in DY. destruct DY as [FR _]. cbn [stmts_ok].
      rewrite map_app, !rev_app_distr in OR. rewrite rev_app_distr in OK. cbn [rev app map fst] in OR, OK. split; [exact FR|]. split; [exact OK|].
      apply OR; auto. intros g X. apply HQ. apply in_or_app. now right.
  - intros d i IE b IB r IR c s F here Q QL trail I W E HQ HQL. rewrite ws_for in W. cbv zeta in W. destruct W as (CD & WE & WB & WR). rewrite gs_for.
    cbn [glob_s] in HQ. cbn [walk_s] in HQL. set (c1 := match d with None => c | Some l => bind c l end) in *.
    set (c3 := walk_s (walk_e c1 i) b) in *.
    pose proof (proj2 walk_mono r (with_vis (vis c) c3)) as MS. pose proof (proj2 walk_mono b (walk_e c1 i)) as MS2. fold c3 in MS2. cbn [seen with_vis] in MS.
    assert (HQ1 : forall g, In g (glob_e i) -> ~ Q g) by (intros g X; apply HQ; apply in_or_app; now left).
    assert (HQ2 : forall g, In g (glob_s b) -> ~ Q g) by (intros g X; apply HQ; apply in_or_app; right; apply in_or_app; now left).
    assert (HQ3 : forall g, In g (glob_s r) -> ~ Q g) by (intros g X; apply HQ; apply in_or_app; right; apply in_or_app; now right).
    assert (QL2 : forall l, In l (seen c3) -> ~ QL l) by auto. assert (QL1 : forall l, In l (seen (walk_e c1 i)) -> ~ QL l) by auto.
    assert (CASES : (for_head src s d = (None, [], s) /\ c1 = c) \/
                    exists l s1, for_head src s d = (Some (name_of s1 l, ELocal l), [], s1) /\ Step [] c s [(name_of s1 l, ELocal l)] c1 s1).
    { subst c1. unfold for_head. destruct d as [l|]; [|now left]. destruct (CD l eq_refl) as [P CD'].
      destruct (let_step c s l I P CD') as [(B & BC & V)|(s1 & B & S0)]; rewrite B; [left; auto|right; exists l, s1; auto]. }
    clear CD. clearbody c1. destruct CASES as [[FH CC]|(l & s1 & FH & S0)]; rewrite FH.
    + subst c1. pose proof (head i c s [] c s F here Q QL trail IE I (step_refl _ _ _ I) WE E) as H.
      destruct (gen_e src s i) as [[ci pi] s2]. destruct H as (S1 & _ & H); auto.
      destruct (H pi (or_introl eq_refl)) as (E1 & D & OK). cbn [app] in S1.
      pose proof (IB _ s2 _ [] Q QL CNil (r_inv _ _ _ _ _ _ S1) WB (env_block _ _ _ _ _ _ _ [] E1 ltac:(intros n []))) as OB.
      pose proof (proj2 gen_steps b _ s2 CNil (r_inv _ _ _ _ _ _ S1) WB) as SB. destruct (gen_s src s2 b CNil) as [cb s3].
      pose proof (restore_sstep _ _ _ _ _ _ I (step_sstep _ _ _ _ _ _ S1) SB) as S3. fold c3 in S3, SB.
      assert (E3 : EnvOK (rev pi ++ F) (rev (map fst pi) ++ here) (with_vis (vis c) c3) (set_used (used s2) s3) Q QL trail).
      { apply (env_weaken _ _ _ _ _ _ _ _ _ E1); cbn; auto.
        - intros x X. split; [now apply (r_vis1 _ _ _ _ _ _ S1)|]. apply (q_keep _ _ _ _ SB). apply (r_seen _ _ _ _ _ _ S1). now apply (i_vs _ _ I).
        - apply incl_refl.
        - exact (q_t _ _ _ _ SB).
        - exact (q_l _ _ _ _ SB). }
      pose proof (IR _ _ _ _ Q QL trail (q_inv _ _ _ _ S3) WR E3) as OR. destruct (gen_s src (set_used (used s2) s3) r trail) as [cr s4]. cbn [fst app] in *.
      rewrite <- (app_nil_r pi) in D. destruct (decls_cut _ _ _ _ D) as [DX _]. apply DX. cbn [stmts_ok]. auto.
    + pose proof (head i c s _ _ s1 F here Q QL trail IE I S0 WE E) as H.
      destruct (gen_e src s1 i) as [[ci pi] s2]. destruct H as (S1 & S1' & H); auto.
      destruct (H _ (or_intror eq_refl)) as (E1 & D & OK). rewrite map_app, !rev_app_distr in E1. rewrite rev_app_distr in OK. cbn [rev app map fst] in E1, OK.
      pose proof (IB _ s2 _ [name_of s1 l] Q QL CNil (r_inv _ _ _ _ _ _ S1) WB (env_block _ _ _ _ _ _ _ [name_of s1 l] E1 ltac:(intros n [<-|[]]; now left))) as OB.
      pose proof (proj2 gen_steps b _ s2 CNil (r_inv _ _ _ _ _ _ S1) WB) as SB. destruct (gen_s src s2 b CNil) as [cb s3].
      pose proof (restore_sstep _ _ _ _ _ _ I (step_sstep _ _ _ _ _ _ S1) SB) as S3. fold c3 in S3, SB.
      assert (E3 : EnvOK (rev pi ++ F) (rev (map fst pi) ++ here) (with_vis (vis c) c3) (set_used (used s2) s3) Q QL trail).
      { apply (enter F here c s Q QL trail _ _ s2 pi _ _ I S1 E); cbn; auto.
        - intros x X. now right.
        - exact (r_nd1 _ _ _ _ _ _ S1').
        - exact (r_nd2 _ _ _ _ _ _ S1').
        - intros x X. split; [now left|]. apply (q_keep _ _ _ _ SB). apply (r_seen _ _ _ _ _ _ S1). now apply (i_vs _ _ I).
        - eapply incl_tran; [exact (r_seen _ _ _ _ _ _ S1)|exact MS2].
        - intros x X. apply MS2. apply (i_vs _ _ (r_inv _ _ _ _ _ _ S1)). now apply (step_loc_seen _ _ _ _ _ _ _ S1' X).
        - apply incl_refl.
        - exact (q_t _ _ _ _ SB).
        - exact (q_l _ _ _ _ SB). }
      pose proof (IR _ _ _ _ Q QL trail (q_inv _ _ _ _ S3) WR E3) as OR. destruct (gen_s src (set_used (used s2) s3) r trail) as [cr s4]. cbn [fst app] in *.
      destruct (decls_cut _ _ _ _ D) as [DX DY]. apply DX. cbn [decls stmts_ok] in DY. destruct DY as [[_ FR] _]. cbn [stmts_ok].
      split; [split; [intros []|exact FR]|]. auto.
  - intros a IA err b IB r IR c s F here Q QL trail I W E HQ HQL. rewrite ws_try in W. cbv zeta in W. destruct W as (WA & CE & WB & WR). rewrite gs_try. cbv zeta.
    cbn [glob_s] in HQ. cbn [walk_s] in HQL. cbv zeta in HQL.
    set (c1 := with_vis (vis c) (walk_s c a)) in *.
    set (c2 := match err with None => c1 | Some l => {| seen := l :: seen c1; decl := decl c1; hois := hois c1; vis := l :: vis c1 |} end) in *.
    set (c3 := walk_s c2 b) in *.
    pose proof (proj2 walk_mono r (with_vis (vis c) c3)) as MS. pose proof (proj2 walk_mono b c2) as MS2. fold c3 in MS2. cbn [seen with_vis] in MS.
    assert (HQ1 : forall g, In g (glob_s a) -> ~ Q g) by (intros g X; apply HQ; apply in_or_app; now left).
    assert (HQ2 : forall g, In g (glob_s b) -> ~ Q g) by (intros g X; apply HQ; apply in_or_app; right; apply in_or_app; now left).
    assert (HQ3 : forall g, In g (glob_s r) -> ~ Q g) by (intros g X; apply HQ; apply in_or_app; right; apply in_or_app; now right).
    assert (QL3 : forall l, In l (seen c3) -> ~ QL l) by auto. assert (QL2 : forall l, In l (seen c2) -> ~ QL l) by auto.
    assert (M12 : incl (seen c1) (seen c2)) by (subst c2; destruct err; [apply incl_tl|]; apply incl_refl).
    assert (QL1 : forall l, In l (seen (walk_s c a)) -> ~ QL l) by (intros l X; apply QL2, M12; exact X).
    pose proof (IA c s F [] Q QL CNil I WA (env_block _ _ _ _ _ _ _ [] E ltac:(intros n [])) HQ1 QL1) as OA.
    pose proof (proj2 gen_steps a c s CNil I WA) as SA. destruct (gen_s src s a CNil) as [ca s1]. cbn [fst] in OA.
    pose proof (sub_step [] _ _ _ _ I SA) as S1. fold c1 in S1. set (s1' := set_used (used s) s1) in *.
    assert (S2 : exists pe s2, err_head src s1' err = (pe, s2) /\ Step [] c1 s1' pe c2 s2).
    { subst c2. unfold err_head. destruct err as [l|]; [|eexists _, _; split; [reflexivity|now apply step_refl, S1]]. destruct (CE l eq_refl) as [P N].
      eexists _, _. split; [reflexivity|]. apply err_step; auto. apply S1. }
    destruct S2 as (pe & s2 & -> & S2).
    assert (EO : EnvOK ((text "o_0", EHelper (text "o_0")) :: F) [text "o_0"] c1 s1' Q QL CNil).
    { constructor.
      - intros l V. cbn [meaning]. change (vis c1) with (vis c) in V.
        assert (NM : name_of s1' l = name_of s l) by (apply (r_keep _ _ _ _ _ _ S1); now apply (i_vs _ _ I)). rewrite NM.
        destruct (name_eq (text "o_0") (name_of s l)) as [X|_]; [exfalso|now apply (e_agree _ _ _ _ _ _ _ E)].
        apply (i_res _ _ I (name_of s l)); [now apply (i_used _ _ I)|]. right. now symmetry.
      - intros n [<-|X]; [right; left; right; reflexivity|]. exact (e_dom _ _ _ _ _ _ _ E n X).
      - intros l [X|X]; [discriminate|]. destruct (e_ent _ _ _ _ _ _ _ E l X) as [Y|Y]; [left; now apply (r_seen _ _ _ _ _ _ S1)|now right].
      - intros n [<-|[]]. right. right. right. reflexivity.
      - now left. }
    destruct (enter _ _ c1 s1' Q QL CNil pe c2 s2 pe c2 s2 (r_inv _ _ _ _ _ _ S1) S2 EO) as (E2 & D & _); auto.
    { apply incl_refl. } { exact (r_nd1 _ _ _ _ _ _ S2). } { exact (r_nd2 _ _ _ _ _ _ S2). }
    { intros l X. split; [|reflexivity]. exact (r_vis _ _ _ _ _ _ S2 l X). }
    { intros l X. apply (i_vs _ _ (r_inv _ _ _ _ _ _ S2)). now apply (step_loc_seen _ _ _ _ _ _ _ S2 X). } { apply incl_refl. }
    pose proof (IB c2 s2 _ _ Q QL CNil (r_inv _ _ _ _ _ _ S2) WB E2 HQ2 QL3) as OB.
    pose proof (proj2 gen_steps b c2 s2 CNil (r_inv _ _ _ _ _ _ S2) WB) as SB. destruct (gen_s src s2 b CNil) as [cb s3]. cbn [fst] in OB. fold c3 in SB.
    assert (S02 : SStep c s c2 s2) by (eapply sstep_trans; eapply step_sstep; [exact S1|exact S2]).
    pose proof (restore_sstep _ _ _ _ _ _ I S02 SB) as S3.
    assert (E3 : EnvOK F here (with_vis (vis c) c3) (set_used (used s2) s3) Q QL trail).
    { apply (env_weaken _ _ _ _ _ _ _ _ _ E); cbn.
      - intros x X. split; [exact X|]. apply (q_keep _ _ _ _ S3). now apply (i_vs _ _ I).
      - exact (q_seen _ _ _ _ S3).
      - exact (q_used _ _ _ _ S02).
      - exact (q_t _ _ _ _ S3).
      - exact (q_l _ _ _ _ S3). }
    pose proof (IR _ _ _ _ Q QL trail (q_inv _ _ _ _ S3) WR E3 HQ3 HQL) as OR. destruct (gen_s src (set_used (used s2) s3) r trail) as [cr s4]. cbn [fst] in *.
    cbn [stmts_ok]. split; [exact OA|]. split; [|exact OR]. rewrite <- (app_nil_r pe) in D. destruct (decls_cut _ _ _ _ D) as [DX _]. now apply DX.
Qed.

(** ** Functions *)
Definition with_args (c : sc) (args : list (Z * bool)) : sc :=
  {| seen := rev (map fst args) ++ seen c; decl := decl c; hois := hois c; vis := rev (map fst (filter (fun a => negb (snd a)) args)) ++ vis c |}.
Lemma gen_args_ok args : forall c s F here, Inv c s -> EnvOK F here c s (fun _ => False) (fun _ => False) CNil ->
  NoDup (map fst args) -> (forall l, In l (map fst args) -> ~ In l (seen c)) -> Forall (fun a => fst a < 0) args ->
  let '(p, s') := gen_args src s args in
  Inv (with_args c args) s' /\
  forall b, (forall F' here', EnvOK F' here' (with_args c args) s' (fun _ => False) (fun _ => False) CNil -> stmts_ok F' here' b) -> fn_ok F here p b.
Proof.
  induction args as [|[l un] args IH]; intros c s F here I E ND NS NEG; cbn [gen_args].
  - unfold with_args. cbn. destruct c. split; [exact I|]. intros b H. now apply H.
  - cbn [map fst] in ND, NS. inversion ND as [|? ? ND1 ND2]; subst. inversion NEG as [|? ? NG1 NG2]; subst. cbn in NG1.
    assert (NSl : ~ In l (seen c)) by (apply NS; now left).
    assert (B : binding s l = (true, false, dedupe s l)).
    { unfold NamesModel.binding, isHoistable. replace (0 <? l) with false by (symmetry; apply Z.ltb_ge; lia). reflexivity. }
    rewrite B. set (c1 := {| seen := l :: seen c; decl := decl c; hois := hois c; vis := l :: vis c |}).
    assert (S1 : Step [] c s [(name_of (dedupe s l) l, ELocal l)] c1 (dedupe s l)).
    { apply (fresh_step [] c s l s (hois c)); auto; cbn; auto; try apply I.
      - apply uncap_nil.
      - apply incl_tl, incl_refl. }
    destruct un.
    + set (c2 := with_vis (vis c) c1).
      assert (I2 : Inv c2 (dedupe s l)).
      { pose proof (restore c s c1 _ (used (dedupe s l)) I (step_sstep _ _ _ _ _ _ S1) (q_used _ _ _ _ (step_sstep _ _ _ _ _ _ S1)) (i_res _ _ (r_inv _ _ _ _ _ _ S1))) as R.
        exact R. }
      assert (E2 : EnvOK F here c2 (dedupe s l) (fun _ => False) (fun _ => False) CNil).
      { apply (env_weaken _ _ _ _ _ _ _ _ _ E); cbn; auto; try lia.
        - intros x X. split; [exact X|]. apply (r_keep _ _ _ _ _ _ S1). now apply (i_vs _ _ I).
        - apply incl_tl, incl_refl.
        - apply incl_appl, incl_refl. }
      specialize (IH c2 (dedupe s l) F here I2 E2 ND2). destruct (gen_args src (dedupe s l) args) as [p s2].
      destruct IH as [IHI IHF]; [|exact NG2|].
      { intros x X [Y|Y]; [congruence|]. apply (NS x); [now right|exact Y]. }
      assert (WA : with_args c ((l, true) :: args) = with_args c2 args) by (unfold with_args; cbn; rewrite <- app_assoc; reflexivity).
      rewrite WA. split; [exact IHI|exact IHF].
    + destruct (enter F here c s (fun _ => False) (fun _ => False) CNil _ c1 _ [(name_of (dedupe s l) l, ELocal l)] c1 (dedupe s l) I S1 E) as (E1 & D & _); auto.
      { apply incl_refl. } { repeat constructor. intros []. } { repeat constructor. intros []. }
      { intros x [<-|X]; (split; [|reflexivity]); [right; now left|now left]. } { apply incl_tl, incl_refl. } { intros x [X|[]]. injection X as <-. now left. } { apply incl_refl. }
      specialize (IH c1 (dedupe s l) _ _ (r_inv _ _ _ _ _ _ S1) E1 ND2). destruct (gen_args src (dedupe s l) args) as [p s2].
      destruct IH as [IHI IHF]; [|exact NG2|].
      { intros x X [Y|Y]; [congruence|]. apply (NS x); [now right|exact Y]. }
      assert (WA : with_args c ((l, false) :: args) = with_args c1 args) by (unfold with_args; cbn; rewrite <- !app_assoc; reflexivity).
      rewrite WA. split; [exact IHI|]. intros b H. cbn [app fn_ok]. cbn [decls stmts_ok] in D. destruct D as [D _]. split; [exact D|]. now apply IHF.
Qed.
End Proof.

Lemma gen_fn_ok src args b : wf_fn src args b -> let '(ps, c) := gen_fn src args b in fn_ok [] [] ps c.
Proof.
  intros (ND & NEG & W & HB). unfold gen_fn.
  set (c0 := {| seen := []; decl := []; hois := []; vis := [] |}).
  assert (I0 : Inv src c0 start) by (constructor; cbn; auto; try apply incl_refl; try (intros ? []); intros).
  assert (E0 : EnvOK src [] [] c0 start (fun _ => False) (fun _ => False) CNil) by (constructor; cbn; try (intros ? []); left; reflexivity).
  pose proof (gen_args_ok src HB args c0 start [] [] I0 E0 ND (fun _ _ X => X) NEG) as H. destruct (gen_args src start args) as [p s].
  assert (WA : with_args c0 args = in_args args) by (unfold with_args, in_args, c0; cbn; rewrite !app_nil_r; reflexivity). rewrite WA in H.
  destruct H as [I H]. apply H. intros F' here' E. apply (proj2 (gen_ok src HB) b (in_args args) s F' here' _ _ CNil I W E); auto.
Qed.

(** ** Identifiers *)
Lemma is_id_char_spec c : is_id_char c = true <-> id_char c.
Proof. unfold is_id_char, id_char. rewrite !orb_true_iff, !andb_true_iff, !Z.leb_le, Z.eqb_eq. lia. Qed.
Definition name_mem (n : name) (l : list name) : bool := if in_dec name_eq n l then true else false.
Lemma name_mem_spec n l : name_mem n l = true <-> In n l.
Proof. unfold name_mem. destruct (in_dec name_eq n l); split; intros; auto; discriminate. Qed.
Definition up (id : name) : name := match id with a :: b :: t => a :: upper b :: t | _ => id end.
Lemma kw_checks :
  forallb (fun k => name_mem k KEYWORDS) cpp_keywords && forallb (fun k => negb (name_mem (up k) cpp_keywords)) KEYWORDS &&
  forallb (fun k => negb (name_mem (up k) KEYWORDS)) KEYWORDS &&
  forallb (fun k => negb ((48 <=? last k 0) && (last k 0 <=? 57))) cpp_keywords = true.
Proof. vm_compute. reflexivity. Qed.
Lemma kw_in k : In k cpp_keywords -> In k KEYWORDS.
Proof.
  pose proof kw_checks as C. rewrite !andb_true_iff in C. destruct C as [[[C _] _] _]. rewrite forallb_forall in C.
  intros H. apply name_mem_spec. now apply C.
Qed.
Lemma kw_up k : In k KEYWORDS -> ~ In (up k) cpp_keywords /\ ~ In (up k) KEYWORDS.
Proof.
  pose proof kw_checks as C. rewrite !andb_true_iff in C. destruct C as [[[_ C] C'] _]. rewrite forallb_forall in C, C'.
  intros H. specialize (C k H). specialize (C' k H). rewrite negb_true_iff in C, C'.
  split; intros X; apply name_mem_spec in X; congruence.
Qed.
Lemma kw_last k : In k cpp_keywords -> ~ 48 <= last k 0 <= 57.
Proof.
  pose proof kw_checks as C. rewrite !andb_true_iff in C. destruct C as [_ C]. rewrite forallb_forall in C.
  intros H. specialize (C k H). rewrite negb_true_iff, andb_false_iff, !Z.leb_gt in C. lia.
Qed.
Local Opaque KEYWORDS cpp_keywords.
Lemma ID_eq id : ID id = if in_dec name_eq id KEYWORDS then up id else id.
Proof. reflexivity. Qed.
Lemma ID_not_kw id : ~ In (ID id) cpp_keywords.
Proof. rewrite ID_eq. destruct (in_dec name_eq id KEYWORDS) as [K|K]; [exact (proj1 (kw_up id K))|]. intros X. exact (K (kw_in _ X)). Qed.
Lemma up_chars id : Forall id_char id -> Forall id_char (up id).
Proof.
  intros H. destruct id as [|a [|b t]]; auto. inversion H as [|? ? A H1]; subst. inversion H1 as [|? ? B H2]; subst.
  cbn [up]. apply Forall_cons; [exact A|]. apply Forall_cons; [|exact H2]. unfold upper. unfold id_char in *. destruct (Z.leb_spec 97 b), (Z.leb_spec b 122); cbn [andb]; lia.
Qed.
Lemma ID_hd id : hd 0 (ID id) = hd 0 id /\ (id <> [] -> ID id <> []).
Proof. rewrite ID_eq. destruct (in_dec name_eq id KEYWORDS); destruct id as [|a [|b t]]; cbn; split; congruence. Qed.
Lemma hex_id x : 0 <= x < 16 -> id_char (LitModel.hex x).
Proof. intros H. unfold LitModel.hex, id_char. destruct (Z.ltb_spec x 10); lia. Qed.
Lemma xHH_chars c : 0 <= c -> Forall id_char (LitModel.xHH c).
Proof.
  intros H. unfold LitModel.xHH. change 15 with (Z.ones 4). rewrite !Z.land_ones by lia.
  apply Forall_cons; [unfold id_char; lia|]. apply Forall_cons; [apply hex_id; apply Z.mod_pos_bound; lia|]. apply Forall_cons; [apply hex_id; apply Z.mod_pos_bound; lia|constructor].
Qed.
Lemma valid_identifier_ok str : str <> [] -> Forall (fun c => 0 <= c) str -> ~ 48 <= hd 0 str <= 57 -> cpp_identifier (valid_identifier str).
Proof.
  intros NE B H. unfold valid_identifier. set (f := flat_map _ str).
  assert (FC : Forall id_char f).
  { subst f. clear NE H. induction B as [|c t C _ IH]; [constructor|]. cbn [flat_map]. apply Forall_app. split; [|exact IH].
    destruct (is_id_char c) eqn:E; [apply Forall_cons; [now apply is_id_char_spec|constructor]|now apply xHH_chars]. }
  assert (FN : f <> [] /\ ~ 48 <= hd 0 f <= 57).
  { subst f. destruct str as [|c t]; [congruence|]. cbn [flat_map]. cbn [hd] in H. destruct (is_id_char c); unfold LitModel.xHH; cbn [hd app]; (split; [congruence|lia]). }
  destruct FN as [FN FH]. destruct (ID_hd f) as [IH1 IH2]. split; [|split].
  - rewrite ID_eq. destruct (in_dec name_eq f KEYWORDS); [now apply up_chars|exact FC].
  - destruct (ID f) as [|c t] eqn:Q; [exfalso; now apply IH2|]. exists c, t. split; [reflexivity|]. cbn in IH1. congruence.
  - apply ID_not_kw.
Qed.
Lemma candidate_identifier b d : cpp_identifier b -> cpp_identifier (candidate b d).
Proof.
  intros (C & (c & t & -> & H) & K). destruct d as [|d]; [split; [exact C|split; [exists c, t; auto|exact K]]|]. cbn [candidate].
  destruct (dec_decimal (S d)) as (DD & VV & NN & LL). split; [|split].
  - apply Forall_app. split; [exact C|]. cbn [app text]. constructor; [unfold id_char; right; right; right; reflexivity|]. eapply Forall_impl; [|exact DD].
    intros x X. unfold DecSpec.digit in X. unfold id_char. lia.
  - exists c, (t ++ text "_" ++ dec (S d)). auto.
  - intros X. apply kw_last in X. apply X. destruct (decimal_last _ _ (dec_decimal (S d))) as (u & x & -> & Hx). rewrite !app_assoc, last_last. exact Hx.
Qed.
Lemma name_of_identifier src s l : src l <> [] -> Forall (fun c => 0 <= c) (src l) -> ~ 48 <= hd 0 (src l) <= 57 -> cpp_identifier (name_of src s l).
Proof.
  intros N B H. unfold name_of. apply candidate_identifier. unfold base. destruct (ID_hd (src l)) as [H1 H2]. apply valid_identifier_ok; [auto| |now rewrite H1].
  rewrite ID_eq. destruct (in_dec name_eq (src l) KEYWORDS); [|exact B]. destruct (src l) as [|a [|b t]]; auto.
  inversion B as [|? ? A B1]; subst. inversion B1 as [|? ? A' B2]; subst. repeat constructor; auto. unfold upper. destruct (Z.leb_spec 97 b), (Z.leb_spec b 122); cbn [andb]; lia.
Qed.
Lemma valid_identifier_id str : Forall id_char str -> valid_identifier str = ID str.
Proof.
  intros H. unfold valid_identifier. f_equal. induction H as [|c t C _ IH]; [reflexivity|]. cbn [flat_map]. apply is_id_char_spec in C. rewrite C, IH. reflexivity.
Qed.
