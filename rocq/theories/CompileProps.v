(** C56: a build loads exactly the files which the program consists of, reports circles and missing files truthfully, solves each module
    after what it imports - the same in parallel - and incremental rebuilds leave no module out of date. *)
From Verif Require Import CompileWatch.
Open Scope nat_scope.

Section THEOREMS.
Context {Pat Ast Out : Type}.
Variable parse : name -> list Z -> option (Ast * list Pat).
Variable resolve : (name -> list Z) -> name -> Pat -> name.
Variable solve : nat -> name -> Ast -> list nat -> (nat -> option Out) -> option Out.
Variable pre : @module Pat Ast Out.
Variable main : name.
Notation load := (load parse resolve).
Notation compile := (compile parse resolve solve).
Notation watch := (watch parse resolve solve).
Notation reaches := (reaches parse resolve).
Notation circular := (circular parse resolve).
Notation good := (good parse resolve).
Notation up_to_date := (all_up_to_date parse resolve solve).
Notation fits := (fits resolve).

(** A program loads if and only if each file it consists of is there, can be parsed, and is not part of a circle *)
Theorem a_program_loads_iff_it_is_good : forall d fs fuel, prelude_ok resolve pre -> main <> m_fname pre -> finite_disk d fs -> length fs < fuel ->
  (exists x, snd (load fuel d (start pre) main) = Done x) <-> good d main.
Proof.
  intros d fs fuel Hpre Hm FD Fu. destruct (start_sound parse resolve solve pre d) as (I & C & R).
  assert (PO : pre_ok parse resolve solve d pre fs [] (start pre) main). { split; [assumption|]. split; [assumption|]. split; [assumption|]. split; [exact Logic.I|]. split; [assumption|]. split; [constructor|]. intros x []. }
  pose proof (load_ok parse resolve solve d pre Hpre fs FD fuel [] (start pre) main PO) as (_ & _ & _ & _ & L). split.
  - intros ((i, dep) & E). rewrite E in L. destruct L as (I1 & Ii & Dp & m & N & F & Dm). rewrite <- F. eapply deep_good with (i := i); eauto. lia.
  - intros G. destruct (snd (load fuel d (start pre) main)) as [x|e|] eqn:E; [exists x; reflexivity| |].
    + destruct L as (_ & B). destruct (good_blames _ _ _ _ _ G B).
    + cbn in L. lia.
Qed.

(** A first build ends; what it reports is so; it never says "BUG" *)
Theorem errors_are_real : forall b d fs fuel s r, prelude_ok resolve pre -> looks_up solve -> main <> m_fname pre -> finite_disk d fs -> length fs < fuel ->
  compile fuel b d (start pre) main = (s, r) ->
  match r with
  | Done _ => good d main
  | Error Circle => exists f, reaches d main f /\ circular d f
  | Error NoFile => exists f, reaches d main f /\ d f = []
  | Error ParseError => exists f, reaches d main f /\ d f <> [] /\ parse f (d f) = None
  | Error SolveError => good d main
  | Error Bug | Trap => False
  end.
Proof.
  intros b d fs fuel s r Hpre Hlk Hm FD Fu E. destruct (first_ok parse resolve solve pre Hpre Hlk main Hm fuel b d fs FD Fu) as (s' & r' & E' & So & Po).
  rewrite E in E'. injection E' as <- <-. destruct Po as (_ & _ & _ & _ & _ & P). destruct r as [u|e|]; [apply P| |assumption]. destruct e; try exact P; [apply P|].
  destruct P as (_ & i & m & I1 & N & _). destruct i as [|[|i]]; cbn in N; [lia|discriminate|discriminate].
Qed.

(** A solver error of a sequential build is the solver's answer for a module of the program, given right outputs of what it uses *)
Theorem solver_errors_are_real : forall d fs fuel s, prelude_ok resolve pre -> looks_up solve -> main <> m_fname pre -> finite_disk d fs -> length fs < fuel ->
  compile fuel false d (start pre) main = (s, Error SolveError) ->
  exists i m ast l v, 1 <= i /\ nth_error (modules s) i = Some m /\ loaded parse resolve d (modules s) m ast l /\ view (modules s) (map snd l) v /\
    (forall j, In j (map snd l) -> out_of (modules s) j <> None) /\ solve i (m_fname m) ast (map snd l) v = None.
Proof.
  intros d fs fuel s Hpre Hlk Hm FD Fu E. destruct (first_ok parse resolve solve pre Hpre Hlk main Hm fuel false d fs FD Fu) as (s' & r' & E' & So & Po).
  rewrite E in E'. injection E' as <- <-. destruct Po as (_ & _ & _ & _ & _ & _ & P). destruct (P eq_refl) as (i & m & ast & l & v & I1 & N & L & O & V & S). exists i, m, ast, l, v. auto 10.
Qed.

(** A build which succeeds: one module per file of the program, and no others; each made from the text on the disk, numbered after what it
    imports, and solved given the outputs of all that it uses *)
Theorem a_build_is_right : forall b d fs fuel s u, prelude_ok resolve pre -> looks_up solve -> main <> m_fname pre -> finite_disk d fs -> length fs < fuel ->
  compile fuel b d (start pre) main = (s, Done u) ->
  up_to_date d (modules s) /\ NoDup (map m_fname (modules s)) /\ nth_error (modules s) 0 = Some pre /\
  forall f, reaches d main f <-> exists i m, 1 <= i /\ nth_error (modules s) i = Some m /\ m_fname m = f.
Proof.
  intros b d fs fuel s u Hpre Hlk Hm FD Fu E. destruct (first_ok parse resolve solve pre Hpre Hlk main Hm fuel b d fs FD Fu) as (s' & r' & E' & ((st & I) & _) & Po).
  rewrite E in E'. injection E' as <- <-. destruct Po as (_ & _ & _ & _ & Nw & U & G & (i0 & m0 & I0 & N0 & F0) & Sh).
  split; [assumption|]. split; [apply (i_nodup _ _ _ _ _ _ _ I)|]. split; [apply (i_pre _ _ _ _ _ _ _ I)|]. intros f. split.
  - intros Re. destruct (U _ _ I0 N0) as (ast & l & o & v & (_ & _ & _ & D & _) & _). destruct (deep_reaches _ _ _ _ _ _ _ I _ _ Re i0 m0 I0 N0 D F0) as (j & mj & J & Nj & Fj & _). exists j, mj. auto.
  - intros (i & m & I1 & N & <-). specialize (Sh i). rewrite N in Sh. destruct (nth_error (modules (fst (load fuel d (start pre) main))) i) as [m1|] eqn:N1; [|contradiction]. destruct Sh as (F & _). rewrite F.
    destruct (Nw _ _ N1) as [X|X]; [|assumption]. destruct i as [|[|i]]; cbn in X; [lia|discriminate|discriminate].
Qed.

(** Watch mode, any history of disks: it never hangs; after a rebuild which succeeds no module is out of date; other verdicts are about the
    present disk *)
Theorem rebuilds_are_right : forall b fuel d ds, prelude_ok resolve pre -> looks_up solve -> main <> m_fname pre -> fits fuel d d -> (forall d', In d' ds -> fits fuel d d') ->
  exists s r, watch fuel b main pre d ds = Some (s, r) /\
  match r with
  | Done _ => up_to_date (last ds d) (modules s) /\ good (last ds d) main /\ exists i m, 1 <= i /\ nth_error (modules s) i = Some m /\ m_fname m = main
  | Error Circle => exists f, reaches (last ds d) main f /\ circular (last ds d) f
  | Error NoFile => exists f, reaches (last ds d) main f /\ last ds d f = []
  | Error ParseError => exists f, reaches (last ds d) main f /\ last ds d f <> [] /\ parse f (last ds d f) = None
  | Error SolveError => good (last ds d) main
  | Error Bug => exists i m, 1 <= i /\ nth_error (modules s) i = Some m /\ ~ reaches (last ds d) main (m_fname m)
  | Trap => False
  end.
Proof.
  intros b fuel d ds Hpre Hlk Hm F0 F. destruct (watch_ok parse resolve solve pre Hpre Hlk main Hm fuel b d ds F0 F) as (s & r & E & _ & V). exists s, r. split; [assumption|].
  destruct r as [u|e|]; [exact V| |exact V]. destruct e; try exact V. destruct V as (_ & i & m & A & B & _ & C). exists i, m. auto.
Qed.

(** ... and so, with the same numbers for the same files, the outputs are those of a clean build *)
Theorem rebuilds_agree_with_a_clean_build : forall b b' fuel d ds s u s' u', prelude_ok resolve pre -> looks_up solve -> main <> m_fname pre -> fits fuel d d -> (forall d', In d' ds -> fits fuel d d') ->
  watch fuel b main pre d ds = Some (s, Done u) -> compile fuel b' (last ds d) (start pre) main = (s', Done u') ->
  map m_fname (modules s) = map m_fname (modules s') -> map m_out (modules s) = map m_out (modules s').
Proof.
  intros b b' fuel d ds s u s' u' Hpre Hlk Hm F0 F W C Nm. destruct (watch_ok parse resolve solve pre Hpre Hlk main Hm fuel b d ds F0 F) as (s1 & r1 & E & ((st & I) & _) & V).
  rewrite W in E. injection E as <- <-. destruct V as (U & _).
  assert (Fl : fits fuel d (last ds d)). { destruct ds as [|d1 ds]; [assumption|]. apply F. rewrite last_cons. clear. revert d1. induction ds as [|x ds IH]; intros d1; [left; reflexivity|]. rewrite last_cons. destruct (IH x) as [X|X]; [right; left; exact X|right; right; exact X]. }
  destruct Fl as (_ & _ & fs & FD & Fu). destruct (first_ok parse resolve solve pre Hpre Hlk main Hm fuel b' _ fs FD Fu) as (s2 & r2 & E2 & ((st2 & I2) & _) & Po). rewrite C in E2. injection E2 as <- <-.
  destruct Po as (_ & _ & _ & _ & _ & U' & _). apply same_nth. intros i. rewrite !nth_error_map.
  destruct (nth_error (modules s) i) as [m|] eqn:N.
  - destruct (kept_map _ _ Nm i m N) as (m' & N' & _). rewrite N'. cbn. f_equal. destruct i as [|i]; [rewrite (i_pre _ _ _ _ _ _ _ I) in N; rewrite (i_pre _ _ _ _ _ _ _ I2) in N'; congruence|].
    apply (same_outs parse resolve solve pre Hlk (last ds d) (modules s) (modules s') (i_pre _ _ _ _ _ _ _ I) (i_pre _ _ _ _ _ _ _ I2) (i_nodup _ _ _ _ _ _ _ I) Nm U U' (S (m_depth m)) (S i)); auto; lia.
  - destruct (nth_error (modules s') i) as [m'|] eqn:N'; [|reflexivity]. destruct (kept_map _ _ (eq_sym Nm) i m' N') as (m & X & _). congruence.
Qed.

(** Solving the modules of one depth in parallel changes nothing: the same outcome, and the same modules if it succeeds.  For the first build,
    and for a rebuild after any history *)
Theorem parallel_is_sequential : forall d fs fuel, prelude_ok resolve pre -> looks_up solve -> main <> m_fname pre -> finite_disk d fs -> length fs < fuel ->
  snd (compile fuel true d (start pre) main) = snd (compile fuel false d (start pre) main) /\
  (forall u, snd (compile fuel false d (start pre) main) = Done u -> compile fuel true d (start pre) main = compile fuel false d (start pre) main).
Proof.
  intros d fs fuel Hpre Hlk Hm FD Fu. destruct (start_sound parse resolve solve pre d) as (I & C & R).
  assert (PO : pre_ok parse resolve solve d pre fs [] (start pre) main). { split; [assumption|]. split; [assumption|]. split; [assumption|]. split; [exact Logic.I|]. split; [assumption|]. split; [constructor|]. intros x []. }
  pose proof (load_ok parse resolve solve d pre Hpre fs FD fuel [] (start pre) main PO) as (_ & _ & _ & _ & L). unfold CompileModel.compile. destruct (load fuel d (start pre) main) as (s1, r1). cbn [fst snd] in *.
  destruct r1 as [(i, dep)|e|]; [|auto|auto]. destruct L as (I1 & _). destruct (solve_all parse resolve solve d pre Hpre Hlk true _ I1) as (_ & _ & _ & A & B).
  destruct (solve_levels solve true (modules s1) (dep_order (modules s1))) as (mt, rt). destruct (solve_levels solve false (modules s1) (dep_order (modules s1))) as (mf, rf). cbn [fst snd] in *. split; [assumption|]. intros u E. rewrite (B u E), A. reflexivity.
Qed.
Theorem parallel_rebuild_is_sequential : forall b fuel d ds d' s r st rt sf rf, prelude_ok resolve pre -> looks_up solve -> main <> m_fname pre -> fits fuel d d -> (forall x, In x ds -> fits fuel d x) -> fits fuel d d' ->
  watch fuel b main pre d ds = Some (s, r) ->
  rebuild parse resolve solve fuel true main s d' = Some (st, rt) -> rebuild parse resolve solve fuel false main s d' = Some (sf, rf) -> rt = rf /\ (forall u, rf = Done u -> st = sf).
Proof.
  intros b fuel d ds d' s r st rt sf rf Hpre Hlk Hm F0 F F' W T S. destruct (watch_ok parse resolve solve pre Hpre Hlk main Hm fuel b d ds F0 F) as (s1 & r1 & E & So & _).
  rewrite W in E. injection E as <- <-.
  assert (Fl : fits fuel d (last ds d)). { destruct ds as [|d1 ds]; [assumption|]. apply F. rewrite last_cons. clear. revert d1. induction ds as [|x ds IH]; intros d1; [left; reflexivity|]. rewrite last_cons. destruct (IH x) as [X|X]; [right; left; exact X|right; right; exact X]. }
  destruct F' as (SR & NV' & fs & FD & Fu). destruct (prepare parse resolve solve pre Hpre (last ds d) d' s So) as (s2 & Wp & I1 & C1 & R1 & _); [intros f p; rewrite <- SR; symmetry; apply Fl|apply Fl|assumption|].
  unfold rebuild in T, S. destruct (watch_needsRebuild d' s) as (t, x). cbn [fst] in Wp. rewrite Wp in T, S. cbn [option_map] in T, S. unfold CompileModel.compile in T, S.
  assert (PO : pre_ok parse resolve solve d' pre fs [] s2 main). { split; [assumption|]. split; [assumption|]. split; [assumption|]. split; [exact Logic.I|]. split; [assumption|]. split; [constructor|]. intros y []. }
  pose proof (load_ok parse resolve solve d' pre Hpre fs FD fuel [] s2 main PO) as (_ & _ & _ & _ & L). destruct (load fuel d' s2 main) as (s3, r3). cbn [fst snd] in *.
  destruct r3 as [(i, dep)|e|].
  - destruct L as (I3 & _). destruct (solve_all parse resolve solve d' pre Hpre Hlk true _ I3) as (_ & _ & _ & A & B).
    destruct (solve_levels solve true (modules s3) (dep_order (modules s3))) as (mt, r4). destruct (solve_levels solve false (modules s3) (dep_order (modules s3))) as (mf, r5). cbn [fst snd] in *. injection T as <- <-. injection S as <- <-.
    split; [assumption|]. intros u E. rewrite (B u E). reflexivity.
  - injection T as <- <-. injection S as <- <-. split; [reflexivity|]. discriminate.
  - injection T as <- <-. injection S as <- <-. split; [reflexivity|]. discriminate.
Qed.

(** Pruning ends; it clears exactly the modules without an output and those which import them, directly or not *)
Theorem pruning_is_exact : forall s : @state Pat Ast Out, exists s', watch_pruneModules s = Some s' /\ length (modules s') = length (modules s) /\
  nth_error (modules s') 0 = nth_error (modules s) 0 /\
  forall i m, 1 <= i -> nth_error (modules s) i = Some m -> (stale (modules s) i /\ nth_error (modules s') i = Some (clear m)) \/ (~ stale (modules s) i /\ nth_error (modules s') i = Some m).
Proof.
  intros [ms c]. destruct (prune_ok ms c) as (s' & iv & W & _ & P & C). exists s'. split; [assumption|]. cbn [modules]. split; [apply (p_len _ _ _ P)|]. split; [apply (p_zero _ _ _ P)|].
  intros i m I1 N. assert (L : 1 <= i < length ms) by (split; [assumption|]; apply nth_error_Some; congruence). pose proof (pruned_stale _ _ _ P C i L) as S.
  destruct (p_nth _ _ _ P i m I1 N) as [(A & B)|(A & B)]; [left|right]; (split; [tauto|assumption]).
Qed.

(** Finding: a file which was once tried - even a misspelled import - is never forgotten.  As long as it is missing, or broken, every later rebuild fails,
    whatever the program now imports *)
Theorem a_missing_file_blocks_every_rebuild : forall b fuel d ds ds' s r s' r' g, prelude_ok resolve pre -> looks_up solve -> main <> m_fname pre -> fits fuel d d -> (forall x, In x (ds ++ ds') -> fits fuel d x) ->
  watch fuel b main pre d ds = Some (s, r) -> (exists i m, 1 <= i /\ nth_error (modules s) i = Some m /\ m_fname m = g) ->
  watch fuel b main pre d (ds ++ ds') = Some (s', r') -> last (ds ++ ds') d g = [] \/ parse g (last (ds ++ ds') d g) = None -> r' <> Done tt.
Proof.
  intros b fuel d ds ds' s r s' r' g Hpre Hlk Hm F0 F W (i & m & I1 & N & Fm) W' Bad ->. pose proof W' as W2. rewrite watch_app, W in W2.
  destruct (watch_ok parse resolve solve pre Hpre Hlk main Hm fuel b d ds F0) as (s1 & r1 & E & So & _). { intros x Hx. apply F. apply in_or_app. left. assumption. } rewrite W in E. injection E as <- <-.
  destruct (watch_ok parse resolve solve pre Hpre Hlk main Hm fuel b d (ds ++ ds') F0 F) as (s2 & r2 & E2 & _ & V). rewrite W' in E2. injection E2 as <- <-. destruct V as (U & _).
  assert (Fl : fits fuel d (last ds d)). { destruct ds as [|d1 ds0]; [assumption|]. apply F. apply in_or_app. left. rewrite last_cons. clear. revert d1. induction ds0 as [|x ds IH]; intros d1; [left; reflexivity|]. rewrite last_cons. destruct (IH x) as [X|X]; [right; left; exact X|right; right; exact X]. }
  destruct (rebuilds_ok parse resolve solve pre Hpre Hlk main Hm fuel b ds' (last ds d) s r So) as (s3 & r3 & E3 & _ & Kn & _); [apply Fl| |].
  { intros x Hx. destruct (F x ltac:(apply in_or_app; right; assumption)) as (X & Y). split; [|assumption]. intros f p. rewrite <- X. symmetry. apply Fl. }
  rewrite W2 in E3. injection E3 as <- <-. destruct (Kn _ _ N) as (m' & N' & F'). destruct (U _ _ I1 N') as (ast & l & o & v & (_ & A & B & _) & _). rewrite F', Fm in *. destruct Bad as [Bad|Bad]; [contradiction|]. rewrite Bad in B. discriminate.
Qed.
End THEOREMS.
Print Assumptions a_program_loads_iff_it_is_good.
Print Assumptions errors_are_real.
Print Assumptions solver_errors_are_real.
Print Assumptions a_build_is_right.
Print Assumptions rebuilds_are_right.
Print Assumptions rebuilds_agree_with_a_clean_build.
Print Assumptions parallel_is_sequential.
Print Assumptions parallel_rebuild_is_sequential.
Print Assumptions pruning_is_exact.
Print Assumptions a_missing_file_blocks_every_rebuild.

(** ** A small language.  A file is a list of numbers: the first 0 - cannot be parsed; 9 - the solver fails; the others are the files it
    imports.  The output: the text, and the outputs of the imports *)
Definition ex_parse (f : name) (src : list Z) : option (list Z * list Z) := match src with 0%Z :: _ => None | _ :: l => Some (src, l) | [] => None end.
Definition ex_resolve (d : name -> list Z) (f : name) (p : Z) : name := [p].
Definition ex_solve (i : nat) (f : name) (a : list Z) (l : list nat) (v : nat -> option (list Z)) : option (list Z) :=
  match a with 9%Z :: _ => None | _ => Some (a ++ flat_map (fun j => match v j with Some o => o | None => [] end) l) end.
Definition ex_pre : @module Z (list Z) (list Z) := Mod [80; 82]%Z (Some ([1]%Z, [1]%Z, [])) 0 (Some [1]%Z).
Definition ex_disk (l : list (Z * list Z)) (f : name) : list Z := match f with [c] => match find (fun x => Z.eqb (fst x) c) l with Some x => snd x | None => [] end | _ => [] end.
(** 20 imports 21 and 22; both import 23 *)
Definition ex_d0 := ex_disk [(20, [1; 21; 22]); (21, [2; 23]); (22, [3; 23]); (23, [4])]%Z.
Definition ex_d1 := ex_disk [(20, [1; 21; 22]); (21, [2]); (22, [3; 23]); (23, [5])]%Z.
Definition show_outs (r : option (@state Z (list Z) (list Z) * outcome unit)) := match r with Some (s, r) => Some (map (fun m => (m_fname m, m_depth m, m_out m)) (modules s), r) | None => None end.
Lemma ex_looks_up : looks_up ex_solve.
Proof.
  intros i f a l v v' H. unfold ex_solve. assert (E : flat_map (fun j => match v j with Some o => o | None => [] end) l = flat_map (fun j => match v' j with Some o => o | None => [] end) l).
  { induction l as [|j l IH]; [reflexivity|]. cbn [flat_map]. rewrite H, IH. reflexivity. } rewrite E. reflexivity.
Qed.
Lemma ex_prelude : prelude_ok ex_resolve ex_pre.
Proof. split; [discriminate|]. split; [reflexivity|]. intros d f p. discriminate. Qed.
Lemma ex_fits : forall l d, (forall x, In x l -> snd x <> [11]%Z) -> fits ex_resolve (S (length l)) d (ex_disk l).
Proof.
  intros l d NV. split; [intros f p; reflexivity|]. split.
  - intros f. unfold ex_disk. destruct f as [|c [|c' f]]; try discriminate. destruct (find (fun x => Z.eqb (fst x) c) l) as [x|] eqn:E; [|discriminate]. apply find_some in E. apply NV. apply E.
  - exists (map (fun x => [fst x]) l). split; [|rewrite map_length; lia]. intros f. unfold ex_disk. destruct f as [|c [|c' f]]; try congruence. destruct (find (fun x => Z.eqb (fst x) c) l) as [x|] eqn:E; [|congruence]. intros _.
    apply find_some in E. destruct E as (E1 & E2). apply Z.eqb_eq in E2. subst c. apply in_map_iff. exists x. auto.
Qed.
Example ex_hypotheses : prelude_ok ex_resolve ex_pre /\ looks_up ex_solve /\ [20%Z] <> m_fname ex_pre /\ fits ex_resolve 5 ex_d0 ex_d0 /\ fits ex_resolve 5 ex_d0 ex_d1.
Proof.
  split; [apply ex_prelude|]. split; [apply ex_looks_up|]. split; [discriminate|].
  split; (apply ex_fits; intros x; cbn [In]; intros [<-|[<-|[<-|[<-|[]]]]]; discriminate).
Qed.
Example ex_build : show_outs (Some (compile ex_parse ex_resolve ex_solve 5 true ex_d0 (start ex_pre) [20%Z])) =
  Some ([([80; 82], 0%nat, Some [1]); ([20], 3%nat, Some [1; 21; 22; 2; 23; 4; 3; 23; 4]); ([21], 2%nat, Some [2; 23; 4]); ([23], 1%nat, Some [4]); ([22], 2%nat, Some [3; 23; 4])], Done tt)%Z.
Proof. vm_compute. reflexivity. Qed.
(** 23 changed, and 21 no longer imports it *)
Example ex_rebuild : show_outs (watch ex_parse ex_resolve ex_solve 5 false [20%Z] ex_pre ex_d0 [ex_d1]) =
  Some ([([80; 82], 0%nat, Some [1]); ([20], 3%nat, Some [1; 21; 22; 2; 3; 23; 5]); ([21], 1%nat, Some [2]); ([23], 1%nat, Some [5]); ([22], 2%nat, Some [3; 23; 5])], Done tt)%Z.
Proof. vm_compute. reflexivity. Qed.
Example ex_circle : snd (compile ex_parse ex_resolve ex_solve 5 true (ex_disk [(20, [1; 21]); (21, [2; 22]); (22, [3; 21])]%Z) (start ex_pre) [20%Z]) = Error Circle.
Proof. vm_compute. reflexivity. Qed.
Example ex_solver_error : snd (compile ex_parse ex_resolve ex_solve 5 true (ex_disk [(20, [1; 21]); (21, [9])]%Z) (start ex_pre) [20%Z]) = Error SolveError.
Proof. vm_compute. reflexivity. Qed.

(** Finding: 20 imports 29, a misspelling; then 28, which is there.  A clean build succeeds; the rebuild says BUG *)
Definition ex_typo := ex_disk [(20, [1; 29]); (28, [2])]%Z.
Definition ex_fixed := ex_disk [(20, [1; 28]); (28, [2])]%Z.
Theorem a_rebuild_succeeds_where_a_clean_build_does_refuted :
  option_map snd (watch ex_parse ex_resolve ex_solve 5 true [20%Z] ex_pre ex_typo [ex_fixed]) = Some (Error Bug) /\
  snd (compile ex_parse ex_resolve ex_solve 5 true ex_fixed (start ex_pre) [20%Z]) = Done tt.
Proof. vm_compute. split; reflexivity. Qed.
Print Assumptions a_rebuild_succeeds_where_a_clean_build_does_refuted.
(** Also: 21 was imported, is no longer, and is deleted *)
Theorem a_deleted_unused_file_is_harmless_refuted :
  option_map snd (watch ex_parse ex_resolve ex_solve 5 true [20%Z] ex_pre (ex_disk [(20, [1; 21]); (21, [2])]%Z) [ex_disk [(20, [1]); (21, [2])]%Z; ex_disk [(20, [1])]%Z]) = Some (Error Bug).
Proof. vm_compute. reflexivity. Qed.
Print Assumptions a_deleted_unused_file_is_harmless_refuted.

(** Finding: a new file which an unchanged import would now mean is not noticed.  p means file [p; 0] if there is one, otherwise file [p; 1] *)
Definition near (d : name -> list Z) (f : name) (p : Z) : name := match d [p; 0%Z] with [] => [p; 1%Z] | _ => [p; 0%Z] end.
Definition near_disk (l : list (name * list Z)) (f : name) : list Z := match find (fun x => name_eqb (fst x) f) l with Some x => snd x | None => [] end.
Definition near_d0 := near_disk [([20; 1], [1; 21]); ([21; 1], [2])]%Z.
Definition near_d1 := near_disk [([20; 1], [1; 21]); ([21; 1], [2]); ([21; 0], [3])]%Z.
Definition out_named (ms : list (@module Z (list Z) (list Z))) (f : name) : option (list Z) := match find (fun m => name_eqb (m_fname m) f) ms with Some m => m_out m | None => None end.
Theorem a_nearer_file_is_noticed_refuted :
  option_map (fun x => (out_named (modules (fst x)) [20; 1]%Z, snd x)) (watch ex_parse near ex_solve 5 true [20; 1]%Z ex_pre near_d0 [near_d1]) = Some (Some [1; 21; 2]%Z, Done tt) /\
  (fun x => (out_named (modules (fst x)) [20; 1]%Z, snd x)) (compile ex_parse near ex_solve 5 true near_d1 (start ex_pre) [20; 1]%Z) = (Some [1; 21; 3]%Z, Done tt).
Proof. vm_compute. split; reflexivity. Qed.
Print Assumptions a_nearer_file_is_noticed_refuted.
