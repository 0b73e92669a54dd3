(** Files, directories and atomic writes: the theorems (C61, C62, C63, C64). *)
From Verif Require Import PosixSpec PosixModel PosixLemmas PosixDirs PosixAtomic.
From Coq Require Import List Arith ZArith Bool Lia.
Import ListNotations.
Open Scope Z_scope.

Definition write_prog (p : path) (data : bytes) : prog Z := file_write p data (fun e => Ret e).
Definition read_prog (p : path) (output : bytes) (size : Z) (junk : bytes) : prog (Z * bytes) :=
  file_read p output size junk (fun e out => Ret (e, out)).
Definition mkdir_prog (p : path) : prog Z := mkdir_p p (fun e => Ret e).

(** ** C61: file::write *)

(** Whatever fails, and wherever the process stops: the file is as before or holds a
    beginning of the data, and no other file has changed. *)
Theorem file_write_never_more_than_a_prefix m s p data s' rest :
  tidy s -> run m s (write_prog p data) s' rest ->
  (content s' p = content s p \/ exists w r, content s' p = Some w /\ data = w ++ r)
  /\ forall q, q <> p -> content s' q = content s q.
Proof.
  intros T H.
  assert (W : wp m (half s p data) (write_prog p data) (fun _ _ => True) s).
  { apply wp_file_write; auto. intros. cbn. auto. }
  destruct (wp_inv _ _ _ _ _ _ _ H W) as [[A|(w & A & r & B)] C]; split; eauto.
Qed.
Print Assumptions file_write_never_more_than_a_prefix.

(** It reports success only with all of the data in the file, if writing something never
    writes nothing. *)
Theorem file_write_success_means_all_written m s p data s' :
  some_written m = true -> tidy s -> run m s (write_prog p data) s' (Ret 0) ->
  content s' p = Some data.
Proof.
  intros SW T H.
  assert (W : wp m (half s p data) (write_prog p data) (fun e s' => e = 0 -> content s' p = Some data) s).
  { apply wp_file_write; auto. intros e s1 K1 K2 K3 K4 K5 K6. cbn. split; auto. intros E. destruct (K1 E SW); auto. }
  apply (wp_end _ _ _ _ _ _ _ H W). auto.
Qed.
Print Assumptions file_write_success_means_all_written.

(** No descriptor stays open, whatever fails. *)
Theorem file_write_leaks_no_descriptor m s p data s' e :
  tidy s -> run m s (write_prog p data) s' (Ret e) -> forall d, fds s' d = fds s d.
Proof.
  intros T H.
  assert (W : wp m (half s p data) (write_prog p data) (fun e s' => forall d, fds s' d = fds s d) s).
  { apply wp_file_write; auto. intros e1 s1 K1 K2 K3 K4 K5 K6. cbn. auto. }
  apply (wp_end _ _ _ _ _ _ _ H W).
Qed.
Print Assumptions file_write_leaks_no_descriptor.

(** A call that fails is reported: opening, writing or closing. *)
Theorem file_write_reports_every_failure m s p data s1 c k r s2 s' e :
  run m s (write_prog p data) s1 (Sys c k) -> os_step m s1 c r s2 -> ret r = -1 ->
  run m s2 (k r) s' (Ret e) -> e <> 0.
Proof. apply (honest_reports (fun e => e)). apply honest_file_write; cbn; auto. lia. Qed.
Print Assumptions file_write_reports_every_failure.

(** ** C62: file::read *)

(** Reading changes no file and leaves no descriptor open; what was in the output stays in
    front; success means that the expected number of bytes was added.  [junk] is the memory
    behind the output, which has grown enough. *)
Theorem file_read_keeps_the_rest m s p output size junk s' e out :
  size <= Z.of_nat (length junk) ->
  (forall c, content s p = Some c -> Z.of_nat (length c) <= Z.of_nat (length junk) \/ 0 < size) ->
  run m s (read_prog p output size junk) s' (Ret (e, out)) ->
  (forall q, content s' q = content s q) /\ (forall d, fds s' d = fds s d)
  /\ firstn (length output) out = output
  /\ (content s p = None -> e <> 0 /\ out = output)
  /\ forall c, content s p = Some c -> e = 0 ->
       length out = (length output + (if (size <=? 0)%Z then length c else Z.to_nat size))%nat.
Proof.
  intros HS HJ H.
  assert (W : wp m (unchanged s) (read_prog p output size junk) (fun eo s' =>
     unchanged s s' /\ (forall d, fds s' d = fds s d)
     /\ (names s p = None -> snd eo = output /\ fst eo <> 0)
     /\ (forall i, names s p = Some i ->
        read_result m s i output junk (if size <=? 0 then length (files s i) else Z.to_nat size) (fst eo) (snd eo))) s).
  { apply wp_file_read; auto.
    - intros i Hi. apply HJ. unfold content. rewrite Hi. auto.
    - intros e1 o1 s1 A B C D E. cbn. auto. }
  destruct (wp_end _ _ _ _ _ _ _ H W) as (A & B & C & D). destruct A as [A1 A2]. cbn in *.
  split; [intros q; unfold content; rewrite A1, A2; auto|]. split; auto.
  unfold content. destruct (names s p) as [i|] eqn:Ep; cbn.
  - destruct (D i eq_refl) as (R1 & R2 & R3). split; auto. split; [discriminate|]. intros c [= <-] E. auto.
  - destruct (C eq_refl) as [C1 C2]. subst out. split; [apply firstn_all|]. split; auto. discriminate.
Qed.
Print Assumptions file_read_keeps_the_rest.

(** If one read gives all there is, success means the contents, all of it.  Missing: a system
    where one read may give less, for which it is wrong (below). *)
Theorem file_read_success_means_the_contents_partial m s p output size junk s' out c :
  full_reads m = true ->
  size <= 0 -> content s p = Some c -> (length c <= length junk)%nat ->
  run m s (read_prog p output size junk) s' (Ret (0, out)) ->
  out = output ++ c.
Proof.
  intros FR HS HC HJ H. unfold content in HC. destruct (names s p) as [i|] eqn:Ep; cbn in HC; [|discriminate]. injection HC as HC.
  assert (W : wp m (unchanged s) (read_prog p output size junk) (fun eo s' => fst eo = 0 -> snd eo = output ++ c) s).
  { apply wp_file_read; [intros j Hj; left; assert (j = i) by congruence; subst j; rewrite HC; lia|lia|].
    intros e1 o1 s1 A B C D E. split; auto. cbn. intros ->. destruct (E i Ep) as (R1 & R2 & R3).
    destruct (Z.leb_spec size 0); [|lia]. destruct (R3 eq_refl FR) as (_ & X & _). rewrite X, HC, firstn_all. auto. }
  apply (wp_end _ _ _ _ _ _ _ H W). auto.
Qed.
Print Assumptions file_read_success_means_the_contents_partial.

(** With a size given: success means the first [size] bytes of a file that is at least that
    long, and exactly that long if there is spare memory behind the output to tell. *)
Theorem file_read_of_known_size_partial m s p output size junk s' out c :
  full_reads m = true ->
  0 < size <= Z.of_nat (length junk) -> content s p = Some c ->
  run m s (read_prog p output size junk) s' (Ret (0, out)) ->
  size <= Z.of_nat (length c) /\ out = output ++ firstn (Z.to_nat size) c
  /\ (size < Z.of_nat (length junk) -> size = Z.of_nat (length c) /\ out = output ++ c).
Proof.
  intros FR HS HC H. unfold content in HC. destruct (names s p) as [i|] eqn:Ep; cbn in HC; [|discriminate]. injection HC as HC.
  assert (W : wp m (unchanged s) (read_prog p output size junk) (fun eo s' => fst eo = 0 ->
     size <= Z.of_nat (length c) /\ snd eo = output ++ firstn (Z.to_nat size) c
     /\ (size < Z.of_nat (length junk) -> size = Z.of_nat (length c))) s).
  { apply wp_file_read; [intros; lia|lia|].
    intros e1 o1 s1 A B C D E. split; auto. cbn. intros ->. destruct (E i Ep) as (R1 & R2 & R3).
    destruct (Z.leb_spec size 0); [lia|]. destruct (R3 eq_refl FR) as (X1 & X2 & X3). rewrite HC in *.
    split; [lia|]. split; auto. intros L. rewrite X3; lia. }
  destruct (wp_end _ _ _ _ _ _ _ H W eq_refl) as (A & B & C). cbn in B. split; auto. split; auto.
  intros L. specialize (C L). split; auto. rewrite B. rewrite firstn_all2; auto. lia.
Qed.
Print Assumptions file_read_of_known_size_partial.

(** A call that fails is reported. *)
Theorem file_read_reports_every_failure m s p output size junk s1 c k r s2 s' e out :
  run m s (read_prog p output size junk) s1 (Sys c k) -> os_step m s1 c r s2 -> ret r = -1 ->
  run m s2 (k r) s' (Ret (e, out)) -> e <> 0.
Proof. apply (honest_reports (fun x => fst x)) with (x := (e, out)). apply honest_file_read; cbn; auto. lia. Qed.
Print Assumptions file_read_reports_every_failure.

(** *** Refuted *)
Local Ltac nx := cbn; unfold Pos.to_nat; cbn.
Definition one_file (c : bytes) : os :=
  {| names := fun q => if path_eqb q [1] then Some 0%nat else None; files := fun _ => c; fresh := 1;
     fds := fun _ => None; dirs := fun _ => false |}.
Definition short_reads : mood := {| full_reads := false; some_written := true; may_fail := fun _ => false |}.
Definition no_failures : mood := {| full_reads := true; some_written := true; may_fail := fun _ => false |}.

(** Two reads of two bytes each: the second goes over the first, and success is reported with
    the wrong contents. *)
Theorem file_read_success_means_the_contents_refuted :
  exists s' out, run short_reads (one_file [10; 20; 30; 40]) (read_prog [1] [] 0 [0; 0; 0; 0; 0]) s' (Ret (0, out))
    /\ out = [30; 40; 0; 0].
Proof.
  eexists. exists [30; 40; 0; 0]. split; [|reflexivity].
  eapply Run_call; [apply O_stat with (i := 0%nat); reflexivity|]. nx.
  eapply Run_call; [apply O_openr with (d := 3) (i := 0%nat); [reflexivity|reflexivity|lia]|]. nx.
  eapply Run_call; [apply O_read with (i := 0%nat) (o := 0%nat) (k := 2%nat); cbn; try lia; try reflexivity; discriminate|]. nx.
  eapply Run_call; [apply O_read with (i := 0%nat) (o := 2%nat) (k := 2%nat); cbn; try lia; try reflexivity; discriminate|]. nx.
  eapply Run_call; [apply O_close|]. nx.
  apply Run_here.
Qed.
Print Assumptions file_read_success_means_the_contents_refuted.

(** A size is given, nothing spare behind the output: a longer file is cut off silently. *)
Theorem file_read_of_known_size_refuted :
  exists s', run no_failures (one_file [10; 20; 30; 40]) (read_prog [1] [] 2 [0; 0]) s' (Ret (0, [10; 20])).
Proof.
  eexists. 
  eapply Run_call; [apply O_openr with (d := 3) (i := 0%nat); [reflexivity|reflexivity|lia]|]. nx.
  eapply Run_call; [apply O_read with (i := 0%nat) (o := 0%nat) (k := 2%nat); cbn; try lia; reflexivity|]. nx.
  eapply Run_call; [apply O_close|]. nx.
  apply Run_here.
Qed.
Print Assumptions file_read_of_known_size_refuted.

(** A write that writes nothing ends the loop, and success is reported. *)
Theorem file_write_of_nothing_is_success :
  exists s', run {| full_reads := true; some_written := false; may_fail := fun _ => false |} (one_file [7]) (write_prog [1] [10; 20]) s' (Ret 0)
    /\ content s' [1] = Some [].
Proof.
  eexists. split.
  - eapply Run_call; [apply O_openw_old with (d := 3) (i := 0%nat); [reflexivity|reflexivity|lia]|]. nx.
    eapply Run_call; [apply O_write with (i := 0%nat) (o := 0%nat) (n := 0%nat); cbn; [reflexivity|lia|discriminate]|]. nx.
    eapply Run_call; [apply O_close|]. nx.
    apply Run_here.
  - reflexivity.
Qed.
Print Assumptions file_write_of_nothing_is_success.

Lemma one_file_tidy c : tidy (one_file c).
Proof.
  split; cbn.
  - intros p q i. destruct (path_eqb p [1]) eqn:A, (path_eqb q [1]) eqn:B; try discriminate.
    apply path_eqb_eq in A, B. congruence.
  - intros p i. destruct (path_eqb p [1]); try discriminate. intros [= <-]. lia.
Qed.
(** A write in two parts meets the hypotheses of the theorems about writing. *)
Example file_write_in_parts :
  some_written no_failures = true /\ tidy (one_file [7]) /\
  exists s', run no_failures (one_file [7]) (write_prog [1] [10; 20; 30]) s' (Ret 0) /\ content s' [1] = Some [10; 20; 30].
Proof.
  split; [reflexivity|]. split; [apply one_file_tidy|]. eexists. split.
  - eapply Run_call; [apply O_openw_old with (d := 3) (i := 0%nat); [reflexivity|reflexivity|lia]|]. nx.
    eapply Run_call; [apply O_write with (i := 0%nat) (o := 0%nat) (n := 1%nat); cbn; [reflexivity|lia|intros; lia]|]. nx.
    eapply Run_call; [apply O_write with (i := 0%nat) (o := 1%nat) (n := 2%nat); cbn; [reflexivity|lia|intros; lia]|]. nx.
    eapply Run_call; [apply O_close|]. nx.
    apply Run_here.
  - reflexivity.
Qed.
(** A read behind what the output holds already. *)
Example file_read_whole :
  content (one_file [10; 20; 30]) [1] = Some [10; 20; 30] /\
  exists s', run no_failures (one_file [10; 20; 30]) (read_prog [1] [5] 0 [0; 0; 0; 0]) s' (Ret (0, [5; 10; 20; 30])).
Proof.
  split; [reflexivity|]. eexists.
  eapply Run_call; [apply O_stat with (i := 0%nat); reflexivity|]. nx.
  eapply Run_call; [apply O_openr with (d := 3) (i := 0%nat); [reflexivity|reflexivity|lia]|]. nx.
  eapply Run_call; [apply O_read with (i := 0%nat) (o := 0%nat) (k := 3%nat); cbn; try lia; try reflexivity|]. nx.
  eapply Run_call; [apply O_close|]. nx.
  apply Run_here.
Qed.

(** ** C63: fs::mkdir_p *)

(** Whatever fails and wherever it stops: nothing but directories on the way to the one asked
    for is made, nothing is removed, files are as before. *)
Theorem mkdir_p_makes_only_what_is_on_the_way m s p a cs s' rest :
  spelled p a cs -> run m s (mkdir_prog p) s' rest ->
  (forall q, content s' q = content s q) /\ (forall d, fds s' d = fds s d)
  /\ (forall d, dirs s d = true -> dirs s' d = true)
  /\ forall d, dirs s' d = true -> dirs s d = true \/ exists n, (0 < n)%nat /\ d = (a, firstn n cs).
Proof.
  intros (F & NE & Hp) H.
  assert (W : wp m (on_the_way s a cs) (mkdir_prog p) (fun _ _ => True) s).
  { unfold mkdir_prog. destruct (mkdir_p_text a cs p (fun e => Ret e : prog Z) F NE Hp) as (n & L & ->).
    rewrite <- (firstn_all cs) at 2. apply wp_visit_any; [exact F| | | |].
    - unfold on_the_way. auto 8.
    - destruct cs; [congruence|cbn; lia].
    - lia.
    - intros. cbn. auto. }
  destruct (wp_inv _ _ _ _ _ _ _ H W) as (A & B & C & D & E).
  split; [intros q; unfold content; rewrite A, B; auto|]. split; [rewrite C; auto|]. auto.
Qed.
Print Assumptions mkdir_p_makes_only_what_is_on_the_way.

(** Success means that the directory is there. *)
Theorem mkdir_p_success_means_it_is_there m s p a cs s' :
  spelled p a cs -> run m s (mkdir_prog p) s' (Ret 0) -> dirs s' (a, cs) = true.
Proof.
  intros (F & NE & Hp) H.
  assert (W : wp m (on_the_way s a cs) (mkdir_prog p) (fun e s' => e = 0 -> dirs s' (a, cs) = true) s).
  { unfold mkdir_prog. destruct (mkdir_p_text a cs p (fun e => Ret e : prog Z) F NE Hp) as (n & L & ->).
    rewrite <- (firstn_all cs) at 2. apply wp_visit_any; [exact F| | | |].
    - unfold on_the_way. auto 8.
    - destruct cs; [congruence|cbn; lia].
    - lia.
    - intros e s1 O1 E1 K. split; auto. rewrite firstn_all in K. auto. }
  apply (wp_end _ _ _ _ _ _ _ H W). auto.
Qed.
Print Assumptions mkdir_p_success_means_it_is_there.

(** The claim would be: then all that is missing is made, and success reported.  What holds is
    this: what happens when no call fails but for the stated reasons; [there] exists, what is missing
    below it does not. *)
Theorem mkdir_p_makes_the_directory_partial m s p a there missing s' e :
  (forall c, may_fail m c = false) -> spelled p a (there ++ missing) ->
  dirs s (a, there) = true ->
  (forall j, (1 <= j <= length missing)%nat -> dirs s (a, there ++ firstn j missing) = false) ->
  run m s (mkdir_prog p) s' (Ret e) ->
  e = match missing with [] => EEXIST | [_] => 0 | _ => ENOENT end
  /\ forall d, dirs s' d = true <-> (dirs s d = true \/ exists j, (1 <= j <= Nat.min 2 (length missing))%nat /\ d = (a, there ++ firstn j missing)).
Proof.
  intros NF (F & NE & Hp) HT HM H.
  assert (W : wp m (fun _ => True) (mkdir_prog p) (fun e s' => e = result missing /\ s' = after s a there missing) s).
  { unfold mkdir_prog. destruct (mkdir_p_text a _ p (fun e => Ret e : prog Z) F NE Hp) as (n & L & ->).
    apply wp_visit; auto; [rewrite app_length in L; lia|]. nx. auto. }
  destruct (wp_end _ _ _ _ _ _ _ H W) as [-> ->]. split; [reflexivity|].
  assert (MK : forall s x d, dirs (mk s x) d = true <-> dirs s d = true \/ d = x).
  { intros s1 x d. cbn. unfold add_dir. destruct (dir_eqb d x) eqn:E; [apply dir_eqb_eq in E; tauto|].
    split; auto. intros [|Ed]; [auto|subst d]. rewrite dir_eqb_refl in E. discriminate. }
  intros d. destruct missing as [|x [|y l]]; unfold after.
  - split; auto. intros [|(j & J & _)]; auto. cbn in J. lia.
  - rewrite MK. split; (intros [A|A]; [auto|right]).
    + exists 1%nat. cbn. split; [lia|auto].
    + destruct A as (j & J & ->). cbn in J. replace j with 1%nat by lia. auto.
  - rewrite !MK. split.
    + intros [[A|A]|A]; try subst d; [auto|right; exists 1%nat; cbn; split; [lia|auto]|right; exists 2%nat; cbn; split; [lia|auto]].
    + intros [A|(j & J & ->)]; [auto|]. cbn in J. destruct (Nat.eq_dec j 1) as [->|]; [auto|].
      replace j with 2%nat by lia. auto.
Qed.
Print Assumptions mkdir_p_makes_the_directory_partial.

(** So with two directories missing both are made, but ENOENT is reported; with three or more
    the one asked for is not made. *)
Theorem mkdir_p_reports_success_refuted m s p a there x y s' e :
  (forall c, may_fail m c = false) -> spelled p a (there ++ [x; y]) ->
  dirs s (a, there) = true -> dirs s (a, there ++ [x]) = false -> dirs s (a, there ++ [x; y]) = false ->
  run m s (mkdir_prog p) s' (Ret e) ->
  e = ENOENT /\ dirs s' (a, there ++ [x; y]) = true.
Proof.
  intros NF SP H1 H2 H3 H. destruct (mkdir_p_makes_the_directory_partial m s p a there [x; y] s' e NF SP H1) as [A B]; auto.
  - intros j J. cbn in J. destruct (Nat.eq_dec j 1) as [->|]; auto. replace j with 2%nat by lia. auto.
  - split; auto. apply B. right. exists 2%nat. cbn. split; [lia|auto].
Qed.
Print Assumptions mkdir_p_reports_success_refuted.

Theorem mkdir_p_makes_the_directory_refuted m s p a there missing s' e :
  (forall c, may_fail m c = false) -> spelled p a (there ++ missing) -> (3 <= length missing)%nat ->
  dirs s (a, there) = true ->
  (forall j, (1 <= j <= length missing)%nat -> dirs s (a, there ++ firstn j missing) = false) ->
  run m s (mkdir_prog p) s' (Ret e) ->
  e = ENOENT /\ dirs s' (a, there ++ missing) = false.
Proof.
  intros NF SP L H1 HM H. destruct (mkdir_p_makes_the_directory_partial m s p a there missing s' e NF SP H1 HM H) as [A B].
  split; [destruct missing as [|x [|y l]]; cbn in L; try lia; auto|].
  destruct (dirs s' (a, there ++ missing)) eqn:E; auto. apply B in E. destruct E as [E|(j & J & E)].
  - specialize (HM (length missing) ltac:(lia)). rewrite firstn_all in HM. congruence.
  - injection E as E. apply app_inv_head in E. assert (X : length missing = length (firstn j missing)) by congruence.
    rewrite firstn_length in X. lia.
Qed.
Print Assumptions mkdir_p_makes_the_directory_refuted.

(** [mkdir_p("a/b/c")] in an empty working directory: runs to the end and meets the hypotheses. *)
Definition bare : os :=
  {| names := fun _ => None; files := fun _ => []; fresh := 0; fds := fun _ => None;
     dirs := fun d => dir_eqb d (false, []) |}.
Local Ltac mkd :=
  first [ eapply Run_call; [eapply O_mkdir_none; [reflexivity|reflexivity|reflexivity]|]; cbn
        | eapply Run_call; [eapply O_mkdir; [reflexivity|reflexivity|reflexivity]|]; cbn
        | apply Run_here ].
Lemma bare_spelled : spelled [97; 47; 98; 47; 99] false [[97]; [98]; [99]].
Proof.
  split; [|split; [discriminate|right; reflexivity]].
  repeat constructor; try discriminate; intros [X|[]]; discriminate X.
Qed.
Example mkdir_p_three_levels :
  spelled [97; 47; 98; 47; 99] false ([] ++ [[97]; [98]; [99]]) /\ dirs bare (false, []) = true /\
  exists s', run no_failures bare (mkdir_prog [97; 47; 98; 47; 99]) s' (Ret ENOENT)
    /\ dirs s' (false, [[97]; [98]]) = true /\ dirs s' (false, [[97]; [98]; [99]]) = false.
Proof.
  split; [apply bare_spelled|]. split; [reflexivity|]. eexists. split.
  - unfold mkdir_prog, mkdir_p. cbn.
    eapply Run_call; [apply O_mkdir_none with (a := false) (cs := [[97]; [98]]) (c := [99]); reflexivity|]. nx.
    eapply Run_call; [apply O_mkdir_none with (a := false) (cs := [[97]]) (c := [98]); reflexivity|]. nx.
    eapply Run_call; [apply O_mkdir with (a := false) (cs := []) (c := [97]); reflexivity|]. nx.
    eapply Run_call; [apply O_mkdir with (a := false) (cs := [[97]]) (c := [98]); reflexivity|]. nx.
    apply Run_here.
  - split; reflexivity.
Qed.
Example mkdir_p_one_level :
  exists s', run no_failures bare (mkdir_prog [97; 47]) s' (Ret 0) /\ dirs s' (false, [[97]]) = true.
Proof.
  eexists. split.
  - unfold mkdir_prog, mkdir_p. cbn.
    eapply Run_call; [apply O_mkdir with (a := false) (cs := []) (c := [97]); reflexivity|]. nx.
    apply Run_here.
  - reflexivity.
Qed.

(** ** C64: atomic_write *)

(** Any number of writers, each with a temporary name of its own that is nobody's destination,
    taking turns in any way, any call of any of them failing, stopped anywhere: every other
    name keeps its contents or has all of the data of one of the writers for it. *)
Theorem atomic_write_all_or_nothing m jobs s s' ps :
  some_written m = true ->
  NoDup (map j_tmp jobs) -> (forall j j', In j jobs -> In j' jobs -> j_tmp j <> j_dest j') ->
  tidy s -> together m s (map (fun j => atomic_write (j_tmp j) (j_dest j) (j_data j) (fun e => Ret e)) jobs) s' ps ->
  forall q, (forall j, In j jobs -> q <> j_tmp j) ->
    content s' q = content s q \/ exists j, In j jobs /\ j_dest j = q /\ content s' q = Some (j_data j).
Proof.
  intros SW ND AP T H q Hq.
  destruct (all_ok_together m jobs SW AP ND s s _ s' ps H _ (all_ok_start m jobs s T)) as [o A].
  apply (ok_content _ _ _ _ _ _ A q Hq).
Qed.
Print Assumptions atomic_write_all_or_nothing.

(** A writer that reported success: its destination has all of the data of some writer for it,
    and its temporary file is gone. *)
Theorem atomic_write_success_means_done m jobs s s' ps :
  some_written m = true ->
  NoDup (map j_tmp jobs) -> (forall j j', In j jobs -> In j' jobs -> j_tmp j <> j_dest j') ->
  tidy s -> together m s (map (fun j => atomic_write (j_tmp j) (j_dest j) (j_data j) (fun e => Ret e)) jobs) s' ps ->
  forall a j, nth_error jobs a = Some j -> nth_error ps a = Some (Ret 0) ->
    content s' (j_tmp j) = None
    /\ exists j', In j' jobs /\ j_dest j' = j_dest j /\ content s' (j_dest j) = Some (j_data j').
Proof.
  intros SW ND AP T H a j Hj Hp.
  destruct (all_ok_together m jobs SW AP ND s s _ s' ps H _ (all_ok_start m jobs s T)) as [o A].
  destruct (nth_error o a) as [x|] eqn:Eo.
  2:{ apply nth_error_None in Eo. destruct (ok_len _ _ _ _ _ _ A) as [_ L]. assert (a < length jobs)%nat by (apply nth_error_Some; congruence). lia. }
  pose proof (ok_stage _ _ _ _ _ _ A a j _ x Hj Hp Eo) as St. destruct (stage_ret _ _ _ _ _ _ St) as [St1 St2].
  destruct (St1 eq_refl) as (j' & B1 & B2 & B3). split; [unfold content; rewrite St2; auto|]. eauto.
Qed.
Print Assumptions atomic_write_success_means_done.

(** A single writer that reported success wrote its data. *)
Theorem atomic_write_alone m tmp dest data s s' :
  some_written m = true -> tmp <> dest -> tidy s ->
  run m s (atomic_write tmp dest data (fun e => Ret e)) s' (Ret 0) ->
  content s' dest = Some data /\ content s' tmp = None /\ (forall q, q <> tmp -> q <> dest -> content s' q = content s q)
  /\ forall d, fds s' d = fds s d.
Proof.
  intros SW NE T H.
  set (j := {| j_tmp := tmp; j_dest := dest; j_data := data |}).
  assert (AP : forall j1 j2, In j1 [j] -> In j2 [j] -> j_tmp j1 <> j_dest j2) by (intros j1 j2 [<-|[]] [<-|[]]; auto).
  assert (ND : NoDup (map j_tmp [j])) by (constructor; [intros []|constructor]).
  assert (TG : together m s (map (fun j => atomic_write (j_tmp j) (j_dest j) (j_data j) (fun e => Ret e)) [j]) s' [Ret 0]).
  { cbn [map j_tmp j_dest j_data j]. apply run_together. auto. }
  destruct (atomic_write_success_means_done m [j] s s' [Ret 0] SW ND AP T TG 0%nat j eq_refl eq_refl) as [A (j' & [<-|[]] & B & C)].
  split; auto. split; auto. split.
  - intros q Q1 Q2. destruct (atomic_write_all_or_nothing m [j] s s' [Ret 0] SW ND AP T TG q) as [D|(j1 & [<-|[]] & D & _)]; auto.
    + intros j1 [<-|[]]. auto.
    + cbn in D. congruence.
  - destruct (all_ok_together m [j] SW AP ND s s _ s' [Ret 0] TG _ (all_ok_start m [j] s T)) as [o X].
    intros d. apply (ok_fds _ _ _ _ _ _ X). intros a Ha.
    assert (L : (a < 1)%nat). { destruct (ok_len _ _ _ _ _ _ X) as [_ L]. cbn in L. rewrite <- L. apply nth_error_Some. congruence. }
    assert (a = 0)%nat by lia. subst a. pose proof (ok_stage _ _ _ _ _ _ X 0%nat j _ _ eq_refl eq_refl Ha) as St. apply stage_ret_fd in St. discriminate.
Qed.
Print Assumptions atomic_write_alone.

(** When all writers are done, the descriptors are as before. *)
Theorem atomic_write_leaks_no_descriptor m jobs s s' ps :
  some_written m = true ->
  NoDup (map j_tmp jobs) -> (forall j j', In j jobs -> In j' jobs -> j_tmp j <> j_dest j') ->
  tidy s -> together m s (map (fun j => atomic_write (j_tmp j) (j_dest j) (j_data j) (fun e => Ret e)) jobs) s' ps ->
  Forall (fun p => exists e, p = Ret e) ps -> forall d, fds s' d = fds s d.
Proof.
  intros SW ND AP T H Fn d.
  destruct (all_ok_together m jobs SW AP ND s s _ s' ps H _ (all_ok_start m jobs s T)) as [o A].
  apply (ok_fds _ _ _ _ _ _ A). intros a Ha.
  destruct (ok_len _ _ _ _ _ _ A) as [L1 L2].
  assert (L : (a < length jobs)%nat) by (rewrite <- L2; apply nth_error_Some; congruence).
  destruct (nth_error jobs a) as [j|] eqn:Ej; [|apply nth_error_None in Ej; lia].
  destruct (nth_error ps a) as [p|] eqn:Ep; [|apply nth_error_None in Ep; lia].
  pose proof (ok_stage _ _ _ _ _ _ A a j p _ Ej Ep Ha) as St.
  assert (X : exists e, p = Ret e) by (apply nth_error_In in Ep; rewrite Forall_forall in Fn; auto).
  destruct X as [e ->]. apply stage_ret_fd in St. discriminate.
Qed.
Print Assumptions atomic_write_leaks_no_descriptor.

(** If removing a file does not fail, no temporary file of a writer that is done is left. *)
Theorem atomic_write_leaves_no_temporary_file m jobs s s' ps :
  some_written m = true ->
  NoDup (map j_tmp jobs) -> (forall j j', In j jobs -> In j' jobs -> j_tmp j <> j_dest j') ->
  tidy s -> together m s (map (fun j => atomic_write (j_tmp j) (j_dest j) (j_data j) (fun e => Ret e)) jobs) s' ps ->
  (forall p, may_fail m (CUnlink p) = false) ->
  forall a j e, nth_error jobs a = Some j -> nth_error ps a = Some (Ret e) -> content s' (j_tmp j) = None.
Proof.
  intros SW ND AP T H NU a j e Hj Hp.
  destruct (all_ok_together m jobs SW AP ND s s _ s' ps H _ (all_ok_start m jobs s T)) as [o A].
  destruct (nth_error o a) as [x|] eqn:Eo.
  2:{ apply nth_error_None in Eo. destruct (ok_len _ _ _ _ _ _ A) as [_ L]. assert (a < length jobs)%nat by (apply nth_error_Some; congruence). lia. }
  pose proof (ok_stage _ _ _ _ _ _ A a j _ x Hj Hp Eo) as St. destruct (stage_ret _ _ _ _ _ _ St) as [_ St2].
  unfold content. rewrite St2; auto.
Qed.
Print Assumptions atomic_write_leaves_no_temporary_file.

(** Every failure of a call but that of the final removal is reported, and that one comes only
    after another. *)
Theorem atomic_write_reports_every_failure m s tmp dest data s1 c k r s2 s' e :
  run m s (atomic_write tmp dest data (fun e => Ret e)) s1 (Sys c k) -> os_step m s1 c r s2 -> ret r = -1 ->
  run m s2 (k r) s' (Ret e) -> e <> 0.
Proof. apply (honest_reports (fun e => e)). apply honest_atomic_write; cbn; auto. lia. Qed.
Print Assumptions atomic_write_reports_every_failure.

(** Temporary names: equal only if the lower forty random bits are; eight characters, none of
    them a slash, behind the directory. *)
Theorem tmpfile_names_differ dir r1 r2 :
  tmpfile dir r1 = tmpfile dir r2 <-> r1 mod 2 ^ 40 = r2 mod 2 ^ 40.
Proof.
  unfold tmpfile. split.
  - intros H. apply app_inv_head in H. apply (tmp_digits_inj 8 r1 r2). auto.
  - intros H. f_equal. apply tmp_digits_inj. auto.
Qed.
Print Assumptions tmpfile_names_differ.

Theorem tmpfile_names_stay_in_the_directory dir r :
  exists name, tmpfile dir r = dir ++ name /\ length name = 8%nat /\ ~ In slash name
    /\ Forall (fun c => 48 <= c <= 57 \/ 97 <= c <= 118) name.
Proof.
  exists (tmp_digits 8 r). split; [reflexivity|]. split; [reflexivity|].
  pose proof (tmp_digits_chars 8 r) as F. split; auto.
  intros X. rewrite Forall_forall in F. apply F in X. unfold slash in X. lia.
Qed.
Print Assumptions tmpfile_names_stay_in_the_directory.

(** Two writers for one destination, interleaved, the first of them cut short by a failing
    write: the destination has the second's data, and nothing temporary is left. *)
Definition job1 : job := {| j_tmp := [8; 1]; j_dest := [1]; j_data := [10; 20] |}.
Definition job2 : job := {| j_tmp := [8; 2]; j_dest := [1]; j_data := [30] |}.
Definition fallible : mood :=
  {| full_reads := true; some_written := true; may_fail := fun c => match c with CUnlink _ => false | _ => true end |}.
Local Ltac at_1 := eapply To_call with (l1 := []) (l2 := [_]).
Local Ltac at_2 := eapply To_call with (l1 := [_]) (l2 := []).
Example atomic_write_two_writers :
  some_written fallible = true /\ (forall p, may_fail fallible (CUnlink p) = false) /\ NoDup (map j_tmp [job1; job2])
  /\ (forall j j', In j [job1; job2] -> In j' [job1; job2] -> j_tmp j <> j_dest j')
  /\ tidy (one_file [7])
  /\ exists s', together fallible (one_file [7])
       (map (fun j => atomic_write (j_tmp j) (j_dest j) (j_data j) (fun e => Ret e)) [job1; job2]) s' [Ret 28; Ret 0]
     /\ content s' [1] = Some [30] /\ content s' [8; 1] = None /\ content s' [8; 2] = None.
Proof.
  split; [reflexivity|]. split; [reflexivity|]. split; [repeat constructor; [intros [X|[]]; discriminate X|intros []]|].
  split; [intros j j' [<-|[<-|[]]] [<-|[<-|[]]]; discriminate|]. split; [apply one_file_tidy|].
  eexists. split.
  - cbn.
    at_1; [apply O_openw_new with (d := 3); [reflexivity|reflexivity|lia]|]. nx.
    at_2; [apply O_openw_new with (d := 4); [reflexivity|reflexivity|lia]|]. nx.
    at_1; [apply O_write with (i := 1%nat) (o := 0%nat) (n := 1%nat); cbn; [reflexivity|lia|intros; lia]|]. nx.
    at_2; [apply O_write with (i := 2%nat) (o := 0%nat) (n := 1%nat); cbn; [reflexivity|lia|intros; lia]|]. nx.
    at_1; [apply O_fail with (e := 28); [reflexivity|lia|discriminate]|]. nx.
    at_2; [apply O_close|]. nx.
    at_1; [apply O_close|]. nx.
    at_2; [apply O_rename with (i := 2%nat); [reflexivity|discriminate]|]. nx.
    at_1; [apply O_unlink with (i := 1%nat); reflexivity|]. nx.
    apply To_here.
  - repeat split; reflexivity.
Qed.

(** The names have to differ: with the same one, a writer can report success although the
    destination has only a part of another's data. *)
Theorem atomic_write_same_temporary_name :
  exists s' p, together no_failures (one_file [7])
       [atomic_write [8] [1] [10] (fun e => Ret e); atomic_write [8] [1] [30; 40] (fun e => Ret e)] s' [Ret 0; p]
     /\ content s' [1] = Some [30].
Proof.
  eexists. eexists. split.
  - cbn.
    at_1; [apply O_openw_new with (d := 3); [reflexivity|reflexivity|lia]|]. nx.
    at_1; [apply O_write with (i := 1%nat) (o := 0%nat) (n := 1%nat); cbn; [reflexivity|lia|intros; lia]|]. nx.
    at_1; [apply O_close|]. nx.
    at_2; [apply O_openw_old with (d := 4) (i := 1%nat); [reflexivity|reflexivity|lia]|]. nx.
    at_2; [apply O_write with (i := 1%nat) (o := 0%nat) (n := 1%nat); cbn; [reflexivity|lia|intros; lia]|]. nx.
    at_1; [apply O_rename with (i := 1%nat); [reflexivity|discriminate]|]. nx.
    apply To_here.
  - reflexivity.
Qed.
Print Assumptions atomic_write_same_temporary_name.
