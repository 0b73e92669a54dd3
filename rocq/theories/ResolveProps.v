(** C65: what an import means. *)
From Coq Require Import String Ascii.
From Verif Require Import PathModel ResolveSpec ResolveModel ResolveLemmas.
From Coq Require Import List Arith ZArith Bool Lia.
Import ListNotations.

(** Examples: files as text. *)
Local Fixpoint b (s : string) : str :=
  match s with EmptyString => [] | String c s => Z.of_nat (nat_of_ascii c) :: b s end.
Local Definition disk (l : list string) (p : str) : bool := existsb (str_eqb p) (map b l).
Local Definition req (d n : string) : request := {| r_dir := b d; r_name := b n; r_id := None |}.
Local Definition req_in (d n i : string) : request := {| r_dir := b d; r_name := b n; r_id := Some (b i) |}.
Local Definition none : str -> bool := fun _ => false.

Local Lemma library_lib fudir : lib fudir = library fudir.
Proof.
  unfold lib, library, ends_in_slash, ends, sep, c_slash.
  destruct (rev fudir) as [|c r] eqn:E.
  - apply (f_equal (@rev Z)) in E. rewrite rev_involutive in E. subst. reflexivity.
  - assert (Ef : fudir = rev r ++ [c]) by (rewrite <- (rev_involutive fudir), E; reflexivity). rewrite Ef.
    unfold view_between. rewrite app_length. cbn [length].
    rewrite Nat.add_sub, skipn_app, skipn_all, Nat.sub_diag. cbn [app skipn].
    replace (length (rev r) + 1 - length (rev r)) with 1 by lia. cbn [firstn].
    destruct (Nat.leb_spec 1 (length (rev r) + 1)); [|lia]. cbn. destruct (Z.eqb c 47); reflexivity.
Qed.

(** Every import of a program, in any order, finds the nearest file of the first naming convention
    that has one, going up from the importing file's directory and then to the library; so long as
    no two of the lookups are for the same path and mean different files.
    Missing: programs with such a clash; see the refutations below. *)
Theorem imports_find_the_nearest_file_partial exists_ has fudir l :
  Forall proper l -> no_clash exists_ (library fudir) l ->
  fst (resolve_all exists_ fudir has (map spell l) (fun _ => None)) = map (wanted exists_ has (library fudir)) l.
Proof.
  intros P N. rewrite <- library_lib in *. apply (resolve_all_wanted exists_ has fudir l P N).
  - apply incl_refl.
  - intros k v H. discriminate.
Qed.
Print Assumptions imports_find_the_nearest_file_partial.

(** Whether there is a clash, computed. *)
Local Fixpoint tried_names (f : str -> option str) (l : list str) : list str :=
  match l with [] => [] | x :: t => x :: match f x with Some _ => [] | None => tried_names f t end end.
Local Definition lookups (exists_ : str -> bool) (lib : option str) (l : list request) : list (str * str) :=
  flat_map (fun q => flat_map (fun d => map (fun x => (d, x)) (tried_names (nearest exists_ lib (r_dir q)) (conventions q)))
                              (upwards (r_dir q))) l.
Local Definition opt_eqb (a c : option str) : bool :=
  match a, c with Some x, Some y => str_eqb x y | None, None => true | _, _ => false end.
Local Definition no_clashb (exists_ : str -> bool) (lib : option str) (l : list request) : bool :=
  let L := lookups exists_ lib l in
  forallb (fun p => forallb (fun p' => negb (str_eqb (fst p ++ snd p) (fst p' ++ snd p'))
      || opt_eqb (nearest exists_ lib (fst p) (snd p)) (nearest exists_ lib (fst p') (snd p'))) L) L.
Local Lemma tried_names_in f l : forall l1 x l2, l = l1 ++ x :: l2 -> (forall y, In y l1 -> f y = None) -> In x (tried_names f l).
Proof.
  induction l as [|a l IH]; intros [|y l1] x l2 E H; try discriminate; injection E as -> E.
  - left. auto.
  - right. rewrite (H y (or_introl eq_refl)). apply (IH l1 x l2); auto. intros z Hz. apply H. right. auto.
Qed.
Local Lemma no_clashb_ok exists_ lib l : no_clashb exists_ lib l = true -> no_clash exists_ lib l.
Proof.
  unfold no_clashb. intros H q q' x x' d d' Hq Hq' (l1 & l2 & E & T) (l1' & l2' & E' & T') Hd Hd' Eq.
  assert (In1 : In (d, x) (lookups exists_ lib l)).
  { apply in_flat_map. exists q. split; auto. apply in_flat_map. exists d. split; auto. apply in_map.
    apply (tried_names_in _ _ l1 x l2); auto. }
  assert (In2 : In (d', x') (lookups exists_ lib l)).
  { apply in_flat_map. exists q'. split; auto. apply in_flat_map. exists d'. split; auto. apply in_map.
    apply (tried_names_in _ _ l1' x' l2'); auto. }
  rewrite forallb_forall in H. specialize (H _ In1). rewrite forallb_forall in H. specialize (H _ In2). cbn [fst snd] in H.
  rewrite Eq, seqb_refl in H. cbn [negb orb] in H. unfold opt_eqb in H.
  destruct (nearest exists_ lib d x) as [u|], (nearest exists_ lib d' x') as [w|]; try discriminate; auto.
  destruct (seqb_spec u w); [congruence|discriminate].
Qed.

(** Whether a request is proper, computed. *)
Local Definition lacks (c : Z) (l : str) : bool := negb (existsb (Z.eqb c) l).
Local Definition properb (q : request) : bool :=
  ends_in_slash (r_dir q) && lacks 11 (r_dir q) && negb (is_nil (r_name q)) && lacks 11 (r_name q) && lacks 9 (r_name q)
  && match r_id q with Some i => negb (is_nil i) && lacks 11 i && lacks 9 i && lacks 46 i | None => true end.
Local Lemma lacks_ok c l : lacks c l = true -> ~ In c l.
Proof.
  unfold lacks. intros H X. apply negb_true_iff in H. assert (Y : existsb (Z.eqb c) l = true); [|congruence].
  apply existsb_exists. exists c. split; auto. apply Z.eqb_refl.
Qed.
Local Lemma properb_ok q : properb q = true -> proper q.
Proof.
  unfold properb. intros H. repeat (apply andb_true_iff in H; destruct H as [H ?]). unfold proper.
  split. { unfold ends_in_slash in H. destruct (rev (r_dir q)) as [|c r] eqn:E; [discriminate|]. apply Z.eqb_eq in H. subst c.
    exists (rev r). rewrite <- (rev_involutive (r_dir q)), E. auto. }
  split; [apply lacks_ok; auto|]. split; [destruct (r_name q); discriminate|]. split; [apply lacks_ok; auto|]. split; [apply lacks_ok; auto|].
  destruct (r_id q) as [i|]; auto. repeat match goal with X : _ && _ = true |- _ => apply andb_true_iff in X; destruct X end.
  split; [destruct i; [discriminate|congruence]|]. auto using lacks_ok.
Qed.

(** A file two directories up, one in the library under the second convention, and one under the third. *)
Example imports_find_the_nearest_file_ex :
  let on := disk ["/p/src/a.fu"; "/p/hash.fu"; "/fu/lib/vec/vec.fu"; "/fu/lib/gl/Cache.fu"]%string in
  let l := [req "/p/src/" "hash"; req "/p/src/x/" "a"; req "/p/" "vec"; req_in "/p/src/" "gl" "Cache"; req "/p/" "nowhere"] in
  Forall proper l /\ no_clash on (library (b "/fu/")) l
  /\ map (wanted on none (library (b "/fu/"))) l
     = [b "/p/hash.fu"; b "/p/src/a.fu"; b "/fu/lib/vec/vec.fu"; b "/fu/lib/gl/Cache.fu"; spell (req "/p/" "nowhere")].
Proof.
  intros on l. split; [|split].
  - repeat (apply Forall_cons; [apply properb_ok; reflexivity|]). apply Forall_nil.
  - apply no_clashb_ok. vm_compute. reflexivity.
  - vm_compute. reflexivity.
Qed.

(** Without that proviso the claim fails, for a single import: with only lib/n/n.fu on disk,
    [import n] in directory /p/n/ finds nothing.  The attempt to find n.fu stores a miss for
    /p/n/n.fu, which the attempt to find n/n.fu meets in /p/ and takes for its own. *)
Theorem imports_find_the_nearest_file_refuted :
  exists exists_ has fudir q, proper q
    /\ wanted exists_ has (library fudir) q = b "/fu/lib/n/n.fu" /\ exists_ (b "/fu/lib/n/n.fu") = true
    /\ fst (resolve_all exists_ fudir has [spell q] (fun _ => None)) = [spell q].
Proof.
  exists (disk ["/fu/lib/n/n.fu"]%string), none, (b "/fu/"), (req "/p/n/" "n").
  split; [|vm_compute; auto].
  apply properb_ok. reflexivity.
Qed.
Print Assumptions imports_find_the_nearest_file_refuted.

(** And what an import gives depends on the imports before it: /p/main.fu's [ev::Map] found in the
    library makes /p/ev/'s own [Map] mean that file as well, and not /p/Map.fu. *)
Theorem the_order_of_imports_matters_refuted :
  exists exists_ has fudir q1 q2, proper q1 /\ proper q2
    /\ wanted exists_ has (library fudir) q2 = b "/p/Map.fu"
    /\ fst (resolve_all exists_ fudir has [spell q2; spell q1] (fun _ => None)) = [b "/p/Map.fu"; b "/p/Map.fu"]
    /\ fst (resolve_all exists_ fudir has [spell q1; spell q2] (fun _ => None)) = [b "/fu/lib/ev/Map.fu"; b "/fu/lib/ev/Map.fu"].
Proof.
  exists (disk ["/p/Map.fu"; "/fu/lib/ev/Map.fu"]%string), none, (b "/fu/"), (req_in "/p/" "ev" "Map"), (req "/p/ev/" "Map").
  split; [|split; [|vm_compute; auto]].
  - apply properb_ok. reflexivity.
  - apply properb_ok. reflexivity.
Qed.
Print Assumptions the_order_of_imports_matters_refuted.

(** Whatever was imported before, and clash or no clash: an import gives itself, or a file that is
    there and is called as one of its names; and if the first name is in the importing directory,
    it is that file. *)
Theorem an_import_never_gives_a_file_of_another_name exists_ has fudir l :
  Forall proper l ->
  Forall2 (acceptable exists_ has) l (fst (resolve_all exists_ fudir has (map spell l) (fun _ => None))).
Proof. intros P. apply resolve_all_fair; auto. intros k v H. discriminate. Qed.
Print Assumptions an_import_never_gives_a_file_of_another_name.
Example an_import_never_gives_a_file_of_another_name_ex :
  let on := disk ["/p/ev/Map.fu"; "/p/Map.fu"; "/fu/lib/ev/Map.fu"]%string in
  fst (resolve_all on (b "/fu/") none (map spell [req_in "/p/q/" "ev" "Map"; req "/p/ev/" "Map"]) (fun _ => None))
  = [b "/p/ev/Map.fu"; b "/p/ev/Map.fu"].
Proof. vm_compute. reflexivity. Qed.

(** The same import gives the same file every time it is asked for, whatever is asked in between. *)
Theorem the_same_import_gives_the_same_file exists_ has fudir l1 p l2 l3 :
  let r := fst (resolve_all exists_ fudir has (l1 ++ p :: l2 ++ p :: l3) (fun _ => None)) in
  nth (length l1) r [] = nth (length l1 + 1 + length l2) r [].
Proof. apply resolve_all_again. Qed.
Print Assumptions the_same_import_gives_the_same_file.
Example the_same_import_gives_the_same_file_ex :
  let on := disk ["/p/Map.fu"; "/fu/lib/ev/Map.fu"]%string in
  let a := spell (req_in "/p/" "ev" "Map") in let c := spell (req "/p/ev/" "Map") in
  fst (resolve_all on (b "/fu/") none [c; a; c; a] (fun _ => None)) = repeat (b "/p/Map.fu") 4
  /\ fst (resolve_all on (b "/fu/") none [a; c; a; c] (fun _ => None)) = repeat (b "/fu/lib/ev/Map.fu") 4.
Proof. vm_compute. auto. Qed.

(** What is not an import of a name from a directory is given back as it is, and nothing is noted. *)
Theorem what_is_no_import_is_given_back exists_ has fudir p c :
  (forall d n, p = d ++ 11%Z :: n -> d = [] \/ n = [] \/ In 11%Z d \/ In 11%Z n) ->
  resolve_import exists_ fudir has p c = (p, c).
Proof.
  intros H. unfold resolve_import. destruct (parts p) as [[d names]|] eqn:E; auto.
  destruct (parts_spec p d names E) as (n & Ep & A & B & C & D & _). unfold vt in *.
  destruct (H d n Ep) as [X|[X|[X|X]]]; contradiction.
Qed.
Print Assumptions what_is_no_import_is_given_back.
Example what_is_no_import_is_given_back_ex :
  forall d n, b "/p/a.fu" = d ++ 11%Z :: n -> d = [] \/ n = [] \/ In 11%Z d \/ In 11%Z n.
Proof.
  intros d n E. exfalso. assert (H : In 11%Z (b "/p/a.fu")) by (rewrite E; apply in_or_app; right; left; auto).
  cbn in H. repeat (destruct H as [H|H]; [discriminate|]). exact H.
Qed.
