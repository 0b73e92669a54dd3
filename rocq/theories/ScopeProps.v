(** C57: names mean what lexical scoping says.  C58: the rest of scope.fu. *)
From Verif Require Import CommonLemmas CanonSpec CanonCodecProps ScopeModel ScopeSpec ScopeProofs ScopeSim ScopeMore.
Open Scope Z_scope.

(** C57.  Whatever functions are declared, called (from anywhere they are still known), and looked at, and in whatever
    order names are looked up meanwhile: every lookup gives the meanings lexical scoping gives, nearest first, and
    nothing goes out of bounds, loops or trips a self test. *)
Theorem lookups_are_lexical : forall es, fair es -> option_map snd (run init es) = lexical_run lexical_init es.
Proof. intros es [F P]. apply run_sim; auto using init_sim. Qed.
Print Assumptions lookups_are_lexical.

Local Definition x : list Z := [120].
Local Definition y : list Z := [121].
Local Definition look (id : list Z) (n : nat) : list event := [ELookup id [] []] ++ repeat ENext n ++ [EClose].
(** module: x = 1; fn main() { x = 2; fn f() {}; { x = 3; fn g() {}; f() { looks up x; g() { looks up x } } looks up x } } *)
Local Definition program : list event :=
  [EPush x 1 false; EGlobal; EPush x 2 true; EFn; EOpen; EPush x 3 false; EFn; EBody 1] ++ look x 3 ++
  [EPush x 4 false; EBody 0] ++ look x 4 ++ [EClose] ++ look x 4 ++ [EClose] ++ look x 4.
Example program_is_fair : fair program.
Proof. split; [repeat constructor; cbn; unfold LIMIT, slen; cbn; lia|reflexivity]. Qed.
Example program_shows : option_map snd (run init program) = Some
  ([(2, true); (1, false); (0, false)] ++ [(3, false); (2, true); (1, false); (0, false)] ++
   [(4, false); (2, true); (1, false); (0, false)] ++ [(3, false); (2, true); (1, false); (0, false)]).
Proof. vm_compute. reflexivity. Qed.

(** A lookup interrupted by other lookups and by function bodies goes on as if it had not been. *)
Local Definition interrupted : list event :=
  [EPush x 1 false; EGlobal; EFn; EPush x 2 false; EPush x 3 false; ELookup x [9] [ScopeItem x 8 true]; ENext; EBody 0; EPush x 5 false] ++
  look x 3 ++ [EClose; ENext] ++ look x 6 ++ [ENext; ENext; ENext; ENext; ENext].
Example interrupted_is_fair : fair interrupted.
Proof. split; [repeat constructor; cbn; unfold LIMIT, slen; cbn; lia|reflexivity]. Qed.
Example interrupted_shows : option_map (map fst) (option_map snd (run init interrupted)) = Some
  ([3] ++ [5; 1; 0] ++ [2] ++ [3; 2; 1; 0; 0; 0] ++ [1; 8; 9; 0; 0]).
Proof. vm_compute. reflexivity. Qed.

(** ** Autocalls: the scopes of the caller and of the callee are united. *)
(** The union hides only what the caller does not see, and goes on hiding what neither sees. *)
Theorem a_union_hides_nothing_new : forall caller callee callee_len k, tidy_skips 0 callee callee_len ->
  hidden (reveal caller callee callee_len) k -> hidden caller k.
Proof. intros caller callee n k T. apply reveal_hidden. exact T. Qed.
Print Assumptions a_union_hides_nothing_new.
Theorem a_union_hides_what_neither_sees : forall caller callee callee_len k, tidy_skips 0 callee callee_len ->
  hidden caller k -> hidden callee k \/ callee_len <= k -> hidden (reveal caller callee callee_len) k.
Proof. intros caller callee n k T. apply reveal_hidden. exact T. Qed.
Print Assumptions a_union_hides_what_neither_sees.
Example a_union_at_work : reveal [Skip 2 6; Skip 8 20] [Skip 4 5] 11 = [Skip 4 6; Skip 11 20] /\ tidy_skips 0 [Skip 4 5] 11.
Proof. vm_compute. repeat split; discriminate. Qed.

(** It does not show all that the callee sees. *)
Theorem a_union_shows_what_either_sees_refuted : ~ (forall caller callee callee_len len k,
  tidy_skips 0 caller len -> tidy_skips 0 callee callee_len -> callee_len <= len -> 0 <= k < callee_len ->
  ~ hidden callee k -> ~ hidden (reveal caller callee callee_len) k).
Proof.
  intros H. apply (H [Skip 5 20] [Skip 7 9] 12 20 10); try (cbn; lia).
  - intros (s & [<-|[]] & B). cbn in B. lia.
  - exists (Skip 7 20). cbn. split; auto. lia.
Qed.
Print Assumptions a_union_shows_what_either_sees_refuted.

(** What a lookup in a union finds depends on which lookups were made before it: [warm] changes nothing that a program
    can see, but the lookup after it loses a meaning. *)
Theorem lookups_in_a_union_do_not_depend_on_earlier_lookups_refuted : exists before warm after,
  option_map snd (run init (before ++ after)) = Some [(2, false); (1, false); (0, false)] /\
  option_map snd (run init (before ++ warm)) = Some [(2, false); (0, false)] /\
  option_map snd (run init (before ++ warm ++ after)) = Some ([(2, false); (0, false)] ++ [(2, false); (0, false); (0, false)]).
Proof.
  exists [EGlobal; EFn; EPush x 1 false; EFn; EBody 1; EPush x 2 false], (look x 2), (EUnion 0 :: look x 3).
  vm_compute. auto.
Qed.
Print Assumptions lookups_in_a_union_do_not_depend_on_earlier_lookups_refuted.

(** A lookup in a union can make a later lookup, outside of any union, lose a meaning that lexical scoping gives it:
    [detour] calls a function and comes back, with the environment as it was. *)
Theorem lookups_in_a_union_do_no_harm_refuted : exists before detour after,
  lexical_run lexical_init (before ++ after) = Some [(8, false); (7, false); (0, false)] /\
  option_map snd (run init (before ++ after)) = Some [(8, false); (7, false); (0, false)] /\
  (exists s t o o', run init before = Some (s, o) /\ run init (before ++ detour) = Some (t, o') /\
     map strip (st_items t) = map strip (st_items s) /\ st_ss t = st_ss s /\ st_frames t = st_frames s) /\
  option_map snd (run init (before ++ detour ++ after)) = Some ([(8, false); (0, false)] ++ [(8, false); (0, false); (0, false)]).
Proof.
  exists [EGlobal; EFn (* a *); EPush y 1 false; EFn (* b *); EPush y 1 false; EBody 0 (* b *); EPush x 7 false; EPush y 1 false; EFn (* c *);
          EPush y 1 false; EBody 2 (* a *); EPush y 1 false; EPush y 1 false; EFn (* a2 *); EBody 1 (* c *); EPush x 8 false; EPush y 1 false;
          EPush y 1 false; EFn (* d *)],
         ([EBody 1 (* a2 *); EUnion 0 (* d *)] ++ look x 2 ++ [EClose; EClose]), (look x 3).
  split; [vm_compute; reflexivity|]. split; [vm_compute; reflexivity|]. split; [|vm_compute; reflexivity].
  do 4 eexists. split; [vm_compute; reflexivity|]. split; [vm_compute; reflexivity|]. vm_compute. auto.
Qed.
Print Assumptions lookups_in_a_union_do_no_harm_refuted.

(** ** C58 *)
(** Hiding a range at the end hides exactly that range besides what was hidden, and keeps the skips in order. *)
Theorem pushing_a_skip : forall skips start end_, tidy_skips 0 skips start -> start <= end_ ->
  exists skips', ScopeSkip_push skips start end_ = Some skips' /\ tidy_skips 0 skips' end_ /\
    forall k, hidden skips' k <-> hidden skips k \/ start <= k < end_.
Proof. intros skips start end_ T L. apply push_ok; auto. lia. Qed.
Print Assumptions pushing_a_skip.
Example pushing_merges : ScopeSkip_push [Skip 1 3] 3 5 = Some [Skip 1 5] /\ ScopeSkip_push [Skip 1 3] 4 5 = Some [Skip 1 3; Skip 4 5].
Proof. auto. Qed.

(** each, count and reveach see exactly what is not hidden, each element once and in order (or in reverse). *)
Theorem each_visits_what_is_visible : forall T (items : list T) skips start, tidy_skips 0 skips (slen items) -> 0 <= start ->
  exists l, each items skips start = Some l /\ lists_visible items skips start l.
Proof. intros T items skips start. apply each_ok. Qed.
Print Assumptions each_visits_what_is_visible.
Theorem reveach_goes_backwards : forall T (items : list T) skips, tidy_skips 0 skips (slen items) ->
  exists l, each items skips 0 = Some l /\ reveach items skips = Some (rev l) /\ count items skips = Some (slen l).
Proof.
  intros T items skips Td. destruct (each_ok items skips 0 Td) as (l & A & B); [lia|]. destruct (reveach_ok items skips Td) as (l' & A' & B').
  rewrite (lists_visible_unique _ _ _ _ _ B' B) in A'. exists l. split; auto. split; auto. unfold count. rewrite A. reflexivity.
Qed.
Print Assumptions reveach_goes_backwards.
Example visits : each [10; 11; 12; 13; 14; 15] [Skip 1 3; Skip 4 5] 0 = Some [(0, 10); (3, 13); (5, 15)] /\
  reveach [10; 11; 12; 13; 14; 15] [Skip 1 3; Skip 4 5] = Some [(5, 15); (3, 13); (0, 10)] /\
  each [10; 11; 12; 13; 14; 15] [Skip 1 3; Skip 4 5] 2 = Some [(3, 13); (5, 15)] /\ tidy_skips 0 [Skip 1 3; Skip 4 5] 6.
Proof. vm_compute. repeat split; discriminate. Qed.

(** A scope item is its name, target and shadows flag; the cache bit is neither part of them nor set at first. *)
Theorem an_item_is_what_it_was_made_of : forall id t sh, 0 <= t < 2 ^ 62 ->
  si_id (ScopeItem id t sh) = id /\ si_target (ScopeItem id t sh) = t /\ si_shadows (ScopeItem id t sh) = sh /\ si_canSkipRest (ScopeItem id t sh) = false.
Proof. intros id t sh H. rewrite new_target, new_shadows, new_skip by auto. auto. Qed.
Print Assumptions an_item_is_what_it_was_made_of.
Theorem the_cache_bit_changes_nothing_else : forall si,
  si_id (canSkipRest_set si) = si_id si /\ si_target (canSkipRest_set si) = si_target si /\ si_shadows (canSkipRest_set si) = si_shadows si /\ si_canSkipRest (canSkipRest_set si) = true /\
  si_id (canSkipRest_clear si) = si_id si /\ si_target (canSkipRest_clear si) = si_target si /\ si_shadows (canSkipRest_clear si) = si_shadows si /\ si_canSkipRest (canSkipRest_clear si) = false.
Proof.
  intros si. pose proof (strip_set si) as A. pose proof (strip_clear si) as B. unfold strip in A, B. injection A as A1 A2. injection B as B1 B2.
  rewrite A1, A2, B1, B2, set_skip, clear_skip. repeat split.
Qed.
Print Assumptions the_cache_bit_changes_nothing_else.
Example an_item : let t := 0x2fffffffffffffff in si_target (canSkipRest_set (ScopeItem x t true)) = t /\ si_shadows (canSkipRest_set (ScopeItem x t true)) = true.
Proof. vm_compute. auto. Qed.

(** What a module exports: all the items it declares itself and no others, in order, the public ones first; how many
    are public; and no cache bits. *)
Theorem exports_are_the_modules_own : forall items modid pub (is_pub : Z -> bool),
  (forall si, In si items -> t_modid (si_target si) = modid -> at_ pub (t_globid (si_target si) - 1) = Some (is_pub (t_globid (si_target si)))) ->
  let mine b := filter (fun si => (t_modid (si_target si) =? modid) && Bool.eqb (is_pub (t_globid (si_target si))) b) items in
  exists l, collect items modid pub = Some (l, slen (mine true)) /\
    map (fun si => (si_id si, si_target si, si_shadows si)) l = map (fun si => (si_id si, si_target si, si_shadows si)) (mine true ++ mine false) /\
    Forall (fun si => si_canSkipRest si = false) l.
Proof.
  intros items modid pub f H mine. unfold collect.
  rewrite (collect_go_ok modid pub f) by (intros si I E; apply H; auto; apply Z.eqb_eq; exact E).
  cbn [obind fst snd app]. eexists. split; [unfold slen; rewrite map_length; reflexivity|]. split.
  - rewrite <- map_app, map_map. apply map_ext. intros si. pose proof (strip_clear si) as B. unfold strip in B. injection B as B1 B2. cbn [canSkipRest_clear si_id]. congruence.
  - rewrite <- map_app. apply Forall_forall. intros si I. apply in_map_iff in I. destruct I as (q & <- & _). apply clear_skip.
Qed.
Print Assumptions exports_are_the_modules_own.
Local Definition tg (m g : Z) : Z := match Target m g 0 with Some t => t | None => 0 end.
Example exports : collect [canSkipRest_set (ScopeItem x (tg 3 1) false); ScopeItem y (tg 4 1) false; ScopeItem y (tg 3 2) true] 3 [false; true] =
  Some ([ScopeItem y (tg 3 2) true; ScopeItem x (tg 3 1) false], 1).
Proof. vm_compute. reflexivity. Qed.

(** Looking a name up in another module: one call after another gives its items of that name, then the fields, in order. *)
Theorem qualified_lookups_go_in_order : forall items id it fields, 0 <= it <= slen (items ++ fields) ->
  exists t it', search_public items id it fields = Some (t, it') /\ it <= it' <= slen (items ++ fields) /\
    match filter (fun si => str_eqb (si_id si) id) (skipn (Z.to_nat it) (items ++ fields)) with
    | [] => t = 0
    | first :: rest => t = si_target first /\ filter (fun si => str_eqb (si_id si) id) (skipn (Z.to_nat it') (items ++ fields)) = rest
    end.
Proof. intros items id it fields. apply search_public_ok. Qed.
Print Assumptions qualified_lookups_go_in_order.
Theorem given_targets_go_in_order : forall targets it, 0 <= it <= slen targets ->
  search_targets targets it = Some (match skipn (Z.to_nat it) targets with [] => (0, it) | t :: _ => (t, it + 1) end).
Proof.
  intros targets it B. unfold search_targets. destruct (Z.ltb_spec it (slen targets)) as [X|X].
  - destruct (at_lt targets it) as (t & E); [lia|]. rewrite E, (skipn_at _ _ _ E). reflexivity.
  - rewrite skipn_all2; [reflexivity|]. unfold slen in *. lia.
Qed.
Print Assumptions given_targets_go_in_order.
Example qualified : search_public [ScopeItem x 5 false; ScopeItem y 6 false] y 0 [ScopeItem y 7 false] = Some (6, 2) /\
  search_public [ScopeItem x 5 false; ScopeItem y 6 false] y 2 [ScopeItem y 7 false] = Some (7, 3).
Proof. vm_compute. auto. Qed.

(** The arguments of a function are numbered -1, -2, ... and its locals 1, 2, ..., each kind in the order of
    declaration, however the two are mixed; and each is found again by its number at the end. *)
Theorem arguments_and_locals_are_found_again : forall T modid nest (l : list (bool * T)), 0 <= modid < 2 ^ 20 -> 0 < nest < 2 ^ 20 -> slen l < 2 ^ 18 ->
  exists ext ts, create_all modid nest (Ext [] 0) l = Some (ext, ts) /\ length ts = length l /\
    forall i (arg : bool) v t, nth_error l i = Some (arg, v) -> nth_error ts i = Some t ->
      t_modid t = modid /\ t_globid t = nest /\
      t_locid t = (if arg then - (1 + slen (filter fst (firstn i l))) else 1 + slen (filter (fun p => negb (fst p)) (firstn i l))) /\
      at_ (args_n_locals ext) (indexOfLocal (args_neg ext) (t_locid t)) = Some v.
Proof.
  intros T modid nest l Hm Hn B. destruct (create_found modid nest l Hm Hn B) as (ext & ts & a & b & c). exists ext, ts. split; auto. split; auto.
  intros i arg v t I J. destruct (c i arg v t I J) as (c1 & c2 & c3 & c4). repeat split; auto. rewrite c3.
  unfold args_of, locals_of, slen. rewrite !map_length. reflexivity.
Qed.
Print Assumptions arguments_and_locals_are_found_again.
Example mixed : option_map (fun r => (args_n_locals (fst r), map t_locid (snd r))) (create_all 3 7 (Ext [] 0) [(true, 10); (false, 11); (true, 12); (false, 13)]) =
  Some ([12; 10; 11; 13], [-1; 1; -2; 2]).
Proof. vm_compute. reflexivity. Qed.
