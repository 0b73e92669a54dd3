(** * C71: proofs about the text of expressions. *)

From Coq Require Import String List ZArith Bool Ascii Lia Arith.
From Verif Require Import ExprSpec ExprModel.
Import ListNotations.
Open Scope string_scope.
Open Scope list_scope.
Notation length := List.length.

Scheme fx_mut := Induction for fx Sort Prop with fxs_mut := Induction for fxs Sort Prop.
Combined Scheme fx_fxs_ind from fx_mut, fxs_mut.

Section Proof.
Variable O : ops.

(** Unfolding equations. *)

Lemma fe_XNum n s : feval O (XNum n) s = (numv O n, s).
Proof. reflexivity. Qed.
Lemma fe_XNeg n s : feval O (XNeg n) s = (un1 O "-" (numv O n), s).
Proof. reflexivity. Qed.
Lemma fe_XPath x fs s : feval O (XPath x fs) s = (mem s (x :: fs), s).
Proof. reflexivity. Qed.
Lemma fe_XCall f es s : feval O (XCall f es) s = let (vs, s1) := fevals O es s in ret O f vs s1.
Proof. reflexivity. Qed.
Lemma fe_XConv t e s : feval O (XConv t e) s = let (v, s1) := feval O e s in (conv O t v, s1).
Proof. reflexivity. Qed.
Lemma fe_XFld e f s : feval O (XFld e f) s = let (v, s1) := feval O e s in (fld O v f, s1).
Proof. reflexivity. Qed.
Lemma fe_XIdx e i s : feval O (XIdx e i) s = let (v, s1) := feval O e s in
      let (w, s2) := feval O i s1 in (idx O v w, s2).
Proof. reflexivity. Qed.
Lemma fe_XPre narrow op e s : feval O (XPre narrow op e) s = let (v, s1) := feval O e s in (wrap O narrow (un1 O op v), s1).
Proof. reflexivity. Qed.
Lemma fe_XInc op x fs s : feval O (XInc op x fs) s = let v := inc O op (mem s (x :: fs)) in (v, store (x :: fs) v s).
Proof. reflexivity. Qed.
Lemma fe_XPostInc op x fs s : feval O (XPostInc op x fs) s = (mem s (x :: fs), store (x :: fs) (inc O op (mem s (x :: fs))) s).
Proof. reflexivity. Qed.
Lemma fe_XBin narrow op a b s : feval O (XBin narrow op a b) s = let (v, s1) := feval O a s in
      let (w, s2) := feval O b s1 in (wrap O narrow (bin2 O op v w), s2).
Proof. reflexivity. Qed.
Lemma fe_XAsg op x fs e s : feval O (XAsg op x fs e) s = let (v, s1) := feval O e s in
      let w := if String.eqb op "=" then v else upd O op (mem s1 (x :: fs)) v in
      (w, store (x :: fs) w s1).
Proof. reflexivity. Qed.
Lemma fe_XNot e s : feval O (XNot e) s = let (v, s1) := feval O e s in (ofb (negb (truth v)), s1).
Proof. reflexivity. Qed.
Lemma fe_XAnd b es s : feval O (XAnd b es) s = fand O b es s.
Proof. reflexivity. Qed.
Lemma fe_XOr b es s : feval O (XOr b es) s = for_ O b es s.
Proof. reflexivity. Qed.
Lemma fe_XIf b u0 u1 c e1 e2 s : feval O (XIf b u0 u1 c e1 e2) s = let (v, s1) := feval O c s in
      let (w, s2) := if truth v then feval O e1 s1 else feval O e2 s1 in (asbool b w, s2).
Proof. reflexivity. Qed.
Lemma fe_XVoid e s : feval O (XVoid e) s = let (_, s1) := feval O e s in (0%Z, s1).
Proof. reflexivity. Qed.
Lemma ce_CId x c : ceval O (CId x) c = Some (if is_temp x then snd c x else mem (fst c) [x], c).
Proof. reflexivity. Qed.
Lemma ce_CNum s c : ceval O (CNum s) c = Some (numv O s, c).
Proof. reflexivity. Qed.
Lemma ce_CCall f a c : ceval O (CCall f a) c = match cevals O a c with
      | Some (vs, c1) =>
          if is_type O f then
            match vs with [v] => Some (conv O f v, c1) | _ => None end
          else
            let (v, s) := ret O f vs (fst c1) in Some (v, (s, snd c1))
      | None => None
      end.
Proof. reflexivity. Qed.
Lemma ce_CField e f c : ceval O (CField e f) c = match place (CField e f) with
      | Some p => Some (mem (fst c) p, c)
      | None =>
          match ceval O e c with
          | Some (v, c1) => Some (fld O v f, c1)
          | None => None
          end
      end.
Proof. reflexivity. Qed.
Lemma ce_CIdx e i c : ceval O (CIdx e i) c = match ceval O e c with
      | Some (v, c1) =>
          match ceval O i c1 with
          | Some (w, c2) => Some (idx O v w, c2)
          | None => None
          end
      | None => None
      end.
Proof. reflexivity. Qed.
Lemma ce_CPost e op c : ceval O (CPost e op) c = match place e with
      | Some p =>
          Some (mem (fst c) p, (store p (inc O op (mem (fst c) p)) (fst c), snd c))
      | None => None
      end.
Proof. reflexivity. Qed.
Lemma ce_CPre op e c : ceval O (CPre op e) c = if (String.eqb op "++" || String.eqb op "--")%bool then
        match place e with
        | Some p =>
            let v := inc O op (mem (fst c) p) in
            Some (v, (store p v (fst c), snd c))
        | None => None
        end
      else
        match ceval O e c with
        | Some (v, c1) =>
            Some (if String.eqb op "!" then ofb (negb (truth v)) else un1 O op v, c1)
        | None => None
        end.
Proof. reflexivity. Qed.
Lemma ce_CBin op a b c : ceval O (CBin op a b) c = match ceval O a c with
      | Some (v, c1) =>
          if (String.eqb op "&&" && negb (truth v))%bool then Some (0%Z, c1)
          else if (String.eqb op "||" && truth v)%bool then Some (1%Z, c1)
          else
            match ceval O b c1 with
            | Some (w, c2) =>
                Some (if (String.eqb op "&&" || String.eqb op "||")%bool
                      then ofb (truth w) else bin2 O op v w, c2)
            | None => None
            end
      | None => None
      end.
Proof. reflexivity. Qed.
Lemma ce_CCond i a b c : ceval O (CCond i a b) c = match ceval O i c with
      | Some (v, c1) => if truth v then ceval O a c1 else ceval O b c1
      | None => None
      end.
Proof. reflexivity. Qed.
Lemma ce_CAsg op l r c : ceval O (CAsg op l r) c = match ceval O r c with
      | Some (v, (s, t)) =>
          match l with
          | CId x =>
              if is_temp x then
                if String.eqb op "=" then Some (v, (s, tmp_set x v t)) else None
              else
                let w := if String.eqb op "=" then v else upd O op (mem s [x]) v in
                Some (w, (store [x] w s, t))
          | _ =>
              match place l with
              | Some p =>
                  let w := if String.eqb op "=" then v else upd O op (mem s p) v in
                  Some (w, (store p w s, t))
              | None => None
              end
          end
      | None => None
      end.
Proof. reflexivity. Qed.
Lemma ce_CComma a b c : ceval O (CComma a b) c = match ceval O a c with
      | Some (_, c1) => ceval O b c1
      | None => None
      end.
Proof. reflexivity. Qed.
Lemma fes_cons e es s : fevals O (XCons e es) s =
  let (v, s1) := feval O e s in let (vs, s2) := fevals O es s1 in (v :: vs, s2).
Proof. reflexivity. Qed.
Lemma ces_cons e a c : cevals O (ACons e a) c =
  match ceval O e c with
  | Some (v, c1) => match cevals O a c1 with Some (vs, c2) => Some (v :: vs, c2) | None => None end
  | None => None
  end.
Proof. reflexivity. Qed.
Lemma fand_step b e e2 es s : fand O b (XCons e (XCons e2 es)) s =
  let (v, s1) := feval O e s in
  if truth v then fand O b (XCons e2 es) s1 else (asbool b v, s1).
Proof. reflexivity. Qed.
Lemma for_step b e e2 es s : for_ O b (XCons e (XCons e2 es)) s =
  let (v, s1) := feval O e s in
  if truth v then (asbool b v, s1) else for_ O b (XCons e2 es) s1.
Proof. reflexivity. Qed.
Lemma fand_last b e s : fand O b (XCons e XNil) s = let (v, s1) := feval O e s in (asbool b v, s1).
Proof. reflexivity. Qed.
Lemma for_last b e s : for_ O b (XCons e XNil) s = let (v, s1) := feval O e s in (asbool b v, s1).
Proof. reflexivity. Qed.

(** ** Parsing *)

Definition stop (r : list tok) : bool :=
  match r with
  | [] => true
  | TP p :: _ => is_in p [")"; ","; ":"; "]"]
  | _ => false
  end.

Definition Post ts T :=
  forall rest e' r', at_tok "(" rest = false -> ptail T rest e' r' -> post (ts ++ rest) e' r'.
Definition Un ts T :=
  forall rest, at_tok "(" rest = false -> at_postfix rest = false -> un (ts ++ rest) T rest.
Definition Asg ts T := forall rest, stop rest = true -> asg (ts ++ rest) T rest.

Lemma is_in_cases p l : is_in p l = true -> In p l.
Proof.
  unfold is_in. intro H. apply existsb_exists in H. destruct H as (x & I & E).
  apply String.eqb_eq in E. subst. exact I.
Qed.

Lemma stop_facts r : stop r = true ->
  at_tok "(" r = false /\ at_postfix r = false /\ (forall k, at_binary k r = false) /\ at_asg r = false.
Proof.
  destruct r as [|[x|x|p] r]; try discriminate; [cbn; auto|].
  intro H. cbn [stop] in H. apply is_in_cases in H. cbn in H.
  destruct H as [<-|[<-|[<-|[<-|[]]]]]; cbn; auto.
Qed.

Lemma Un_asg ts T : Un ts T -> Asg ts T.
Proof.
  intros U rest S. destruct (stop_facts rest S) as (A & B & C & D).
  econstructor; [econstructor; [apply U; assumption|apply btail_end; apply C]|].
  apply atail_end; assumption.
Qed.

Lemma Asg_expr ts T rest : Asg ts T -> stop rest = true -> at_tok "," rest = false -> expr (ts ++ rest) T rest.
Proof. intros A S C. econstructor; [apply A; exact S|apply etail_end; exact C]. Qed.

Lemma app1 {A} (a : list A) x r : (a ++ [x]) ++ r = a ++ x :: r.
Proof. rewrite <- app_assoc. reflexivity. Qed.

Lemma paren_post ts T : Asg ts T -> Post (paren ts) T.
Proof.
  intros A rest e' r' _ P. unfold paren. cbn. rewrite app1.
  econstructor; [|exact P]. apply prim_paren.
  apply (Asg_expr ts T (TP ")" :: rest) A); reflexivity.
Qed.

Lemma Post_un ts T : Post ts T -> (forall r, at_prefix (ts ++ r) = false) -> Un ts T.
Proof.
  intros P A rest Q B. apply un_post; [apply A|]. apply P; [exact Q|]. apply ptail_end. exact B.
Qed.

Lemma path_ptail fs T rest e' r' :
  ptail (fold_left CField fs T) rest e' r' ->
  ptail T (flat_map (fun f => [TP "."; TId f]) fs ++ rest) e' r'.
Proof.
  revert T. induction fs as [|f fs IH]; intros T H; [exact H|].
  cbn. apply ptail_field. apply IH. exact H.
Qed.

Lemma path_post x fs : Post (cg_path x fs) (fold_left CField fs (CId x)).
Proof.
  intros rest e' r' Q P. unfold cg_path. cbn.
  econstructor; [|apply path_ptail; exact P].
  apply prim_id. destruct fs; [exact Q|reflexivity].
Qed.

Lemma path_un x fs : Un (cg_path x fs) (fold_left CField fs (CId x)).
Proof. apply Post_un; [apply path_post|]. reflexivity. Qed.

Lemma place_path x fs : is_temp x = false -> place (fold_left CField fs (CId x)) = Some (x :: fs).
Proof.
  intro Hx. assert (G : forall fs T p, place T = Some p -> place (fold_left CField fs T) = Some (p ++ fs)).
  { clear fs. induction fs as [|f fs IH]; intros T p H; cbn; [rewrite app_nil_r; exact H|].
    rewrite (IH _ (p ++ [f])); [rewrite <- app_assoc; reflexivity|].
    cbn. rewrite H. reflexivity. }
  rewrite (G fs (CId x) [x]); [reflexivity|]. cbn. rewrite Hx. reflexivity.
Qed.

Lemma ceval_place T p c : place T = Some p -> ceval O T c = Some (mem (fst c) p, c).
Proof.
  destruct T; cbn; try discriminate.
  - destruct (is_temp x); [discriminate|]. intros [= <-]. reflexivity.
  - destruct (place T); [|discriminate]. intros [= <-]. reflexivity.
Qed.

(** ** Meaning *)

Definition Sem T (f : state -> Z * state) :=
  forall s t, exists t', ceval O T (s, t) = Some (fst (f s), (snd (f s), t')).

Record G (e : fx) (ts : list tok) (T : cpp) : Prop := {
  g_un : Un ts T;
  g_post : headop e = None -> Post ts T;
  g_place : place T = match e with XPath x fs => Some (x :: fs) | _ => None end;
  g_sem : Sem T (feval O e)
}.

(** ** The first token *)

Definition head_ok (o : option string) (ts : list tok) : Prop :=
  match o with
  | Some o => exists r, ts = TP o :: r
  | None =>
      match ts with
      | TP p :: _ => p = "("
      | _ :: _ => True
      | [] => False
      end
  end.

Lemma glue_ok op e ts : head_ok (headop e) ts -> runs_together op e = false -> glue op ts = TP op :: ts.
Proof.
  unfold head_ok, runs_together. destruct (headop e) as [o|].
  - intros (r & ->) H. unfold glue. destruct (is_in op ["-"; "+"]); cbn [andb] in *; [|reflexivity].
    apply orb_false_iff in H. destruct H as [-> ->]. reflexivity.
  - destruct ts as [|[x|x|p] r]; try easy. intros -> _. unfold glue.
    destruct (is_in op ["-"; "+"]) eqn:E; [|reflexivity].
    apply is_in_cases in E. cbn in E. destruct E as [<-|[<-|[]]]; reflexivity.
Qed.

Lemma glue_not ts : glue "!" ts = TP "!" :: ts.
Proof. destruct ts as [|[]]; reflexivity. Qed.

Lemma glue_path op x fs : glue op (cg_path x fs) = TP op :: cg_path x fs.
Proof. reflexivity. Qed.

Lemma glue_shape op ts : exists p r, glue op ts = TP p :: r.
Proof.
  destruct ts as [|[x|x|p] r]; cbn; eauto.
  destruct (_ && _)%bool; eauto. destruct (_ && _)%bool; eauto.
Qed.

Lemma app_head (a b : list tok) :
  head_ok None a -> head_ok None (a ++ b).
Proof. destruct a as [|[]]; cbn; auto. intros []. Qed.

Lemma head_at_prefix ts r : head_ok None ts -> at_prefix (ts ++ r) = false.
Proof. destruct ts as [|[]]; cbn; try easy. intros ->. reflexivity. Qed.

Lemma head_cg e : ok O e -> forall n, head_ok (headop e) (fst (cg MNone e n)).
Proof.
  induction e; intros W n; cbn [headop].
  - exact I.
  - cbn. eauto.
  - exact I.
  - cbn. destruct (cg_args es n). exact I.
  - cbn. destruct (cg MNone e n). exact I.
  - cbn. destruct W as (W & _ & H & _). specialize (IHe W n). rewrite H in IHe.
    destruct (cg MNone e n). cbn. apply app_head. exact IHe.
  - cbn. destruct W as (W & _ & H & _). specialize (IHe1 W n). rewrite H in IHe1.
    destruct (cg MNone e1 n). destruct (cg MNone e2 n0). apply app_head. exact IHe1.
  - destruct W as (_ & _ & W & _ & R). cbn. specialize (IHe W n).
    destruct (cg MNone e n) as [a n1]. cbn in IHe. unfold emit_prefix.
    destruct narrow as [t|]; [exact I|]. cbn. rewrite (glue_ok op e a IHe R). eauto.
  - cbn. eauto.
  - exact I.
  - cbn. destruct (cg MNone e1 n). destruct (cg MNone e2 n0). unfold emit_binary. cbn.
    destruct narrow; [exact I|reflexivity].
  - cbn. destruct (cg MNone e n). reflexivity.
  - cbn. destruct (cg MNone e n) as [a n1]. cbn. rewrite glue_not. eauto.
  - cbn. destruct b.
    + destruct (cg_concat _ _ es n). reflexivity.
    + destruct (cg_vand es n None). reflexivity.
  - cbn. destruct b.
    + destruct (cg_concat _ _ es n). reflexivity.
    + destruct (cg_vor es n None). reflexivity.
  - cbn. destruct (cg MNone e1 n). destruct (cg MNone e2 n0). destruct (cg MNone e3 n1). reflexivity.
  - cbn. apply IHe. apply W.
Qed.

(** ** Temporaries *)

Lemma digit_digit d : d < 10 -> is_digit (digit_char d) = true.
Proof. intro H. do 10 (destruct d as [|d]; [reflexivity|]). lia. Qed.

Lemma dec_digits fuel n : forallb is_digit (dec fuel n) = true.
Proof.
  revert n. induction fuel as [|f IH]; intro n; [reflexivity|]. cbn [dec].
  destruct (Nat.ltb n 10) eqn:E.
  - apply Nat.ltb_lt in E. cbn [forallb]. rewrite digit_digit by exact E. reflexivity.
  - rewrite forallb_app, IH. cbn [forallb].
    rewrite digit_digit; [reflexivity|]. apply Nat.mod_upper_bound. lia.
Qed.

Lemma dec_nonempty fuel n : exists d r, dec (S fuel) n = d :: r.
Proof.
  cbn [dec]. destruct (Nat.ltb n 10); [eauto|].
  destruct (dec fuel (n / 10)); cbn; eauto.
Qed.

Lemma temp_temp n : is_temp (temp_name n) = true.
Proof.
  unfold is_temp, temp_name. rewrite list_ascii_of_string_of_list_ascii.
  destruct (dec_nonempty n n) as (d & r & E). rewrite E.
  pose proof (dec_digits (S n) n) as D. rewrite E in D. rewrite D. reflexivity.
Qed.

Definition tv_ok (tv : option string) : Prop :=
  match tv with Some x => is_temp x = true | None => True end.

Lemma tv_get_ok tv n : tv_ok tv -> is_temp (fst (tv_get tv n)) = true.
Proof. destruct tv; cbn; [auto|]. intros _. apply temp_temp. Qed.

(** ** [via] *)

(** Code that tests a value and then, if it is true, gives it. *)
Definition Test (C A : cpp) (f : state -> Z * state) :=
  forall s t, exists t1,
    ceval O C (s, t) = Some (fst (f s), (snd (f s), t1)) /\
    ceval O A (snd (f s), t1) = Some (fst (f s), (snd (f s), t1)).

Lemma via_lemma e ts n1 tv T : G e ts T -> tv_ok tv ->
  exists tc ta n2 tv2 C A,
    via e (ts, n1) tv = (tc ++ TP "?" :: ta ++ [TP ":"], n2, tv2) /\ tv_ok tv2 /\
    Un tc C /\ Un ta A /\ Test C A (feval O e).
Proof.
  intros g Htv. unfold via. destruct (is_field_chain e) eqn:F.
  - exists ts, ts, n1, tv, T, T. split; [cbn; rewrite <- ?app_assoc; reflexivity|].
    split; [exact Htv|]. split; [apply (g_un _ _ _ g)|]. split; [apply (g_un _ _ _ g)|].
    intros s t. destruct e; try discriminate F. exists t.
    pose proof (g_place _ _ _ g) as P. cbn in P. cbn.
    split; rewrite (ceval_place _ _ _ P); reflexivity.
  - destruct (tv_get tv n1) as [x n2] eqn:E. pose proof (tv_get_ok tv n1 Htv) as Hx.
    rewrite E in Hx. cbn in Hx.
    exists (paren (TId x :: TP "=" :: ts)), [TId x], n2, (Some x), (CAsg "=" (CId x) T), (CId x).
    split; [unfold paren; cbn; rewrite <- ?app_assoc; reflexivity|].
    split; [exact Hx|]. split.
    { apply Post_un; [|reflexivity]. apply paren_post. intros rest S. cbn.
      apply asg_ with (e := CId x) (r := TP "=" :: ts ++ rest).
      - apply bin_ with (e := CId x) (r := TP "=" :: ts ++ rest); [|apply btail_end; reflexivity].
        apply un_post; [reflexivity|].
        apply post_ with (e := CId x) (r := TP "=" :: ts ++ rest); [apply prim_id; reflexivity|].
        apply ptail_end; reflexivity.
      - apply atail_asg; [reflexivity|]. apply (Un_asg _ _ (g_un _ _ _ g)). exact S. }
    split.
    { intros rest A B. cbn. apply un_post; [reflexivity|].
      econstructor; [apply prim_id; exact A|apply ptail_end; exact B]. }
    intros s t. destruct (g_sem _ _ _ g s t) as (t1 & E1).
    exists (tmp_set x (fst (feval O e s)) t1). split.
    + cbn. rewrite E1. rewrite Hx. reflexivity.
    + cbn. rewrite Hx. unfold tmp_set. rewrite String.eqb_refl. reflexivity.
Qed.


(** ** Lists of operands *)

Definition Gd (e : fx) : Prop := forall n, exists T, G e (fst (cg MNone e n)) T.

Fixpoint K (e : fx) : Prop :=
  (ok O e -> plain e -> Gd e) /\
  match e with XAnd _ its => KL its | XVoid e => K e | _ => True end
with KL (es : fxs) : Prop :=
  match es with XNil => True | XCons e es => K e /\ KL es end.

Lemma K_use e : K e -> ok O e -> plain e -> Gd e.
Proof. destruct e; cbn; intros [H _]; exact H. Qed.

Lemma truth_ofb b : truth (ofb b) = b.
Proof. destruct b; reflexivity. Qed.

Lemma concat_term_plain e a : plain e -> concat_term e a = a.
Proof. destruct e; cbn; intros []; reflexivity. Qed.

Hypothesis num0 : numv O "0" = 0%Z.

Lemma item_lemma e : K e -> ok O e -> forall n,
  exists T, Un (concat_term e (fst (cg MNone e n))) T /\ Sem T (feval O e).
Proof.
  intros Hk W n.
  assert (plain e \/ exists e', e = XVoid e') as [P|[e' ->]].
  { destruct e; cbn; eauto. }
  - destruct (K_use e Hk W P n) as (T & g). exists T. rewrite (concat_term_plain e _ P).
    split; [apply (g_un _ _ _ g)|apply (g_sem _ _ _ g)].
  - cbn in Hk. destruct Hk as [_ Hk]. cbn in W. destruct W as [W P].
    destruct (K_use e' Hk W P n) as (T & g). exists (CComma T (CNum "0")). split.
    + apply Post_un; [|reflexivity]. intros rest e2 r2 _ Pt. cbn [cg concat_term]. cbn.
      rewrite <- app_assoc. cbn.
      econstructor; [|exact Pt]. apply prim_paren. econstructor.
      * apply (Un_asg _ _ (g_un _ _ _ g)). reflexivity.
      * eapply etail_comma; [|apply etail_end; reflexivity].
        apply asg_ with (e := CNum "0") (r := TP ")" :: rest); [|apply atail_end; reflexivity].
        apply bin_ with (e := CNum "0") (r := TP ")" :: rest); [|apply btail_end; reflexivity].
        apply un_post; [reflexivity|]. econstructor; [apply prim_num|apply ptail_end; reflexivity].
    + intros s t. destruct (g_sem _ _ _ g s t) as (t1 & E). exists t1. cbn. rewrite E, num0.
      destruct (feval O e' s). reflexivity.
Qed.

Lemma fand_cons b e es s : 1 <= len es ->
  fand O b (XCons e es) s =
  (if truth (fst (feval O e s)) then fand O b es (snd (feval O e s))
   else (asbool b (fst (feval O e s)), snd (feval O e s))).
Proof.
  destruct es; cbn [len]; [lia|]. intros _. rewrite ?fand_step, ?for_step.
  destruct (feval O e s). reflexivity.
Qed.

Lemma fand_one b e s :
  fand O b (XCons e XNil) s = (asbool b (fst (feval O e s)), snd (feval O e s)).
Proof. rewrite ?fand_last, ?for_last. destruct (feval O e s). reflexivity. Qed.

Lemma for_cons b e es s : 1 <= len es ->
  for_ O b (XCons e es) s =
  (if truth (fst (feval O e s)) then (asbool b (fst (feval O e s)), snd (feval O e s))
   else for_ O b es (snd (feval O e s))).
Proof.
  destruct es; cbn [len]; [lia|]. intros _. rewrite ?fand_step, ?for_step.
  destruct (feval O e s). reflexivity.
Qed.

Lemma for_one b e s :
  for_ O b (XCons e XNil) s = (asbool b (fst (feval O e s)), snd (feval O e s)).
Proof. rewrite ?fand_last, ?for_last. destruct (feval O e s). reflexivity. Qed.

Lemma concat_one op m e n :
  fst (cg_concat op m (XCons e XNil) n) = concat_term e (fst (cg m e n)).
Proof. cbn. destruct (cg m e n). reflexivity. Qed.

Lemma concat_cons op m e es n : 1 <= len es ->
  fst (cg_concat op m (XCons e es) n) =
  concat_term e (fst (cg m e n)) ++ TP op :: fst (cg_concat op m es (snd (cg m e n))).
Proof.
  destruct es as [|e2 es2]; cbn [len]; [lia|]. intros _.
  change (cg_concat op m (XCons e (XCons e2 es2)) n)
    with (let (a, n1) := cg m e n in
          let (r, n2) := cg_concat op m (XCons e2 es2) n1 in
          (concat_term e a ++ [TP op] ++ r, n2)).
  destruct (cg m e n) as [a n1]. cbn [fst snd].
  destruct (cg_concat op m (XCons e2 es2) n1). reflexivity.
Qed.

Lemma len_cases es : es = XNil \/ 1 <= len es.
Proof. destruct es; cbn; [left; reflexivity|right; lia]. Qed.

Definition lop (isand : bool) : string := if isand then "&&" else "||".
Definition lq (isand : bool) : nat := if isand then 2 else 1.
Definition lfold (isand : bool) (v : Z) (es : fxs) (s : state) : Z * state :=
  if isand then (if truth v then fand O true es s else (0%Z, s))
  else (if truth v then (1%Z, s) else for_ O true es s).

Lemma lop_prec i : prec (lop i) = Some (lq i).
Proof. destruct i; reflexivity. Qed.
Lemma lq1 i : 1 <= lq i.
Proof. destruct i; cbn; lia. Qed.

Lemma at_binary_lop i r : at_binary (S (lq i)) (TP (lop i) :: r) = false.
Proof. destruct i; reflexivity. Qed.

Lemma ceval_lop i acc T s t v s1 t1 (f : state -> Z * state) :
  ceval O acc (s, t) = Some (v, (s1, t1)) -> Sem T f ->
  exists t',
    ceval O (CBin (lop i) acc T) (s, t) =
    Some (if Bool.eqb (truth v) i then (ofb (truth (fst (f s1))), (snd (f s1), t'))
          else (ofb (truth v), (s1, t'))).
Proof.
  intros E F. destruct (F s1 t1) as (t2 & E2). destruct i; cbn; rewrite E;
    destruct (truth v) eqn:V; cbn; rewrite ?E2; eauto.
Qed.

Lemma ctail i es : KL es -> okc O es -> 1 <= len es -> forall n, exists F,
  (forall acc rest, stop rest = true ->
     btail 1 acc (TP (lop i) :: fst (cg_concat (lop i) MNone es n) ++ rest) (F acc) rest) /\
  (forall acc, place (F acc) = None) /\
  (forall acc s t v s1 t1, ceval O acc (s, t) = Some (v, (s1, t1)) ->
     exists t', ceval O (F acc) (s, t) =
       Some (fst (lfold i v es s1), (snd (lfold i v es s1), t'))).
Proof.
  induction es as [|e es IH]; intros Hk W L n; [cbn in L; lia|].
  cbn in Hk, W. destruct Hk as [Ke Kes]. destruct W as [We Wes].
  destruct (item_lemma e Ke We n) as (T & U & Sm).
  destruct (len_cases es) as [->|L2].
  - exists (fun acc => CBin (lop i) acc T). rewrite concat_one. split; [|split].
    + intros acc rest S. destruct (stop_facts rest S) as (A & B & C & D).
      eapply btail_op; [apply lop_prec|apply lq1| |apply btail_end; apply C].
      econstructor; [apply U; assumption|apply btail_end; apply C].
    + reflexivity.
    + intros acc s t v s1 t1 E. destruct (ceval_lop i acc T s t v s1 t1 _ E Sm) as (t' & E').
      exists t'. rewrite E'. unfold lfold. rewrite fand_one, for_one.
      destruct i, (truth v); reflexivity.
  - destruct (IH Kes Wes L2 (snd (cg MNone e n))) as (F & P & Q & R).
    exists (fun acc => F (CBin (lop i) acc T)). rewrite (concat_cons _ _ e es n L2).
    split; [|split].
    + intros acc rest S.
      eapply btail_op; [apply lop_prec|apply lq1| |apply P; exact S].
      rewrite <- app_assoc. cbn [app].
      econstructor; [apply U; destruct i; reflexivity|apply btail_end; apply at_binary_lop].
    + intros acc. apply Q.
    + intros acc s t v s1 t1 E. destruct (ceval_lop i acc T s t v s1 t1 _ E Sm) as (t' & E').
      unfold lfold at 1 2. rewrite (fand_cons true e es s1 L2), (for_cons true e es s1 L2).
      destruct (Bool.eqb (truth v) i) eqn:V.
      * destruct (R _ s t _ _ _ E') as (t2 & E2). exists t2. rewrite E2. unfold lfold.
        rewrite truth_ofb. destruct i, (truth v); try discriminate V;
        destruct (truth (fst (feval O e s1))) eqn:Q1; cbn; rewrite ?Q1; reflexivity.
      * destruct (R _ s t _ _ _ E') as (t2 & E2). exists t2. rewrite E2. unfold lfold.
        rewrite truth_ofb. destruct i, (truth v); try discriminate V; reflexivity.
Qed.

(** ** [a && b || c] *)

Definition Testv (C A : cpp) (f : state -> Z * state) :=
  forall s t, exists vc t1,
    ceval O C (s, t) = Some (vc, (snd (f s), t1)) /\
    truth vc = truth (fst (f s)) /\
    (truth vc = true -> ceval O A (snd (f s), t1) = Some (fst (f s), (snd (f s), t1))).

Lemma andvia_one e n tv : cg_andvia (XCons e XNil) n tv = via e (cg MNone e n) tv.
Proof. reflexivity. Qed.

Lemma andvia_cons e es n tv : 1 <= len es ->
  cg_andvia (XCons e es) n tv =
  (let '(r, n2, tv2) := cg_andvia es (snd (cg MNone e n)) tv in
   (concat_term e (fst (cg MNone e n)) ++ [TP "&&"] ++ r, n2, tv2)).
Proof.
  destruct es as [|e2 es2]; cbn [len]; [lia|]. intros _.
  change (cg_andvia (XCons e (XCons e2 es2)) n tv)
    with (let (a, n1) := cg MNone e n in
          let '(r, n2, tv2) := cg_andvia (XCons e2 es2) n1 tv in
          (concat_term e a ++ [TP "&&"] ++ r, n2, tv2)).
  destruct (cg MNone e n) as [a n1]. reflexivity.
Qed.

Lemma andvia_lemma es : KL es -> okl O es -> 1 <= len es -> forall n tv, tv_ok tv ->
  exists tc ta n2 tv2 C A F,
    cg_andvia es n tv = (tc ++ TP "?" :: ta ++ [TP ":"], n2, tv2) /\ tv_ok tv2 /\ Un ta A /\
    (forall rest, bin 1 (tc ++ TP "?" :: rest) C (TP "?" :: rest)) /\
    (forall acc rest, btail 1 acc (TP "&&" :: tc ++ TP "?" :: rest) (F acc) (TP "?" :: rest)) /\
    Testv C A (fand O false es) /\
    (forall acc s t v s1 t1, ceval O acc (s, t) = Some (v, (s1, t1)) ->
       let r := if truth v then fand O false es s1 else (0%Z, s1) in
       exists vc t2, ceval O (F acc) (s, t) = Some (vc, (snd r, t2)) /\
         truth vc = truth (fst r) /\
         (truth vc = true -> ceval O A (snd r, t2) = Some (fst r, (snd r, t2)))).
Proof.
  induction es as [|e es IH]; intros Hk W L n tv Htv; [cbn in L; lia|].
  cbn in Hk, W. destruct Hk as [Ke Kes]. destruct W as (We & Pe & Wes).
  destruct (K_use e Ke We Pe n) as (T & g).
  destruct (len_cases es) as [->|L2].
  - rewrite andvia_one. destruct (cg MNone e n) as [ts n1]. cbn [fst] in g.
    destruct (via_lemma e ts n1 tv T g Htv) as (tc & ta & n2 & tv2 & C & A & E & Ht & U & UA & Te).
    exists tc, ta, n2, tv2, C, A, (fun acc => CBin "&&" acc C).
    split; [exact E|]. split; [exact Ht|]. split; [exact UA|]. split; [|split; [|split]].
    + intro rest. econstructor; [apply U; reflexivity|apply btail_end; reflexivity].
    + intros acc rest. eapply btail_op; [reflexivity| | |apply btail_end; reflexivity]; [lia|].
      econstructor; [apply U; reflexivity|apply btail_end; reflexivity].
    + intros s t. destruct (Te s t) as (t1 & E1 & E2). rewrite fand_one. cbn [fst snd asbool].
      exists (fst (feval O e s)), t1. auto.
    + intros acc s t v s1 t1 E0. cbn zeta. destruct (Te s1 t1) as (t2 & E1 & E2).
      rewrite fand_one, ce_CBin, E0. destruct (truth v); cbn [String.eqb negb andb fst snd asbool orb].
      * change (String.eqb "&&" "||") with false. cbn [andb negb orb String.eqb Ascii.eqb Bool.eqb].
        rewrite E1. exists (ofb (truth (fst (feval O e s1)))), t2.
        rewrite truth_ofb. split; [reflexivity|]. split; [reflexivity|]. intros _. exact E2.
      * exists 0%Z, t1. split; [reflexivity|]. split; [reflexivity|]. discriminate.
  - rewrite (andvia_cons e es n tv L2), (concat_term_plain e _ Pe).
    destruct (IH Kes Wes L2 (snd (cg MNone e n)) tv Htv)
      as (tc & ta & n2 & tv2 & C & A & F & E & Ht & UA & PB & PT & Te & R).
    rewrite E. set (ts := fst (cg MNone e n)) in *.
    exists (ts ++ TP "&&" :: tc), ta, n2, tv2, (F T), A, (fun acc => F (CBin "&&" acc T)).
    split; [cbn; rewrite <- ?app_assoc; reflexivity|]. split; [exact Ht|]. split; [exact UA|].
    split; [|split; [|split]].
    + intro rest. rewrite <- app_assoc. cbn [app].
      econstructor; [apply (g_un _ _ _ g); reflexivity|apply PT].
    + intros acc rest. rewrite <- app_assoc. cbn [app].
      eapply btail_op; [reflexivity| | |apply PT]; [lia|].
      econstructor; [apply (g_un _ _ _ g); reflexivity|apply btail_end; reflexivity].
    + intros s t. destruct (g_sem _ _ _ g s t) as (t1 & E1).
      destruct (R T s t _ _ _ E1) as (vc & t2 & E2 & E3 & E4).
      rewrite (fand_cons false e es s L2). exists vc, t2.
      destruct (truth (fst (feval O e s))) eqn:Tv; cbn [fst snd asbool] in *; [auto|].
      rewrite E3. split; [exact E2|]. split; [rewrite Tv; reflexivity|]. discriminate.
    + intros acc s t v s1 t1 E0. cbn zeta.
      destruct (ceval_lop true acc T s t v s1 t1 _ E0 (g_sem _ _ _ g)) as (t2 & E1).
      cbn [lop] in E1. destruct (truth v) eqn:V; cbn [Bool.eqb] in E1.
      * destruct (R _ s t _ _ _ E1) as (vc & t3 & E2 & E3 & E4). exists vc, t3.
        rewrite (fand_cons false e es s1 L2). rewrite truth_ofb in *.
        destruct (truth (fst (feval O e s1))) eqn:Tv; cbn [fst snd asbool] in *; [auto|].
        rewrite E3. split; [exact E2|]. split; [rewrite Tv; reflexivity|]. discriminate.
      * destruct (R _ s t _ _ _ E1) as (vc & t3 & E2 & E3 & E4). exists vc, t3.
        rewrite truth_ofb in *. auto.
Qed.

(** ** Conditionals *)

Lemma cond_asg tc C ta A tr R :
  (forall rest, bin 1 (tc ++ TP "?" :: rest) C (TP "?" :: rest)) ->
  Un ta A -> Asg tr R -> Asg (tc ++ TP "?" :: ta ++ TP ":" :: tr) (CCond C A R).
Proof.
  intros HB UA HR rest S. rewrite <- app_assoc. cbn [app]. rewrite <- app_assoc. cbn [app].
  econstructor; [apply HB|]. eapply atail_cond.
  - apply (Asg_expr ta A); [apply Un_asg; exact UA|reflexivity|reflexivity].
  - apply HR. exact S.
Qed.

Lemma Un_q tc C : Un tc C -> forall rest, bin 1 (tc ++ TP "?" :: rest) C (TP "?" :: rest).
Proof. intros U rest. econstructor; [apply U; reflexivity|apply btail_end; reflexivity]. Qed.

Lemma vand_cons e es n tv : 1 <= len es ->
  fst (cg_vand (XCons e es) n tv) =
  (let '(v, n1, tv1) := via e (cg MNone e n) tv in TP "!" :: v ++ fst (cg_vand es n1 tv1)).
Proof.
  destruct es as [|e2 es2]; cbn [len]; [lia|]. intros _.
  change (cg_vand (XCons e (XCons e2 es2)) n tv)
    with (let '(v, n1, tv1) := via e (cg MNone e n) tv in
          let (r, n2) := cg_vand (XCons e2 es2) n1 tv1 in (TP "!" :: v ++ r, n2)).
  destruct (via e (cg MNone e n) tv) as [[v n1] tv1].
  destruct (cg_vand (XCons e2 es2) n1 tv1). reflexivity.
Qed.

Lemma vand_lemma es : KL es -> okl O es -> 1 <= len es -> forall n tv, tv_ok tv ->
  exists T, Asg (fst (cg_vand es n tv)) T /\ (2 <= len es -> place T = None) /\
            Sem T (fand O false es).
Proof.
  induction es as [|e es IH]; intros Hk W L n tv Htv; [cbn in L; lia|].
  cbn in Hk, W. destruct Hk as [Ke Kes]. destruct W as (We & Pe & Wes).
  destruct (K_use e Ke We Pe n) as (T & g).
  destruct (len_cases es) as [->|L2].
  - exists T. change (cg_vand (XCons e XNil) n tv) with (cg MNone e n).
    split; [apply Un_asg, (g_un _ _ _ g)|]. split; [cbn; lia|].
    intros s t. rewrite fand_one. apply (g_sem _ _ _ g).
  - rewrite (vand_cons e es n tv L2). destruct (cg MNone e n) as [ts n1]. cbn [fst] in g.
    destruct (via_lemma e ts n1 tv T g Htv) as (tc & ta & n2 & tv2 & C & A & E & Ht & U & UA & Te).
    rewrite E. destruct (IH Kes Wes L2 n2 tv2 Ht) as (R & AR & _ & SR).
    exists (CCond (CPre "!" C) A R). split; [|split; [reflexivity|]].
    + rewrite <- app_assoc. cbn [app]. rewrite <- app_assoc. cbn [app].
      change (Asg ((TP "!" :: tc) ++ TP "?" :: ta ++ TP ":" :: fst (cg_vand es n2 tv2)) (CCond (CPre "!" C) A R)).
      apply cond_asg; [apply Un_q|exact UA|exact AR].
      intros rest P Q. cbn. apply un_pre; [reflexivity|]. apply U; assumption.
    + intros s t. destruct (Te s t) as (t1 & E1 & E2). rewrite (fand_cons false e es s L2).
      cbn. rewrite E1. cbn. rewrite truth_ofb. destruct (truth (fst (feval O e s))); cbn.
      * apply SR.
      * exists t1. exact E2.
Qed.

Lemma vor_cons e es n tv : 1 <= len es ->
  fst (cg_vor (XCons e es) n tv) =
  (let '(v, n1, tv1) :=
     match e with
     | XAnd _ its => cg_andvia its n tv
     | _ => via e (cg MNone e n) tv
     end in v ++ fst (cg_vor es n1 tv1)).
Proof.
  destruct es as [|e2 es2]; cbn [len]; [lia|]. intros _.
  change (cg_vor (XCons e (XCons e2 es2)) n tv)
    with (let '(v, n1, tv1) :=
            match e with
            | XAnd _ its => cg_andvia its n tv
            | _ => via e (cg MNone e n) tv
            end in
          let (r, n2) := cg_vor (XCons e2 es2) n1 tv1 in (v ++ r, n2)).
  destruct (match e with XAnd _ its => _ | _ => _ end) as [[v n1] tv1].
  destruct (cg_vor (XCons e2 es2) n1 tv1). reflexivity.
Qed.

Lemma vor_item e n tv : K e -> ok O e -> plain e -> tv_ok tv ->
  match e with XAnd b its => b = false /\ okl O its /\ 2 <= len its | _ => True end ->
  exists tc ta n2 tv2 C A,
    match e with
    | XAnd _ its => cg_andvia its n tv
    | _ => via e (cg MNone e n) tv
    end = (tc ++ TP "?" :: ta ++ [TP ":"], n2, tv2) /\ tv_ok tv2 /\ Un ta A /\
    (forall rest, bin 1 (tc ++ TP "?" :: rest) C (TP "?" :: rest)) /\
    Testv C A (feval O e).
Proof.
  intros Ke We Pe Htv Ha.
  assert (V : exists tc ta n2 tv2 C A,
    via e (cg MNone e n) tv = (tc ++ TP "?" :: ta ++ [TP ":"], n2, tv2) /\ tv_ok tv2 /\ Un ta A /\
    (forall rest, bin 1 (tc ++ TP "?" :: rest) C (TP "?" :: rest)) /\
    Testv C A (feval O e)).
  { destruct (K_use e Ke We Pe n) as (T & g). destruct (cg MNone e n) as [ts n1]. cbn [fst] in g.
    destruct (via_lemma e ts n1 tv T g Htv) as (tc & ta & n2 & tv2 & C & A & E & Ht & U & UA & Te).
    exists tc, ta, n2, tv2, C, A. split; [exact E|]. split; [exact Ht|]. split; [exact UA|].
    split; [apply Un_q; exact U|]. intros s t. destruct (Te s t) as (t1 & E1 & E2).
    exists (fst (feval O e s)), t1. auto. }
  destruct e; try exact V. destruct Ha as (-> & Wi & Li). cbn in Ke. destruct Ke as [_ Ki].
  destruct (andvia_lemma es Ki Wi ltac:(lia) n tv Htv)
    as (tc & ta & n2 & tv2 & C & A & F & E & Ht & UA & PB & _ & Te & _).
  exists tc, ta, n2, tv2, C, A. auto.
Qed.

Lemma vor_lemma es : KL es -> okl O es -> ok_or O es -> 1 <= len es -> forall n tv, tv_ok tv ->
  exists T, Asg (fst (cg_vor es n tv)) T /\ (2 <= len es -> place T = None) /\
            Sem T (for_ O false es).
Proof.
  induction es as [|e es IH]; intros Hk W Wo L n tv Htv; [cbn in L; lia|].
  cbn in Hk, W. destruct Hk as [Ke Kes]. destruct W as (We & Pe & Wes).
  cbn in Wo. destruct Wo as [Wa Wo].
  destruct (len_cases es) as [->|L2].
  - destruct (K_use e Ke We Pe n) as (T & g).
    exists T. change (cg_vor (XCons e XNil) n tv) with (cg MNone e n).
    split; [apply Un_asg, (g_un _ _ _ g)|]. split; [cbn; lia|].
    intros s t. rewrite for_one. apply (g_sem _ _ _ g).
  - rewrite (vor_cons e es n tv L2).
    assert (Ha : match e with XAnd b its => b = false /\ okl O its /\ 2 <= len its | _ => True end).
    { destruct e; auto. destruct Wa as [->|Wa]; [cbn in L2; lia|exact Wa]. }
    destruct (vor_item e n tv Ke We Pe Htv Ha) as (tc & ta & n2 & tv2 & C & A & E & Ht & UA & PB & Te).
    rewrite E. destruct (IH Kes Wes Wo L2 n2 tv2 Ht) as (R & AR & _ & SR).
    exists (CCond C A R). split; [|split; [reflexivity|]].
    + rewrite <- app_assoc. cbn [app]. rewrite <- app_assoc. cbn [app].
      apply cond_asg; assumption.
    + intros s t. destruct (Te s t) as (vc & t1 & E1 & E2 & E3). rewrite (for_cons false e es s L2).
      cbn. rewrite E1, E2. destruct (truth (fst (feval O e s))); cbn.
      * exists t1. apply E3. exact E2.
      * apply SR.
Qed.


(** ** Arguments *)

Lemma un_head ts e r : un ts e r -> at_tok ")" ts = false.
Proof.
  intro U. inversion U as [op r0 e0 r1 I U1|r0 e0 r1 A Pp]; subst.
  - apply is_in_cases in I. cbn in I. cbn.
    destruct I as [<-|[<-|[<-|[<-|[<-|[<-|[<-|[<-|[]]]]]]]]]; reflexivity.
  - inversion Pp as [ts0 e0 r0 e' r' Q Pt]; subst. inversion Q; subst; reflexivity.
Qed.

Lemma asg_head ts e r : asg ts e r -> at_tok ")" ts = false.
Proof.
  intro A. inversion A as [ts0 e0 r0 e' r' B _]; subst.
  inversion B as [k ts0 e1 r1 e2 r2 U _]; subst. apply (un_head _ _ _ U).
Qed.

Lemma args1_head ts a r : args1 ts a r -> at_tok ")" ts = false.
Proof. intro A. inversion A; subst; eapply asg_head; eassumption. Qed.

Lemma cg_args_cons e es n : 1 <= len es ->
  fst (cg_args (XCons e es) n) =
  fst (cg MNone e n) ++ TP "," :: fst (cg_args es (snd (cg MNone e n))).
Proof.
  destruct es as [|e2 es2]; cbn [len]; [lia|]. intros _.
  change (cg_args (XCons e (XCons e2 es2)) n)
    with (let (a, n1) := cg MNone e n in
          let (r, n2) := cg_args (XCons e2 es2) n1 in (a ++ [TP ","] ++ r, n2)).
  destruct (cg MNone e n) as [a n1]. cbn [fst snd].
  destruct (cg_args (XCons e2 es2) n1). reflexivity.
Qed.

Lemma args1_lemma es : KL es -> okl O es -> 1 <= len es -> forall n, exists a,
  (forall rest, args1 (fst (cg_args es n) ++ TP ")" :: rest) a rest) /\
  (forall s t, exists t', cevals O a (s, t) = Some (fst (fevals O es s), (snd (fevals O es s), t'))).
Proof.
  induction es as [|e es IH]; intros Hk W L n; [cbn in L; lia|].
  cbn in Hk, W. destruct Hk as [Ke Kes]. destruct W as (We & Pe & Wes).
  destruct (K_use e Ke We Pe n) as (T & g).
  destruct (len_cases es) as [->|L2].
  - exists (ACons T ANil). change (cg_args (XCons e XNil) n) with (cg MNone e n). split.
    + intro rest. apply args1_one. apply (Un_asg _ _ (g_un _ _ _ g)). reflexivity.
    + intros s t. destruct (g_sem _ _ _ g s t) as (t1 & E). exists t1.
      rewrite ces_cons, E, fes_cons. cbn. destruct (feval O e s). reflexivity.
  - destruct (IH Kes Wes L2 (snd (cg MNone e n))) as (a & P & Q). exists (ACons T a).
    rewrite (cg_args_cons e es n L2). split.
    + intro rest. rewrite <- app_assoc. cbn [app].
      eapply args1_more; [apply (Un_asg _ _ (g_un _ _ _ g)); reflexivity|apply P].
    + intros s t. destruct (g_sem _ _ _ g s t) as (t1 & E).
      destruct (Q (snd (feval O e s)) t1) as (t2 & E2). exists t2.
      rewrite ces_cons, E, fes_cons, E2. destruct (feval O e s) as [v s1]. cbn [fst snd].
      destruct (fevals O es s1). reflexivity.
Qed.

Lemma args_lemma es : KL es -> okl O es -> forall n, exists a,
  (forall rest, args (fst (cg_args es n) ++ TP ")" :: rest) a rest) /\
  (forall s t, exists t', cevals O a (s, t) = Some (fst (fevals O es s), (snd (fevals O es s), t'))).
Proof.
  intros Hk W n. destruct (len_cases es) as [->|L].
  - exists ANil. split; [intro rest; apply args_none|]. intros s t. exists t. reflexivity.
  - destruct (args1_lemma es Hk W L n) as (a & P & Q). exists a. split; [|exact Q].
    intro rest. apply args_some; [|apply P]. eapply args1_head. apply P.
Qed.

(** ** Logical operators, without the parentheses around them *)

Lemma single_len es : 2 <= len es -> single es = false.
Proof. destruct es as [|e [|e2 es]]; cbn; [lia|lia|reflexivity]. Qed.

Lemma concat_asg i es : KL es -> okc O es -> 2 <= len es -> forall n, exists T,
  Asg (fst (cg_concat (lop i) MNone es n)) T /\ place T = None /\
  Sem T (if i then fand O true es else for_ O true es).
Proof.
  intros Hk W L n. destruct es as [|e es]; [cbn in L; lia|].
  assert (L1 : 1 <= len es) by (cbn in L; lia).
  cbn in Hk, W. destruct Hk as [Ke Kes]. destruct W as [We Wes].
  destruct (item_lemma e Ke We n) as (T & U & Sm).
  destruct (ctail i es Kes Wes L1 (snd (cg MNone e n))) as (F & P & Q & R).
  exists (F T). split; [|split; [apply Q|]].
  - intros rest S. rewrite (concat_cons _ _ e es n L1). rewrite <- app_assoc. cbn [app].
    destruct (stop_facts rest S) as (A & B & C & D).
    econstructor; [econstructor; [apply U; destruct i; reflexivity|apply P; exact S]|].
    apply atail_end. exact D.
  - intros s t. destruct (Sm s t) as (t1 & E). destruct (R T s t _ _ _ E) as (t2 & E2).
    exists t2. rewrite E2. unfold lfold.
    destruct i; rewrite ?(fand_cons true e es s L1), ?(for_cons true e es s L1);
      destruct (truth (fst (feval O e s))) eqn:V; cbn [asbool fst snd]; rewrite ?V; reflexivity.
Qed.

Lemma and_inner b es n : KL es -> ok O (XAnd b es) -> exists T,
  Asg (fst (cg MParens (XAnd b es) n)) T /\ place T = None /\ Sem T (feval O (XAnd b es)).
Proof.
  intros Hk [L W]. destruct b.
  - destruct (concat_asg true es Hk W L n) as (T & A & P & S). exists T. cbn [lop] in A.
    cbn [cg]. rewrite (single_len es L). destruct (cg_concat "&&" MNone es n). auto.
  - destruct (vand_lemma es Hk W ltac:(lia) n None I) as (T & A & P & S). exists T.
    cbn [cg]. destruct (cg_vand es n None). auto.
Qed.

Lemma or_inner b es n : KL es -> ok O (XOr b es) -> exists T,
  Asg (fst (cg MParens (XOr b es) n)) T /\ place T = None /\ Sem T (feval O (XOr b es)).
Proof.
  intros Hk [L W]. destruct b.
  - destruct (concat_asg false es Hk W L n) as (T & A & P & S). exists T. cbn [lop] in A.
    cbn [cg]. rewrite (single_len es L). destruct (cg_concat "||" MNone es n). auto.
  - destruct W as [W W2].
    destruct (vor_lemma es Hk W W2 ltac:(lia) n None I) as (T & A & P & S). exists T.
    cbn [cg]. destruct (cg_vor es n None). auto.
Qed.

Lemma and_parens b es n :
  fst (cg MNone (XAnd b es) n) = paren (fst (cg MParens (XAnd b es) n)).
Proof.
  cbn [cg]. destruct b.
  - destruct (cg_concat _ _ es n). reflexivity.
  - destruct (cg_vand es n None). reflexivity.
Qed.

Lemma or_parens b es n :
  fst (cg MNone (XOr b es) n) = paren (fst (cg MParens (XOr b es) n)).
Proof.
  cbn [cg]. destruct b.
  - destruct (cg_concat _ _ es n). reflexivity.
  - destruct (cg_vor es n None). reflexivity.
Qed.

(** ** All expressions *)

Lemma paren_G e ts T :
  Asg ts T -> is_field_chain e = false -> place T = None -> Sem T (feval O e) -> G e (paren ts) T.
Proof.
  intros A F P S. pose proof (paren_post ts T A) as Q. split.
  - apply Post_un; [exact Q|]. reflexivity.
  - intros _. exact Q.
  - destruct e; try discriminate F; exact P.
  - exact S.
Qed.

Lemma conv_post t ts T : Asg ts T ->
  Post (TId t :: TP "(" :: ts ++ [TP ")"]) (CCall t (ACons T ANil)).
Proof.
  intros A rest e' r' _ P. cbn. rewrite app1. econstructor; [|exact P].
  apply prim_call. apply args_some; [|apply args1_one; apply A; reflexivity].
  eapply asg_head. apply A. reflexivity.
Qed.

Lemma conv_sem t T f : is_type O t = true -> Sem T f ->
  Sem (CCall t (ACons T ANil)) (fun s => (conv O t (fst (f s)), snd (f s))).
Proof.
  intros Ht S s u. destruct (S s u) as (u1 & E). exists u1.
  rewrite ce_CCall, ces_cons, E. change (cevals O ANil (snd (f s), u1)) with (Some (@nil Z, (snd (f s), u1))).
  cbn. rewrite Ht. reflexivity.
Qed.

Lemma bin_asg op q ta A tb B : prec op = Some q -> is_in op ["."; "["; "++"; "--"] = false ->
  op <> "(" -> 1 <= q -> Un ta A -> Un tb B -> Asg (ta ++ [TP op] ++ tb) (CBin op A B).
Proof.
  intros Hq Hp Ho H1 UA UB rest S. destruct (stop_facts rest S) as (P1 & P2 & P3 & P4).
  rewrite <- app_assoc. cbn [app].
  econstructor; [econstructor|apply atail_end; exact P4].
  - apply UA; [|exact Hp]. cbn. destruct (String.eqb_spec op "("); [contradiction|reflexivity].
  - eapply btail_op; [exact Hq|exact H1| |apply btail_end; apply P3].
    econstructor; [apply UB; assumption|apply btail_end; apply P3].
Qed.

Lemma value_op_facts op : is_in op value_ops = true ->
  exists q, prec op = Some q /\ is_in op ["."; "["; "++"; "--"] = false /\ op <> "(" /\ 1 <= q /\
    String.eqb op "&&" = false /\ String.eqb op "||" = false.
Proof.
  intro H. apply is_in_cases in H. cbn in H.
  repeat (destruct H as [<-|H]; [eexists; split; [reflexivity|];
    split; [reflexivity|]; split; [discriminate|]; split; [lia|split; reflexivity]|]).
  destruct H.
Qed.

Lemma bin_sem op A B (f g : state -> Z * state) :
  String.eqb op "&&" = false -> String.eqb op "||" = false -> Sem A f -> Sem B g ->
  Sem (CBin op A B) (fun s => (bin2 O op (fst (f s)) (fst (g (snd (f s)))), snd (g (snd (f s))))).
Proof.
  intros E1 E2 SA SB s t. destruct (SA s t) as (t1 & EA).
  destruct (SB (snd (f s)) t1) as (t2 & EB). exists t2.
  rewrite ce_CBin, EA, E1, E2. cbn [andb orb]. rewrite EB. reflexivity.
Qed.

Lemma asg_op_facts op : is_in op asg_ops = true ->
  is_in op ["."; "["; "++"; "--"] = false /\ op <> "(" /\ (forall r, at_binary 1 (TP op :: r) = false).
Proof.
  intro H. apply is_in_cases in H. cbn in H.
  repeat (destruct H as [<-|H]; [split; [reflexivity|]; split; [discriminate|reflexivity]|]).
  destruct H.
Qed.

Lemma asg_asg op ta A tb B : is_in op asg_ops = true -> Un ta A -> Un tb B ->
  Asg (ta ++ [TP op] ++ tb) (CAsg op A B).
Proof.
  intros Hop UA UB rest S. destruct (asg_op_facts op Hop) as (P1 & P2 & P3).
  rewrite <- app_assoc. cbn [app]. econstructor.
  - econstructor; [apply UA; [|exact P1]|apply btail_end; apply P3].
    cbn. destruct (String.eqb_spec op "("); [contradiction|reflexivity].
  - apply atail_asg; [exact Hop|]. apply (Un_asg _ _ UB). exact S.
Qed.

Lemma asg_sem op x fs B f : is_temp x = false -> Sem B f ->
  Sem (CAsg op (fold_left CField fs (CId x)) B)
      (fun s => let w := if String.eqb op "=" then fst (f s)
                         else upd O op (mem (snd (f s)) (x :: fs)) (fst (f s)) in
                (w, store (x :: fs) w (snd (f s)))).
Proof.
  intros Hx SB s t. destruct (SB s t) as (t1 & E). exists t1. rewrite ce_CAsg, E.
  pose proof (place_path x fs Hx) as P. set (T := fold_left CField fs (CId x)) in *.
  destruct T; try (rewrite P; reflexivity).
  cbn in P. destruct (is_temp x0) eqn:E0; [discriminate|]. injection P as -> <-. reflexivity.
Qed.

Lemma Sem_ext T f g : (forall s, f s = g s) -> Sem T f -> Sem T g.
Proof. intros H S s t. rewrite <- H. apply S. Qed.

Lemma not_sem T f : Sem T f -> Sem (CPre "!" T) (fun s => (ofb (negb (truth (fst (f s)))), snd (f s))).
Proof. intros S s t. destruct (S s t) as (t1 & E). exists t1. rewrite ce_CPre, E. reflexivity. Qed.

Lemma pre_un op ts T : is_in op prefix_ops = true -> Un ts T -> Un (TP op :: ts) (CPre op T).
Proof. intros H U rest A B. cbn. apply un_pre; [exact H|]. apply U; assumption. Qed.

Lemma boolify_lemma b bi e ts T : G e ts T -> (b = true -> bi = true -> bool_valued O e) ->
  exists T', Un (boolify b bi ts) T' /\
    Sem T' (fun s => (asbool b (fst (feval O e s)), snd (feval O e s))).
Proof.
  intros g Hb. unfold boolify. destruct b; cbn [andb].
  - destruct bi; cbn [negb].
    + exists T. split; [apply (g_un _ _ _ g)|]. intros s t.
      destruct (g_sem _ _ _ g s t) as (t1 & E). exists t1. rewrite E. cbn [fst snd asbool].
      destruct (Hb eq_refl eq_refl s) as [-> | ->]; reflexivity.
    + exists (CPre "!" (CPre "!" T)). split.
      * apply pre_un; [reflexivity|]. apply pre_un; [reflexivity|].
        apply Post_un; [|reflexivity]. apply (paren_post ts T). apply Un_asg, (g_un _ _ _ g).
      * eapply Sem_ext; [|apply not_sem; apply not_sem; apply (g_sem _ _ _ g)].
        intro s. cbn. rewrite truth_ofb, negb_involutive. reflexivity.
  - exists T. split; [apply (g_un _ _ _ g)|]. eapply Sem_ext; [|apply (g_sem _ _ _ g)].
    intro s. cbn. destruct (feval O e s). reflexivity.
Qed.

Lemma unop_prefix op : is_in op ["-"; "+"; "~"] = true ->
  is_in op prefix_ops = true /\ String.eqb op "++" = false /\ String.eqb op "--" = false /\
  String.eqb op "!" = false.
Proof.
  intro H. apply is_in_cases in H. cbn in H.
  destruct H as [<-|[<-|[<-|[]]]]; repeat split; reflexivity.
Qed.

Lemma inc_prefix op : op = "++" \/ op = "--" ->
  is_in op prefix_ops = true /\ (String.eqb op "++" || String.eqb op "--")%bool = true.
Proof. intros [-> | ->]; split; reflexivity. Qed.

Lemma G_cg : (forall e, K e) /\ (forall es, KL es).
Proof.
  apply fx_fxs_ind.
  - (* XNum *)
    intro x. split; [|exact I]. intros _ _ n. exists (CNum x). cbn.
    assert (P : Post [TNum x] (CNum x)).
    { intros rest e' r' _ Pt. econstructor; [apply prim_num|exact Pt]. }
    split; [apply Post_un; [exact P|reflexivity]|auto|reflexivity|].
    intros s t. exists t. reflexivity.
  - (* XNeg *)
    intro x. split; [|exact I]. intros _ _ n. exists (CPre "-" (CNum x)). cbn.
    split; [|discriminate|reflexivity|].
    + apply (pre_un "-" [TNum x]); [reflexivity|]. apply Post_un; [|reflexivity].
      intros rest e' r' _ Pt. econstructor; [apply prim_num|exact Pt].
    + intros s t. exists t. reflexivity.
  - (* XPath *)
    intros x fs. split; [|exact I]. intros W _ n. exists (fold_left CField fs (CId x)). cbn in W |- *.
    split; [apply path_un|intros _; apply path_post|apply place_path; exact W|].
    intros s t. exists t. rewrite (ceval_place _ _ _ (place_path x fs W)). reflexivity.
  - (* XCall *)
    intros f es Kes. split; [|exact I]. intros [Hf W] _ n.
    destruct (args_lemma es Kes W n) as (a & P & Q). exists (CCall f a).
    cbn [cg]. destruct (cg_args es n) as [ta n1]. cbn [fst] in *.
    assert (Po : Post (TId f :: TP "(" :: ta ++ [TP ")"]) (CCall f a)).
    { intros rest e' r' _ Pt. cbn. rewrite app1. econstructor; [apply prim_call; apply P|exact Pt]. }
    split; [apply Post_un; [exact Po|reflexivity]|auto|reflexivity|].
    intros s t. destruct (Q s t) as (t1 & E). exists t1. rewrite ce_CCall, E, Hf, fe_XCall.
    destruct (fevals O es s) as [vs s1]. cbn [fst snd]. destruct (ret O f vs s1). reflexivity.
  - (* XConv *)
    intros ty e Ke. split; [|exact I]. intros (Ht & W & P) _ n.
    destruct (K_use e Ke W P n) as (T & g). exists (CCall ty (ACons T ANil)).
    cbn [cg]. destruct (cg MNone e n) as [ts n1]. cbn [fst] in *.
    pose proof (conv_post ty ts T (Un_asg _ _ (g_un _ _ _ g))) as Po.
    split; [apply Post_un; [exact Po|reflexivity]|auto|reflexivity|].
    eapply Sem_ext; [|apply conv_sem; [exact Ht|apply (g_sem _ _ _ g)]].
    intro s. cbn [fst snd]. rewrite fe_XConv. destruct (feval O e s). reflexivity.
  - (* XFld *)
    intros e Ke f. split; [|exact I]. intros (W & P & Hh & Hc) _ n.
    destruct (K_use e Ke W P n) as (T & g). exists (CField T f).
    pose proof (head_cg e W n) as Hd. rewrite Hh in Hd.
    cbn [cg]. destruct (cg MNone e n) as [ts n1]. cbn [fst] in *.
    assert (PN : place T = None).
    { rewrite (g_place _ _ _ g). destruct e; try reflexivity. discriminate Hc. }
    assert (Po : Post (ts ++ [TP "."; TId f]) (CField T f)).
    { intros rest e' r' _ Pt. rewrite <- app_assoc. cbn [app].
      apply (g_post _ _ _ g Hh); [reflexivity|]. apply ptail_field. exact Pt. }
    split; [apply Post_un; [exact Po|intro r; rewrite <- app_assoc; apply head_at_prefix; exact Hd]|auto| |].
    + cbn. rewrite PN. reflexivity.
    + intros s t. destruct (g_sem _ _ _ g s t) as (t1 & E). exists t1. rewrite ce_CField.
      cbn [place]. rewrite PN, E, fe_XFld. destruct (feval O e s). reflexivity.
  - (* XIdx *)
    intros e Ke i Ki. split; [|exact I]. intros (W & P & Hh & Wi & Pi) _ n.
    destruct (K_use e Ke W P n) as (T & g).
    pose proof (head_cg e W n) as Hd. rewrite Hh in Hd.
    cbn [cg]. destruct (cg MNone e n) as [ts n1]. cbn [fst] in *.
    destruct (K_use i Ki Wi Pi n1) as (T2 & g2). destruct (cg MNone i n1) as [ti n2]. cbn [fst] in *.
    exists (CIdx T T2).
    assert (Po : Post (ts ++ TP "[" :: ti ++ [TP "]"]) (CIdx T T2)).
    { intros rest e' r' _ Pt. rewrite <- app_assoc. cbn [app]. rewrite app1.
      apply (g_post _ _ _ g Hh); [reflexivity|]. eapply ptail_index; [|exact Pt].
      apply (Asg_expr ti T2); [apply Un_asg, (g_un _ _ _ g2)|reflexivity|reflexivity]. }
    split; [apply Post_un; [exact Po|intro r; rewrite <- app_assoc; apply head_at_prefix; exact Hd]|auto|reflexivity|].
    intros s t. destruct (g_sem _ _ _ g s t) as (t1 & E).
    destruct (g_sem _ _ _ g2 (snd (feval O e s)) t1) as (t2 & E2). exists t2.
    rewrite ce_CIdx, E, E2, fe_XIdx. destruct (feval O e s) as [v s1]. cbn [fst snd].
    destruct (feval O i s1). reflexivity.
  - (* XPre *)
    intros nr op e Ke. split; [|exact I]. intros (Hop & Hn & W & P & R) _ n.
    destruct (K_use e Ke W P n) as (T & g).
    pose proof (head_cg e W n) as Hd. cbn [cg].
    destruct (cg MNone e n) as [ts n1]. cbn [fst] in *.
    unfold emit_prefix. rewrite (glue_ok op e ts Hd R).
    destruct (unop_prefix op Hop) as (Q1 & Q2 & Q3 & Q4).
    pose proof (pre_un op ts T Q1 (g_un _ _ _ g)) as U.
    assert (Sm : Sem (CPre op T) (fun s => (un1 O op (fst (feval O e s)), snd (feval O e s)))).
    { intros s t. destruct (g_sem _ _ _ g s t) as (t1 & E). exists t1.
      rewrite ce_CPre, Q2, Q3. cbn [orb]. rewrite E, Q4. reflexivity. }
    destruct nr as [ty|].
    + exists (CCall ty (ACons (CPre op T) ANil)). cbn [unpromote].
      pose proof (conv_post ty (TP op :: ts) (CPre op T) (Un_asg _ _ U)) as Po.
      split; [apply Post_un; [exact Po|reflexivity]|auto|reflexivity|].
      eapply Sem_ext; [|apply conv_sem; [exact Hn|exact Sm]].
      intro s. cbn [fst snd]. rewrite fe_XPre. destruct (feval O e s). reflexivity.
    + exists (CPre op T). cbn [unpromote]. split; [exact U|discriminate|reflexivity|].
      eapply Sem_ext; [|exact Sm]. intro s. cbn [fst snd]. rewrite fe_XPre.
      destruct (feval O e s). reflexivity.
  - (* XInc *)
    intros op x fs. split; [|exact I]. intros [Hop Hx] _ n. cbn [cg fst]. rewrite glue_path.
    destruct (inc_prefix op Hop) as (Q1 & Q2).
    exists (CPre op (fold_left CField fs (CId x))).
    split; [apply pre_un; [exact Q1|apply path_un]|discriminate|reflexivity|].
    intros s t. exists t. rewrite ce_CPre, Q2, (place_path x fs Hx). reflexivity.
  - (* XPostInc *)
    intros op x fs. split; [|exact I]. intros [Hop Hx] _ n. cbn [cg fst].
    exists (CPost (fold_left CField fs (CId x)) op).
    assert (Po : Post (cg_path x fs ++ [TP op]) (CPost (fold_left CField fs (CId x)) op)).
    { intros rest e' r' _ Pt. rewrite app1. apply path_post; [|apply ptail_inc; [exact Hop|exact Pt]].
      destruct Hop as [-> | ->]; reflexivity. }
    split; [apply Post_un; [exact Po|reflexivity]|auto|reflexivity|].
    intros s t. exists t. rewrite ce_CPost, (place_path x fs Hx). reflexivity.
  - (* XBin *)
    intros nr op a Ka b Kb. split; [|exact I]. intros (Hop & Hn & Wa & Pa & Wb & Pb) _ n.
    destruct (K_use a Ka Wa Pa n) as (A & ga). cbn [cg].
    destruct (cg MNone a n) as [ta n1]. cbn [fst] in *.
    destruct (K_use b Kb Wb Pb n1) as (B & gb). destruct (cg MNone b n1) as [tb n2]. cbn [fst] in *.
    destruct (value_op_facts op Hop) as (q & Hq & Q1 & Q2 & Q3 & Q4 & Q5).
    pose proof (bin_asg op q ta A tb B Hq Q1 Q2 Q3 (g_un _ _ _ ga) (g_un _ _ _ gb)) as HA.
    pose proof (bin_sem op A B _ _ Q4 Q5 (g_sem _ _ _ ga) (g_sem _ _ _ gb)) as Sm.
    unfold emit_binary. cbn [bin_skip_parens].
    destruct nr as [ty|]; cbn [unpromote].
    + exists (CCall ty (ACons (CBin op A B) ANil)).
      pose proof (paren_post _ _ HA) as Po1.
      pose proof (conv_post ty _ _ (Un_asg _ _ (Post_un _ _ Po1 (fun r => eq_refl)))) as Po.
      split; [apply Post_un; [exact Po|reflexivity]|auto|reflexivity|].
      eapply Sem_ext; [|apply conv_sem; [exact Hn|exact Sm]].
      intro s. cbn [fst snd]. rewrite fe_XBin. destruct (feval O a s) as [v s1]. cbn [fst snd].
      destruct (feval O b s1). reflexivity.
    + exists (CBin op A B). apply paren_G; [exact HA|reflexivity|reflexivity|].
      eapply Sem_ext; [|exact Sm]. intro s. rewrite fe_XBin.
      destruct (feval O a s) as [v s1]. cbn [fst snd]. destruct (feval O b s1). reflexivity.
  - (* XAsg *)
    intros op x fs e Ke. split; [|exact I]. intros (Hop & Hx & W & P) _ n.
    destruct (K_use e Ke W P n) as (B & g). cbn [cg].
    destruct (cg MNone e n) as [ts n1]. cbn [fst] in *.
    unfold emit_binary. cbn [bin_skip_parens unpromote].
    exists (CAsg op (fold_left CField fs (CId x)) B). apply paren_G; [|reflexivity|reflexivity|].
    + apply asg_asg; [exact Hop|apply path_un|apply (g_un _ _ _ g)].
    + eapply Sem_ext; [|apply asg_sem; [exact Hx|apply (g_sem _ _ _ g)]].
      intro s. rewrite fe_XAsg. destruct (feval O e s). reflexivity.
  - (* XNot *)
    intros e Ke. split; [|exact I]. intros (W & P) _ n.
    destruct (K_use e Ke W P n) as (T & g). cbn [cg].
    destruct (cg MNone e n) as [ts n1]. cbn [fst] in *. rewrite glue_not.
    exists (CPre "!" T). split; [apply pre_un; [reflexivity|apply (g_un _ _ _ g)]|discriminate|reflexivity|].
    eapply Sem_ext; [|apply not_sem; apply (g_sem _ _ _ g)].
    intro s. cbn [fst snd]. rewrite fe_XNot. destruct (feval O e s). reflexivity.
  - (* XAnd *)
    intros b es Kes. split; [|exact Kes]. intros W _ n. rewrite and_parens.
    destruct (and_inner b es n Kes W) as (T & A & P & S). exists T.
    apply paren_G; [exact A|reflexivity|exact P|exact S].
  - (* XOr *)
    intros b es Kes. split; [|exact I]. intros W _ n. rewrite or_parens.
    destruct (or_inner b es n Kes W) as (T & A & P & S). exists T.
    apply paren_G; [exact A|reflexivity|exact P|exact S].
  - (* XIf *)
    intros b b1 b2 c Kc e1 K1 e2 K2. split; [|exact I].
    intros (Wc & Pc & W1 & P1 & W2 & P2 & H1 & H2) _ n. cbn [cg].
    destruct (K_use c Kc Wc Pc n) as (C & gc). destruct (cg MNone c n) as [tc n1]. cbn [fst] in *.
    destruct (K_use e1 K1 W1 P1 n1) as (A & ga). destruct (cg MNone e1 n1) as [ta n2]. cbn [fst] in *.
    destruct (K_use e2 K2 W2 P2 n2) as (B & gb). destruct (cg MNone e2 n2) as [tb n3]. cbn [fst] in *.
    destruct (boolify_lemma b b1 e1 ta A ga H1) as (A' & UA & SA).
    destruct (boolify_lemma b b2 e2 tb B gb H2) as (B' & UB & SB).
    exists (CCond C A' B'). apply paren_G; [|reflexivity|reflexivity|].
    + cbn [app]. apply cond_asg; [apply Un_q, (g_un _ _ _ gc)|exact UA|apply Un_asg; exact UB].
    + intros s t. destruct (g_sem _ _ _ gc s t) as (t1 & E). rewrite ce_CCond, E, fe_XIf.
      destruct (feval O c s) as [v s1]. cbn [fst snd].
      destruct (truth v).
      * destruct (SA s1 t1) as (t2 & E2). exists t2. rewrite E2. cbn.
        destruct (feval O e1 s1). reflexivity.
      * destruct (SB s1 t1) as (t2 & E2). exists t2. rewrite E2. cbn.
        destruct (feval O e2 s1). reflexivity.
  - (* XVoid *)
    intros e Ke. split; [|exact Ke]. intros _ [].
  - exact I.
  - intros e Ke es Kes. split; assumption.
Qed.

(** Expressions, on their own. *)
Lemma cg_value e : ok O e -> plain e -> forall n,
  exists T, is_expression (fst (cg MNone e n)) T /\ Sem T (feval O e).
Proof.
  intros W P n. destruct (K_use e (proj1 G_cg e) W P n) as (T & g). exists T.
  split; [|apply (g_sem _ _ _ g)]. unfold is_expression.
  rewrite <- (app_nil_r (fst (cg MNone e n))).
  apply (Asg_expr _ T []); [apply Un_asg, (g_un _ _ _ g)|reflexivity|reflexivity].
Qed.

(** Expressions with parentheses around them already. *)
Definition narrow_root (e : fx) : bool :=
  match e with
  | XBin (Some _) op _ _ => bin_skip_parens op MParens
  | _ => false
  end.

Lemma cg_cond e : ok O e -> plain e -> narrow_root e = false -> forall n,
  exists T, Asg (fst (cg MParens e n)) T /\ Sem T (feval O e).
Proof.
  intros W P N n.
  assert (D : fst (cg MParens e n) = fst (cg MNone e n) ->
    exists T, Asg (fst (cg MParens e n)) T /\ Sem T (feval O e)).
  { intros ->. destruct (K_use e (proj1 G_cg e) W P n) as (T & g). exists T.
    split; [apply Un_asg, (g_un _ _ _ g)|apply (g_sem _ _ _ g)]. }
  destruct e; try (apply D; reflexivity).
  - (* XBin *)
    destruct (bin_skip_parens op MParens) eqn:Bs.
    + destruct narrow as [ty|]; [cbn in N, Bs; rewrite Bs in N; discriminate|].
      destruct W as (Hop & Hn & Wa & Pa & Wb & Pb). cbn [cg].
      destruct (K_use _ (proj1 G_cg e1) Wa Pa n) as (A & ga).
      destruct (cg MNone e1 n) as [ta n1]. cbn [fst] in *.
      destruct (K_use _ (proj1 G_cg e2) Wb Pb n1) as (B & gb).
      destruct (cg MNone e2 n1) as [tb n2]. cbn [fst] in *.
      destruct (value_op_facts op Hop) as (q & Hq & Q1 & Q2 & Q3 & Q4 & Q5).
      exists (CBin op A B). unfold emit_binary. rewrite Bs. split.
      * apply (bin_asg op q); try assumption; [apply (g_un _ _ _ ga)|apply (g_un _ _ _ gb)].
      * eapply Sem_ext; [|apply (bin_sem op A B _ _ Q4 Q5 (g_sem _ _ _ ga) (g_sem _ _ _ gb))].
        intro s. rewrite fe_XBin. destruct (feval O e1 s) as [v s1]. cbn [fst snd].
        destruct (feval O e2 s1). reflexivity.
    + apply D. cbn [cg]. destruct (cg MNone e1 n) as [ta n1]. destruct (cg MNone e2 n1) as [tb n2].
      unfold emit_binary. rewrite Bs. reflexivity.
  - (* XAsg *)
    apply D. cbn [cg]. destruct (cg MNone e n) as [tb n1]. unfold emit_binary.
    destruct W as (Hop & _).
    assert (Bs : bin_skip_parens op MParens = false).
    { apply is_in_cases in Hop. cbn in Hop.
      repeat (destruct Hop as [<-|Hop]; [reflexivity|]). destruct Hop. }
    rewrite Bs. reflexivity.
  - (* XAnd *)
    destruct (and_inner b es n (proj2 G_cg es) W) as (T & A & _ & S). eauto.
  - (* XOr *)
    destruct (or_inner b es n (proj2 G_cg es) W) as (T & A & _ & S). eauto.
Qed.

End Proof.
