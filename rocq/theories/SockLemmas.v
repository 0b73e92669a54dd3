From Verif Require Import SockSpec SockModel.
From Coq Require Import List Arith ZArith Bool Lia.
Import ListNotations.

Lemma has_nil {A} (l : list A) : has l = false <-> l = [].
Proof. destruct l; cbn; split; congruence. Qed.

(** What the acts preserve. *)
Lemma peer_keeps p x :
  armed_in (peer_does p x) = armed_in x /\ armed_out (peer_does p x) = armed_out x /\ kept (peer_does p x) = kept x /\
  closed (peer_does p x) = closed x /\ got (peer_does p x) = got x /\ pending (peer_does p x) = pending x.
Proof. unfold peer_does; destruct (fin x), p; cbn; repeat split. Qed.
Lemma peer_fin p x : fin x = true -> peer_does p x = x.
Proof. unfold peer_does; now intros ->. Qed.
Lemma peer_sent p x : (exists r, sent x = got x ++ r) -> exists r, sent (peer_does p x) = got (peer_does p x) ++ r.
Proof.
  intros [r E]. unfold peer_does. destruct (fin x); [eauto|]. destruct p; cbn; eauto.
  rewrite E. exists (r ++ data). now rewrite app_assoc.
Qed.

(** In order, at most once. *)
Definition ordered (x : conn) : Prop := exists r, sent x = got x ++ r /\ (reset x = false -> r = rx x) /\ (reset x = true -> rx x = [] /\ fin x = true).
Lemma peer_ordered p x : ordered x -> ordered (peer_does p x).
Proof.
  intros (r & E & A & B). unfold ordered, peer_does. destruct (fin x) eqn:F; [rewrite F; now exists r|].
  destruct (reset x) eqn:R; [destruct (B eq_refl); congruence|].
  destruct p; cbn; rewrite E; [exists (r ++ data)|exists r|exists r].
  - rewrite app_assoc, (A eq_refl). repeat split; congruence.
  - repeat split; auto; congruence.
  - repeat split; congruence.
Qed.
Lemma calls_ordered c x s e x' s' e' : calls c (x, s, e) = (x', s', e') -> ordered x -> ordered x'.
Proof.
  unfold ordered; intros E (r & S & A & B). destruct c; cbn in E.
  - destruct (has (rx x)) eqn:H; [|destruct (fin x) eqn:F]; injection E as <- <- <-; cbn; try (rewrite <- ?F; now exists r);
      try (exists r; split; [exact S|split; [exact A|intros Q; destruct (B Q); split; congruence]]).
    destruct (reset x) eqn:R; [destruct (B eq_refl) as [Q _]; rewrite Q in H; discriminate|].
    exists []. rewrite (A eq_refl) in S. rewrite app_nil_r. repeat split; congruence.
  - injection E as <- <- <-. now exists r.
  - injection E as <- <- <-. cbn. now exists r.
  - destruct (negb e && has (skipn k (pending x))); injection E as <- <- <-; cbn; now exists r.
  - injection E as <- <- <-. now exists r.
  - injection E as <- <- <-. now exists r.
  - injection E as <- <- <-. now exists r.
  - injection E as <- <- <-. now exists r.
Qed.
Lemma acts_ordered l : forall x s e x' s' e', acts l (x, s, e) = (x', s', e') -> ordered x -> ordered x'.
Proof.
  induction l as [|a l IH]; cbn; intros x s e x' s' e' E O; [now injection E as <- <- <-|].
  destruct (act_does a (x, s, e)) as [[x1 s1] e1] eqn:Q. apply (IH _ _ _ _ _ _ E). destruct a as [c|p]; cbn in Q.
  - exact (calls_ordered _ _ _ _ _ _ _ Q O).
  - injection Q as <- <- <-. now apply peer_ordered.
Qed.
Lemma rearm_same mf x s e : rx (rearm mf (x, s, e)) = rx x /\ fin (rearm mf (x, s, e)) = fin x /\ reset (rearm mf (x, s, e)) = reset x /\
  sent (rearm mf (x, s, e)) = sent x /\ got (rearm mf (x, s, e)) = got x /\ pending (rearm mf (x, s, e)) = pending x.
Proof. unfold rearm. destruct (must_close s || e); [|destruct mf]; cbn; repeat split. Qed.

Definition start (x : conn) : conn :=
  {| rx := rx x; fin := fin x; reset := reset x; sent := sent x; armed_in := false; armed_out := false;
     kept := kept x; closed := closed x; closed_err := closed_err x; got := got x; pending := pending x |}.
Definition done (cw er : bool) (l : list act) (x : conn) : conn * state * bool :=
  if is_called (bits cw x) then acts l (start x, bits cw x, er) else (start x, bits cw x, er).
Lemma event_done cw er mf l x : event cw er mf l x = rearm mf (done cw er l x).
Proof. reflexivity. Qed.

Lemma event_ordered cw er mf l x : ordered x -> ordered (event cw er mf l x).
Proof.
  intros O. rewrite event_done. destruct (done cw er l x) as [[y s] e] eqn:D.
  assert (Y : ordered y).
  { unfold done in D. destruct (is_called (bits cw x)).
    - apply (acts_ordered _ _ _ _ _ _ _ D). exact O.
    - injection D as <- <- <-. exact O. }
  destruct (rearm_same mf y s e) as (R1 & R2 & R3 & R4 & R5 & R6). unfold ordered. now rewrite R1, R2, R3, R4, R5.
Qed.
Lemma runs_ordered B f w x : runs B f (accepted w) x -> ordered x.
Proof.
  intros R. remember (accepted w) as a eqn:Ea. induction R as [z|z y p R IH C|z y cw er mf l R IH C]; subst.
  - exists []. cbn. repeat split; congruence.
  - apply peer_ordered; auto.
  - apply event_ordered; auto.
Qed.

(** The state during a call: what only grows. *)
Lemma calls_state c x s e x' s' e' : calls c (x, s, e) = (x', s', e') ->
  rd s' = rd s /\ wr s' = wr s /\ (read_asap s = true -> read_asap s' = true) /\ (write_asap s = true -> write_asap s' = true) /\
  (reof s = true -> reof s' = true) /\ (weof s = true -> weof s' = true) /\
  (c = Read -> read_asap s' = true) /\
  (reof s' = true -> reof s = true \/ c = CloseIt \/ c = Read /\ fin x = true /\ rx x = []) /\
  (weof s' = true -> weof s = true \/ c = CloseIt) /\
  (e = true -> e' = true) /\ (e' = true -> e = true \/ c = ReadFails \/ c = FlushFails) /\
  fin x' = fin x /\ reset x' = reset x /\ closed x' = closed x.
Proof.
  destruct c; cbn; intros E.
  - destruct (has (rx x)) eqn:H; [|destruct (fin x) eqn:F]; injection E as <- <- <-; cbn; repeat split; auto.
    intros _. right. right. apply has_nil in H. auto.
  - injection E as <- <- <-; cbn; repeat split; auto; congruence.
  - injection E as <- <- <-; cbn; repeat split; auto; congruence.
  - destruct (negb e && has (skipn k (pending x))); injection E as <- <- <-; cbn; repeat split; auto; congruence.
  - injection E as <- <- <-; cbn; repeat split; auto; congruence.
  - injection E as <- <- <-; cbn; repeat split; auto; congruence.
  - injection E as <- <- <-; cbn; repeat split; auto; congruence.
  - injection E as <- <- <-; cbn; repeat split; auto; congruence.
Qed.
Lemma acts_grow l : forall x s e x' s' e', acts l (x, s, e) = (x', s', e') ->
  rd s' = rd s /\ wr s' = wr s /\ (read_asap s = true -> read_asap s' = true) /\ (write_asap s = true -> write_asap s' = true) /\
  (reof s = true -> reof s' = true) /\ (weof s = true -> weof s' = true) /\
  (In (Prog Read) l -> read_asap s' = true) /\
  (weof s' = true -> weof s = true \/ In (Prog CloseIt) l) /\
  (reof s' = true -> reof s = true \/ In (Prog CloseIt) l \/ In (Prog Read) l) /\
  (e' = true -> e = true \/ In (Prog ReadFails) l \/ In (Prog FlushFails) l) /\
  (fin x = true -> fin x' = true) /\ (reset x = true -> reset x' = true) /\ closed x' = closed x.
Proof.
  induction l as [|a l IH]; cbn; intros x s e x' s' e' E; [injection E as <- <- <-; repeat split; auto; tauto|].
  destruct (act_does a (x, s, e)) as [[x1 s1] e1] eqn:Q.
  destruct (IH _ _ _ _ _ _ E) as (A1 & A2 & A3 & A4 & A5 & A6 & A7 & A8 & A9 & A10 & A11 & A12 & A13).
  destruct a as [c|p]; cbn in Q.
  - destruct (calls_state _ _ _ _ _ _ _ Q) as (B1 & B2 & B3 & B4 & B5 & B6 & B7 & B8 & B9 & B10 & B11 & B12 & B13 & B14).
    rewrite A1, A2, A13, B12, B13, B14 in *. repeat split; auto.
    + intros [H|H]; [injection H as ->; auto|auto].
    + intros H. destruct (A8 H) as [K|K]; [|tauto]. destruct (B9 K) as [K'|K']; [tauto|]. subst; tauto.
    + intros H. destruct (A9 H) as [K|[K|K]]; [|tauto|tauto]. destruct (B8 K) as [K'|[K'|[K' _]]]; [tauto|subst; tauto|subst; tauto].
    + intros H. destruct (A10 H) as [K|[K|K]]; [|tauto|tauto]. destruct (B11 K) as [K'|[K'|K']]; [tauto|subst; tauto|subst; tauto].
  - injection Q as <- <- <-. destruct (peer_keeps p x) as (_ & _ & _ & K & _).
    rewrite A1, A2, A13, K. repeat split; auto.
    + intros [H|H]; [discriminate|auto].
    + intros H. destruct (A8 H); tauto.
    + intros H. destruct (A9 H) as [|[|]]; tauto.
    + intros H. destruct (A10 H) as [|[|]]; tauto.
    + intros F. apply A11. now rewrite (peer_fin p x F).
    + intros F. apply A12. unfold peer_does. destruct (fin x); auto. destruct p; auto.
Qed.

(** Input.  [K]: once the end was seen, everything was read. *)
Lemma acts_input l : forall x s e x' s' e', acts l (x, s, e) = (x', s', e') -> reset x' = false -> ~ In (Prog CloseIt) l ->
  (reof s = true -> fin x = true /\ (rx x = [] \/ In (Prog Read) l)) ->
  (reof s' = true -> fin x' = true /\ rx x' = []).
Proof.
  induction l as [|a l IH]; cbn; intros x s e x' s' e' E R C K; [injection E as <- <- <-; intros H; destruct (K H) as [A [B|[]]]; auto|].
  destruct (act_does a (x, s, e)) as [[x1 s1] e1] eqn:Q.
  apply (IH _ _ _ _ _ _ E R); [tauto|]. destruct a as [c|p]; cbn in Q.
  - destruct (calls_state _ _ _ _ _ _ _ Q) as (B1 & B2 & B3 & B4 & B5 & B6 & B7 & B8 & B9 & B10 & B11 & B12 & B13 & B14). intros H.
    destruct (B8 H) as [H0|[->|(-> & F & X)]]; [|exfalso; apply C; auto|].
    + destruct (K H0) as [F X]. rewrite B12. split; [exact F|].
      destruct c; cbn in Q.
      * left. destruct (has (rx x)) eqn:Y; [injection Q as <- <- <-; reflexivity|]. rewrite F in Q. injection Q as <- <- <-. now apply has_nil.
      * injection Q as <- <- <-. destruct X as [|[?|]]; auto; discriminate.
      * injection Q as <- <- <-. destruct X as [|[?|]]; auto; discriminate.
      * destruct (negb e && has (skipn k (pending x))); injection Q as <- <- <-; destruct X as [|[?|]]; auto; discriminate.
      * injection Q as <- <- <-. destruct X as [|[?|]]; auto; discriminate.
      * injection Q as <- <- <-. destruct X as [|[?|]]; auto; discriminate.
      * injection Q as <- <- <-. destruct X as [|[?|]]; auto; discriminate.
      * injection Q as <- <- <-. destruct X as [|[?|]]; auto; discriminate.
    + cbn in Q. rewrite X, F in Q. cbn in Q. injection Q as <- <- <-. auto.
  - injection Q as <- <- <-. intros H. destruct (K H) as [F X]. rewrite (peer_fin p x F). split; [exact F|].
    destruct X as [X|[X|X]]; auto. discriminate.
Qed.

(** After a read, all that had been sent before was got. *)
Lemma prefix_refl a : prefix a a. Proof. exists []. now rewrite app_nil_r. Qed.
Lemma prefix_trans a b c : prefix a b -> prefix b c -> prefix a c.
Proof. intros [r ->] [q ->]. exists (r ++ q). now rewrite app_assoc. Qed.
Lemma acts_got l : forall x s e x' s' e', acts l (x, s, e) = (x', s', e') -> prefix (got x) (got x') /\ prefix (sent x) (sent x').
Proof.
  induction l as [|a l IH]; cbn; intros x s e x' s' e' E; [injection E as <- <- <-; split; apply prefix_refl|].
  destruct (act_does a (x, s, e)) as [[x1 s1] e1] eqn:Q. destruct (IH _ _ _ _ _ _ E) as [P1 P2].
  assert (H : prefix (got x) (got x1) /\ prefix (sent x) (sent x1)).
  { destruct a as [c|p]; cbn in Q.
    - destruct c; cbn in Q.
      + destruct (has (rx x)); [|destruct (fin x)]; injection Q as <- <- <-; cbn; split; try apply prefix_refl. now exists (rx x).
      + injection Q as <- <- <-; split; apply prefix_refl.
      + injection Q as <- <- <-; split; apply prefix_refl.
      + destruct (negb e && has (skipn k (pending x))); injection Q as <- <- <-; split; apply prefix_refl.
      + injection Q as <- <- <-; split; apply prefix_refl.
      + injection Q as <- <- <-; split; apply prefix_refl.
      + injection Q as <- <- <-; split; apply prefix_refl.
      + injection Q as <- <- <-; split; apply prefix_refl.
    - injection Q as <- <- <-. destruct (peer_keeps p x) as (_ & _ & _ & _ & G & _). rewrite G. split; [apply prefix_refl|].
      unfold peer_does. destruct (fin x); [apply prefix_refl|]. destruct p; cbn; try apply prefix_refl. now exists data. }
  destruct H. split; eapply prefix_trans; eauto.
Qed.
Lemma acts_read l : forall x s e x' s' e', acts l (x, s, e) = (x', s', e') -> ordered x -> reset x' = false ->
  In (Prog Read) l -> prefix (sent x) (got x').
Proof.
  induction l as [|a l IH]; cbn; intros x s e x' s' e' E O R I; [destruct I|].
  destruct (act_does a (x, s, e)) as [[x1 s1] e1] eqn:Q.
  assert (R1 : reset x1 = false).
  { destruct (acts_grow _ _ _ _ _ _ _ E) as (_ & _ & _ & _ & _ & _ & _ & _ & _ & _ & _ & H & _). destruct (reset x1); auto. rewrite H in R; congruence. }
  assert (O1 : ordered x1). { apply (@acts_ordered [a] x s e x1 s1 e1); [cbn; now rewrite Q|exact O]. }
  destruct I as [->|I].
  - cbn in Q. destruct (acts_got _ _ _ _ _ _ _ E) as [P _]. eapply prefix_trans; [|exact P].
    assert (RX : rx x1 = []). { destruct (has (rx x)) eqn:H; [|destruct (fin x)]; injection Q as <- <- <-; cbn; auto; now apply has_nil. }
    assert (SS : sent x1 = sent x). { destruct (has (rx x)); [|destruct (fin x)]; injection Q as <- <- <-; reflexivity. }
    destruct O1 as (r & S & A & B). rewrite (A R1), RX, app_nil_r in S. rewrite <- S, SS. apply prefix_refl.
  - assert (P : prefix (sent x) (sent x1)). { apply (@acts_got [a] x s e x1 s1 e1). cbn; now rewrite Q. }
    eapply prefix_trans; [exact P|]. eapply IH; eauto.
Qed.


Lemma must_close_reader s : must_close s = true -> (rd s = true -> read_asap s = true) -> reof s = true.
Proof. unfold must_close. destruct (reof s); auto. destruct (rd s); cbn; [|discriminate]. intros H K. rewrite K in H by auto. discriminate. Qed.

(** What holds between events. *)
Record inv (x : conn) : Prop := {
  i_open : closed x = false -> s_reof (kept x) = false -> armed_in x = true;
  i_reof : closed x = false -> s_reof (kept x) = true -> fin x = true /\ rx x = [];
  i_weof : closed x = false -> s_weof (kept x) = false;
  i_end : closed x = true -> fin x = true /\ rx x = []
}.

Lemma event_inv cw l x : ordered x -> closed x = false -> reset (event cw false false l x) = false -> inv x ->
  (is_called (bits cw x) = true -> good_reader (rd (bits cw x)) (wr (bits cw x)) l) -> inv (event cw false false l x).
Proof.
  intros O C RS [I1 I2 I3 I4] G. rewrite event_done in *. destruct (done cw false l x) as [[y s] e] eqn:D.
  destruct (rearm_same false y s e) as (R1 & R2 & R3 & R4 & R5 & R6). rewrite R3 in RS.
  assert (Rx : reset x = false).
  { unfold done in D. destruct (is_called (bits cw x)).
    - destruct (acts_grow _ _ _ _ _ _ _ D) as (_ & _ & _ & _ & _ & _ & _ & _ & _ & _ & _ & H & _). destruct (reset x) eqn:Q; auto. cbn in H. rewrite H in RS; auto.
    - injection D as <- <- <-. exact RS. }
  assert (K : reof (bits cw x) = true -> fin x = true /\ (rx x = [] \/ rd (bits cw x) = true)).
  { cbn. destruct (s_reof (kept x)) eqn:S.
    - intros _. destruct (I2 C eq_refl). auto.
    - cbn. intros F. split; auto. right. rewrite (I1 C eq_refl), F. cbn. rewrite !orb_true_r. reflexivity. }
  assert (Z : e = false /\ (rd s = true -> read_asap s = true) /\ weof s = false /\ (reof s = true -> fin y = true /\ rx y = [])).
  { unfold done in D. destruct (is_called (bits cw x)) eqn:IC.
    - destruct (G eq_refl) as (G1 & G2 & G3 & G4).
      destruct (acts_grow _ _ _ _ _ _ _ D) as (A1 & A2 & A3 & A4 & A5 & A6 & A7 & A8 & A9 & A10 & A11 & A12 & A13). repeat split.
      + destruct e; auto. destruct (A10 eq_refl) as [|[|]]; [discriminate|tauto|tauto].
      + rewrite A1. intros H. apply A7, G1, H.
      + destruct (weof s); auto. destruct (A8 eq_refl) as [H|]; [|tauto]. cbn in H. rewrite (I3 C), Rx in H. discriminate.
      + eapply (acts_input l); eauto. intros HH. destruct (K HH) as [F [X|X]]; cbn; auto.
      + eapply (acts_input l); eauto. intros HH. destruct (K HH) as [F [X|X]]; cbn; auto.
    - injection D as <- <- <-. unfold is_called in IC. apply orb_false_iff in IC. destruct IC as [ic1 ic2]. repeat split.
      + rewrite ic1; discriminate.
      + cbn. now rewrite (I3 C), Rx.
      + now apply K.
      + destruct (K H) as [_ [X|X]]; [exact X|congruence]. }
  destruct Z as (-> & Z1 & Z2 & Z3).
  unfold rearm in *. destruct (must_close s) eqn:M; cbn.
  - constructor; cbn; try discriminate. intros _. apply Z3. now apply must_close_reader.
  - constructor; cbn; try discriminate; auto.
    intros _ H. rewrite H. cbn. destruct (rd s); cbn; [now rewrite Z1|now rewrite orb_true_r].
Qed.
Lemma reset_peer p x : reset (peer_does p x) = false -> reset x = false.
Proof. unfold peer_does. destruct (fin x); auto. destruct p; cbn; auto; discriminate. Qed.
Lemma done_reset cw er l x y s e : done cw er l x = (y, s, e) -> reset y = false -> reset x = false.
Proof.
  unfold done. destruct (is_called (bits cw x)).
  - intros D RS. destruct (acts_grow _ _ _ _ _ _ _ D) as (_ & _ & _ & _ & _ & _ & _ & _ & _ & _ & _ & H & _). destruct (reset x) eqn:Q; auto. cbn in H. rewrite H in RS; auto.
  - intros [= <- <- <-]. auto.
Qed.
Lemma event_reset cw er mf l x : reset (event cw er mf l x) = false -> reset x = false.
Proof.
  rewrite event_done. destruct (done cw er l x) as [[y s] e] eqn:D. destruct (rearm_same mf y s e) as (_ & _ & R & _). rewrite R.
  exact (done_reset _ _ _ _ _ _ _ D).
Qed.
Lemma runs_inv w x : runs good_reader false (accepted w) x -> reset x = false -> inv x.
Proof.
  intros R. remember (accepted w) as a eqn:Ea. induction R as [z|z y p R IH C|z y cw er mf l R IH C F E G]; subst; intros RS.
  - constructor; cbn; auto; discriminate.
  - destruct (IH eq_refl (reset_peer _ _ RS)) as [I1 I2 I3 I4]. destruct (peer_keeps p y) as (K1 & K2 & K3 & K4 & _).
    constructor; rewrite ?K1, ?K3, ?K4; auto.
    + intros _ H. destruct (I2 C H) as [A B]. now rewrite (peer_fin p y A).
    + congruence.
  - destruct (F eq_refl) as [-> ->]. apply event_inv; auto.
    + eapply runs_ordered; eauto.
    + apply IH; auto. exact (event_reset _ _ _ _ _ RS).
Qed.

(** Output. *)
Lemma acts_app l1 : forall l2 w, acts (l1 ++ l2) w = acts l2 (acts l1 w).
Proof. induction l1; cbn; auto. Qed.
Lemma acts_flush l k x s e x' s' e' : acts (l ++ [Prog (Flush k)]) (x, s, e) = (x', s', e') -> e' = false ->
  pending x' = [] \/ write_asap s' = true.
Proof.
  rewrite acts_app. destruct (acts l (x, s, e)) as [[y t] f]. cbn.
  destruct (negb f && has (skipn k (pending y))) eqn:Q; intros [= <- <- <-] E; cbn; auto.
  subst f. cbn in Q. left. now apply has_nil.
Qed.

Record oinv (x : conn) : Prop := {
  o_inv : inv x;
  o_rd : closed x = false -> s_reof (kept x) = true -> s_rd (kept x) = true;
  o_out : closed x = false -> pending x <> [] -> armed_out x = true;
  o_end : closed x = true -> pending x = []
}.
Lemma event_oinv cw l x : ordered x -> closed x = false -> reset (event cw false false l x) = false -> oinv x ->
  (is_called (bits cw x) = true -> good_server (rd (bits cw x)) (wr (bits cw x)) l) -> oinv (event cw false false l x).
Proof.
  intros O C RS [J I2 I3 I4] G.
  assert (G' : is_called (bits cw x) = true -> good_reader (rd (bits cw x)) (wr (bits cw x)) l). { intros H. now destruct (G H). }
  pose proof (@event_inv cw l x O C RS J G') as J'. destruct J as [A1 A2 A3 A4].
  rewrite event_done in *. destruct (done cw false l x) as [[y s] e] eqn:D.
  destruct (rearm_same false y s e) as (R1 & R2 & R3 & R4 & R5 & R6). rewrite R3 in RS. pose proof (done_reset _ _ _ _ _ _ _ D RS) as Rx.
  assert (RE : reof (bits cw x) = true -> rd (bits cw x) = true).
  { cbn. destruct (s_reof (kept x)) eqn:S.
    - intros _. now rewrite (I2 C eq_refl).
    - cbn. intros F. rewrite (A1 C eq_refl), F. cbn. now rewrite !orb_true_r. }
  assert (Z : e = false /\ weof s = false /\ (reof s = true -> rd s = true) /\
              (pending y = [] \/ write_asap s = true \/ wr s = false /\ reof s = false)).
  { unfold done in D. destruct (is_called (bits cw x)) eqn:IC.
    - destruct (G eq_refl) as ((G1 & G2 & G3 & G4) & G5 & (l' & k & ->)).
      destruct (acts_grow _ _ _ _ _ _ _ D) as (B1 & B2 & B3 & B4 & B5 & B6 & B7 & B8 & B9 & B10 & B11 & B12 & B13).
      assert (E : e = false). { destruct e; auto. destruct (B10 eq_refl) as [|[|]]; [discriminate|tauto|tauto]. }
      repeat split; auto.
      + destruct (weof s); auto. destruct (B8 eq_refl) as [H|]; [|tauto]. cbn in H. rewrite (A3 C), Rx in H. discriminate.
      + rewrite B1. intros H. destruct (B9 H) as [H'|[H'|H']]; [auto|tauto|].
        destruct (rd (bits cw x)) eqn:Q; auto. now apply G5 in H'.
      + destruct (acts_flush _ _ _ _ _ _ _ _ D E); auto.
    - injection D as <- <- <-. unfold is_called in IC. apply orb_false_iff in IC. destruct IC as [ic1 ic2]. repeat split; auto.
      + cbn. now rewrite (A3 C), Rx.
      + right. right. split; auto. destruct (reof (bits cw x)) eqn:Q; auto. rewrite RE in ic1; auto. }
  destruct Z as (-> & Z1 & Z2 & Z3).
  unfold rearm in *. destruct (must_close s) eqn:M; cbn in *.
  - constructor; cbn; auto; try discriminate. intros _. destruct Z3 as [Z3|[Z3|[Z3 Z4]]]; auto.
    + unfold must_close in M. rewrite Z1, Z3 in M. cbn in M. destruct (reof s) eqn:Q; [discriminate|].
      exfalso. destruct (rd s) eqn:Q2; [|discriminate]. cbn in M.
      assert (closed y = false \/ True) by auto.
      (* told and did not read: excluded *)
      unfold done in D. destruct (is_called (bits cw x)) eqn:IC.
      * destruct (G eq_refl) as ((G1 & _) & _). destruct (acts_grow _ _ _ _ _ _ _ D) as (B1 & _ & _ & _ & _ & _ & B7 & _).
        rewrite B7 in M; [discriminate|]. apply G1. rewrite Q2 in B1. symmetry. exact B1.
      * injection D as <- <-. unfold is_called in IC. now rewrite Q2 in IC.
    + exfalso. unfold must_close in M. rewrite Z4 in M. destruct (rd s) eqn:Q2; [|discriminate]. cbn in M.
      unfold done in D. destruct (is_called (bits cw x)) eqn:IC.
      * destruct (G eq_refl) as ((G1 & _) & _). destruct (acts_grow _ _ _ _ _ _ _ D) as (B1 & _ & _ & _ & _ & _ & B7 & _).
        rewrite B7 in M; [discriminate|]. apply G1. rewrite Q2 in B1. symmetry. exact B1.
      * injection D as <- <-. unfold is_called in IC. now rewrite Q2 in IC.
  - constructor; cbn; auto; try discriminate.
    + intros _ H. rewrite H. cbn. auto.
    + intros _ P. rewrite Z1. cbn. destruct Z3 as [Z3|[Z3|[Z3 Z4]]]; [tauto|now rewrite Z3|rewrite Z3; now rewrite orb_true_r].
Qed.
Lemma runs_weaken (A B : behaviour) f x y : (forall r w l, A r w l -> B r w l) -> runs A f x y -> runs B f x y.
Proof. intros H R. induction R; [constructor|constructor; auto|econstructor; eauto]. Qed.
Lemma runs_oinv w x : runs good_server false (accepted w) x -> reset x = false -> oinv x.
Proof.
  intros R. remember (accepted w) as a eqn:Ea. induction R as [z|z y p R IH C|z y cw er mf l R IH C F E G]; subst; intros RS.
  - constructor; [constructor|..]; cbn; auto; try discriminate.
  - destruct (IH eq_refl (reset_peer _ _ RS)) as [J I2 I3 I4]. destruct (peer_keeps p y) as (K1 & K2 & K3 & K4 & K5 & K6).
    constructor; rewrite ?K1, ?K2, ?K3, ?K4, ?K6; auto.
    apply (@runs_inv w); auto. constructor; auto. apply (@runs_weaken good_server good_reader); auto. intros r0 w0 l0 [H _]; exact H.
  - destruct (F eq_refl) as [-> ->]. apply event_oinv; auto.
    + eapply runs_ordered; eauto.
    + apply IH; auto. exact (event_reset _ _ _ _ _ RS).
Qed.

(** Any program, with any errors: what the kept state means. *)
Record base (x : conn) : Prop := {
  b_reof : closed x = false -> s_reof (kept x) = true -> fin x = true;
  b_weof : closed x = false -> s_weof (kept x) = false;
  b_reset : reset x = true -> fin x = true
}.
Lemma acts_reof l : forall x s e x' s' e', acts l (x, s, e) = (x', s', e') ->
  (reof s = true -> fin x = true \/ weof s = true) -> (reof s' = true -> fin x' = true \/ weof s' = true).
Proof.
  induction l as [|a l IH]; cbn; intros x s e x' s' e' E K; [now injection E as <- <- <-|].
  destruct (act_does a (x, s, e)) as [[x1 s1] e1] eqn:Q.
  apply (IH _ _ _ _ _ _ E). destruct a as [c|p]; cbn in Q.
  - destruct (calls_state _ _ _ _ _ _ _ Q) as (B1 & B2 & B3 & B4 & B5 & B6 & B7 & B8 & B9 & B10 & B11 & B12 & B13 & B14). intros H.
    rewrite B12. destruct (B8 H) as [H0|[->|(-> & F & X)]]; auto.
    + destruct (K H0); auto.
    + cbn in Q. injection Q as <- <- <-. auto.
  - injection Q as <- <- <-. intros H. destruct (K H) as [F|F]; auto. rewrite (peer_fin p x F). auto.
Qed.
Lemma acts_weof l : forall x s e x' s' e', acts l (x, s, e) = (x', s', e') ->
  (weof s = true -> reof s = true) -> (weof s' = true -> reof s' = true).
Proof.
  induction l as [|a l IH]; cbn; intros x s e x' s' e' E K; [now injection E as <- <- <-|].
  destruct (act_does a (x, s, e)) as [[x1 s1] e1] eqn:Q.
  apply (IH _ _ _ _ _ _ E). destruct a as [c|p]; cbn in Q.
  - destruct (calls_state _ _ _ _ _ _ _ Q) as (B1 & B2 & B3 & B4 & B5 & B6 & B7 & B8 & B9 & B10 & B11 & B12 & B13 & B14). intros H.
    destruct (B9 H) as [H0| ->]; auto. cbn in Q. injection Q as <- <- <-. reflexivity.
  - now injection Q as <- <- <-.
Qed.
Lemma acts_reset l : forall x s e x' s' e', acts l (x, s, e) = (x', s', e') ->
  (reset x = true -> fin x = true) -> (reset x' = true -> fin x' = true).
Proof.
  induction l as [|a l IH]; cbn; intros x s e x' s' e' E K; [now injection E as <- <- <-|].
  destruct (act_does a (x, s, e)) as [[x1 s1] e1] eqn:Q.
  apply (IH _ _ _ _ _ _ E). destruct a as [c|p]; cbn in Q.
  - destruct (calls_state _ _ _ _ _ _ _ Q) as (B1 & B2 & B3 & B4 & B5 & B6 & B7 & B8 & B9 & B10 & B11 & B12 & B13 & B14). now rewrite B12, B13.
  - injection Q as <- <- <-. unfold peer_does. destruct (fin x) eqn:F; [now rewrite F|]. destruct p; cbn; auto.
Qed.
Lemma done_facts cw er l x y s e : base x -> closed x = false -> done cw er l x = (y, s, e) ->
  (reof s = true -> fin y = true \/ weof s = true) /\ (weof s = true -> reof s = true) /\ (reset y = true -> fin y = true) /\ closed y = false /\
  rd s = rd (bits cw x) /\ wr s = wr (bits cw x).
Proof.
  intros [B1 B2 B3] C. unfold done. destruct (is_called (bits cw x)); intros D.
  - repeat split.
    + apply (acts_reof _ _ _ _ _ _ _ D). cbn. destruct (s_reof (kept x)) eqn:Q; auto.
    + apply (acts_weof _ _ _ _ _ _ _ D). cbn. rewrite (B2 C). cbn. intros H. rewrite (B3 H). apply orb_true_r.
    + apply (acts_reset _ _ _ _ _ _ _ D). exact B3.
    + destruct (acts_grow _ _ _ _ _ _ _ D) as (_ & _ & _ & _ & _ & _ & _ & _ & _ & _ & _ & _ & K). rewrite K. exact C.
    + now destruct (acts_grow _ _ _ _ _ _ _ D) as (K & _).
    + now destruct (acts_grow _ _ _ _ _ _ _ D) as (_ & K & _).
  - injection D as <- <- <-. repeat split; cbn; auto.
    + destruct (s_reof (kept x)) eqn:Q; auto.
    + rewrite (B2 C). cbn. intros H. rewrite (B3 H). apply orb_true_r.
Qed.
Lemma not_closed mf y s e : closed (rearm mf (y, s, e)) = false -> must_close s = false /\ e = false /\ mf = false.
Proof. unfold rearm. destruct (must_close s), e; cbn; try discriminate. destruct mf; cbn; auto; discriminate. Qed.
Lemma weof_closes s : (weof s = true -> reof s = true) -> must_close s = false -> weof s = false.
Proof. unfold must_close. destruct (weof s), (reof s); cbn; auto. intros H; now discriminate H. Qed.
Lemma event_base cw er mf l x : base x -> closed x = false -> base (event cw er mf l x).
Proof.
  intros B C. rewrite event_done. destruct (done cw er l x) as [[y s] e] eqn:D.
  destruct (done_facts _ _ _ _ _ _ _ B C D) as (F1 & F2 & F3 & F4 & F5).
  destruct (rearm_same mf y s e) as (R1 & R2 & R3 & R4 & R5 & R6).
  constructor; rewrite ?R2, ?R3; auto; intros Z; destruct (not_closed _ _ _ _ Z) as (M & -> & ->); unfold rearm; rewrite M; cbn.
  - intros H. destruct (F1 H) as [|W]; auto. rewrite (weof_closes _ F2 M) in W. discriminate.
  - now apply weof_closes.
Qed.
Lemma runs_base B f w x : runs B f (accepted w) x -> base x.
Proof.
  intros R. remember (accepted w) as a eqn:Ea. induction R as [z|z y p R IH C|z y cw er mf l R IH C F E G]; subst.
  - constructor; cbn; discriminate || auto.
  - destruct (IH eq_refl) as [B1 B2 B3]. destruct (peer_keeps p y) as (K1 & K2 & K3 & K4 & _).
    constructor; rewrite ?K3, ?K4; auto.
    + intros _ H. pose proof (B1 C H) as A. now rewrite (peer_fin p y A).
    + unfold peer_does. destruct (fin y) eqn:Q; [now rewrite Q|]. destruct p; cbn; auto.
  - apply event_base; auto.
Qed.
Lemma peer_arrives p y : p = Finish \/ p = Reset \/ (exists d, d <> [] /\ p = Send d) -> has (rx (peer_does p y)) || fin (peer_does p y) = true.
Proof.
  unfold peer_does. destruct (fin y) eqn:F; [rewrite F; now rewrite orb_true_r|].
  intros [->|[->|(d & N & ->)]]; cbn; try apply orb_true_r; try reflexivity. destruct (rx y), d; cbn; auto; congruence.
Qed.
