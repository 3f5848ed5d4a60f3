(** The invariant is kept by every step. *)
From Coq Require Import List Arith Bool Lia.
Import ListNotations.
From Verif Require Import PeriodicW_model PeriodicW_spec PeriodicW_proofs1.

Lemma inv_launch : forall s c t, Inv s -> ctl s c = CStart -> thr s = None -> held s = false -> t = next s ->
  Inv (setC (mkS (flag s) (wake s) (Some t) false (S t) (upd (ths s) t TNew) (nc s) (ctl s)) c (CStartR true)).
Proof.
  intros s c t I C T Hd ->. pose proof (in_nc s c I ltac:(congruence)) as L.
  apply inv_setC; [|assumption|cbn; now rewrite C|discriminate].
  pose proof (i_none s I T) as Fl. pose proof (i_ws s I) as W. unfold cnt in W. rewrite Fl, T in W.
  destruct I as [A B C' D D2 E G H J _]. constructor; cbn; unfold upd; intros.
  - destruct (Nat.eqb_spec t (next s)) as [Z|]; [congruence|]. apply A. congruence.
  - destruct (Nat.eqb_spec t (next s)) as [Z|]; [lia|]. apply B. lia.
  - injection H0 as <-. lia.
  - destruct (Nat.eqb_spec t (next s)) as [Z|]; [congruence|]. apply D in H0. congruence.
  - discriminate.
  - auto.
  - destruct (G _ _ H0) as (G1 & G2 & G3). destruct (Nat.eqb_spec t (next s)) as [Z|]; [lia|]. repeat split; auto; [intros Q; injection Q; congruence].
  - discriminate.
  - destruct (Nat.eqb_spec t (next s)) as [Z|]; [congruence|]. eauto.
  - unfold cnt; cbn. unfold upd. rewrite Fl, Nat.eqb_refl. cbn. exact W.
Qed.

(** stop raises the flag and goes to wait *)
Lemma inv_raise : forall s c f w s1 t, Inv s -> ctl s c = CStop f -> flag s = false -> thr s = Some t ->
  notify (setFlag s true) w = Some s1 -> Inv (setC s1 c (CWait f false)).
Proof.
  intros s c f w s1 t I C Fl T N.
  (* who is blocked: the worker, or nobody when it has not left its loop *)
  assert (Q : forall u, ths s u = TSleep false -> w = Thread u).
  { intros u U. pose proof (alive s u I ltac:(now rewrite U)) as Al.
    pose proof (i_ws s I) as W. unfold cnt in W. rewrite Fl, Al, U in W. cbn in W. destruct W as (ws & _ & W2 & W3).
    assert (NW : forall d, waiting (ctl s d) = false).
    { intros d. destruct (waiting (ctl s d)) eqn:X; [|reflexivity]. apply W2 in X. destruct ws; [contradiction|discriminate]. }
    apply notify_cases in N. cbn in N. destruct N as [(->&->&N1&_)|[(v & -> & L & V & ->)|(d & g & -> & L & D & ->)]].
    - pose proof (in_next s u I ltac:(congruence)) as L. specialize (N1 u L). rewrite U in N1. discriminate.
    - pose proof (alive s v I ltac:(now rewrite V)). congruence.
    - specialize (NW d). rewrite D in NW. discriminate. }
  assert (W' : exists ws, NoDup ws /\ (forall d, In d ws <-> waiting (upd (ctl s) c (CWait f false) d) = true) /\ length ws = S (cnt s)).
  { destruct (i_ws s I) as (ws & W1 & W2 & W3). exists (c :: ws). split; [|split; [|cbn; congruence]].
    - constructor; [|assumption]. intros X. apply W2 in X. rewrite C in X. discriminate.
    - intros d. cbn. rewrite W2. unfold upd. destruct (Nat.eqb_spec d c) as [->|]; [cbn; tauto|]. split; [intros [?|?]; [congruence|assumption]|tauto]. }
  pose proof (in_nc s c I ltac:(congruence)) as Lc.
  (* first without the notify *)
  assert (K : forall s2, (forall u, ths s2 u <> TSleep false) -> flag s2 = true -> thr s2 = Some t -> held s2 = held s -> next s2 = next s ->
     nc s2 = nc s -> (forall u, exited (ths s2 u) = exited (ths s u)) -> (forall u, ths s2 u = TPre <-> ths s u = TPre) ->
     (forall u, next s <= u -> ths s2 u = TDone) ->
     (forall d, waiting (ctl s2 d) = waiting (ctl s d)) -> (forall d, nc s <= d -> ctl s2 d = CIdle) -> (forall d u, ctl s2 d = CJoin u -> ctl s d = CJoin u) ->
     Inv (setC s2 c (CWait f false))).
  { intros s2 K1 K2 K3 K4 K5 K6 K7 K8 K9 K10 K11 K12. destruct I as [A B C' D D2 E G H J _]. constructor; cbn; intros.
    - rewrite K7. apply A. congruence.
    - apply K9. lia.
    - rewrite K5. apply C'. congruence.
    - rewrite K4. apply K8 in H0. eauto.
    - rewrite K4 in H0. destruct (D2 H0) as [u U]. exists u. now apply K8.
    - unfold upd. destruct (Nat.eqb_spec c0 c) as [->|]; [lia|]. apply K11. lia.
    - unfold upd in H0. destruct (Nat.eqb_spec c0 c); [discriminate|]. apply K12 in H0. destruct (G _ _ H0) as (G1 & G2 & G3).
      rewrite K7, K5. repeat split; auto. congruence.
    - congruence.
    - exfalso. eapply K1; eauto.
    - destruct W' as (ws & W1 & W2 & W3). exists ws. split; [assumption|]. split.
      + intros d. rewrite W2. unfold upd. destruct (Nat.eqb_spec d c); [reflexivity|]. now rewrite K10.
      + rewrite W3. unfold cnt; cbn. rewrite K2, K3, T, Fl, K7. reflexivity. }
  apply notify_cases in N. cbn in N. destruct N as [(->&->&N1&_)|[(v & -> & L & V & ->)|(d & g & -> & L & D & ->)]]; apply K; cbn; auto; try tauto.
  - intros u U. specialize (Q u U). discriminate.
  - intros u. eapply i_nx; eauto.
  - intros d X. eapply i_nc; eauto.
  - intros u. unfold upd. destruct (Nat.eqb_spec u v) as [->|Ne]; [discriminate|]. intros U. specialize (Q u U). congruence.
  - intros u. unfold upd. destruct (Nat.eqb_spec u v) as [->|Ne]; [now rewrite V|reflexivity].
  - intros u. unfold upd. destruct (Nat.eqb_spec u v) as [->|Ne]; [rewrite V; easy|tauto].
  - intros u X. unfold upd. destruct (Nat.eqb_spec u v) as [->|Ne]; [lia|]. eapply i_nx; eauto.
  - intros d X. eapply i_nc; eauto.
  - intros u U. specialize (Q u U). discriminate.
  - intros u. eapply i_nx; eauto.
  - intros e. unfold upd. destruct (Nat.eqb_spec e d) as [->|Ne]; [now rewrite D|reflexivity].
  - intros e X. unfold upd. destruct (Nat.eqb_spec e d) as [->|Ne]; [lia|]. eapply i_nc; eauto.
  - intros e u. unfold upd. destruct (Nat.eqb_spec e d) as [->|Ne]; [discriminate|auto].
Qed.

(** a stop gives up *)
Lemma inv_giveup : forall s c f n, Inv s -> ctl s c = CWait f n -> flag s = true -> Inv (setC (setFlag s false) c (CStopR false)).
Proof.
  intros s c f n I C Fl. pose proof (i_ws s I) as W. unfold cnt in W. rewrite Fl in W. pose proof (in_nc s c I ltac:(congruence)) as Lc.
  destruct I as [A B C' D D2 E G H J _]. constructor; cbn; intros; eauto.
  - unfold upd. destruct (Nat.eqb_spec c0 c) as [->|]; [lia|auto].
  - unfold upd in H0. destruct (Nat.eqb_spec c0 c); [discriminate|eauto].
  - unfold cnt; cbn. eapply ws_leave; [exact W|now rewrite C|reflexivity].
Qed.

(** a worker takes lock_, and lets go of it *)
Lemma inv_enter : forall s t, Inv s -> ths s t = TNew -> held s = false -> Inv (setHeld (setT s t TPre) true).
Proof.
  intros s t I T Hd. pose proof (in_next s t I ltac:(congruence)) as L.
  destruct I as [A B C D D2 E G H J W]. constructor; cbn; unfold upd; intros; auto.
  - destruct (Nat.eqb_spec t0 t) as [Z|]; [subst t0; apply A in H0; rewrite T in H0; discriminate|auto].
  - destruct (Nat.eqb_spec t0 t) as [Z|]; [lia|auto].
  - exists t. now rewrite Nat.eqb_refl.
  - destruct (G _ _ H0) as (G1 & G2 & G3). destruct (Nat.eqb_spec t0 t) as [Z|]; [subst t0; rewrite T in G1; discriminate|auto].
  - destruct (Nat.eqb_spec t0 t) as [Z|]; [discriminate|eauto].
  - destruct W as (ws & W1 & W2 & W3). exists ws. split; [assumption|]. split; [assumption|]. rewrite W3. unfold cnt; cbn. unfold upd.
    destruct (thr s) as [u|]; [|reflexivity]. destruct (Nat.eqb_spec u t) as [->|]; [now rewrite T|reflexivity].
Qed.
Lemma one_pre : forall s t u, Inv s -> ths s t = TPre -> ths s u = TPre -> t = u.
Proof. intros s t u I T U. pose proof (alive s t I ltac:(now rewrite T)). pose proof (alive s u I ltac:(now rewrite U)). congruence. Qed.
Lemma inv_work : forall s t, Inv s -> ths s t = TPre -> Inv (setHeld (setT s t TWork) false).
Proof.
  intros s t I T. pose proof (in_next s t I ltac:(congruence)) as L. pose proof (fun u => one_pre s t u I T) as O.
  destruct I as [A B C D D2 E G H J W]. constructor; cbn; unfold upd; intros; auto.
  - destruct (Nat.eqb_spec t0 t) as [Z|]; [subst t0; apply A in H0; rewrite T in H0; discriminate|auto].
  - destruct (Nat.eqb_spec t0 t) as [Z|]; [lia|auto].
  - destruct (Nat.eqb_spec t0 t) as [Z|]; [discriminate|]. apply O in H0. congruence.
  - discriminate.
  - destruct (G _ _ H0) as (G1 & G2 & G3). destruct (Nat.eqb_spec t0 t) as [Z|]; [subst t0; rewrite T in G1; discriminate|auto].
  - destruct (Nat.eqb_spec t0 t) as [Z|]; [discriminate|eauto].
  - destruct W as (ws & W1 & W2 & W3). exists ws. split; [assumption|]. split; [assumption|]. rewrite W3. unfold cnt; cbn. unfold upd.
    destruct (thr s) as [u|]; [|reflexivity]. destruct (Nat.eqb_spec u t) as [->|]; [now rewrite T|reflexivity].
Qed.

(** a worker leaves its loop *)
Lemma inv_exit : forall s t, Inv s -> exited (ths s t) = false -> flag s = true -> (held s = true -> ths s t = TPre) ->
  Inv (setHeld (setFlag (setT s t TNote) false) false).
Proof.
  intros s t I T Fl Hd. pose proof (in_next s t I ltac:(intros X; now rewrite X in T)) as L. pose proof (alive s t I T) as Al.
  pose proof (i_ws s I) as W. unfold cnt in W. rewrite Fl, Al, T in W. pose proof (fun u => one_pre s t u I) as O.
  destruct I as [A B C D D2 E G H J _]. constructor; cbn; unfold upd; intros; auto.
  - destruct (Nat.eqb_spec t0 t) as [Z|]; [reflexivity|auto].
  - destruct (Nat.eqb_spec t0 t) as [Z|]; [lia|auto].
  - destruct (Nat.eqb_spec t0 t) as [Z|]; [discriminate|]. pose proof (D _ H0) as X. apply Hd in X. specialize (O t0 X H0). congruence.
  - discriminate.
  - destruct (G _ _ H0) as (G1 & G2 & G3). destruct (Nat.eqb_spec t0 t) as [Z|]; auto.
  - unfold cnt; cbn. unfold upd. rewrite Al, Nat.eqb_refl. cbn. exact W.
Qed.

Ltac inv1 H := repeat match type of H with
  | context[match ?x with _ => _ end] => let E := fresh "E" in destruct x eqn:E; try discriminate H
  end; try (apply some_inj in H; subst).
Ltac nc I := apply (in_nc _ _ I); congruence.

Lemma nheld : forall s t k, waitOver s (ths s t) k && negb (held s) && flag s = true -> flag s = true /\ held s = false /\ exited (ths s t) = false.
Proof.
  intros s t k H. apply andb_true_iff in H. destruct H as [H F]. apply andb_true_iff in H. destruct H as [H G]. repeat split; auto.
  - now destruct (held s).
  - destruct (ths s t), k; try reflexivity; discriminate.
Qed.
Lemma exit_gen : forall s t k s', Inv s -> step s (Exit t k) = Some s' -> flag s = true /\ exited (ths s t) = false /\ Inv s' /\
  flag s' = false /\ thr s' = thr s /\ ths s' = upd (ths s) t TNote /\ ctl s' = ctl s /\ held s' = false /\ next s' = next s /\ nc s' = nc s.
Proof.
  intros s t k s' I H. unfold step in H.
  assert (Z : (waitOver s (ths s t) k && negb (held s) && flag s = true /\ s' = setWake (setFlag (setT s t TNote) false) false) \/
     (ths s t = TPre /\ flag s = true /\ s' = setHeld (setFlag (setT s t TNote) false) false)).
  { destruct (ths s t) eqn:T; try (destruct (_ && _ && _) eqn:E in H; [|discriminate]; apply some_inj in H; left; split; [exact E|now symmetry]).
    destruct k; try discriminate. destruct (flag s) eqn:F; [|discriminate]. apply some_inj in H. right. repeat split; auto. }
  destruct Z as [[Z ->]|(T & F & ->)].
  - apply nheld in Z. destruct Z as (F & Hd & X). split; [exact F|]. split; [exact X|]. split; [|cbn; auto 10].
    assert (Q : Inv (setHeld (setFlag (setT s t TNote) false) false)) by (apply inv_exit; auto; congruence).
    apply inv_setWake. clear - Q Hd. destruct s; cbn in *; subst; exact Q.
  - split; [exact F|]. split; [now rewrite T|]. split; [|cbn; auto 10]. apply inv_exit; auto. now rewrite T.
Qed.

Lemma begin_gen : forall s t k s', Inv s -> step s (Begin t k) = Some s' -> flag s = false /\ exited (ths s t) = false /\ Inv s' /\
  flag s' = false /\ thr s' = thr s /\ ths s' = upd (ths s) t TWork /\ ctl s' = ctl s /\ held s' = false /\ next s' = next s /\ nc s' = nc s.
Proof.
  intros s t k s' I H. unfold step in H.
  assert (Z : (waitOver s (ths s t) k && negb (held s) && negb (flag s) = true /\ ths s t <> TPre /\ s' = setWake (setT s t TWork) false) \/
     (ths s t = TPre /\ flag s = false /\ s' = setHeld (setT s t TWork) false)).
  { destruct (ths s t) eqn:T; try (destruct (_ && _ && _) eqn:E in H; [|discriminate]; apply some_inj in H; left; split; [exact E|split; [discriminate|now symmetry]]).
    destruct k; try discriminate. destruct (flag s) eqn:F; [discriminate|]. apply some_inj in H. right. repeat split; auto. }
  destruct Z as [(Z & N & ->)|(T & F & ->)].
  - apply andb_true_iff in Z. destruct Z as [Z F]. apply andb_true_iff in Z. destruct Z as [Z G].
    assert (F' : flag s = false) by (now destruct (flag s)). assert (G' : held s = false) by (now destruct (held s)).
    assert (X : exited (ths s t) = false) by (destruct (ths s t), k; try reflexivity; discriminate).
    split; [exact F'|]. split; [exact X|]. split; [|cbn; auto 10]. apply inv_setWake, inv_setT; auto; try easy. apply (in_next s t I). intros Y; now rewrite Y in X.
  - split; [exact F|]. split; [now rewrite T|]. split; [|cbn; auto 10]. now apply inv_work.
Qed.

Lemma inv_step : forall s e s', Inv s -> step s e = Some s' -> Inv s'.
Proof.
  intros s e s' I H. destruct e as [c z|c|c|c b|c f|c w|c k|c|c b|c|c|c w|c|t|t k|t|t|t|t k|t w].
  - unfold step in H. destruct (ctl s c) eqn:C; try discriminate. destruct (c <? nc s) eqn:L; [|discriminate]. apply Nat.ltb_lt in L. apply some_inj in H. subst s'.
    apply inv_setC; auto; rewrite ?C; destruct z; easy.
  - unfold step in H. destruct (ctl s c) eqn:C; try discriminate. destruct (thr s) eqn:T; try discriminate. destruct (held s) eqn:Hd; try discriminate.
    apply some_inj in H. subst s'. now apply inv_launch.
  - unfold step in H. inv1 H. apply inv_setC; auto; [nc I|now rewrite E|easy].
  - unfold step in H. inv1 H. apply inv_setC; auto; [nc I|now rewrite E|easy].
  - unfold step in H. destruct (ctl s c) eqn:C; try discriminate. destruct (c <? nc s) eqn:L; [|discriminate]. apply Nat.ltb_lt in L. apply some_inj in H. subst s'.
    apply inv_setC; auto; rewrite ?C; easy.
  - unfold step in H. destruct (ctl s c) eqn:C; try discriminate. destruct (held s) eqn:Hd; [discriminate|]. destruct (flag s) eqn:Fl.
    + apply some_inj in H. subst s'. apply inv_setC; auto; [nc I|now rewrite C|easy].
    + destruct (thr s) eqn:T.
      * destruct (notify (setFlag s true) w) eqn:N; [|discriminate]. apply some_inj in H. subst s'. eapply inv_raise; eauto.
      * apply some_inj in H. subst s'. apply inv_setC; auto; [nc I|now rewrite C|easy].
  - unfold step in H. destruct (ctl s c) eqn:C; try discriminate. destruct (held s) eqn:Hd; [discriminate|].
    assert (RW : Inv (setC s c (CWait f false))) by (apply inv_setC; auto; [nc I|now rewrite C|easy]).
    destruct k; [discriminate| | |].
    + destruct n; [|discriminate]. destruct (flag s) eqn:Fl; [apply some_inj in H; now subst|]. exact (proj1 (inv_take _ _ _ _ _ I C Fl H)).
    + destruct (flag s) eqn:Fl; [apply some_inj in H; now subst|]. exact (proj1 (inv_take _ _ _ _ _ I C Fl H)).
    + destruct f; [discriminate|]. destruct (flag s) eqn:Fl; [|exact (proj1 (inv_take _ _ _ _ _ I C Fl H))]. apply some_inj in H; subst s'. eapply inv_giveup; eauto.
  - unfold step in H. inv1 H. apply inv_setC; auto; [nc I|now rewrite E|easy].
  - unfold step in H. inv1 H. apply inv_setC; auto; [nc I|now rewrite E|easy].
  - unfold step in H. destruct (ctl s c) eqn:C; try discriminate. destruct (c <? nc s) eqn:L; [|discriminate]. apply Nat.ltb_lt in L. apply some_inj in H. subst s'.
    apply inv_setC; auto; rewrite ?C; easy.
  - unfold step in H. inv1 H. apply inv_setC; [now apply inv_setWake|cbn; nc I|cbn; now rewrite E|easy].
  - unfold step in H. inv1 H. pose proof (inv_notify _ _ _ I E0) as I1. apply notify_cases in E0.
    destruct E0 as [(->&->&_)|[(t & -> & L & T & ->)|(d & f & -> & L & D & ->)]]; apply inv_setC; auto; cbn; try nc I; try (now rewrite E); try easy.
    unfold upd. destruct (Nat.eqb_spec c d) as [->|]; [congruence|now rewrite E].
  - unfold step in H. inv1 H. apply inv_setC; auto; [nc I|now rewrite E|easy].
  - unfold step in H. inv1 H. now apply inv_enter.
  - now apply begin_gen in H.
  - unfold step in H. inv1 H. apply inv_setT; auto; rewrite ?E; try easy. apply (in_next s t I). congruence.
  - unfold step in H. destruct (ths s t) eqn:T; try discriminate. destruct (held s); [discriminate|]. destruct (wake s || flag s) eqn:Z; [discriminate|]. apply some_inj in H. subst s'.
    apply orb_false_iff in Z. apply inv_setT; auto; rewrite ?T; try easy. apply (in_next s t I). congruence.
  - unfold step in H. destruct (ths s t) eqn:T; try discriminate. destruct (held s); [discriminate|]. destruct (wake s || flag s) eqn:Z; [discriminate|]. apply some_inj in H. subst s'.
    apply orb_false_iff in Z. apply inv_setT; auto; rewrite ?T; try easy. apply (in_next s t I). congruence.
  - now apply exit_gen in H.
  - unfold step in H. inv1 H. pose proof (inv_notify _ _ _ I E0) as I1. apply notify_cases in E0.
    assert (L : t < next s) by (apply (in_next s t I); congruence).
    destruct E0 as [(->&->&_)|[(u & -> & L' & U & ->)|(d & f & -> & L' & D & ->)]]; apply inv_setT; auto; cbn; try (now rewrite E); try easy.
    + unfold upd. destruct (Nat.eqb_spec t u) as [->|]; [congruence|now rewrite E].
    + unfold upd. destruct (Nat.eqb_spec t u) as [->|]; [congruence|now rewrite E].
Qed.

Lemma inv_run : forall es s s', Inv s -> run s es = Some s' -> Inv s'.
Proof.
  induction es as [|e es IH]; intros s s' I H; cbn in H; [congruence|]. destruct (step s e) as [s1|] eqn:E; [|discriminate].
  eapply IH; [|exact H]. eapply inv_step; eauto.
Qed.
Lemma run_app : forall es fs s, run s (es ++ fs) = match run s es with Some s' => run s' fs | None => None end.
Proof. induction es as [|e es IH]; intros fs s; cbn; [reflexivity|]. destruct (step s e); [apply IH|reflexivity]. Qed.
