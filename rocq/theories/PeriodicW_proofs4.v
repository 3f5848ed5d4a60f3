(** A stop that is alone returns; what a stop returns; starting. *)
From Coq Require Import List Arith Bool Lia.
Import ListNotations.
From Verif Require Import PeriodicW_model PeriodicW_spec PeriodicW_proofs1 PeriodicW_proofs2 PeriodicW_proofs3.

Definition uniq (s : state) : Prop := forall c d, stopping s c -> stopping s d -> c = d.
Definition told (s : state) : Prop := forall t, thr s = Some t -> ths s t = TDone -> forall d f n, ctl s d = CWait f n -> n = true.

Lemma stopping_step : forall s e s' d, step s e = Some s' -> stopping s' d -> stopping s d \/ exists f, e = StopCall d f.
Proof.
  intros s e s' d H P.
  assert (D : of e d \/ ~ of e d) by (destruct e; cbn; try tauto; try (destruct (Nat.eq_dec c d); tauto)).
  destruct D as [D|D].
  - unfold stopping in *. destruct e; cbn in D; try contradiction; subst c; try (right; eauto; fail); left;
    unfold step, take in H; destruct (ctl s d) eqn:C; try discriminate; try exact Logic.I; exfalso;
    repeat match type of H with
    | context[match ?x with _ => _ end] => let E := fresh "E" in destruct x eqn:E; try discriminate H
    end; apply some_inj in H; subst s'; cbn in P; rewrite upd_same in P; try contradiction.
  - left. unfold stopping in *. destruct (frame _ _ _ _ H D) as [E|(f & C & E)]; [now rewrite <- E|now rewrite C].
Qed.
Lemma wait_stopping : forall s c, waiting (ctl s c) = true -> stopping s c.
Proof. intros s c W. unfold stopping. destruct (ctl s c); try discriminate. exact Logic.I. Qed.
Lemma cnt_le : forall s, Inv s -> uniq s -> cnt s <= 1.
Proof.
  intros s I U. destruct (i_ws s I) as (ws & W1 & W2 & W3). rewrite <- W3. destruct ws as [|a [|b ws]]; cbn; try lia. exfalso.
  assert (a = b) by (apply U; apply wait_stopping, W2; [now left|right; now left]). subst b. inversion W1 as [|x l X Y]; subst. apply X. now left.
Qed.
Lemma cnt_ex : forall s, Inv s -> 0 < cnt s -> exists c, waiting (ctl s c) = true.
Proof. intros s I L. destruct (i_ws s I) as (ws & W1 & W2 & W3). destruct ws as [|a ws]; [cbn in W3; lia|]. exists a. apply W2. now left. Qed.

Lemma told_step : forall s e s', Inv s -> uniq s -> told s -> step s e = Some s' -> told s'.
Proof.
  intros s e s' I U T H t Th Td d f n C.
  pose proof (cnt_le s I U) as CL.
  destruct (match e with Note u _ => Nat.eqb u t | _ => false end) eqn:En.
  { destruct e; try discriminate. apply Nat.eqb_eq in En. subst t0. unfold step in H. destruct (ths s t) eqn:Ts; try discriminate.
    destruct (notify s w) as [s1|] eqn:N; [|discriminate]. apply some_inj in H. subst s'. cbn in Th, C.
    pose proof N as N'. apply notify_frame in N'. destruct N' as (_ & F2 & _ & _ & F & _).
    apply notify_cases in N. destruct N as [(->&->&_&N2)|[(v & -> & L & V & ->)|(e & g & -> & L & D & ->)]].
    - destruct n; [reflexivity|]. pose proof (in_nc s d I ltac:(congruence)) as L. specialize (N2 d L). rewrite C in N2. discriminate.
    - pose proof (alive s v I ltac:(now rewrite V)). cbn in Th. congruence.
    - cbn in C. unfold upd in C. destruct (Nat.eqb_spec d e) as [->|Ne]; [congruence|]. exfalso. apply Ne. apply U; apply wait_stopping; [now rewrite C|now rewrite D]. }
  (* the thread was already gone *)
  assert (B : thr s = Some t /\ ths s t = TDone).
  { destruct e as [e z|e|e|e b|e f'|e w|e k|e|e b|e|e|e w|e|u|u k|u|u|u|u k|u w].
    all: try (lazymatch goal with H0 : step _ (Exit _ _) = _ |- _ => fail | H0 : step _ (Begin _ _) = _ |- _ => fail | _ => idtac end; unfold step, take in H; repeat match type of H with
    | context[match notify ?x ?w with _ => _ end] => let E := fresh "NT" in destruct (notify x w) eqn:E; try discriminate H
    | context[match ?x with _ => _ end] => let E := fresh "E" in destruct x eqn:E; try discriminate H
    end; apply some_inj in H; subst s'; cbn in Th, Td; try discriminate; try (split; congruence)).
    all: try (match goal with NT : notify _ _ = Some _ |- _ => apply notify_frame in NT; destruct NT as (_ & F2 & _ & _ & _ & F); specialize (F t); cbn in F2, F end;
      split; [congruence|]; unfold upd in Td; try (destruct (Nat.eqb_spec t u); [subst; rewrite Nat.eqb_refl in En; discriminate|]); destruct F as [F|[F F']]; congruence).
    all: try (split; [congruence|]; unfold upd in Td; destruct (Nat.eqb_spec t u); congruence).
    - unfold upd in Td. injection Th as <-. rewrite Nat.eqb_refl in Td. discriminate.
    - apply begin_gen in H; [|assumption]. destruct H as (_ & _ & _ & _ & T' & X & _). rewrite T' in Th. rewrite X in Td. unfold upd in Td. destruct (Nat.eqb_spec t u); [discriminate|auto].
    - apply exit_gen in H; [|assumption]. destruct H as (_ & _ & _ & _ & T' & X & _). rewrite T' in Th. rewrite X in Td. unfold upd in Td. destruct (Nat.eqb_spec t u); [discriminate|auto]. }
  destruct B as [B1 B2].
  assert (Fl : flag s = false). { destruct (flag s) eqn:F; [|reflexivity]. unfold cnt in CL. rewrite F, B1, B2 in CL. cbn in CL. lia. }
  assert (D : of e d \/ ~ of e d) by (destruct e; cbn; try tauto; try (destruct (Nat.eq_dec c d); tauto)).
  destruct D as [D|D].
  - destruct e; cbn in D; try contradiction; subst c; unfold step, take in H.
    all: try (repeat match type of H with
    | context[match notify ?x ?w with _ => _ end] => let E := fresh "NT" in destruct (notify x w) eqn:E; try discriminate H
    | context[match ?x with _ => _ end] => let E := fresh "E" in destruct x eqn:E; try discriminate H
    end; apply some_inj in H; subst s'; cbn in C; rewrite upd_same in C; discriminate C).
    + destruct (ctl s d) eqn:Cd; try discriminate. exfalso.
      destruct (cnt_ex s I) as [e We]; [unfold cnt; rewrite Fl, B1, B2; cbn; lia|].
      assert (d = e) by (apply U; [unfold stopping; now rewrite Cd|now apply wait_stopping]). subst e. rewrite Cd in We. discriminate.
    + destruct (ctl s d) eqn:Cd; try discriminate. destruct (held s); [discriminate|]. rewrite Fl, B1 in H.
      destruct k; try discriminate; try (destruct n0; try discriminate); try (destruct f0; try discriminate); apply some_inj in H; subst s'; cbn in C; rewrite upd_same in C; discriminate.
  - destruct (frame _ _ _ _ H D) as [E|(g & C1 & C2)]; [rewrite E in C; eapply T; eauto|congruence].
Qed.

Lemma reach1_inv : forall n s, reach1 n s -> Inv s /\ uniq s /\ told s.
Proof.
  intros n s H. induction H as [|s e s' H (I & U & T) St Al].
  - split; [apply inv_init|]. split; [intros c d X; contradiction|]. intros t X. discriminate.
  - split; [eapply inv_step; eauto|]. split; [|eapply told_step; eauto].
    intros c d X Y. destruct (stopping_step _ _ _ _ St X) as [X1|(f & ->)]; destruct (stopping_step _ _ _ _ St Y) as [Y1|(g & E)].
    + now apply U.
    + subst e. exfalso. eapply Al; eauto.
    + exfalso. eapply Al; eauto.
    + congruence.
Qed.

Lemma held_who : forall s, Inv s -> held s = true -> exists t, ths s t = TPre /\ thr s = Some t.
Proof. intros s I H. destruct (i_held s I H) as [t T]. exists t. split; [assumption|]. apply (alive s t I). now rewrite T. Qed.

Definition cango (s : state) (c : nat) : Prop := exists es s', Forall (unaided c) es /\ run s (es ++ [StopRet c true]) = Some s'.
Lemma cango_step : forall s e s1 c, step s e = Some s1 -> unaided c e -> cango s1 c -> cango s c.
Proof. intros s e s1 c H U (es & s' & F & Rn). exists (e :: es), s'. split; [now constructor|]. cbn. now rewrite H. Qed.

Ltac okstep H := eapply reach1_step; [eassumption|exact H|exact Logic.I].

Lemma go_ret : forall s c, ctl s c = CStopR true -> cango s c.
Proof. intros s c C. exists [], (setC s c CIdle). split; [constructor|]. cbn. now rewrite C. Qed.
Lemma go_join : forall n s c t, reach1 n s -> ctl s c = CJoin t -> cango s c.
Proof.
  intros n s c t Rc C. destruct (reach1_inv n s Rc) as (I & U & T). destruct (i_join s I c t C) as (X & _ & _).
  assert (Fin : forall s, ctl s c = CJoin t -> ths s t = TDone -> cango s c).
  { intros s2 C2 T2. apply (cango_step s2 (StopJoin c) (setC s2 c (CStopR true))); [unfold step; now rewrite C2, T2|reflexivity|].
    apply go_ret. cbn. apply upd_same. }
  destruct (ths s t) eqn:Ts; try discriminate; [|now apply Fin].
  destruct (notify_can s) as (w & s1 & N). apply (cango_step s (Note t w) (setT s1 t TDone)); [unfold step; now rewrite Ts, N|exact Logic.I|].
  apply Fin; [|cbn; apply upd_same]. cbn. apply notify_frame in N. destruct N as (_ & _ & _ & _ & F & _). destruct (F c) as [->|(f & E & _)]; [assumption|congruence].
Qed.
Lemma go_down : forall n s c f m, reach1 n s -> ctl s c = CWait f m -> flag s = false -> cango s c.
Proof.
  assert (Fin : forall n s c f m t, reach1 n s -> ctl s c = CWait f m -> flag s = false -> thr s = Some t -> ths s t = TDone -> cango s c).
  { intros n s c f m t Rc C Fl Th Td. destruct (reach1_inv n s Rc) as (I & U & T).
    assert (m = true) by (eapply T; eauto). subst m.
    assert (Hd : held s = false). { destruct (held s) eqn:Hd; [|reflexivity]. destruct (held_who s I Hd) as (u & U1 & U2). congruence. }
    assert (St : step s (StopAwake c Notified) = Some (setC (setThr s None) c (CJoin t))) by (unfold step, take; now rewrite C, Hd, Fl, Th).
    eapply cango_step; [exact St|split; [reflexivity|now right]|]. eapply go_join; [okstep St|]. cbn. apply upd_same. }
  intros n s c f m Rc C Fl. destruct (reach1_inv n s Rc) as (I & U & T).
  pose proof (ws_pos s c _ (i_ws s I) ltac:(now rewrite C)) as P. unfold cnt in P. rewrite Fl in P.
  destruct (thr s) as [t|] eqn:Th; [|cbn in P; lia]. destruct (exited (ths s t)) eqn:X; [|cbn in P; lia].
  destruct (ths s t) eqn:Ts; try discriminate; [|now apply (Fin n s c f m t)].
  destruct (notify_can s) as (w & s1 & N).
  assert (St : step s (Note t w) = Some (setT s1 t TDone)) by (unfold step; now rewrite Ts, N).
  eapply cango_step; [exact St|exact Logic.I|]. pose proof N as N'. apply notify_frame in N'. destruct N' as (F1 & F2 & _ & _ & F & _).
  assert (Cw : exists m', ctl (setT s1 t TDone) c = CWait f m'). { cbn. destruct (F c) as [->|(g & E & ->)]; [eauto|]. rewrite C in E. injection E as -> ->. eauto. }
  destruct Cw as [m' Cw]. apply (Fin n (setT s1 t TDone) c f m' t); [okstep St|exact Cw|cbn; congruence|cbn; congruence|cbn; apply upd_same].
Qed.
Lemma go_up : forall n s c f m, reach1 n s -> ctl s c = CWait f m -> flag s = true -> cango s c.
Proof.
  intros n s c f m Rc C Fl. destruct (reach1_inv n s Rc) as (I & U & T). pose proof (cnt_le s I U) as CL. unfold cnt in CL. rewrite Fl in CL.
  destruct (thr s) as [t|] eqn:Th; [|pose proof (i_none s I Th); congruence]. destruct (exited (ths s t)) eqn:X; [cbn in CL; lia|].
  assert (Ex : forall s k, reach1 n s -> ctl s c = CWait f m -> plain k -> (exists s', step s (Exit t k) = Some s') -> cango s c).
  { intros s2 k Rc2 C2 Pk [s3 St]. eapply cango_step; [exact St|exact Pk|]. destruct (reach1_inv n s2 Rc2) as (I2 & _). pose proof St as St'.
    apply exit_gen in St'; [|assumption]. destruct St' as (_ & _ & _ & F3 & _ & _ & C3 & _). apply (go_down n s3 c f m); [okstep St|congruence|exact F3]. }
  assert (Hd : ths s t <> TPre -> held s = false). { intros Np. destruct (held s) eqn:Hd; [|reflexivity]. destruct (held_who s I Hd) as (u & U1 & U2). congruence. }
  destruct (ths s t) as [| | | |b| |] eqn:Ts; try discriminate.
  - specialize (Hd ltac:(discriminate)).
    assert (St : step s (Enter t) = Some (setHeld (setT s t TPre) true)) by (unfold step; now rewrite Ts, Hd).
    eapply cango_step; [exact St|exact Logic.I|]. apply (Ex _ Straight); [okstep St|exact C|now left|]. unfold step. cbn. rewrite upd_same, Fl. eauto.
  - apply (Ex s Straight); auto; [now left|]. unfold step. rewrite Ts, Fl. eauto.
  - specialize (Hd ltac:(discriminate)).
    assert (St : step s (End t) = Some (setT s t TLock)) by (unfold step; now rewrite Ts).
    eapply cango_step; [exact St|exact Logic.I|]. apply (Ex _ Straight); [okstep St|exact C|now left|]. unfold step. cbn. rewrite upd_same. cbn. rewrite Fl, Hd, orb_true_r. cbn. eauto.
  - specialize (Hd ltac:(discriminate)). apply (Ex s Straight); auto; [now left|]. unfold step. rewrite Ts. cbn. rewrite Fl, Hd, orb_true_r. cbn. eauto.
  - specialize (Hd ltac:(discriminate)). destruct b; [|pose proof (i_sleep s I t Ts); congruence].
    apply (Ex s Notified); auto; [now right|]. unfold step. rewrite Ts. cbn. rewrite Fl, Hd, orb_true_r. cbn. eauto.
Qed.
Lemma stop_returns : forall n s c, reach1 n s -> stopping s c -> ctl s c <> CStopR false -> cango s c.
Proof.
  intros n s c Rc P Nf. unfold stopping in P. destruct (ctl s c) as [| | |f|f m|t|b| | |] eqn:C; try contradiction.
  - assert (Go : forall s, reach1 n s -> ctl s c = CStop f -> held s = false -> cango s c).
    { clear s Rc P Nf C. intros s Rc C Hd. destruct (reach1_inv n s Rc) as (I & U & T).
      assert (Fl : flag s = false).
      { destruct (flag s) eqn:Fl; [|reflexivity]. destruct (cnt_ex s I) as [d W]; [unfold cnt; rewrite Fl; lia|].
        assert (c = d) by (apply U; [unfold stopping; now rewrite C|now apply wait_stopping]). subst d. rewrite C in W. discriminate. }
      destruct (thr s) as [t|] eqn:Th.
      - destruct (notify_can (setFlag s true)) as (w & s1 & N).
        assert (St : step s (StopDo c w) = Some (setC s1 c (CWait f false))) by (unfold step; now rewrite C, Hd, Fl, Th, N).
        eapply cango_step; [exact St|reflexivity|]. apply (go_up n _ c f false); [okstep St|cbn; apply upd_same|]. cbn. apply notify_frame in N. now destruct N as (-> & _).
      - assert (St : step s (StopDo c Nobody) = Some (setC s c (CStopR true))) by (unfold step; now rewrite C, Hd, Fl, Th).
        eapply cango_step; [exact St|reflexivity|]. apply go_ret. cbn. apply upd_same. }
    destruct (held s) eqn:Hd; [|now apply Go]. destruct (reach1_inv n s Rc) as (I & U & T). destruct (held_who s I Hd) as (t & Tp & Th).
    assert (Fl : flag s = false).
    { destruct (flag s) eqn:Fl; [|reflexivity]. destruct (cnt_ex s I) as [d W]; [unfold cnt; rewrite Fl; lia|].
      assert (c = d) by (apply U; [unfold stopping; now rewrite C|now apply wait_stopping]). subst d. rewrite C in W. discriminate. }
    assert (St : step s (Begin t Straight) = Some (setHeld (setT s t TWork) false)) by (unfold step; now rewrite Tp, Fl).
    eapply cango_step; [exact St|now left|]. apply Go; [okstep St|exact C|reflexivity].
  - destruct (flag s) eqn:Fl; [eapply go_up; eauto|eapply go_down; eauto].
  - eapply go_join; eauto.
  - destruct b; [now apply go_ret|congruence].
Qed.

(** ** stop with no time limit returns false only when another stop is under way *)
Lemma ctl_idle_call : forall s c f s2, step s (StopCall c f) = Some s2 -> ctl s2 c = CStop f.
Proof. intros s c f s2 E2. unfold step in E2. destruct (ctl s c); try discriminate. destruct (c <? nc s); [|discriminate]. apply some_inj in E2. subst s2. cbn. apply upd_same. Qed.
Definition inf (s : state) (c : nat) : Prop := match ctl s c with CStop true | CWait true _ | CJoin _ | CStopR true => True | _ => False end.
Lemma inf_step : forall c s e s', Inv s -> inf s c -> step s e = Some s' -> (forall b, e <> StopRet c b) ->
  inf s' c \/ exists w d, e = StopDo c w /\ d <> c /\ stopping s d.
Proof.
  intros c s e s' I P H Rt.
  assert (D : of e c \/ ~ of e c) by (destruct e; cbn; try tauto; try (destruct (Nat.eq_dec c0 c); tauto)).
  destruct D as [D|D].
  - unfold inf in *. destruct e; cbn in D; try contradiction; subst c0; try (exfalso; eapply Rt; reflexivity).
    all: try (unfold step in H; destruct (ctl s c) eqn:C; try discriminate; contradiction).
    + unfold step in H. destruct (ctl s c) eqn:C; try discriminate. destruct (held s); [discriminate|]. destruct (flag s) eqn:F.
      * right. destruct (cnt_ex s I) as [d W]; [unfold cnt; rewrite F; lia|]. exists w, d. split; [reflexivity|]. split; [|now apply wait_stopping].
        intros ->. rewrite C in W. discriminate.
      * left. destruct (thr s); [destruct (notify _ w); [|discriminate]|]; apply some_inj in H; subst s'; cbn; rewrite upd_same; exact P || exact Logic.I.
    + left. unfold step, take in H. destruct (ctl s c) eqn:C; try discriminate. destruct (held s); [discriminate|]. destruct f; [|contradiction].
      destruct k; try discriminate; try (destruct n; [|discriminate]); destruct (flag s); try (destruct (thr s)); apply some_inj in H; subst s'; cbn; rewrite upd_same; exact Logic.I.
    + left. unfold step in H. destruct (ctl s c) eqn:C; try discriminate. destruct (ths s t); try discriminate. apply some_inj in H. subst s'. cbn. now rewrite upd_same.
  - left. unfold inf in *. destruct (frame _ _ _ _ H D) as [E|(f & C & E)]; [now rewrite E|rewrite E; now rewrite C in P].
Qed.
Lemma forever_false : forall n c pre mid s, run (init n) (pre ++ StopCall c true :: mid ++ [StopRet c false]) = Some s -> (forall b, ~ In (StopRet c b) mid) ->
  exists m1 m2 s1 d, mid = m1 ++ m2 /\ run (init n) (pre ++ StopCall c true :: m1) = Some s1 /\ d <> c /\ stopping s1 d.
Proof.
  intros n c pre mid s H Rt. rewrite run_app in H. destruct (run (init n) pre) as [s1|] eqn:E1; [|discriminate].
  pose proof (inv_run _ _ _ (inv_init n) E1) as I1. cbn [run] in H. destruct (step s1 (StopCall c true)) as [s2|] eqn:E2; [|discriminate].
  pose proof (inv_step _ _ _ I1 E2) as I2. pose proof (ctl_idle_call _ _ _ _ E2) as C2.
  assert (P2 : inf s2 c) by (unfold inf; now rewrite C2).
  assert (G : exists m1 m2 s4 d, mid = m1 ++ m2 /\ run s2 m1 = Some s4 /\ d <> c /\ stopping s4 d).
  { clear - H Rt I2 P2. revert s2 H I2 P2. induction mid as [|e mid IH]; intros s2 H I2 P2.
    - cbn [app] in H. change ([StopRet c false]) with (StopRet c false :: @nil event) in H. exfalso. cbn [run] in H. destruct (step s2 (StopRet c false)) eqn:E; [|discriminate].
      unfold step in E. unfold inf in P2. destruct (ctl s2 c); try discriminate. destruct b; [discriminate|contradiction].
    - cbn [app run] in H. destruct (step s2 e) as [s3|] eqn:E; [|discriminate].
      destruct (inf_step c s2 e s3 I2 P2 E) as [P3|(w & d & -> & Ne & Sd)]; [intros b X; apply (Rt b); now left| |].
      + destruct (IH (fun b X => Rt b (or_intror X)) s3 H (inv_step _ _ _ I2 E) P3) as (m1 & m2 & s4 & d & -> & Q1 & Q2 & Q3).
        exists (e :: m1), m2, s4, d. repeat split; auto. cbn. now rewrite E.
      + exists [], (StopDo c w :: mid), s2, d. repeat split; auto. }
  destruct G as (m1 & m2 & s4 & d & -> & Q1 & Q2 & Q3). exists m1, m2, s4, d. repeat split; auto.
  rewrite run_app, E1. cbn [run]. now rewrite E2.
Qed.

(** ** A worker that nobody stops works *)
Lemma can_work : forall s t, Inv s -> thr s = Some t -> exited (ths s t) = false -> flag s = false ->
  exists es k s', Forall workersOwn es /\ k <> Spurious /\ run s (es ++ [Begin t k]) = Some s'.
Proof.
  intros s t I Th X Fl.
  assert (Hd : ths s t <> TPre -> held s = false). { intros Np. destruct (held s) eqn:Hd; [|reflexivity]. destruct (held_who s I Hd) as (u & U1 & U2). congruence. }
  assert (L : forall s, ths s t = TLock -> held s = false -> flag s = false -> exists es k s', Forall workersOwn es /\ k <> Spurious /\ run s (es ++ [Begin t k]) = Some s').
  { intros s2 T2 H2 F2. destruct (wake s2) eqn:W.
    - exists [], Straight. eexists. split; [constructor|]. split; [discriminate|]. cbn. rewrite T2. cbn. rewrite W, H2, F2. cbn. reflexivity.
    - exists [Sleep t], TimedOut. eexists. split; [repeat constructor|]. split; [discriminate|]. cbn. rewrite T2, H2, W, F2. cbn. rewrite upd_same. cbn. rewrite H2, F2. cbn. reflexivity. }
  destruct (ths s t) as [| | | |b| |] eqn:Ts; try discriminate.
  - specialize (Hd ltac:(discriminate)). exists [Enter t], Straight. eexists. split; [repeat constructor|]. split; [discriminate|]. cbn. rewrite Ts, Hd. cbn. rewrite upd_same, Fl. reflexivity.
  - exists [], Straight. eexists. split; [constructor|]. split; [discriminate|]. cbn. rewrite Ts, Fl. reflexivity.
  - specialize (Hd ltac:(discriminate)). destruct (L (setT s t TLock)) as (es & k & s' & P1 & P2 & P3); [cbn; apply upd_same|exact Hd|exact Fl|].
    exists (End t :: es), k, s'. split; [now constructor|]. split; [assumption|]. cbn. now rewrite Ts.
  - apply L; auto. apply Hd. discriminate.
  - specialize (Hd ltac:(discriminate)). exists [], TimedOut. eexists. split; [constructor|]. split; [discriminate|]. cbn. rewrite Ts, Hd, Fl. cbn. reflexivity.
Qed.
Lemma launched_works : forall n pre c s, run (init n) (pre ++ [Launch c]) = Some s ->
  exists t es k s', Forall workersOwn es /\ k <> Spurious /\ run s (es ++ [Begin t k]) = Some s'.
Proof.
  intros n pre c s H. rewrite run_app in H. destruct (run (init n) pre) as [s1|] eqn:E1; [|discriminate].
  pose proof (inv_run _ _ _ (inv_init n) E1) as I1. cbn [run] in H. destruct (step s1 (Launch c)) as [s2|] eqn:E2; [|discriminate]. apply some_inj in H. subst s2.
  pose proof (inv_step _ _ _ I1 E2) as I2. unfold step in E2. destruct (ctl s1 c); try discriminate. destruct (thr s1) eqn:Th; [discriminate|]. destruct (held s1); [discriminate|].
  apply some_inj in E2. exists (next s1). apply can_work; subst s; auto; cbn; [now rewrite upd_same|]. apply (i_none s1 I1 Th).
Qed.
Lemma timed_out_goes_on : forall n s c s', reach1 n s -> step s (StopAwake c TimedOut) = Some s' -> ctl s' c = CStopR false ->
  exists t es k s'', Forall workersOwn es /\ k <> Spurious /\ run s' (es ++ [Begin t k]) = Some s''.
Proof.
  intros n s c s' Rc St Cf. destruct (reach1_inv n s Rc) as (I & U & T). pose proof (cnt_le s I U) as CL.
  pose proof (inv_step _ _ _ I St) as I'. unfold step in St. destruct (ctl s c) eqn:C; try discriminate. destruct (held s); [discriminate|]. destruct f; [discriminate|].
  destruct (flag s) eqn:Fl.
  - apply some_inj in St. unfold cnt in CL. rewrite Fl in CL. destruct (thr s) as [t|] eqn:Th; [|pose proof (i_none s I Th); congruence].
    destruct (exited (ths s t)) eqn:X; [cbn in CL; lia|]. exists t. apply can_work; subst s'; auto.
  - unfold take in St. destruct (thr s); apply some_inj in St; subst s'; cbn in Cf; rewrite upd_same in Cf; discriminate.
Qed.

(** ** Two stops without a time limit can wait for each other for ever *)
Definition stuck (s : state) : Prop :=
  flag s = true /\ thr s = Some 0 /\ held s = false /\ next s = 1 /\ (forall t, ths s t = TDone) /\
  (exists n, ctl s 0 = CWait true n) /\ (exists n, ctl s 1 = CWait true n) /\ (forall d, d <> 0 -> d <> 1 -> waiting (ctl s d) = false).
Lemma stuck_step : forall s e s', stuck s -> step s e = Some s' -> stuck s' /\ ~ begins e /\ (forall b, e <> StopRet 0 b /\ e <> StopRet 1 b).
Proof.
  intros s e s' (F & Th & Hd & Nx & Td & (n0 & C0) & (n1 & C1) & CO) H.
  destruct e as [d z|d|d|d b|d f|d w|d k|d|d b|d|d|d w|d|u|u k|u|u|u|u k|u w]; try (unfold step in H; rewrite Td in H; cbn in H; discriminate).
  all: split; [|split; [exact (fun x => x)|intros b'; split; intros X; try discriminate X; injection X as -> ->; unfold step in H; rewrite ?C0, ?C1 in H; discriminate]].
  all: unfold step, take in H; rewrite ?F, ?Th, ?Hd in H.
  all: assert (Oth : forall p s1, flag s1 = true -> thr s1 = Some 0 -> held s1 = false -> next s1 = 1 -> (forall t, ths s1 t = TDone) -> ctl s1 = ctl s ->
         (d = 0 -> exists n, p = CWait true n) -> (d = 1 -> exists n, p = CWait true n) -> (d <> 0 -> d <> 1 -> waiting p = false) -> stuck (setC s1 d p))
       by (intros p s1 A1 A2 A3 A4 A5 A6 B0 B1 B2; repeat (split; [assumption|]); cbn; rewrite A6; unfold upd; split;
           [destruct (Nat.eqb_spec 0 d) as [<-|]; [now apply B0|eauto]|split; [destruct (Nat.eqb_spec 1 d) as [<-|]; [now apply B1|eauto]|]];
           intros e E0 E1; destruct (Nat.eqb_spec e d) as [->|]; [now apply B2|now apply CO]).
  all: try (destruct (ctl s d) eqn:Cd; try discriminate; try (destruct (d <? nc s); [|discriminate]); try (destruct (Bool.eqb _ _); [|discriminate]);
       try (apply some_inj in H; subst s'; apply Oth; auto; try (intros ->; congruence); try (intros _ _; destruct z; reflexivity))).
  - assert (Df : f = true /\ (d <> 0 -> d <> 1 -> False)).
    { split; [|intros X0 X1; specialize (CO d X0 X1); rewrite Cd in CO; discriminate].
      destruct (Nat.eq_dec d 0) as [->|N0]; [congruence|]. destruct (Nat.eq_dec d 1) as [->|N1]; [congruence|]. specialize (CO d N0 N1). rewrite Cd in CO. discriminate. }
    destruct Df as [-> Df]. destruct k; try discriminate; try (destruct n; [|discriminate]); apply some_inj in H; subst s'; apply Oth; auto; eauto; intros; tauto.
  - rewrite Td in H. apply some_inj in H. subst s'. apply Oth; auto; try (intros ->; congruence).
  - destruct (notify s w) as [s1|] eqn:N; [|discriminate]. apply some_inj in H. subst s'. apply notify_cases in N. destruct N as [(->&->&_)|[(v & -> & L & V & ->)|(e & g & -> & L & D & ->)]].
    + apply Oth; auto; try (intros ->; congruence).
    + rewrite Td in V. discriminate.
    + repeat (split; [assumption|]). cbn. unfold upd. split; [|split].
      * destruct (Nat.eqb_spec 0 d) as [<-|]; [congruence|]. destruct (Nat.eqb_spec 0 e) as [<-|]; [|eauto]. rewrite C0 in D. injection D as <- _. eauto.
      * destruct (Nat.eqb_spec 1 d) as [<-|]; [congruence|]. destruct (Nat.eqb_spec 1 e) as [<-|]; [|eauto]. rewrite C1 in D. injection D as <- _. eauto.
      * intros x X0 X1. destruct (Nat.eqb_spec x d) as [->|]; [reflexivity|]. destruct (Nat.eqb_spec x e) as [->|]; [|now apply CO]. specialize (CO e X0 X1). rewrite D in CO. discriminate.
Qed.
Lemma stuck_run : forall es s s', stuck s -> run s es = Some s' -> none begins es /\ (forall b, ~ In (StopRet 0 b) es /\ ~ In (StopRet 1 b) es).
Proof.
  induction es as [|e es IH]; intros s s' K H; [split; [intros y []|intros b; split; intros []]|]. cbn in H. destruct (step s e) as [s1|] eqn:E; [|discriminate].
  destruct (stuck_step s e s1 K E) as (K1 & B & Rt). destruct (IH s1 s' K1 H) as (B' & R'). split.
  - intros y [<-|Y]; auto.
  - intros b. destruct (Rt b), (R' b). split; intros [X|X]; auto.
Qed.

(** When every thread has left its loop, nothing loops until a start makes one. *)
Lemma dead_step : forall s e s', Inv s -> (forall t, exited (ths s t) = true) -> step s e = Some s' -> ~ launches e -> ~ looping e /\ forall t, exited (ths s' t) = true.
Proof.
  intros s e s' I A H N. destruct e as [d z|d|d|d b|d f|d w|d k|d|d b|d|d|d w|d|u|u k|u|u|u|u k|u w]; try (exfalso; now apply N).
  all: try (lazymatch goal with H0 : step _ (Exit _ _) = _ |- _ => fail | H0 : step _ (Begin _ _) = _ |- _ => fail | _ => idtac end;
    unfold step, take in H; repeat match type of H with
  | context[match notify ?x ?w with _ => _ end] => let E := fresh "NT" in destruct (notify x w) eqn:E; try discriminate H
  | context[match ?x with _ => _ end] => let E := fresh "E" in destruct x eqn:E; try discriminate H
  end; apply some_inj in H; subst s'; cbn).
  all: try (split; [exact (fun x => x)|assumption]).
  all: try (match goal with NT : notify _ _ = Some _ |- _ => apply notify_frame in NT; destruct NT as (_ & _ & _ & _ & _ & F); cbn in F end;
    split; [exact (fun x => x)|]; intros t; specialize (F t); try (unfold upd; destruct (t =? u); [reflexivity|]); destruct F as [->|[F _]]; [auto|exfalso; match goal with Z : forall t0, exited _ = true |- _ => specialize (Z t); rewrite F in Z; discriminate Z end]).
  all: try (exfalso; match goal with Z : forall t0, exited (ths _ t0) = true, E : ths ?x ?v = _ |- _ => specialize (Z v); rewrite E in Z; discriminate Z end).
  - apply begin_gen in H; [|assumption]. destruct H as (_ & X & _). rewrite A in X. discriminate.
  - apply exit_gen in H; [|assumption]. destruct H as (_ & X & _). rewrite A in X. discriminate.
Qed.
