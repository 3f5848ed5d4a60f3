(** C41, part 6: the claims. *)
From Verif Require Import Bytes ShmMgr_model ShmMgr_spec ShmMgr_proofs ShmMgr_proofs2
  ShmMgr_proofs3 ShmMgr_proofs4 ShmMgr_proofs5.
Ltac Zify.zify_post_hook ::= idtac.

Lemma hyps_app a b : hyps (a ++ b) -> hyps a.
Proof. apply hyps_prefix. Qed.

(** The step that showed an event. *)
Lemma reach_split w tr : reach w tr -> forall x a b, tr = a ++ x :: b ->
  exists w0 t0 act w1 e1 e2 b', reach w0 t0 /\ step w0 act = Some (w1, e1 ++ x :: e2) /\
    a = t0 ++ e1 /\ b = e2 ++ b'.
Proof.
  induction 1 as [|w tr act w' e R IH E]; intros x a b Etr.
  - destruct a; discriminate Etr.
  - assert (D : (exists b1, tr = a ++ x :: b1 /\ b = b1 ++ e) \/
                (exists e1, a = tr ++ e1 /\ e = e1 ++ x :: b)).
    { clear -Etr. revert a Etr. induction tr as [|y tr IH]; intros a Etr.
      - right. exists a. cbn [app] in Etr. auto.
      - destruct a as [|z a]; cbn [app] in Etr; injection Etr as -> Etr.
        + left. exists tr. cbn [app]. auto.
        + destruct (IH _ Etr) as [(b1 & -> & ->)|(e1 & -> & ->)].
          * left. exists b1. auto.
          * right. exists e1. auto. }
    destruct D as [(b1 & Etr1 & Eb)|(e1 & Ea & Ee)].
    + destruct (IH _ _ _ Etr1) as (w0 & t0 & act0 & w1 & e1 & e2 & b' & R0 & S0 & -> & Eb1).
      exists w0, t0, act0, w1, e1, e2, (b' ++ e). repeat split; auto.
      rewrite Eb, Eb1, app_assoc. reflexivity.
    + exists w, tr, act, w', e1, b, []. rewrite app_nil_r. subst e. auto.
Qed.

Lemma attached_from w a w' e p n v : step w a = Some (w', e) ->
  In (EAttached p n v) e ->
  a = AAttach p n /\ e = [EAttached p n v] /\ pc (procs w p) = PRun /\
  afind (segs (procs w p)) n = None /\
  (exists k, afind (names (procs w p)) n = Some k) /\
  exists o x, bound w n o = Some x /\ v = objv w x.
Proof.
  intros E Hin. destruct a.
  4:{ apply create_inv in E as (_ & _ & _ & w1 & b & _ & [[_ ->]|(_ & _ & ->)]);
      cbn [In] in Hin; intuition discriminate. }
  4:{ apply remove_inv in E as (_ & b & _ & ->). destruct b; cbn [In] in Hin;
      intuition discriminate. }
  all: step_cases E; cbn [In app] in Hin;
    repeat match goal with H : _ \/ _ |- _ => destruct H as [H|H] end;
    try contradiction; try discriminate Hin; injection Hin as <- <- <-;
    repeat split; eauto.
Qed.

Lemma attach_clean tr : run_trace tr -> serial tr -> starts_alone tr ->
  upgrade_only tr -> attach_only_clean tr.
Proof.
  intros Rt S A U pre p n v post Etr.
  destruct (run_trace_reach _ Rt) as [w R].
  destruct (reach_split _ _ R _ _ _ Etr)
    as (w0 & t0 & act & w1 & e1 & e2 & b' & R0 & S0 & Ea & Eb).
  destruct (attached_from _ _ _ _ p n v S0) as (_ & Ee & P & Sg & (k & Nm) & o & x & B & ->);
    [apply in_or_app; right; left; reflexivity|].
  assert (e1 = []).
  { destruct e1 as [|y e1]; [reflexivity|]. cbn [app] in Ee. injection Ee as _ Ee.
    destruct e1; discriminate Ee. }
  subst e1. rewrite app_nil_r in Ea. subst t0.
  assert (HY : hyps pre).
  { apply hyps_app with (b := EAttached p n (objv w0 x) :: post). rewrite <- Etr.
    split; [exact S|]. split; [exact A | exact U]. }
  pose proof (cinv_reach _ _ R0 HY) as CI.
  assert (WT : waits (pc (procs w0 p)) = true) by (rewrite P; reflexivity).
  destruct (s_names _ _ _ (ci_s _ _ CI p) WT n k o x Nm Sg B) as (q & a & b & E1 & L & Rn).
  exists q, a, b. split; [exact E1|]. split; [|split; [exact L | exact Rn]].
  intros ->. pose proof (pv_saved _ _ _ (pinv_reach _ _ R0 p)) as X.
  rewrite P in X. cbn [saved] in X.
  assert (In (ESaved p) pre) as Y by (rewrite E1; apply in_or_app; right; left; reflexivity).
  specialize (X Y). discriminate X.
Qed.

(** ** The lock *)

Record linv (w : world) : Prop := mkLinv {
  l_none : meta w = None -> nextIno w = 0;
  l_some : forall i, meta w = Some i -> i = 0;
  l_hold : forall p, holdpc (pc (procs w p)) = true -> flock w 0 = Some p
}.

Lemma linv_step w a w' e : step w a = Some (w', e) -> ~ In EMetaDeleted e ->
  linv w -> linv w'.
Proof.
  intros E Hd L.
  assert (G : forall wx, meta wx = meta w -> nextIno wx = nextIno w -> flock wx = flock w ->
     (forall r, pc (procs wx r) = pc (procs w r)) -> linv wx).
  { destruct L as [l1 l2 l3]. intros wx M I F Pr. constructor; rewrite ?M, ?I, ?F; auto.
    intros r Hr. rewrite Pr in Hr. auto. }
  destruct a.
  4:{ apply create_inv in E as (P & _ & _ & w1 & b & D & X).
      apply doRemove_spec in D.
      assert (Pr : forall r, pc (procs w1 r) = pc (procs w r)).
      { intros r. destruct (Nat.eq_dec r p) as [->|Hr]; [apply (rm_pc _ _ _ _ D)|].
        rewrite (rm_pr _ _ _ _ D r Hr). reflexivity. }
      destruct X as [[-> _]|(_ & -> & _)].
      - apply G; auto; apply D.
      - unfold created_world. apply G; wsimp; try apply D.
        intros r. rewrite <- Pr. destruct (Nat.eq_dec r p) as [->|Hr];
          [rewrite updN_same; reflexivity | rewrite updN_other by exact Hr; reflexivity]. }
  4:{ apply remove_inv in E as (P & b & D & _). apply doRemove_spec in D.
      apply G; try apply D.
      intros r. destruct (Nat.eq_dec r p) as [->|Hr]; [apply (rm_pc _ _ _ _ D)|].
      rewrite (rm_pr _ _ _ _ D r Hr). reflexivity. }
  all: step_cases E.
  all: try solve [exfalso; apply Hd; cbn; auto].
  all: clear G; destruct L as [l1 l2 l3].
  all: constructor; wsimp.
  all: try assumption.
  all: try solve [intros; congruence].
  all: try solve [intros X; apply l1; congruence].
  all: try solve [intros i X; apply l2; congruence].
  all: try solve [intros i X; injection X as <-; apply l1; assumption].
  all: try solve [intros i X; injection X as <-; auto].
  all: intros rr Hr.
  all: first
    [ match type of Hr with context [updN _ ?p _ ?r0] =>
      destruct (Nat.eq_dec r0 p) as [Heq|Hne];
      [rewrite Heq in *; rewrite updN_same in Hr; revert Hr; wsimp; cbn [holdpc];
        try discriminate
      |rewrite updN_other in Hr by exact Hne] end
    | idtac ].
  all: try solve [apply l3; exact Hr].
  all: try solve [intros _; apply l3;
    repeat match goal with H : pc _ = _ |- _ => rewrite H end; reflexivity].
  all: try solve [intros Hr; apply l3;
    repeat match goal with H : pc _ = _ |- _ => rewrite H end; exact Hr].
  all: try solve [intros _; match goal with H : meta _ = Some ?i |- _ =>
     rewrite (l2 i H) in *; apply updN_same end].
  all: try solve [rewrite (l3 _ Hr); match goal with |- context [?a =? ?b] =>
     replace (a =? b) with false by (symmetry; apply Nat.eqb_neq; exact Hne) end; reflexivity].
  all: try solve [exfalso; match goal with H : meta _ = Some ?i |- _ =>
     rewrite (l2 i H) in *; rewrite (l3 _ Hr) in *; discriminate end].
Qed.

Lemma linv_reach w tr : reach w tr -> meta_kept tr -> linv w.
Proof.
  induction 1 as [|w tr a w' e R IH E]; intros HM.
  - constructor; cbn; try discriminate; reflexivity.
  - eapply linv_step; eauto.
    + intros X. apply HM, in_or_app. right. exact X.
    + apply IH. intros X. apply HM, in_or_app. left. exact X.
Qed.

Lemma hold_keep p b : forall x, (forall y, In y b -> ~ ends p y) -> x = true ->
  fold_left (hold_step p) b x = true.
Proof.
  induction b as [|e b IH]; intros x Hb ->; cbn [fold_left]; [reflexivity|].
  apply IH; [intros y Hy; apply Hb; right; exact Hy|].
  apply hold_step_true, Hb. left. reflexivity.
Qed.

Lemma running_holds w tr p : reach w tr -> running p tr -> holdpc (pc (procs w p)) = true.
Proof.
  intros R (a & leg & b & Etr & Hb).
  rewrite <- (pv_hold _ _ _ (pinv_reach _ _ R p)).
  destruct (reach_split _ _ R _ _ _ Etr)
    as (w0 & t0 & act & w1 & e1 & e2 & b' & R0 & S0 & Ea & Eb).
  assert (X : In (ERunning p leg) (e1 ++ ERunning p leg :: e2))
    by (apply in_or_app; right; left; reflexivity).
  destruct (running_from _ _ _ _ _ _ S0 X) as (Eact & P & _).
  assert (R1 : reach w1 (t0 ++ e1 ++ ERunning p leg :: e2)) by (econstructor; eauto).
  assert (P1 : holdpc (pc (procs w1 p)) = true).
  { clear X. rewrite Eact in S0. cbn [step] in S0. rewrite P in S0. cbv zeta in S0.
    injection S0 as S0 _. rewrite <- S0. wsimp. rewrite updN_same. reflexivity. }
  rewrite <- (pv_hold _ _ _ (pinv_reach _ _ R1 p)) in P1.
  rewrite Etr, Ea, Eb. rewrite Eb in Hb.
  replace ((t0 ++ e1) ++ ERunning p leg :: e2 ++ b')
    with ((t0 ++ e1 ++ ERunning p leg :: e2) ++ b')
    by (rewrite <- !app_assoc; reflexivity).
  rewrite holdb_app, P1. apply hold_keep; [|reflexivity].
  intros y Hy. apply Hb, in_or_app. right. exact Hy.
Qed.

Lemma one_owner tr p q : run_trace tr -> meta_kept tr -> running p tr ->
  running q tr -> p = q.
Proof.
  intros Rt HM Hp Hq. destruct (run_trace_reach _ Rt) as [w R].
  pose proof (linv_reach _ _ R HM) as [_ _ L].
  pose proof (L _ (running_holds _ _ _ R Hp)). pose proof (L _ (running_holds _ _ _ R Hq)).
  congruence.
Qed.

Lemma kept_serial tr : run_trace tr -> meta_kept tr -> serial tr.
Proof.
  intros Rt HM a p b Etr q Hq Hh. destruct (run_trace_reach _ Rt) as [w R].
  destruct (reach_split _ _ R _ _ _ Etr)
    as (w0 & t0 & act & w1 & e1 & e2 & b' & R0 & S0 & Ea & Eb).
  assert (X : In (ELocked p) (e1 ++ ELocked p :: e2))
    by (apply in_or_app; right; left; reflexivity).
  destruct (locked_from _ _ _ _ _ S0 X) as (Ee & Eact & P). clear X.
  assert (e1 = []).
  { destruct e1 as [|y e1]; [reflexivity|]. cbn [app] in Ee. injection Ee as _ Ee.
    destruct e1; discriminate Ee. }
  subst e1. rewrite app_nil_r in Ea. subst a.
  assert (R1 : reach w1 (t0 ++ [] ++ ELocked p :: e2)) by (econstructor; eauto).
  cbn [app] in *. 
  assert (M1 : meta_kept (t0 ++ ELocked p :: e2)).
  { intros Y. apply HM. rewrite Etr, Eb. apply in_app_or in Y as [Y|Y];
      apply in_or_app; [left; exact Y | right]. destruct Y as [Y|Y]; [left; exact Y|].
    right. apply in_or_app. left. exact Y. }
  pose proof (linv_reach _ _ R1 M1) as [_ _ L1].
  apply holdb_holds in Hh. rewrite (pv_hold _ _ _ (pinv_reach _ _ R0 q)) in Hh.
  assert (Hq1 : holdpc (pc (procs w1 q)) = true).
  { rewrite (step_frame _ _ _ _ S0 q); [exact Hh|]. rewrite Eact. cbn [actor]. congruence. }
  assert (Hp1 : holdpc (pc (procs w1 p)) = true).
  { rewrite <- (pv_hold _ _ _ (pinv_reach _ _ R1 p)). injection Ee as ->.
    rewrite holdb_app. cbn [fold_left hold_step]. rewrite Nat.eqb_refl. reflexivity. }
  pose proof (L1 _ Hq1). pose proof (L1 _ Hp1). congruence.
Qed.

(** ** The drop marker *)

Definition drop_step (b : bool) (e : event) : bool :=
  match e with EDropMade => true | EDropGone => false | _ => b end.
Definition dropb (tr : list event) : bool := fold_left drop_step tr false.

Definition looked (x : pcT) : bool :=
  match x with PNone | PStatDir | PStatDrop => false | _ => true end.

Record dinv (w : world) (tr : list event) : Prop := mkDinv {
  d_file : dropf w = dropb tr;
  d_look : forall p, In (ELooked p true) tr ->
             dropSeen (procs w p) = true /\ looked (pc (procs w p)) = true;
  d_att : forall p n v, In (EAttached p n v) tr ->
             dropSeen (procs w p) = false /\ ran (pc (procs w p)) = true;
  d_names : forall p, dropSeen (procs w p) = true -> 
             forall n, afind (segs (procs w p)) n = None ->
             afind (names (procs w p)) n = None
}.

Lemma dropb_app tr e : dropb (tr ++ e) = fold_left drop_step e (dropb tr).
Proof. unfold dropb. apply fold_left_app. Qed.

Lemma afind_erase_none {V} (l : list (name * V)) n m :
  afind l m = None -> afind (aerase l n) m = None.
Proof.
  intros H. destruct (bytes_eq_dec m n) as [->|Hne]; [apply afind_aerase_same|].
  rewrite afind_aerase_other by exact Hne. exact H.
Qed.

Lemma removed_names w p n w1 b : doRemove w p n = (w1, b) ->
  (forall m, afind (segs (procs w p)) m = None -> afind (names (procs w p)) m = None) ->
  forall m, afind (segs (procs w1 p)) m = None -> afind (names (procs w1 p)) m = None.
Proof.
  unfold doRemove. cbv zeta. intros E H m.
  destruct (afind (segs (procs w p)) n) as [[old x]|] eqn:S.
  - injection E as <- _. wsimp. rewrite updN_same. wsimp. intros X.
    destruct (bytes_eq_dec m n) as [->|Hne]; [apply afind_aerase_same|].
    rewrite (afind_aerase_other _ _ _ Hne) in X. rewrite (afind_aerase_other _ _ _ Hne). auto.
  - destruct (anyBound (bound w) (legacy (procs w p)) n); injection E as <- _.
    + wsimp. rewrite updN_same. wsimp. intros X. apply afind_erase_none, H, X.
    + apply H.
Qed.

Lemma created_ev w p n w' e : step w (ACreate p n) = Some (w', e) ->
  e = [] \/ e = [ECreated p n].
Proof. intros E. apply create_inv in E as (_ & _ & _ & w1 & b & _ & [[_ ->]|(_ & _ & ->)]); auto. Qed.
Lemma removed_ev w p n w' e : step w (ARemove p n) = Some (w', e) ->
  e = [] \/ e = [ERemoved p n].
Proof. intros E. apply remove_inv in E as (_ & [|] & _ & ->); auto. Qed.

Lemma drop_names w a w' e p : step w a = Some (w', e) -> actor a = Some p ->
  dropSeen (procs w p) = true ->
  (forall n, afind (segs (procs w p)) n = None -> afind (names (procs w p)) n = None) ->
  (pc (procs w p) = PNone -> dropSeen (procs w p) = false) ->
  (pc (procs w p) = PRead -> dropSeen (procs w p) = false) ->
  forall n, afind (segs (procs w' p)) n = None -> afind (names (procs w' p)) n = None.
Proof.
  intros E Ha Hd H Hn0 Hr0.
  destruct a; cbn [actor] in Ha; try discriminate Ha; injection Ha as ->.
  4:{ apply create_inv in E as (P & _ & _ & w1 & b & D & [[-> _]|(_ & -> & _)]).
      - eapply removed_names; eauto.
      - pose proof (removed_names _ _ _ _ _ D H) as H1. intros m.
        unfold created_world. wsimp. rewrite updN_same. wsimp. cbn [afind].
        destruct (bytes_eqb n m) eqn:B; [discriminate|]. intros X. specialize (H1 m X).
        destruct (afind (names (procs w1 p)) n); [exact H1|].
        rewrite afind_app, H1. cbn [afind]. rewrite B. reflexivity. }
  4:{ apply remove_inv in E as (P & b & D & _). eapply removed_names; eauto. }
  all: step_cases E; wsimp; rewrite ?updN_same; wsimp; try exact H; try reflexivity.
  all: try solve [exfalso; rewrite Hr0 in Hd by congruence; discriminate Hd].
  all: try solve [exfalso; rewrite Hn0 in Hd by congruence; discriminate Hd].
  all: intros m; cbn [afind]; destruct (bytes_eqb n m); [discriminate | apply H].
Qed.

Lemma fresh_drop w tr : reach w tr -> forall p, looked (pc (procs w p)) = false ->
  dropSeen (procs w p) = false.
Proof.
  induction 1 as [|w tr a w' e R IH E]; intros p Hp; [reflexivity|].
  destruct (actor_dec a p) as [Ha|Ha].
  2:{ rewrite (step_frame _ _ _ _ E p Ha) in *. auto. }
  specialize (IH p). destruct a; cbn [actor] in Ha; try discriminate Ha; injection Ha as ->.
  4:{ apply create_inv in E as (P & _ & _ & w1 & b & D & [[-> _]|(_ & -> & _)]);
      apply doRemove_spec in D.
      - rewrite (rm_pc _ _ _ _ D), P in Hp. discriminate Hp.
      - unfold created_world in Hp. revert Hp. wsimp. rewrite updN_same. wsimp.
        rewrite (rm_pc _ _ _ _ D), P. discriminate. }
  4:{ apply remove_inv in E as (P & b & D & _). apply doRemove_spec in D.
      rewrite (rm_pc _ _ _ _ D), P in Hp. discriminate Hp. }
  all: step_cases E; revert Hp; wsimp; rewrite ?updN_same; wsimp; cbn [looked];
    try discriminate; intros Hp.
  all: try reflexivity.
  all: apply IH; repeat match goal with H : pc _ = _ |- _ => rewrite H in * end;
    first [reflexivity | exact Hp].
Qed.

Lemma look_from w a w' e p s : step w a = Some (w', e) -> In (ELooked p s) e ->
  a = ANext p /\ pc (procs w p) = PStatDrop /\ s = dropf w /\
  dropSeen (procs w' p) = s /\ looked (pc (procs w' p)) = true.
Proof.
  intros E Hin. destruct a.
  4:{ destruct (created_ev _ _ _ _ _ E) as [-> | ->]; cbn [In] in Hin;
      intuition discriminate. }
  4:{ destruct (removed_ev _ _ _ _ _ E) as [-> | ->]; cbn [In] in Hin;
      intuition discriminate. }
  all: step_cases E; cbn [In app] in Hin;
    repeat match goal with H : _ \/ _ |- _ => destruct H as [H|H] end;
    try contradiction; try discriminate Hin; injection Hin as <- <-;
    wsimp; rewrite updN_same; wsimp; repeat split; auto.
Qed.

(** Once it has looked, a process never looks again. *)
Lemma looked_keep w a w' e p : step w a = Some (w', e) ->
  looked (pc (procs w p)) = true ->
  looked (pc (procs w' p)) = true /\ dropSeen (procs w' p) = dropSeen (procs w p).
Proof.
  intros E Hl. destruct (actor_dec a p) as [Ha|Ha].
  2:{ rewrite (step_frame _ _ _ _ E p Ha). auto. }
  destruct a; cbn [actor] in Ha; try discriminate Ha; injection Ha as ->.
  4:{ apply create_inv in E as (P & _ & _ & w1 & b & D & [[-> _]|(_ & -> & _)]);
      apply doRemove_spec in D.
      - rewrite (rm_pc _ _ _ _ D), (rm_ds _ _ _ _ D). auto.
      - unfold created_world. wsimp. rewrite updN_same. wsimp.
        rewrite (rm_pc _ _ _ _ D), (rm_ds _ _ _ _ D). auto. }
  4:{ apply remove_inv in E as (P & b & D & _). apply doRemove_spec in D.
      rewrite (rm_pc _ _ _ _ D), (rm_ds _ _ _ _ D). auto. }
  all: step_cases E; wsimp; rewrite ?updN_same; wsimp; cbn [looked];
    repeat match goal with H : pc _ = _ |- _ => rewrite H in * end;
    cbn [looked] in *; try discriminate Hl; auto.
Qed.

Lemma ran_looked x : ran x = true -> looked x = true.
Proof. destruct x; cbn; congruence. Qed.

Lemma ran_keep w a w' e p : step w a = Some (w', e) ->
  ran (pc (procs w p)) = true -> ran (pc (procs w' p)) = true.
Proof.
  intros E Hl. destruct (actor_dec a p) as [Ha|Ha].
  2:{ rewrite (step_frame _ _ _ _ E p Ha). auto. }
  destruct a; cbn [actor] in Ha; try discriminate Ha; injection Ha as ->.
  4:{ apply create_inv in E as (P & _ & _ & w1 & b & D & [[-> _]|(_ & -> & _)]);
      apply doRemove_spec in D.
      - rewrite (rm_pc _ _ _ _ D). auto.
      - unfold created_world. wsimp. rewrite updN_same. wsimp.
        rewrite (rm_pc _ _ _ _ D). auto. }
  4:{ apply remove_inv in E as (P & b & D & _). apply doRemove_spec in D.
      rewrite (rm_pc _ _ _ _ D). auto. }
  all: step_cases E; wsimp; rewrite ?updN_same; wsimp; cbn [ran];
    repeat match goal with H : pc _ = _ |- _ => rewrite H in * end;
    cbn [ran] in *; try discriminate Hl; auto.
Qed.

Lemma dinv_step w tr a w' e : reach w tr -> step w a = Some (w', e) ->
  dinv w tr -> dinv w' (tr ++ e).
Proof.
  intros R E [d1 d2 d3 d4]. constructor.
  - rewrite dropb_app, <- d1. clear d1 d2 d3 d4. destruct a.
    4:{ destruct (created_ev _ _ _ _ _ E) as [X|X]; rewrite X;
        apply create_inv in E as (P & _ & _ & w1 & b & D & [[-> _]|(_ & -> & _)]);
        apply doRemove_spec in D; unfold created_world; wsimp; apply D. }
    4:{ destruct (removed_ev _ _ _ _ _ E) as [X|X]; rewrite X;
        apply remove_inv in E as (P & b & D & _); apply doRemove_spec in D; apply D. }
    all: step_cases E; cbn [fold_left drop_step app]; wsimp; try reflexivity.
  - intros p X. apply in_app_or in X as [X|X].
    + destruct (d2 p X) as [A B]. destruct (looked_keep _ _ _ _ _ E B) as [C D].
      rewrite D. auto.
    + apply (look_from _ _ _ _ _ _ E) in X as (_ & _ & _ & A & B). auto.
  - intros p n v X. apply in_app_or in X as [X|X].
    + destruct (d3 p n v X) as [A B].
      destruct (looked_keep _ _ _ _ _ E (ran_looked _ B)) as [_ D]. rewrite D.
      split; [exact A|]. eapply ran_keep; eauto.
    + destruct (attached_from _ _ _ _ _ _ _ E X) as (Ea & _ & P & Sg & (k & Nm) & _).
      assert (D : dropSeen (procs w p) = false).
      { destruct (dropSeen (procs w p)) eqn:DS; [|reflexivity].
        rewrite (d4 p DS n Sg) in Nm. discriminate Nm. }
      assert (B : ran (pc (procs w p)) = true) by (rewrite P; reflexivity).
      destruct (looked_keep _ _ _ _ _ E (ran_looked _ B)) as [_ D']. rewrite D'.
      split; [exact D|]. eapply ran_keep; eauto.
  - intros p DS. destruct (actor_dec a p) as [Ha|Ha].
    2:{ rewrite (step_frame _ _ _ _ E p Ha) in *. auto. }
    pose proof (pinv_reach _ _ R p) as PV.
    destruct (looked (pc (procs w p))) eqn:L.
    + destruct (looked_keep _ _ _ _ _ E L) as [_ D]. rewrite D in DS.
      eapply drop_names; eauto.
      * intros Z. rewrite Z in L. discriminate L.
      * apply (pv_rd _ _ _ PV).
    + pose proof (fresh_drop _ _ R p L) as F.
      assert (NN : names (procs w p) = []).
      { apply (pv_noname _ _ _ PV). destruct (pc (procs w p)); cbn in *; congruence. }
      intros n _. clear d1 d2 d3 d4.
      destruct a; cbn [actor] in Ha; try discriminate Ha; injection Ha as ->.
      4:{ apply create_inv in E as (P & _). rewrite P in L. discriminate L. }
      4:{ apply remove_inv in E as (P & _). rewrite P in L. discriminate L. }
      all: step_cases E; wsimp; rewrite ?updN_same; wsimp;
        repeat match goal with H : pc _ = _ |- _ => rewrite H in * end;
        cbn [looked] in *; try discriminate L; rewrite ?NN; reflexivity.
Qed.

Lemma dinv_reach w tr : reach w tr -> dinv w tr.
Proof.
  induction 1 as [|w tr a w' e R IH E].
  - constructor; cbn; try discriminate; try (intros; contradiction); reflexivity.
  - eapply dinv_step; eauto.
Qed.

Lemma drop_keep b : forall x, ~ In EDropGone b -> x = true -> fold_left drop_step b x = true.
Proof.
  induction b as [|e b IH]; intros x Hb ->; cbn [fold_left]; [reflexivity|].
  apply IH; [intros Y; apply Hb; right; exact Y|].
  destruct e; cbn [drop_step]; try reflexivity. destruct Hb. left. reflexivity.
Qed.

Lemma drop_marker tr p : run_trace tr -> drop_requested tr p -> never_attaches tr p.
Proof.
  intros Rt (a & b & c & s & Etr & Hb) n v X.
  destruct (run_trace_reach _ Rt) as [w R].
  assert (Hs : s = true).
  { assert (Etr' : tr = (a ++ EDropMade :: b) ++ ELooked p s :: c)
      by (rewrite Etr, <- app_assoc; reflexivity).
    destruct (reach_split _ _ R _ _ _ Etr')
      as (w0 & t0 & act & w1 & e1 & e2 & b' & R0 & S0 & Ea & _).
    assert (Y : In (ELooked p s) (e1 ++ ELooked p s :: e2))
      by (apply in_or_app; right; left; reflexivity).
    destruct (look_from _ _ _ _ _ _ S0 Y) as (-> & P & -> & _).
    assert (e1 = []).
    { cbn [step] in S0. rewrite P in S0. injection S0 as _ S0.
      destruct e1 as [|y e1]; [reflexivity|]. cbn [app] in S0. injection S0 as _ S0.
      destruct e1; discriminate S0. }
    subst e1. rewrite app_nil_r in Ea.
    rewrite (d_file _ _ (dinv_reach _ _ R0)), <- Ea, dropb_app. cbn [fold_left drop_step].
    apply drop_keep; auto. }
  subst s. destruct (dinv_reach _ _ R) as [_ L A _].
  destruct (A _ _ _ X) as [A1 _].
  destruct (L p) as [A2 _].
  { rewrite Etr. apply in_or_app. right. right. apply in_or_app. right. left. reflexivity. }
  congruence.
Qed.
