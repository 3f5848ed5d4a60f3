From Coq Require Import List Bool Arith Lia.
Import ListNotations.
From Verif Require Import NvmState_model NvmState_spec NvmState_proofs.

Lemma ice_app a b : ice_of (a ++ b) =
  fold_left (fun b e => match e with NEIce => true | NEIceGone _ => false | _ => b end) b (ice_of a).
Proof. unfold ice_of. apply fold_left_app. Qed.

Ltac nall E :=
  unfold nstep in E; cbv zeta in E;
  repeat match type of E with
  | context [match ?x with _ => _ end] =>
      lazymatch x with
      | context [match _ with _ => _ end] => fail
      | _ => destruct x eqn:?
      end
  end; try discriminate E; injection E as ? ?; subst.

Lemma ice_reach w tr : nreach w tr -> ice w = ice_of tr.
Proof.
  induction 1 as [|w tr a w' e R IH E]; [reflexivity|].
  rewrite ice_app. destruct a; nall E; nsimp; cbn [fold_left app]; auto.
Qed.

Lemma looked_from w a w' e p s : nstep w a = Some (w', e) -> In (NELooked p s) e ->
  e = [NELooked p s] /\ s = ice w.
Proof.
  intros E Hin. destruct a; nall E; cbn [In app] in Hin;
    repeat match goal with H : _ \/ _ |- _ => destruct H as [H|H] end;
    try contradiction; try discriminate Hin.
  injection Hin as <- <-. auto.
Qed.

Lemma looked_sees tr : nhistory tr -> forall a p s b, tr = a ++ NELooked p s :: b -> s = ice_of a.
Proof.
  intros H a p s b Etr. destruct (nhistory_reach _ H) as [w R].
  destruct (nreach_split _ _ R _ _ _ Etr)
    as (w0 & t0 & act & w1 & e1 & e2 & b' & R0 & S0 & Ea & Eb).
  destruct (looked_from _ _ _ _ p s S0) as [Ee Es];
    [apply in_or_app; right; left; reflexivity|].
  assert (e1 = []).
  { destruct e1 as [|z e1]; [reflexivity|]. cbn [app] in Ee. injection Ee as _ Ee.
    destruct e1; discriminate Ee. }
  subst e1. rewrite app_nil_r in Ea. subst t0. rewrite Es. apply ice_reach, R0.
Qed.

Definition drop_of (l : list nevent) : bool :=
  fold_left (fun b e => match e with NEStart _ _ => false | NELooked _ s => b || s | _ => b end) l false.
Lemma drop_app a b : drop_of (a ++ b) =
  fold_left (fun b e => match e with NEStart _ _ => false | NELooked _ s => b || s | _ => b end) b (drop_of a).
Proof. unfold drop_of. apply fold_left_app. Qed.

Lemma restore_drop i f : iDrop i = true -> iDrop (restore i f) = true.
Proof.
  intros H. unfold restore. destruct f as [[r|]|]; auto. unfold startFresh.
  destruct (_ || _); [exact H|]. destruct (_ && _); auto.
Qed.

Lemma drop_reach w tr : nreach w tr -> forall p i, cur w = Some (p, i) -> drop_of tr = true ->
  iDrop i = true /\ ipc i <> NStat.
Proof.
  induction 1 as [|w tr a w' e R IH E]; intros q j C D; [discriminate|].
  rewrite drop_app in D.
  destruct a; nall E; revert C D; nsimp; cbn [fold_left app]; intros C D; try discriminate;
    try (injection C as ? ?; subst; nsimp);
    try (edestruct IH as [Z1 Z2]; [reflexivity || eassumption | exact D |];
         try (split; [ first [exact Z1 | apply restore_drop; exact Z1 | (rewrite <- Z1; assumption)] | congruence]); fail).
  all: try (split; [congruence | discriminate]).
  all: try (edestruct IH as [Z1 Z2]; [reflexivity || eassumption | exact D |];
         split; [ first [exact Z1 | apply restore_drop; exact Z1] | congruence]).
  split; [|discriminate]. destruct (drop_of tr) eqn:DR; [|exact D].
  edestruct IH as [_ Z2]; [reflexivity || eassumption | reflexivity |]. congruence.
Qed.

Lemma drop_nostart y : forall b, nostart y -> b = true ->
  fold_left (fun b e => match e with NEStart _ _ => false | NELooked _ s => b || s | _ => b end) y b
  = true.
Proof.
  induction y as [|e y IH]; intros b N ->; [reflexivity|]. cbn [fold_left]. apply IH.
  - intros p c X. apply (N p c). right. exact X.
  - destruct e; auto. exfalso. eapply N. left. reflexivity.
Qed.

Lemma dropped tr : nhistory tr -> forall a p y q v t s b,
  tr = a ++ NELooked p true :: y ++ NEResumed q v t s :: b -> nostart y -> False.
Proof.
  intros H a p y q v t s b Etr N.
  destruct (nhistory_reach _ H) as [w R].
  assert (Etr2 : tr = (a ++ NELooked p true :: y) ++ NEResumed q v t s :: b)
    by (rewrite Etr, <- app_assoc; reflexivity).
  destruct (nreach_split _ _ R _ _ _ Etr2)
    as (w0 & t0 & act & w1 & e1 & e2 & b' & R0 & S0 & Ea & Eb).
  destruct (resumed_from _ _ _ _ q v t s S0) as (Ee & i & d & C & P & Hn & SF & _);
    [apply in_or_app; right; left; reflexivity|].
  assert (e1 = []).
  { destruct e1 as [|z e1]; [reflexivity|]. cbn [app] in Ee. injection Ee as _ Ee.
    destruct e1; discriminate Ee. }
  subst e1. rewrite app_nil_r in Ea. subst t0.
  destruct (drop_reach _ _ R0 q i C) as [D _].
  - rewrite drop_app. cbn [fold_left]. apply drop_nostart; [exact N | apply orb_true_r].
  - unfold startFresh in SF. rewrite D in SF. discriminate SF.
Qed.

Lemma hands_over acts w tr q i p c :
  nrun nw0 acts = Some (w, tr) -> no_silent tr ->
  cur w = Some (q, i) -> ipc i = NRun -> nHas (icfg i) = true -> iOn i = true ->
  ice w = false -> fits (icfg i) c ->
  exists pre y v t w',
    tr = pre ++ NEStart q (icfg i) :: y /\ nostart y /\
    content_of y = Some v /\ time_of y =  Some t /\
    nrun w (hand_over p c) = Some (w',
      [NEMarked q; NEShut q (Some true); NEStart p c; NELooked p false;
       NEResumed p v t true; NEIceGone p]).
Proof.
  intros E NS C P Hn On Ic (F1 & F2 & F3 & F4 & F5).
  assert (R : nreach w tr) by (apply (nrun_reach acts nw0 [] w tr); [constructor | exact E]).
  pose proof (ninv_reach _ _ R NS) as V.
  destruct (n_mine _ _ V q i C) as (y & (pre & Etr & N) & _ & K).
  destruct K as [K1 K2]; [rewrite P; reflexivity | exact Hn |].
  exists pre, y, (iCont i), (iTime i).
  destruct w as [ic sf dm dd ck cu]. cbn [cur ice] in *. subst cu ic.
  destruct i as [pc cf dr cl ti co on]. cbn [ipc icfg iOn iCont iTime] in *. subst pc on.
  eexists. split; [exact Etr|]. split; [exact N|]. split; [exact K1|]. split; [exact K2|].
  unfold hand_over. cbn [nrun nstep cur ipc]. cbn [icfg]. rewrite Hn. cbv zeta. cbn [iOn].
  cbn [w_cur w_dmeta w_file set_ipc set_drop set_clean set_time set_cont ice sfile dmeta ddata clk cur ipc icfg iDrop
       iClean iTime iCont iOn].
  cbn [restore startFresh set_ipc set_drop set_clean set_time ipc icfg iDrop iClean iTime iCont iOn
       orb negb rVer rTime rEnc rTrunc].
  rewrite F1, F2, F3, Nat.eqb_refl, !Bool.eqb_reflx. cbn [andb].
  cbn [startFresh set_ipc set_drop set_clean set_time ipc icfg iDrop iClean iTime iCont iOn
       orb negb rVer rTime rEnc rTrunc]. unfold startFresh. cbn [iDrop iClean negb orb].
  rewrite F4.
  assert (DN : nDropNew c && negb (nAttached c) = false).
  { destruct (nDropNew c); [|reflexivity]. rewrite F5; reflexivity. }
  rewrite DN, Nat.eqb_refl. cbn. reflexivity.
Qed.

(** ** The creation time of a flash cache that is dropped *)
Definition cfg_of (l : list nevent) : option (nat * ncfg) :=
  fold_left (fun b e => match e with NEStart p c => Some (p, c) | _ => b end) l None.
Lemma cfg_app a b : cfg_of (a ++ b) = fold_left (fun b e => match e with NEStart p c => Some (p, c) | _ => b end) b (cfg_of a).
Proof. unfold cfg_of. apply fold_left_app. Qed.
Lemma cfg_nostart y : forall b, nostart y -> fold_left (fun b e => match e with NEStart p c => Some (p, c) | _ => b end) y b = b.
Proof.
  induction y as [|e y IH]; intros b N; [reflexivity|]. cbn [fold_left]. rewrite IH.
  - destruct e; auto. exfalso. eapply N. left. reflexivity.
  - intros p c X. apply (N p c). right. exact X.
Qed.
Lemma restore_cfg i f : icfg (restore i f) = icfg i.
Proof.
  unfold restore. destruct f as [[r|]|]; auto.
  destruct (startFresh _); [reflexivity|]. destruct (_ && _); auto.
Qed.
Lemma cfg_reach w tr : nreach w tr -> forall p i, cur w = Some (p, i) -> cfg_of tr = Some (p, icfg i).
Proof.
  induction 1 as [|w tr a w' e R IH E]; intros q j C; [discriminate|].
  rewrite cfg_app.
  destruct a; nall E; revert C; nsimp; cbn [fold_left app]; intros C; try discriminate;
    try (injection C as ? ?; subst; nsimp); rewrite ?restore_cfg; try reflexivity; auto.
Qed.

Lemma step_clk w a w' e : nstep w a = Some (w', e) -> clk w <= clk w'.
Proof. intros E. destruct a; nall E; nsimp; auto. Qed.

Lemma fresh_from w a w' e q t : nstep w a = Some (w', e) -> In (NEFresh q t) e ->
  e = [NEFresh q t] /\ exists i, cur w = Some (q, i) /\
  (iDrop i = true \/ nDropNew (icfg i) && negb (nAttached (icfg i)) = true -> t = clk w).
Proof.
  intros E I. destruct a; nall E; cbn [In app] in I; repeat match goal with H : _ \/ _ |- _ => destruct H as [H|H] end; try contradiction; try discriminate I;
  injection I as <- <-; (split; [reflexivity|]); eexists; (split; [reflexivity || eassumption|]); intros H; auto;
  exfalso; match goal with X : _ || _ = false |- _ => apply orb_false_iff in X; destruct X as [X1 X2] end;
  unfold startFresh in X1; apply orb_false_iff in X1; destruct X1; destruct H; congruence.
Qed.

Lemma app_split {A} : forall (e e2 z : list A) x b, e ++ e2 = z ++ x :: b ->
  (exists b', e = z ++ x :: b') \/ (exists z', z = e ++ z' /\ e2 = z' ++ x :: b).
Proof.
  induction e as [|h e IH]; intros e2 z x b E.
  - right. exists z. auto.
  - destruct z as [|k z]; cbn [app] in E; injection E as -> E.
    + left. exists e. reflexivity.
    + destruct (IH _ _ _ _ E) as [[b' ->]|[z' [-> ->]]]; [left; exists b'; reflexivity|right; exists z'; auto].
Qed.

Notation toldDrop := told_to_drop.
Lemma told_app tr e : toldDrop tr -> nostart e -> toldDrop (tr ++ e).
Proof.
  intros (x & p & c & y & -> & N & H) Ne. exists x, p, c, (y ++ e). rewrite <- app_assoc. split; [reflexivity|].
  split; [apply nostart_app; auto|]. destruct H as [H|H]; [left; apply in_or_app; auto|right; auto].
Qed.
Lemma told_drop w tr p i : nreach w tr -> cur w = Some (p, i) -> toldDrop tr ->
  iDrop i = true \/ nDropNew (icfg i) && negb (nAttached (icfg i)) = true.
Proof.
  intros R C (x & q & c & y & -> & N & H).
  pose proof (cfg_reach _ _ R p i C) as K. rewrite cfg_app in K. cbn [fold_left] in K. rewrite cfg_nostart in K by exact N. injection K as <- ->.
  destruct H as [H|[H1 H2]]; [left|right; rewrite H1, H2; reflexivity].
  apply in_split in H. destruct H as (y1 & y2 & ->).
  apply (drop_reach _ _ R q i C). rewrite drop_app. cbn [fold_left]. rewrite fold_left_app. cbn [fold_left].
  apply drop_nostart; [|apply orb_true_r]. intros p' c' X. apply (N p' c'). apply in_or_app. right. right. exact X.
Qed.

Lemma new_time : forall a2 w1 tr1 w2 tr2 z q t b, nreach w1 tr1 -> toldDrop tr1 -> nrun w1 a2 = Some (w2, tr2) ->
  tr2 = z ++ NEFresh q t :: b -> nostart z -> clk w1 <= t.
Proof.
  induction a2 as [|a a2 IH]; intros w1 tr1 w2 tr2 z q t b R T E Etr N; cbn [nrun] in E.
  - injection E as <- <-. destruct z; discriminate Etr.
  - destruct (nstep w1 a) as [[w' e1]|] eqn:S; [|discriminate].
    destruct (nrun w' a2) as [[w3 e2]|] eqn:X; [|discriminate].
    injection E as <- <-. destruct (app_split _ _ _ _ _ Etr) as [[b' Q]|[z' [-> ->]]].
    + destruct (fresh_from _ _ _ _ q t S) as (_ & i & C & H); [rewrite Q; apply in_or_app; right; left; reflexivity|].
      rewrite H; [auto|]. eapply told_drop; eauto.
    + pose proof (step_clk _ _ _ _ S).
      assert (clk w' <= t); [|lia].
      eapply IH; [econstructor; eassumption| |exact X|reflexivity|].
      * apply told_app; auto. intros p c Y. apply (N p c). apply in_or_app. auto.
      * intros p c Y. apply (N p c). apply in_or_app. auto.
Qed.
