From Coq Require Import List Bool Arith Lia.
Import ListNotations.
From Verif Require Import NvmState_model NvmState_spec.

Inductive nreach : nw -> list nevent -> Prop :=
| nreach0 : nreach nw0 []
| nreachS w tr a w' e : nreach w tr -> nstep w a = Some (w', e) -> nreach w' (tr ++ e).

Lemma nrun_reach acts : forall w tr w' e,
  nreach w tr -> nrun w acts = Some (w', e) -> nreach w' (tr ++ e).
Proof.
  induction acts as [|a acts IH]; intros w tr w' e R; cbn [nrun].
  - intros E; inversion E; subst. rewrite app_nil_r. exact R.
  - destruct (nstep w a) as [[w1 e1]|] eqn:S; [|discriminate].
    destruct (nrun w1 acts) as [[w2 e2]|] eqn:X; [|discriminate].
    intros E; inversion E; subst. rewrite app_assoc.
    eapply IH; [|exact X]. econstructor; eassumption.
Qed.

Lemma nhistory_reach tr : nhistory tr -> exists w, nreach w tr.
Proof.
  intros (acts & w & E). exists w.
  apply (nrun_reach acts nw0 []); [constructor | exact E].
Qed.

Lemma nreach_split w tr : nreach w tr -> forall x a b, tr = a ++ x :: b ->
  exists w0 t0 act w1 e1 e2 b', nreach w0 t0 /\ nstep w0 act = Some (w1, e1 ++ x :: e2) /\
    a = t0 ++ e1 /\ b = e2 ++ b'.
Proof.
  induction 1 as [|w tr act w' e R IH E]; intros x a b Etr.
  - destruct a; discriminate Etr.
  - assert (D : (exists b1, tr = a ++ x :: b1 /\ b = b1 ++ e) \/
                (exists e1, a = tr ++ e1 /\ e = e1 ++ x :: b)).
    { clear -Etr. revert a Etr. induction tr as [|y tr IH]; intros a Etr.
      - right. exists a. cbn [app] in Etr. auto.
      - destruct a as [|z a]; cbn [app] in Etr; injection Etr as -> Etr.
        + left. exists tr. cbn [app]. auto.
        + destruct (IH _ Etr) as [(b1 & -> & ->)|(e1 & -> & ->)].
          * left. exists b1. auto.
          * right. exists e1. auto. }
    destruct D as [(b1 & Etr1 & Eb)|(e1 & Ea & Ee)].
    + destruct (IH _ _ _ Etr1) as (w0 & t0 & act0 & w1 & e1 & e2 & b' & R0 & S0 & -> & Eb1).
      exists w0, t0, act0, w1, e1, e2, (b' ++ e). repeat split; auto.
      rewrite Eb, Eb1, app_assoc. reflexivity.
    + exists w, tr, act, w', e1, b, []. rewrite app_nil_r. subst e. auto.
Qed.

Lemma nostart_app a b : nostart a -> nostart b -> nostart (a ++ b).
Proof. intros A B p c X. apply in_app_or in X as [X|X]; [eapply A | eapply B]; eauto. Qed.
Lemma nostart_nil : nostart [].
Proof. intros p c []. Qed.

Lemma untouched_app a b : untouched a -> untouched b -> untouched (a ++ b).
Proof. intros A B e X. apply in_app_or in X as [X|X]; [exact (A e X) | exact (B e X)]. Qed.

(** The running instance's own events. *)
Definition mine (p : nat) (c : ncfg) (y tr : list nevent) : Prop :=
  exists pre, tr = pre ++ NEStart p c :: y /\ nostart y.

Lemma mine_app p c y tr e : mine p c y tr -> nostart e -> mine p c (y ++ e) (tr ++ e).
Proof.
  intros (pre & -> & N) E. exists pre. split; [rewrite <- app_assoc; reflexivity|].
  apply nostart_app; assumption.
Qed.

(** The last instance that saved, and what followed. *)
Definition marked (r : nrec) (m : option (nat * nat)) (d : nat) (x tr : list nevent) : Prop :=
  exists q cq pre0 pre1 v,
    tr = pre0 ++ NEStart q cq :: pre1 ++ NEMarked q :: x /\ nostart pre1 /\
    content_of pre1 = Some v /\ time_of pre1 = Some (rTime r) /\ m = Some (v, d) /\
    rVer r = nVer cq /\ rEnc r = nEnc cq /\ rTrunc r = nTrunc cq.

Lemma marked_app r m d x tr e : marked r m d x tr -> marked r m d (x ++ e) (tr ++ e).
Proof.
  intros (q & cq & pre0 & pre1 & v & -> & R). exists q, cq, pre0, pre1, v.
  split; [|exact R].
  repeat (rewrite <- ?app_assoc; cbn [app]). reflexivity.
Qed.

Definition early (x : npc) : bool :=
  match x with NStat | NLoad | NOpen => true | _ => false end.
Definition late (x : npc) : bool :=
  match x with NInval | NUnlink | NFtrunc | NRun | NMark => true | _ => false end.
Definition pending (x : npc) : bool := match x with NOpen | NInit => true | _ => false end.

Record ninv (w : nw) (tr : list nevent) : Prop := mkNinv {
  n_mine : forall p i, cur w = Some (p, i) -> exists y, mine p (icfg i) y tr /\
     (ipc i <> NStat -> iDrop i = false -> In (NELooked p false) y) /\
     (late (ipc i) = true -> nHas (icfg i) = true ->
        content_of y = Some (iCont i) /\ time_of y = Some (iTime i));
  n_file : forall r, sfile w = Some (Some r) -> exists x,
     marked r (dmeta w) (ddata w) x tr /\
     match cur w with
     | None => untouched x
     | Some (p, i) => early (ipc i) = true /\
         exists x0 y, x = x0 ++ NEStart p (icfg i) :: y /\ untouched x0 /\ nostart y /\
                      untouched y
     end;
  n_pend : forall p i, cur w = Some (p, i) -> pending (ipc i) = true ->
     startFresh i = false -> exists r x x0 y,
     marked r (dmeta w) (ddata w) x tr /\
     x = x0 ++ NEStart p (icfg i) :: y /\ untouched x0 /\ nostart y /\
     rVer r = nVer (icfg i) /\ rEnc r = nEnc (icfg i) /\ rTrunc r = nTrunc (icfg i) /\
     iTime i = rTime r;
  n_clean : forall p i, cur w = Some (p, i) -> (ipc i = NStat \/ ipc i = NLoad) ->
     iClean i = false;
  n_mark : forall p i, cur w = Some (p, i) -> ipc i = NMark ->
     dmeta w = Some (iCont i, ddata w) /\ nHas (icfg i) = true;
  n_gone : forall p i, cur w = Some (p, i) -> ipc i <> NGone
}.

Lemma content_app a b : content_of (a ++ b) =
  fold_left (fun cur e => match e with
    | NEResumed _ v _ _ => Some v | NEFresh _ _ => Some 0 | NEPut _ v => Some v
    | _ => cur end) b (content_of a).
Proof. unfold content_of. apply fold_left_app. Qed.
Lemma time_app a b : time_of (a ++ b) =
  fold_left (fun cur e => match e with
    | NEResumed _ _ t _ => Some t | NEFresh _ t => Some t | _ => cur end) b (time_of a).
Proof. unfold time_of. apply fold_left_app. Qed.

Ltac nsimp := cbn [w_cur w_file w_ice w_dmeta w_ddata set_ipc set_drop set_clean set_time
  set_cont set_on markTruncated ice sfile dmeta ddata clk cur ipc icfg iDrop iClean iTime
  iCont iOn].

Ltac ncases E :=
  unfold nstep in E; cbv zeta in E;
  repeat match type of E with
  | context [match ?x with _ => _ end] =>
      lazymatch x with
      | context [match _ with _ => _ end] => fail
      | _ => destruct x eqn:?
      end
  end;
  try discriminate E;
  injection E as <- <-.

Lemma nostart_of (e : list nevent) :
  (forall x, In x e -> match x with NEStart _ _ => False | _ => True end) -> nostart e.
Proof. intros H p c X. apply (H _ X). Qed.

Ltac nost := apply nostart_of; cbn [In app]; intros ? ?HX;
  repeat (destruct HX as [HX|HX]; [subst; exact I|]); contradiction.

(** An instance that goes on without touching the record or the device. *)
Section Local.
Variables (w w' : nw) (tr e : list nevent) (p : nat) (i i' : inst).
Hypothesis V : ninv w tr.
Hypothesis C : cur w = Some (p, i).
Hypothesis C' : cur w' = Some (p, i').
Hypothesis G : icfg i' = icfg i.
Hypothesis NS : nostart e.
Hypothesis NG : ipc i' <> NGone.
Hypothesis HL : forall y, mine p (icfg i) y tr ->
  (ipc i <> NStat -> iDrop i = false -> In (NELooked p false) y) ->
  ipc i' <> NStat -> iDrop i' = false -> In (NELooked p false) (y ++ e).
Hypothesis HC : forall y, mine p (icfg i) y tr ->
  (late (ipc i) = true -> nHas (icfg i) = true ->
        content_of y = Some (iCont i) /\ time_of y = Some (iTime i)) ->
  late (ipc i') = true -> nHas (icfg i) = true ->
  content_of (y ++ e) = Some (iCont i') /\ time_of (y ++ e) = Some (iTime i').
Hypothesis HF : forall r, sfile w' = Some (Some r) ->
  sfile w = Some (Some r) /\ dmeta w' = dmeta w /\ ddata w' = ddata w /\
  (early (ipc i) = true -> early (ipc i') = true) /\ (early (ipc i) = true -> untouched e).
Hypothesis HP : pending (ipc i') = true -> startFresh i' = false ->
  dmeta w' = dmeta w /\ ddata w' = ddata w /\
  ((pending (ipc i) = true /\ startFresh i = false /\ iTime i' = iTime i) \/
   (exists r, sfile w = Some (Some r) /\ rVer r = nVer (icfg i) /\
      rEnc r = nEnc (icfg i) /\ rTrunc r = nTrunc (icfg i) /\ iTime i' = rTime r)).
Hypothesis HN : (ipc i' = NStat \/ ipc i' = NLoad) -> iClean i' = false.
Hypothesis HM : ipc i' = NMark ->
  dmeta w' = Some (iCont i', ddata w') /\ nHas (icfg i) = true.

Lemma ninv_local : ninv w' (tr ++ e).
Proof.
  destruct (n_mine _ _ V _ _ C) as (y & M & L & K).
  constructor.
  - intros p0 i0 X. rewrite C' in X. injection X as <- <-. rewrite G.
    exists (y ++ e). split; [apply mine_app; assumption|]. split; auto.
  - intros r X. destruct (HF r X) as (F & D1 & D2 & ER & UE). rewrite D1, D2.
    destruct (n_file _ _ V r F) as (x & Mk & Y). rewrite C in Y.
    destruct Y as (Er & x0 & y0 & -> & N0 & N1 & U1).
    exists ((x0 ++ NEStart p (icfg i) :: y0) ++ e). split; [apply marked_app, Mk|].
    rewrite C', G. split; [auto|]. exists x0, (y0 ++ e).
    split; [rewrite <- app_assoc; reflexivity|]. split; [exact N0|].
    split; [apply nostart_app; assumption | apply untouched_app; auto].
  - intros p0 i0 X Pd Fr. rewrite C' in X. injection X as <- <-. rewrite G.
    destruct (HP Pd Fr) as (D1 & D2 & [(P1 & P2 & P3)|(r & F & A1 & A2 & A3 & A4)]);
      rewrite D1, D2.
    + destruct (n_pend _ _ V _ _ C P1 P2) as (r & x & x0 & y0 & Mk & -> & N0 & N1 & A1 & A2 & A3 & A4).
      exists r, ((x0 ++ NEStart p (icfg i) :: y0) ++ e), x0, (y0 ++ e).
      split; [apply marked_app, Mk|]. split; [rewrite <- app_assoc; reflexivity|].
      split; [exact N0|]. split; [apply nostart_app; assumption|].
      repeat split; congruence.
    + destruct (n_file _ _ V r F) as (x & Mk & Y). rewrite C in Y.
      destruct Y as (_ & x0 & y0 & -> & N0 & N1 & U1).
      exists r, ((x0 ++ NEStart p (icfg i) :: y0) ++ e), x0, (y0 ++ e).
      split; [apply marked_app, Mk|]. split; [rewrite <- app_assoc; reflexivity|].
      split; [exact N0|]. split; [apply nostart_app; assumption|].
      repeat split; congruence.
  - intros p0 i0 X. rewrite C' in X. injection X as <- <-. exact HN.
  - intros p0 i0 X Y. rewrite C' in X. injection X as <- <-. rewrite G. auto.
  - intros p0 i0 X. rewrite C' in X. injection X as <- <-. exact NG.
Qed.
End Local.

(** The instance disappears. *)
Lemma ninv_gone w' tr e : cur w' = None ->
  (forall r, sfile w' = Some (Some r) -> exists x, marked r (dmeta w') (ddata w') x (tr ++ e) /\
     untouched x) -> ninv w' (tr ++ e).
Proof.
  intros C H. constructor; try (intros p i X; rewrite C in X; discriminate X).
  intros r X. destruct (H r X) as (x & M & N). exists x. rewrite C. auto.
Qed.

Ltac unt := let HX := fresh "HX" in intros ? HX; cbn [In app] in HX;
  repeat (destruct HX as [HX|HX]; [subst; exact I|]); contradiction.

Lemma ninv_die w w' tr e p i : ninv w tr -> cur w = Some (p, i) -> cur w' = None ->
  dmeta w' = dmeta w -> ddata w' = ddata w -> sfile w' = sfile w -> untouched e ->
  ninv w' (tr ++ e).
Proof.
  intros V C C' D1 D2 F U. apply ninv_gone; [exact C'|].
  intros r X. rewrite F in X. destruct (n_file _ _ V r X) as (x & M & Y). rewrite C in Y.
  destruct Y as (_ & x0 & y & -> & U0 & N & U1). rewrite D1, D2.
  exists ((x0 ++ NEStart p (icfg i) :: y) ++ e). split; [apply marked_app, M|].
  apply untouched_app; [|exact U]. apply untouched_app; [exact U0|].
  intros ev [<-|Y]; [exact I | apply U1, Y].
Qed.

(** Nothing of the running instance's file record is left once it came up. *)
Lemma file_none w tr p i : ninv w tr -> cur w = Some (p, i) -> early (ipc i) = false ->
  forall r, sfile w = Some (Some r) -> False.
Proof.
  intros V C E r X. destruct (n_file _ _ V r X) as (x & _ & Y). rewrite C in Y.
  destruct Y as (Y & _). congruence.
Qed.

Lemma in_left {A} (x : A) a b : In x a -> In x (a ++ b).
Proof. intros H. apply in_or_app. left. exact H. Qed.

Lemma restore_spec i f : iClean i = false ->
  icfg (restore i f) = icfg i /\
  (iDrop (restore i f) = false -> iDrop i = false) /\
  (startFresh (restore i f) = false -> exists r, f = Some (Some r) /\
     rVer r = nVer (icfg i) /\ rEnc r = nEnc (icfg i) /\ rTrunc r = nTrunc (icfg i) /\
     iTime (restore i f) = rTime r).
Proof.
  intros Cl. unfold restore. destruct f as [[r|]|].
  - destruct (startFresh (set_clean true i)) eqn:SF.
    + split; [reflexivity|]. split; [auto|]. intros X. congruence.
    + destruct ((rVer r =? nVer (icfg i)) && Bool.eqb (nEnc (icfg i)) (rEnc r)
              && Bool.eqb (nTrunc (icfg i)) (rTrunc r)) eqn:B.
      * split; [reflexivity|]. split; [auto|]. intros _. exists r.
        apply andb_true_iff in B as [B B3]. apply andb_true_iff in B as [B1 B2].
        apply Nat.eqb_eq in B1. apply Bool.eqb_prop in B2, B3. auto.
      * split; [reflexivity|]. split; [intros X; discriminate X|].
        intros X. unfold startFresh in X. discriminate X.
  - split; [reflexivity|]. split; [intros X; discriminate X|].
    intros X. unfold startFresh in X. discriminate X.
  - split; [reflexivity|]. split; [auto|]. unfold startFresh. rewrite Cl, orb_true_r.
    discriminate.
Qed.

Lemma ninv_step w tr a w' e : nstep w a = Some (w', e) -> no_silent (tr ++ e) ->
  ninv w tr -> ninv w' (tr ++ e).
Proof.
  intros E NSil V. destruct a; cbn [nstep] in E.
  - (* start *)
    destruct (cur w) as [[? ?]|] eqn:C; [discriminate E|]. injection E as <- <-.
    constructor; nsimp.
    + intros p0 i0 X. injection X as <- <-. nsimp. exists []. split.
      * exists tr. split; [reflexivity | apply nostart_nil].
      * split; [intros X; destruct (X eq_refl) | discriminate].
    + intros r X. destruct (n_file _ _ V r X) as (x & M & Y). rewrite C in Y.
      exists (x ++ [NEStart p c]). split; [apply marked_app, M|]. split; [reflexivity|].
      exists x, []. split; [reflexivity|]. split; [exact Y|].
      split; [apply nostart_nil | intros ? []].
    + intros p0 i0 X. injection X as <- <-. discriminate.
    + intros p0 i0 X. injection X as <- <-. reflexivity.
    + intros p0 i0 X. injection X as <- <-. discriminate.
    + intros p0 i0 X. injection X as <- <-. discriminate.
  - (* next *)
    destruct (cur w) as [[p i]|] eqn:C; [|discriminate E].
    destruct (ipc i) eqn:P; try discriminate E.
    + (* NStat *) injection E as <- <-.
      eapply ninv_local with (p := p) (i := i); nsimp; eauto; try discriminate;
        try (intros [HX|HX]; discriminate HX).
      * nost.
      * intros y _ _ _ D. revert D. nsimp. intros ->. apply in_or_app. right. left. reflexivity.
      * intros r X. split; [exact X|]. split; [reflexivity|]. split; [reflexivity|].
        split; [intros HE; first [exact HE | reflexivity] | intros _; unt].
      * intros _. apply (n_clean _ _ V p i C). left. exact P.
    + (* NLoad *) injection E as <- <-.
      pose proof (n_clean _ _ V p i C (or_intror P)) as Cl.
      destruct (restore_spec i (sfile w) Cl) as (R1 & R2 & R3).
      eapply ninv_local with (p := p) (i := i); nsimp; eauto; try discriminate;
        try (intros [HX|HX]; discriminate HX).
      * nost.
      * intros y _ L _ D. rewrite app_nil_r. apply L; [congruence | auto].
      * intros r X. split; [exact X|]. split; [reflexivity|]. split; [reflexivity|].
        split; [intros HE; first [exact HE | reflexivity] | intros _; unt].
    + (* NOpen *) injection E as <- <-.
      eapply ninv_local with (p := p) (i := i); nsimp; eauto; try discriminate;
        try (intros [HX|HX]; discriminate HX).
      * nost.
      * intros y _ L _ D. rewrite app_nil_r. apply L; [congruence | auto].
      * intros _ SF. split; [reflexivity|]. split; [reflexivity|]. left.
        rewrite P. auto.
    + (* NInit *)
      pose proof (file_none w tr p i V C) as FN. rewrite P in FN. specialize (FN eq_refl).
      destruct (nHas (icfg i)) eqn:Hn.
      * destruct (startFresh i || nDropNew (icfg i) && negb (nAttached (icfg i))).
        -- injection E as <- <-.
           eapply ninv_local with (p := p) (i := i); nsimp; eauto; try discriminate;
        try (intros [HX|HX]; discriminate HX).
           ++ nost.
           ++ intros y _ L _ D. apply in_left, L; [congruence | auto].
           ++ intros y _ _ _ _. rewrite content_app, time_app. cbn [fold_left]. auto.
           ++ intros r X. destruct (FN r X).
        -- assert (FRESH : forall t, t = iTime i ->
             ninv (w_cur w (Some (p, set_ipc NUnlink (set_cont 0 i)))) (tr ++ [NEFresh p t])).
           { intros t ->.
             eapply ninv_local with (p := p) (i := i); nsimp; eauto; try discriminate;
        try (intros [HX|HX]; discriminate HX).
             ++ nost.
             ++ intros y _ L _ D. apply in_left, L; [congruence | auto].
             ++ intros y _ _ _ _. rewrite content_app, time_app. cbn [fold_left]. auto.
             ++ intros r X. destruct (FN r X). }
           destruct (dmeta w) as [[v d]|] eqn:DM; [|injection E as <- <-; apply FRESH; reflexivity].
           destruct o; try (injection E as <- <-; apply FRESH; reflexivity).
           injection E as <- <-.
           eapply ninv_local with (p := p) (i := i); nsimp; eauto; try discriminate;
        try (intros [HX|HX]; discriminate HX).
           ++ nost.
           ++ intros y _ L _ D. apply in_left, L; [congruence | auto].
           ++ intros y _ _ _ _. rewrite content_app, time_app. cbn [fold_left]. auto.
           ++ intros r X. destruct (FN r X).
      * injection E as <- <-.
        eapply ninv_local with (p := p) (i := i); nsimp; eauto; try discriminate;
        try (intros [HX|HX]; discriminate HX).
        ++ nost.
        ++ intros y _ L _ D. apply in_left, L; [congruence | auto].
        ++ intros y _ _ _ X. congruence.
        ++ intros r X. destruct (FN r X).
    + (* NInval *)
      pose proof (file_none w tr p i V C) as FN. rewrite P in FN. specialize (FN eq_refl).
      assert (S : exists m, w' = w_cur (w_dmeta w m) (Some (p, set_ipc NUnlink i)) /\ e = []).
      { destruct o; injection E as <- <-; eauto; exists (dmeta w); destruct w; auto. }
      destruct S as (m & -> & ->).
      eapply ninv_local with (p := p) (i := i); nsimp; eauto; try discriminate;
        try (intros [HX|HX]; discriminate HX).
      * nost.
      * intros y _ L _ D. apply in_left, L; [congruence | auto].
      * intros y _ K _ Hn. rewrite app_nil_r. apply K; [rewrite P; reflexivity | exact Hn].
      * intros r X. destruct (FN r X).
    + (* NUnlink *)
      pose proof (file_none w tr p i V C) as FN. rewrite P in FN. specialize (FN eq_refl).
      injection E as <- <-.
      eapply ninv_local with (p := p) (i := i); nsimp; eauto; try discriminate;
        try (intros [HX|HX]; discriminate HX).
      * nost.
      * intros y _ L _ D. apply in_left, L; [congruence | auto].
      * intros y _ K _ Hn. rewrite content_app, time_app. cbn [fold_left].
        apply K; [rewrite P; reflexivity | exact Hn].
      * intros r X. destruct (FN r X).
    + (* NFtrunc *)
      injection E as <- <-.
      eapply ninv_local with (p := p) (i := i); nsimp; eauto; try discriminate;
        try (intros [HX|HX]; discriminate HX).
      * nost.
      * intros y _ L _ D. apply in_left, L; [congruence | auto].
      * intros y _ K _ Hn. rewrite app_nil_r. apply K; [rewrite P; reflexivity | exact Hn].
    + (* NMark *)
      injection E as <- <-. apply ninv_gone; [reflexivity |].
      intros r X. revert X. nsimp. intros X. injection X as <-.
      destruct (n_mark _ _ V p i C P) as [DM Hn].
      destruct (n_mine _ _ V p i C) as (y & (pre & -> & N) & _ & K).
      destruct K as [K1 K2]; [rewrite P; reflexivity | exact Hn |].
      exists [NEShut p (Some true)]. split.
      * exists p, (icfg i), pre, y, (iCont i). cbn [rTime rVer rEnc rTrunc].
        repeat split; auto. rewrite <- app_assoc. reflexivity.
      * unt.
  - (* put *)
    destruct (cur w) as [[p i]|] eqn:C; [|discriminate E].
    destruct (ipc i) eqn:P; try discriminate E.
    destruct (nHas (icfg i)) eqn:Hn; [|discriminate E]. injection E as <- <-.
    pose proof (file_none w tr p i V C) as FN. rewrite P in FN. specialize (FN eq_refl).
    eapply ninv_local with (p := p) (i := i); nsimp; eauto;
        cbn [set_cont set_on ipc icfg iDrop iClean iTime iCont iOn]; rewrite ?P; try discriminate;
        try (intros [HX|HX]; discriminate HX).
    + nost.
    + intros y _ L _ D. apply in_left, L; [congruence | auto].
    + intros y _ K _ _. rewrite content_app, time_app. cbn [fold_left]. split; [reflexivity|].
      apply K; auto.
    + intros r X. destruct (FN r X).
  - (* disable *)
    destruct (cur w) as [[p i]|] eqn:C; [|discriminate E].
    destruct (ipc i) eqn:P; try discriminate E. injection E as <- <-.
    pose proof (file_none w tr p i V C) as FN. rewrite P in FN. specialize (FN eq_refl).
    eapply ninv_local with (p := p) (i := i); nsimp; eauto;
        cbn [set_cont set_on ipc icfg iDrop iClean iTime iCont iOn]; rewrite ?P; try discriminate;
        try (intros [HX|HX]; discriminate HX).
    + nost.
    + intros y _ L _ D. apply in_left, L; [congruence | auto].
    + intros y _ K _ Hn. rewrite content_app, time_app. cbn [fold_left]. apply K; auto.
    + intros r X. destruct (FN r X).
  - (* shutDown *)
    destruct (cur w) as [[p i]|] eqn:C; [|discriminate E].
    destruct (ipc i) eqn:P; try discriminate E.
    pose proof (file_none w tr p i V C) as FN. rewrite P in FN. specialize (FN eq_refl).
    assert (GONE : forall m e0, ninv (w_cur (w_dmeta w m) None) (tr ++ e0)).
    { intros m e0. apply ninv_gone; [reflexivity |]. nsimp. intros r X. destruct (FN r X). }
    destruct (nHas (icfg i)) eqn:Hn.
    + cbv zeta in E. destruct (iOn i); [|injection E as <- <-; apply GONE].
      destruct o.
      * injection E as <- <-.
        eapply ninv_local with (p := p) (i := i); nsimp; eauto; try discriminate;
        try (intros [HX|HX]; discriminate HX).
        -- nost.
        -- intros y _ L _ D. apply in_left, L; [congruence | auto].
        -- intros y _ K _ _. rewrite app_nil_r. apply K; [rewrite P; reflexivity | exact Hn].
        -- intros r X. destruct (FN r X).
      * injection E as <- <-. apply GONE.
      * injection E as <- <-. exfalso. apply (NSil p). apply in_or_app. right. left. reflexivity.
    + injection E as <- <-. apply ninv_gone; [reflexivity |].
      nsimp. intros r X. destruct (FN r X).
  - (* torn *)
    destruct (cur w) as [[p i]|] eqn:C; [|discriminate E].
    destruct (ipc i) eqn:P; try discriminate E. injection E as <- <-.
    apply ninv_gone; [reflexivity |]. nsimp. intros r X. discriminate X.
  - (* crash *)
    destruct (cur w) as [[p i]|] eqn:C; [|discriminate E]. injection E as <- <-.
    eapply ninv_die; eauto; unt.
  - (* IceRoll *)
    assert (Z : (w_ice w true, [NEIce]) = (w', e)) by (destruct (cur w) as [[? ?]|]; congruence).
    injection Z as <- <-. destruct (cur w) as [[p i]|] eqn:C.
    + eapply ninv_local with (p := p) (i := i) (i' := i); nsimp; eauto.
      * nost.
      * apply (n_gone _ _ V p i C).
      * intros y _ L A D. apply in_left; auto.
      * intros y _ K A D. rewrite content_app, time_app. cbn [fold_left]. auto.
      * intros r X. split; [exact X|]. split; [reflexivity|]. split; [reflexivity|].
        split; [intros HE; first [exact HE | reflexivity] | intros _; unt].
      * intros A D. split; [reflexivity|]. split; [reflexivity|]. left. auto.
      * apply (n_clean _ _ V p i C).
      * intros X. apply (n_mark _ _ V p i C X).
    + apply ninv_gone; [exact C |]. nsimp. intros r X.
      destruct (n_file _ _ V r X) as (x & M & Y). rewrite C in Y.
      exists (x ++ [NEIce]). split; [apply marked_app, M|]. apply untouched_app; [exact Y | unt].
  - (* tick *)
    assert (Z : (mkNw (ice w) (sfile w) (dmeta w) (ddata w) (S (clk w)) (cur w), []) = (w', e))
      by (destruct (cur w) as [[? ?]|]; congruence).
    injection Z as <- <-. rewrite app_nil_r. destruct V. constructor; nsimp; auto.
Qed.

Lemma ninv_reach w tr : nreach w tr -> no_silent tr -> ninv w tr.
Proof.
  induction 1 as [|w tr a w' e R IH E]; intros NS.
  - constructor; cbn; try (intros; discriminate).
  - eapply ninv_step; eauto. apply IH. intros p X. apply (NS p), in_or_app. left. exact X.
Qed.

Lemma resumed_from w a w' e p v t s : nstep w a = Some (w', e) -> In (NEResumed p v t s) e ->
  e = [NEResumed p v t s] /\ exists i d, cur w = Some (p, i) /\ ipc i = NInit /\
  nHas (icfg i) = true /\ startFresh i = false /\
  (nDropNew (icfg i) = true -> nAttached (icfg i) = true) /\
  dmeta w = Some (v, d) /\ s = (d =? ddata w) /\ t = iTime i.
Proof.
  intros E Hin. destruct a; unfold nstep in E; cbv zeta in E.
  all: repeat match type of E with
  | context [match ?x with _ => _ end] =>
      lazymatch x with
      | context [match _ with _ => _ end] => fail
      | _ => destruct x eqn:?
      end
  end; try discriminate E; injection E as <- <-; cbn [In app] in Hin;
    repeat match goal with H : _ \/ _ |- _ => destruct H as [H|H] end;
    try contradiction; try discriminate Hin.
  injection Hin as <- <- <- <-. split; [reflexivity|].
  match goal with H : cur w = Some (?a, ?b), D : dmeta w = Some (?c, ?d) |- _ => exists b, d end.
  apply orb_false_iff in Heqb0 as [SF DN].
  repeat split; auto. intros X. rewrite X in DN. cbn [andb] in DN.
  apply negb_false_iff in DN. exact DN.
Qed.

Lemma resume_saved tr : nhistory tr -> no_silent tr -> resume_only_saved tr.
Proof.
  intros H NS pre p v t s post Etr.
  destruct (nhistory_reach _ H) as [w R].
  destruct (nreach_split _ _ R _ _ _ Etr)
    as (w0 & t0 & act & w1 & e1 & e2 & b' & R0 & S0 & Ea & Eb).
  destruct (resumed_from _ _ _ _ p v t s S0) as (Ee & i & d & C & P & Hn & SF & DN & DM & Es & Et);
    [apply in_or_app; right; left; reflexivity|].
  assert (e1 = []).
  { destruct e1 as [|z e1]; [reflexivity|]. cbn [app] in Ee. injection Ee as _ Ee.
    destruct e1; discriminate Ee. }
  subst e1. rewrite app_nil_r in Ea. subst t0.
  assert (V : ninv w0 pre).
  { apply ninv_reach; [exact R0|]. intros q X. apply (NS q). rewrite Etr.
    apply in_or_app. left. exact X. }
  destruct (n_pend _ _ V p i C) as (r & x & x0 & y & M & -> & U0 & N & A1 & A2 & A3 & A4);
    [rewrite P; reflexivity | exact SF |].
  destruct M as (q & cq & pre0 & pre1 & v' & E1 & N1 & K1 & K2 & DM' & B1 & B2 & B3).
  rewrite DM in DM'. injection DM' as -> ->.
  split; [rewrite Es; apply Nat.eqb_refl|].
  exists q, cq, (icfg i), pre0, pre1, x0, y.
  destruct (n_mine _ _ V p i C) as (y2 & (pre2 & E2 & N2) & L & _).
  assert (y2 = y).
  { rewrite E1 in E2. clear -E2 N N2.
    assert (G : forall a b (z z' : nevent) , a ++ NEStart p (icfg i) :: y = b ++ NEStart p (icfg i) :: y2 -> y2 = y).
    { clear E2. intros a. induction a as [|u a IH]; intros b z z' Eq.
      - destruct b as [|u' b]; cbn [app] in Eq; [injection Eq as Eq; auto|].
        injection Eq as Eq0 Eq. exfalso. apply (N p (icfg i)). rewrite Eq. apply in_or_app. right. left. reflexivity.
      - destruct b as [|u' b]; cbn [app] in Eq.
        + injection Eq as Eq0 Eq. exfalso. apply (N2 p (icfg i)). rewrite <- Eq.
          apply in_or_app. right. left. reflexivity.
        + injection Eq as _ Eq. eapply IH; eauto. }
    apply (G (pre0 ++ NEStart q cq :: pre1 ++ NEMarked q :: x0) pre2 NEIce NEIce).
    rewrite <- E2. repeat (rewrite <- ?app_assoc; cbn [app]). reflexivity. }
  subst y2. rewrite E1.
  split; [reflexivity|]. split; [exact N1|]. split; [exact U0|]. split; [exact N|].
  split; [exact K1|]. split; [congruence|].
  split; [congruence|]. split; [congruence|]. split; [congruence|].
  split; [exact Hn|]. split; [|exact DN].
  apply L; [rewrite P; discriminate|]. unfold startFresh in SF.
  apply orb_false_iff in SF as [SF _]. exact SF.
Qed.
