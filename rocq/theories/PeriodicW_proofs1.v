(** The invariant of the periodic worker. *)
From Coq Require Import List Arith Bool Lia.
Import ListNotations.
From Verif Require Import PeriodicW_model PeriodicW_spec.

Definition exited (p : tpc) : bool := match p with TNote | TDone => true | _ => false end.
Definition waiting (p : cpc) : bool := match p with CWait _ _ => true | _ => false end.
Definition cnt (s : state) : nat :=
  (if flag s then 1 else 0) + match thr s with Some t => if exited (ths s t) then 1 else 0 | None => 0 end.

Record Inv (s : state) : Prop := {
  i_ex : forall t, thr s <> Some t -> exited (ths s t) = true;
  i_nx : forall t, next s <= t -> ths s t = TDone;
  i_th : forall t, thr s = Some t -> t < next s;
  i_pre : forall t, ths s t = TPre -> held s = true;
  i_held : held s = true -> exists t, ths s t = TPre;
  i_nc : forall c, nc s <= c -> ctl s c = CIdle;
  i_join : forall c t, ctl s c = CJoin t -> exited (ths s t) = true /\ thr s <> Some t /\ t < next s;
  i_none : thr s = None -> flag s = false;
  i_sleep : forall t, ths s t = TSleep false -> flag s = false;
  i_ws : exists ws, NoDup ws /\ (forall c, In c ws <-> waiting (ctl s c) = true) /\ length ws = cnt s
}.

Lemma some_inj : forall A (a b : A), Some a = Some b -> a = b. Proof. congruence. Qed.

Lemma updE : forall A (f : nat -> A) i v j, upd f i v j = if j =? i then v else f j.
Proof. reflexivity. Qed.

Lemma notify_cases : forall s w s1, notify s w = Some s1 ->
  (w = Nobody /\ s1 = s /\ (forall t, t < next s -> blockedT (ths s t) = false) /\ (forall c, c < nc s -> blockedC (ctl s c) = false)) \/
  (exists t, w = Thread t /\ t < next s /\ ths s t = TSleep false /\ s1 = setT s t (TSleep true)) \/
  (exists c f, w = Caller c /\ c < nc s /\ ctl s c = CWait f false /\ s1 = setC s c (CWait f true)).
Proof.
  intros s w s1 H; destruct w as [|t|c]; unfold notify in H.
  - destruct (existsb _ _ || existsb _ _) eqn:E; [discriminate|]. apply some_inj in H. left.
    apply orb_false_iff in E. destruct E as [E1 E2]. split; [reflexivity|]. split; [now symmetry|]. split.
    + intros t L. destruct (blockedT (ths s t)) eqn:B; [|reflexivity]. exfalso.
      assert (existsb (fun t => blockedT (ths s t)) (seq 0 (next s)) = true) by (apply existsb_exists; exists t; split; [apply in_seq; lia|exact B]). congruence.
    + intros c L. destruct (blockedC (ctl s c)) eqn:B; [|reflexivity]. exfalso.
      assert (existsb (fun c => blockedC (ctl s c)) (seq 0 (nc s)) = true) by (apply existsb_exists; exists c; split; [apply in_seq; lia|exact B]). congruence.
  - destruct ((t <? next s) && blockedT (ths s t)) eqn:E; [|discriminate]. apply some_inj in H. right; left. exists t.
    apply andb_true_iff in E. destruct E as [E1 E2]. apply Nat.ltb_lt in E1. destruct (ths s t) as [| | | |[]| |] eqn:T; try discriminate. repeat split; auto.
  - destruct (ctl s c) as [| | | |f [] | | | | |] eqn:C; try discriminate. destruct (c <? nc s) eqn:L; [|discriminate]. apply Nat.ltb_lt in L.
    apply some_inj in H. right; right. exists c, f. repeat split; auto.
Qed.

Lemma notify_can : forall s, exists w s1, notify s w = Some s1.
Proof.
  intros s. destruct (existsb (fun t => blockedT (ths s t)) (seq 0 (next s))) eqn:E1.
  - apply existsb_exists in E1. destruct E1 as [t [I B]]. apply in_seq in I. exists (Thread t). unfold notify. rewrite B.
    replace (t <? next s) with true by (symmetry; apply Nat.ltb_lt; lia). cbn. eexists; reflexivity.
  - destruct (existsb (fun c => blockedC (ctl s c)) (seq 0 (nc s))) eqn:E2.
    + apply existsb_exists in E2. destruct E2 as [c [I B]]. apply in_seq in I. exists (Caller c). unfold notify.
      destruct (ctl s c) as [| | | |f [] | | | | |]; try discriminate. replace (c <? nc s) with true by (symmetry; apply Nat.ltb_lt; lia). eexists; reflexivity.
    + exists Nobody. unfold notify. rewrite E1, E2. eexists; reflexivity.
Qed.

(** changing a thread without changing what [Inv] looks at *)
Lemma inv_setT : forall s t p, Inv s -> t < next s -> exited p = exited (ths s t) -> (p = TPre <-> ths s t = TPre) ->
  (p = TSleep false -> flag s = false) -> Inv (setT s t p).
Proof.
  intros s t p [A B C D D2 E F G H W] L X P S.
  constructor; cbn; unfold upd; intros.
  - destruct (Nat.eqb_spec t0 t) as [Z|]; [subst t0|]; [rewrite X|]; apply A; assumption.
  - destruct (Nat.eqb_spec t0 t) as [Z|]; [subst t0|]; [lia|auto].
  - auto.
  - destruct (Nat.eqb_spec t0 t) as [Z|]; [subst t0|]; [apply (D t); tauto|eauto].
  - destruct (D2 H0) as [u Hu]. exists u. destruct (Nat.eqb_spec u t) as [Z|]; [subst u|]; tauto.
  - auto.
  - destruct (F _ _ H0) as (F1 & F2 & F3). destruct (Nat.eqb_spec t0 t) as [Z|]; [subst t0|]; [rewrite X|]; auto.
  - auto.
  - destruct (Nat.eqb_spec t0 t) as [Z|]; [subst t0|]; eauto.
  - destruct W as (ws & W1 & W2 & W3). exists ws. split; [assumption|]. split; [assumption|]. rewrite W3. unfold cnt; cbn.
    destruct (thr s) as [u|]; [|reflexivity]. unfold upd. destruct (Nat.eqb_spec u t) as [Z|]; [subst u|]; [now rewrite X|reflexivity].
Qed.
(** changing a caller that neither begins nor ends to wait or to join *)
Lemma inv_setC : forall s c p, Inv s -> c < nc s -> waiting p = waiting (ctl s c) -> (forall t, p <> CJoin t) -> Inv (setC s c p).
Proof.
  intros s c p [A B C D D2 E F G H W] L X J.
  constructor; cbn; unfold upd; intros; eauto.
  - destruct (Nat.eqb_spec c0 c); subst; [lia|auto].
  - destruct (Nat.eqb_spec c0 c); subst; [exfalso; eapply J; eauto|eauto].
  - destruct W as (ws & W1 & W2 & W3). exists ws. split; [assumption|]. split; [|assumption].
    intros d. rewrite W2. destruct (Nat.eqb_spec d c); subst; [rewrite X|]; reflexivity.
Qed.
Lemma in_nc : forall s c, Inv s -> ctl s c <> CIdle -> c < nc s.
Proof. intros s c I N. destruct (Nat.lt_ge_cases c (nc s)); [assumption|]. exfalso. apply N. eapply i_nc; eauto. Qed.
Lemma in_next : forall s t, Inv s -> ths s t <> TDone -> t < next s.
Proof. intros s t I N. destruct (Nat.lt_ge_cases t (next s)); [assumption|]. exfalso. apply N. eapply i_nx; eauto. Qed.
Lemma alive : forall s t, Inv s -> exited (ths s t) = false -> thr s = Some t.
Proof.
  intros s t I N. destruct (thr s) as [u|] eqn:E.
  - destruct (Nat.eq_dec u t); [now subst|]. exfalso. assert (exited (ths s t) = true) by (eapply i_ex; eauto; congruence). congruence.
  - exfalso. assert (exited (ths s t) = true) by (eapply i_ex; eauto; congruence). congruence.
Qed.
Lemma inv_notify : forall s w s1, Inv s -> notify s w = Some s1 -> Inv s1.
Proof.
  intros s w s1 I N. apply notify_cases in N. destruct N as [(->&->&_)|[(t & -> & L & T & ->)|(c & f & -> & L & C & ->)]].
  - assumption.
  - apply inv_setT; auto; rewrite ?T; try easy.
  - apply inv_setC; auto; rewrite ?C; easy.
Qed.
Lemma inv_setWake : forall s b, Inv s -> Inv (setWake s b).
Proof. intros s b [A B C D D2 E F G H W]. constructor; cbn; eauto. Qed.

Lemma len_remove : forall c (ws : list nat), NoDup ws -> In c ws -> S (length (remove Nat.eq_dec c ws)) = length ws.
Proof.
  intros c ws. induction ws as [|a ws IH]; intros N I; [contradiction|]. inversion N; subst. cbn.
  destruct (Nat.eq_dec c a).
  - subst. rewrite notin_remove; auto.
  - destruct I; [congruence|]. cbn. rewrite IH; auto.
Qed.
Lemma NoDup_remove' : forall c (ws : list nat), NoDup ws -> NoDup (remove Nat.eq_dec c ws).
Proof.
  intros c ws N. induction N as [|a ws NI N IH]; [constructor|]. cbn. destruct (Nat.eq_dec c a); [assumption|].
  constructor; [|assumption]. intros X. apply in_remove in X. tauto.
Qed.

(** a caller stops waiting *)
Lemma ws_leave : forall s c p n, (exists ws, NoDup ws /\ (forall c, In c ws <-> waiting (ctl s c) = true) /\ length ws = S n) ->
  waiting (ctl s c) = true -> waiting p = false ->
  exists ws, NoDup ws /\ (forall d, In d ws <-> waiting (upd (ctl s) c p d) = true) /\ length ws = n.
Proof.
  intros s c p n (ws & W1 & W2 & W3) X Y. exists (remove Nat.eq_dec c ws). split; [now apply NoDup_remove'|]. split.
  - intros d. unfold upd. destruct (Nat.eqb_spec d c).
    + subst. rewrite Y. split; [|discriminate]. intros Z. apply in_remove in Z. tauto.
    + rewrite <- W2. split; intros Z; [apply in_remove in Z; tauto|]. now apply in_in_remove.
  - apply W2 in X. pose proof (len_remove c ws W1 X). lia.
Qed.
Lemma ws_same : forall s c p n, (exists ws, NoDup ws /\ (forall c, In c ws <-> waiting (ctl s c) = true) /\ length ws = n) ->
  waiting p = waiting (ctl s c) ->
  exists ws, NoDup ws /\ (forall d, In d ws <-> waiting (upd (ctl s) c p d) = true) /\ length ws = n.
Proof.
  intros s c p n (ws & W1 & W2 & W3) X. exists ws. split; [assumption|]. split; [|assumption].
  intros d. rewrite W2. unfold upd. destruct (Nat.eqb_spec d c); subst; [rewrite X|]; reflexivity.
Qed.
Lemma ws_pos : forall s c n, (exists ws, NoDup ws /\ (forall c, In c ws <-> waiting (ctl s c) = true) /\ length ws = n) ->
  waiting (ctl s c) = true -> 0 < n.
Proof. intros s c n (ws & W1 & W2 & W3) X. apply W2 in X. destruct ws; [contradiction|]. cbn in W3. lia. Qed.

Lemma inv_init : forall n, Inv (init n).
Proof. intros n. constructor; cbn; try easy. exists []. split; [constructor|]. split; [|reflexivity]. intros c. cbn. split; easy. Qed.

(** a waiting stopper that sees the flag down takes a thread that has left its loop *)
Lemma inv_take : forall s c f n s', Inv s -> ctl s c = CWait f n -> flag s = false -> take s c = Some s' ->
  Inv s' /\ exists t, thr s = Some t /\ exited (ths s t) = true /\ s' = setC (setThr s None) c (CJoin t).
Proof.
  intros s c f n s' I C F T. pose proof (i_ws s I) as W. pose proof (ws_pos s c _ W ltac:(now rewrite C)) as P. unfold cnt in P. rewrite F in P.
  unfold take in T. destruct (thr s) as [t|] eqn:Th; [|cbn in P; lia]. destruct (exited (ths s t)) eqn:X; [|cbn in P; lia].
  apply some_inj in T. subst s'. split; [|now exists t].
  assert (W' := W). unfold cnt in W'. rewrite F, Th, X in W'. cbn in W'.
  destruct I as [A B C' D D2 E G H J _]. constructor; cbn; intros; try easy; eauto.
  - destruct (Nat.eq_dec t0 t); [now subst|]. apply A. congruence.
  - unfold upd. destruct (Nat.eqb_spec c0 c); subst; [|auto]. rewrite E in C by assumption. discriminate.
  - unfold upd in H0. destruct (Nat.eqb_spec c0 c); subst.
    + injection H0 as <-. repeat split; auto; congruence.
    + destruct (G _ _ H0) as (G1 & G2 & G3). repeat split; auto; congruence.
  - unfold cnt; cbn. rewrite F. cbn. eapply ws_leave with (n := 0); eauto. now rewrite C.
Qed.
