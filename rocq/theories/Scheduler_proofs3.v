From Verif Require Import Scheduler_model Scheduler_spec Scheduler_proofs Scheduler_proofs2.

(** ** From shards to keys *)
Definition keyq (k : N) (q : fifo) : fifo :=
  {| f_jobs := filter (fun r => (r_key r =? k)%N) (f_jobs q);
     f_busy := match f_jobs q with x :: _ => f_busy q && (r_key x =? k)%N | [] => false end |}.

Lemma fifo_busy_nonempty q e q' : fifoStep q e = Some q' -> (f_jobs q = [] -> f_busy q = false) ->
  f_jobs q' = [] -> f_busy q' = false.
Proof.
  destruct e as [r|r|r|r]; cbn; destruct (f_jobs q) as [|x l] eqn:E; intros H HB HE; try discriminate.
  - injection H as <-. discriminate.
  - injection H as <-. discriminate.
  - destruct (negb _ && _); [|discriminate]. injection H as <-. cbn in HE. congruence.
  - destruct (_ && _); [|discriminate]. now injection H as <-.
  - destruct (_ && _); [|discriminate]. now injection H as <-.
Qed.

Lemma fifo_key_step k q e q' : (f_jobs q = [] -> f_busy q = false) -> fifoStep q e = Some q' ->
  if ofKey k e then fifoStep (keyq k q) e = Some (keyq k q') else keyq k q' = keyq k q.
Proof.
  intros HB H. destruct q as [jobs busy]. unfold ofKey, keyq.
  destruct e as [r|r|r|r]; cbn in *.
  - injection H as <-. cbn. rewrite filter_app. cbn.
    destruct (r_key r =? k)%N eqn:EK.
    + f_equal. f_equal. destruct jobs as [|x l]; cbn; [|reflexivity].
      rewrite HB by reflexivity. reflexivity.
    + rewrite app_nil_r. destruct jobs; cbn; [|reflexivity]. rewrite EK. now rewrite andb_false_r.
  - destruct jobs as [|x l]; [discriminate|].
    destruct busy; [discriminate|]. cbn in H. destruct (reqEqb x r) eqn:ER; [|discriminate].
    injection H as <-. apply reqEqb_eq in ER as ->. cbn.
    destruct (r_key r =? k)%N; [|reflexivity]. cbn. rewrite reqEqb_refl. reflexivity.
  - destruct jobs as [|x l]; [discriminate|].
    destruct busy; [|discriminate]. cbn in H. destruct (reqEqb x r) eqn:ER; [|discriminate].
    injection H as <-. apply reqEqb_eq in ER as ->. cbn.
    destruct (r_key r =? k)%N; [|reflexivity]. cbn. rewrite reqEqb_refl. reflexivity.
  - destruct jobs as [|x l]; [discriminate|].
    destruct busy; [|discriminate]. cbn in H. destruct (reqEqb x r) eqn:ER; [|discriminate].
    injection H as <-. apply reqEqb_eq in ER as ->. cbn.
    destruct (r_key r =? k)%N; cbn; rewrite ?reqEqb_refl; destruct l; reflexivity.
Qed.

Lemma fifo_key k es : forall q q', (f_jobs q = [] -> f_busy q = false) ->
  fifoRun q es = Some q' -> fifoRun (keyq k q) (filter (ofKey k) es) = Some (keyq k q').
Proof.
  induction es as [|e es IH]; intros q q' HB H; cbn in *; [congruence|].
  destruct (fifoStep q e) as [q1|] eqn:E; [|discriminate].
  pose proof (fifo_key_step k q e q1 HB E) as HK.
  assert (HB1 : f_jobs q1 = [] -> f_busy q1 = false) by (eapply fifo_busy_nonempty; eassumption).
  destruct (ofKey k e); cbn.
  - rewrite HK. now apply IH.
  - rewrite <- HK. now apply IH.
Qed.

Lemma filter_sub {A} (f g : A -> bool) l : (forall x, f x = true -> g x = true) ->
  filter f (filter g l) = filter f l.
Proof.
  intros H. induction l as [|a l IH]; cbn; [reflexivity|].
  destruct (g a) eqn:G; cbn; [now rewrite IH|].
  destruct (f a) eqn:F; [apply H in F; congruence|assumption].
Qed.

Lemma key_of_shard s k : Inv s -> exists sh q,
  nth_error (s_shards s) (shardOf s k) = Some sh /\
  SI (s_stopped s) sh (stoks (length (s_shards s)) (shardOf s k) (toks (s_disps s))) q /\
  fifoRun idle (filter (ofKey k) (s_log s)) = Some (keyq k q).
Proof.
  intros HI. pose proof HI as [Hn _ _ _ _ HS].
  pose proof (shardOf_lt s k Hn) as HL.
  destruct (nth_error (s_shards s) (shardOf s k)) as [sh|] eqn:E; [|apply nth_error_None in E; lia].
  destruct (HS _ _ E) as (_ & q & B & C). exists sh, q. repeat split; try assumption.
  pose proof (fifo_key k _ idle q (fun _ => eq_refl) B) as K. unfold slog in K.
  rewrite filter_sub in K; [exact K|].
  intros e He. unfold ofKey in He. apply N.eqb_eq in He. rewrite He. apply inShard_i. reflexivity.
Qed.

(** ** Progress *)
Definition busyDisp (d : disp) : Prop := d_in d <> [] \/ d_loops d <> [] \/ d_tasks d <> [].

Lemma task_enabled s i d : Inv s -> nth_error (s_disps s) i = Some d -> d_tasks d <> [] ->
  exists s', step s (LTask i 0 true) = Some s'.
Proof.
  intros HI E HT. cbn. rewrite E. unfold taskStep.
  destruct (d_tasks d) as [|[r ph] ts] eqn:ET; [congruence|]. cbn [nth_error].
  assert (ET0 : nth_error (d_tasks d) 0 = Some (r, ph)) by now rewrite ET.
  destruct ph; eauto.
  destruct (task_tok s i d 0 _ (r, TNotified) HI E ET0) as (HD' & rest & P1 & P2).
  pose proof HI as [_ _ _ _ HF _].
  destruct (notify_inv (setDisps s (upd i (setTasks d (upd 0 (r, TNotified) (d_tasks d))) (s_disps s)))
     (r_key r) (s_disps s) rest r) as (s2 & E2 & _); cbn; try assumption; try reflexivity.
  - destruct s; exact HI.
  - apply upd_length.
  - eapply disp_update; eassumption.
  - rewrite ET in E2. eauto.
Qed.

Lemma busy_enabled s i d : Inv s -> nth_error (s_disps s) i = Some d -> busyDisp d ->
  exists l s', internalDone l /\ step s l = Some s'.
Proof.
  intros HI E HB. pose proof HI as [_ _ _ _ HF _].
  assert (HD : DInv d) by (eapply Forall_forall; [exact HF|eapply nth_error_In; eassumption]).
  destruct (d_tasks d) as [|t ts] eqn:ET.
  2:{ destruct (task_enabled s i d HI E) as (s' & H); [congruence|]. exists (LTask i 0 true), s'. split; [exact I|assumption]. }
  assert (HL : exists l, d_loops d = [l] /\ (forall r q, l = LWait r q -> d_baton d = true)).
  { destruct HD as [HL HO HM HE]. rewrite ET in HO. cbn in HO. unfold loopInv in HL.
    destruct (d_claimed d).
    - destruct HL as (l & EL & _ & H2 & _). exists l. split; [assumption|]. intros r q ->.
      destruct (d_baton d); [reflexivity|]. specialize (H2 eq_refl). lia.
    - destruct HL as [[E1 E2]|[_ E2]].
      + exfalso. destruct HB as [X|[X|X]]; congruence.
      + exists LPoll. split; [assumption|]. discriminate. }
  destruct HL as (l & EL & HW).
  assert (exists d', loopStep d 0 = Some d') as (d' & HS).
  { unfold loopStep. rewrite EL. cbn [nth_error]. destruct l as [|[|r q]|r q]; eauto.
    - destruct (d_in d), (d_claimed d); eauto.
    - destruct (_ =? _); eauto.
    - rewrite (HW r q eq_refl). eauto. }
  exists (LLoop i 0). eexists. split; [exact I|]. cbn. rewrite E, HS. reflexivity.
Qed.

Lemma dtoks_busy d : ~ busyDisp d -> dtoks d = [].
Proof.
  intros H. unfold busyDisp in H. unfold dtoks.
  destruct (d_in d); [|exfalso; apply H; left; discriminate].
  destruct (d_loops d); [|exfalso; apply H; right; left; discriminate].
  destruct (d_tasks d); [reflexivity|exfalso; apply H; right; right; discriminate].
Qed.

Lemma no_toks ds : (forall i d, nth_error ds i = Some d -> ~ busyDisp d) -> toks ds = [].
Proof.
  intros H. induction ds as [|d ds IH]; [reflexivity|]. cbn.
  rewrite (dtoks_busy d) by (apply (H 0); reflexivity). apply IH.
  intros i d' E. apply (H (S i) d' E).
Qed.

Lemma quiet_idle s k : Inv s -> s_stopped s = false ->
  (forall i d, nth_error (s_disps s) i = Some d -> ~ busyDisp d) ->
  fifoRun idle (filter (ofKey k) (s_log s)) = Some idle.
Proof.
  intros HI HS HB. destruct (key_of_shard s k HI) as (sh & q & _ & C & R).
  rewrite R. rewrite no_toks in C by assumption. cbn in C.
  destruct C as [(_ & _ & _ & ->)|[(_ & r & ph & P & _)|(_ & X & _)]].
  - reflexivity.
  - apply Permutation_nil in P. discriminate.
  - congruence.
Qed.

(** ** Termination of internal work *)
Definition lm (l : loopst) : nat :=
  match l with LPoll => 0 | LDisp l => 1 + 7 * length l | LWait _ l => 1 + 6 + 7 * length l end.
Definition tm (t : tok) : nat :=
  match snd t with TReady => 5 | TRunning => 4 | TExec => 3 | TNotified => 2 end.
Definition dm (d : disp) : nat :=
  9 * length (d_in d) + list_sum (map lm (d_loops d)) + list_sum (map tm (d_tasks d)).
Definition sm (s : sched) : nat :=
  list_sum (map (fun sh => 12 * length (sh_pending sh)) (s_shards s)) + list_sum (map dm (s_disps s)).

Lemma sum_upd {A} (f : A -> nat) l i x y : nth_error l i = Some x ->
  list_sum (map f (upd i y l)) + f x = list_sum (map f l) + f y.
Proof.
  intros H. destruct (nth_split_upd _ _ _ H) as (l1 & l2 & -> & _ & HU & _). rewrite HU.
  rewrite !map_app, !list_sum_app. unfold list_sum. cbn [map fold_right]. lia.
Qed.
Lemma sum_del {A} (f : A -> nat) l i x : nth_error l i = Some x ->
  list_sum (map f (del i l)) + f x = list_sum (map f l).
Proof.
  intros H. destruct (nth_split_upd _ _ _ H) as (l1 & l2 & -> & _ & _ & HD). rewrite HD.
  rewrite !map_app, !list_sum_app. unfold list_sum. cbn [map fold_right]. lia.
Qed.

Lemma loop_decr d j d' : DInv d -> loopStep d j = Some d' -> dm d' < dm d.
Proof.
  intros HD H. unfold loopStep in H. destruct (nth_error (d_loops d) j) as [l|] eqn:E; [|discriminate].
  destruct (loopInv_claim _ _ _ HD E) as (-> & EL & HC).
  pose proof HD as [HL HO HM HE]. unfold dm.
  destruct l as [|[|r l]|r l].
  - injection H as <-. cbn [d_in d_loops d_tasks]. rewrite EL. cbn [upd map list_sum fold_right lm].
    assert (d_in d <> []).
    { unfold loopInv in HL. destruct (d_claimed d).
      - destruct HL as (l & EL' & X & _). rewrite EL in EL'. injection EL' as <-. auto.
      - destruct HL as [[_ X]|[X _]]; [congruence|assumption]. }
    rewrite reverse_rev, app_nil_r, rev_length. destruct (d_in d); [congruence|]. cbn [length]. lia.
  - destruct (d_in d) eqn:EI, (d_claimed d); injection H as <-; cbn [d_in d_loops d_tasks];
      rewrite ?EI, EL; cbn [upd del map list_sum fold_right lm length]; lia.
  - destruct (d_out d =? d_max d); injection H as <-; cbn [d_in d_loops d_tasks scheduleReq];
      rewrite ?map_app, ?list_sum_app, EL; cbn [upd map list_sum fold_right lm length tm snd]; lia.
  - destruct (d_baton d); [|discriminate]. injection H as <-. cbn [d_in d_loops d_tasks scheduleReq].
    rewrite ?map_app, ?list_sum_app, EL; cbn [upd map list_sum fold_right lm length tm snd]. lia.
Qed.

Lemma submit_dm d r : dm (submitReq d r) = 9 + dm d.
Proof.
  unfold dm. cbn [submitReq d_in d_loops d_tasks length].
  assert (E : list_sum (map lm (match d_in d with
                | [] => if d_claimed d then d_loops d else d_loops d ++ [LPoll]
                | _ => d_loops d end)) = list_sum (map lm (d_loops d))).
  { destruct (d_in d); [|reflexivity]. destruct (d_claimed d); [reflexivity|].
    rewrite map_app, list_sum_app. cbn. lia. }
  rewrite E. lia.
Qed.

Lemma notify_sm s k s' : notify s k = Some s' -> sm s' <= sm s.
Proof.
  unfold notify. destruct (nth_error (s_shards s) (shardOf s k)) as [sh|] eqn:E; [|discriminate].
  destruct (sh_pending sh) as [|r rest] eqn:EP; intros H.
  - injection H as <-. unfold sm. cbn [setShards s_shards s_disps].
    pose proof (sum_upd (fun sh => 12 * length (sh_pending sh)) _ _ _ {| sh_spool := false; sh_pending := [] |} E) as S1.
    cbn [sh_pending length] in S1. rewrite EP in S1. cbn [length] in S1. lia.
  - pose proof (sum_upd (fun sh => 12 * length (sh_pending sh)) _ _ _
      {| sh_spool := sh_spool sh; sh_pending := rest |} E) as S1.
    cbn [sh_pending] in S1. rewrite EP in S1. cbn [length] in S1.
    destruct (s_stopped s).
    + injection H as <-. unfold sm. cbn [setShards s_shards s_disps]. lia.
    + unfold submitTo in H. set (s1 := setShards _ _) in H.
      destruct (nth_error (s_disps s1) (dispOf s1 r)) as [d|] eqn:Ed; [|discriminate].
      injection H as <-. unfold sm. cbn [setShards setDisps s_shards s_disps s1].
      pose proof (sum_upd dm _ _ _ (submitReq d r) Ed) as S2. rewrite submit_dm in S2.
      change (s_disps s1) with (s_disps s) in S2 |- *. lia.
Qed.

Lemma internal_decr s l s' : Inv s -> internalDone l -> step s l = Some s' -> sm s' < sm s.
Proof.
  intros HI HL H. pose proof HI as [_ _ _ _ HF _]. destruct l as [| |i j|i j [|]]; try contradiction; cbn in H.
  - destruct (nth_error (s_disps s) i) as [d|] eqn:E; [|discriminate].
    destruct (loopStep d j) as [d'|] eqn:EL; [|discriminate]. injection H as <-.
    assert (HD : DInv d) by (eapply Forall_forall; [exact HF|eapply nth_error_In; eassumption]).
    pose proof (loop_decr d j d' HD EL). unfold sm. cbn [setDisps s_shards s_disps].
    pose proof (sum_upd dm _ _ _ d' E). lia.
  - destruct (nth_error (s_disps s) i) as [d|] eqn:E; [|discriminate].
    unfold taskStep in H. destruct (nth_error (d_tasks d) j) as [[r ph]|] eqn:ET; [|discriminate].
    assert (SD : forall ph', dm (setTasks d (upd j (r, ph') (d_tasks d))) + tm (r, ph) = dm d + tm (r, ph')).
    { intros ph'. unfold dm. cbn [setTasks d_in d_loops d_tasks].
      pose proof (sum_upd tm _ _ _ (r, ph') ET). lia. }
    destruct ph.
    + injection H as <-. unfold sm. cbn [logEv setDisps s_shards s_disps].
      pose proof (sum_upd dm _ _ _ (setTasks d (upd j (r, TRunning) (d_tasks d))) E) as S1.
      specialize (SD TRunning). cbn [tm snd] in SD. lia.
    + injection H as <-. unfold sm. cbn [logEv setDisps s_shards s_disps].
      pose proof (sum_upd dm _ _ _ (setTasks d (upd j (r, TExec) (d_tasks d))) E) as S1.
      specialize (SD TExec). cbn [tm snd] in SD. lia.
    + apply notify_sm in H. eapply Nat.le_lt_trans; [exact H|].
      unfold sm. cbn [setDisps s_shards s_disps].
      pose proof (sum_upd dm _ _ _ (setTasks d (upd j (r, TNotified) (d_tasks d))) E) as S1.
      specialize (SD TNotified). cbn [tm snd] in SD. lia.
    + injection H as <-. unfold sm. cbn [setDisps s_shards s_disps].
      match goal with |- context [upd i ?d' _] => pose proof (sum_upd dm _ _ _ d' E) as S1;
        assert (dm d' < dm d) end; [|lia].
      unfold dm. cbn [d_in d_loops d_tasks].
      pose proof (sum_del tm _ _ _ ET) as S2. cbn [tm snd] in S2. lia.
Qed.
Lemma internal_bound ls : forall s s', Inv s -> Forall internalDone ls -> run s ls = Some s' ->
  length ls + sm s' <= sm s.
Proof.
  induction ls as [|l ls IH]; intros s s' HI HF H; cbn in *; [injection H as <-; lia|].
  inversion HF; subst. destruct (step s l) as [s1|] eqn:E; [|discriminate].
  pose proof (internal_decr s l s1 HI ltac:(assumption) E).
  pose proof (IH s1 s' (step_inv _ _ _ HI E) ltac:(assumption) H). lia.
Qed.
