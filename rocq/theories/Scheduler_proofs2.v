From Verif Require Import Scheduler_model Scheduler_spec Scheduler_proofs.

Lemma ShInv_event st n i sh ts ts' es e r ph ph' rest :
  evReq e = r ->
  (forall p q, qrel r ph p q -> exists q', fifoStep q e = Some q' /\ qrel r ph' p q') ->
  Permutation ts ((r, ph) :: rest) -> Permutation ts' ((r, ph') :: rest) ->
  ShInv st n i sh ts es -> ShInv st n i sh ts' (es ++ [e]).
Proof.
  intros He HQ P P' H. apply (ShInv_perm _ _ _ _ _ _ _ P').
  apply (ShInv_perm _ _ _ _ _ _ _ (Permutation_sym P)) in H.
  destruct H as (A & q & B & C). split; [assumption|].
  rewrite slog_snoc, fifoRun_app, B, He.
  rewrite stoks_cons in *. cbn [fst] in *. destruct (inShard n i (r_key r)) eqn:E.
  - destruct (SI_one _ _ _ _ _ C) as (SP & ER & QR). cbn in QR.
    destruct (HQ _ _ QR) as (q' & F & QR'). exists q'. split; [cbn; now rewrite F|].
    right. left. split; [assumption|]. exists r, ph'. rewrite ER. auto.
  - exists q. split; [reflexivity|assumption].
Qed.

Lemma task_tok s i d j t t' : Inv s -> nth_error (s_disps s) i = Some d ->
  nth_error (d_tasks d) j = Some t ->
  let d' := setTasks d (upd j t' (d_tasks d)) in
  DInv d' /\ exists rest, Permutation (toks (s_disps s)) (filter live [t] ++ rest) /\
    Permutation (toks (upd i d' (s_disps s))) (filter live [t'] ++ rest).
Proof.
  intros HI HD HT d'. destruct HI as [_ _ _ _ HF _].
  assert (H : DInv d) by (eapply Forall_forall; [exact HF|eapply nth_error_In; eassumption]).
  destruct (DInv_setTask d j t t' H HT) as (A & rest & P1 & P2). fold d' in A, P2.
  split; [assumption|].
  destruct (flat_map_upd dtoks _ _ _ HD) as (rest' & P3 & P4).
  exists (rest ++ rest'). unfold toks. rewrite P3, P4, P1, P2, <- !app_assoc. auto.
Qed.

Lemma Inv_setDisps s ds log' : Inv s -> length ds = length (s_disps s) -> Forall DInv ds ->
  (forall i sh, nth_error (s_shards s) i = Some sh ->
     ShInv (s_stopped s) (length (s_shards s)) i sh (toks ds) log') ->
  Inv {| s_shards := s_shards s; s_nread := s_nread s; s_nwrite := s_nwrite s; s_disps := ds;
         s_stopped := s_stopped s; s_next := s_next s; s_log := log' |}.
Proof. intros [A B C D E F] L HF HS. constructor; cbn; try assumption. congruence. Qed.

(** A completion: the executed token of its shard is replaced by the next
    pending request, or the shard becomes free. *)
Lemma notify_inv s k ds0 rest r :
  Inv {| s_shards := s_shards s; s_nread := s_nread s; s_nwrite := s_nwrite s; s_disps := ds0;
         s_stopped := s_stopped s; s_next := s_next s; s_log := s_log s |} ->
  Permutation (toks ds0) ((r, TExec) :: rest) -> k = r_key r ->
  length (s_disps s) = length ds0 -> Forall DInv (s_disps s) ->
  Permutation (toks (s_disps s)) rest ->
  exists s', notify s k = Some s' /\ Inv s'.
Proof.
  intros HI P0 -> HL HF P. pose proof HI as [Hn Hr Hw Hd _ HS]. cbn in *.
  assert (Hi : shardOf s (r_key r) < length (s_shards s)) by now apply shardOf_lt.
  set (i := shardOf s (r_key r)) in *.
  unfold notify. fold i.
  destruct (nth_error (s_shards s) i) as [sh|] eqn:E; [|apply nth_error_None in E; lia].
  pose proof (HS i sh E) as HSi.
  apply (ShInv_perm _ _ _ _ _ _ _ (Permutation_sym P0)) in HSi.
  destruct HSi as (HP & q & HQ & HSI). rewrite stoks_cons in HSI. cbn [fst] in HSI.
  assert (Ei : inShard (length (s_shards s)) i (r_key r) = true) by (apply inShard_i; reflexivity).
  rewrite Ei in HSI. destruct (SI_one _ _ _ _ _ HSI) as (SP & ER & QR). cbn in QR.
  (* other shards *)
  assert (HO : forall i' sh', i' <> i -> nth_error (s_shards s) i' = Some sh' ->
     ShInv (s_stopped s) (length (s_shards s)) i' sh' rest (s_log s)).
  { intros i' sh' Hne E'. pose proof (HS i' sh' E') as H'.
    apply (ShInv_perm _ _ _ _ _ _ _ (Permutation_sym P0)) in H'.
    destruct H' as (A & q' & B & C). split; [assumption|]. exists q'. split; [assumption|].
    rewrite stoks_cons in C. cbn [fst] in C.
    destruct (inShard (length (s_shards s)) i' (r_key r)) eqn:X; [|assumption].
    apply inShard_i in X. exfalso. apply Hne. rewrite <- X. reflexivity. }
  destruct (sh_pending sh) as [|r' pend] eqn:EP.
  - eexists. split; [reflexivity|]. constructor; cbn; rewrite ?upd_length; try assumption; [congruence|].
    intros i' sh' E'. destruct (Nat.eq_dec i' i) as [->|Hne].
    + rewrite nth_upd_same in E' by assumption. injection E' as <-.
      split; [constructor|]. exists q. split; [assumption|].
      eapply SI_perm; [apply filter_perm; exact P|]. change (filter _ rest) with (stoks (length (s_shards s)) i rest).
      left. cbn. auto.
    + rewrite nth_upd_other in E' by congruence.
      eapply ShInv_perm; [exact P|]. now apply HO.
  - destruct (s_stopped s) eqn:ES.
    + eexists. split; [reflexivity|]. constructor; cbn; rewrite ?upd_length; try assumption; [congruence|].
      intros i' sh' E'. rewrite ES. destruct (Nat.eq_dec i' i) as [->|Hne].
      * rewrite nth_upd_same in E' by assumption. injection E' as <-. cbn.
        inversion HP; subst. split; [assumption|]. exists {| f_jobs := r' :: pend; f_busy := false |}.
        split; [assumption|]. eapply SI_perm; [apply filter_perm; exact P|].
        change (filter _ rest) with (stoks (length (s_shards s)) i rest).
        right. right. cbn. auto.
      * rewrite nth_upd_other in E' by congruence.
        eapply ShInv_perm; [exact P|]. now apply HO.
    + set (s1 := setShards s (upd i {| sh_spool := sh_spool sh; sh_pending := pend |} (s_shards s))).
      unfold submitTo. unfold dispOf.
      change (s_nread s1) with (s_nread s). change (s_nwrite s1) with (s_nwrite s).
      change (s_disps s1) with (s_disps s).
      fold (dispOf s r').
      assert (HLt : dispOf s r' < length (s_disps s)).
      { rewrite HL. pose proof (dispOf_lt _ r' HI) as X. exact X. }
      destruct (nth_error (s_disps s) (dispOf s r')) as [d|] eqn:Ed; [|apply nth_error_None in Ed; lia].
      assert (HD : DInv d) by (eapply Forall_forall; [exact HF|eapply nth_error_In; eassumption]).
      assert (PT : Permutation (toks (upd (dispOf s r') (submitReq d r') (s_disps s))) (ready r' :: rest)).
      { destruct (flat_map_upd dtoks _ _ _ Ed) as (rst & P1 & P2). unfold toks in *.
        rewrite P2, dtoks_submit by assumption. cbn [app]. constructor. rewrite <- P1. exact P. }
      eexists. split; [reflexivity|]. subst s1. constructor; cbn; rewrite ?upd_length; try assumption.
      * congruence.
      * eapply disp_update; [exact HF|exact Ed|now apply DInv_submit].
      * intros i' sh' E'. rewrite ES. apply (ShInv_perm _ _ _ _ _ _ _ PT).
        inversion HP as [|? ? Hr' HP']; subst.
        destruct (Nat.eq_dec i' i) as [->|Hne].
        -- rewrite nth_upd_same in E' by assumption. injection E' as <-. cbn.
           split; [assumption|]. exists {| f_jobs := r' :: pend; f_busy := false |}.
           split; [assumption|]. rewrite stoks_cons. cbn [fst ready]. rewrite Hr', ER.
           right. left. split; [assumption|]. exists r', TReady. cbn. split; reflexivity.
        -- rewrite nth_upd_other in E' by congruence.
           destruct (HO i' sh' Hne E') as (A & q' & B & C). split; [assumption|].
           exists q'. split; [assumption|]. rewrite stoks_cons. cbn [fst ready].
           destruct (inShard (length (s_shards s)) i' (r_key r')) eqn:X; [|assumption].
           apply inShard_i in X. apply inShard_i in Hr'. congruence.
Qed.

Lemma enqueue_inv s k rd : Inv s -> exists s', enqueue s k rd = Some s' /\ Inv s'.
Proof.
  intros HI. unfold enqueue. destruct (s_stopped s) eqn:ES; [eauto|].
  pose proof HI as [Hn Hr Hw Hd HF HS]. rewrite ES in HS.
  assert (Hi : shardOf s k < length (s_shards s)) by now apply shardOf_lt.
  set (r := {| r_id := s_next s; r_key := k; r_read := rd |}).
  set (i := shardOf s k) in *.
  destruct (nth_error (s_shards s) i) as [sh|] eqn:E; [|apply nth_error_None in E; lia].
  assert (Ei : inShard (length (s_shards s)) i (r_key r) = true) by (apply inShard_i; reflexivity).
  assert (HO : forall i' sh', i' <> i -> nth_error (s_shards s) i' = Some sh' ->
     ShInv false (length (s_shards s)) i' sh' (toks (s_disps s)) (s_log s ++ [ESubmit r])).
  { intros i' sh' Hne E'. destruct (HS i' sh' E') as (A & q' & B & C). split; [assumption|].
    exists q'. split; [|assumption]. rewrite slog_snoc, fifoRun_app, B. cbn [evReq].
    destruct (inShard (length (s_shards s)) i' (r_key r)) eqn:X; [|reflexivity].
    apply inShard_i in X. exfalso. apply Hne. rewrite <- X. reflexivity. }
  destruct (HS i sh E) as (A & q & B & C).
  destruct (sh_spool sh) eqn:SP.
  - eexists. split; [reflexivity|]. constructor; cbn; rewrite ?upd_length; try assumption.
    intros i' sh' E'. destruct (Nat.eq_dec i' i) as [->|Hne].
    + rewrite nth_upd_same in E' by assumption. injection E' as <-. cbn.
      split; [apply Forall_app; auto|].
      rewrite slog_snoc, fifoRun_app, B. cbn [evReq]. rewrite Ei. cbn [fifoRun fifoStep].
      eexists. split; [reflexivity|].
      destruct C as [(C1 & _)|[(_ & r0 & ph & C1 & C2)|(_ & C1 & _)]]; [congruence| |congruence].
      right. left. split; [reflexivity|]. exists r0, ph. split; [assumption|].
      destruct ph; cbn in *; try (subst q; reflexivity). contradiction.
    + rewrite nth_upd_other in E' by congruence. now apply HO.
  - destruct C as [(_ & C1 & C2 & C3)|[(C1 & _)|(C1 & _)]]; [|congruence|congruence].
    unfold submitTo. destruct (submit_disps s r HI) as (d & Ed & HD & HF' & PT).
    set (s2 := setShards _ _). change (dispOf s2 r) with (dispOf s r).
    change (s_disps s2) with (s_disps s). rewrite Ed.
    eexists. split; [reflexivity|]. subst s2. constructor; cbn; rewrite ?upd_length; try assumption.
    intros i' sh' E'. apply (ShInv_perm _ _ _ _ _ _ _ PT).
    destruct (Nat.eq_dec i' i) as [->|Hne].
    + rewrite nth_upd_same in E' by assumption. injection E' as <-. cbn.
      split; [assumption|].
      rewrite slog_snoc, fifoRun_app, B. cbn [evReq]. rewrite Ei. subst q. cbn [fifoRun fifoStep].
      eexists. split; [reflexivity|].
      right. left. split; [reflexivity|]. exists r, TReady.
      rewrite stoks_cons. cbn [fst ready]. rewrite Ei, C2, C1. split; reflexivity.
    + rewrite nth_upd_other in E' by congruence.
      destruct (HO i' sh' Hne E') as (A' & q' & B' & C'). split; [assumption|]. exists q'. split; [assumption|].
      rewrite stoks_cons. cbn [fst ready].
      destruct (inShard (length (s_shards s)) i' (r_key r)) eqn:X; [|assumption].
      apply inShard_i in X. exfalso. apply Hne. rewrite <- X. reflexivity.
Qed.

Lemma step_inv s l s' : Inv s -> step s l = Some s' -> Inv s'.
Proof.
  intros HI H. destruct l as [k rd| |i j|i j dn]; cbn in H.
  - destruct (enqueue_inv s k rd HI) as (s2 & E & HI2). congruence.
  - injection H as <-. destruct HI as [Hn Hr Hw Hd HF HS]. constructor; cbn; try assumption.
    intros i sh E. destruct (HS i sh E) as (A & q & B & C). split; [assumption|]. exists q. split; [assumption|].
    destruct C as [C|[C|(C1 & _ & C3)]]; [left; assumption|right; left; assumption|right; right; auto].
  - destruct (nth_error (s_disps s) i) as [d|] eqn:E; [|discriminate].
    destruct (loopStep d j) as [d'|] eqn:EL; [|discriminate]. injection H as <-.
    pose proof HI as [Hn Hr Hw Hd HF HS].
    assert (HD : DInv d) by (eapply Forall_forall; [exact HF|eapply nth_error_In; eassumption]).
    destruct (loopStep_inv d j d' HD EL) as (HD' & P).
    apply Inv_setDisps; try assumption; [apply upd_length|eapply disp_update; eassumption|].
    intros i' sh E'. eapply ShInv_perm; [|apply HS; exact E'].
    destruct (flat_map_upd dtoks _ _ _ E) as (rest & P1 & P2). unfold toks. now rewrite P2, P1, P.
  - destruct (nth_error (s_disps s) i) as [d|] eqn:E; [|discriminate].
    pose proof HI as [Hn Hr Hw Hd HF HS].
    assert (HD : DInv d) by (eapply Forall_forall; [exact HF|eapply nth_error_In; eassumption]).
    unfold taskStep in H. destruct (nth_error (d_tasks d) j) as [[r ph]|] eqn:ET; [|discriminate].
    destruct ph.
    + injection H as <-. destruct (task_tok s i d j _ (r, TRunning) HI E ET) as (HD' & rest & P1 & P2).
      unfold logEv, setDisps. cbn [s_shards s_nread s_nwrite s_disps s_stopped s_next s_log].
      apply Inv_setDisps; try assumption; [apply upd_length|eapply disp_update; eassumption|].
      intros i' sh E'. eapply (ShInv_event _ _ _ _ _ _ _ _ r TReady TRunning rest);
        [reflexivity| |exact P1|exact P2|now apply HS].
      intros p q ->. eexists. cbn. rewrite reqEqb_refl. split; reflexivity.
    + destruct dn; injection H as <-.
      * destruct (task_tok s i d j _ (r, TExec) HI E ET) as (HD' & rest & P1 & P2).
        unfold logEv, setDisps. cbn [s_shards s_nread s_nwrite s_disps s_stopped s_next s_log].
        apply Inv_setDisps; try assumption; [apply upd_length|eapply disp_update; eassumption|].
        intros i' sh E'. eapply (ShInv_event _ _ _ _ _ _ _ _ r TRunning TExec rest);
        [reflexivity| |exact P1|exact P2|now apply HS].
        intros p q ->. eexists. cbn. rewrite reqEqb_refl. split; reflexivity.
      * destruct (task_tok s i d j _ (r, TReady) HI E ET) as (HD' & rest & P1 & P2).
        unfold logEv, setDisps. cbn [s_shards s_nread s_nwrite s_disps s_stopped s_next s_log].
        apply Inv_setDisps; try assumption; [apply upd_length|eapply disp_update; eassumption|].
        intros i' sh E'. eapply (ShInv_event _ _ _ _ _ _ _ _ r TRunning TReady rest);
        [reflexivity| |exact P1|exact P2|now apply HS].
        intros p q ->. eexists. cbn. rewrite reqEqb_refl. split; reflexivity.
    + destruct (task_tok s i d j _ (r, TNotified) HI E ET) as (HD' & rest & P1 & P2).
      set (s1 := setDisps s _) in H.
      destruct (notify_inv s1 (r_key r) (s_disps s) rest r) as (s2 & E2 & HI2); cbn;
        try assumption; try reflexivity.
      * destruct s; exact HI.
      * apply upd_length.
      * eapply disp_update; eassumption.
      * congruence.
    + injection H as <-.
      destruct (DInv_finish d j r HD ET) as (HD' & ED).
      apply Inv_setDisps; try assumption; [apply upd_length|eapply disp_update; eassumption|].
      intros i' sh E'. eapply ShInv_perm; [|apply HS; exact E'].
      destruct (flat_map_upd dtoks _ _ _ E) as (rst & P1 & P2). unfold toks. now rewrite P2, P1, ED.
Qed.

Lemma init_inv p nr nw mr mw : 0 < nr -> 0 < nw -> Inv (init p nr nw mr mw).
Proof.
  intros Hr Hw.
  assert (HD : forall m n, 0 < n -> DInv (mkDisp (Nat.max m n / n))).
  { intros m n Hn. constructor; cbn [mkDisp d_out d_tasks length d_max]; [| reflexivity | | lia].
    - left. auto.
    - apply Nat.div_str_pos. lia. }
  assert (HT : forall n m, toks (repeat (mkDisp m) n) = []).
  { induction n; intros m; cbn; auto. }
  constructor; cbn; try assumption.
  - rewrite repeat_length. apply Nat.neq_0_lt_0, Nat.pow_nonzero. lia.
  - now rewrite app_length, !repeat_length.
  - apply Forall_app. split; apply Forall_forall; intros x Hx; apply repeat_spec in Hx; subst; now apply HD.
  - intros i sh E. apply nth_error_In, repeat_spec in E. subst sh. cbn. split; [constructor|].
    exists idle. split; [reflexivity|]. left. unfold toks. rewrite flat_map_app. fold toks.
    change (flat_map dtoks) with toks. rewrite !HT. auto.
Qed.
Lemma run_inv ls : forall s s', Inv s -> run s ls = Some s' -> Inv s'.
Proof.
  induction ls as [|l ls IH]; intros s s' HI H; cbn in H; [congruence|].
  destruct (step s l) as [s1|] eqn:E; [|discriminate]. eauto using step_inv.
Qed.
