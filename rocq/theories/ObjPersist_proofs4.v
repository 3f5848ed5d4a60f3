(** Persisting comes to an end if it is not stopped by an exception. *)
From Coq Require Import List ZArith Bool Lia Arith.
Import ListNotations.
From Verif Require Import ObjPersist_model ObjPersist_spec ObjPersist_proofs1 ObjPersist_proofs2.

Lemma reach_trans : forall ser cap s0 s, reach ser cap s0 s -> forall s', reach ser cap s s' -> reach ser cap s0 s'.
Proof. intros ser cap s0 s A s' B. induction B; [assumption|eapply reachS; eauto]. Qed.

Section F.
Variable ser : nat -> sres.
Variable cap : nat.
Hypothesis total : forall p, ser p <> SThrow.
Hypothesis room : (0 < cap)%nat.

(** [s'] differs from [s] in the queue, the clock not even, and the workers *)
Definition quiet (s s' : state) (n : nat) : Prop :=
  reach ser cap s s' /\ pools s' = pools s /\ pos s' = pos s /\ fin s' = fin s /\ at_ s' = at_ s /\ length (wks s') = length (wks s) /\
  (exists w, nth_error (wks s') n = Some w /\ wat w = WIdle) /\ que s' = [].

Definition wstage (p : wpc) : nat := match p with WGot _ => 2 | WIn => 1 | WIdle => 2 | WEnd => 0 end.
Lemma settle : forall k s n w, (3 * length (que s) + wstage (wat w) <= k)%nat -> nth_error (wks s) n = Some w -> wat w <> WEnd -> exists s', quiet s s' n.
Proof.
  induction k as [k IH] using lt_wf_ind. intros s n w K N NE. assert (L : (n < length (wks s))%nat) by (apply nth_error_Some; congruence).
  assert (G : forall s1 w1 e, step ser cap s e = Some (Ok s1) -> pools s1 = pools s -> pos s1 = pos s -> fin s1 = fin s -> at_ s1 = at_ s -> wks s1 = upd (wks s) n w1 ->
     wat w1 <> WEnd -> (3 * length (que s1) + wstage (wat w1) < 3 * length (que s) + wstage (wat w))%nat -> exists s', quiet s s' n).
  { intros s1 w1 e ST E1 E2 E3 E4 E5 NE1 LT. destruct (IH (3 * length (que s1) + wstage (wat w1))%nat) with (s := s1) (n := n) (w := w1) as (s' & R & Q1 & Q2 & Q3 & Q4 & Q5 & Q6 & Q7); try lia; auto.
    - rewrite E5, upd_nth by assumption. now rewrite Nat.eqb_refl.
    - exists s'. split; [eapply reach_trans; [|exact R]; eapply reachS; [apply reach0|exact ST]|]. rewrite E5, upd_len in Q5. repeat split; auto; congruence. }
  destruct (wat w) as [| |o|] eqn:W; [| | |congruence].
  - destruct (que s) as [|o q] eqn:Q.
    + exists s. split; [apply reach0|]. repeat split; auto. exists w. auto.
    + apply (G (setW s n (mkW WIn (file w)) (que s)) (mkW WIn (file w)) (WStart n)); try reflexivity; cbn; try discriminate; [rewrite N, W; reflexivity|rewrite Q; cbn; lia].
  - destruct (que s) as [|o q] eqn:Q.
    + exists (setW s n (mkW WIdle (file w)) []). split; [eapply reachS with (e := WRead n); [apply reach0|cbn; rewrite N, W, Q; reflexivity]|].
      cbn. rewrite upd_len. repeat split; auto. exists (mkW WIdle (file w)). rewrite upd_nth by assumption. rewrite Nat.eqb_refl. auto.
    + apply (G (setW s n (mkW (WGot o) (file w)) q) (mkW (WGot o) (file w)) (WRead n)); try reflexivity; cbn; try discriminate; [rewrite N, W, Q; reflexivity|lia].
  - destruct (ser (optr o)) as [c| |] eqn:S; [| |destruct (total _ S)].
    + apply (G (setW s n (mkW WIn (file w ++ [recOf o c])) (que s)) (mkW WIn (file w ++ [recOf o c])) (WWrite n true)); try reflexivity; cbn; try discriminate; [rewrite N, W, S; reflexivity|lia].
    + apply (G (setW s n (mkW WIn (file w)) (que s)) (mkW WIn (file w)) (WWrite n true)); try reflexivity; cbn; try discriminate; [rewrite N, W, S; reflexivity|lia].
Qed.

Variable now : Z.
Variable ps : list (list obj).
Variable w : nat.
Hypothesis some : (0 < w)%nat.
Let s0 := init now ps w.
Let okRun s := reach ser cap s0 s.

Lemma wks_len : forall s, okRun s -> length (wks s) = w.
Proof.
  intros s R. induction R as [|s e s' R IH H]; [cbn; apply repeat_length|]. destruct e as [d| | | | |n|n|n ok]; unfold step in H.
  - apply ok_inj in H. now subst s'.
  - destruct (at_ s); try discriminate. destruct (Nat.eqb (pos s) (length (pools s))); [|discriminate]. apply ok_inj in H. subst s'. destruct (Nat.ltb (fin s) (length (pools s))); exact IH.
  - destruct (at_ s); try discriminate. destruct (nth_error (pools s) (pos s)) as [[|o r]|]; try discriminate; [apply ok_inj in H; now subst s'|].
    destruct (expired (oexp o) (clock s)); [|destruct (Nat.ltb (length (que s)) cap); [|discriminate]]; apply ok_inj in H; now subst s'.
  - destruct (at_ s); try discriminate. destruct (que s); [|discriminate]. apply ok_inj in H. now subst s'.
  - destruct (at_ s) as [| |m|]; try discriminate. destruct (nth_error (wks s) m) as [v|]; [destruct (wat v); try discriminate|]; apply ok_inj in H; subst s'; cbn; rewrite ?upd_len; exact IH.
  - destruct (nth_error (wks s) n) as [v|]; [|discriminate]. destruct (wat v); try discriminate. apply ok_inj in H. subst s'. cbn. rewrite upd_len. exact IH.
  - destruct (nth_error (wks s) n) as [v|]; [|discriminate]. destruct (wat v), (que s); try discriminate; apply ok_inj in H; subst s'; cbn; rewrite upd_len; exact IH.
  - destruct (nth_error (wks s) n) as [v|]; [|discriminate]. destruct (wat v) as [| |o|]; try discriminate. destruct (ser (optr o)); try discriminate; [destruct ok; [|discriminate]|]; apply ok_inj in H; subst s'; cbn; rewrite upd_len; exact IH.
Qed.
Lemma pos_le : forall s, okRun s -> at_ s = MLoop -> (pos s <= length (pools s))%nat.
Proof.
  intros s R. induction R as [|s e s' R IH H]; [cbn; lia|]. intros M. destruct e as [d| | | | |n|n|n ok]; unfold step in H.
  - apply ok_inj in H. subst s'. now apply IH.
  - destruct (at_ s); try discriminate. destruct (Nat.eqb (pos s) (length (pools s))); [|discriminate]. apply ok_inj in H. subst s'. destruct (Nat.ltb (fin s) (length (pools s))); cbn in *; [lia|discriminate].
  - destruct (at_ s); try discriminate. destruct (nth_error (pools s) (pos s)) as [p|] eqn:N; [|discriminate]. assert (L : (pos s < length (pools s))%nat) by (apply nth_error_Some; congruence).
    destruct p as [|o r]; [apply ok_inj in H; subst s'; cbn; lia|].
    destruct (expired (oexp o) (clock s)); [|destruct (Nat.ltb (length (que s)) cap); [|discriminate]]; apply ok_inj in H; subst s'; cbn [pools pos]; rewrite upd_len; lia.
  - destruct (at_ s); try discriminate. destruct (que s); [|discriminate]. apply ok_inj in H. subst s'. discriminate.
  - destruct (at_ s) as [| |m|]; try discriminate. destruct (nth_error (wks s) m) as [v|]; [destruct (wat v); try discriminate|]; apply ok_inj in H; subst s'; discriminate.
  - destruct (nth_error (wks s) n) as [v|]; [|discriminate]. destruct (wat v); try discriminate. apply ok_inj in H. subst s'. now apply IH.
  - destruct (nth_error (wks s) n) as [v|]; [|discriminate]. destruct (wat v), (que s); try discriminate; apply ok_inj in H; subst s'; now apply IH.
  - destruct (nth_error (wks s) n) as [v|]; [|discriminate]. destruct (wat v) as [| |o|]; try discriminate. destruct (ser (optr o)); try discriminate; [destruct ok; [|discriminate]|]; apply ok_inj in H; subst s'; now apply IH.
Qed.

(** a worker can be brought to rest as long as it has not ended *)
Lemma rest : forall s n, okRun s -> (n < w)%nat -> (at_ s = MLoop \/ at_ s = MWait \/ exists m, at_ s = MStop m /\ (m <= n)%nat) -> exists s', okRun s' /\ quiet s s' n.
Proof.
  intros s n R L M. destruct (nth_error (wks s) n) as [v|] eqn:N; [|apply nth_error_None in N; rewrite wks_len in N by assumption; lia].
  assert (NE : wat v <> WEnd).
  { pose proof (inv_reach _ _ _ _ _ _ R) as I. destruct M as [M|[M|(m & M & Lm)]].
    - pose proof (v_live _ _ _ _ I (or_introl M)) as F. rewrite Forall_forall in F. apply F. eapply nth_error_In; eauto.
    - pose proof (v_live _ _ _ _ I (or_intror M)) as F. rewrite Forall_forall in F. apply F. eapply nth_error_In; eauto.
    - destruct (v_stop _ _ _ _ I m M) as (_ & _ & F). intros E. apply (F n v N) in E. lia. }
  destruct (settle _ s n v (le_n _) N NE) as (s' & Q). exists s'. split; [|exact Q]. eapply reach_trans; [exact R|apply Q].
Qed.

Lemma from_stop : forall k s n, okRun s -> at_ s = MStop n -> (w - n <= k)%nat -> exists s', okRun s' /\ at_ s' = MDone.
Proof.
  induction k as [|k IH]; intros s n R M K.
  - eexists. split; [eapply reachS with (e := Stop); [exact R|]|]. 
    + unfold step. rewrite M. assert (nth_error (wks s) n = None) as -> by (apply nth_error_None; rewrite wks_len by assumption; lia). reflexivity.
    + reflexivity.
  - destruct (Nat.le_gt_cases w n) as [L|L].
    + eexists. split; [eapply reachS with (e := Stop); [exact R|]|]. 
      * unfold step. rewrite M. assert (nth_error (wks s) n = None) as -> by (apply nth_error_None; rewrite wks_len by assumption; lia). reflexivity.
      * reflexivity.
    + destruct (rest s n R L) as (s1 & R1 & _ & _ & _ & _ & E & _ & (v & V1 & V2) & _); [eauto|].
      assert (ST : exists s2, step ser cap s1 Stop = Some (Ok s2) /\ at_ s2 = MStop (S n)) by (unfold step; rewrite E, M, V1, V2; eexists; split; reflexivity).
      destruct ST as (s2 & ST & E2). apply (IH s2 (S n)); [eapply reachS; eauto|assumption|lia].
Qed.
Lemma from_wait : forall s, okRun s -> at_ s = MWait -> exists s', okRun s' /\ at_ s' = MDone.
Proof.
  intros s R M. destruct (rest s 0 R some) as (s1 & R1 & _ & _ & _ & _ & E & _ & _ & Q); [auto|].
  assert (ST : exists s2, step ser cap s1 Check = Some (Ok s2) /\ at_ s2 = MStop 0) by (unfold step; rewrite E, M, Q; eexists; split; reflexivity).
  destruct ST as (s2 & ST & E2). eapply (from_stop w s2 0); [eapply reachS; eauto|assumption|lia].
Qed.

Definition objs (s : state) : nat := length (concat (pools s)).
Lemma fin_le : forall s, okRun s -> at_ s = MLoop -> (fin s <= pos s)%nat.
Proof.
  intros s R M. pose proof (v_loop _ _ _ _ (inv_reach _ _ _ _ _ _ R) M) as F. unfold empties in F.
  pose proof (filter_le _ (fun p : list obj => match p with [] => true | _ => false end) (firstn (pos s) (pools s))) as G. rewrite firstn_length in G. lia.
Qed.
Definition gauge (s : state) : nat := (objs s + pos s - fin s) * S (length (pools s)) + (length (pools s) - pos s).
Lemma from_loop : forall k s, okRun s -> at_ s = MLoop -> (gauge s <= k)%nat -> exists s', okRun s' /\ at_ s' = MDone.
Proof.
  induction k as [k IH] using lt_wf_ind. intros s R M K. pose proof (pos_le s R M) as P. pose proof (fin_le s R M) as F.
  destruct (Nat.eq_dec (pos s) (length (pools s))) as [E|E].
  - destruct (Nat.ltb (fin s) (length (pools s))) eqn:X.
    + assert (ST : step ser cap s Pass = Some (Ok (setM s 0 0 MLoop))) by (unfold step; rewrite M, E, Nat.eqb_refl, X; reflexivity).
      apply (IH (gauge (setM s 0 0 MLoop))) with (s := setM s 0 0 MLoop); auto; [|eapply reachS; [exact R|exact ST]].
      apply Nat.ltb_lt in X. unfold gauge, objs in *. cbn [setM pools pos fin] in *. nia.
    + assert (ST : step ser cap s Pass = Some (Ok (setM s (pos s) (fin s) MWait))) by (unfold step; rewrite M, E, Nat.eqb_refl, X; reflexivity).
      apply (from_wait (setM s (pos s) (fin s) MWait)); [eapply reachS; [exact R|exact ST]|reflexivity].
  - destruct (rest s 0 R some) as (s1 & R1 & _ & Q1 & Q2 & Q3 & Q4 & _ & _ & Q5); [auto|].
    destruct (nth_error (pools s) (pos s)) as [[|o r]|] eqn:N; [| |apply nth_error_None in N; lia].
    + assert (ST : step ser cap s1 Itr = Some (Ok (setM s1 (S (pos s1)) (S (fin s1)) MLoop))) by (unfold step; rewrite Q4, M, Q1, Q2, N; reflexivity).
      apply (IH (gauge (setM s1 (S (pos s1)) (S (fin s1)) MLoop))) with (s := setM s1 (S (pos s1)) (S (fin s1)) MLoop); auto; [|eapply reachS; [exact R1|exact ST]].
      unfold gauge, objs in *. cbn [setM pools pos fin] in *. rewrite Q1, Q2, Q3. replace (length (concat (pools s)) + S (pos s) - S (fin s))%nat with (length (concat (pools s)) + pos s - fin s)%nat by lia. lia.
    + pose proof (concat_take _ _ _ _ N) as CT. apply Permutation.Permutation_length in CT. cbn in CT.
      assert (ST : exists s2, step ser cap s1 Itr = Some (Ok s2) /\ pools s2 = upd (pools s) (pos s) r /\ pos s2 = S (pos s) /\ fin s2 = fin s /\ at_ s2 = MLoop).
      { unfold step. rewrite Q4, M, Q1, Q2, N, Q5, Q3. destruct (expired (oexp o) (clock s1)); [eexists; repeat split; reflexivity|].
        cbn [length]. destruct (Nat.ltb_spec 0 cap); [eexists; repeat split; reflexivity|lia]. }
      destruct ST as (s2 & ST & S1 & S2 & S3 & S4). apply (IH (gauge s2)) with (s := s2); auto; [|eapply reachS; [exact R1|exact ST]].
      unfold gauge, objs in *. rewrite S1, S2, S3, upd_len. replace (length (concat (upd (pools s) (pos s) r)) + S (pos s) - fin s)%nat with (length (concat (pools s)) + pos s - fin s)%nat by lia. lia.
Qed.
Lemma finishes : forall s, okRun s -> exists s', reach ser cap s0 s' /\ at_ s' = MDone.
Proof.
  intros s R. destruct (at_ s) as [| |n|] eqn:M; [eapply from_loop; eauto|eapply from_wait; eauto|eapply from_stop; eauto|exists s; auto].
Qed.
End F.
