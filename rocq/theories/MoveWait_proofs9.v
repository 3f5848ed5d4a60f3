(** Putting it together. *)
From Coq Require Import List Arith Bool Lia.
Import ListNotations.
From Verif Require Import MoveWait_model MoveWait_spec MoveWait_proofs1 MoveWait_proofs2 MoveWait_proofs3 MoveWait_proofs4 MoveWait_proofs5 MoveWait_proofs6 MoveWait_proofs7 MoveWait_proofs8.

Lemma ansn_len w t : length (answersTo w t) = ansn w t.
Proof. induction t as [|e r IH]; [auto|]. destruct e; cbn; auto. destruct (w0 =? w); cbn; auto. Qed.
Lemma answersTo_in w v t : In v (answersTo w t) <-> In (EAns w v) t.
Proof.
  induction t as [|e r IH]; [cbn; tauto|]. destruct e; cbn; rewrite ?IH.
  1,3,4: split; [auto|intros [H|H]; [discriminate|auto]].
  destruct (Nat.eqb_spec w0 w) as [->|N]; cbn; rewrite IH.
  - split; intros [H|H]; auto; left; congruence.
  - split; [auto|intros [H|H]; [congruence|auto]].
Qed.
Lemma run_cnt visits pin l : forall s s', Cnt s -> run visits pin s l = Some s' -> Cnt s'.
Proof.
  induction l as [|x r IH]; intros s s' C H; cbn [run] in H; [now injection H as <-|].
  destruct (step visits pin s x) as [s1|] eqn:E; [|discriminate]. eapply IH; [|exact H]. eapply step_cnt; eauto.
Qed.
Lemma idle_quiet s : idle s <-> quiet s.
Proof. unfold idle, quiet. rewrite Forall_forall. tauto. Qed.

Lemma once visits pin l s w : run visits pin init l = Some s ->
  length (answersTo w (tr s)) <= 1 /\ (answersTo w (tr s) <> [] -> exists k, asked w k (tr s)).
Proof.
  intros H. pose proof (run_cnt visits pin l init s init_cnt H) as C. pose proof (c_one s C w) as Q.
  rewrite ansn_len. split.
  - destruct (w <? nw s); cbn [b2n] in Q; lia.
  - intros N. apply (c_ask s C). destruct (Nat.ltb_spec w (nw s)); [auto|]. cbn [b2n] in Q.
    destruct (answersTo w (tr s)) eqn:E; [congruence|]. pose proof (ansn_len w (tr s)) as X. rewrite E in X. cbn in X. lia.
Qed.

Section P.
  Variable visits : nat -> nat -> bool.
  Hypothesis HV : hashing visits.

  Lemma reach l s : run visits true init l = Some s -> Inv s.
  Proof. intros H. eapply run_inv; eauto. apply init_inv. Qed.
  Lemma answer_key l s w k a j : run visits true init l = Some s -> asked w k (tr s) -> In (Some (a, j)) (answersTo w (tr s)) -> j = k.
  Proof. intros H A I. apply answersTo_in in I. destruct (reach l s H) as (_ & _ & T). eapply t_ans; eauto. Qed.
  Lemma not_stuck l s : run visits true init l = Some s -> ~ idle s -> exists x, progress x /\ step visits true s x <> None.
  Proof. intros H N. apply (enabled visits true s (reach l s H)). now rewrite <- idle_quiet. Qed.
  Lemma run_measure pin l : forall s s', Forall progress l -> run visits pin s l = Some s' -> length l + measure s' <= measure s.
  Proof.
    induction l as [|x r IH]; intros s s' F H; cbn [run] in H; [injection H as <-; cbn; lia|].
    inversion F; subst. destruct (step visits pin s x) as [s1|] eqn:E; [|discriminate].
    pose proof (background_measure visits pin s x s1 H2 E). specialize (IH s1 s' H3 H). cbn. lia.
  Qed.
  Lemma bounded s : exists n, forall pin l s', Forall progress l -> run visits pin s l = Some s' -> length l <= n.
  Proof. exists (measure s). intros pin l s' F H. pose proof (run_measure pin l s s' F H). lia. Qed.
  Lemma idle_answered l s w k : run visits true init l = Some s -> idle s -> asked w k (tr s) -> length (answersTo w (tr s)) = 1.
  Proof. intros H I A. rewrite ansn_len. eapply (quiet_answered); eauto. eapply reach; eauto. now apply idle_quiet. Qed.
  Lemma run_app pin l1 : forall s l2, run visits pin s (l1 ++ l2) = match run visits pin s l1 with Some t => run visits pin t l2 | None => None end.
  Proof. induction l1 as [|x r IH]; intros s l2; [reflexivity|]. cbn. destruct (step visits pin s x); auto. Qed.
  Lemma can_finish l s : run visits true init l = Some s -> exists l' s', Forall progress l' /\ run visits true s l' = Some s' /\ idle s'.
  Proof.
    intros H. pose proof (reach l s H) as I. clear H. remember (measure s) as n eqn:E. revert s I E.
    induction n as [n IH] using lt_wf_ind. intros s I E.
    assert (D : idle s \/ ~ idle s).
    { rewrite idle_quiet. unfold quiet. destruct (all_done (mvs s)) as [X|(m & X & Y)].
      - destruct (trys s); [left; auto|right; intros (F & _); discriminate].
      - right. intros (_ & F). now apply Y, F. }
    destruct D as [D|D]; [exists [], s; auto|].
    destruct (enabled visits true s I) as (x & P & S); [now rewrite <- idle_quiet|].
    destruct (step visits true s x) as [s1|] eqn:ST; [|congruence].
    pose proof (background_measure visits true s x s1 P ST) as M.
    destruct (IH (measure s1)) with (s := s1) as (l' & s' & F & R & Q); [lia| |reflexivity|].
    - eapply (run_inv visits HV [x] s s1 I). cbn. now rewrite ST.
    - exists (x :: l'), s'. split; [constructor; auto|]. split; [|exact Q]. cbn. now rewrite ST.
  Qed.
  Lemma table_ok l s e : run visits true init l = Some s -> In e (tbl s) -> clive (mem s (eptr e)) = true /\ ckey (mem s (eptr e)) = ekey e.
  Proof. intros H I. destruct (reach l s H) as (_ & _ & T). destruct (t_ent s T e I) as (A & B & _). auto. Qed.
End P.

Lemma handle_ok visits pin l s a k : run visits pin init l = Some s -> In (a, k) (held s) -> clive (mem s a) = true /\ ckey (mem s a) = k.
Proof. intros H. apply (run_base visits pin l init s init_base H). Qed.
Lemma index_ok visits pin l s a k : run visits pin init l = Some s -> idx s k = Some a -> clive (mem s a) = true /\ ckey (mem s a) = k.
Proof. intros H. apply (run_base visits pin l init s init_base H). Qed.
