(** Restoring: every record is brought back or had expired. *)
From Coq Require Import List ZArith Bool Permutation Lia Arith.
Import ListNotations.
Open Scope Z_scope.
From Verif Require Import ObjPersist_model ObjPersist_spec ObjPersist_proofs1.

Lemma some_inj : forall A (a b : A), Some a = Some b -> a = b. Proof. congruence. Qed.
Definition pend (w : rworker) : nat := match rat w with REnd => 0 | _ => rexpd w end.
Definition psum (l : list rworker) : nat := list_sum (map pend l).
Record RInv (now : Z) (fs : list (list rec)) (s : rstate) : Prop := {
  r_clk : now <= rclock s;
  r_all : exists ex kept, Permutation (concat fs) (concat (map left (rws s)) ++ ex ++ kept) /\ Forall (goneR (rclock s)) ex /\
            Forall2 brings kept (log s) /\ (rnexp s + psum (rws s))%nat = length ex;
  r_ws : forall n w, nth_error (rws s) n = Some w -> match rat w with RNot => True | RRun t => now <= t <= rclock s | REnd => left w = [] end
}.
Lemma goneR_later : forall t t' l, t <= t' -> Forall (goneR t) l -> Forall (goneR t') l.
Proof. intros t t' l L F. eapply Forall_impl; [|exact F]. intros o [A B]. split; auto. lia. Qed.
Lemma psum_upd : forall l n w v, nth_error l n = Some w -> (psum (upd l n v) + pend w = psum l + pend v)%nat.
Proof.
  intros l n w v H. destruct (nth_split_upd _ _ _ _ v H) as (l1 & l2 & -> & -> & _). unfold psum. rewrite !map_app, !list_sum_app. cbn. lia.
Qed.
Lemma left_same : forall l n w v, nth_error l n = Some w -> left v = left w -> map left (upd l n v) = map left l.
Proof. intros l n w v H E. destruct (nth_split_upd _ _ _ _ v H) as (l1 & l2 & -> & -> & _). rewrite !map_app. cbn. now rewrite E. Qed.
Lemma left_take : forall l n w v r, nth_error l n = Some w -> left w = r :: left v -> Permutation (concat (map left l)) (r :: concat (map left (upd l n v))).
Proof.
  intros l n w v r H E. destruct (nth_split_upd _ _ _ _ v H) as (l1 & l2 & -> & -> & _). rewrite !map_app, !concat_app. cbn. rewrite E. cbn.
  symmetry. apply Permutation_middle.
Qed.
Lemma u32_range : forall z, 0 <= u32 z < 2 ^ 32. Proof. intros. apply Z.mod_pos_bound. lia. Qed.
Lemma u32_id : forall z, 0 <= z < 2 ^ 32 -> u32 z = z. Proof. intros. apply Z.mod_small. lia. Qed.
Lemma u32_i32 : forall z, 0 <= z < 2 ^ 32 -> u32 (i32 z) = z.
Proof.
  intros z H. unfold u32, i32. rewrite Zminus_mod, Zmod_mod, <- Zminus_mod. rewrite Z.add_simpl_r. apply Z.mod_small. lia.
Qed.

Lemma rinv_init : forall now fs, RInv now fs (rinit now fs).
Proof.
  intros now fs. constructor; unfold rinit; cbn [rclock rws log rnexp]; [lia| |].
  - exists [], []. assert (E : map left (map (fun f => mkRW RNot f 0) fs) = fs) by (induction fs; cbn; congruence). rewrite E, app_nil_r.
    repeat split; auto. unfold psum. clear E. induction fs; cbn; auto.
  - intros n w H. apply nth_error_In, in_map_iff in H. destruct H as (f & <- & _). exact I.
Qed.
Lemma rinv_step : forall now fs s e s', 0 <= now -> RInv now fs s -> rstep s e = Some s' -> RInv now fs s'.
Proof.
  intros now fs s e s' Z0 [A (ex & kept & B1 & B2 & B3 & B4) C] H. destruct e as [d|n|n ok|n].
  - unfold rstep in H. apply some_inj in H. subst s'. constructor; cbn [rclock rws log rnexp]; [lia| |].
    + exists ex, kept. repeat split; auto. eapply goneR_later; [|exact B2]. lia.
    + intros n w N. specialize (C n w N). destruct (rat w); auto. lia.
  - unfold rstep in H. destruct (nth_error (rws s) n) as [w|] eqn:N; [|discriminate]. destruct (rat w) eqn:W; try discriminate. apply some_inj in H. subst s'.
    assert (L : (n < length (rws s))%nat) by (apply nth_error_Some; congruence). unfold setR. constructor; cbn [rclock rws log rnexp]; [lia| |].
    + exists ex, kept. rewrite (left_same _ _ _ _ N) by reflexivity. repeat split; auto.
      pose proof (psum_upd _ _ _ (mkRW (RRun (rclock s)) (left w) (rexpd w)) N) as P. unfold pend in P. rewrite W in P. cbn in P. lia.
    + intros i v V. rewrite upd_nth in V by assumption. destruct (Nat.eqb_spec i n); [apply some_inj in V; subst v; cbn; lia|now apply (C i)].
  - unfold rstep in H. destruct (nth_error (rws s) n) as [w|] eqn:N; [|discriminate]. destruct (rat w) as [|t|] eqn:W; try discriminate. destruct (left w) as [|r rest] eqn:LW; [discriminate|].
    assert (L : (n < length (rws s))%nat) by (apply nth_error_Some; congruence). pose proof (C n w N) as T. rewrite W in T.
    pose proof (u32_range (rexp r)) as U. cbv zeta in H. set (e := u32 (rexp r)) in *. destruct ((0 <? e) && (e <=? t)) eqn:X; apply some_inj in H; subst s'; unfold setR.
    + apply andb_true_iff in X. destruct X as [X1 X2]. apply Z.ltb_lt in X1. apply Z.leb_le in X2. constructor; cbn [rclock rws log rnexp]; [lia| |].
      * exists (r :: ex), kept. pose proof (left_take _ _ _ (mkRW (RRun t) rest (S (rexpd w))) r N LW) as P. split; [|split; [|split]]; auto.
        -- rewrite B1, P. cbn. apply Permutation_middle.
        -- constructor; auto. split; fold e; lia.
        -- pose proof (psum_upd _ _ _ (mkRW (RRun t) rest (S (rexpd w))) N) as Q. unfold pend in Q. rewrite W in Q. cbn in Q. cbn [length]. lia.
      * intros i v V. rewrite upd_nth in V by assumption. destruct (Nat.eqb_spec i n); [apply some_inj in V; subst v; cbn; lia|now apply (C i)].
    + apply andb_false_iff in X. rewrite Z.ltb_ge, Z.leb_gt in X. constructor; cbn [rclock rws log rnexp]; [lia| |].
      * exists ex, (kept ++ [r]). pose proof (left_take _ _ _ (mkRW (RRun t) rest (rexpd w)) r N LW) as P. split; [|split; [|split]]; auto.
        -- rewrite B1, P. cbn. rewrite !app_assoc. rewrite <- Permutation_cons_append. reflexivity.
        -- apply Forall2_app; [assumption|]. constructor; [|constructor]. unfold brings, iexp. cbn. fold e. repeat split; auto.
           ++ intros E0. rewrite E0. reflexivity.
           ++ intros E0. assert (TE : t < e) by lia. destruct (Z.eqb_spec e 0); [lia|]. rewrite (u32_id (e - t)) by lia. rewrite u32_i32 by lia.
              destruct (Z.eqb_spec (e - t) 0); lia.
        -- pose proof (psum_upd _ _ _ (mkRW (RRun t) rest (rexpd w)) N) as Q. unfold pend in Q. rewrite W in Q. cbn in Q. cbn [length]. lia.
      * intros i v V. rewrite upd_nth in V by assumption. destruct (Nat.eqb_spec i n); [apply some_inj in V; subst v; cbn; lia|now apply (C i)].
  - unfold rstep in H. destruct (nth_error (rws s) n) as [w|] eqn:N; [|discriminate]. destruct (rat w) as [|t|] eqn:W; try discriminate. destruct (left w) eqn:LW; [|discriminate].
    apply some_inj in H. subst s'. assert (L : (n < length (rws s))%nat) by (apply nth_error_Some; congruence). unfold setR. constructor; cbn [rclock rws log rnexp]; [lia| |].
    + exists ex, kept. rewrite (left_same _ _ _ _ N) by (cbn; congruence). repeat split; auto.
      pose proof (psum_upd _ _ _ (mkRW REnd [] (rexpd w)) N) as P. unfold pend in P. rewrite W in P. cbn in P. lia.
    + intros i v V. rewrite upd_nth in V by assumption. destruct (Nat.eqb_spec i n); [apply some_inj in V; subst v; cbn; auto|now apply (C i)].
Qed.
Lemma rinv_reach : forall now fs s, 0 <= now -> rreach (rinit now fs) s -> RInv now fs s.
Proof. intros now fs s Z0 H. induction H; [apply rinv_init|eapply rinv_step; eauto]. Qed.

Lemma restore_all : forall now fs s, 0 <= now -> rreach (rinit now fs) s -> restored s ->
  exists ex kept, Permutation (concat fs) (ex ++ kept) /\ Forall (goneR (rclock s)) ex /\ Forall2 brings kept (log s) /\ rnexp s = length ex.
Proof.
  intros now fs s Z0 H D. destruct (rinv_reach _ _ _ Z0 H) as [A (ex & kept & B1 & B2 & B3 & B4) C]. exists ex, kept.
  assert (E : concat (map left (rws s)) = [] /\ psum (rws s) = 0%nat).
  { unfold restored in D. assert (F : Forall (fun w => rat w = REnd /\ left w = []) (rws s)).
    { apply Forall_forall. intros w W. rewrite Forall_forall in D. specialize (D w W). split; [assumption|]. apply In_nth_error in W. destruct W as [n W].
      specialize (C n w W). now rewrite D in C. }
    clear - F. induction F as [|w l [W1 W2] F [I1 I2]]; [split; reflexivity|]. cbn. rewrite W2. split; [exact I1|]. unfold psum, pend in *. cbn. rewrite W1. exact I2. }
  destruct E as [E1 E2]. rewrite E1 in B1. cbn in B1. repeat split; auto. lia.
Qed.
(** A restore can always go on to the end. *)
Definition todo (s : rstate) : nat := list_sum (map (fun w => length (left w) + match rat w with RNot => 2 | RRun _ => 1 | REnd => 0 end)%nat (rws s)).
Lemma todo_upd : forall (f : rworker -> nat) l n w v, nth_error l n = Some w -> (list_sum (map f (upd l n v)) + f w = list_sum (map f l) + f v)%nat.
Proof. intros f l n w v H. destruct (nth_split_upd _ _ _ _ v H) as (l1 & l2 & -> & -> & _). rewrite !map_app, !list_sum_app. cbn. lia. Qed.
Lemma rend_dec : forall w, {rat w = REnd} + {rat w <> REnd}.
Proof. intros w. destruct (rat w); [right|right|left]; congruence. Qed.
Lemma rfinish : forall k s0 s, (todo s <= k)%nat -> rreach s0 s -> exists s', rreach s0 s' /\ restored s'.
Proof.
  induction k as [k IH] using lt_wf_ind. intros s0 s K R.
  destruct (Forall_Exists_dec (fun w => rat w = REnd) (fun w => rend_dec w) (rws s)) as [F|E]; [exists s; auto|].
  apply Exists_exists in E. destruct E as (w & W & NE). apply In_nth_error in W. destruct W as [n N].
  assert (G : exists e s', rstep s e = Some s' /\ (todo s' < todo s)%nat).
  { destruct (rat w) as [|t|] eqn:RW; [|destruct (left w) as [|r rest] eqn:LW|congruence].
    - eexists (RStart n), _. split; [unfold rstep; rewrite N, RW; reflexivity|]. unfold todo, setR; cbn [rws].
      pose proof (todo_upd (fun w => length (left w) + match rat w with RNot => 2 | RRun _ => 1 | REnd => 0 end)%nat _ _ _ (mkRW (RRun (rclock s)) (left w) (rexpd w)) N) as P. cbn in P. rewrite RW in P. lia.
    - eexists (RFin n), _. split; [unfold rstep; rewrite N, RW, LW; reflexivity|]. unfold todo, setR; cbn [rws].
      pose proof (todo_upd (fun w => length (left w) + match rat w with RNot => 2 | RRun _ => 1 | REnd => 0 end)%nat _ _ _ (mkRW REnd [] (rexpd w)) N) as P. cbn in P. rewrite RW in P. lia.
    - destruct (rstep s (RStep n true)) as [s'|] eqn:ST.
      + exists (RStep n true), s'. split; [exact ST|]. unfold rstep in ST. rewrite N, RW, LW in ST. cbv zeta in ST.
        destruct ((0 <? u32 (rexp r)) && (u32 (rexp r) <=? t)); apply some_inj in ST; subst s'; unfold todo, setR; cbn [rws].
        * pose proof (todo_upd (fun w => length (left w) + match rat w with RNot => 2 | RRun _ => 1 | REnd => 0 end)%nat _ _ _ (mkRW (RRun t) rest (S (rexpd w))) N) as P. cbn in P. rewrite RW, LW in P. cbn in P. lia.
        * pose proof (todo_upd (fun w => length (left w) + match rat w with RNot => 2 | RRun _ => 1 | REnd => 0 end)%nat _ _ _ (mkRW (RRun t) rest (rexpd w)) N) as P. cbn in P. rewrite RW, LW in P. cbn in P. lia.
      + exfalso. unfold rstep in ST. rewrite N, RW, LW in ST. cbv zeta in ST. destruct ((0 <? u32 (rexp r)) && (u32 (rexp r) <=? t)); discriminate. }
  destruct G as (e & s' & ST & LT). apply (IH (todo s')) with (s := s'); [lia|lia|]. eapply rreachS; eauto.
Qed.
