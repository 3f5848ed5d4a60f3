(** C41, part 5: the remaining steps, and the theorems. *)
From Verif Require Import Bytes ShmMgr_model ShmMgr_spec ShmMgr_proofs ShmMgr_proofs2
  ShmMgr_proofs3 ShmMgr_proofs4.
Ltac Zify.zify_post_hook ::= idtac.

Section Heavy.
Variables (w w' : world) (tr e : list event) (a : action).
Hypothesis E : step w a = Some (w', e).
Hypothesis HY : hyps (tr ++ e).
Hypothesis PV : forall p, pinv w tr p.
Hypothesis PV' : forall p, pinv w' (tr ++ e) p.
Hypothesis FV : finv w.
Hypothesis K : kinv w tr.
Hypothesis SI : forall p, sinv w tr p.
Hypothesis QI : qinv w tr.
Variable p : nat.

Lemma kinv_samebound : bound w' = bound w -> nextObj w' = nextObj w -> kinv w' (tr ++ e).
Proof.
  intros Hb Hn. constructor.
  - intros n x y. rewrite Hb. apply (k_nb _ _ K).
  - intros n x X. rewrite Hb in X. destruct (k_up _ _ K _ _ X) as [q Hq].
    exists q. apply in_or_app. left. exact Hq.
  - intros n o n' o' x. rewrite Hb. apply (k_inj _ _ K).
  - intros n o x. rewrite Hb, Hn. apply (k_fresh _ _ K).
  - eapply one'; eauto.
  - eapply kleg'; eauto.
Qed.

Lemma write_step n v : a = AWrite p n v ->
  kinv w' (tr ++ e) /\ qinv w' (tr ++ e) /\ sinv w' (tr ++ e) p.
Proof.
  intros Ea. pose proof E as E2. rewrite Ea in E2. cbn [step] in E2.
  destruct (pc (procs w p)) eqn:P; try discriminate E2.
  destruct (afind (segs (procs w p)) n) as [[o x]|] eqn:S; [|discriminate E2].
  injection E2 as Ew Ee.
  assert (L0 : live (pc (procs w p)) = true) by (rewrite P; reflexivity).
  pose proof (fun n o x => s_seg _ _ _ (SI p) n o x L0) as S1.
  pose proof (fun n n' o o' x => s_dis _ _ _ (SI p) n n' o o' x L0) as S2.
  split; [apply kinv_samebound; rewrite <- Ew; reflexivity|]. split.
  - intros Q. specialize (Q p). rewrite <- Ew in Q. revert Q. wsimp. rewrite P. discriminate.
  - rewrite <- Ew, <- Ee. constructor; wsimp.
    + intros m o1 y _ Hm. destruct (S1 _ _ _ Hm) as (A & B & C & D).
      split; [exact A|]. split; [exact B|]. split; [exact C|].
      rewrite last_value_app. cbn [fold_left note_value]. rewrite Nat.eqb_refl.
      cbn [andb]. destruct (bytes_eqb n m) eqn:BE.
      * apply bytes_eqb_spec in BE. subst m. rewrite S in Hm. injection Hm as <- <-.
        rewrite updN_same. reflexivity.
      * rewrite D. rewrite updN_other; [reflexivity|]. intros ->.
        assert (n = m) by (eapply S2; eassumption). subst m.
        rewrite bytes_eqb_refl in BE. discriminate BE.
    + intros m m' o1 o2 y _. apply S2.
    + apply (s_act _ _ _ (SI p)).
    + intros X. congruence.
    + intros X. congruence.
    + intros W m k o1 y Hm Hs Hb. rewrite updN_other.
      * eapply good_mono; [eapply (s_names _ _ _ (SI p)); eauto| auto |].
        intros r leg [X|[]]. discriminate X.
      * intros ->. destruct (S1 _ _ _ S) as (_ & B & _). destruct (B _ _ Hb) as [-> _].
        congruence.
Qed.

Lemma file_step d r : pc (procs w p) = PWrite ->
  w' = w_proc (w_fdata w (updN (fdata w) (strIno (procs w p)) d)) p
         (set_pc (PUnlock r) (procs w p)) ->
  (dec_obj d = None \/ (d = enc_obj (posix (procs w p)) (attached (procs w p)) /\
                        e = [ESaved p])) ->
  kinv w' (tr ++ e) /\ qinv w' (tr ++ e) /\ sinv w' (tr ++ e) p.
Proof.
  intros P Ew Hd.
  assert (L0 : live (pc (procs w p)) = true) by (rewrite P; reflexivity).
  split; [apply kinv_samebound; rewrite Ew; reflexivity|]. split.
  - intros _ i s m Hm HD n v o x Hn Hb. rewrite Ew in *. revert Hm HD Hb. wsimp.
    intros Hm HD Hb.
    destruct (Nat.eq_dec i (strIno (procs w p))) as [->|Hne].
    + rewrite updN_same in HD. destruct Hd as [Hd|[-> ->]]; [congruence|].
      rewrite dec_enc in HD by (apply map_ok_filter, (fv_names _ FV)).
      injection HD as <- <-. destruct (afind_attached _ _ _ Hn) as [[o' y] Hs].
      destruct (s_seg _ _ _ (SI p) _ _ _ L0 Hs) as (_ & _ & C & D).
      rewrite (C _ _ Hb). exists p, tr, []. split; [reflexivity|]. split; [exact D|].
      intros ? ? [].
    + rewrite updN_other in HD by exact Hne.
      rewrite (s_act _ _ _ (SI p) (live_active _ L0) i Hm) in HD. discriminate HD.
  - rewrite Ew. constructor; wsimp; rewrite updN_same; wsimp; intros; discriminate.
Qed.

Lemma create_step n : a = ACreate p n ->
  kinv w' (tr ++ e) /\ qinv w' (tr ++ e) /\ sinv w' (tr ++ e) p.
Proof.
  intros Ea. pose proof E as E2. rewrite Ea in E2.
  apply create_inv in E2 as (P & _ & _ & w1 & b & D & X).
  pose proof (doRemove_spec _ _ _ _ _ D) as R.
  destruct (doRemove_bound _ _ _ _ _ D) as (DB1 & DB2 & DB3).
  assert (L0 : live (pc (procs w p)) = true) by (rewrite P; reflexivity).
  pose proof (fun n o x => s_seg _ _ _ (SI p) n o x L0) as S1.
  pose proof (fun n n' o o' x => s_dis _ _ _ (SI p) n n' o o' x L0) as S2.
  destruct (rm_segs _ _ _ _ R) as [R1 R2].
  assert (NR : forall r leg, In (ERunning r leg) e -> r = p).
  { intros r leg Z. eapply run_actor; eauto. rewrite Ea. reflexivity. }
  (* after removing, no kernel name of [n] is left *)
  assert (NB : forall o, bound w1 n o = None).
  { intros o. destruct (afind (segs (procs w p)) n) as [[o1 x1]|] eqn:S.
    - destruct (DB3 o1 x1 eq_refl) as [B1 B2].
      destruct (Bool.bool_dec o o1) as [->|Hne]; [exact B1|].
      assert (o = negb o1) by (destruct o, o1; cbn; try reflexivity; destruct (Hne eq_refl)). subst o. rewrite B2.
      destruct (bound w n (negb o1)) as [y|] eqn:BB; [|reflexivity].
      destruct (S1 _ _ _ S) as (_ & U & C & _). pose proof (C _ _ BB). subst y.
      destruct (U _ _ BB) as [_ Z]. destruct o1; discriminate Z.
    - destruct (legacy (procs w p)) eqn:Lg.
      + destruct o; [apply DB1; auto|].
        destruct (bound w1 n false) as [y|] eqn:BB; [|reflexivity].
        apply (rm_shr _ _ _ _ R) in BB. destruct (k_up _ _ K _ _ BB) as [q Hq].
        destruct (k_leg _ _ K p q L0 Lg Hq).
      + apply DB2; auto. destruct (bound w n false) as [y|] eqn:BF; [|auto].
        right. destruct (bound w n true) eqn:BT; [|reflexivity].
        destruct (k_nb _ _ K _ _ _ BF BT). }
  destruct X as [[Ew Ee]|(Bn & Ew & Ee)].
  { (* creation failed: only the removal happened *)
    split; [|split].
    - constructor.
      + intros m x y X Y. rewrite Ew in *.
        eapply (k_nb _ _ K); apply (rm_shr _ _ _ _ R); eassumption.
      + intros m x X. rewrite Ew in X. apply (rm_shr _ _ _ _ R) in X.
        destruct (k_up _ _ K _ _ X) as [q Hq]. exists q. apply in_or_app; left; exact Hq.
      + intros m o m' o' x X Y. rewrite Ew in *.
        eapply (k_inj _ _ K); apply (rm_shr _ _ _ _ R); eassumption.
      + intros m o x X. rewrite Ew in *. rewrite (rm_obj _ _ _ _ R).
        eapply (k_fresh _ _ K), (rm_shr _ _ _ _ R), X.
      + eapply one'; eauto.
      + eapply kleg'; eauto.
    - intros Q. specialize (Q p). rewrite Ew, (rm_pc _ _ _ _ R), P in Q. discriminate Q.
    - rewrite Ew, Ee, app_nil_r. constructor.
      + intros m o x _ Hm. destruct (bytes_eq_dec m n) as [->|Hne]; [congruence|].
        rewrite R2 in Hm by exact Hne. destruct (S1 _ _ _ Hm) as (A & B & C & F).
        rewrite (rm_obj _ _ _ _ R), (rm_objv _ _ _ _ R).
        split; [exact A|]. split; [|split; [|exact F]].
        * intros n' o' Y. apply B, (rm_shr _ _ _ _ R), Y.
        * intros o' y Y. eapply C, (rm_shr _ _ _ _ R), Y.
      + intros m m' o o' x _ H1 H2.
        destruct (bytes_eq_dec m n) as [->|Hne]; [congruence|].
        destruct (bytes_eq_dec m' n) as [->|Hne']; [congruence|].
        rewrite R2 in H1, H2 by assumption. eauto.
      + intros _ i Hi. rewrite (rm_fdata _ _ _ _ R). rewrite (rm_meta _ _ _ _ R) in Hi.
        exact (s_act _ _ _ (SI p) (live_active _ L0) i Hi).
      + intros Y. rewrite (rm_pc _ _ _ _ R) in Y. congruence.
      + intros Y. rewrite (rm_pc _ _ _ _ R) in Y. congruence.
      + intros _ m v o x Hm Hs Hb. rewrite (rm_objv _ _ _ _ R).
        destruct (bytes_eq_dec m n) as [->|Hne]; [rewrite NB in Hb; discriminate Hb|].
        rewrite R2 in Hs by exact Hne.
        apply (s_names _ _ _ (SI p)) with (v := v) (o := o).
        * rewrite P; reflexivity.
        * destruct (rm_names _ _ _ _ R) as [N0|N0]; rewrite N0 in Hm; [exact Hm|].
          rewrite afind_aerase_other in Hm by exact Hne. exact Hm.
        * exact Hs.
        * apply (rm_shr _ _ _ _ R), Hb. }
  (* created *)
  set (N := nextObj w1) in *. set (lg := legacy (procs w1 p)) in *.
  assert (HN : N = nextObj w) by (apply (rm_obj _ _ _ _ R)).
  assert (Fr : forall m o x, bound w1 m o = Some x -> x < N).
  { intros m o x Y. rewrite HN. eapply (k_fresh _ _ K), (rm_shr _ _ _ _ R), Y. }
  assert (Bw : forall m o x, bound w' m o = Some x ->
     (m = n /\ o = lg /\ x = N) \/ (m <> n /\ bound w m o = Some x /\ x < N)).
  { intros m o x Y. rewrite Ew in Y. unfold created_world in Y. revert Y. wsimp.
    fold lg N. intros Y. apply updB_cases in Y as [(-> & -> & Y)|[Hne Y]].
    - left. injection Y as <-. auto.
    - right. destruct (bytes_eq_dec m n) as [->|Hm]; [rewrite NB in Y; discriminate Y|].
      split; [exact Hm|]. split; [apply (rm_shr _ _ _ _ R), Y | eapply Fr, Y]. }
  assert (Vw : forall x, x < N -> objv w' x = objv w x).
  { intros x Hx. rewrite Ew. unfold created_world. wsimp. fold N.
    rewrite updN_other by lia. rewrite (rm_objv _ _ _ _ R). reflexivity. }
  assert (VN : objv w' N = 0).
  { rewrite Ew. unfold created_world. wsimp. apply updN_same. }
  assert (Nw : nextObj w' = S N) by (rewrite Ew; reflexivity).
  assert (Pp : pc (procs w' p) = PRun).
  { rewrite Ew. unfold created_world. wsimp. rewrite updN_same. wsimp.
    rewrite (rm_pc _ _ _ _ R). exact P. }
  assert (Sg : segs (procs w' p) = (n, (lg, N)) :: segs (procs w1 p)).
  { rewrite Ew. unfold created_world. wsimp. rewrite updN_same. reflexivity. }
  assert (Nm : forall m v, m <> n -> afind (names (procs w' p)) m = Some v ->
     afind (names (procs w p)) m = Some v).
  { intros m v Hm. rewrite Ew. unfold created_world. wsimp. rewrite updN_same. wsimp.
    intros Y.
    assert (Y2 : afind (names (procs w1 p)) m = Some v).
    { destruct (afind (names (procs w1 p)) n); [exact Y|].
      rewrite afind_app in Y. destruct (afind (names (procs w1 p)) m); [exact Y|].
      cbn [afind] in Y.
      replace (bytes_eqb n m) with false in Y
        by (symmetry; apply bytes_eqb_false; congruence). discriminate Y. }
    destruct (rm_names _ _ _ _ R) as [N0|N0]; rewrite N0 in Y2; [exact Y2|].
    rewrite afind_aerase_other in Y2 by exact Hm. exact Y2. }
  assert (LV : forall m, m <> n -> last_value p m (tr ++ e) = last_value p m tr).
  { intros m Hm. rewrite Ee, last_value_app. cbn [fold_left note_value].
    replace (bytes_eqb n m) with false by (symmetry; apply bytes_eqb_false; congruence).
    rewrite Bool.andb_false_r. reflexivity. }
  split; [|split].
  - constructor.
    + intros m x y X Y. apply Bw in X, Y.
      destruct X as [(-> & X1 & ->)|(Hm & X & _)];
      destruct Y as [(Y0 & Y1 & ->)|(Hm' & Y & _)]; try congruence.
      eapply (k_nb _ _ K); eassumption.
    + intros m x X. apply Bw in X as [(-> & X1 & ->)|(_ & X & _)].
      * exists p. apply in_or_app. left. rewrite X1. unfold lg.
        rewrite (rm_leg _ _ _ _ R). apply (pv_runs _ _ _ (PV p)); rewrite P;
          [reflexivity | discriminate].
      * destruct (k_up _ _ K _ _ X) as [q Hq]. exists q. apply in_or_app; left; exact Hq.
    + intros m o m' o' x X Y. apply Bw in X, Y.
      destruct X as [(-> & -> & ->)|(Hm & X & L1)];
      destruct Y as [(-> & -> & Y1)|(Hm' & Y & L2)]; try (split; reflexivity); try lia.
      eapply (k_inj _ _ K); eassumption.
    + intros m o x X. rewrite Nw. apply Bw in X as [(_ & _ & ->)|(_ & _ & X)]; lia.
    + eapply one'; eauto.
    + eapply kleg'; eauto.
  - intros Q. specialize (Q p). rewrite Pp in Q. discriminate Q.
  - constructor.
    + intros m o x _ Hm. rewrite Sg in Hm. cbn [afind] in Hm.
      destruct (bytes_eqb n m) eqn:BE.
      * apply bytes_eqb_spec in BE. subst m. injection Hm as <- <-.
        rewrite Nw. split; [lia|]. split; [|split].
        -- intros n' o' Y. apply Bw in Y as [(-> & -> & _)|(_ & _ & Y)]; [auto | lia].
        -- intros o' y Y. apply Bw in Y as [(_ & _ & ->)|(Y & _)]; [reflexivity|congruence].
        -- rewrite VN, Ee, last_value_app. cbn [fold_left note_value].
           rewrite Nat.eqb_refl, bytes_eqb_refl. reflexivity.
      * apply bytes_eqb_false in BE. rewrite R2 in Hm by congruence.
        destruct (S1 _ _ _ Hm) as (A & B & C & F). rewrite <- HN in A.
        rewrite Nw. split; [lia|]. split; [|split].
        -- intros n' o' Y. apply Bw in Y as [(_ & _ & ->)|(_ & Y & _)]; [lia | auto].
        -- intros o' y Y. apply Bw in Y as [(Y & _)|(_ & Y & _)]; [congruence | eauto].
        -- rewrite LV by congruence. rewrite Vw by exact A. exact F.
    + intros m m' o o' x _ H1 H2. rewrite Sg in H1, H2. cbn [afind] in H1, H2.
      destruct (bytes_eqb n m) eqn:BE; destruct (bytes_eqb n m') eqn:BE'.
      * apply bytes_eqb_spec in BE, BE'. congruence.
      * apply bytes_eqb_false in BE'. injection H1 as <- <-.
        rewrite R2 in H2 by congruence. destruct (S1 _ _ _ H2) as (A & _). lia.
      * apply bytes_eqb_false in BE. injection H2 as <- <-.
        rewrite R2 in H1 by congruence. destruct (S1 _ _ _ H1) as (A & _). lia.
      * apply bytes_eqb_false in BE, BE'. rewrite R2 in H1, H2 by congruence. eauto.
    + intros _ i Hi. rewrite Ew in *. revert Hi. unfold created_world. wsimp.
      rewrite (rm_meta _ _ _ _ R), (rm_fdata _ _ _ _ R).
      apply (s_act _ _ _ (SI p) (live_active _ L0)).
    + intros Y. congruence.
    + intros Y. congruence.
    + intros _ m v o x Hm Hs Hb. rewrite Sg in Hs. cbn [afind] in Hs.
      destruct (bytes_eqb n m) eqn:BE; [discriminate Hs|].
      apply bytes_eqb_false in BE. rewrite R2 in Hs by congruence.
      apply Bw in Hb as [(Y & _)|(_ & Hb & Lx)]; [congruence|].
      rewrite Vw by exact Lx.
      apply good_mono with (R := fun z => z = p); [|intros r Z; exact Z|exact NR].
      apply (s_names _ _ _ (SI p)) with (v := v) (o := o); auto.
      rewrite P; reflexivity.
Qed.
End Heavy.

Record cinv (w : world) (tr : list event) : Prop := mkCinv {
  ci_k : kinv w tr; ci_s : forall p, sinv w tr p; ci_q : qinv w tr }.

Lemma cinv0 : cinv world0 [].
Proof.
  constructor.
  - constructor; cbn; try discriminate.
  - intros p. constructor; cbn; discriminate.
  - intros _ i s m Hm. discriminate Hm.
Qed.

Lemma cinv_step w tr a w' e : reach w tr -> step w a = Some (w', e) ->
  hyps (tr ++ e) -> cinv w tr -> cinv w' (tr ++ e).
Proof.
  intros R E HY [K SI QI].
  pose proof (pinv_reach _ _ R) as PV. pose proof (finv_reach _ _ R) as FV.
  assert (PV' : forall p, pinv w' (tr ++ e) p)
    by (apply pinv_reach; econstructor; eauto).
  assert (main : kinv w' (tr ++ e) /\ qinv w' (tr ++ e) /\
                 forall p, actor a = Some p -> sinv w' (tr ++ e) p).
  { destruct (heavy w a) eqn:Hh.
    - destruct a; cbn [heavy] in Hh; try discriminate Hh; cbn [actor].
      + (* PWrite *)
        destruct (pc (procs w p)) eqn:P; try discriminate Hh.
        pose proof E as E2. cbn [step] in E2. rewrite P in E2. injection E2 as E2 E3.
        destruct (file_step w w' tr e (ANext p) E HY PV PV' FV K SI p
                    (enc_obj (posix (procs w p)) (attached (procs w p))) kSuccess P)
          as (A & B & C); [congruence | right; auto |].
        split; [exact A|]. split; [exact B|]. intros p0 X; injection X as <-. exact C.
      + destruct (create_step w w' tr e (ACreate p n) E HY PV PV' K SI p n eq_refl)
          as (A & B & C).
        split; [exact A|]. split; [exact B|]. intros p0 X; injection X as <-. exact C.
      + destruct (write_step w w' tr e (AWrite p n v) E HY PV PV' K SI p n v eq_refl)
          as (A & B & C).
        split; [exact A|]. split; [exact B|]. intros p0 X; injection X as <-. exact C.
      + pose proof E as E2. cbn [step] in E2. destruct (pc (procs w p)) eqn:P;
          try discriminate E2. cbv zeta in E2.
        destruct (k <? length (enc_obj (posix (procs w p)) (attached (procs w p)))) eqn:Lk;
          [|discriminate E2]. apply Nat.ltb_lt in Lk. injection E2 as E2 E3.
        destruct (file_step w w' tr e (AWriteCut p k) E HY PV PV' FV K SI p
                    (firstn k (enc_obj (posix (procs w p)) (attached (procs w p))))
                    kFailedWrite P)
          as (A & B & C); [congruence | |].
        { left. apply dec_cut; [apply map_ok_filter, (fv_names _ FV) | exact Lk]. }
        split; [exact A|]. split; [exact B|]. intros p0 X; injection X as <-. exact C.
    - split; [eapply kinv_light; eauto|]. split; [eapply qinv_light; eauto|].
      intros p Ha. eapply sinv_light; eauto. }
  destruct main as (A & B & C). constructor; [exact A | | exact B].
  intros p. destruct (actor_dec a p) as [Ha|Ha]; [apply C, Ha|].
  eapply sinv_other; eauto.
Qed.

Lemma cinv_reach w tr : reach w tr -> hyps tr -> cinv w tr.
Proof.
  induction 1 as [|w tr a w' e R IH E]; intros HY; [apply cinv0|].
  eapply cinv_step; eauto. apply IH. eapply hyps_prefix, HY.
Qed.
