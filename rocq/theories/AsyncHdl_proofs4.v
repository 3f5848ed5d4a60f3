(** Accounts over all steps. *)
From Coq Require Import List Arith ZArith Bool Lia.
Import ListNotations.
From Verif Require Import AsyncHdl_model AsyncHdl_spec AsyncHdl_proofs1 AsyncHdl_proofs2 AsyncHdl_proofs3.

Section R.
Variable maxRef : nat.
Ltac nobad := cbn; intuition discriminate.

Lemma good_ctx : forall s c y e, Acc s -> c < nc s -> (forall i, octx y i = octx (ctxs s c) i) -> dropped e = 0 -> ~ In EBad e ->
  good s (setCtx s c y) e.
Proof.
  intros s c y e AC Hc O D E. eapply good_same; auto.
  - intro i. pose proof (owners_ctx s c y i Hc) as X. specialize (O i). lia.
  - unfold bal. rewrite D. cbn. unfold active; cbn. lia.
Qed.
Lemma good_id : forall s e, Acc s -> dropped e = 0 -> ~ In EBad e -> good s s e.
Proof. intros s e A D E. split; [assumption|]. split; [unfold bal; rewrite D; lia|assumption]. Qed.

Lemma good_copy : forall s j, Acc s -> 0 < owners s j ->
  forall s1 e, incRef s j = (s1, e) -> good s (setPlain s1 (plain s1 ++ [j])) e.
Proof.
  intros s j AC P s1 e K. unfold incRef in K. rewrite (refpos s j AC P) in K. inversion K; subst s1 e; clear K.
  eapply good_inc with (j := j); auto; try nobad.
  - intro i. match goal with |- owners (setPlain ?t ?l) i = _ => pose proof (owners_plain t l i) as X; assert (Y : owners t i = owners s i) by (apply owners_eq; reflexivity) end.
    rewrite cnt_app, cnt_one in X. lia.
  - unfold bal, dropped, active; cbn. rewrite app_length. cbn. lia.
Qed.

Lemma good_doFind : forall s s' e, Acc s -> WF s -> doFind s = (s', e) -> good s s' e.
Proof.
  intros s s' e AC W D. unfold doFind in D. destruct (fillmap s) as [f|] eqn:M; inversion D; subst s' e; clear D.
  - destruct (w_map s W f M) as (Hf & Po). eapply good_same; auto; try nobad.
    + intro i. unfold owners; cbn [plain nc nf ctxs fetches sumTo setFetch]. rewrite upd_same.
      rewrite (sumTo_ext (nc s) _ (fun c => octx (ctxs s c) i)) by (intros; rewrite upd_diff by lia; reflexivity).
      rewrite (sumTo_ext (nf s) _ (fun f => ofet (fetches s f) i)).
      * unfold octx at 2; cbn. lia.
      * intros k Hk. destruct (Nat.eq_dec k f) as [->|N]; [rewrite upd_same; reflexivity|rewrite upd_diff by assumption; reflexivity].
    + unfold bal, active, dropped; cbn [plain nf fetches setFetch total filter isDropped length].
      rewrite (sumTo_ext (nf s) (fun k => hfet (upd _ _ _ k)) (fun f => hfet (fetches s f))); [lia|].
      intros k Hk. destruct (Nat.eq_dec k f) as [->|N]; [rewrite upd_same; reflexivity|rewrite upd_diff by assumption; reflexivity].
  - eapply good_same; auto; try nobad.
    + intro i. unfold owners; cbn [plain nc nf ctxs fetches sumTo setFetch]. rewrite !upd_same.
      rewrite (sumTo_ext (nc s) _ (fun c => octx (ctxs s c) i)) by (intros; rewrite upd_diff by lia; reflexivity).
      rewrite (sumTo_ext (nf s) _ (fun f => ofet (fetches s f) i)) by (intros; rewrite upd_diff by lia; reflexivity).
      unfold octx at 2, ofet at 2; cbn. lia.
    + unfold bal, active, dropped; cbn [plain nf fetches setFetch total filter isDropped length sumTo]. rewrite upd_same.
      rewrite (sumTo_ext (nf s) (fun k => hfet (upd _ _ _ k)) (fun f => hfet (fetches s f))) by (intros; rewrite upd_diff by lia; reflexivity).
      unfold hfet at 3; cbn. lia.
Qed.

Lemma cnt_in : forall l i, In i l -> 0 < cnt l i.
Proof. intros l i I. unfold cnt. apply count_occ_In. assumption. Qed.

Lemma good_step : forall s a s' e, WF s -> Acc s -> step maxRef s a = Some (s', e) -> good s s' e.
Proof.
  intros s a s' e W AC K. destruct a as [|f|f|f|c|c|c|c|c|c|c|c|c|c|k|k]; cbn [step] in K.
  - inversion K. eapply good_doFind; eauto.
  - destruct (Nat.ltb_spec f (nf s)) as [Hf|]; [|discriminate].
    destruct (fpcs (fetches s f)) eqn:P; try discriminate. destruct (fit (fetches s f)) eqn:Fi; [discriminate|].
    inversion K; subst s' e; clear K. pose proof AC as (A & B).
    set (g := mkF (fwait (fetches s f)) FOpen (Some (nitem s)) (fover (fetches s f))).
    assert (OW : forall i, sumTo (nf s) (fun k => ofet (upd (fetches s) f g k) i) = sumTo (nf s) (fun k => ofet (fetches s k) i) + isI i (Some (nitem s))).
    { intro i. pose proof (owners_fetch s f g i Hf) as X. unfold owners, setFetch in X; cbn [plain nc nf ctxs fetches] in X.
      assert (Y : ofet (fetches s f) i = 0) by (unfold ofet; rewrite P, Fi; reflexivity).
      assert (Z : ofet g i = isI i (Some (nitem s))) by (unfold ofet, g; cbn [fpcs fit fholds transit]; rewrite isI_none; lia). lia. }
    split; [split|split; [|nobad]].
    + intro i. unfold owners. cbn [refs plain nc nf ctxs fetches]. rewrite OW. specialize (A i). unfold owners in A.
      specialize (B (nitem s) ltac:(lia)). unfold upd, isI. destruct (Nat.eqb_spec i (nitem s)) as [->|N]; [rewrite Nat.eqb_refl; lia|].
      destruct (Nat.eqb_spec (nitem s) i); [congruence|lia].
    + cbn [refs nitem]. intros i Hi. rewrite upd_diff by lia. apply B. lia.
    + unfold bal, active, dropped; cbn [plain nf fetches total filter isDropped length].
      pose proof (active_fetch s f g Hf) as X. unfold active, setFetch in X; cbn [plain nf fetches] in X.
      assert (Y : hfet (fetches s f) = 0) by (unfold hfet; rewrite P, Fi; reflexivity).
      assert (Z : hfet g = 1) by reflexivity. fold g. lia.
  - destruct (Nat.ltb_spec f (nf s)) as [Hf|]; [|discriminate].
    destruct (fpcs (fetches s f)) eqn:P; try discriminate.
    pose proof (w_map2 s W f Hf P) as M. rewrite M in K. inversion K; subst s' e; clear K.
    eapply good_pc with (t := setMap s None) (f := f) (g := mkF (fwait (fetches s f)) (FRun (fwait (fetches s f)) SClone) (fit (fetches s f)) (fover (fetches s f))); auto; try nobad.
    + intro i. unfold ofet; cbn. rewrite P. destruct (fwait (fetches s f)); reflexivity.
    + unfold hfet; cbn. rewrite P. destruct (fwait (fetches s f)); cbn; lia.
  - destruct (Nat.ltb_spec f (nf s)) as [Hf|]; [|discriminate]. eapply good_wake; eauto.
  - destruct (mine s c); inversion K; subst s' e. apply good_id; auto. nobad.
  - destruct (mine s c); inversion K; subst s' e. apply good_id; auto. nobad.
  - destruct (mine s c) eqn:Mi; [|discriminate]. destruct (mine_inv _ _ Mi) as (Hc & Ho & Wa & Fu).
    destruct (cval (ctxs s c)); inversion K; subst s' e; [apply good_id; auto; nobad|].
    apply good_ctx; auto; nobad.
  - destruct ((c <? nc s) && cwait (ctxs s c) && cposted (ctxs s c)) eqn:B; [|discriminate].
    apply andb_prop in B. destruct B as [B _]. apply andb_prop in B. destruct B as [B _]. apply Nat.ltb_lt in B.
    destruct (cval (ctxs s c)); inversion K; subst s' e. apply good_ctx; auto; nobad.
  - destruct (mine s c) eqn:Mi; [|discriminate]. destruct (mine_inv _ _ Mi) as (Hc & Ho & Wa & Fu).
    destruct (cval (ctxs s c)) as [[i|]|] eqn:V; try discriminate; [|inversion K; subst s' e; apply good_id; auto].
    assert (P : 0 < owners s i).
    { pose proof (held_ctx s c i Hc) as X. unfold octx in X. rewrite Ho, V in X. cbn [orb] in X. rewrite isI_self in X. lia. }
    destruct (full maxRef s i); [inversion K; subst s' e; apply good_id; auto; nobad|].
    destruct (incRef s i) as [s1 e1] eqn:I. inversion K; subst s' e. eapply good_copy; eauto.
  - destruct (mine s c) eqn:Mi; [|discriminate]. destruct (mine_inv _ _ Mi) as (Hc & Ho & Wa & Fu).
    destruct (cval (ctxs s c)) as [[i|]|] eqn:V; try discriminate; [|inversion K; eapply good_letGo; eauto].
    set (s2 := setPlain (adjust (setCtx s c (withVal (ctxs s c) (Some None))) 1) (plain (adjust (setCtx s c (withVal (ctxs s c) (Some None))) 1) ++ [i])) in *.
    assert (L : letGo s2 c = (s', e)) by congruence. clear K.
    assert (G : good s s2 []).
    { eapply good_same; auto; try nobad.
      - intro k. pose proof (owners_ctx s c (withVal (ctxs s c) (Some None)) k Hc) as X.
        pose proof (owners_plain (adjust (setCtx s c (withVal (ctxs s c) (Some None))) 1) (plain s ++ [i]) k) as Y.
        assert (Z : octx (ctxs s c) k = octx (withVal (ctxs s c) (Some None)) k + isI k (Some i)).
        { unfold octx. rewrite V. cbn [chold cshare cval cfut withVal]. rewrite Ho. cbn [orb]. rewrite isI_none. lia. }
        rewrite cnt_app, cnt_one in Y. change (plain (adjust (setCtx s c (withVal (ctxs s c) (Some None))) 1)) with (plain s) in Y.
        assert (T : owners (adjust (setCtx s c (withVal (ctxs s c) (Some None))) 1) k = owners (setCtx s c (withVal (ctxs s c) (Some None))) k) by (apply owners_eq; reflexivity).
        unfold s2. change (plain (adjust (setCtx s c (withVal (ctxs s c) (Some None))) 1)) with (plain s). lia.
      - unfold bal, s2, active, dropped; cbn. rewrite app_length. cbn. lia. }
    change e with ([] ++ e). eapply good_trans; [exact G|]. eapply good_letGo; [apply G| | |exact L]; [exact Hc|].
    unfold s2; cbn. rewrite upd_same. exact Ho.
  - destruct (mine s c) eqn:Mi; [|discriminate]. destruct (mine_inv _ _ Mi) as (Hc & Ho & Wa & Fu).
    destruct (cval (ctxs s c)) eqn:V; inversion K; subst s' e; [apply good_id; auto; nobad|].
    apply good_ctx; auto; try nobad. intro i. unfold octx; cbn. rewrite Fu. reflexivity.
  - destruct ((c <? nc s) && chold (ctxs s c) && negb (cwait (ctxs s c))) eqn:B; [|discriminate].
    apply andb_prop in B. destruct B as [B B2]. apply andb_prop in B. destruct B as [B B3]. apply Nat.ltb_lt in B.
    inversion K. eapply good_letGo; eauto.
  - destruct (cfut (ctxs s c)) as [| |v| | |] eqn:U; try discriminate.
    destruct (Nat.ltb_spec c (nc s)) as [Hc|]; [|discriminate].
    destruct v as [j|]; inversion K; subst s' e; clear K.
    + eapply good_same; auto; try nobad.
      * intro k. pose proof (owners_ctx s c (withFut (ctxs s c) UDone) k Hc) as X.
        set (t := adjust (setCtx s c (withFut (ctxs s c) UDone)) 1).
        pose proof (owners_plain t (plain s ++ [j]) k) as Y.
        assert (Z : octx (ctxs s c) k = octx (withFut (ctxs s c) UDone) k + isI k (Some j)).
        { unfold octx. rewrite U. cbn [chold cshare cval cfut withFut]. lia. }
        rewrite cnt_app, cnt_one in Y. change (plain t) with (plain s) in *.
        assert (T : owners t k = owners (setCtx s c (withFut (ctxs s c) UDone)) k) by (apply owners_eq; reflexivity).
        lia.
      * unfold bal, active, dropped; cbn. rewrite app_length. cbn. lia.
    + apply good_ctx; auto; try nobad. intro i. unfold octx; cbn. rewrite U. cbn. lia.
  - destruct (Nat.ltb_spec c (nc s)) as [Hc|]; [|discriminate].
    destruct (cfut (ctxs s c)) as [| |v| | |] eqn:U; try discriminate.
    + inversion K; subst s' e. apply good_ctx; auto; try nobad. intro i. unfold octx; cbn. rewrite U. cbn. lia.
    + destruct v as [j|].
      * assert (P : 0 < owners s j).
        { pose proof (held_ctx s c j Hc) as X. unfold octx in X. rewrite U in X. rewrite isI_self in X. lia. }
        unfold decRef in K. cbn [refs setCtx] in K. rewrite (refpos s j AC P) in K. inversion K; subst s' e; clear K.
        eapply good_dec with (j := j); auto; try nobad.
        -- intro k. pose proof (owners_ctx s c (withFut (ctxs s c) UDone) k Hc) as X.
           assert (Z : octx (ctxs s c) k = octx (withFut (ctxs s c) UDone) k + isI k (Some j)).
           { unfold octx. rewrite U. cbn [chold cshare cval cfut withFut]. lia. }
           match goal with |- owners ?t k + _ = _ => assert (T : owners t k = owners (setCtx s c (withFut (ctxs s c) UDone)) k) by (apply owners_eq; reflexivity) end.
           lia.
        -- unfold bal, active, dropped; cbn. lia.
      * inversion K; subst s' e. apply good_ctx; auto; try nobad. intro i. unfold octx; cbn. rewrite U. cbn. lia.
  - destruct (nth_error (plain s) k) as [i|] eqn:N; [|discriminate].
    assert (P : 0 < owners s i) by (apply nth_error_In in N; apply cnt_in in N; unfold owners; lia).
    destruct (full maxRef s i); [inversion K; subst s' e; apply good_id; auto; nobad|].
    destruct (incRef s i) as [s1 e1] eqn:I. inversion K; subst s' e. eapply good_copy; eauto.
  - destruct (nth_error (plain s) k) as [i|] eqn:N; [|discriminate].
    assert (P : 0 < owners s i) by (apply nth_error_In in N; apply cnt_in in N; unfold owners; lia).
    unfold decRef in K. rewrite (refpos s i AC P) in K.
    inversion K; subst s' e; clear K.
    eapply good_dec with (j := i); auto; try nobad.
    + intro j. match goal with |- owners (setPlain ?t ?l) j + _ = _ => pose proof (owners_plain t l j) as X; assert (Y : owners t j = owners s j) by (apply owners_eq; reflexivity); set (o1 := owners (setPlain t l) j) in *; change (plain t) with (plain s) in X; clearbody o1 end.
      pose proof (cnt_del (plain s) k i j N) as Z. rewrite Y in X. clear Y.
      change (match plain s with [] => [] | _ :: l => skipn k l end) with (skipn (S k) (plain s)) in X. lia.
    + unfold bal, active, dropped. pose proof (len_del (plain s) k i N). cbn [plain setPlain total setTotal nf fetches setRefs filter length].
      change (match plain s with [] => [] | _ :: l => skipn k l end) with (skipn (S k) (plain s)). lia.
Qed.

Lemma Acc_init : Acc init.
Proof. split; intros; reflexivity. Qed.

Record All (s : state) (tr : list event) : Prop := {
  a_wf : WF s;
  a_acc : Acc s;
  a_bal : (total s + Z.of_nat (dropped tr) = Z.of_nat (active s))%Z;
  a_bad : ~ In EBad tr
}.
Lemma All_init : All init [].
Proof. constructor; [apply WF_init|apply Acc_init|reflexivity|intros []]. Qed.
Lemma All_step : forall s tr a s' e, All s tr -> step maxRef s a = Some (s', e) -> All s' (tr ++ e).
Proof.
  intros s tr a s' e [A1 A2 A3 A4] K. destruct (good_step s a s' e A1 A2 K) as (G1 & G2 & G3). constructor.
  - eapply WF_step; eauto.
  - assumption.
  - unfold bal in G2. rewrite dropped_app. lia.
  - intro I. apply in_app_or in I. tauto.
Qed.
End R.
