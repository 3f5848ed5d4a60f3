(** Histories of an allocation class. *)
From Coq Require Import Permutation.
From Verif Require Import Bytes Compress_model AllocClass_model AllocClass_spec AllocClass_proofs AllocClass_proofs2 AllocClass_proofs3.

Section Runs.
Context (c : acfg) (LC : legalCfg c).
Local Notation al := (al c). Local Notation relT := (relT c). Local Notation unc := (unc c).
Local Notation InvA := (InvA c).
Ltac prj := cbn [sAc sLk live freeing ctxs curS curOff allocd freeS freed canA relMap nActive fst snd] in *.
Ltac inv0 I := destruct I as [Isl Ihd Imk Icu Icn Iln Irl Ifr Iph Icx Iac].

Lemma owns_nown a s : owns a s <-> 0 < nown a s.
Proof.
  unfold owns, nown. rewrite !cS_In. unfold inR. destruct (relMap a s); cbn [isSome b2n Nat.b2n].
  - split; [lia|]. intros _. right; right. discriminate.
  - split; [intros [?|[?|[]]]; [lia|lia|reflexivity]|]. intros H. destruct (cS s (allocd a)); [right; left; lia|left; lia].
Qed.
Lemma env_inv t h h' : Inv c (t, h) -> envOk c (sAc t) h h' -> Inv c (t, h').
Proof.
  intros I [E1 E2]. unfold Inv in *. prj. inv0 I. constructor; prj; auto.
  - intros s. pose proof (owns_nown (sAc t) s) as OW. unfold nown in OW. rewrite <- OW. specialize (Ihd s). rewrite <- OW in Ihd. unfold hdrOurs in *. split.
    + intros H. destruct (Nat.eq_0_gt_0_cases (nown (sAc t) s)) as [Z|Z]; [|apply owns_nown; exact Z].
      exfalso. apply (E2 s); [|exact H]. rewrite owns_nown. lia.
    + intros O. rewrite E1 by exact O. apply Ihd. exact O.
  - intros s H. rewrite E1; [auto|]. apply owns_nown. exact H.
Qed.
Lemma init_inv h : fresh c h -> Inv c (initAst, h).
Proof.
  intros F. unfold Inv. cbn. constructor; cbn; auto; try discriminate; try lia.
  - intros s. split; [intros H; exfalso; exact (F s H)|lia].
Qed.

(** What the labels say about ownership. *)
Lemma step_live x l y : Inv c x -> astep c x l y -> forall lv,
  (forall m, cA m lv = cA m (live (fst x)) + cA m (freeing (fst x))) ->
  forall m, cA m (own1 l lv) = cA m (live (fst y)) + cA m (freeing (fst y)).
Proof.
  intros I ST lv H m. specialize (H m) as Hm. destruct ST; prj; cbn [own1]; auto.
  - destruct r as [z|]; cbn [optL app cA]; lia.
  - pose proof (cA_remA m0 m (live t) H0). cbn [cA]. lia.
  - assert (In m0 lv) as IL. { apply cA_In. rewrite H. apply cA_In in H0. lia. }
    pose proof (cA_remA m0 m lv IL). pose proof (cA_remA m0 m (freeing t) H0). lia.
  - rewrite H1 in Hm. exact Hm.
Qed.
Lemma existsb_nown a s : (0 <? nown a s) = true <-> owns a s.
Proof. rewrite owns_nown. apply Nat.ltb_lt. Qed.
Lemma swapRemove_nil s : swapRemove s [] = []. Proof. reflexivity. Qed.

Lemma alloc_nown a a' r s : allocateLocked c a = (a', r) -> nown a' s = nown a s.
Proof.
  unfold allocateLocked. destruct (freed a); [|intros E; inversion E; reflexivity].
  destruct (canCarve c a).
  - unfold carve. destruct (curS a); intros E; inversion E; subst; reflexivity.
  - destruct (freeS a) as [|y q] eqn:FS; [intros E; inversion E; subst; unfold nown; prj; rewrite FS; reflexivity|].
    unfold setupCurrent. rewrite FS. destruct (rev (y :: q)) as [|z w] eqn:RV.
    + apply (f_equal (@rev nat)) in RV. rewrite rev_involutive in RV. discriminate.
    + apply (f_equal (@rev nat)) in RV. rewrite rev_involutive in RV. cbn [rev] in RV. unfold carve. prj. intros E; inversion E; subst. unfold nown. prj.
      change (match q with [] => [] | _ :: _ => y :: removelast q end) with (removelast (y :: q)). rewrite FS, RV, removelast_last, !cS_app. cbn [cS]. lia.
Qed.
Lemma step_held x l y : Inv c x -> astep c x l y -> forall s,
  (0 <? nown (sAc (fst y)) s) = held1 l s (0 <? nown (sAc (fst x)) s).
Proof.
  intros I ST s. pose proof (step_inv c LC _ _ _ I ST) as I2. unfold Inv in I, I2.
  assert (X : forall b1 b2 : bool, (b1 = true <-> b2 = true) -> b1 = b2) by (intros [] [] Q; auto; [symmetry; apply Q; auto|apply Q; auto]).
  destruct ST; prj; cbn [held1]; auto.
  - erewrite alloc_nown by eauto. reflexivity.
  - unfold addSlabLocked in H2. inversion H2; subst. unfold nown. prj. rewrite cS_app. cbn [cS].
    destruct (Nat.eqb_spec s0 s) as [->|]; cbn [b2n Nat.b2n]; [apply Nat.ltb_lt; lia|f_equal; lia].
  - unfold freeLocked in H0. destruct (hMark (h (fst m))); [|inversion H0; reflexivity].
    destruct (relMap (sAc t) (fst m)) as [v|] eqn:R; [|discriminate]. destruct (nth_error v (allocIdx c m)) as [[|]|]; try discriminate.
    destruct (setTrue v (allocIdx c m)); [|discriminate]. inversion H0; subst. unfold nown. prj. rewrite inR_upd.
    destruct (Nat.eqb_spec s (fst m)) as [->|]; [unfold inR; rewrite R|]; reflexivity.
  - rewrite H in I. destruct (start_free_inv c _ _ _ _ _ _ _ _ I H0) as (J & A & B & C & D).
    assert (allocd a' = allocd (sAc t) /\ relMap a' = relMap (sAc t)) as [E1 E2].
    { unfold startRelease in H0. match goal with Q : (if ?b then _ else _) = _ |- _ => destruct b end; [discriminate|].
      destruct (existsb (Nat.eqb s0) (freeS (sAc t))); [inversion H0; auto|].
      destruct (relMap (sAc t) s0); [discriminate|]. destruct (existsb (Nat.eqb s0) (allocd (sAc t))); discriminate. }
    unfold nown. rewrite E1, E2, D. rewrite (Nat.eqb_sym s0). destruct (Nat.eqb_spec s s0) as [->|]; [|reflexivity].
    rewrite A, C. reflexivity.
  - unfold startRelease in H0. match goal with Q : (if ?b then _ else _) = _ |- _ => destruct b end; [discriminate|].
    destruct (existsb (Nat.eqb s0) (freeS (sAc t))); [discriminate|].
    destruct (relMap (sAc t) s0) eqn:R; [discriminate|]. destruct (existsb (Nat.eqb s0) (allocd (sAc t))) eqn:EA; [|discriminate]. inversion H0; subst.
    unfold nown. prj. apply existsb_eqb in EA. pose proof (swapRemove_cS s0 (allocd (sAc t)) s EA) as SW. rewrite inR_upd.
    rewrite (Nat.eqb_sym s0 s) in SW. destruct (Nat.eqb_spec s s0) as [E|E]; cbn [b2n Nat.b2n isSome] in *.
    + subst s. apply X. rewrite !Nat.ltb_lt. unfold inR. rewrite R. cbn. lia.
    + f_equal. lia.
  - apply pair_equal_spec in H0 as [<- _]. reflexivity.
  - unfold pruneMerge in H0. destruct (relMap (sAc t) s0) as [v|] eqn:R; [|discriminate]. destruct (markIn c v ins); [|discriminate]. injection H0 as <-.
    unfold nown. prj. rewrite inR_upd. destruct (Nat.eqb_spec s s0) as [->|]; [unfold inR; rewrite R|]; reflexivity.
  - unfold pruneMerge in H0. destruct (relMap (sAc t) s0) as [v|] eqn:R; [|discriminate]. destruct (markIn c v ins); [|discriminate]. injection H0 as <-.
    unfold nown. prj. rewrite inR_upd. destruct (Nat.eqb_spec s s0) as [->|]; [unfold inR; rewrite R|]; reflexivity.
  - unfold startAborted, restoreFreed in H0. destruct (relMap (sAc t) s0) as [v|] eqn:R; [|discriminate]. inversion H0; subst. unfold nown. prj.
    rewrite cS_app, inR_upd. cbn [cS]. rewrite (Nat.eqb_sym s0). f_equal. unfold inR. destruct (Nat.eqb_spec s s0) as [->|]; [rewrite R|]; cbn; lia.
  - inversion H0; subst. unfold nown. prj. rewrite inR_upd. rewrite (Nat.eqb_sym s0). destruct (Nat.eqb_spec s s0) as [->|]; [|reflexivity].
    pose proof (i_slabs _ _ _ _ _ _ _ I s0) as L. pose proof (i_rel _ _ _ _ _ _ _ I s0) as RR. rewrite H in RR. cbn [prOn] in RR. rewrite Nat.eqb_refl in RR.
    cbn [b2n Nat.b2n isSome] in *. apply Nat.ltb_ge. lia.
  - inversion H0; subst. reflexivity.
  - unfold abortRelease, restoreFreed in H0. destruct (relMap (sAc t) s0) as [v|] eqn:R; [|discriminate]. inversion H0; subst. unfold nown. prj.
    rewrite cS_app, inR_upd. cbn [cS]. rewrite (Nat.eqb_sym s0). f_equal. unfold inR. destruct (Nat.eqb_spec s s0) as [->|]; [rewrite R|]; cbn; lia.
  - inversion H0; subst. unfold nown. prj. rewrite inR_upd. rewrite (Nat.eqb_sym s0). destruct (Nat.eqb_spec s s0) as [->|]; [|reflexivity].
    destruct (ctx_inR c _ _ _ _ _ _ _ I H) as (R1 & _ & _). cbn [xSlab] in R1. pose proof (i_slabs _ _ _ _ _ _ _ I s0) as L. rewrite R1 in L.
    cbn [b2n Nat.b2n isSome] in *. apply Nat.ltb_ge. lia.
  - unfold nown. prj. subst a. pose proof (i_rel _ _ _ _ _ _ _ I s) as RR. rewrite H in RR. cbn [prOn] in RR.
    assert (CE : ctxs t = []). { pose proof (i_act _ _ _ _ _ _ _ I). destruct (ctxs t); [reflexivity|cbn in *; lia]. }
    rewrite CE in RR. rewrite RR. reflexivity.
Qed.

Definition tinv (tr : list label) (x : ast * hdrs) : Prop :=
  Inv c x /\ (forall m, cA m (liveAfter tr) = cA m (live (fst x)) + cA m (freeing (fst x))) /\
  (forall s, heldAfter tr s = (0 <? nown (sAc (fst x)) s)).
Lemma owned_snoc tr l lv : owned (tr ++ [l]) lv = own1 l (owned tr lv).
Proof. revert lv. induction tr; cbn; auto. Qed.
Lemma held_snoc tr l s b : heldFrom (tr ++ [l]) s b = held1 l s (heldFrom tr s b).
Proof. revert b. induction tr; cbn; auto. Qed.
Lemma tinv_step tr x l y : tinv tr x -> astep c x l y -> tinv (tr ++ [l]) y.
Proof.
  intros (I & A & B) ST. split; [eapply step_inv; eauto|]. unfold liveAfter, heldAfter. split.
  - rewrite owned_snoc. eapply step_live; eauto.
  - intros s. rewrite held_snoc. change (heldFrom tr s false) with (heldAfter tr s). rewrite B. symmetry. eapply step_held; eauto.
Qed.
Lemma tinv_env tr t h h' : tinv tr (t, h) -> envOk c (sAc t) h h' -> tinv tr (t, h').
Proof. intros (I & A & B) E. split; [eapply env_inv; eauto|]. auto. Qed.
Lemma tinv_run x tr y : arun c x tr y -> forall tr0, tinv tr0 x -> tinv (tr0 ++ tr) y.
Proof.
  induction 1; intros tr0 T; [rewrite app_nil_r; exact T| |].
  - change (l :: tr) with ([l] ++ tr). rewrite app_assoc. apply IHarun. eapply tinv_step; eauto.
  - apply IHarun. eapply tinv_env; eauto.
Qed.
Lemma tinv_init h : fresh c h -> tinv [] (initAst, h).
Proof. intros F. split; [apply init_inv; exact F|]. split; [reflexivity|]. reflexivity. Qed.
Lemma history_tinv tr t h : history c tr t h -> tinv tr (t, h).
Proof. intros (h0 & F & R). apply (tinv_run _ _ _ R []). apply tinv_init. exact F. Qed.

(** Splitting a run at a label. *)
Lemma run_split x tr1 l tr2 z : arun c x (tr1 ++ l :: tr2) z ->
  exists y y', arun c x tr1 y /\ astep c y l y' /\ arun c y' tr2 z.
Proof.
  intros R. remember (tr1 ++ l :: tr2) as tr eqn:E. revert tr1 E. induction R; intros tr1 E.
  - destruct tr1; discriminate.
  - destruct tr1 as [|l1 tr1]; inversion E; subst.
    + exists x, y. split; [constructor|auto].
    + destruct (IHR tr1 eq_refl) as (u & w & A & B & C). exists u, w. split; [econstructor; eauto|auto].
  - destruct (IHR tr1 E) as (u & w & A & B & C). exists u, w. split; [econstructor; eauto|auto].
Qed.
Lemma history_split tr1 l tr2 t h : history c (tr1 ++ l :: tr2) t h ->
  exists t1 h1 t2 h2, history c tr1 t1 h1 /\ astep c (t1, h1) l (t2, h2) /\ arun c (t2, h2) tr2 (t, h).
Proof.
  intros (h0 & F & R). apply run_split in R as ([t1 h1] & [t2 h2] & A & B & C). exists t1, h1, t2, h2. split; [exists h0; auto|auto].
Qed.

(** ** C09 *)
Lemma no_overlap tr t h : history c tr t h ->
  NoDup (liveAfter tr) /\
  (forall m, In m (liveAfter tr) -> inSlab (cSize c) m /\ heldAfter tr (fst m) = true) /\
  (forall m n, In m (liveAfter tr) -> In n (liveAfter tr) -> m <> n -> disjoint (cSize c) m n).
Proof.
  intros H. apply history_tinv in H as (I & A & B). unfold Inv in I. prj.
  assert (AL : forall m, In m (liveAfter tr) -> al m = true /\ 0 < nown (sAc t) (fst m)).
  { intros m M. apply cA_In in M. rewrite A in M. destruct (al_of_cnt c _ _ _ _ _ _ m I ltac:(lia)) as [Q1 Q2]. unfold nown. split; [exact Q1|lia]. }
  split; [|split].
  - apply cA_NoDup. intros m. rewrite A. pose proof (i_cnt _ _ _ _ _ _ _ I m) as Q. pose proof (i_slabs _ _ _ _ _ _ _ I (fst m)) as L.
    destruct (al m); cbn [b2n Nat.b2n] in Q; nia.
  - intros m M. destruct (AL m M) as [Q1 Q2]. split; [apply al_inSlab; auto|]. rewrite B. apply Nat.ltb_lt. exact Q2.
  - intros m n M M' NE. apply al_disjoint; auto; apply AL; auto.
Qed.

(** Nothing throws or corrupts memory. *)
Lemma safety tr t h : history c tr t h ->
  (forall m, In m (live t) -> freeCheck c h m = true) /\
  (forall m, In m (freeing t) -> freeLocked c (sAc t) h m <> None) /\
  (forall s, sLk t = LkFree -> startRelease c (sAc t) h s <> SFatal) /\
  (forall s fr ins nots, sLk t = LkPrune s (P1 fr ins nots) -> pruneMerge c (sAc t) s ins nots <> None) /\
  (forall s, sLk t = LkPrune s PA2 -> startAborted c (sAc t) h s <> None) /\
  (forall s, sLk t = LkPrune s P3 -> relMap (sAc t) s <> None) /\
  (forall x, In x (ctxs t) -> abortRelease c (sAc t) h (xSlab x) <> None /\ completeCheck c h (xSlab x) = true /\
     allFreed (sAc t) (xSlab x) <> None /\ forall m, In m (xAct x) -> isAllocFreed c (sAc t) h (xSlab x) m <> None).
Proof.
  intros H. apply history_tinv in H as (I & A & B). unfold Inv in I. prj. pose proof I as I0. inv0 I.
  assert (HC : forall s, 0 < nown (sAc t) s -> match hClass (h s) with Some k => k =? cId c | None => false end = true).
  { intros s N0. apply Ihd in N0 as [E _]. rewrite E. apply Nat.eqb_refl. }
  assert (RX : forall s, inR (relMap (sAc t)) s = true -> exists v, relMap (sAc t) s = Some v).
  { intros s. unfold inR. destruct (relMap (sAc t) s); [eauto|discriminate]. }
  assert (IX : forall m, al m = true -> allocIdx c m < perSlab c).
  { intros m Q. unfold AllocClass_proofs.al in Q. apply andb_true_iff in Q as [_ Q]. apply Nat.ltb_lt. exact Q. }
  split; [|split; [|split; [|split; [|split; [|split]]]]].
  - intros m M. apply HC. apply cA_In in M. destruct (al_of_cnt c _ _ _ _ _ _ m I0 ltac:(lia)). unfold nown. lia.
  - intros m M. apply cA_In in M. destruct (al_of_cnt c _ _ _ _ _ _ m I0 ltac:(lia)) as [Q1 Q2]. unfold freeLocked.
    destruct (hMark (h (fst m))) eqn:HM; [|discriminate]. rewrite Imk in HM by (unfold nown; lia). destruct (RX _ HM) as (v & R). rewrite R.
    specialize (Icn m). specialize (Isl (fst m)). rewrite Q1 in Icn. cbn [b2n Nat.b2n] in Icn.
    assert (RF : relT (relMap (sAc t)) m = false) by (destruct (relT (relMap (sAc t)) m); [cbn [b2n Nat.b2n] in Icn; lia|reflexivity]).
    unfold AllocClass_proofs.relT in RF. rewrite R, Q1, andb_true_r in RF.
    assert (LI : allocIdx c m < length v) by (rewrite (Iln _ _ R); auto).
    rewrite (nth_error_nth' v false LI), RF. destruct (setTrue_ok v _ LI) as (w & -> & _). discriminate.
  - intros s K E. unfold startRelease in E. match goal with Q : (if ?b then _ else _) = _ |- _ => destruct b eqn:HD end; [discriminate|].
    apply hdr_check in HD as [HD HM]. pose proof HD as HD2. apply Ihd in HD. pose proof (Imk s HD) as MK. rewrite HM in MK.
    destruct (existsb (Nat.eqb s) (freeS (sAc t))) eqn:E1; [discriminate|].
    assert (RN : relMap (sAc t) s = None) by (unfold inR in MK; destruct (relMap (sAc t) s); [discriminate|reflexivity]). rewrite RN in E.
    destruct (existsb (Nat.eqb s) (allocd (sAc t))) eqn:E2; [discriminate|].
    rewrite <- MK in HD. cbn [b2n Nat.b2n] in HD.
    assert (~ In s (freeS (sAc t))) as N1 by (rewrite <- existsb_eqb, E1; discriminate).
    assert (~ In s (allocd (sAc t))) as N2 by (rewrite <- existsb_eqb, E2; discriminate).
    rewrite cS_In in N1, N2. lia.
  - intros s fr ins nots K. rewrite K in I0. destruct (merge_total c LC _ _ _ _ _ _ _ _ _ I0) as (a' & v' & E & _). rewrite E. discriminate.
  - intros s K. specialize (Irl s). rewrite K in Irl. cbn [prOn] in Irl. rewrite Nat.eqb_refl in Irl. 
    destruct (RX s) as (v & R); [destruct (inR (relMap (sAc t)) s); [reflexivity|cbn in Irl; lia]|]. unfold startAborted, restoreFreed. rewrite R. discriminate.
  - intros s K. specialize (Irl s). rewrite K in Irl. cbn [prOn] in Irl. rewrite Nat.eqb_refl in Irl. 
    destruct (RX s) as (v & R); [destruct (inR (relMap (sAc t)) s); [reflexivity|cbn in Irl; lia]|]. rewrite R. discriminate.
  - intros x X. destruct (ctx_inR c _ _ _ _ _ _ _ I0 X) as (R1 & _ & _). destruct (RX _ R1) as (v & R).
    assert (N0 : 0 < nown (sAc t) (xSlab x)) by (unfold nown; rewrite R1; cbn; lia).
    assert (MK : hMark (h (xSlab x)) = true) by (rewrite Imk by exact N0; exact R1).
    split; [unfold abortRelease, restoreFreed; rewrite R; discriminate|]. split; [unfold completeCheck; rewrite HC by exact N0; rewrite MK; reflexivity|].
    split; [unfold allFreed; rewrite R; discriminate|]. intros m M. destruct (Icx x X) as [[C1 _] _]. destruct (C1 m M) as [M1 M2].
    unfold isAllocFreed, freeCheck. rewrite M1, HC by exact N0. rewrite MK, Nat.eqb_refl. cbn [andb]. rewrite R.
    rewrite (nth_error_nth' v false); [discriminate|]. rewrite (Iln _ _ R). auto.
Qed.

(** ** C10 *)
Lemma alloc_not_ctx a k lv fg cx h a' m x : InvA a k lv fg cx h -> In x cx -> allocateLocked c a = (a', Some m) -> fst m <> xSlab x.
Proof.
  intros I X E EQ. destruct (ctx_inR c _ _ _ _ _ _ _ I X) as (R1 & R2 & _). pose proof (i_slabs _ _ _ _ _ _ _ I (xSlab x)) as L. rewrite R1 in L. cbn [b2n Nat.b2n] in L.
  unfold allocateLocked in E. destruct (freed a) as [|z fr] eqn:F.
  - destruct (canCarve c a).
    + unfold carve in E. destruct (curS a) as [s|] eqn:C; inversion E; subst. cbn in EQ.
      destruct (i_cur _ _ _ _ _ _ _ I s C) as [Q _]. rewrite EQ in Q. lia.
    + destruct (freeS a) as [|y q] eqn:FS; [inversion E|]. unfold setupCurrent in E. rewrite FS in E. destruct (rev (y :: q)) as [|w ws] eqn:RV.
      * apply (f_equal (@rev nat)) in RV. rewrite rev_involutive in RV. discriminate.
      * unfold carve in E. prj. inversion E; subst. cbn in EQ. apply (f_equal (@rev nat)) in RV. rewrite rev_involutive in RV. cbn [rev] in RV.
        rewrite RV, cS_app in L. cbn [cS] in L. rewrite EQ, Nat.eqb_refl in L. cbn in L. lia.
  - inversion E; subst. destruct (i_free _ _ _ _ _ _ _ I m) as [Q|Q]; [rewrite F; left; reflexivity| |].
    + unfold inR in R1. rewrite <- EQ, Q in R1. discriminate.
    + rewrite EQ in Q. destruct k as [|u [| | | |]|u]; cbn in Q, R2; try contradiction; subst u; rewrite Nat.eqb_refl in R2; discriminate.
Qed.
Lemma step_ctx_stays x l y s : Inv c x -> astep c x l y -> (exists z, In z (ctxs (fst x)) /\ xSlab z = s) -> ~ ends s l ->
  exists z, In z (ctxs (fst y)) /\ xSlab z = s.
Proof.
  intros I ST (z & Z1 & Z2) NE. destruct ST; prj; eauto.
  - exists z. split; [right|]; auto.
  - exists z. split; [|exact Z2]. unfold dropCtx. apply filter_In. split; [exact Z1|]. apply negb_true_iff, Nat.eqb_neq. intros Q. apply NE. left. congruence.
  - apply cX_In. rewrite setCtx_cX. apply cX_In. eauto.
  - apply cX_In. rewrite setCtx_cX. apply cX_In. eauto.
  - exists z. split; [|exact Z2]. unfold dropCtx. apply filter_In. split; [exact Z1|]. apply negb_true_iff, Nat.eqb_neq. intros Q. apply NE. right. congruence.
Qed.
Lemma run_ctx_stays x tr y s : arun c x tr y -> Inv c x -> (exists z, In z (ctxs (fst x)) /\ xSlab z = s) -> (forall l, In l tr -> ~ ends s l) ->
  Inv c y /\ exists z, In z (ctxs (fst y)) /\ xSlab z = s.
Proof.
  induction 1; intros I X NE; [auto| |].
  - apply IHarun; [eapply step_inv; eauto| |intros; apply NE; right; auto]. eapply step_ctx_stays; eauto. apply NE. left. reflexivity.
  - apply IHarun; auto. eapply env_inv; eauto.
Qed.
Lemma ends_dec s l : {ends s l} + {~ ends s l}.
Proof.
  unfold ends. destruct l; try (right; intros [Q|Q]; discriminate).
  - destruct (Nat.eq_dec s0 s) as [->|NE]; [left; auto|right; intros [Q|Q]; inversion Q; auto].
  - destruct (Nat.eq_dec s0 s) as [->|NE]; [left; auto|right; intros [Q|Q]; inversion Q; auto].
Qed.
Lemma no_alloc_during_release tr1 s act tr2 m tr3 t h :
  history c (tr1 ++ LCtx s act :: tr2 ++ LAlloc (Some m) :: tr3) t h -> fst m = s -> exists l, In l tr2 /\ ends s l.
Proof.
  intros H E. destruct (Exists_dec (ends s) tr2 (ends_dec s)) as [X|X]; [apply Exists_exists in X; exact X|]. exfalso.
  apply history_split in H as (t1 & h1 & t2 & h2 & H1 & S1 & R1).
  apply history_tinv in H1 as (I1 & _). pose proof (step_inv c LC _ _ _ I1 S1) as I2.
  apply run_split in R1 as (y & y' & R2 & S2 & _).
  assert (C2 : exists z, In z (ctxs (fst (t2, h2))) /\ xSlab z = s). { inversion S1; subst. prj. eexists. split; [left; reflexivity|reflexivity]. }
  destruct (run_ctx_stays _ _ _ s R2 I2 C2) as (I3 & z & Z1 & Z2).
  - intros l L Q. apply X. apply Exists_exists. eauto.
  - unfold Inv in I3. inversion S2; subst; prj. eapply alloc_not_ctx; eauto.
Qed.

Lemma relT_not_live a k lv fg cx h m : InvA a k lv fg cx h -> relT (relMap a) m = true -> cA m lv + cA m fg = 0.
Proof.
  intros I T. pose proof (i_cnt _ _ _ _ _ _ _ I m) as Q. rewrite T in Q. pose proof (i_slabs _ _ _ _ _ _ _ I (fst m)) as L. pose proof (b2n_le (al m)). cbn [b2n Nat.b2n] in Q. nia.
Qed.
Lemma released_empty tr s l t h : history c (tr ++ [l]) t h -> l = LReleased s \/ l = LComplete s ->
  heldAfter tr s = true /\ forall m, In m (liveAfter tr) -> fst m <> s.
Proof.
  intros H EL. apply history_split in H as (t1 & h1 & t2 & h2 & H1 & ST & _). apply history_tinv in H1 as (I & A & B).
  assert (ALL : forall m, al m = true -> relT (relMap (sAc t1)) m = true -> cA m (liveAfter tr) = 0).
  { intros m _ T. rewrite A. unfold Inv in I. prj. eapply relT_not_live; eauto. }
  unfold Inv in I. prj.
  assert (AL : forall m, In m (liveAfter tr) -> al m = true /\ 0 < cS (fst m) (allocd (sAc t1)) + b2n (inR (relMap (sAc t1)) (fst m))).
  { intros m M. apply cA_In in M. rewrite A in M. apply (al_of_cnt c _ _ _ _ _ _ m I). prj. lia. }
  destruct EL; subst l; inversion ST; subst.
  - match goal with K : sLk _ = LkFree, E : startRelease _ _ _ _ = _ |- _ => rename K into H3; rename E into H4 end.
    rewrite H3 in I. destruct (start_free_inv c _ _ _ _ _ _ _ _ I H4) as (_ & Z1 & Z2 & Z3 & _). split; [rewrite B; apply Nat.ltb_lt; unfold nown; prj; lia|].
    intros m M E. destruct (AL m M) as [_ Q]. rewrite E, Z1, Z3 in Q. cbn in Q. lia.
  - match goal with K : sLk _ = LkPrune _ _ |- _ => rename K into H3 end. rewrite H3 in I. pose proof (i_rel _ _ _ _ _ _ _ I s) as RR. cbn [prOn] in RR. rewrite Nat.eqb_refl in RR. cbn [b2n Nat.b2n] in RR.
    split; [rewrite B; apply Nat.ltb_lt; unfold nown; prj; lia|].
    intros m M E. destruct (AL m M) as [Q _]. destruct (proj2 (i_ph _ _ _ _ _ _ _ I) m E Q) as [X|[]]. apply cA_In in M. rewrite (ALL m Q X) in M. lia.
  - match goal with K : In _ (ctxs _) |- _ => rename K into H3 end. destruct (ctx_inR c _ _ _ _ _ _ _ I H3) as (R1 & _ & _). cbn [xSlab] in R1. split; [rewrite B; apply Nat.ltb_lt; unfold nown; prj; rewrite R1; cbn; lia|].
    intros m M E. destruct (AL m M) as [Q _]. pose proof (proj2 (i_ctx _ _ _ _ _ _ _ I _ H3) eq_refl m E Q) as X. apply cA_In in M. rewrite (ALL m Q X) in M. lia.
Qed.
Lemma ctx_lists_live tr s act t h : history c (tr ++ [LCtx s act]) t h ->
  (forall m, In m (liveAfter tr) -> fst m = s -> In m act) /\ (forall m, In m act -> fst m = s /\ inSlab (cSize c) m).
Proof.
  intros H. apply history_split in H as (t1 & h1 & t2 & h2 & H1 & ST & _). apply history_tinv in H1 as (I & A & B). unfold Inv in I. prj.
  inversion ST; subst. match goal with K : sLk _ = LkPrune _ _ |- _ => rename K into H3 end. rewrite H3 in I. pose proof (i_ph _ _ _ _ _ _ _ I) as [C1 C2]. split.
  - intros m M E. apply cA_In in M. rewrite A in M. destruct (al_of_cnt c _ _ _ _ _ _ m I ltac:(lia)) as [Q _].
    destruct (C2 m E Q) as [X|X]; [|exact X]. pose proof (relT_not_live _ _ _ _ _ _ _ I X). lia.
  - intros m M. destruct (C1 m M). split; [auto|apply al_inSlab; auto].
Qed.
Lemma probe_exact tr s m b t h : history c (tr ++ [LProbe s m b]) t h -> (b = false <-> In m (liveAfter tr)).
Proof.
  intros H. apply history_split in H as (t1 & h1 & t2 & h2 & H1 & ST & _). apply history_tinv in H1 as (I & A & B). unfold Inv in I. prj.
  inversion ST; subst. match goal with K : In _ (ctxs _), K2 : In _ (xAct _), K3 : isAllocFreed _ _ _ _ _ = _ |- _ => rename K into H3; rename K2 into H4; rename K3 into H5 end. destruct (ctx_inR c _ _ _ _ _ _ _ I H3) as (R1 & R2 & _). destruct (i_ctx _ _ _ _ _ _ _ I _ H3) as [[C1 _] _]. destruct (C1 m H4) as [M1 M2].
  unfold isAllocFreed in H5. destruct (freeCheck c h2 m && hMark (h2 (fst m)) && (fst m =? xSlab x)); [|discriminate].
  unfold inR in R1. rewrite M1 in H5. destruct (relMap (sAc t2) (xSlab x)) as [v|] eqn:R; [|discriminate].
  assert (RT : relT (relMap (sAc t2)) m = b). { unfold AllocClass_proofs.relT. rewrite M1, R, M2, andb_true_r. apply nth_error_nth. exact H5. }
  rewrite cA_In, A. pose proof (i_cnt _ _ _ _ _ _ _ I m) as Q. rewrite RT, M2, M1 in Q. pose proof (i_slabs _ _ _ _ _ _ _ I (xSlab x)) as L.
  unfold inR in *. rewrite R in *. cbn [isSome b2n Nat.b2n] in *.
  assert (F0 : cA m (freed (sAc t2)) = 0).
  { destruct (cA m (freed (sAc t2))) eqn:FQ; [reflexivity|]. exfalso. destruct (i_free _ _ _ _ _ _ _ I m) as [X|X]; [apply cA_In; lia|congruence|].
    rewrite M1 in X. destruct (sLk t2) as [|u [| | | |]|u]; cbn in X, R2; try contradiction; subst u; rewrite Nat.eqb_refl in R2; discriminate. }
  assert (O0 : cA m (offl (sLk t2)) = 0).
  { destruct (cA m (offl (sLk t2))) eqn:OQ; [reflexivity|]. exfalso. assert (In m (offl (sLk t2))) as OI by (apply cA_In; lia).
    pose proof (i_ph _ _ _ _ _ _ _ I) as PH. destruct (sLk t2) as [|u [|fr ins nots| | |]|u]; cbn in OI, R2; try contradiction.
    apply Nat.eqb_neq in R2. destruct PH as (Pa & Pb & Pc). apply in_app_or in OI. rewrite in_app_iff in OI.
    destruct OI as [O|[O|O]]; [destruct (Pc m (or_introl O)); congruence|specialize (Pa m O); congruence|destruct (Pc m (or_intror O)); congruence]. }
  assert (U0 : b2n (unc (curS (sAc t2)) (curOff (sAc t2)) m) = 0).
  { unfold AllocClass_proofs.unc. destruct (curS (sAc t2)) as [u|] eqn:C; [|reflexivity]. destruct (Nat.eqb_spec u (fst m)) as [->|]; [|reflexivity].
    destruct (i_cur _ _ _ _ _ _ _ I _ C) as [X _]. rewrite M1 in X. lia. }
  destruct b; cbn [b2n Nat.b2n] in Q; split; try discriminate; try lia.
Qed.
Lemma visit_held tr m t h : history c (tr ++ [LVisit m]) t h -> heldAfter tr (fst m) = true /\ inSlab (cSize c) m.
Proof.
  intros H. apply history_split in H as (t1 & h1 & t2 & h2 & H1 & ST & _). apply history_tinv in H1 as (I & A & B). unfold Inv in I. prj.
  inversion ST; subst. match goal with K : sLk _ = LkIter _ |- _ => rename K into H3 end. split.
  - rewrite B. apply Nat.ltb_lt. pose proof (i_ph _ _ _ _ _ _ _ I) as P. rewrite H3 in P. cbn in P. unfold nown. cbn. lia.
  - apply al_inSlab; [exact LC|]. apply allocForIdx_al; auto.
Qed.
(** A waiting complete is released as soon as every allocation of the slab was freed. *)
Lemma complete_ready tr t h x : history c tr t h -> In x (ctxs t) ->
  (allFreed (sAc t) (xSlab x) = Some true <-> forall m, In m (liveAfter tr) -> fst m <> xSlab x).
Proof.
  intros H X. pose proof H as H0. apply history_tinv in H as (I & A & B). unfold Inv in I. prj.
  destruct (ctx_inR c _ _ _ _ _ _ _ I X) as (R1 & R2 & _). unfold allFreed. unfold inR in R1. destruct (relMap (sAc t) (xSlab x)) as [v|] eqn:R; [|discriminate].
  pose proof (i_len _ _ _ _ _ _ _ I _ _ R) as LV. split.
  - intros E m M Q. injection E as E. apply cA_In in M. rewrite A in M. destruct (al_of_cnt c _ _ _ _ _ _ m I ltac:(lia)) as [AL _].
    pose proof (relT_not_live _ _ _ _ _ _ _ I (allfreed_relT c (relMap (sAc t)) _ _ R LV E m Q AL)). lia.
  - intros NL. f_equal. apply forallb_forall. intros b BI. apply (In_nth _ _ false) in BI as (i & Hi & Eb). destruct b; [reflexivity|]. exfalso.
    set (m := allocForIdx c (xSlab x) i). assert (AL : al m = true) by (apply allocForIdx_al; [exact LC|lia]).
    assert (RT : relT (relMap (sAc t)) m = false). { unfold AllocClass_proofs.relT. cbn [fst m allocForIdx]. rewrite R. unfold m. rewrite allocIdx_for by exact LC. rewrite Eb. reflexivity. }
    destruct (i_ctx _ _ _ _ _ _ _ I _ X) as [[_ C2] _]. 
    (* the probe argument: the bit is false exactly for live allocations *)
    pose proof (i_cnt _ _ _ _ _ _ _ I m) as Q. rewrite RT, AL in Q. change (fst m) with (xSlab x) in Q. pose proof (i_slabs _ _ _ _ _ _ _ I (xSlab x)) as L.
    unfold inR in *. rewrite R in *. cbn [isSome b2n Nat.b2n] in *.
    assert (F0 : cA m (freed (sAc t)) = 0).
    { destruct (cA m (freed (sAc t))) eqn:FQ; [reflexivity|]. exfalso. destruct (i_free _ _ _ _ _ _ _ I m) as [Y|Y]; [apply cA_In; lia|change (fst m) with (xSlab x) in Y; congruence|].
      change (fst m) with (xSlab x) in Y. destruct (sLk t) as [|u [| | | |]|u]; cbn in Y, R2; try contradiction; subst u; rewrite Nat.eqb_refl in R2; discriminate. }
    assert (O0 : cA m (offl (sLk t)) = 0).
    { destruct (cA m (offl (sLk t))) eqn:OQ; [reflexivity|]. exfalso. assert (In m (offl (sLk t))) as OI by (apply cA_In; lia).
      pose proof (i_ph _ _ _ _ _ _ _ I) as PH. destruct (sLk t) as [|u [|fr ins nots| | |]|u]; cbn in OI, R2; try contradiction.
      apply Nat.eqb_neq in R2. destruct PH as (Pa & Pb & Pc). apply in_app_or in OI. rewrite in_app_iff in OI.
      change (fst m) with (xSlab x) in *.
      destruct OI as [O|[O|O]]; [destruct (Pc m (or_introl O)) as [Y|Y]; change (fst m) with (xSlab x) in Y; congruence|specialize (Pa m O); change (fst m) with (xSlab x) in Pa; congruence|destruct (Pc m (or_intror O)) as [Y|Y]; change (fst m) with (xSlab x) in Y; congruence]. }
    assert (U0 : b2n (unc (curS (sAc t)) (curOff (sAc t)) m) = 0).
    { unfold AllocClass_proofs.unc. destruct (curS (sAc t)) as [u|] eqn:C; [|reflexivity]. destruct (Nat.eqb_spec u (fst m)) as [->|]; [|reflexivity].
      destruct (i_cur _ _ _ _ _ _ _ I _ C) as [Y _]. change (fst m) with (xSlab x) in Y. lia. }
    apply (NL m); [|reflexivity]. apply cA_In. rewrite A. lia.
Qed.
End Runs.
