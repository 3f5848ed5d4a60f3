(** Capacity: an allocation class says "full" only when it is, unless a slab release was aborted while
    pruning the free list. *)
From Verif Require Import Bytes Compress_model AllocClass_model AllocClass_spec AllocClass_proofs AllocClass_proofs2 AllocClass_proofs3 AllocClass_proofs4.

Section Cap.
Context (c : acfg) (LC : legalCfg c).
Local Notation al := (al c). Local Notation relT := (relT c). Local Notation unc := (unc c).
Ltac prj := cbn [sAc sLk live freeing ctxs curS curOff allocd freeS freed canA relMap nActive fst snd] in *.

Definition empt (a : ac) : Prop := freed a = [] /\ freeS a = [] /\ canCarve c a = false.
Definition capI (x : ast * hdrs) : Prop := canA (sAc (fst x)) = false -> empt (sAc (fst x)).

Lemma alloc_none a a' r : allocateLocked c a = (a', r) -> (r = None <-> empt a) /\ (canA a' = false -> canA a = false \/ r = None) /\
  (r = None -> empt a').
Proof.
  unfold allocateLocked, empt. destruct (freed a) as [|m fr] eqn:F.
  - destruct (canCarve c a) eqn:CC.
    + unfold carve. unfold canCarve in CC. destruct (curS a) eqn:C; [|discriminate]. intros E. apply pair_equal_spec in E as [<- <-]. prj.
      split; [split; [discriminate|intros (_ & _ & ?); discriminate]|]. split; [auto|discriminate].
    + destruct (freeS a) as [|y fs] eqn:FS.
      * intros E. apply pair_equal_spec in E as [<- <-]. unfold canCarve in *. prj. split; [tauto|]. split; [auto|]. tauto.
      * unfold setupCurrent. destruct (rev (freeS a)) as [|s rl] eqn:RV.
        { apply (f_equal (@rev nat)) in RV. rewrite rev_involutive in RV. rewrite FS in RV. discriminate. }
        unfold carve. prj. intros E. apply pair_equal_spec in E as [<- <-]. prj.
        split; [split; [discriminate|intros (_ & ? & _); discriminate]|]. split; [auto|discriminate].
  - intros E. apply pair_equal_spec in E as [<- <-]. prj. split; [split; [discriminate|intros (? & _); discriminate]|]. split; [auto|discriminate].
Qed.
Lemma alloc_some_can a a' m : allocateLocked c a = (a', Some m) -> canA a' = canA a.
Proof.
  unfold allocateLocked, carve, setupCurrent, canCarve. destruct (freed a); [|intros E; apply pair_equal_spec in E as [<- _]; reflexivity].
  destruct (curS a) as [s|].
  - destruct (_ <=? _)%N; [intros E; apply pair_equal_spec in E as [<- _]; reflexivity|]. destruct (freeS a) eqn:FS; [intros E; apply pair_equal_spec in E as [_ E]; discriminate|].
    rewrite <- FS. destruct (rev (freeS a)); prj; [destruct (curS a)|]; intros E; apply pair_equal_spec in E as [<- E]; try reflexivity.
  - destruct (freeS a) eqn:FS; [intros E; apply pair_equal_spec in E as [_ E]; discriminate|].
    rewrite <- FS. destruct (rev (freeS a)); prj; [destruct (curS a)|]; intros E; apply pair_equal_spec in E as [<- E]; try reflexivity.
Qed.

Lemma restoreFrom_none s : forall v i fl, existsb (fun b => b) v = false -> restoreFrom c s i v fl = fl.
Proof.
  induction v as [|b v IH]; intros i fl H; cbn in *; [reflexivity|]. apply orb_false_iff in H as [-> H]. apply IH. exact H.
Qed.
Lemma restore_empt a s a1 : restoreFreed c a s = Some a1 -> (canA a = false -> empt a) -> canA a1 = false -> empt a1.
Proof.
  unfold restoreFreed. destruct (relMap a s) as [v|]; [|discriminate]. cbn. intros E. injection E as <-. unfold empt, canCarve. prj.
  destruct (existsb _ v) eqn:X; [discriminate|]. intros H K. rewrite restoreFrom_none by exact X. apply H. exact K.
Qed.

Lemma cap_step x l y : capI x -> astep c x l y -> (forall s, l <> LPruneAbort s) -> capI y.
Proof.
  intros H ST NA. unfold capI in *. inversion ST; subst; prj; auto; unfold empt in *.
  - match goal with K : allocateLocked _ _ = _ |- _ => rename K into E end. destruct (alloc_none _ _ _ E) as (A & B & C). intros K. destruct r as [m|]; [|apply C; reflexivity].
    exfalso. destruct (B K) as [B1|B1]; [|discriminate]. apply A in H; [discriminate|exact B1].
  - match goal with K : addSlabLocked _ _ _ _ = _ |- _ => apply pair_equal_spec in K as [<- _] end. prj. discriminate.
  - match goal with K : freeLocked _ _ _ _ = _ |- _ => rename K into E end. unfold freeLocked in E. destruct (hMark _).
    + destruct (relMap _ _); [|discriminate]. cbn in E. destruct (nth_error _ _) as [[]|]; try discriminate. destruct (setTrue _ _); [|discriminate]. injection E as <-. unfold canCarve in *. prj. auto.
    + injection E as <-. prj. discriminate.
  - match goal with K : startRelease _ _ _ _ = _ |- _ => rename K into E end. unfold startRelease in E. destruct (_ || _ || _); [discriminate|]. destruct (existsb _ _).
    + injection E as <- <-. unfold canCarve in *. prj. intros K. destruct (H K) as (A & B & C). rewrite B. auto.
    + destruct (relMap _ _); [discriminate|]. destruct (existsb _ _); discriminate.
  - match goal with K : startRelease _ _ _ _ = _ |- _ => rename K into E end. unfold startRelease in E. destruct (_ || _ || _); [discriminate|]. destruct (existsb _ (freeS _)); [discriminate|].
    destruct (relMap _ _); [discriminate|]. destruct (existsb _ _); [|discriminate]. injection E as <- <-. unfold canCarve in *. prj. intros K. destruct (H K) as (A & B & C). split; [exact A|]. split; [exact B|].
    destruct (match curS (sAc t) with Some k => k =? s | None => false end); [reflexivity|exact C].
  - match goal with K : pruneSwap _ _ = _ |- _ => unfold pruneSwap in K; apply pair_equal_spec in K as [<- _] end. unfold canCarve in *. prj. intros K. destruct (H K) as (A & B & C). auto.
  - match goal with K : pruneMerge _ _ _ _ _ = _ |- _ => rename K into E end. unfold pruneMerge in E. destruct (relMap _ _); [|discriminate]. cbn in E. destruct (markIn _ _ _); [|discriminate]. injection E as <-.
    unfold canCarve in *. prj. destruct nots; [|discriminate]. cbn. auto.
  - match goal with K : pruneMerge _ _ _ _ _ = _ |- _ => rename K into E end. unfold pruneMerge in E. destruct (relMap _ _); [|discriminate]. cbn in E. destruct (markIn _ _ _); [|discriminate]. injection E as <-.
    unfold canCarve in *. prj. destruct nots; [|discriminate]. cbn. auto.
  - exfalso. eapply NA. reflexivity.
  - match goal with K : startAborted _ _ _ _ = _ |- _ => rename K into E end. unfold startAborted in E. destruct (restoreFreed _ _ _) as [a1|] eqn:R; [|discriminate]. cbn in E. injection E as <- <-.
    pose proof (restore_empt _ _ _ R H) as Q. unfold empt, canCarve in *. prj. auto.
  - match goal with K : startFinish _ _ _ _ _ = _ |- _ => cbn in K; apply pair_equal_spec in K as [<- _] end. unfold canCarve in *. prj. auto.
  - match goal with K : startFinish _ _ _ _ _ = _ |- _ => cbn in K; apply pair_equal_spec in K as [<- _] end. unfold canCarve in *. prj. auto.
  - match goal with K : abortRelease _ _ _ _ = _ |- _ => rename K into E end. unfold abortRelease in E. destruct (restoreFreed _ _ _) as [a1|] eqn:R; [|discriminate]. cbn in E. injection E as <- <-.
    pose proof (restore_empt _ _ _ R H) as Q. unfold empt, canCarve in *. prj. auto.
  - match goal with K : completeFinish _ _ _ = _ |- _ => unfold completeFinish in K; apply pair_equal_spec in K as [<- _] end. unfold canCarve in *. prj. auto.
Qed.
Lemma cap_run x tr y : arun c x tr y -> capI x -> (forall s, ~ In (LPruneAbort s) tr) -> capI y.
Proof.
  induction 1; intros CI NA; auto.
  - apply IHarun; [|intros s I; apply (NA s); right; exact I]. eapply cap_step; eauto. intros s ->. apply (NA s). left; reflexivity.
Qed.
Lemma cap_history tr t h : history c tr t h -> (forall s, ~ In (LPruneAbort s) tr) -> capI (t, h).
Proof. intros (h0 & F & R) NA. eapply cap_run; [exact R| |exact NA]. unfold capI. cbn. discriminate. Qed.

Definition pruning (t : ast) : bool := match sLk t with LkPrune _ _ => true | _ => false end.

Lemma full_slots tr t h s i : history c tr t h -> empt (sAc t) -> offl (sLk t) = [] -> heldAfter tr s = true ->
  inR (relMap (sAc t)) s = false -> i < perSlab c -> In (allocForIdx c s i) (liveAfter tr).
Proof.
  intros H (E1 & E2 & E3) OF HE NR L. apply (history_tinv c LC) in H as (I & A & B). unfold Inv in I. prj. apply cA_In. rewrite A.
  pose proof (i_cnt _ _ _ _ _ _ _ I (allocForIdx c s i)) as Q. rewrite E1, OF in Q. cbn [cA fst allocForIdx] in Q. rewrite (allocForIdx_al c LC s i L) in Q.
  rewrite B in HE. apply Nat.ltb_lt in HE. unfold nown in HE. rewrite E2, NR in HE. rewrite NR in Q. cbn [cS b2n Nat.b2n] in *.
  assert (RT : relT (relMap (sAc t)) (allocForIdx c s i) = false). { unfold AllocClass_proofs.relT. cbn [fst allocForIdx]. unfold inR in NR. destruct (relMap (sAc t) s); [discriminate|reflexivity]. }
  assert (UN : unc (curS (sAc t)) (curOff (sAc t)) (allocForIdx c s i) = false).
  { unfold canCarve in E3. destruct (curS (sAc t)) as [u|] eqn:C; [|reflexivity]. destruct (i_cur _ _ _ _ _ _ _ I u C) as (_ & j & J & O).
    rewrite O. apply unc_full; [exact LC|]. rewrite <- (fits_per c LC j), <- O. apply N.leb_gt in E3. lia. }
  unfold relT, AllocClass_proofs.relT in *. cbn [fst allocForIdx] in *. unfold allocForIdx in *. rewrite RT, UN in Q. cbn [b2n Nat.b2n] in Q. lia.
Qed.
Lemma none_empt t h y : capI (t, h) -> astep c (t, h) (LAlloc None) y -> empt (sAc t).
Proof.
  intros K ST. inversion ST; subst; prj.
  - apply K. assumption.
  - match goal with Q : allocateLocked _ _ = _ |- _ => apply alloc_none in Q as [[Q _] _]; apply Q; reflexivity end.
Qed.
(** allocate() fails only when every slot of every slab that is not being released is in use. *)
Lemma full_is_full tr t h y s i : history c tr t h -> (forall s, ~ In (LPruneAbort s) tr) -> astep c (t, h) (LAlloc None) y ->
  pruning t = false -> (forall x, In x (ctxs t) -> xSlab x <> s) ->
  heldAfter tr s = true -> i < perSlab c -> In (allocForIdx c s i) (liveAfter tr).
Proof.
  intros H NA ST PR NX HE L. pose proof (none_empt _ _ _ (cap_history _ _ _ H NA) ST) as E. eapply full_slots; eauto.
  - unfold pruning in PR. destruct (sLk t); [reflexivity|discriminate|reflexivity].
  - apply (history_tinv c LC) in H as (I & _). pose proof (i_rel _ _ _ _ _ _ _ I s) as Q. prj.
    assert (cX s (ctxs t) = 0). { destruct (cX s (ctxs t)) eqn:X; [reflexivity|]. exfalso. destruct (proj1 (cX_In s (ctxs t)) ltac:(lia)) as (x & X1 & X2). exact (NX x X1 X2). }
    unfold pruning in PR. destruct (sLk t); [|discriminate|]; cbn [prOn] in Q; destruct (inR (relMap (sAc t)) s); cbn in Q; try reflexivity; lia.
Qed.
(** ... and never fails forever: an allocation is always possible right after the class was handed a slab. *)
Lemma locked_fails_only_when_full tr t h a' s i : history c tr t h -> allocateLocked c (sAc t) = (a', None) ->
  pruning t = false -> (forall x, In x (ctxs t) -> xSlab x <> s) ->
  heldAfter tr s = true -> i < perSlab c -> In (allocForIdx c s i) (liveAfter tr).
Proof.
  intros H E PR NX HE L. apply alloc_none in E as [[E _] _]. specialize (E eq_refl). eapply full_slots; eauto.
  - unfold pruning in PR. destruct (sLk t); [reflexivity|discriminate|reflexivity].
  - apply (history_tinv c LC) in H as (I & _). pose proof (i_rel _ _ _ _ _ _ _ I s) as Q. prj.
    assert (cX s (ctxs t) = 0). { destruct (cX s (ctxs t)) eqn:X; [reflexivity|]. exfalso. destruct (proj1 (cX_In s (ctxs t)) ltac:(lia)) as (x & X1 & X2). exact (NX x X1 X2). }
    unfold pruning in PR. destruct (sLk t); [|discriminate|]; cbn [prOn] in Q; destruct (inR (relMap (sAc t)) s); cbn in Q; try reflexivity; lia.
Qed.
End Cap.
