(** C09 (one allocation class) and C10: theorems. *)
From Verif Require Import Bytes Compress_model AllocClass_model AllocClass_spec AllocClass_proofs AllocClass_proofs2 AllocClass_proofs3 AllocClass_proofs4 AllocClass_proofs5.

(** In every history of a class (any interleaving of allocate, free, slab acquisition and slab
    release, with other classes changing the headers of slabs this class does not hold): the
    allocations owned by callers are distinct, lie inside slabs the class holds, and do not overlap. *)
Theorem C09_live_allocations_disjoint : forall c, legalCfg c -> forall tr t h, history c tr t h ->
  NoDup (liveAfter tr) /\
  (forall m, In m (liveAfter tr) -> inSlab (cSize c) m /\ heldAfter tr (fst m) = true) /\
  (forall m n, In m (liveAfter tr) -> In n (liveAfter tr) -> m <> n -> disjoint (cSize c) m n).
Proof. exact no_overlap. Qed.

(** Iterating over allocations only ever looks inside slabs held by the class. *)
Theorem C09_iteration_stays_inside : forall c, legalCfg c -> forall tr m t h,
  history c (tr ++ [LVisit m]) t h -> heldAfter tr (fst m) = true /\ inSlab (cSize c) m.
Proof. exact visit_held. Qed.

(** Legal calls never throw, trip an internal inconsistency or touch memory out of bounds. *)
Theorem C10_no_internal_error : forall c, legalCfg c -> forall tr t h, history c tr t h ->
  (forall m, In m (live t) -> freeCheck c h m = true) /\
  (forall m, In m (freeing t) -> freeLocked c (sAc t) h m <> None) /\
  (forall s, sLk t = LkFree -> startRelease c (sAc t) h s <> SFatal) /\
  (forall s fr ins nots, sLk t = LkPrune s (P1 fr ins nots) -> pruneMerge c (sAc t) s ins nots <> None) /\
  (forall s, sLk t = LkPrune s PA2 -> startAborted c (sAc t) h s <> None) /\
  (forall s, sLk t = LkPrune s P3 -> relMap (sAc t) s <> None) /\
  (forall x, In x (ctxs t) -> abortRelease c (sAc t) h (xSlab x) <> None /\ completeCheck c h (xSlab x) = true /\
     allFreed (sAc t) (xSlab x) <> None /\ forall m, In m (xAct x) -> isAllocFreed c (sAc t) h (xSlab x) m <> None).
Proof. exact safety. Qed.

(** allocate() reports "no memory" only when every slot of every slab that is not being released is
    owned by a caller: freed memory is never lost.  Histories in which startSlabRelease was aborted
    while pruning are excluded (see the refutation below). *)
Theorem C09_full_means_full : forall c, legalCfg c -> forall tr t h y s i,
  history c tr t h -> (forall s, ~ In (LPruneAbort s) tr) -> astep c (t, h) (LAlloc None) y ->
  pruning t = false -> (forall x, In x (ctxs t) -> xSlab x <> s) ->
  heldAfter tr s = true -> i < perSlab c -> In (allocForIdx c s i) (liveAfter tr).
Proof. exact full_is_full. Qed.

(** The locked path never reports full wrongly, even after such an abort. *)
Theorem C09_locked_full_means_full : forall c, legalCfg c -> forall tr t h a' s i,
  history c tr t h -> allocateLocked c (sAc t) = (a', None) ->
  pruning t = false -> (forall x, In x (ctxs t) -> xSlab x <> s) ->
  heldAfter tr s = true -> i < perSlab c -> In (allocForIdx c s i) (liveAfter tr).
Proof. exact locked_fails_only_when_full. Qed.

(** ** C10 *)
(** From the moment startSlabRelease returned a context until it is aborted or completed, no
    allocation is placed in the slab. *)
Theorem C10_no_allocation_in_releasing_slab : forall c, legalCfg c -> forall tr1 s act tr2 m tr3 t h,
  history c (tr1 ++ LCtx s act :: tr2 ++ LAlloc (Some m) :: tr3) t h -> fst m = s -> exists l, In l tr2 /\ ends s l.
Proof. exact no_alloc_during_release. Qed.

(** A slab is given up (immediately or by completeSlabRelease) only when the class held it and no
    caller owns an allocation in it. *)
Theorem C10_released_only_when_empty : forall c, legalCfg c -> forall tr s l t h,
  history c (tr ++ [l]) t h -> l = LReleased s \/ l = LComplete s ->
  heldAfter tr s = true /\ forall m, In m (liveAfter tr) -> fst m <> s.
Proof. exact released_empty. Qed.

(** The context lists every allocation of the slab a caller owns. *)
Theorem C10_context_lists_all_live : forall c, legalCfg c -> forall tr s act t h,
  history c (tr ++ [LCtx s act]) t h ->
  (forall m, In m (liveAfter tr) -> fst m = s -> In m act) /\ (forall m, In m act -> fst m = s /\ inSlab (cSize c) m).
Proof. exact ctx_lists_live. Qed.

(** isAllocFreed / processAllocForRelease tell the truth. *)
Theorem C10_probe_exact : forall c, legalCfg c -> forall tr s m b t h,
  history c (tr ++ [LProbe s m b]) t h -> (b = false <-> In m (liveAfter tr)).
Proof. exact probe_exact. Qed.

(** A waiting completeSlabRelease is let through exactly when every allocation of the slab was freed. *)
Theorem C10_complete_ready_iff_all_freed : forall c, legalCfg c -> forall tr t h x,
  history c tr t h -> In x (ctxs t) ->
  (allFreed (sAc t) (xSlab x) = Some true <-> forall m, In m (liveAfter tr) -> fst m <> xSlab x).
Proof. exact complete_ready. Qed.

(** ** Concrete histories *)
Definition c2 : acfg := mkCfg 0 0 2097152.
Definition h0 : hdrs := fun _ => mkHdr (Some 0) None false false 0.
Lemma c2_legal : legalCfg c2. Proof. split; vm_compute; discriminate. Qed.
Lemma h0_fresh : fresh c2 h0. Proof. intros s [E _]. discriminate. Qed.
Ltac notown := let O := fresh in intros [O|[O|O]]; cbn in O; [intuition discriminate|intuition discriminate|apply O; reflexivity].
Ltac sAdd k := eapply RunStep; [eapply (StAddSlab c2 _ _ k); [notown|reflexivity|reflexivity|reflexivity]|]; cbn [sAc sLk live freeing ctxs].
Ltac sAlloc := eapply RunStep; [eapply StAlloc; vm_compute; reflexivity|]; cbn [sAc sLk live freeing ctxs].
Ltac inl := vm_compute; repeat (first [left; reflexivity|right]).
Ltac sFree m := eapply RunStep; [eapply (StFreeCall c2 _ _ m); [inl|vm_compute; reflexivity]|]; eapply RunStep; [eapply (StFree c2 _ _ m); [inl|vm_compute; reflexivity]|]; cbn [sAc sLk live freeing ctxs].

(** Two slabs of two allocations each; one allocation freed; slab 0 is released: an allocation during
    the pruning window fails (legitimately, the free list is offline), then the release is aborted and
    the free list restored, but allocate() keeps failing although (1,0) is free. *)
Definition A (s : nat) (i : N) : alloc := (s, (i * 2097152)%N).
Definition badTrace : list label :=
  [LAddSlab 0; LAlloc (Some (A 0 0)); LAlloc (Some (A 0 1)); LAddSlab 1; LAlloc (Some (A 1 0)); LAlloc (Some (A 1 1));
   LFreeCall (A 1 0); LFree (A 1 0); LStart 0; LTau; LAlloc None; LPruneAbort 0; LAborted 0].

Lemma bad_run : exists t h, history c2 badTrace t h /\ astep c2 (t, h) (LAlloc None) (t, h) /\ sLk t = LkFree /\ ctxs t = [] /\ freeing t = [] /\ In (A 1 0) (freed (sAc t)).
Proof.
  eexists. eexists. split; [|split; [|split; [|split; [|split]]]].
  - exists h0. split; [exact h0_fresh|]. unfold badTrace.
    sAdd 0. sAlloc. sAlloc. sAdd 1. sAlloc. sAlloc. sFree (A 1 0).
    eapply RunStep; [eapply (StStart c2 _ _ 0); [reflexivity|vm_compute; reflexivity]|]; cbn [sAc sLk live freeing ctxs].
    eapply RunStep; [eapply StSwap; [reflexivity|vm_compute; reflexivity]|]; cbn [sAc sLk live freeing ctxs].
    sAlloc.
    eapply RunStep; [eapply StPruneAbort; reflexivity|]; cbn [sAc sLk live freeing ctxs].
    eapply RunStep; [eapply StAborted; [reflexivity|vm_compute; reflexivity]|]; cbn [sAc sLk live freeing ctxs].
    apply RunNil.
  - apply StAllocFull. reflexivity.
  - reflexivity.
  - reflexivity.
  - reflexivity.
  - vm_compute. auto.
Qed.
(** Without the exclusion of prune aborts, "full means full" is false: startSlabRelease's abort path
    (AllocationClass.cpp:474-482) splices the offline free list back without setting canAllocate_. *)
Theorem C10_abort_restores_capacity_refuted : exists tr t h y s i,
  history c2 tr t h /\ astep c2 (t, h) (LAlloc None) y /\ pruning t = false /\ ctxs t = [] /\ freeing t = [] /\
  heldAfter tr s = true /\ i < perSlab c2 /\ ~ In (allocForIdx c2 s i) (liveAfter tr).
Proof.
  destruct bad_run as (t & h & R & ST & K & X & F & _). exists badTrace, t, h, (t, h), 1, 0.
  split; [exact R|]. split; [exact ST|]. split; [unfold pruning; rewrite K; reflexivity|]. split; [exact X|]. split; [exact F|].
  split; [vm_compute; reflexivity|]. split; [vm_compute; lia|]. vm_compute. intros H. repeat (destruct H as [H|H]; [discriminate|]). exact H.
Qed.

(** A complete release: slab 0 holds two allocations, one is freed before and one after completeSlabRelease
    starts waiting. *)
Definition goodTrace1 : list label :=
  [LAddSlab 0; LAlloc (Some (A 0 0)); LAlloc (Some (A 0 1)); LAddSlab 1; LAlloc (Some (A 1 0)); LStart 0; LTau; LTau; LTau].
Definition goodTrace2 : list label :=
  [LProbe 0 (A 0 1) false; LFreeCall (A 0 1); LFree (A 0 1); LProbe 0 (A 0 1) true; LAlloc (Some (A 1 1)); LTau; LFreeCall (A 0 0); LFree (A 0 0); LTau].
Definition goodTrace : list label := goodTrace1 ++ LCtx 0 [A 0 0; A 0 1] :: goodTrace2.
Lemma good_run : exists t h, history c2 (goodTrace ++ [LComplete 0]) t h.
Proof.
  eexists. eexists. exists h0. split; [exact h0_fresh|]. unfold goodTrace, goodTrace1, goodTrace2. cbn [app].
  sAdd 0. sAlloc. sAlloc. sAdd 1. sAlloc.
  eapply RunStep; [eapply (StStart c2 _ _ 0); [reflexivity|vm_compute; reflexivity]|]; cbn [sAc sLk live freeing ctxs].
  eapply RunStep; [eapply StSwap; [reflexivity|vm_compute; reflexivity]|]; cbn [sAc sLk live freeing ctxs].
  eapply RunStep; [eapply StMergeLast; [reflexivity|vm_compute; reflexivity]|]; cbn [sAc sLk live freeing ctxs].
  eapply RunStep; [eapply StCollect; [reflexivity|vm_compute; reflexivity]|]; cbn [sAc sLk live freeing ctxs].
  eapply RunStep; [eapply StFinishCtx; [reflexivity|vm_compute; reflexivity]|]; cbn [sAc sLk live freeing ctxs].
  eapply RunStep; [eapply (StProbe c2 _ _ (mkCtx 0 _ _)); [left; reflexivity|inl|vm_compute; reflexivity]|].
  sFree (A 0 1).
  eapply RunStep; [eapply (StProbe c2 _ _ (mkCtx 0 _ _)); [left; reflexivity|inl|vm_compute; reflexivity]|].
  sAlloc.
  eapply RunStep; [eapply StCheck; [left; reflexivity|vm_compute; reflexivity]|]; cbn [sAc sLk live freeing ctxs].
  sFree (A 0 0).
  eapply RunStep; [eapply StWait; [left; reflexivity|vm_compute; reflexivity]|]; cbn [sAc sLk live freeing ctxs].
  eapply RunStep; [eapply StComplete; [left; reflexivity|vm_compute; reflexivity]|]; cbn [sAc sLk live freeing ctxs].
  apply RunNil.
Qed.
(** The hypotheses of the theorems above are met by it. *)
Example C10_release_example : exists t h, history c2 (goodTrace ++ [LComplete 0]) t h /\
  heldAfter goodTrace 0 = true /\ liveAfter goodTrace = [A 1 1; A 1 0] /\
  heldAfter (goodTrace ++ [LComplete 0]) 0 = false.
Proof. destruct good_run as (t & h & R). exists t, h. split; [exact R|]. vm_compute. auto. Qed.
Example C09_full_example : exists t h y, history c2 [LAddSlab 0; LAlloc (Some (A 0 0)); LAlloc (Some (A 0 1))] t h /\
  astep c2 (t, h) (LAlloc None) y /\ pruning t = false /\ ctxs t = [].
Proof.
  eexists. eexists. eexists. split; [|split; [|split]].
  - exists h0. split; [exact h0_fresh|]. sAdd 0. sAlloc. sAlloc. apply RunNil.
  - eapply (StAlloc c2 _ _ _ None). vm_compute. reflexivity.
  - reflexivity.
  - reflexivity.
Qed.

Print Assumptions C09_live_allocations_disjoint.
Print Assumptions C09_iteration_stays_inside.
Print Assumptions C10_no_internal_error.
Print Assumptions C09_full_means_full.
Print Assumptions C09_locked_full_means_full.
Print Assumptions C10_no_allocation_in_releasing_slab.
Print Assumptions C10_released_only_when_empty.
Print Assumptions C10_context_lists_all_live.
Print Assumptions C10_probe_exact.
Print Assumptions C10_complete_ready_iff_all_freed.
Print Assumptions C10_abort_restores_capacity_refuted.
