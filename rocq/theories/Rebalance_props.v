(** C38: rebalancing picks legal victims and receivers. *)
From Verif Require Import Rebalance_spec Rebalance_proofs Rebalance_proofs2.
Local Open Scope N_scope.

(** For every strategy of the library, every fallback, every record and every
    statistics: if a victim is returned, it is a class of the pool, it is not the
    receiver, and it owns more than the configured minimum of slabs -- unless the
    receiver is (the) one that failed most allocations since the last call, in
    which case the victim had more than one slab at the last call and has at
    least one now. *)
Theorem C38_victim_legal X st m ok fb : library_strategy X st m ok -> sane_fallback fb ->
  forall x po e s c po' x' v, ok x s -> pickVictimAndReceiver st fb x po e s = Some (c, po', x') ->
  victim c = Some v ->
  ok x' s /\ In v (classIds s) /\ receiver c <> Some v /\
  (forall r, receiver c = Some r -> In r (classIds s)) /\
  exists p, po = Some p /\
  (m < totalSlabs s v \/
   exists r, receiver c = Some r /\ 0 < deltaAllocFailures p s r /\
     (forall d, In d (classIds s) -> deltaAllocFailures p s d <= deltaAllocFailures p s r) /\
     1 < nSlabs (p v) /\ 0 < totalSlabs s v).
Proof. exact (choice_legal X st m ok fb). Qed.
Print Assumptions C38_victim_legal.

(** Both fallbacks of the library satisfy the hypothesis (the second one with a
    positive minimum; its default is 10). *)
Theorem C38_fallbacks_sane :
  sane_fallback (fun _ s => totalSlabsPick s) /\
  (forall s c, totalSlabsPick s = Some (Some c) ->
     forall d, In d (classIds s) -> totalSlabs s d <= totalSlabs s c) /\
  forall m n, 0 < m -> sane_fallback (fun e s => allocationSizePick m n (e_random e 2%nat) s).
Proof.
  split; [exact totalSlabsPick_sane|]. split; [exact totalSlabsPick_max|]. exact allocationSize_sane.
Qed.
Print Assumptions C38_fallbacks_sane.

(** The allocation-size fallback honours its own minimum whenever some class has it,
    and never reads outside its array. *)
Theorem C38_allocation_size_fallback m n e s :
  (classIds s <> [] -> allocationSizePick m n (e_random e 2%nat) s <> None) /\
  forall c, allocationSizePick m n (e_random e 2%nat) s = Some (Some c) ->
  In c (classIds s) /\
  (m <= totalSlabs s c \/
   (forall d, In d (classIds s) -> totalSlabs s d < m) /\ 0 < totalSlabs s c /\
   forall d, In d (classIds s) -> totalSlabs s d <= totalSlabs s c).
Proof. split; [apply allocationSize_def|intros c; apply allocationSize_spec]. Qed.
Print Assumptions C38_allocation_size_fallback.

(** Pool resizing: the victim has more than the minimum, or the fallback chose it
    and it owned a slab. *)
Theorem C38_resize_legal X st m ok fb : library_strategy X st m ok -> sane_fallback fb ->
  forall x po e s s2 v po' x', ok x s -> classIds s2 = classIds s ->
  pickVictimForResizing st fb x po e s s2 = Some (Some v, po', x') ->
  In v (classIds s) /\ (m < totalSlabs s v \/ 0 < totalSlabs s2 v).
Proof. exact (resize_legal X st m ok fb). Qed.
Print Assumptions C38_resize_legal.

(** LruTailAge without weights and without new allocation failures acts only if the
    victim's projected tail age exceeds the receiver's by minTailAgeDifference and
    the ratio test passes; the receiver has no free slab and is evicting. *)
Theorem C38_lru_threshold F (fo : float_ops F) g fb p e s c po' v r :
  no_new_failures p s -> l_weight g = None -> (forall k, e_projected e k < 2 ^ 64) ->
  pickVictimAndReceiver (lruTailAgeStrategy fo g) fb tt (Some p) e s = Some (c, po', tt) ->
  c = {| victim := Some v; receiver := r |} ->
  exists rc, r = Some rc /\ e_oldest e rc + l_minDiff g <= e_projected e v /\
    below fo (l_ratio g) (ofN fo (e_projected e v)) (ofN fo (e_projected e v - e_oldest e rc)) = false /\
    c_freeSlabs (cs s rc) = 0 /\ deltaEvictions p s rc <> 0%Z.
Proof. exact (lru_threshold F fo g fb p e s c po' v r). Qed.
Print Assumptions C38_lru_threshold.

(** HitsPerSlab: the same for (weighted) hits per slab, in whatever arithmetic the
    machine has. *)
Theorem C38_hits_threshold F (fo : float_ops F) g fb p e s c po' v r :
  no_new_failures p s ->
  pickVictimAndReceiver (hitsPerSlabStrategy fo g) fb tt (Some p) e s = Some (c, po', tt) ->
  c = {| victim := Some v; receiver := r |} ->
  exists rc vx rx, r = Some rc /\
    projectedDeltaHitsPerSlab p s v = Some vx /\ deltaHitsPerSlab p s rc = Some rx /\
    (let vd := mul fo (ofN fo vx) (weightOf fo (h_weight g) v) in
     let rd := mul fo (ofN fo rx) (weightOf fo (h_weight g) rc) in
     flt fo rd vd = false /\ flt fo (sub fo rd vd) (ofN fo (h_minDiff g)) = false /\
     below fo (h_ratio g) vd (sub fo rd vd) = false) /\
    c_freeSlabs (cs s rc) = 0 /\ deltaEvictions p s rc <> 0%Z.
Proof. exact (hits_threshold F fo g fb p e s c po' v r). Qed.
Print Assumptions C38_hits_threshold.

(** Unweighted, with counts on which the arithmetic is exact (below 2^53 for
    doubles): the receiver's hits per slab exceed those of the victim after losing
    a slab by at least minDiff. *)
Theorem C38_hits_threshold_exact F (fo : float_ops F) B g fb p e s c po' v r :
  no_new_failures p s -> h_weight g = None -> exact_below fo B -> h_minDiff g < B ->
  (forall k, In k (classIds s) -> deltaHits p s k < B) -> 1 <= h_minSlabs g ->
  pickVictimAndReceiver (hitsPerSlabStrategy fo g) fb tt (Some p) e s = Some (c, po', tt) ->
  c = {| victim := Some v; receiver := Some r |} ->
  deltaHits p s v / (totalSlabs s v - 1) + h_minDiff g <= deltaHits p s r / totalSlabs s r.
Proof. exact (hits_threshold_exact F fo B g fb p e s c po' v r). Qed.
Print Assumptions C38_hits_threshold_exact.

(** HitsPerSlab victims respect the minimum tail age and their target age. *)
Theorem C38_hits_victim_age F (fo : float_ops F) g p s v p' : hitsPickVictim fo g p s = Some (Some v, p') ->
  h_minAge g <= c_evAge (cs s v) /\
  forall m t, h_target g = Some m -> m v = Some t -> t <= c_evAge (cs s v).
Proof. intros H. apply hitsVictim_spec in H as (_ & _ & _ & _ & A & B). split; [exact (A v eq_refl)|intros m t; exact (B v m t eq_refl)]. Qed.
Print Assumptions C38_hits_victim_age.

(** MarginalHits: victim above the minimum, receiver with little free memory. *)
Theorem C38_marginal_legal F (fo : float_ops F) g m1 sorted rk p e s c p' rk' :
  incl (map fst rk) (classIds s) ->
  pickBoth (marginalHitsStrategy fo g m1 sorted) rk p e s = Some (c, p', rk') ->
  p' = p /\ incl (map fst rk') (classIds s) /\
  (c = kNoOp \/ exists v r, c = {| victim := Some v; receiver := Some r |} /\ v <> r /\
     In v (classIds s) /\ m_minSlabs g < totalSlabs s v /\
     In r (classIds s) /\ totalFreeMemory s r < m_maxFreeMemSlabs g * kSlabSize).
Proof. exact (mh_both fo g m1 sorted rk p e s c p' rk'). Qed.
Print Assumptions C38_marginal_legal.

(** FreeMem without new allocation failures acts only if the pool has at most
    maxUnAllocatedSlabs unallocated; it names no receiver, and its victim holds more
    free memory than numFreeSlabs slabs and is not evicting. *)
Theorem C38_free_memory_threshold g fb p e s c po' x' v : no_new_failures p s ->
  pickVictimAndReceiver (freeMemStrategy g) fb tt (Some p) e s = Some (c, po', x') -> victim c = Some v ->
  receiver c = None /\ e_unallocated e <= fm_maxUnalloc g * kSlabSize /\
  (deltaEvictions p s v <= 0)%Z /\ fm_numFreeSlabs g * kSlabSize < totalFreeMemory s v /\
  fm_minSlabs g < totalSlabs s v.
Proof. exact (freeMem_threshold g fb p e s c po' x' v). Qed.
Print Assumptions C38_free_memory_threshold.

(** Free memory: the victim is over the threshold, is not evicting and has most
    free memory among the candidates that are not evicting. *)
Theorem C38_free_memory_victim p s vs t v : pickVictimByFreeMem p s vs t = Some (Some v) ->
  In v vs /\ (deltaEvictions p s v <= 0)%Z /\ t < totalFreeMemory s v /\ t <> 0 /\
  (forall c, In c vs -> (deltaEvictions p s c <= 0)%Z -> totalFreeMemory s c <= totalFreeMemory s v).
Proof. exact (freeMem_spec p s vs t v). Qed.
Print Assumptions C38_free_memory_victim.

(** Free allocations (PoolRebalancer): more than the threshold and more than one
    slab worth of them, and the most. *)
Theorem C38_free_alloc_victim s t c : pickVictimByFreeAlloc s t = Some (Some c) ->
  In c (classIds s) /\ t < c_freeAllocs (cs s c) / c_perSlab (cs s c) /\
  1 < c_freeAllocs (cs s c) / c_perSlab (cs s c) /\
  forall d, In d (classIds s) ->
    c_freeAllocs (cs s d) / c_perSlab (cs s d) <= c_freeAllocs (cs s c) / c_perSlab (cs s c).
Proof.
  intros H. apply freeAllocLoop_spec in H as [[H _]|(A & B & C)]; [discriminate|].
  split; [exact A|]. split; [lia|]. split; [lia|exact C].
Qed.
Print Assumptions C38_free_alloc_victim.

(** Hold-off: a class that received a slab is not the victim of the next ten calls
    as long as it does not evict and nothing fails to allocate. *)
Theorem C38_hold_off st fb ids r p e s c po1 l out :
  hold_strategy st -> NoDup ids -> classIds s = ids ->
  pickVictimAndReceiver st fb tt (Some p) e s = Some (c, po1, tt) -> receiver c = Some r -> In r ids ->
  (length l <= 10)%nat ->
  (forall e' s', In (e', s') l -> classIds s' = ids /\ c_evictions (cs s' r) = c_evictions (cs s r) /\
      forall k, In k ids -> c_allocFailures (cs s' k) = c_allocFailures (cs s k)) ->
  calls st fb tt po1 l = Some out ->
  Forall (fun c => victim c <> Some r) (fst (fst out)).
Proof. exact (hold_off st fb ids r p e s c po1 l out). Qed.
Print Assumptions C38_hold_off.

(** Undefined behaviour.  pickVictimByFreeMem dereferences end() exactly when there
    are candidates, the threshold is positive and all candidates are evicting. *)
Theorem C38_free_memory_undefined p s vs t : pickVictimByFreeMem p s vs t = None <->
  vs <> [] /\ t <> 0 /\ forall c, In c vs -> (0 < deltaEvictions p s c)%Z.
Proof. exact (freeMem_ub p s vs t). Qed.
Print Assumptions C38_free_memory_undefined.

(** The strategies are defined if no candidate is evicting or the free-memory rule
    is switched off. *)
Theorem C38_defined_guarded F (fo : float_ops F) p e s :
  (forall g : lruCfg F,
    (forall c, In c (classIds s) -> l_minSlabs g < totalSlabs s c -> (deltaEvictions p s c <= 0)%Z) \/
    l_numSlabsFreeMem g = 0 -> pickBoth (lruTailAgeStrategy fo g) tt p e s <> None) /\
  (forall g : hitsCfg F,
    (forall c, In c (classIds s) -> h_minSlabs g < totalSlabs s c -> (deltaEvictions p s c <= 0)%Z) \/
    h_numSlabsFreeMem g = 0 \/ h_byFreeMem g = false -> pickBoth (hitsPerSlabStrategy fo g) tt p e s <> None).
Proof. split; intros g H; [exact (lru_defined F fo g p e s H)|exact (hits_defined F fo g p e s H)]. Qed.
Print Assumptions C38_defined_guarded.

(** ** Concrete pools *)
Definition zops : float_ops Z := {|
  ofN := Z.of_N; mul := Z.mul; sub := Z.sub; add := Z.add; flt := Z.ltb;
  below := fun r x d => (d * 4 <? r * x)%Z (* ratio in quarters *) |}.
Definition lruDefault : lruCfg Z := {| l_ratio := 1%Z; l_minDiff := 100; l_minSlabs := 1; l_numSlabsFreeMem := 3;
                                       l_weight := None |}.
Definition cst used fs ev fails hts age : cstat := {| c_used := used; c_freeSlabs := fs; c_freeAllocs := 0;
  c_allocSize := 64; c_perSlab := 65536; c_evictions := ev; c_allocFailures := fails; c_hits := hts;
  c_tailHits := 0; c_evAge := age |}.
Definition pool2 a b : stats := {| classIds := [0%nat; 1%nat]; cs := fun c => if Nat.eqb c 0 then a else b |}.
Definition env2 a b : env := {| e_allAllocated := true; e_unallocated := 0;
  e_projected := fun c => if Nat.eqb c 0 then a else b; e_oldest := fun c => if Nat.eqb c 0 then a else b;
  e_random := fun _ => 0 |}.
Definition fbTS (_ : env) s := totalSlabsPick s.

(** A decision is made: class 0 (old tail, not evicting) gives to class 1. *)
Example C38_ex_lru :
  exists po l, calls (lruTailAgeStrategy zops lruDefault) fbTS tt None
    [(env2 5000 10, pool2 (cst 4 0 0 0 0 0) (cst 2 0 0 0 0 0));
     (env2 5000 10, pool2 (cst 4 0 0 0 0 0) (cst 2 0 7 0 0 0))] = Some (l, po, tt) /\
  l = [kNoOp; {| victim := Some 0%nat; receiver := Some 1%nat |}].
Proof. eexists _, _. vm_compute. split; reflexivity. Qed.

Example C38_ex_hits :
  exists po l, calls (hitsPerSlabStrategy zops {| h_minDiff := 100; h_ratio := 1%Z; h_minSlabs := 1;
      h_numSlabsFreeMem := 0; h_minAge := 0; h_maxAge := 0; h_byFreeMem := true; h_everyAttempt := false;
      h_weight := None; h_target := None |}) fbTS tt None
    [(env2 0 0, pool2 (cst 4 0 0 0 0 0) (cst 2 0 0 0 0 0));
     (env2 0 0, pool2 (cst 4 0 0 0 300 0) (cst 2 0 7 0 2000 0))] = Some (l, po, tt) /\
  l = [kNoOp; {| victim := Some 0%nat; receiver := Some 1%nat |}].
Proof. eexists _, _. vm_compute. split; reflexivity. Qed.

Example C38_ex_exact : forall B, exact_below zops B.
Proof.
  intros B. repeat split; intros; cbn.
  - destruct (Z.ltb_spec (Z.of_N a) (Z.of_N b)), (N.ltb_spec a b); lia.
  - lia.
  - lia.
Qed.

(** Refuted: "the strategy is always defined".  With the default configuration of
    LruTailAge, two classes that both evicted since the last call are enough. *)
Theorem C38_always_defined_refuted :
  ~ (forall l, calls (lruTailAgeStrategy zops lruDefault) fbTS tt None l <> None).
Proof.
  intros H. apply (H [(env2 5000 10, pool2 (cst 4 0 0 0 0 0) (cst 2 0 0 0 0 0));
                      (env2 5000 10, pool2 (cst 4 0 9 0 0 0) (cst 2 0 7 0 0 0))]).
  vm_compute. reflexivity.
Qed.
Print Assumptions C38_always_defined_refuted.

(** Refuted: "a victim keeps the configured minimum of slabs".  Here the minimum is
    10, no class has that many, class 1 fails allocations and class 0 (4 slabs) is
    made to give one up by the fallback. *)
Theorem C38_min_slabs_refuted :
  ~ (forall l out, calls (lruTailAgeStrategy zops
         {| l_ratio := 1%Z; l_minDiff := 100; l_minSlabs := 10; l_numSlabsFreeMem := 3; l_weight := None |})
         fbTS tt None l = Some out ->
       Forall2 (fun c es => forall v, victim c = Some v -> 10 < totalSlabs (snd es) v) (fst (fst out)) l).
Proof.
  intros H.
  specialize (H [(env2 5000 10, pool2 (cst 4 0 0 0 0 0) (cst 2 0 0 0 0 0));
                 (env2 5000 10, pool2 (cst 4 0 0 0 0 0) (cst 2 0 0 3 0 0))]).
  match type of H with forall out, ?t = Some out -> _ => destruct t as [out|] eqn:E; [|vm_compute in E; discriminate] end.
  specialize (H out eq_refl).
  assert (Q : fst (fst out) = [kNoOp; {| victim := Some 0%nat; receiver := Some 1%nat |}]).
  { assert (Q2 : Some (fst (fst out)) = option_map (fun o => fst (fst o)) (Some out)) by reflexivity.
    rewrite <- E in Q2. vm_compute in Q2. injection Q2 as Q2. exact Q2. }
  rewrite Q in H. inversion H as [|? ? ? ? _ H2]; subst. inversion H2 as [|? ? ? ? H3 _]; subst.
  specialize (H3 0%nat eq_refl). vm_compute in H3. discriminate.
Qed.
Print Assumptions C38_min_slabs_refuted.

(** The hold-off theorem's hypotheses are met by the first example. *)
Example C38_ex_hold :
  option_map (fun o => nth 5 (fst (fst o)) kNoOp)
  (calls (lruTailAgeStrategy zops lruDefault) fbTS tt None
    ([(env2 5000 10, pool2 (cst 4 0 0 0 0 0) (cst 2 0 0 0 0 0));
      (env2 5000 10, pool2 (cst 4 0 0 0 0 0) (cst 2 0 7 0 0 0))] ++
     repeat (env2 10 9000, pool2 (cst 4 0 0 0 0 0) (cst 3 0 7 0 0 0)) 4)) = Some kNoOp.
Proof. vm_compute. reflexivity. Qed.
