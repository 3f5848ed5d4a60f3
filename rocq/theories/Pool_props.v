(** C09 across classes and pools, C11, C12: theorems. *)
From Verif Require Import Bytes Compress_model AllocClass_model AllocClass_spec AllocClass_proofs AllocClass_proofs2 AllocClass_proofs3 AllocClass_proofs4 AllocClass_proofs5 Pool_model Pool_spec Pool_proofs Pool_proofs2 Pool_proofs3 Pool_proofs4 Pool_proofs5 Pool_proofs6.
From Coq Require Import Sorting.Sorted.

(** ** C09 *)
(** In every history of the whole allocator (any number of pools and classes; threads interleave at
    lock and atomic granularity; slabs move between classes, pools, the free list and advised memory)
    the allocations owned by callers, of any classes of any pools, do not overlap. *)
Theorem C09_disjoint_across_classes_and_pools : forall k, legalConf k -> forall mx tot tr g p c p' c' m m',
  ghistory k mx tot tr g -> isClass k p c -> isClass k p' c' ->
  In m (liveOf tr p c) -> In m' (liveOf tr p' c') -> (p, c, m) <> (p', c', m') ->
  fst m <> fst m' \/ (snd m + nth c (sizesOf k p) 0 <= snd m')%N \/ (snd m' + nth c' (sizesOf k p') 0 <= snd m)%N.
Proof. exact global_disjoint. Qed.

(** Every class of the allocator behaves as C09/C10 say: it has a history in their sense. *)
Theorem C09_every_class_history : forall k, legalConf k -> forall mx tot tr g p c,
  ghistory k mx tot tr g -> isClass k p c -> history (cfgOf k p c) (proj p c tr) (gAc g p c) (gH g).
Proof. exact class_history. Qed.

(** A live allocation lies in the memory, and free() finds its class from the slab header. *)
Theorem C09_free_finds_class : forall k, legalConf k -> forall mx tot tr g p c m,
  ghistory k mx tot tr g -> isClass k p c -> In m (liveOf tr p c) ->
  fst m < tot /\ classIdForMemory (gH g) p (length (sizesOf k p)) m = Some c.
Proof.
  intros k LK mx tot tr g p c m H C M. destruct (live_header k LK mx tot tr g p c m H C M) as (A & B & D). split; [exact D|].
  unfold classIdForMemory. rewrite A, B, Nat.eqb_refl. destruct C as [_ C]. apply Nat.ltb_lt in C. rewrite C. reflexivity.
Qed.

(** A request of [sz] bytes is served from a class of at least [sz] bytes, wholly inside one slab. *)
Theorem C09_request_fits : forall k, legalConf k -> forall mx tot tr g p c sz m,
  ghistory k mx tot tr g -> p < nPools k -> sizesOf k p <> [] -> StronglySorted N.lt (sizesOf k p) ->
  classIdForSize (sizesOf k p) sz = Some c -> In m (liveOf tr p c) ->
  (sz <= nth c (sizesOf k p) 0)%N /\ (snd m + nth c (sizesOf k p) 0 <= kSlabSize)%N.
Proof.
  intros k LK mx tot tr g p c sz m H P NE SO CL M. apply class_smallest in CL as (_ & L & S1 & _); auto. split; [exact S1|].
  assert (C : isClass k p c) by (split; assumption). pose proof (class_history k LK _ _ _ _ _ _ H C) as CH.
  destruct (no_overlap _ (LK p c C) _ _ _ CH) as (_ & B & _). destruct (B m M) as [I _]. apply I.
Qed.

(** ** C11 *)
Theorem C11_smallest_fit : forall sizes sz i, sizes <> [] -> StronglySorted N.lt sizes ->
  (classIdForSize sizes sz = Some i <->
   sz <> 0%N /\ i < length sizes /\ (sz <= nth i sizes 0)%N /\
   forall j, j < length sizes -> (sz <= nth j sizes 0)%N -> (nth i sizes 0 <= nth j sizes 0)%N).
Proof. exact class_smallest. Qed.
Theorem C11_throws_iff : forall sizes sz, sizes <> [] -> StronglySorted N.lt sizes ->
  (classIdForSize sizes sz = None <-> sz = 0%N \/ forall x, In x sizes -> (x < sz)%N).
Proof. exact class_throws. Qed.

(** ** C12 *)
(** Every slab is in exactly one place: free, advised away, never handed out, on one pool's free list,
    in one class, or in the hand of one thread. *)
Theorem C12_one_place : forall k, legalConf k -> forall mx tot tr g s, ghistory k mx tot tr g ->
  exists pl, isAt k g s pl /\ forall pl', isAt k g s pl' -> pl' = pl.
Proof. intros k LK mx tot tr g s H. exact (one_place k g s (history_gi k LK _ _ _ _ H)). Qed.

(** Slabs of all pools + free + advised + never handed out = all slabs, at every moment. *)
Theorem C12_slabs_conserved : forall k, legalConf k -> forall tot mx tr g, ghistory k mx tot tr g ->
  (sumP (fun p => N.of_nat (slabsOf (gH g) p tot)) (nPools k) + N.of_nat (length (saFree (gSA g))) +
   N.of_nat (length (saAdv (gSA g))) + N.of_nat (tot - saNext (gSA g)) = N.of_nat tot)%N.
Proof. exact conserved. Qed.

(** A pool that was never shrunk never holds more slab memory than its size; at rest even counting the
    slabs it has advised away.  Two guards, each shown necessary below. *)
Theorem C12_pool_within_limit : forall k, legalConf k -> forall tot, memOk tot -> forall mx tr g p,
  ghistory k mx tot tr g -> sizesOk mx tot tr -> noFreeListRelease tr -> noRacyAdvise p tr -> growOnly p (mx p) tr ->
  (N.of_nat (slabsOf (gH g) p tot) * kSlabSize <= pMax (gPool g p))%N /\
  (quiet g -> (N.of_nat (slabsOf (gH g) p tot) + pAdv (gPool g p)) * kSlabSize <= pMax (gPool g p))%N.
Proof. exact limit_holds. Qed.

(** At rest the pool's reported numbers are exact: used size, the counter behind it, over-limit, the
    limit check; and pools' advised counts add up to the slabs advised away. *)
Theorem C12_accounting_exact_at_rest : forall k, legalConf k -> forall tot, memOk tot -> forall mx tr g,
  ghistory k mx tot tr g -> sizesOk mx tot tr -> noFreeListRelease tr -> quiet g ->
  (forall p, p < nPools k ->
     usedSize (gPool g p) = (N.of_nat (slabsOf (gH g) p tot) * kSlabSize)%N /\
     pCur (gPool g p) = (N.of_nat (slabsOf (gH g) p tot - length (pFree (gPool g p))) * kSlabSize)%N /\
     length (pFree (gPool g p)) <= slabsOf (gH g) p tot /\
     (overLimit (gPool g p) = true <-> (pMax (gPool g p) < (N.of_nat (slabsOf (gH g) p tot) + pAdv (gPool g p)) * kSlabSize)%N) /\
     (allSlabsAllocated (gPool g p) (pAdv (gPool g p)) (pCur (gPool g p)) = false <->
        ((N.of_nat (slabsOf (gH g) p tot - length (pFree (gPool g p))) + pAdv (gPool g p) + 1) * kSlabSize <= pMax (gPool g p))%N)) /\
  sumP (fun p => pAdv (gPool g p)) (nPools k) = N.of_nat (length (saAdv (gSA g))).
Proof. exact rest_exact. Qed.

(** The slab allocator reports "no slab" exactly when none is free and all were handed out. *)
Theorem C12_out_of_slabs_iff : forall k, legalConf k -> forall tot mx tr g, ghistory k mx tot tr g ->
  (snd (makeNew (gSA g)) = None <-> saFree (gSA g) = [] /\ saNext (gSA g) = saTot (gSA g)).
Proof. exact out_of_slabs. Qed.

(** A slab in hand is always accepted by the class it is meant for. *)
Theorem C12_handover_accepted : forall k, legalConf k -> forall mx tot tr g t p c s, ghistory k mx tot tr g ->
  In t (gTok g) -> t = KGot p c s \/ t = KRel p s (MRebalance (Some c)) ->
  exists t' h', astep (cfgOf k p c) (gAc g p c, gH g) (LAddSlab s) (t', h').
Proof. intros k LK mx tot tr g t p c s H. exact (handover k g t p c s (history_gi k LK _ _ _ _ H)). Qed.

(** Configured sizes never exceed the memory, whatever is called. *)
Theorem C12_sizes_never_exceed_memory : forall total ops, (sumN (mSizes (mrun total ops)) <= total)%N.
Proof. intros total ops. apply (mrun_ok ops (mkMgr [] total)). apply N.le_0_l. Qed.
(** A successful resize moves exactly the requested bytes; other pools keep their size. *)
Theorem C12_resize_moves_exactly : forall m s d b m', resizePools m s d b = Some (m', true) -> s <> d ->
  exists x y, nth_error (mSizes m) s = Some x /\ nth_error (mSizes m) d = Some y /\ (b <= x)%N /\
    nth_error (mSizes m') s = Some (x - b)%N /\ nth_error (mSizes m') d = Some (y + b)%N /\
    forall p, p <> s -> p <> d -> nth_error (mSizes m') p = nth_error (mSizes m) p.
Proof. exact resize_exact. Qed.
Theorem C12_resize_to_itself_changes_nothing : forall m s b m' r, resizePools m s s b = Some (m', r) ->
  forall p, nth_error (mSizes m') p = nth_error (mSizes m) p.
Proof. exact resize_self. Qed.

(** The number of slabs each pool should have advised away adds up to the total exactly (the XDCHECK of
    getTargetSlabsToAdvise), and no pool is asked for more than it uses. *)
Theorem C12_advise_targets_exact : forall n us ts s, (0 < sumN us)%N -> adviseTargets n us = (ts, s) ->
  length ts = length us /\ sumN ts = n /\ s = n /\
  ((n <= sumN us)%N -> forall i t u, nth_error ts i = Some t -> nth_error us i = Some u -> (t <= u)%N).
Proof. exact targets_exact. Qed.
(** The advice given to pools brings the number of advised slabs exactly to [n]; no pool is asked to
    reclaim more than it advised, nor to advise more than it uses. *)
Theorem C12_advise_reclaim_exact : forall n us as_ b r, length us = length as_ -> calcAdviseReclaim n us as_ = Some (b, r) ->
  length r = length us /\
  (b = true -> sumN as_ + sumN r = n)%N /\
  (b = false -> (sumN r + n = sumN as_)%N /\ forall i x a, nth_error r i = Some x -> nth_error as_ i = Some a -> (x <= a)%N) /\
  (b = true -> (n <= sumN us)%N -> forall i x a u, nth_error r i = Some x -> nth_error as_ i = Some a -> nth_error us i = Some u -> x = 0%N \/ (a + x <= u)%N).
Proof. exact calc_exact. Qed.

(** ** Concrete runs *)
Definition k1 : conf := mkConf 1 (fun _ => [64%N; 128%N]).
Definition mx1 : nat -> N := fun _ => kSlabSize.
Lemma k1_legal : legalConf k1.
Proof. intros p c [P C]. cbn in P, C. destruct c as [|[|c]]; [split; discriminate..|lia]. Qed.
Lemma k1_class c : c < 2 -> isClass k1 0 c.
Proof. intros. split; cbn; lia. Qed.

Ltac st := eapply GrStep.
Ltac take c s := (* one thread gets a slab for class c *)
  st; [eapply (GsRead k1 _ _ _ _ _ 0 c); [apply k1_class; lia|reflexivity]|];
  st; [eapply (GsRoom k1 _ _ _ _ [] [] 0 c); vm_compute; reflexivity|];
  st; [eapply (GsBump k1 _ _ _ _ [] [] 0 c)|].
Ltac fresh_ c s := st; [eapply (GsNew k1 _ _ _ _ [] [] 0 c _ s); [reflexivity|reflexivity]|].
Ltac pop_ c s := st; [eapply (GsPop k1 _ _ _ _ [] [] 0 c s); reflexivity|].
Ltac add_ c s := st; [eapply (GsAdd k1 _ _ _ _ [] [] 0 c s); eapply StAddSlab; [unfold owns; cbn; intuition (discriminate || lia)|reflexivity|reflexivity|reflexivity]|].
Ltac drop_ c s m := st; [eapply (GsLeave k1 _ _ _ _ _ 0 c (LReleased s) s m); [apply k1_class; lia|eapply StStartFree; [reflexivity|reflexivity]|reflexivity|intros; try discriminate]|].

(** A slab goes to class 0, is rebalanced to the pool's free list and taken by class 1. *)
Definition tr1 : list glabel :=
  [GTau; GTau; GTau; GTau; GClass 0 0 (LAddSlab 0); GClass 0 0 (LReleased 0); GTau; GTau; GTau].
Lemma run1 : exists g, ghistory k1 mx1 2 tr1 g /\ quiet g /\ slabsOf (gH g) 0 2 = 1 /\ pFree (gPool g 0) = [0] /\ pCur (gPool g 0) = 0%N.
Proof.
  eexists. split; [|split; [|split; [|split]]].
  - unfold ghistory, initG, tr1. take 0 0. fresh_ 0 0. add_ 0 0. drop_ 0 0 (MRebalance None).
    st; [eapply (GsRebalanceFree k1 _ _ _ _ [] [] 0 0)|]. st; [eapply (GsPush k1 _ _ _ _ [] [] 0 0); reflexivity|]. st; [eapply (GsDec k1 _ _ _ _ [] [] 0)|]. apply GrNil.
  - reflexivity.
  - reflexivity.
  - reflexivity.
  - vm_compute. reflexivity.
Qed.
Example C12_example : exists g, ghistory k1 mx1 2 tr1 g /\ legalConf k1 /\ memOk 2 /\ sizesOk mx1 2 tr1 /\ noFreeListRelease tr1 /\ noRacyAdvise 0 tr1 /\ growOnly 0 (mx1 0) tr1 /\ quiet g /\ slabsOf (gH g) 0 2 = 1.
Proof.
  destruct run1 as (g & H & Q & S1 & _). exists g. split; [exact H|]. split; [exact k1_legal|]. split; [reflexivity|]. split.
  - split; [intros p; discriminate|]. intros p v I. cbn in I. intuition discriminate.
  - split; [intros p I; cbn in I; intuition discriminate|]. split; [intros I; cbn in I; intuition discriminate|]. split; [exact I|]. split; assumption.
Qed.

(** Guard 1.  startSlabRelease on a pool's free slab (kInvalidClassId) subtracts from
    currSlabAllocSize_ although free slabs are not counted in it: the counter wraps, the pool is
    reported over its limit with no slab at all, and then takes two slabs with a limit of one. *)
Definition tr2 : list glabel := tr1 ++
  [GFreeListRelease 0; GTau; GTau].
Definition tr3 : list glabel := tr2 ++
  [GTau; GTau; GTau; GTau; GClass 0 0 (LAddSlab 0); GTau; GTau; GTau; GTau; GClass 0 1 (LAddSlab 1)].
Lemma run23 : exists g g', grun k1 (initG mx1 2) tr2 g /\ grun k1 (initG mx1 2) tr3 g' /\ quiet g /\ quiet g' /\
  slabsOf (gH g) 0 2 = 0 /\ overLimit (gPool g 0) = true /\ slabsOf (gH g') 0 2 = 2 /\ pMax (gPool g' 0) = kSlabSize.
Proof.
  eexists. eexists. split; [|split; [|split; [|split; [|split; [|split; [|split]]]]]].
  - unfold initG, tr2, tr1. cbn [app]. take 0 0. fresh_ 0 0. add_ 0 0. drop_ 0 0 (MRebalance None).
    st; [eapply (GsRebalanceFree k1 _ _ _ _ [] [] 0 0)|]. st; [eapply (GsPush k1 _ _ _ _ [] [] 0 0); reflexivity|]. st; [eapply (GsDec k1 _ _ _ _ [] [] 0)|].
    st; [eapply (GsFreeList k1 _ _ _ _ _ 0 0); [cbn; lia|reflexivity|reflexivity]|]. st; [eapply (GsResize k1 _ _ _ _ [] [] 0 0)|]. st; [eapply (GsDec k1 _ _ _ _ [] [] 0)|]. apply GrNil.
  - unfold initG, tr3, tr2, tr1. cbn [app]. take 0 0. fresh_ 0 0. add_ 0 0. drop_ 0 0 (MRebalance None).
    st; [eapply (GsRebalanceFree k1 _ _ _ _ [] [] 0 0)|]. st; [eapply (GsPush k1 _ _ _ _ [] [] 0 0); reflexivity|]. st; [eapply (GsDec k1 _ _ _ _ [] [] 0)|].
    st; [eapply (GsFreeList k1 _ _ _ _ _ 0 0); [cbn; lia|reflexivity|reflexivity]|]. st; [eapply (GsResize k1 _ _ _ _ [] [] 0 0)|]. st; [eapply (GsDec k1 _ _ _ _ [] [] 0)|].
    take 0 0. fresh_ 0 0. add_ 0 0. take 1 1. fresh_ 1 1. add_ 1 1. apply GrNil.
  - reflexivity.
  - reflexivity.
  - reflexivity.
  - vm_compute. reflexivity.
  - reflexivity.
  - reflexivity.
Qed.
Theorem C12_free_list_release_refuted : ~ (forall k, legalConf k -> forall tot, memOk tot -> forall mx tr g p,
  ghistory k mx tot tr g -> sizesOk mx tot tr -> noRacyAdvise p tr -> growOnly p (mx p) tr -> quiet g ->
  (overLimit (gPool g p) = true -> (pMax (gPool g p) < (N.of_nat (slabsOf (gH g) p tot) + pAdv (gPool g p)) * kSlabSize)%N)).
Proof.
  intros F. destruct run23 as (g & g' & R & _ & Q & _ & S1 & OV & _).
  assert (X : (pMax (gPool g 0) < (N.of_nat (slabsOf (gH g) 0 2) + pAdv (gPool g 0)) * kSlabSize)%N).
  { apply (F k1 k1_legal 2 eq_refl mx1 tr2 g 0 R); [|intros I; cbn in I; intuition discriminate|exact I|exact Q|exact OV].
    split; [intros p; discriminate|]. intros p v I. cbn in I. intuition discriminate. }
  rewrite S1 in X. pose proof (conserved k1 k1_legal 2 mx1 tr2 g R) as CO. cbn [sumP nPools k1] in CO. 
  assert (pAdv (gPool g 0) = 0)%N; [|rewrite H in X; cbn in X; lia].
  clear - R. assert (forall x tr y, grun k1 x tr y -> (forall p b, ~ In (GAdvised p b) tr) -> (forall p, ~ In (GReclaim p) tr) -> pAdv (gPool x 0) = 0%N -> ~ (exists p s, In (KRecl p s) (gTok x)) -> pAdv (gPool y 0) = 0%N) as A.
  { clear. induction 1 as [|x l y tr z ST R IH]; intros N1 N2 P NT; [exact P|]. apply IH; [intros p b I; apply (N1 p b); right; exact I|intros p I; apply (N2 p); right; exact I| |].
    - inversion ST; subst; cbn in *; try assumption; try (unfold fupd; destruct p; cbn; assumption); [exfalso; eapply N1; left; reflexivity|exfalso; apply NT; do 2 eexists; apply tok_in].
    - intros (p & s & T). apply NT. inversion ST; subst; cbn in *; try (do 2 eexists; exact T);
      try (destruct T as [T|T]; [discriminate|do 2 eexists; exact T]);
      try (apply in_app_or in T; destruct T as [T|T]; [do 2 eexists; apply in_or_app; left; exact T|do 2 eexists; apply in_or_app; right; right; exact T]);
      try (apply in_app_or in T; destruct T as [T|[T|T]]; [do 2 eexists; apply in_or_app; left; exact T|discriminate|do 2 eexists; apply in_or_app; right; right; exact T]).
      exfalso. eapply N2. left. reflexivity. }
  eapply A; [exact R|intros p b I; cbn in I; intuition discriminate|intros p I; cbn in I; intuition discriminate|reflexivity|intros (p & s & [])].
Qed.
Theorem C12_limit_with_free_list_release_refuted : ~ (forall k, legalConf k -> forall tot, memOk tot -> forall mx tr g p,
  ghistory k mx tot tr g -> sizesOk mx tot tr -> noRacyAdvise p tr -> growOnly p (mx p) tr -> quiet g ->
  (N.of_nat (slabsOf (gH g) p tot) * kSlabSize <= pMax (gPool g p))%N).
Proof.
  intros F. destruct run23 as (g & g' & _ & R & _ & Q & _ & _ & S2 & MX).
  assert (X : (N.of_nat (slabsOf (gH g') 0 2) * kSlabSize <= pMax (gPool g' 0))%N).
  { apply (F k1 k1_legal 2 eq_refl mx1 tr3 g' 0 R); [|intros I; cbn in I; intuition discriminate|exact I|exact Q].
    split; [intros p; discriminate|]. intros p v I. cbn in I. intuition discriminate. }
  rewrite S2, MX in X. discriminate X || (apply X; reflexivity).
Qed.

(** Guard 2.  The limit check reads curSlabsAdvised_ and then currSlabAllocSize_; a slab advised away in
    between is counted in neither: the pool takes a slab too many, visible once the advised one is reclaimed. *)
Definition tr4 : list glabel :=
  [GTau; GTau; GTau; GTau; GClass 0 0 (LAddSlab 0); GClass 0 0 (LReleased 0); GTau; GTau; GAdvised 0 true; GTau;
   GTau; GTau; GTau; GClass 0 1 (LAddSlab 1); GReclaim 0; GTau].
Lemma run4 : exists g, grun k1 (initG mx1 2) tr4 g /\ quiet g /\ slabsOf (gH g) 0 2 = 2 /\ pMax (gPool g 0) = kSlabSize.
Proof.
  eexists. split; [|split; [|split]].
  - unfold initG, tr4. take 0 0. fresh_ 0 0. add_ 0 0. drop_ 0 0 MAdvise.
    st; [eapply (GsAdviseOk k1 _ _ _ _ [] [] 0 0)|].
    st; [eapply (GsRead k1 _ _ _ _ _ 0 1); [apply k1_class; lia|reflexivity]|].
    st; [eapply (GsAdviseCount k1 _ _ _ _ [KRead 0 1 0%N] [] 0)|].
    st; [eapply (GsDec k1 _ _ _ _ [KRead 0 1 0%N] [] 0)|].
    st; [eapply (GsRoom k1 _ _ _ _ [] [] 0 1 0%N); vm_compute; reflexivity|].
    st; [eapply (GsBump k1 _ _ _ _ [] [] 0 1)|]. fresh_ 1 1. add_ 1 1.
    st; [eapply (GsReclaim k1 _ _ _ _ _ 0 _ 0); [cbn; lia|reflexivity|reflexivity]|].
    st; [eapply (GsReclaimPush k1 _ _ _ _ [] [] 0 0); reflexivity|]. apply GrNil.
  - reflexivity.
  - reflexivity.
  - reflexivity.
Qed.
Theorem C12_limit_with_racing_advise_refuted : ~ (forall k, legalConf k -> forall tot, memOk tot -> forall mx tr g p,
  ghistory k mx tot tr g -> sizesOk mx tot tr -> noFreeListRelease tr -> growOnly p (mx p) tr -> quiet g ->
  (N.of_nat (slabsOf (gH g) p tot) * kSlabSize <= pMax (gPool g p))%N).
Proof.
  intros F. destruct run4 as (g & R & Q & S2 & MX).
  assert (X : (N.of_nat (slabsOf (gH g) 0 2) * kSlabSize <= pMax (gPool g 0))%N).
  { apply (F k1 k1_legal 2 eq_refl mx1 tr4 g 0 R); [|intros p I; cbn in I; intuition discriminate|exact I|exact Q].
    split; [intros p; discriminate|]. intros p v I. cbn in I. intuition discriminate. }
  rewrite S2, MX in X. discriminate X || (apply X; reflexivity).
Qed.

(** Two classes with live allocations. *)
Definition tr5 : list glabel :=
  [GTau; GTau; GTau; GTau; GClass 0 0 (LAddSlab 0); GClass 0 0 (LAlloc (Some (0, 0%N))); GClass 0 0 (LAlloc (Some (0, 64%N)))].
Example C09_example : exists g, ghistory k1 mx1 2 tr5 g /\ liveOf tr5 0 0 = [(0, 64%N); (0, 0%N)] /\ classIdForSize (sizesOf k1 0) 60 = Some 0.
Proof.
  eexists. split; [|split; reflexivity]. unfold ghistory, initG, tr5. take 0 0. fresh_ 0 0. add_ 0 0.
  st; [eapply (GsClass k1 _ _ _ _ _ 0 0); [apply k1_class; lia|eapply (StAlloc _ _ _ _ (Some (0, 0%N))); reflexivity|reflexivity|intros [s E]; discriminate]|].
  st; [eapply (GsClass k1 _ _ _ _ _ 0 0); [apply k1_class; lia|eapply (StAlloc _ _ _ _ (Some (0, 64%N))); reflexivity|reflexivity|intros [s E]; discriminate]|]. apply GrNil.
Qed.
Example C11_example : classIdForSize [64%N; 128%N; 512%N] 65 = Some 1 /\ classIdForSize [64%N; 128%N; 512%N] 128 = Some 1 /\ classIdForSize [64%N; 128%N; 512%N] 513 = None /\
  [64%N; 128%N; 512%N] <> [] /\ StronglySorted N.lt [64%N; 128%N; 512%N].
Proof. split; [reflexivity|]. split; [reflexivity|]. split; [reflexivity|]. split; [discriminate|]. repeat constructor. Qed.
Example C12_manager_example : mSizes (mrun 100 [MCreate 60; MCreate 50; MCreate 40; MResizePools 0 1 25; MGrow 0 1; MShrink 1 5; MGrow 0 3]) = [38%N; 60%N] /\
  calcAdviseReclaim 5 [3%N; 7%N; 0%N] [0%N; 1%N; 0%N] = Some (true, [2%N; 2%N; 0%N]).
Proof. split; reflexivity. Qed.

Print Assumptions C09_disjoint_across_classes_and_pools.
Print Assumptions C09_every_class_history.
Print Assumptions C09_free_finds_class.
Print Assumptions C09_request_fits.
Print Assumptions C11_smallest_fit.
Print Assumptions C11_throws_iff.
Print Assumptions C12_one_place.
Print Assumptions C12_slabs_conserved.
Print Assumptions C12_pool_within_limit.
Print Assumptions C12_accounting_exact_at_rest.
Print Assumptions C12_out_of_slabs_iff.
Print Assumptions C12_handover_accepted.
Print Assumptions C12_sizes_never_exceed_memory.
Print Assumptions C12_resize_moves_exactly.
Print Assumptions C12_resize_to_itself_changes_nothing.
Print Assumptions C12_advise_targets_exact.
Print Assumptions C12_advise_reclaim_exact.
Print Assumptions C12_free_list_release_refuted.
Print Assumptions C12_limit_with_free_list_release_refuted.
Print Assumptions C12_limit_with_racing_advise_refuted.
