(** C06: the 2Q container keeps three queues; nothing is lost, duplicated or in two queues. *)
From Coq Require Import Permutation.
From Verif Require Import Bytes DList_model DList_spec DList_proofs MM2Q_model MM2Q_spec MM2Q_proofs MM2Q_proofs2 MM2Q_proofs3
  MM2Q_proofs4 MM2Q_proofs5.

(** Every history of calls behaves as the three abstract queues of MM2Q_spec.v: same results, no
    null dereference, every item in exactly one queue, eviction order cold, hot, warm. *)
Theorem C06_refines_queues : forall c0 now cs, good_pct c0 = true -> mlegals (init_q c0 now) cs ->
  exists s, mexecs (initMM c0 now) cs = Some (s, snd (spec_execs (init_q c0 now) cs)) /\
    shows s (fst (spec_execs (init_q c0 now) cs)).
Proof. exact refines_queues. Qed.
Print Assumptions C06_refines_queues.

(** The eviction iterator offers every item that is inside (added and neither removed, evicted nor
    replaced since), and only those, each exactly once. *)
Theorem C06_membership : forall c0 now cs s outs, reached c0 now cs s outs ->
  exists l, evictionOrder s = Some l /\ NoDup l /\
    forall n, (In n l <-> inside_after (combine cs outs) n = true) /\
              (inMM s n = true <-> inside_after (combine cs outs) n = true).
Proof. exact membership_order. Qed.
Print Assumptions C06_membership.

(** Scan resistance: an item is in the warm queue only if it was accessed since it was added. *)
Theorem C06_warm_was_accessed : forall c0 now cs s outs n, reached c0 now cs s outs -> isWarm s n ->
  touched_after (combine cs outs) n = true.
Proof. exact warm_was_accessed. Qed.
Print Assumptions C06_warm_was_accessed.

(** After a successful add or remove, hot and warm hold at most their percentage of all items. *)
Theorem C06_sizes_after_add : forall c0 now cs s outs n t s', reached c0 now cs s outs ->
  add s n t = Some (s', true) -> bounded s'.
Proof. intros c0 now cs s outs n t s' HR E. destruct (reached_R _ _ _ _ _ HR) as (R1 & _). exact (sizes_after_add _ _ _ _ _ R1 E). Qed.
Print Assumptions C06_sizes_after_add.
Theorem C06_sizes_after_remove : forall c0 now cs s outs n s', reached c0 now cs s outs ->
  remove s n = Some (s', true) -> bounded s'.
Proof. intros c0 now cs s outs n s' HR E. destruct (reached_R _ _ _ _ _ HR) as (R1 & _). exact (sizes_after_remove _ _ _ _ R1 E). Qed.
Print Assumptions C06_sizes_after_remove.

(** An access to a warm or cold item makes it warm and the last to be evicted, all others keeping
    their order (cold with rebalancing on access enabled: see C06_refines_queues); an access to a
    hot item makes it the last of the hot segment. *)
Theorem C06_access_order : forall c0 now cs s outs n t, reached c0 now cs s outs -> inMM s n = true ->
  exists s' l, accessLocked s n t = Some (s', true) /\ evictionOrder s = Some l /\
   (hot s n = false -> cold s n = false \/ rebalOnAccess (cfg s) = false ->
      evictionOrder s' = Some (remove_node l n ++ [n]) /\ isWarm s' n) /\
   (hot s n = true -> exists c h w, l = c ++ h ++ w /\ In n h /\
      evictionOrder s' = Some (c ++ (remove_node h n ++ [n]) ++ w)).
Proof. intros c0 now cs s outs n t HR E. destruct (reached_R _ _ _ _ _ HR) as (R1 & _). exact (access_order _ _ _ t R1 E). Qed.
Print Assumptions C06_access_order.

(** With 100% hot the container is an exact LRU. *)
Theorem C06_hot100_is_lru : forall c0 now cs s outs n t, reached c0 now cs s outs -> hotPct c0 = 100%N -> Forall no_config cs ->
  exists l, evictionOrder s = Some l /\
    (inMM s n = true -> exists s', accessLocked s n t = Some (s', true) /\ evictionOrder s' = Some (remove_node l n ++ [n])) /\
    (inMM s n = false -> exists s', add s n t = Some (s', true) /\ evictionOrder s' = Some (l ++ [n])) /\
    (inMM s n = true -> exists s', remove s n = Some (s', true) /\ evictionOrder s' = Some (remove_node l n)).
Proof. exact hot100_lru. Qed.
Print Assumptions C06_hot100_is_lru.

(** Removing through the eviction iterator takes out exactly that item, and the iterator goes on
    with the rest of the eviction order. *)
Theorem C06_evict_continues : forall c0 now cs s outs n, reached c0 now cs s outs -> inMM s n = true ->
  exists s' it p r, evict s n = Some (s', it) /\ evictionOrder s = Some (p ++ n :: r) /\
    evictionOrder s' = Some (p ++ r) /\ inMM s' n = false /\ walkIt (total s') s' it = Some r.
Proof. exact evict_continues. Qed.
Print Assumptions C06_evict_continues.

(** The requirement on replace: the new item must be newly allocated.  remove() leaves the hot, cold
    and tail flags set and replace() does not clear them, so replacing by an item that was in the
    container before corrupts it: here item 5 is removed, and still offered for eviction. *)
Theorem C06_replace_by_used_item_refuted :
  ~ (forall c0 now cs s outs n, good_pct c0 = true -> mexecs (initMM c0 now) cs = Some (s, outs) ->
      (exists l, evictionOrder s = Some l /\ In n l) -> inMM s n = true).
Proof.
  intros X.
  pose (h := [MAdd 1 1; MAdd 2 2; MAdd 3 3; MAdd 4 4; MAccessLocked 1 5; MAdd 5 6; MRemove 5; MReplace 1 5; MRemove 5]).
  pose (c := mkConf 0 (fun a => a) true true false 30 30 0 0).
  assert (E : exists s outs, mexecs (initMM c 0) h = Some (s, outs) /\ evictionOrder s = Some [2; 3; 4; 5] /\ inMM s 5 = false).
  { eexists _, _. split; [vm_compute; reflexivity|]. split; vm_compute; reflexivity. }
  destruct E as (s & outs & E & O & F). specialize (X c 0%N h s outs 5 eq_refl E).
  rewrite X in F; [discriminate|]. exists [2; 3; 4; 5]. split; [exact O|cbn; auto].
Qed.
Print Assumptions C06_replace_by_used_item_refuted.

(** Non-vacuity: tail tracking, a restart, a refresh-time recomputation, promotions, overflow,
    replace, eviction and remove. *)
Definition demo_conf : conf := mkConf 10 (fun a => a / 2)%N true true false 34 33 1 100.
Definition demo_hist : list mcall :=
  [MAdd 1 1; MAdd 2 2; MAdd 3 3; MAdd 4 4; MAccessLocked 1 5; MAdd 5 6; MRecordAccess 2 false 20; MAdd 6 21;
   MRestart 1 30; MRecordAccess 6 true 32; MRecordAccess 3 false 300; MAdd 7 301; MAdd 8 302; MFresh 9; MReplace 1 9;
   MEvict 4; MAccessLocked 5 310; MRemove 2].
Example C06_demo : exists s outs, reached demo_conf 0 demo_hist s outs /\
  evictionOrder s = Some [9; 6; 3; 7; 8; 5] /\ nth 15 outs MUnit = MPtr (Some 9) /\ isWarm s 5 /\ bounded s /\
  size (lst s WarmTail) = 1 /\ size (lst s ColdTail) = 1.
Proof.
  eexists _, _. split; [split; [reflexivity|split; [|vm_compute; reflexivity]]|].
  - vm_compute. intuition (auto; discriminate).
  - vm_compute. repeat split; reflexivity || lia.
Qed.
