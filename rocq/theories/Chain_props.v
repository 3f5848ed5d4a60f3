(** * C15: chained allocations are ordered, owned by exactly one item, and released exactly once. *)
From Verif Require Import Bytes DList_model DList_spec Chain_model Chain_spec Chain_proofs9 Chain_proofs8.

(** Every sequence of calls that respects the API runs without undefined behaviour (no null or dead
    memory is touched, no count underflows, no loop fails to end), answers exactly what the
    specification answers, and ends in the state of the specification: chains, handles, and the log
    of allocations, callbacks and releases. *)
Theorem C15_refines m cs : legals m init_w cs ->
  exists s, execs (init m) cs = Some (s, snd (spec_execs init_w cs)) /\ shows s (fst (spec_execs init_w cs)).
Proof. exact (refines m cs). Qed.
(** Adding puts the item first, popping returns the item added last; other chains do not change. *)
Theorem C15_last_in_first_out m cs s outs p c k : reached m cs s outs -> legal m (fst (spec_execs init_w cs)) (Add p c) -> viewChain s p = Some k ->
  exists s1 s2, exec s (Add p c) = Some (s1, OOk) /\ viewChain s1 p = Some (c :: k) /\
    exec s1 (Pop p) = Some (s2, OItem c) /\ viewChain s2 p = Some k /\
    forall p', p' <> p -> live s p' = true -> ischained (it s p') = false -> viewChain s1 p' = viewChain s p' /\ viewChain s2 p' = viewChain s p'.
Proof. exact (add_pop m cs s outs p c k). Qed.
(** A transfer moves the whole chain in order, frees nothing, and the items name the new parent. *)
Theorem C15_transfer_moves_all m cs s outs p p2 k : reached m cs s outs -> legal m (fst (spec_execs init_w cs)) (Transfer p p2) ->
  viewChain s p = Some k -> viewChain s p2 = Some [] ->
  exists s1, exec s (Transfer p p2) = Some (s1, OOk) /\ viewChain s1 p = Some [] /\ viewChain s1 p2 = Some k /\
    (forall c, In c k -> parent (it s1 c) = p2) /\ log s1 = log s.
Proof. exact (transfer_all m cs s outs p p2 k). Qed.
(** Replacing an item keeps its place and gives the old item back with the only handle. *)
Theorem C15_replace_in_place m cs s outs p o n l r : reached m cs s outs -> legal m (fst (spec_execs init_w cs)) (Replace o n p) ->
  viewChain s p = Some (l ++ o :: r) -> live s n = true -> ischained (it s n) = true -> parent (it s n) = p ->
  exists s1, exec s (Replace o n p) = Some (s1, OItem o) /\ viewChain s1 p = Some (l ++ n :: r) /\
    live s1 o = true /\ refs (it s1 o) = 1 /\ parent (it s1 o) = p /\ log s1 = log s.
Proof. exact (replace_in_place m cs s outs p o n l r). Qed.
(** Dropping the last handle of an item that is not in the cache: the callback sees the chain, then the
    chain and the item are released, in this order, and nothing else dies. *)
Theorem C15_release_with_chain m cs s outs p k nas : reached m cs s outs -> live s p = true -> ischained (it s p) = false -> viewChain s p = Some k ->
  refs (it s p) = 1 -> acc (it s p) = false ->
  exists s1, exec s (Drop p nas) = Some (s1, OOk) /\
    log s1 = EFree p :: rev (map EFree k) ++ (if nas then [] else [ECb p k]) ++ log s /\
    (forall x, live s1 x = live s x && negb (memb x (p :: k))).
Proof. exact (death m cs s outs p k nas). Qed.
(** An eviction that picks any item of the family of an unused parent kills the whole family, hands the
    picked memory over, and the callback sees the chain. *)
Theorem C15_evict_with_chain m cs s outs p k r : reached m cs s outs -> live s p = true -> ischained (it s p) = false -> viewChain s p = Some k ->
  refs (it s p) = 0 -> In r (p :: k) ->
  exists s1, exec s (Evict r) = Some (s1, OBool true) /\
    log s1 = freed (Some r) p :: rev (map (freed (Some r)) k) ++ ECb p k :: log s /\
    (forall x, live s1 x = live s x && negb (memb x (p :: k))).
Proof. exact (evicted m cs s outs p k r). Qed.
(** Memory is released exactly once: the events of each address alternate between allocation and
    release, callbacks see only memory in use, and what is in use is what the events say. *)
Theorem C15_released_once m cs s outs : reached m cs s outs -> forall n, lifelog n (log s) = Some (live s n).
Proof. exact (reached_life m cs s outs). Qed.
(** No leak, no sharing: a live chained item is in the chain of exactly one live item, once, or someone
    holds a handle to it. *)
Theorem C15_one_owner m cs s outs c : reached m cs s outs -> live s c = true -> ischained (it s c) = true ->
  (refs (it s c) <> 0 /\ inmm (it s c) = false /\ forall p k, live s p = true -> ischained (it s p) = false -> viewChain s p = Some k -> ~ In c k) \/
  exists p k, live s p = true /\ ischained (it s p) = false /\ viewChain s p = Some k /\ In c k /\ NoDup k /\
    forall p' k', live s p' = true -> ischained (it s p') = false -> viewChain s p' = Some k' -> In c k' -> p' = p.
Proof. exact (no_leak m cs s outs c). Qed.

(** * The hypotheses are met *)
Definition view_of (x : option (cache * list out)) (p : node) := match x with Some (s, _) => viewChain s p | None => None end.
Definition outs_of (x : option (cache * list out)) := match x with Some (_, o) => Some o | None => None end.
Definition log_of (x : option (cache * list out)) := match x with Some (s, _) => Some (log s) | None => None end.
Definition demo : list call :=
  [AllocParent 0; AllocChild 0 1; Add 0 1; AllocChild 0 2; Add 0 2; AllocChild 0 3; Add 0 3; Insert 0;
   AllocChild 0 4; Replace 2 4 0; Drop 2 false; View 0; AllocParent 5; Transfer 0 5; Drop 0 false; Drop 5 false;
   MoveRegular 5 6 false; MoveChained 4 7; Hold 6; Pop 6; Drop 3 false; Drop 6 false].
Ltac legs := cbn; unfold who, updf; cbn; repeat match goal with
  | |- _ /\ _ => split
  | |- exists _, _ => eexists
  | |- True => exact Logic.I
  | |- _ \/ _ => first [left; solve [legs] | right; solve [legs]]
  | |- _ < _ => lia
  | |- _ <> _ => discriminate
  | |- _ = _ => reflexivity
  end.
Example C15_demo_legal : legals 10 init_w demo.
Proof. unfold demo. legs. Qed.
Example C15_demo_runs :
  outs_of (execs (init 10) demo) = Some (snd (spec_execs init_w demo)) /\ view_of (execs (init 10) demo) 6 = Some [7; 1].
Proof. split; vm_compute; reflexivity. Qed.
Example C15_demo_evict :
  log_of (execs (init 10) (demo ++ [Evict 7])) =
    option_map (fun l => EFree 6 :: EFree 1 :: ERecycle 7 :: ECb 6 [7; 1] :: l) (log_of (execs (init 10) demo)).
Proof. vm_compute. reflexivity. Qed.

(** * What does not hold *)
(** The claim without the requirement that the child was allocated for, or popped from, this very parent:
    an added item is in the chain.  addChainedItem does not check it.  A child popped before a transfer
    still names the old parent: adding it to the new parent succeeds, but it is in no chain and nobody
    holds it, and it outlives both parents; the chain of an unrelated item later allocated at the old
    parent's address then contains it. *)
Definition stale : list call :=
  [AllocParent 0; AllocParent 1; AllocChild 0 2; Add 0 2; AllocChild 0 3; Add 0 3; Pop 0; Transfer 0 1; Add 1 3].
Theorem C15_add_any_child_refuted :
  outs_of (execs (init 10) stale) = Some [OItem 0; OItem 1; OItem 2; OOk; OItem 3; OOk; OItem 3; OOk; OOk] /\
  view_of (execs (init 10) stale) 1 = Some [2] /\ view_of (execs (init 10) stale) 0 = Some [] /\
  (exists s os, execs (init 10) (stale ++ [Drop 0 false; Drop 1 false]) = Some (s, os) /\ live s 3 = true /\ live s 0 = false /\ live s 1 = false) /\
  view_of (execs (init 10) (stale ++ [Drop 0 false; Drop 1 false; AllocParent 0; AllocChild 0 4; Add 0 4])) 0 = Some [4; 3].
Proof.
  split; [vm_compute; reflexivity|]. split; [vm_compute; reflexivity|]. split; [vm_compute; reflexivity|]. split.
  - assert (X : match execs (init 10) (stale ++ [Drop 0 false; Drop 1 false]) with
                | Some (s, _) => live s 3 && negb (live s 0) && negb (live s 1) | None => false end = true) by (vm_compute; reflexivity).
    destruct (execs _ _) as [[s os]|]; [|discriminate X]. exists s, os. destruct (live s 3), (live s 0), (live s 1); try discriminate X; auto.
  - vm_compute. reflexivity.
Qed.
(** The claim that an item's callback always sees its chain: not if a slab release moves the item and the
    key is replaced or removed meanwhile.  The chain is released without any callback, and the callback
    of the item sees an empty chain. *)
Definition raced : list call := [AllocParent 0; AllocChild 0 1; Add 0 1; AllocChild 0 2; Add 0 2; Insert 0; Drop 0 false; MoveRegular 0 3 true].
Theorem C15_callback_sees_chain_refuted :
  legals 10 init_w raced /\
  log_of (execs (init 10) raced) =
    option_map (fun l => EFree 0 :: ECb 0 [] :: EFree 3 :: EFree 1 :: EFree 2 :: EAlloc 3 :: l) (log_of (execs (init 10) (removelast raced))) /\
  view_of (execs (init 10) (removelast raced)) 0 = Some [2; 1].
Proof. split; [unfold raced; legs|]. split; vm_compute; reflexivity. Qed.

Print Assumptions C15_refines.
Print Assumptions C15_last_in_first_out.
Print Assumptions C15_transfer_moves_all.
Print Assumptions C15_replace_in_place.
Print Assumptions C15_release_with_chain.
Print Assumptions C15_evict_with_chain.
Print Assumptions C15_released_once.
Print Assumptions C15_one_owner.
Print Assumptions C15_add_any_child_refuted.
Print Assumptions C15_callback_sees_chain_refuted.
