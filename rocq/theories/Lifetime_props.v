(** C16: an item's memory is reused only after the last handle is gone, and exactly once. *)
From Coq Require Import List Arith Bool.
Import ListNotations.
From Verif Require Import Lifetime_model Lifetime_spec Lifetime_proofs Lifetime_proofs7 Lifetime_proofs8.

(** [reach maxRef true s]: [s] is the state after some interleaving of any number of threads
    that allocate, find, insert, insertOrReplace, remove (by key or handle), expire, clone and
    release handles, evict and move items, where no two threads insert one item at the same time
    and a handle is cloned only once its item has been inserted. *)

(** No step ever dereferences memory that is not handed out, no reference count underflows, no
    item is released that is still referenced, no absent node is unlinked. *)
Theorem C16_no_use_after_free : forall maxRef s, reach maxRef true s ->
  forall a, ~ In (EUAF a) (tr s) /\ ~ In (EBad a) (tr s).
Proof. exact (fun m s R => no_bad s (reach_inv m s R)). Qed.
Print Assumptions C16_no_use_after_free.

(** Whatever a handle, the index or the eviction container refers to is handed out. *)
Theorem C16_references_are_live : forall maxRef s, reach maxRef true s ->
  forall a, held s a \/ indexed s a \/ evictable s a -> alive (it s a) = true.
Proof.
  exact (fun m s R a H => match H with
    | or_introl x => held_alive s a (reach_inv m s R) x
    | or_intror (or_introl x) => indexed_alive s a (reach_inv m s R) x
    | or_intror (or_intror x) => evictable_alive s a (reach_inv m s R) x end).
Qed.
Print Assumptions C16_references_are_live.

(** Memory that has been given back is referred to by nobody, then and ever after. *)
Theorem C16_freed_is_unreachable : forall maxRef s, reach maxRef true s ->
  forall a, In (EFree a) (tr s) -> ~ held s a /\ ~ indexed s a /\ ~ evictable s a.
Proof. exact (fun m s R a => freed_unreachable s a (reach_inv m s R)). Qed.
Print Assumptions C16_freed_is_unreachable.

(** Memory is handed out at most once under a name, given back at most once, and only after it
    was handed out; it is live in between. *)
Theorem C16_freed_once : forall maxRef s, reach maxRef true s -> forall a,
  times (allocOf a) (tr s) <= 1 /\ times (freeOf a) (tr s) <= times (allocOf a) (tr s) /\
  (alive (it s a) = true <-> times (allocOf a) (tr s) = 1 /\ times (freeOf a) (tr s) = 0).
Proof. exact (fun m s R a => freed_once s a (reach_inv m s R)). Qed.
Print Assumptions C16_freed_once.

(** The destructor runs at most once; for an item that has been freed it has run exactly if the
    item was ever made accessible and its content was not moved away; and it runs only when no
    handle, index entry or eviction-container entry is left. *)
Theorem C16_destructor_once : forall maxRef s, reach maxRef true s -> forall a,
  times (dtorOf a) (tr s) <= 1 /\
  (In (EFree a) (tr s) -> (times (dtorOf a) (tr s) = 1 <-> published s a /\ ~ movedAway s a)) /\
  (In (EDtor a) (tr s) -> ~ held s a /\ ~ indexed s a /\ ~ evictable s a /\ published s a /\ ~ movedAway s a).
Proof.
  exact (fun m s R a => conj (dtor_at_most_once s a (reach_inv m s R))
    (conj (dtor_iff s a (reach_inv m s R)) (dtor_unreachable s a (reach_inv m s R)))).
Qed.
Print Assumptions C16_destructor_once.

(** Nothing leaks: when no call is running, memory that is still handed out has a handle or can
    be found by key. *)
Theorem C16_no_leak : forall maxRef s, reach maxRef true s -> settled s ->
  forall a, alive (it s a) = true -> held s a \/ indexed s a.
Proof. exact (fun m s R Q a => no_leak s a (reach_inv m s R) Q). Qed.
Print Assumptions C16_no_leak.

(** When no call is running, the reference count of an item is the number of handles users hold
    to it, and an item in the eviction container can be found by key. *)
Theorem C16_refcount_exact : forall maxRef s, reach maxRef true s -> quiet s -> forall a,
  ref (it s a) = length (filter (fun h => ideq (fst h) a) (hs s)) /\ (evictable s a -> indexed s a).
Proof. exact (fun m s R Q a => quiet_refs s a (reach_inv m s R) Q). Qed.
Print Assumptions C16_refcount_exact.

(** The index maps a key to an item of that key. *)
Theorem C16_index_key : forall maxRef s, reach maxRef true s ->
  forall k a, idx s k = Some a -> ikey a = k.
Proof. exact (fun m s R k a => index_key s k a (reach_inv m s R)). Qed.
Print Assumptions C16_index_key.

(** From every reachable state the running calls can end, with no new call made: no deadlock
    between evictions, moves and the calls that wait for a move. *)
Theorem C16_calls_can_end : forall maxRef s, reach maxRef true s ->
  exists ls s', onlySteps ls /\ exec maxRef true s ls = Some s' /\ settled s'.
Proof. exact (fun m s R => quiesces m s (reach_inv m s R)). Qed.
Print Assumptions C16_calls_can_end.

(** And under every schedule they use a bounded number of effective steps. *)
Theorem C16_steps_bounded : forall maxRef s, reach maxRef true s ->
  forall ls k s', onlySteps ls -> progress maxRef s ls k s' -> k <= 25 * length (thr s).
Proof.
  exact (fun m s R ls k s' O H =>
    Nat.le_trans _ _ _ (Nat.le_trans _ _ _ (Nat.le_add_r k (srank s'))
       (effective_bound m s ls k s' (reach_inv m s R) O H)) (srank_le s)).
Qed.
Print Assumptions C16_steps_bounded.

(** ** Examples: the hypotheses are met by runs that reach every part of the model. *)
Lemma exec_reach m st s0 ls s : reach m st s0 -> exec m st s0 ls = Some s -> reach m st s.
Proof.
  revert s0. induction ls as [|l r IH]; intros s0 R H; cbn in H; [congruence|].
  destruct (step m st s0 l) as [s1|] eqn:E; [|discriminate]. eapply IH; [|exact H]. econstructor; eauto.
Qed.

Definition go (i n : nat) : list label := repeat (LStep i CA) n.
Definition no (i n : nat) : list label := repeat (LStep i CB) n.
(* thread [i]: allocate key [k]; the new handle is number 0 *)
Definition alloc (i k : nat) : list label := LCall i (CAlloc k) :: go i 2.
Definition insert (i : nat) : list label := LCall i (CInsert 0) :: go i 4.
Definition release (i n : nat) : list label := LCall i (CRelease n) :: go i 1.
Definition result (m : nat) (st : bool) (nt : nat) (ls : list label) : option (list event * list hdl * list tst) :=
  option_map (fun s => (tr s, hs s, thr s)) (exec m st (init nt) ls).

(* insert, find by another thread, remove, last release frees *)
Example C16_example_remove :
  result 9 true 2 (alloc 0 7 ++ insert 0 ++ LCall 1 (CFind 7) :: go 1 2 ++ LCall 0 (CRemove 0) :: go 0 2 ++
                   release 0 0 ++ release 1 0 ++ go 1 2)
  = Some ([EFree (7, 0); EDtor (7, 0); EIns (7, 0); EAlloc (7, 0)], [], [TIdle; TIdle]).
Proof. vm_compute. reflexivity. Qed.

(* a find meets an item that is being moved, waits, and gets the new allocation *)
Example C16_example_move :
  result 9 true 2 (alloc 0 7 ++ insert 0 ++ release 0 0 ++ LCall 0 (CMove (7, 0)) :: go 0 4 ++
                   LCall 1 (CFind 7) :: go 1 1 ++ go 0 6 ++ go 1 1)
  = Some ([EFree (7, 0); EMoved (7, 0) (7, 1); EAlloc (7, 1); EIns (7, 0); EAlloc (7, 0)],
          [((7, 1), false)], [TIdle; TIdle]).
Proof. vm_compute. reflexivity. Qed.

(* an allocation evicts the item *)
Example C16_example_evict :
  result 9 true 2 (alloc 0 7 ++ insert 0 ++ release 0 0 ++ LCall 1 (CAlloc 8) :: LStep 1 (CPick (7, 0)) :: go 1 6)
  = Some ([EAlloc (8, 1); EFree (7, 0); EDtor (7, 0); EIns (7, 0); EAlloc (7, 0)],
          [((8, 1), true)], [TIdle; TIdle]).
Proof. vm_compute. reflexivity. Qed.

(* insertOrReplace hands the replaced item back; never-inserted memory is freed without destructor *)
Example C16_example_replace :
  result 9 true 1 (alloc 0 7 ++ insert 0 ++ release 0 0 ++ alloc 0 7 ++ LCall 0 (CInsertOrReplace 0) :: go 0 5 ++
                   release 0 0 ++ go 0 2 ++ alloc 0 7 ++ release 0 0 ++ go 0 2)
  = Some ([EFree (7, 2); EAlloc (7, 2); EFree (7, 0); EDtor (7, 0); EIns (7, 1); EAlloc (7, 1); EIns (7, 0); EAlloc (7, 0)],
          [((7, 1), false)], [TIdle]).
Proof. vm_compute. reflexivity. Qed.

(** ** What does not hold *)

(** An accessible item need not stay evictable.  A remove(handle) of an item that another thread
    is inserting again takes it out of the eviction container after it became accessible: *)
Definition removeInsertRun : list label :=
  alloc 0 7 ++ insert 0 ++ LCall 1 (CFind 7) :: go 1 2 ++ LCall 0 (CRemove 0) :: go 0 2 ++
  LCall 1 (CRemove 1) :: go 1 1 ++ insert 0 ++ go 1 1 ++ release 0 0 ++ release 0 0.
Theorem C16_remove_insert_race_refuted : exists ls s a, exec 9 true (init 2) ls = Some s /\ quiet s /\
  indexed s a /\ hs s = [] /\ ~ evictable s a.
Proof.
  exists removeInsertRun. eexists. exists (7, 0). split; [vm_compute; reflexivity|].
  split; [intros t [<-|[<-|[]]]; reflexivity|]. split; [exists 7; reflexivity|].
  split; [reflexivity|]. intros H. vm_compute in H. discriminate.
Qed.

(** Waiters wait for a key, not for an item: an insertOrReplace that waits for the move of the
    item it replaced can be woken by the move of a later item of the same key, which it then
    takes for the replaced one and removes from the eviction container. *)
Definition twoMovesRun : list label :=
  alloc 0 1 ++ insert 0 ++ release 0 0 ++ alloc 1 1 ++ LCall 0 (CMove (1, 0)) ::
  LCall 1 (CInsertOrReplace 0) :: go 1 4 ++ alloc 2 1 ++ LCall 2 (CInsertOrReplace 0) :: go 2 5 ++
  release 2 0 ++ release 2 0 ++ LCall 3 (CMove (1, 2)) :: go 3 10 ++ go 1 1 ++ no 0 8 ++
  release 1 0 ++ release 1 0 ++ go 1 2.
Theorem C16_move_wakeup_race_refuted : exists ls s a, exec 9 true (init 4) ls = Some s /\ quiet s /\
  indexed s a /\ hs s = [] /\ ~ evictable s a.
Proof.
  exists twoMovesRun. eexists. exists (1, 3). split; [vm_compute; reflexivity|].
  split; [intros t [<-|[<-|[<-|[<-|[]]]]]; reflexivity|]. split; [exists 1; reflexivity|].
  split; [reflexivity|]. intros H. vm_compute in H. discriminate.
Qed.

(** A waiter whose handle cannot be cloned because the reference count is full is never woken. *)
Theorem C16_waiter_hangs_refuted : exists ls s h, exec 2 true (init 3) ls = Some s /\
  settled s /\ In (THung h) (thr s).
Proof.
  exists (alloc 0 7 ++ insert 0 ++ release 0 0 ++ LCall 0 (CMove (7, 0)) :: go 0 4 ++
          LCall 1 (CFind 7) :: go 1 1 ++ LCall 2 (CFind 7) :: go 2 1 ++ go 0 6 ++ go 1 1).
  eexists. exists None. split; [vm_compute; reflexivity|]. split.
  - intros t [<-|[<-|[<-|[]]]]; eauto.
  - right. right. left. reflexivity.
Qed.

(** The contract on callers is needed: a clone of a handle to an item not yet inserted keeps the
    mark "nascent", and if it is released last the destructor of an inserted item is skipped. *)
Theorem C16_nascent_clone_refuted : exists ls s a, exec 9 false (init 1) ls = Some s /\
  In (EFree a) (tr s) /\ published s a /\ ~ movedAway s a /\ times (dtorOf a) (tr s) = 0.
Proof.
  exists (alloc 0 7 ++ LCall 0 (CClone 0) :: insert 0 ++ LCall 0 (CRemove 0) :: go 0 2 ++ release 0 0 ++ release 0 0 ++ go 0 2).
  eexists. exists (7, 0). split; [vm_compute; reflexivity|].
  split; [left; reflexivity|]. split; [left; cbn; tauto|]. split; [|reflexivity].
  intros [n H]. cbn in H. intuition discriminate.
Qed.

(** And three threads that insertOrReplace and remove one item at the same time leave the index
    with a freed item. *)
Definition sameItemRun : list label :=
  alloc 0 7 ++ LCall 0 (CClone 0) :: LCall 0 (CClone 0) ::
  LCall 0 (CInsertOrReplace 0) :: go 0 3 ++           (* linked, about to enter the index *)
  LCall 2 (CRemove 0) :: go 2 2 ++                     (* not accessible yet; unlinked *)
  LCall 1 (CInsertOrReplace 1) :: go 1 3 ++            (* linked again, about to enter the index *)
  go 0 1 ++ go 1 2 ++                                  (* in the index; replaces itself *)
  release 0 0 ++ release 0 0 ++ release 0 0 ++ release 0 0 ++ go 0 2 ++
  LCall 1 (CFind 7) :: go 1 1.
Theorem C16_concurrent_insert_refuted : exists ls s a, exec 9 false (init 3) ls = Some s /\ In (EUAF a) (tr s).
Proof.
  exists sameItemRun. eexists. exists (7, 0). split; [vm_compute; reflexivity|]. left. reflexivity.
Qed.
