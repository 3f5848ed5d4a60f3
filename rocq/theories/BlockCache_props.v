(** C26: the large-object flash engine behaves like a map with evictions, under every interleaving of
    inserts, lookups, removes, region reclaims (with reinsertion) and cleanups, for every
    configuration the engine accepts, every placement of entries and every device read failure the
    code notices.  Runs, events: BlockCache_model; stored, lastWrite, safe, during, callTrace:
    BlockCache_spec. *)
From Coq Require Import List NArith Bool Lia.
From Verif Require Import Bytes AddrCode_model BlockCache_model BlockCache_spec BlockCache_proofs6.
Import ListNotations.
Local Open Scope N_scope.

(** A lookup that finds a value returns what was stored under its key - the value last inserted for
    that key, not removed since - at some moment between call and return. *)
Theorem C26_lookup_found c m s T1 i k v la T2 : okCfg c -> run c m s (T1 ++ ERes i (Found v la) :: T2) -> safe (T1 ++ ERes i (Found v la) :: T2) ->
  In (ECall i (OLookup k)) (T1 ++ ERes i (Found v la) :: T2) ->
  during i (OLookup k) T1 (fun A => stored c k A = Some (v, la) /\ lastWrite k A = Some v).
Proof. intros. eapply found_ok; eauto. Qed.
(** A lookup that finds nothing ran while nothing was stored under its key. *)
Theorem C26_lookup_missing c m s T1 i k T2 : okCfg c -> run c m s (T1 ++ ERes i NotFound :: T2) -> safe (T1 ++ ERes i NotFound :: T2) ->
  In (ECall i (OLookup k)) (T1 ++ ERes i NotFound :: T2) -> during i (OLookup k) T1 (fun A => stored c k A = None).
Proof. intros. eapply missing_ok; eauto. Qed.
(** The same for removes that find nothing; one that says Removed took an item out (of its key, or of
    one the index cannot tell from it). *)
Theorem C26_remove_missing c m s T1 i k T2 : okCfg c -> run c m s (T1 ++ ERes i NotFound :: T2) -> safe (T1 ++ ERes i NotFound :: T2) ->
  In (ECall i (ORemove k)) (T1 ++ ERes i NotFound :: T2) -> during i (ORemove k) T1 (fun A => stored c k A = None).
Proof. intros. eapply rm_missing_ok; eauto. Qed.
Theorem C26_removed c m s T1 i k T2 : okCfg c -> run c m s (T1 ++ ERes i Removed :: T2) -> safe (T1 ++ ERes i Removed :: T2) ->
  In (ECall i (ORemove k)) (T1 ++ ERes i Removed :: T2) -> during i (ORemove k) T1 (fun A => holder c (tk c k) A <> None).
Proof. intros. eapply removed_ok; eauto. Qed.
(** Every call does exactly what it reports, once: each call number has one call, and its events are a
    beginning of one of the histories in [callTrace]. *)
Theorem C26_calls c m s T i : run c m s T -> filter (mine i) T = [] \/ exists o l, callTrace i o (filter (mine i) T ++ l).
Proof. exact (run_calls c m s T i). Qed.
(** Reclaim and cleanup evict only what is stored - never an entry that was overwritten or removed
    meanwhile - and hand the destructor the value last inserted. *)
Theorem C26_eviction c m s T1 k v dt T2 : okCfg c -> run c m s (T1 ++ EEvict k v dt :: T2) -> safe (T1 ++ EEvict k v dt :: T2) ->
  exists v' la, stored c k T1 = Some (v', la) /\ lastWrite k T1 = Some v' /\ (dt = true -> v = v').
Proof. intros. eapply evict_good; eauto. Qed.
(** Reinsertion keeps the value. *)
Theorem C26_reinsertion c m s T1 k T2 : okCfg c -> run c m s (T1 ++ EReins k :: T2) -> safe (T1 ++ EReins k :: T2) ->
  exists v la, stored c k T1 = Some (v, la) /\ stored c k (T1 ++ [EReins k]) = Some (v, 0).
Proof. intros. eapply reins_good; eauto. Qed.
(** The destructor called by a remove gets the value last inserted under that key at some moment of
    the remove. *)
Theorem C26_remove_destructor c m s T1 k v T2 : okCfg c -> run c m s (T1 ++ EDtorRem k v :: T2) -> safe (T1 ++ EDtorRem k v :: T2) ->
  exists i, during i (ORemove k) T1 (fun A => lastWrite k A = Some v).
Proof. intros. eapply dtor_good; eauto. Qed.
(** A lookup that gives up on an unreadable entry drops an item that is there. *)
Theorem C26_drop c m s T1 k T2 : okCfg c -> run c m s (T1 ++ EDrop k :: T2) -> safe (T1 ++ EDrop k :: T2) -> holder c (tk c k) T1 <> None.
Proof. intros. eapply drop_good; eauto. Qed.
(** Only the fixed-size index displaces items of other keys, and only items that are there. *)
Theorem C26_displaced c m s T1 t T2 : okCfg c -> run c m s (T1 ++ EDispl t :: T2) -> safe (T1 ++ EDispl t :: T2) ->
  holder c t T1 <> None /\ displaces c = true.
Proof. intros. eapply displ_good; eauto. Qed.
(** What is stored is what was written last, in any history. *)
Theorem C26_stored_is_last c k T v la : stored c k T = Some (v, la) -> lastWrite k T = Some v.
Proof. exact (stored_last c k T v la). Qed.
(** Both indexes are good enough: the sparse one keeps size hints, the fixed-size one rounds them up,
    for regions up to 28.2 MB (above that its conversion is undefined behaviour, C28). *)
Theorem C26_sparse_index c : valid_config (devSize c) (cacheSize c) (regionSize c) = true -> devSize c < 2 ^ 63 ->
  cacheSize c < calcAllocAlignSize (devSize c) * 2 ^ 32 -> (forall h, storedHint c h = h) -> okCfg c.
Proof. exact (sparse_ok c). Qed.
Theorem C26_fixed_index c : valid_config (devSize c) (cacheSize c) (regionSize c) = true -> devSize c < 2 ^ 63 ->
  cacheSize c < calcAllocAlignSize (devSize c) * 2 ^ 32 -> regionSize c <= 55157 * 512 ->
  (forall h h', packedSizeHint h = Some h' -> storedHint c h = h') -> okCfg c.
Proof. exact (packed_okCfg c). Qed.

Print Assumptions C26_lookup_found.
Print Assumptions C26_lookup_missing.
Print Assumptions C26_remove_missing.
Print Assumptions C26_removed.
Print Assumptions C26_calls.
Print Assumptions C26_eviction.
Print Assumptions C26_reinsertion.
Print Assumptions C26_remove_destructor.
Print Assumptions C26_drop.
Print Assumptions C26_displaced.
Print Assumptions C26_stored_is_last.
Print Assumptions C26_sparse_index.
Print Assumptions C26_fixed_index.

(** ** Concrete runs *)
Definition sumN (l : list N) : N := fold_right N.add 0 l.
(** two regions of 2 KB; the index sees two bits of the hash, so that the keys [1] and [5] collide *)
Definition cfg0 : cfg := {| devSize := 8192; cacheSize := 4096; regionSize := 2048; checksumData := true; preciseRemove := false;
  destructor := true; allowRead := true; keyHash := sumN; token := fun h => h mod 4; crc := sumN; storedHint := fun h => h; displaces := false |}.
Example cfg0_ok : okCfg cfg0.
Proof. apply C26_sparse_index; try reflexivity. Qed.
Definition st (i n : nat) : list label := repeat (LStep i (mkC 0 0 None None)) n.
Definition go (i b : nat) (r : N) : label := LStep i (mkC b r None None).
(** keys [1], [5] (displaces [1]) and [2] go into region 0; region 0 is reclaimed: [2] is reinserted
    into region 1, [5] is evicted, [1] is not in the index any more; [2] is found in its new place and
    then removed *)
Definition run0 : list label :=
  LTake 0 :: LCall (OInsert [1] [7; 7] 3) :: go 0 0 0 :: st 0 3 ++ LCall (OInsert [5] [8] 4) :: go 1 0 0 :: st 1 3 ++
  LCall (OInsert [2] [3] 9) :: go 2 0 0 :: st 2 3 ++ LCall (OLookup [1]) :: st 3 5 ++ LCall (OLookup [5]) :: st 4 5 ++
  LSeal 0 :: LTake 1 :: LJob false 0 :: st 5 3 ++ go 5 4 1 :: st 5 3 ++ st 5 1 ++ go 5 0 0 :: st 5 1 ++ st 5 5 ++
  LCall (OLookup [2]) :: st 6 5 ++ LCall (ORemove [2]) :: st 7 6.
Lemma exec_trace c m ls T : option_map snd (exec c (init m) ls []) = Some T -> exists s, run c m s T.
Proof.
  destruct (exec c (init m) ls []) as [(s, T')|] eqn:E; [|discriminate]. intros [= <-]. exists s. eapply exec_run; [apply BlockCache_model.run0|exact E].
Qed.
Definition trace0 : list event :=
  [ECall 0 (OInsert [1] [7; 7] 3); EPut 0 [1] [7; 7] 3; ERes 0 Stored; ECall 1 (OInsert [5] [8] 4); EPut 1 [5] [8] 4; ERes 1 Stored;
   ECall 2 (OInsert [2] [3] 9); EPut 2 [2] [3] 9; ERes 2 Stored; ECall 3 (OLookup [1]); ERes 3 NotFound; ECall 4 (OLookup [5]); ERes 4 (Found [8] 4);
   EReins [2]; EEvict [5] [8] true; ECall 6 (OLookup [2]); ERes 6 (Found [3] 0); ECall 7 (ORemove [2]); EDel 7 [2]; EDtorRem [2] [3]; ERes 7 Removed].
Example C26_conditions_met : okCfg cfg0 /\ (exists s, run cfg0 (fun _ _ => 0) s trace0) /\ safe trace0 /\
  stored cfg0 [1] (firstn 9 trace0) = None /\ stored cfg0 [2] (firstn 9 trace0) = Some ([3], 9) /\ stored cfg0 [2] trace0 = None.
Proof.
  split; [exact cfg0_ok|]. split; [apply exec_trace with (ls := run0); vm_compute; reflexivity|]. split; [|vm_compute; auto].
  intros e H. cbn in H. repeat destruct H as [<-|H]; try reflexivity. contradiction.
Qed.

(** With the fixed-size index: the insert of [2] displaces [1], which is not found any more. *)
Definition cfg1 : cfg := {| devSize := 8192; cacheSize := 4096; regionSize := 2048; checksumData := true; preciseRemove := false;
  destructor := true; allowRead := true; keyHash := sumN; token := fun h => h mod 4; crc := sumN;
  storedHint := fun h => match packedSizeHint h with Some h' => h' | None => h end; displaces := true |}.
Definition run1 : list label :=
  LTake 0 :: LCall (OInsert [1] [7; 7] 3) :: go 0 0 0 :: st 0 3 ++ LCall (OInsert [2] [8] 4) :: go 1 0 0 :: st 1 1 ++ go 1 1 1 :: st 1 1 ++
  LCall (OLookup [1]) :: st 2 2 ++ LCall (OLookup [2]) :: st 3 5.
Example C26_displacement_met : okCfg cfg1 /\ (exists s T, run cfg1 (fun _ _ => 0) s T /\ safe T /\ T =
  [ECall 0 (OInsert [1] [7; 7] 3); EPut 0 [1] [7; 7] 3; ERes 0 Stored; ECall 1 (OInsert [2] [8] 4); EDispl 1; EPut 1 [2] [8] 4; ERes 1 Stored;
   ECall 2 (OLookup [1]); ERes 2 NotFound; ECall 3 (OLookup [2]); ERes 3 (Found [8] 4)]).
Proof.
  split.
  - apply C26_fixed_index; try reflexivity; [vm_compute; discriminate|]. intros h h' E. cbn [storedHint cfg1]. now rewrite E.
  - destruct (exec_trace cfg1 (fun _ _ => 0) run1 _ ltac:(vm_compute; reflexivity)) as (s & R). eexists s, _. split; [exact R|]. split; [|reflexivity].
    intros e H. cbn in H. repeat destruct H as [<-|H]; try reflexivity. contradiction.
Qed.

(** ** What the conditions are for *)
(** A region that cannot be read at reclaim keeps its entries in the index.  Here the item [1] is in
    it; the value of the next item in the region, [2], contains what looks like an entry of [1], and a
    lookup of [1] returns a value never inserted for it. *)
Definition forged : list N := [9] ++ repeat 0 478 ++ [1] ++ descBytes cfg0 [1] [9] 0.
Definition runBad : list label :=
  LTake 0 :: LCall (OInsert [1] [7] 0) :: st 0 4 ++ LSeal 0 :: LJob false 0 :: st 1 1 ++ LStep 1 (mkC 0 0 (Some None) None) :: st 1 3 ++
  LTake 0 :: LCall (OInsert [2] forged 0) :: st 2 4 ++ LCall (OLookup [1]) :: st 3 5.
Theorem C26_unreadable_region_refuted : exists s T T1 T2, okCfg cfg0 /\ run cfg0 (fun _ _ => 0) s T /\
  T = T1 ++ ERes 3 (Found [9] 0) :: T2 /\ In (ECall 3 (OLookup [1])) T1 /\ forall i la, ~ In (EPut i [1] [9] la) T.
Proof.
  assert (H : option_map snd (exec cfg0 (init (fun _ _ => 0)) runBad []) = Some
    ([ECall 0 (OInsert [1] [7] 0); EPut 0 [1] [7] 0; ERes 0 Stored; EBadReclaim; ECall 2 (OInsert [2] forged 0); EPut 2 [2] forged 0; ERes 2 Stored; ECall 3 (OLookup [1])]
     ++ [ERes 3 (Found [9] 0)])) by (vm_compute; reflexivity).
  destruct (exec_trace _ _ _ _ H) as (s & R). eexists s, _, _, []. split; [exact cfg0_ok|]. split; [exact R|]. split; [reflexivity|].
  split; [cbn; intuition|]. intros i la X. cbn in X. repeat destruct X as [X|X]; try discriminate X. contradiction.
Qed.
Print Assumptions C26_unreadable_region_refuted.
(** Not every eviction calls the destructor: with no space for the reinsertion of [2] it is dropped silently. *)
Definition runNoSpace : list label :=
  LTake 0 :: LCall (OInsert [2] [3] 0) :: st 0 4 ++ LSeal 0 :: LJob false 0 :: st 1 3 ++ go 1 3 0 :: st 1 5.
Theorem C26_eviction_without_destructor_refuted : destructor cfg0 = true /\ exists s T k v, run cfg0 (fun _ _ => 0) s T /\ safe T /\
  In (EEvict k v false) T /\ In (EPut 0 k v 0) T.
Proof.
  split; [reflexivity|].
  assert (H : option_map snd (exec cfg0 (init (fun _ _ => 0)) runNoSpace []) = Some
    [ECall 0 (OInsert [2] [3] 0); EPut 0 [2] [3] 0; ERes 0 Stored; EEvict [2] [3] false]) by (vm_compute; reflexivity).
  destruct (exec_trace _ _ _ _ H) as (s & R). eexists s, _, [2], [3]. split; [exact R|]. split.
  - intros e X. cbn in X. repeat destruct X as [<-|X]; try reflexivity. contradiction.
  - cbn. auto 10.
Qed.
Print Assumptions C26_eviction_without_destructor_refuted.
(** Removing a key removes the item of another one the index cannot tell from it, and says Removed. *)
Definition runOther : list label := LTake 0 :: LCall (OInsert [1] [7] 0) :: st 0 4 ++ LCall (ORemove [5]) :: st 1 6.
Theorem C26_remove_other_key_refuted : exists s T, run cfg0 (fun _ _ => 0) s T /\ safe T /\ In (ERes 1 Removed) T /\ In (ECall 1 (ORemove [5])) T /\
  (forall i v la, ~ In (EPut i [5] v la) T) /\ In (EPut 0 [1] [7] 0) T /\ stored cfg0 [1] T = None.
Proof.
  assert (H : option_map snd (exec cfg0 (init (fun _ _ => 0)) runOther []) = Some
    [ECall 0 (OInsert [1] [7] 0); EPut 0 [1] [7] 0; ERes 0 Stored; ECall 1 (ORemove [5]); EDel 1 [5]; ERes 1 Removed]) by (vm_compute; reflexivity).
  destruct (exec_trace _ _ _ _ H) as (s & R). eexists s, _. split; [exact R|]. split; [|repeat split].
  - intros e X. cbn in X. repeat destruct X as [<-|X]; try reflexivity. contradiction.
  - cbn. auto 10.
  - cbn. auto 10.
  - intros i v la X. cbn in X. repeat destruct X as [X|X]; try discriminate X. contradiction.
  - cbn. auto.
Qed.
Print Assumptions C26_remove_other_key_refuted.
