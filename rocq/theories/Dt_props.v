(** * C37: the map and the sorted map kept inside a cache item. *)
From Coq Require Import Sorted.
From Verif Require Import Bytes DtBuffer_model DtMap_model DtMap_spec DtRange_model DtRange_spec DtTable_proofs DtBuffer_proofs DtMap_proofs DtRange_proofs.
Local Open Scope nat_scope.

(** Any sequence of calls on a new Map, with cache allocations failing at any of the points where one is
    asked for: nothing undefined happens, every loop ends, and every answer is the answer of a finite
    map (DtMap_spec); a call that throws bad_alloc leaves the map as it was. *)
Theorem C37_map_refines :
  forall (hash : N -> N) (ks : N) (vsize : N -> N) (maxIndex numEntries : nat) (numBytes : N) (calls : list call),
    (1 <= ks)%N -> (forall v, (ks + vsize v < 2 ^ 32 - 4)%N) -> 1 <= numEntries -> (1 <= numBytes <= maxCapacity)%N ->
    exists m outs M, execs hash ks vsize maxIndex (create numEntries numBytes) calls = Some (m, outs) /\ srun fempty calls outs M.
Proof.
  intros hash ks vsize maxIndex n bytes calls Hk Hs Hn Hb. destruct (DtMap_proofs.create_ok hash ks vsize Hk Hs n bytes Hn Hb) as [H A].
  exact (DtMap_proofs.execs_ok hash ks vsize maxIndex Hk Hs calls _ _ _ H A).
Qed.

(** If the cache can allocate, the element fits in a buffer, the doubled table fits in an item and there
    are fewer than 1023 buffers, insertion succeeds. *)
Theorem C37_map_insert_succeeds :
  forall hash ks vsize maxIndex numEntries numBytes calls m outs k v,
    (1 <= ks)%N -> (forall v, (ks + vsize v < 2 ^ 32 - 4)%N) -> 1 <= numEntries -> (1 <= numBytes <= maxCapacity)%N ->
    execs hash ks vsize maxIndex (create numEntries numBytes) calls = Some (m, outs) -> ~ In ORuntime outs ->
    (4 + ks + vsize v < maxCapacity)%N -> 2 * tcap (tab m) <= maxIndex -> (N.of_nat (length (bufs m)) < maxItems)%N ->
    exists m' replaced, exec hash ks vsize maxIndex m (Upsert k v []) = Some (m', OReplaced replaced).
Proof.
  intros hash ks vsize maxIndex n bytes calls m outs k v Hk Hs Hn Hb E Nr F1 F2 F3.
  destruct (DtMap_proofs.create_ok hash ks vsize Hk Hs n bytes Hn Hb) as [H A].
  destruct (DtMap_proofs.reach_ok hash ks vsize maxIndex Hk Hs calls _ _ _ _ _ H A E Nr) as (ls & M & H' & A' & _).
  destruct (DtMap_proofs.exec_ok hash ks vsize maxIndex Hk Hs m ls M (Upsert k v []) H' A') as (m' & o & Ex & _ & [(_ & C & _) | (No & ls' & M' & _ & _ & St & Th)]); [ discriminate | ].
  exists m'. inversion St; subst; [ eexists; eassumption | ]. exfalso. apply Th; [ assumption | ]. repeat split; auto.
Qed.

(** compact() answers, unless the table has exactly one free place and the map is not empty. *)
Theorem C37_map_compact :
  forall hash ks vsize maxIndex numEntries numBytes calls m outs,
    (1 <= ks)%N -> (forall v, (ks + vsize v < 2 ^ 32 - 4)%N) -> 1 <= numEntries -> (1 <= numBytes <= maxCapacity)%N ->
    execs hash ks vsize maxIndex (create numEntries numBytes) calls = Some (m, outs) -> ~ In ORuntime outs ->
    exists m' o, exec hash ks vsize maxIndex m Compact = Some (m', o) /\
      (o = OOk \/ (o = ORuntime /\ S (tnum (tab m)) = tcap (tab m) /\ tnum (tab m) <> 0)).
Proof.
  intros hash ks vsize maxIndex n bytes calls m outs Hk Hs Hn Hb E Nr.
  destruct (DtMap_proofs.create_ok hash ks vsize Hk Hs n bytes Hn Hb) as [H A].
  destruct (DtMap_proofs.reach_ok hash ks vsize maxIndex Hk Hs calls _ _ _ _ _ H A E Nr) as (ls & M & H' & A' & _).
  destruct (DtMap_proofs.exec_ok hash ks vsize maxIndex Hk Hs m ls M Compact H' A') as (m' & o & Ex & _ & [(-> & _ & F) | (No & ls' & M' & _ & _ & St & _)]);
    exists m'; eexists; (split; [ eassumption | ]); [ right; tauto | inversion St; subst; left; reflexivity ].
Qed.

(** Growing the map replaces its cache item; a map that was in the cache stays in the cache. *)
Theorem C37_map_stays_in_cache :
  forall hash ks vsize maxIndex numEntries numBytes calls m outs c m' o,
    (1 <= ks)%N -> (forall v, (ks + vsize v < 2 ^ 32 - 4)%N) -> 1 <= numEntries -> (1 <= numBytes <= maxCapacity)%N ->
    execs hash ks vsize maxIndex (create numEntries numBytes) calls = Some (m, outs) -> ~ In ORuntime outs ->
    exec hash ks vsize maxIndex m c = Some (m', o) -> pub m' = match c with Publish => true | _ => pub m end.
Proof.
  intros hash ks vsize maxIndex n bytes calls m outs c m' o Hk Hs Hn Hb E Nr Ex.
  destruct (DtMap_proofs.create_ok hash ks vsize Hk Hs n bytes Hn Hb) as [H A].
  destruct (DtMap_proofs.reach_ok hash ks vsize maxIndex Hk Hs calls _ _ _ _ _ H A E Nr) as (ls & M & H' & A' & _).
  destruct (DtMap_proofs.exec_ok hash ks vsize maxIndex Hk Hs m ls M c H' A') as (m1 & o1 & Ex1 & P & _). rewrite Ex in Ex1. inversion Ex1; subst. exact P.
Qed.

(** ** False claims about Map *)
(** compact() may throw: 19 elements in a map of the default capacity 20 (Map.h:168-177 tests for a full
    table before it looks for an entry to replace). *)
Definition nineteen : list call := map (fun i => Upsert (N.of_nat i) 7 []) (seq 0 19).
Theorem C37_map_compact_never_throws_refuted :
  ~ (forall hash ks vsize maxIndex numEntries numBytes calls m outs,
       (1 <= ks)%N -> (forall v, (ks + vsize v < 2 ^ 32 - 4)%N) -> 1 <= numEntries -> (1 <= numBytes <= maxCapacity)%N ->
       execs hash ks vsize maxIndex (create numEntries numBytes) calls = Some (m, outs) -> ~ In ORuntime outs).
Proof.
  intro Claim. set (h := fun k => (k * 200000000)%N).
  destruct (execs h 8 (fun _ => 8%N) 1000 (create 20 160) (nineteen ++ [Compact])) as [[m outs] | ] eqn:E.
  - assert (Eo : option_map snd (execs h 8 (fun _ => 8%N) 1000 (create 20 160) (nineteen ++ [Compact])) = Some outs) by (rewrite E; reflexivity).
    vm_compute in Eo. apply (Claim h 8%N (fun _ => 8%N) 1000 20 160%N (nineteen ++ [Compact]) m outs); auto; try (vm_compute; congruence); try (split; vm_compute; congruence); try lia.
    inversion Eo; subst. vm_compute. tauto.
  - assert (Eo : option_map snd (execs h 8 (fun _ => 8%N) 1000 (create 20 160) (nineteen ++ [Compact])) = None) by (rewrite E; reflexivity).
    vm_compute in Eo. discriminate.
Qed.
(** a map created with no bytes divides by zero at the first insertion (Buffer.h:719-731); one created
    with no entries reads outside its table at the first lookup *)
Theorem C37_map_any_size_refuted :
  ~ (forall hash ks vsize maxIndex numEntries numBytes calls, execs hash ks vsize maxIndex (create numEntries numBytes) calls <> None).
Proof.
  intro Claim. apply (Claim (fun k => k) 8%N (fun _ => 8%N) 1000 20 0%N [Upsert 1 1 []]). vm_compute. reflexivity.
Qed.
Example C37_map_no_entries : execs (fun k => k) 8 (fun _ => 8%N) 1000 (create 0 160) [Find 1] = None.
Proof. vm_compute. reflexivity. Qed.
(** an element that fills a buffer exactly is refused, but expand() adds a buffer for it every time
    (Buffer.h:513-561 compare the size differently) *)
Example C37_map_exact_fit_wastes :
  option_map (fun r => (length (bufs (fst r)), snd r))
    (execs (fun k => k) 8 (fun v => v) 1000 (create 20 160) [Upsert 1 (maxCapacity - 12) []; Upsert 1 (maxCapacity - 12) []]) = Some (3, [OBadAlloc; OBadAlloc]).
Proof. vm_compute. reflexivity. Qed.
(** the hypotheses are met by a run that grows the table and the storage, replaces, fails and erases *)
Example C37_map_run :
  option_map snd (execs (fun k => (k * 200000000)%N) 8 (fun _ => 8%N) 1000 (create 2 40)
    [Insert 1 10 []; Insert 2 20 [false]; Insert 2 20 []; Insert 1 11 []; Upsert 1 12 []; Insert 3 30 []; Publish; Find 1; Find 2; Size; Erase 1; Find 1; Iterate; Compact; Iterate]) =
  Some [OBool true; OBadAlloc; OBool true; OBool false; OReplaced true; OBool true; OOk; OFound (Some 12%N); OFound (Some 20%N); OSize 3; OBool true; OFound None;
        OList [(2%N, 20%N); (3%N, 30%N)]; OOk; OList [(2%N, 20%N); (3%N, 30%N)]].
Proof. vm_compute. reflexivity. Qed.

(** ** RangeMap *)
Theorem C37_range_refines :
  forall (ks : N) (vsize : N -> N) (maxIndex numEntries : nat) (numBytes : N) (calls : list rcall),
    (1 <= ks)%N -> (forall v, (ks + vsize v < 2 ^ 32 - 4)%N) -> 1 <= numEntries -> (1 <= numBytes <= maxCapacity)%N -> Forall ordered calls ->
    exists m outs M, rexecs ks vsize maxIndex (rcreate numEntries numBytes) calls = Some (m, outs) /\ rrun fempty calls outs M.
Proof.
  intros ks vsize maxIndex n bytes calls Hk Hs Hn Hb O. destruct (DtRange_proofs.rcreate_ok ks vsize Hk Hs n bytes Hn Hb) as [H A].
  destruct (DtRange_proofs.rexecs_ok ks vsize maxIndex Hk Hs calls _ _ _ H A O) as (m & os & M & ls & E & R & _). exists m, os, M. exact (conj E R).
Qed.
Theorem C37_range_insert_succeeds :
  forall ks vsize maxIndex numEntries numBytes calls m outs k v,
    (1 <= ks)%N -> (forall v, (ks + vsize v < 2 ^ 32 - 4)%N) -> 1 <= numEntries -> (1 <= numBytes <= maxCapacity)%N -> Forall ordered calls ->
    rexecs ks vsize maxIndex (rcreate numEntries numBytes) calls = Some (m, outs) ->
    (4 + ks + vsize v < maxCapacity)%N -> 2 * icap (ix m) <= maxIndex -> (N.of_nat (length (rbufs m)) < maxItems)%N ->
    exists m' replaced, rexec ks vsize maxIndex m (RUpsert k v []) = Some (m', RReplaced replaced).
Proof.
  intros ks vsize maxIndex n bytes calls m outs k v Hk Hs Hn Hb O E F1 F2 F3. destruct (DtRange_proofs.rcreate_ok ks vsize Hk Hs n bytes Hn Hb) as [H A].
  destruct (DtRange_proofs.rexecs_ok ks vsize maxIndex Hk Hs calls _ _ _ H A O) as (m0 & os & M & ls & E0 & _ & H' & A'). rewrite E in E0. inversion E0; subst m0 os.
  destruct (DtRange_proofs.rexec_ok ks vsize maxIndex Hk Hs m ls M (RUpsert k v []) H' A') as (m' & o & ls' & M' & Ex & _ & _ & _ & St & Th); [ exact Logic.I | ].
  exists m'. inversion St; subst; [ eexists; eassumption | ]. exfalso. apply Th; [ assumption | ]. repeat split; auto.
Qed.
Theorem C37_range_stays_in_cache :
  forall ks vsize maxIndex numEntries numBytes calls m outs c m' o,
    (1 <= ks)%N -> (forall v, (ks + vsize v < 2 ^ 32 - 4)%N) -> 1 <= numEntries -> (1 <= numBytes <= maxCapacity)%N -> Forall ordered (calls ++ [c]) ->
    rexecs ks vsize maxIndex (rcreate numEntries numBytes) calls = Some (m, outs) ->
    rexec ks vsize maxIndex m c = Some (m', o) -> rpub m' = match c with RPublish => true | _ => rpub m end.
Proof.
  intros ks vsize maxIndex n bytes calls m outs c m' o Hk Hs Hn Hb O E Ex. apply Forall_app in O. destruct O as [O1 O2]. inversion O2; subst.
  destruct (DtRange_proofs.rcreate_ok ks vsize Hk Hs n bytes Hn Hb) as [H A].
  destruct (DtRange_proofs.rexecs_ok ks vsize maxIndex Hk Hs calls _ _ _ H A O1) as (m0 & os & M & ls & E0 & _ & H' & A'). rewrite E in E0. inversion E0; subst m0 os.
  destruct (DtRange_proofs.rexec_ok ks vsize maxIndex Hk Hs m ls M c H' A') as (m1 & o1 & ls' & M' & Ex1 & P & _); [ assumption | ]. rewrite Ex in Ex1. inversion Ex1; subst. exact P.
Qed.
(** a range asked for with its ends swapped is walked past the end; no entries or no bytes at creation
    is undefined too *)
Theorem C37_range_any_call_refuted :
  ~ (forall ks vsize maxIndex numEntries numBytes calls, (1 <= numBytes <= maxCapacity)%N -> rexecs ks vsize maxIndex (rcreate numEntries numBytes) calls <> None).
Proof.
  intro Claim. apply (Claim 8%N (fun _ => 8%N) 1000 20 160%N [RUpsert 1 1 []; RUpsert 2 2 []; RUpsert 3 3 []; RRange 3 1]); [ split; vm_compute; congruence | vm_compute; reflexivity ].
Qed.
Example C37_range_no_entries : rexecs 8 (fun _ => 8%N) 1000 (rcreate 0 160) [RUpsert 1 1 []] = None.
Proof. vm_compute. reflexivity. Qed.
Example C37_range_no_bytes : rexecs 8 (fun _ => 8%N) 1000 (rcreate 20 0) [RUpsert 1 1 []] = None.
Proof. vm_compute. reflexivity. Qed.
Example C37_range_run :
  option_map snd (rexecs 8 (fun _ => 8%N) 1000 (rcreate 1 40)
    [RInsert 5 50 []; RInsert 1 10 []; RInsert 9 90 [false]; RInsert 9 90 []; RUpsert 5 51 []; RSize; RLookup 5; RLookup 4; RRange 1 5; RApprox 2 8; RErase 1; RIterate; RRemoveBefore 6; RIterate; RCompact; RPublish]) =
  Some [RBool true; RBool true; RBadAlloc; RBool true; RReplaced true; RCount 3; RList [(5%N, 51%N); (9%N, 90%N)]; RList []; RList [(1%N, 10%N); (5%N, 51%N)]; RList [(5%N, 51%N)];
        RBool true; RList [(5%N, 51%N); (9%N, 90%N)]; RCount 1; RList [(9%N, 90%N)]; ROk; ROk].
Proof. vm_compute. reflexivity. Qed.

Print Assumptions C37_map_refines.
Print Assumptions C37_map_insert_succeeds.
Print Assumptions C37_map_compact.
Print Assumptions C37_map_stays_in_cache.
Print Assumptions C37_map_compact_never_throws_refuted.
Print Assumptions C37_map_any_size_refuted.
Print Assumptions C37_range_refines.
Print Assumptions C37_range_insert_succeeds.
Print Assumptions C37_range_stays_in_cache.
Print Assumptions C37_range_any_call_refuted.
