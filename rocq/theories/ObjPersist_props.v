(** C51: persisting an object cache and recovering it. *)
From Coq Require Import List ZArith Bool Permutation Lia.
Import ListNotations.
Open Scope Z_scope.
From Verif Require Import ObjPersist_model ObjPersist_spec ObjPersist_proofs1 ObjPersist_proofs2 ObjPersist_proofs3 ObjPersist_proofs4 ObjPersist_proofs5.

(** When persisting is done, each object of the cache is either in the files, once, if it can be serialized, or had expired by
    then and is counted; none that had not is left out.  Whatever the number of workers and the schedule. *)
Theorem C51_persist_all : forall ser cap now ps w s, reach ser cap (init now ps w) s -> at_ s = MDone ->
  exists skipped taken, Permutation (concat ps) (skipped ++ taken) /\ Forall (gone (clock s)) skipped /\ Forall (fun o => alive now o = true) taken /\
    nexp s = length skipped /\ Permutation (flat_map (recs ser) taken) (concat (content s)).
Proof. exact persist_all. Qed.
Print Assumptions C51_persist_all.

(** Persisting never gets stuck: from any state it can go on to the end, if there is a worker and serializing does not throw. *)
Theorem C51_persist_finishes : forall ser cap, (forall p, ser p <> SThrow) -> (0 < cap)%nat -> forall now ps w, (0 < w)%nat ->
  forall s, reach ser cap (init now ps w) s -> exists s', reach ser cap (init now ps w) s' /\ at_ s' = MDone.
Proof. exact finishes. Qed.
Print Assumptions C51_persist_finishes.

(** With one worker (enablePersistenceWithEvictionOrder) the file has the objects of each pool in their eviction order. *)
Theorem C51_order : forall ser cap now ps s p0, reach ser cap (init now ps 1) s -> at_ s = MDone -> In p0 ps ->
  exists f, content s = [f] /\ subseq (flat_map (recs ser) (filter (alive (clock s)) p0)) f.
Proof. exact order. Qed.
Print Assumptions C51_order.

(** Each record in the files is brought back by one call of the callback, or had expired by then and is counted. *)
Theorem C51_restore_all : forall now fs s, 0 <= now -> rreach (rinit now fs) s -> restored s ->
  exists ex kept, Permutation (concat fs) (ex ++ kept) /\ Forall (goneR (rclock s)) ex /\ Forall2 brings kept (log s) /\ rnexp s = length ex.
Proof. exact restore_all. Qed.
Print Assumptions C51_restore_all.

(** Restoring never gets stuck. *)
Theorem C51_restore_finishes : forall s0 s, rreach s0 s -> exists s', rreach s0 s' /\ restored s'.
Proof. intros s0 s. exact (rfinish (todo s) s0 s (le_n _)). Qed.
Print Assumptions C51_restore_finishes.

(** Round trip: each object of the cache is brought back once, with its key, payload and size, to live at least as long as it
    would have, or its time has come; if every object serializes to one buffer and its size is below 2^31. *)
Theorem C51_roundtrip : forall ser cap now ps w s now2 s2, 0 <= now -> Forall (fits ser) (concat ps) ->
  reach ser cap (init now ps w) s -> at_ s = MDone -> clock s <= now2 -> rreach (rinit now2 (content s)) s2 -> restored s2 ->
  exists lost objs, Permutation (concat ps) (lost ++ objs) /\ Forall (fun o => 0 <> oexp o /\ oexp o <= rclock s2) lost /\
    Forall2 (bringsObj ser) objs (log s2) /\ length lost = (nexp s + rnexp s2)%nat.
Proof. exact roundtrip. Qed.
Print Assumptions C51_roundtrip.

(** With one worker the objects come back in eviction order: the calls have, in order, the keys of each pool's objects that still live. *)
Theorem C51_order_kept : forall ser cap now ps s p0 now2 s2, 0 <= now -> reach ser cap (init now ps 1) s -> at_ s = MDone -> In p0 ps -> Forall (fits ser) p0 -> clock s <= now2 ->
  rreach (rinit now2 (content s)) s2 -> restored s2 -> subseq (map okey (filter (lives (rclock s2)) p0)) (map ikey (log s2)).
Proof. exact order_kept. Qed.
Print Assumptions C51_order_kept.

(** If the process dies while run() goes on, what is recovered are records of this cache's objects, none twice. *)
Theorem C51_crash_running : forall ser cap now ps w s d, reach ser cap (init now ps w) s ->
  exists fs rest, opened (running d s) = Some fs /\ Permutation (flat_map (recs ser) (concat ps)) (concat fs ++ rest).
Proof. exact crash_running. Qed.
Print Assumptions C51_crash_running.

(** If it dies while the files are being opened, each file that is recovered is empty or is one of those that were there. *)
Theorem C51_crash_opening : forall d n k fs f, opened (opening d n k) = Some fs -> In f fs -> f = [] \/ exists i, files d i = Some f.
Proof. exact crash_opening. Qed.
Print Assumptions C51_crash_opening.

(** ** What does not hold *)
Definition ev1 : list event := [Pass; Itr; Pass; Itr; Pass; WStart 0; WRead 0; WWrite 0 true; WRead 0; Check; Stop; Stop].
Lemma reach_runs : forall ser cap s0 es s s', reach ser cap s0 s -> runs ser cap s es = Some (Ok s') -> reach ser cap s0 s'.
Proof.
  intros ser cap s0 es. induction es as [|e es IH]; intros s s' R H; cbn in H; [apply ok_inj in H; now subst|].
  destruct (step ser cap s e) as [[s1|]|] eqn:E; try discriminate. eapply IH; [|exact H]. eapply reachS; eauto.
Qed.
Lemma rreach_runs : forall s0 es s s', rreach s0 s -> rruns s es = Some s' -> rreach s0 s'.
Proof.
  intros s0 es. induction es as [|e es IH]; intros s s' R H; cbn in H; [apply some_inj in H; now subst|].
  destruct (rstep s e) as [s1|] eqn:E; try discriminate. eapply IH; [|exact H]. eapply rreachS; eauto.
Qed.
(** A complete persist and restore of one object at time 100, the restore worker's insertion [d] seconds after it started. *)
Definition rev1 (d : nat) : list revent := [RStart 0; RTick d; RStep 0 true; RFin 0].
Definition comesBack (ser : nat -> sres) (o : obj) (i : ins) : Prop := exists s s2,
  reach ser 1000 (init 100 [[o]] 1) s /\ at_ s = MDone /\ rreach (rinit (clock s) (content s)) s2 /\ restored s2 /\ log s2 = [i].

Lemma comes : forall ser o c d, ser (optr o) = SBuf c -> expired (oexp o) 100 = false -> (0 <? u32 (i32 (oexp o))) && (u32 (i32 (oexp o)) <=? 100) = false ->
  comesBack ser o (mkI (okey o) (hd [] c) (u64 (i32 (osize o)))
    (u32 (i32 (if u32 (i32 (oexp o)) =? 0 then 0 else u32 (u32 (i32 (oexp o)) - 100)))) (100 + Z.of_nat d) true).
Proof.
  intros ser o c d S X Y.
  assert (H : exists s, runs ser 1000 (init 100 [[o]] 1) ev1 = Some (Ok s) /\ at_ s = MDone /\ clock s = 100 /\ content s = [[recOf o c]]).
  { unfold ev1, init. cbn -[expired recOf]. rewrite X. cbn -[expired recOf]. rewrite S. cbn -[expired recOf].
    eexists. split; [reflexivity|]. cbn. auto. }
  destruct H as (s & H & M & C & F).
  assert (G : exists s2, rruns (rinit (clock s) (content s)) (rev1 d) = Some s2 /\ restored s2 /\
    log s2 = [mkI (okey o) (hd [] c) (u64 (i32 (osize o))) (u32 (i32 (if u32 (i32 (oexp o)) =? 0 then 0 else u32 (u32 (i32 (oexp o)) - 100)))) (100 + Z.of_nat d) true]).
  { rewrite C, F. unfold rev1, rinit. cbn -[u32 u64 i32 Z.leb Z.ltb Z.eqb Z.add Z.sub recOf]. unfold recOf at 1. cbn [rexp]. unfold recOf at 1. cbn [rexp]. rewrite Y. cbn -[u32 u64 i32 Z.leb Z.ltb Z.eqb Z.add Z.sub].
    eexists. split; [reflexivity|]. split; [repeat constructor|reflexivity]. }
  destruct G as (s2 & G & D & L). exists s, s2. split; [eapply reach_runs; [apply reach0|exact H]|]. split; [assumption|]. split; [eapply rreach_runs; [apply rreach0|exact G]|auto].
Qed.

(** An object whose size is 2^31 comes back with size 2^64 - 2^31 (objectSize is stored in an i32). *)
Theorem C51_size_refuted : exists ser o i, comesBack ser o i /\ osize o = 2 ^ 31 /\ isize i = 2 ^ 64 - 2 ^ 31.
Proof.
  exists (fun _ => SBuf [[7%nat]]), (mkO 1 1 (2 ^ 31) 0). eexists. split; [apply (comes _ _ [[7%nat]] 0); reflexivity|]. split; reflexivity.
Qed.
Print Assumptions C51_size_refuted.

(** An object serialized to a chain of two buffers comes back with the first one only. *)
Theorem C51_chain_refuted : exists ser o i a b, comesBack ser o i /\ ser (optr o) = SBuf [a; b] /\ b <> [] /\ ipay i = a.
Proof.
  exists (fun _ => SBuf [[7%nat]; [8%nat]]), (mkO 1 1 5 0). eexists. exists [7%nat], [8%nat]. split; [apply (comes _ _ [[7%nat]; [8%nat]] 0); reflexivity|].
  split; [reflexivity|]. split; [discriminate|reflexivity].
Qed.
Print Assumptions C51_chain_refuted.

(** An object may live on after its expiry time, by as long as the restore has been running: however long. *)
Theorem C51_expiry_refuted : forall d, exists ser o i, comesBack ser o i /\ oexp o = 150 /\ iexp i = 150 + Z.of_nat d.
Proof.
  intros d. exists (fun _ => SBuf [[7%nat]]), (mkO 1 1 5 150). eexists. split; [apply (comes _ _ [[7%nat]] d); reflexivity|].
  split; [reflexivity|]. unfold iexp. cbn [ittl iat]. match goal with |- context [if ?x =? 0 then _ else _] => change x with 50 end. change (50 =? 0) with false. cbv iota. lia.
Qed.
Print Assumptions C51_expiry_refuted.

(** A crash while the files are being opened: recover() succeeds with part of the old cache, or with nothing at all. *)
Theorem C51_crash_torn_refuted : exists d f g, f <> [] /\ g <> [] /\ opened d = Some [f; g] /\ opened (opening d 2 3) = Some [[]; g] /\ opened (opening d 2 1) = Some [].
Proof.
  set (r := mkR 1 [7%nat] 5 0). exists (mkD (Some (Some 2%nat)) (fun _ => Some [r])), [r], [r]. repeat split; try discriminate.
Qed.
Print Assumptions C51_crash_torn_refuted.

(** A serialize callback that throws takes the process down. *)
Theorem C51_throw_refuted : exists ser s, reach ser 1000 (init 100 [[mkO 1 1 5 0]] 1) s /\ step ser 1000 s (WWrite 0 true) = Some Aborted.
Proof.
  set (ser := fun _ : nat => SThrow). destruct (runs ser 1000 (init 100 [[mkO 1 1 5 0]] 1) [Pass; Itr; WStart 0; WRead 0]) as [[s|]|] eqn:E; [|discriminate|discriminate].
  exists ser, s. split; [eapply reach_runs; [apply reach0|exact E]|]. cbn in E. apply ok_inj in E. subst s. reflexivity.
Qed.
Print Assumptions C51_throw_refuted.

(** ** Non-vacuity: two pools, two workers that write in turn, one object that expires while the loop runs, one that cannot be serialized. *)
Example C51_example : exists s, reach (fun p => match p with 3%nat => SNull | p => SBuf [[p]] end) 1000
    (init 100 [[mkO 1 1 5 0; mkO 2 2 6 101]; [mkO 3 3 7 0; mkO 4 4 8 300]] 2) s /\ at_ s = MDone /\
    content s = [[mkR 4 [4%nat] 8 300]; [mkR 1 [1%nat] 5 0]] /\ nexp s = 1%nat.
Proof.
  set (ser := fun p => match p with 3%nat => SNull | p => SBuf [[p]] end).
  set (s0 := init 100 [[mkO 1 1 5 0; mkO 2 2 6 101]; [mkO 3 3 7 0; mkO 4 4 8 300]] 2).
  destruct (runs ser 1000 s0 [Pass; Itr; Itr; Pass; WStart 1; WRead 1; WStart 0; WRead 0; WWrite 0 true; WWrite 1 true; Tick 3; Itr; Itr; Pass; WRead 0; WRead 1; WWrite 0 true; Itr; Itr; Pass; WRead 0; Check; Stop; Stop; Stop]) as [[s|]|] eqn:E.
  - exists s. split; [eapply reach_runs; [apply reach0|exact E]|]. vm_compute in E. apply ok_inj in E. subst s. vm_compute. auto.
  - vm_compute in E. discriminate.
  - vm_compute in E. discriminate.
Qed.
Example C51_example_fits : Forall (fits (fun p => SBuf [[p]])) [mkO 1 1 5 0; mkO 2 2 6 101].
Proof. repeat constructor; cbn; try lia; eexists; reflexivity. Qed.
(** and a crash in the middle finds one record *)
Example C51_example_crash : exists s d, reach (fun p => SBuf [[p]]) 1000 (init 100 [[mkO 1 1 5 0; mkO 2 2 6 0]] 1) s /\ opened (running d s) = Some [[mkR 1 [1%nat] 5 0]].
Proof.
  destruct (runs (fun p => SBuf [[p]]) 1000 (init 100 [[mkO 1 1 5 0; mkO 2 2 6 0]] 1) [Pass; Itr; Pass; Itr; WStart 0; WRead 0; WWrite 0 true; WRead 0]) as [[s|]|] eqn:E; [|discriminate|discriminate].
  exists s, (mkD None (fun _ => None)). split; [eapply reach_runs; [apply reach0|exact E]|]. cbn in E. apply ok_inj in E. subst s. reflexivity.
Qed.
