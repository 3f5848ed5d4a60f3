(** C22: the small-object engine is a lossy map. *)
From Coq Require Import ZifyBool ZifyNat ZifyN.
From Verif Require Import Bytes BucketStorage_model Bucket_model Bucket_spec
  Bucket_proofs BloomFilter_model BloomFilter_client
  BigHash_model BigHash_spec BigHash_client BigHash_proofs BigHash_proofs2.
Local Open Scope N_scope.

(** Every run (calls with arbitrary device faults, corruption at rest, resets,
    shutdown+recovery) from construction is free of undefined behaviour and is a trace
    of the per-bucket list specification: same statuses, values and callbacks. *)
Theorem C22_engine_refines_spec :
  forall comb csum bucketSize base nb chk cap bloom gen dev es,
  conf_ok bucketSize base nb cap -> init_ok bucketSize base nb cap bloom gen dev ->
  exists s0, newBH nb bloom gen dev = Some s0 /\
   (evs_ok comb csum base nb chk cap bucketSize s0 es ->
    exists s os a, execs comb csum bucketSize base nb chk s0 es = Some (s, os)
      /\ atrace cap nb (expired_by chk) empty_eng es os a).
Proof. intros. now apply refines_l. Qed.
Print Assumptions C22_engine_refines_spec.

Lemma execs_length comb csum bs base nb chk : forall es s s' os,
  execs comb csum bs base nb chk s es = Some (s', os) -> length os = length es.
Proof.
  induction es as [|e es IH]; cbn [execs]; intros s s' os H; [inversion H; reflexivity|].
  destruct (exec comb csum bs base nb chk s e) as [[s1 o]|]; [|discriminate].
  destruct (execs comb csum bs base nb chk s1 es) as [[s2 os2]|] eqn:E; [|discriminate].
  inversion H; subst. cbn. f_equal. eauto.
Qed.
Lemma lossy_l comb csum bucketSize base nb chk cap bloom gen dev s0 es k r s os st v cb :
  conf_ok bucketSize base nb cap -> init_ok bucketSize base nb cap bloom gen dev ->
  newBH nb bloom gen dev = Some s0 ->
  evs_ok comb csum base nb chk cap bucketSize s0 (es ++ [ELookup k r]) ->
  Forall not_corrupt_remove es ->
  execs comb csum bucketSize base nb chk s0 (es ++ [ELookup k r])
    = Some (s, os ++ [ORes {| rstat := st; rval := v; rcbs := cb |}]) ->
  (st = SOk -> exists x, v = Some x /\ last_value k None es os = Some x)
  /\ (st <> SOk -> v = None).
Proof.
  intros HC HI E0 Hok Hn E.
  destruct (refines_l comb csum bucketSize base nb chk cap HC bloom gen dev (es ++ [ELookup k r]) HI)
    as (s0' & E0' & H). rewrite E0 in E0'. inversion E0'; subst s0'.
  destruct (H Hok) as (s' & os' & a & E' & T). rewrite E in E'. inversion E'; subst.
  assert (L : length os = length es).
  { apply execs_length in E. rewrite !app_length in E. cbn in E. lia. }
  split.
  - intros ->. eapply hit_is_last; eauto.
  - intros Hst. apply atrace_app in T as (os1 & os2 & a1 & Eo & L1 & T1 & T2).
    apply app_eq_length in Eo as [-> <-]; [|congruence].
    inversion T2 as [|? ? ? ? ? ? ? Hstep Hrest]; subst. inversion Hstep; subst; congruence.
Qed.

(** A lookup that succeeds returns exactly the value of the last insert of that very key
    (bytes and hash) provided that insert returned Ok and the key was neither removed
    nor the engine reset since; otherwise it reports a miss or an error and no value. *)
Theorem C22_lossy_map :
  forall comb csum bucketSize base nb chk cap bloom gen dev s0 es k r s os st v cb,
  conf_ok bucketSize base nb cap -> init_ok bucketSize base nb cap bloom gen dev ->
  newBH nb bloom gen dev = Some s0 ->
  evs_ok comb csum base nb chk cap bucketSize s0 (es ++ [ELookup k r]) ->
  Forall not_corrupt_remove es ->
  execs comb csum bucketSize base nb chk s0 (es ++ [ELookup k r])
    = Some (s, os ++ [ORes {| rstat := st; rval := v; rcbs := cb |}]) ->
  (st = SOk -> exists x, v = Some x /\ last_value k None es os = Some x)
  /\ (st <> SOk -> v = None).
Proof. exact lossy_l. Qed.
Print Assumptions C22_lossy_map.

Lemma could_l comb csum bucketSize base nb chk cap bloom gen dev s0 es k r s os x :
  conf_ok bucketSize base nb cap -> init_ok bucketSize base nb cap bloom gen dev ->
  newBH nb bloom gen dev = Some s0 ->
  evs_ok comb csum base nb chk cap bucketSize s0 (es ++ [ECouldExist k; ELookup k r]) ->
  execs comb csum bucketSize base nb chk s0 (es ++ [ECouldExist k; ELookup k r])
    = Some (s, os ++ [OBool false; ORes x]) ->
  rstat x <> SOk.
Proof.
  intros HC HI E0 Hok E.
  destruct (refines_l comb csum bucketSize base nb chk cap HC bloom gen dev
             (es ++ [ECouldExist k; ELookup k r]) HI) as (s0' & E0' & H).
  rewrite E0 in E0'. inversion E0'; subst s0'.
  destruct (H Hok) as (s' & os' & a & E' & T). rewrite E in E'. inversion E'; subst.
  assert (L : length os = length es).
  { apply execs_length in E. rewrite !app_length in E. cbn in E. lia. }
  apply atrace_app in T as (os1 & os2 & a1 & Eo & L1 & T1 & T2).
  apply app_eq_length in Eo as [-> <-]; [|congruence].
  eapply could_false_miss; eauto.
Qed.

(** "Could not exist" is never wrong: a lookup right after it cannot succeed. *)
Theorem C22_could_exist_sound :
  forall comb csum bucketSize base nb chk cap bloom gen dev s0 es k r s os x,
  conf_ok bucketSize base nb cap -> init_ok bucketSize base nb cap bloom gen dev ->
  newBH nb bloom gen dev = Some s0 ->
  evs_ok comb csum base nb chk cap bucketSize s0 (es ++ [ECouldExist k; ELookup k r]) ->
  execs comb csum bucketSize base nb chk s0 (es ++ [ECouldExist k; ELookup k r])
    = Some (s, os ++ [OBool false; ORes x]) ->
  rstat x <> SOk.
Proof. exact could_l. Qed.
Print Assumptions C22_could_exist_sound.

Lemma insert_hit_l comb csum bucketSize base nb chk cap bloom gen dev s0 es k v r s os x o2 :
  conf_ok bucketSize base nb cap -> init_ok bucketSize base nb cap bloom gen dev ->
  newBH nb bloom gen dev = Some s0 ->
  evs_ok comb csum base nb chk cap bucketSize s0 (es ++ [EInsert k v r WrOk; ELookup k RdOk]) ->
  Forall not_corrupt_remove es ->
  execs comb csum bucketSize base nb chk s0 (es ++ [EInsert k v r WrOk; ELookup k RdOk])
    = Some (s, os ++ [ORes x; o2]) -> rstat x = SOk ->
  o2 = ORes {| rstat := SOk; rval := Some v; rcbs := [] |}.
Proof.
  intros HC HI E0 Hok Hn E Hx.
  destruct (refines_l comb csum bucketSize base nb chk cap HC bloom gen dev
             (es ++ [EInsert k v r WrOk; ELookup k RdOk]) HI)
    as (s0' & E0' & H). rewrite E0 in E0'. inversion E0'; subst s0'.
  destruct (H Hok) as (s' & os' & a & E' & T). rewrite E in E'. inversion E'; subst.
  assert (L : length os = length es).
  { apply execs_length in E. rewrite !app_length in E. cbn in E. lia. }
  apply atrace_app in T as (os1 & os2 & a1 & Eo & L1 & T1 & T2).
  apply app_eq_length in Eo as [-> <-]; [|congruence].
  assert (G0 : GOOD nb empty_eng (fun _ => None)).
  { intros i _. cbn. split; [constructor|intros ? []]. }
  pose proof (atrace_good _ _ _ es os1 empty_eng a1 _ T1 G0 Hn) as G.
  eapply insert_then_hit; eauto.
Qed.

(** An insert that returned Ok is visible to the next lookup, whatever happened before. *)
Theorem C22_insert_visible :
  forall comb csum bucketSize base nb chk cap bloom gen dev s0 es k v r s os x o2,
  conf_ok bucketSize base nb cap -> init_ok bucketSize base nb cap bloom gen dev ->
  newBH nb bloom gen dev = Some s0 ->
  evs_ok comb csum base nb chk cap bucketSize s0 (es ++ [EInsert k v r WrOk; ELookup k RdOk]) ->
  Forall not_corrupt_remove es ->
  execs comb csum bucketSize base nb chk s0 (es ++ [EInsert k v r WrOk; ELookup k RdOk])
    = Some (s, os ++ [ORes x; o2]) -> rstat x = SOk ->
  o2 = ORes {| rstat := SOk; rval := Some v; rcbs := [] |}.
Proof. exact insert_hit_l. Qed.
Print Assumptions C22_insert_visible.

(** ** A concrete engine: 2 buckets of 64 bytes (40 usable), bloom filter, toy checksum. *)
Definition toy_csum (g : N) (st : storage) : N := wrap32 (g + N.of_nat (send st) + le_dec (sdata st)).
Definition toy_hash (k s : N) : N := (k + s) mod two64.
Definition raw : block := {| bk_sum := 3; bk_gen := 99; bk_st := initStorage (repeat 7 40) |}.
Definition hk (b : list byte) (h : N) := {| kbytes := b; khash := h |}.
Definition demo_filter := makeBF (fun i => i) 2 2 8.
Definition demo_new := newBH 2 demo_filter 5 (fun _ => raw).
Definition demo_run es := let* s := demo_new in execs toy_hash toy_csum 64 0 2 None s es.
Definition demo_es : list event :=
  [EInsert (hk [1] 4) [10] RdOk WrOk; EInsert (hk [1] 4) [11] RdOk WrOk; ELookup (hk [2] 4) RdOk;
   ELookup (hk [1] 4) RdOk; ERestart 6; ECouldExist (hk [9] 7); ELookup (hk [1] 4) RdOk;
   EInsert (hk [3] 8) [30;31] RdOk WrOk; ELookup (hk [1] 4) RdOk; ELookup (hk [3] 8) RdOk;
   ERemove (hk [3] 8) RdOk WrOk; EInsert (hk [5] 5) [1] RdOk (WrFail raw); ELookup (hk [3] 8) RdOk].

Example C22_demo : exists s os s0,
  conf_ok 64 0 2 40 /\ init_ok 64 0 2 40 demo_filter 5 (fun _ => raw) /\
  demo_new = Some s0 /\ evs_ok toy_hash toy_csum 0 2 None 40 64 s0 demo_es /\
  Forall not_corrupt_remove demo_es /\ demo_run demo_es = Some (s, os) /\
  os = [ORes (res SOk);
        ORes {| rstat := SOk; rval := None; rcbs := [({| ekey := hk [1] 4; eval := [10] |}, Removed)] |};
        ORes (res SNotFound); ORes {| rstat := SOk; rval := Some [11]; rcbs := [] |}; ONone;
        OBool false; ORes {| rstat := SOk; rval := Some [11]; rcbs := [] |};
        ORes {| rstat := SOk; rval := None; rcbs := [({| ekey := hk [1] 4; eval := [11] |}, Recycled)] |};
        ORes (res SNotFound); ORes {| rstat := SOk; rval := Some [30;31]; rcbs := [] |};
        ORes {| rstat := SOk; rval := None; rcbs := [({| ekey := hk [3] 8; eval := [30;31] |}, Removed)] |};
        ORes (res SDeviceError); ORes (res SNotFound)].
Proof.
  do 3 eexists. split; [constructor; try reflexivity; split; [reflexivity|discriminate]|].
  split.
  { split; [intros i _; split; [reflexivity|discriminate]|]. exists (fun i => i), 2, 8.
    split; [repeat split; reflexivity|reflexivity]. }
  split; [vm_compute; reflexivity|].
  split; [vm_compute; repeat split; try lia; try discriminate; reflexivity|].
  split; [unfold demo_es; repeat constructor|].
  split; [vm_compute; reflexivity|]. vm_compute. reflexivity.
Qed.

(** The condition on removes is needed.  If the read made by a remove is corrupted in
    transit (checksum mismatch once), the engine answers NotFound without rewriting the
    bucket, and a later lookup returns the removed value. *)
Theorem C22_transient_corruption_refuted :
  exists s, demo_run [EInsert (hk [1] 4) [10] RdOk WrOk;
                      ERemove (hk [1] 4) (RdCorrupt raw) WrOk; ELookup (hk [1] 4) RdOk]
  = Some (s, [ORes (res SOk); ORes (res SNotFound);
              ORes {| rstat := SOk; rval := Some [10]; rcbs := [] |}]).
Proof. eexists. vm_compute. reflexivity. Qed.
Print Assumptions C22_transient_corruption_refuted.

(** The bound nb + 100 <= 2^32 is needed: a configuration with exactly 2^32 buckets
    passes validation, but the table of disabled buckets then has no byte and every call
    reads outside it. *)
Theorem C22_bucket_count_wrap_refuted :
  exists bucketSize cacheSize s0,
    configValid bucketSize 0 cacheSize None = true /\
    newBH (cacheSize / bucketSize) None 5 (fun _ => raw) = Some s0 /\
    lookupBH toy_hash toy_csum bucketSize 0 (cacheSize / bucketSize) s0 (hk [1] 4) RdOk = None.
Proof.
  exists 64, (64 * two32). eexists. split; [vm_compute; reflexivity|].
  split; [vm_compute; reflexivity|]. vm_compute. reflexivity.
Qed.
Print Assumptions C22_bucket_count_wrap_refuted.
