(** C14: expired items are never served. *)
From Verif Require Import Bytes Expiry_model Expiry_spec Expiry_proofs.
Local Open Scope N_scope.

(** Whatever happened before, whatever the clock does: a value returned by a
    lookup is the last one written under its key, and a clock reading made
    during that very lookup was not past its deadline. *)
Theorem C14_never_serves_expired :
  forall hf os o t k v,
  Forall fits os ->
  (exists c1 c2, o = OFind t k c1 c2) \/ (exists c, o = OFindFast t k c) ->
  fst (step hf (run hf init os) o) = RHit v ->
  exists d c, view hf os k = Some (v, d) /\ In c (clocks o) /\ alive d c.
Proof.
  intros hf os o t k v HF Ho HR.
  pose proof (run_inv hf os init (fun _ => None) (init_full hf) HF) as (I & C & NF).
  fold (view hf os) in I.
  destruct Ho as [(c1 & c2 & ->)|(c & ->)]; cbn [step clocks] in *.
  - destruct hf.
    + destruct (findFull (run true init os) t k c1 c2) as [r s'] eqn:E. cbn [fst] in HR.
      destruct (findFull_spec _ _ _ _ _ _ _ _ I E) as (_ & _ & _ & H).
      destruct (H v HR) as (it & d & _ & _ & Hu & _ & [Ha|Ha]).
      * exists d, c1. cbn. auto.
      * exists d, c2. cbn. auto.
    + destruct (findRam (run false init os) t k c1) as [r s'] eqn:E. cbn [fst] in HR.
      destruct (findRam_spec _ _ _ _ _ _ _ I E) as (_ & _ & H & _).
      destruct (H v HR) as (it & d & _ & _ & Hu & _ & Ha). exists d, c1. cbn. auto.
  - destruct (findRam (run hf init os) t k c) as [r s'] eqn:E. cbn [fst] in HR.
    destruct (findRam_spec _ _ _ _ _ _ _ I E) as (_ & _ & H & _).
    destruct (H v HR) as (it & d & _ & _ & Hu & _ & Ha). exists d, c. cbn. auto.
Qed.

(** With a clock that never goes backwards, a value that is in RAM and alive is
    always found: nothing expires early, and a value without TTL never does. *)
Theorem C14_never_expires_early :
  forall hf os t k v d c1 c2,
  Forall fits os ->
  nondecreasing 0 (flat_map clocks os ++ [c1; c2]) ->
  fst (step hf (run hf init os) (OInspect k)) = RHit v ->
  view hf os k = Some (v, d) -> alive d c1 ->
  fst (step hf (run hf init os) (OFind t k c1 c2)) = RHit v /\
  fst (step hf (run hf init os) (OFindFast t k c1)) = RHit v.
Proof.
  intros hf os t k v d c1 c2 HF Hn HI Hv Ha.
  pose proof (run_inv hf os init (fun _ => None) (init_full hf) HF) as ((IR & _) & _ & _).
  fold (view hf os) in IR.
  apply nondec_app in Hn as [Hn1 Hn2].
  pose proof (run_stale hf os init 0 (fun _ => N.le_refl 0) Hn1 t) as Hs.
  cbn [step fst] in HI. destruct (ram (run hf init os) k) as [it|] eqn:ER; [|discriminate].
  inversion HI as [Ev]. destruct (IR k it ER) as (d' & Hu & He).
  rewrite Hv in Hu. injection Hu as _ Ed. subst d'.
  cbn [nondecreasing] in Hn2. destruct Hn2 as [Hc1 _].
  assert (HX : fst (isExpiredTL (stale (run hf init os) t) c1 (r_exp it)) = false).
  { rewrite tl_exact by lia. unfold isExpiredAt. destruct d as [x|]; cbn in He, Ha.
    - destruct He as [-> _]. destruct (N.ltb_spec x c1); [lia|]. apply andb_false_r.
    - rewrite He. reflexivity. }
  assert (HRm : fst (findRam (run hf init os) t k c1) = RHit (r_val it)).
  { unfold findRam. rewrite ER.
    destruct (isExpiredTL (stale (run hf init os) t) c1 (r_exp it)) as [x tl].
    cbn [fst] in HX. now rewrite HX. }
  split.
  - cbn [step]. destruct hf; [|exact HRm].
    unfold findFull. destruct (findRam (run true init os) t k c1) as [r s'].
    cbn [fst] in HRm. rewrite HRm. reflexivity.
  - exact HRm.
Qed.

(** The reaper only removes values whose deadline has passed. *)
Theorem C14_reaper_removes_only_expired :
  forall hf os t k c0 c,
  Forall fits os ->
  fst (step hf (run hf init os) (OReap t k c0 c)) = RBool true ->
  exists v dl, view hf os k = Some (v, Some dl) /\ dl < c0.
Proof.
  intros hf os t k c0 c HF HR.
  pose proof (run_inv hf os init (fun _ => None) (init_full hf) HF) as ((IR & _) & _ & _).
  fold (view hf os) in IR. cbn [step] in HR.
  destruct (ram (run hf init os) k) as [it|] eqn:ER; [|discriminate].
  destruct (isExpiredAt c0 (r_exp it)) eqn:EX; [|discriminate].
  destruct (IR k it ER) as (d & Hu & He).
  unfold isExpiredAt in EX. apply andb_true_iff in EX as [E1 E2].
  apply N.ltb_lt in E1. apply N.ltb_lt in E2.
  destruct d as [x|]; cbn in He; [|lia]. exists (r_val it), x. destruct He; subst. auto.
Qed.

(** updateExpiryTime and extendTTL report success exactly when they took effect:
    a successful extension makes the deadline "now + ttl". *)
Theorem C14_extension_takes_effect :
  forall hf os t k ttl c1 c2 now al t' c',
  Forall fits os -> fits (OExtend t k ttl c1 c2 now al) ->
  nondecreasing 0 (flat_map clocks os ++ [c1; c2; now; c']) ->
  fst (step hf (run hf init os) (OExtend t k ttl c1 c2 now al)) = RBool true ->
  exists v, view hf (os ++ [OExtend t k ttl c1 c2 now al]) k = Some (v, Some (now + ttl)) /\
    (fst (step hf (run hf init (os ++ [OExtend t k ttl c1 c2 now al])) (OFindFast t' k c')) =
       if now + ttl <? c' then RExpired else RHit v).
Proof.
  intros hf os t k ttl c1 c2 now al t' c' HF Hfit Hn HR.
  set (o := OExtend t k ttl c1 c2 now al) in *.
  assert (Hrun : run hf init (os ++ [o]) = snd (step hf (run hf init os) o)).
  { clear. generalize init. induction os as [|x os IH]; intros s; cbn [app run]; [reflexivity|apply IH]. }
  assert (Hview : view hf (os ++ [o]) =
    uapply hf (view hf os) o (fst (step hf (run hf init os) o))).
  { unfold view. clear. generalize init (fun _ : N => @None (N * deadline)).
    induction os as [|x os IH]; intros s u; cbn [app run uviewOf]; [reflexivity|apply IH]. }
  pose proof (run_inv hf os init (fun _ => None) (init_full hf) HF) as Full0.
  fold (view hf os) in Full0.
  pose proof (run_inv hf (os ++ [o]) init (fun _ => None) (init_full hf)) as Full1.
  fold (view hf (os ++ [o])) in Full1.
  assert (HF1 : Forall fits (os ++ [o])) by (apply Forall_app; split; [assumption|constructor; [assumption|constructor]]).
  specialize (Full1 HF1). destruct Full1 as ((IR1 & _) & _ & _).
  assert (HN1 : nondecreasing 0 (flat_map clocks (os ++ [o]) ++ [c'])).
  { rewrite flat_map_app. cbn [flat_map clocks o app]. rewrite <- app_assoc. exact Hn. }
  apply nondec_app in HN1 as [HN1 HN2]. cbn [nondecreasing] in HN2. destruct HN2 as [HN2 _].
  pose proof (run_stale hf (os ++ [o]) init 0 (fun _ => N.le_refl 0) HN1 t') as Hs.
  rewrite HR in Hview. cbn [uapply o] in Hview. fold o in Hview.
  (* the item is in RAM after the operation, with the new expiry *)
  assert (Hit : exists it v, ram (run hf init (os ++ [o])) k = Some it /\ r_exp it = now + ttl /\
                  (exists d, view hf os k = Some (v, d)) /\ v = r_val it).
  { rewrite Hrun. destruct Full0 as (I & C & NF). unfold o. unfold o in HR. cbn [step] in HR |- *.
    cbn [fits o] in Hfit. destruct Hfit as [Hnow Hfit].
    destruct hf.
    - destruct (findToWrite (run true init os) t k c1 c2) as [r1 s1] eqn:E1.
      destruct (findToWrite_spec _ _ _ _ _ _ _ _ I E1) as (_ & H1 & _).
      destruct r1 as [|v1| | |b1]; try discriminate HR.
      2:{ exfalso. exact (findToWrite_nobool _ _ _ _ _ _ _ E1). }
      destruct (H1 v1 eq_refl) as (it & d & A & B & Cu & _ & _).
      unfold setExp in *. rewrite A in *. destruct al; [|discriminate HR]. cbn [snd ram].
      rewrite upd_eq. eexists; exists v1. split; [reflexivity|]. cbn [r_exp r_val].
      unfold extendedExpiry. rewrite u32_small by assumption. split; [reflexivity|]. split; [eauto|assumption].
    - destruct (findRam (run false init os) t k c1) as [r1 s1] eqn:E1.
      destruct (findRam_spec _ _ _ _ _ _ _ I E1) as (R1 & _ & H1 & _).
      destruct r1 as [|v1| | |b1]; try discriminate HR.
      2:{ exfalso. exact (findRam_nobool _ _ _ _ _ _ E1). }
      destruct (H1 v1 eq_refl) as (it & d & A & B & Cu & _ & _).
      unfold setExp in *. rewrite R1, A in *. destruct al; [|discriminate HR]. cbn [snd ram].
      rewrite upd_eq. eexists; exists v1. split; [reflexivity|]. cbn [r_exp r_val].
      unfold extendedExpiry. rewrite u32_small by assumption. split; [reflexivity|]. split; [eauto|assumption]. }
  destruct Hit as (it & v & Hram & Hexp & (d & Hv) & Ev).
  exists v. rewrite Hview, Hv, upd_eq. split; [reflexivity|].
  cbn [step]. unfold findRam. rewrite Hram, Hexp.
  pose proof (tl_exact (stale (run hf init (os ++ [o])) t') c' (now + ttl)) as HT.
  assert (Hsc : stale (run hf init (os ++ [o])) t' <= c') by lia.
  specialize (HT Hsc).
  destruct (isExpiredTL (stale (run hf init (os ++ [o])) t') c' (now + ttl)) as [x tl].
  cbn [fst] in HT. subst x. unfold isExpiredAt.
  cbn [fits o] in Hfit. destruct (N.ltb_spec 0 (now + ttl)); [|lia]. cbn [andb].
  destruct (now + ttl <? c'); cbn [fst]; [reflexivity|now rewrite Ev].
Qed.

(** ** Where the claim fails *)

(** inspectCache hands out expired items (CacheAllocator.h:4611). *)
Theorem C14_inspect_never_serves_expired_refuted :
  exists os k v dl c, Forall fits os /\ nondecreasing 0 (flat_map clocks os ++ [c]) /\
    view false os k = Some (v, Some dl) /\ dl < c /\
    fst (step false (run false init os) (OInspect k)) = RHit v /\
    fst (step false (run false init os) (OFindFast 0 k c)) = RExpired.
Proof.
  exists [OInsert 1 7 10 0 100], 1, 7, 110, 200. repeat split; try reflexivity; try discriminate.
  constructor; [reflexivity|constructor].
Qed.

(** A TTL that carries the expiry time past 2^32 wraps: the item may never
    expire (expiry 0), or expire at once. *)
Theorem C14_ttl_overflow_refuted :
  (exists ttl, ttl < 2 ^ 32 /\ forall c, c < 2 ^ 32 ->
     fst (step false (run false init [OInsert 1 7 ttl 0 1700000000]) (OFindFast 0 1 c)) = RHit 7) /\
  (exists ttl, ttl < 2 ^ 32 /\
     fst (step false (run false init [OInsert 1 7 ttl 0 1700000000]) (OFindFast 0 1 1700000000)) = RExpired).
Proof.
  split.
  - exists 2594967296. split; [reflexivity|]. intros c _. reflexivity.
  - exists 2594967297. split; reflexivity.
Qed.

(** If the wall clock is set back, a thread that saw the later time reports
    items expired that are not (Time.h:60-66); another thread disagrees. *)
Theorem C14_clock_set_back_refuted :
  exists os k v dl c, Forall fits os /\ view false os k = Some (v, Some dl) /\ c < dl /\
    fst (step false (run false init os) (OFindFast 0 k c)) = RExpired /\
    fst (step false (run false init os) (OFindFast 1 k c)) = RHit v.
Proof.
  exists [OInsert 1 7 100 0 1000; OInsert 2 8 100 0 5000; OFindFast 0 2 5000], 1, 7, 1100, 1050.
  repeat split; try reflexivity. repeat constructor.
Qed.

(** An expired item still in RAM makes insert() fail although find() misses. *)
Theorem C14_miss_then_insert_succeeds_refuted :
  exists os k v ttl c, Forall fits os /\ nondecreasing 0 (flat_map clocks os ++ [c; c]) /\
    fst (step false (run false init os) (OFind 0 k c c)) = RExpired /\
    fst (step false (run false init (os ++ [OFind 0 k c c])) (OInsertIfAbsent k v ttl 0 c)) = RBool false.
Proof.
  exists [OInsert 1 7 10 0 100], 1, 9, 50, 200. repeat split; try reflexivity; try discriminate.
  repeat constructor.
Qed.

(** Non-vacuity: an item evicted to flash, found there, extended, expiring. *)
Example C14_nonvacuous :
  let os := [OInsert 1 7 10 0 100; OEvict 0 1 105 true] in
  Forall fits os /\ fst (step true (run true init os) (OFind 2 1 110 110)) = RHit 7 /\
  fst (step true (run true init os) (OFind 2 1 111 111)) = RExpired /\
  fst (step true (run true init os) (OExtend 2 1 50 108 108 109 true)) = RBool true /\
  fst (step true (run true init (os ++ [OExtend 2 1 50 108 108 109 true; OEvict 0 1 120 true]))
       (OFind 3 1 159 159)) = RHit 7.
Proof. cbn zeta. split; [repeat constructor|]. now vm_compute. Qed.

Print Assumptions C14_never_serves_expired.
Print Assumptions C14_never_expires_early.
Print Assumptions C14_reaper_removes_only_expired.
Print Assumptions C14_extension_takes_effect.
Print Assumptions C14_inspect_never_serves_expired_refuted.
Print Assumptions C14_ttl_overflow_refuted.
Print Assumptions C14_clock_set_back_refuted.
Print Assumptions C14_miss_then_insert_succeeds_refuted.
