(** C07: the tiny-LFU container keeps two queues; nothing is lost, duplicated or in both; admission
    to the main queue follows the frequency estimates. *)
From Coq Require Import Permutation.
From Verif Require Import Bytes DList_model DList_spec DList_proofs MMTinyLFU_model MMTinyLFU_spec MMTinyLFU_proofs MMTinyLFU_proofs2
  MMTinyLFU_proofs3 MMTinyLFU_proofs4.
From Verif Require CountMin_model.

(** Every history of calls behaves as the two abstract queues of MMTinyLFU_spec.v: same results, no
    null dereference, no access outside the counters, every item in exactly one queue. *)
Theorem C07_refines_queues : forall e c0 now cs, good_conf c0 = true -> roomy e c0 0 -> mlegals e (init_q e c0 now) cs ->
  exists s0 s, initLfu e c0 now = Some s0 /\ mexecs e s0 cs = Some (s, snd (spec_execs e (init_q e c0 now) cs)) /\
    shows e s (fst (spec_execs e (init_q e c0 now) cs)).
Proof. exact refines_queues. Qed.
Print Assumptions C07_refines_queues.

(** The eviction iterator offers every item that is inside (added and neither removed, evicted nor
    replaced since), and only those, each exactly once. *)
Theorem C07_membership : forall e c0 now cs s outs, reached e c0 now cs s outs ->
  exists l, evictionOrder e s = Some l /\ NoDup l /\
    forall n, (In n l <-> inside_after (combine cs outs) n = true) /\
              (inMM s n = true <-> inside_after (combine cs outs) n = true).
Proof. exact membership. Qed.
Print Assumptions C07_membership.

(** Removing through the eviction iterator takes out exactly that item; the queues keep their
    order and the iterator goes on with the rest of the eviction order. *)
Theorem C07_evict_continues : forall e c0 now cs s outs n, reached e c0 now cs s outs -> inMM s n = true ->
  exists s' it p r, evict e s n = Some (s', it) /\ evictionOrder e s = Some (p ++ n :: r) /\
    walkIt (total s') e s' it = Some r /\ inMM s' n = false /\ tiny s' n = false /\
    (forall i l, oldest_first s i = Some l -> oldest_first s' i = Some (remove_node l n)).
Proof. exact evict_continues. Qed.
Print Assumptions C07_evict_continues.

(** An access moves the item to the young end of its own queue and changes no other position. *)
Theorem C07_access_order : forall e c0 now cs s outs n t, reached e c0 now cs s outs -> inMM s n = true ->
  exists s', accessLocked e s n t = Some (s', true) /\ (forall x, tiny s' x = tiny s x) /\
    (forall i l, oldest_first s i = Some l -> oldest_first s' i = Some (if mem n l then remove_node l n ++ [n] else l)).
Proof. exact access_order. Qed.
Print Assumptions C07_access_order.

(** The first eviction candidate is the oldest main item if the oldest tiny item is estimated to be
    used more often (as often, with newcomer-wins), else the oldest tiny item. *)
Theorem C07_first_candidate : forall e c0 now cs s outs t m lt lm, reached e c0 now cs s outs ->
  oldest_first s Tiny = Some (t :: lt) -> oldest_first s Main = Some (m :: lm) ->
  exists ft fm l, estimate e s t = Some ft /\ estimate e s m = Some fm /\
   evictionOrder e s = Some ((if (if newcomerWins (cfg s) then fm <=? ft else fm <? ft)%N then m else t) :: l).
Proof. exact first_candidate. Qed.
Print Assumptions C07_first_candidate.

(** An add demotes at most the oldest main item, and only in favour of the oldest tiny item, which
    then is in main and has the higher estimate. *)
Theorem C07_admission : forall e c0 now cs s outs n t, reached e c0 now cs s outs -> inMM s n = false ->
  roomy e (cfg s) (S (total s)) ->
  exists s' s1, add e s n t = Some (s', true) /\ updateFreq e s n = Some s1 /\
   forall x, inMM s x = true -> tiny s x = false -> tiny s' x = true ->
    exists y lm fx fy, oldest_first s Main = Some (x :: lm) /\
     y = hd n (match oldest_first s Tiny with Some l => l | None => [] end) /\
     inMM s' y = true /\ tiny s' y = false /\ estimate e s1 x = Some fx /\ estimate e s1 y = Some fy /\
     (if newcomerWins (cfg s) then (fx <= fy)%N else (fx < fy)%N).
Proof. exact admission. Qed.
Print Assumptions C07_admission.

(** The tiny queue does not grow beyond its share of all items. *)
Theorem C07_tiny_size : forall e c0 now cs s outs n t s', reached e c0 now cs s outs -> add e s n t = Some (s', true) ->
  (N.of_nat (size (lst s' Tiny)) <= N.max (N.of_nat (size (lst s Tiny))) (tinyPct (cfg s) * N.of_nat (total s') / 100))%N.
Proof. exact tiny_size. Qed.
Print Assumptions C07_tiny_size.

(** Until counts are halved or restarted, the estimate of a key is at least the number of its adds
    and accesses; the number of counted events never exceeds those that happened. *)
Theorem C07_estimate_counts : forall e c0 now cs s outs n, reached e c0 now cs s outs ->
  let x := tally e (khash e n) (combine cs outs) in
  exists m, estimate e s n = Some m /\ (window s <= fst x)%N /\ (window s = fst x -> N.min CMAX (snd x) <= m)%N.
Proof. exact estimate_counts. Qed.
Print Assumptions C07_estimate_counts.

(** Counts are always halved before the window is exceeded. *)
Theorem C07_window_bound : forall e c0 now cs s outs, reached e c0 now cs s outs -> (window s < maxWindow s /\ 4 <= maxWindow s)%N.
Proof. exact window_bound. Qed.
Print Assumptions C07_window_bound.

(** Without the bound [roomy] on the number of counters the claim is false: with 2^25 items, window
    ratio 32 and the real formula, width * 4 is 2^32 and wraps to an empty table; the next access
    writes out of bounds. *)
Theorem C07_large_container_refuted :
  ~ (forall e c0 now cs s0, good_conf c0 = true -> raw e = realRaw -> initLfu e c0 now = Some s0 ->
      (forall n, ~ In (MEvict n) cs) -> mexecs e s0 cs <> None).
Proof.
  intros X. destruct overflow_history as (e & c0 & now & cs & s0 & A & B & C & D & E). exact (X e c0 now cs s0 A B C D E).
Qed.
Print Assumptions C07_large_container_refuted.

(** A concrete history meeting the hypotheses: adds with a contest, a restart, a replacement and an
    eviction from the middle. *)
Definition demo_env : env := mkEnv (fun n => N.of_nat n) (fun a b => (a * 7 + b * 3)%N) (fun w => (w / 32)%N).
Definition demo_conf : conf := mkConf 10 10 (fun a => a / 2)%N true true 2 30 100 false.
Definition demo_hist : list mcall :=
  [MAdd 1 1; MAdd 2 2; MAdd 3 3; MAdd 4 4; MAccessLocked 4 5; MAccessLocked 4 6; MAdd 5 7; MRecordAccess 2 false 20;
   MAdd 6 21; MAccessLocked 5 22; MAdd 7 23; MAdd 8 24; MRestart 30; MRecordAccess 6 true 45; MReplace 3 9; MRecordAccess 7 false 300;
   MAdd 10 301; MEvict 4; MRemove 2].
Definition roomyb (e : env) (c : conf) (k : nat) : bool := (raw e (N.max (N.of_nat k) 100 * windowRatio c) <=? 2 ^ 29)%N.
Definition mlegalb (e : env) (q : qt) (c : mcall) : bool :=
  match c with
  | MAdd n _ => roomyb e (qcfg q) (S (length (members q)))
  | MEvict n => mem n (members q)
  | MRestart _ => roomyb e (qcfg q) (length (members q))
  | _ => true
  end.
Fixpoint mlegalsb (e : env) (q : qt) (cs : list mcall) : bool :=
  match cs with [] => true | c :: r => mlegalb e q c && mlegalsb e (fst (spec_exec e q c)) r end.
Lemma mlegalsb_ok e cs : forall q, mlegalsb e q cs = true -> mlegals e q cs.
Proof.
  induction cs as [|c cs IH]; intros q X; [exact Logic.I|]. cbn [mlegalsb mlegals] in *. apply andb_true_iff in X as (A & B).
  split; [|exact (IH _ B)]. destruct c; try exact Logic.I; cbn [mlegalb mlegal] in *.
  - intros _. now apply N.leb_le.
  - now apply mem_in.
  - now apply N.leb_le.
Qed.
Lemma demo_of_run e c h l z o : good_conf c = true -> roomyb e c 0 = true -> mlegalsb e (init_q e c 0) h = true ->
  (let* s0 := initLfu e c 0 in let* (s, outs) := mexecs e s0 h in
   let* l := evictionOrder e s in Some (l, size (lst s Tiny), nth 17 outs MUnit)) = Some (l, z, o) ->
  exists s outs, reached e c 0 h s outs /\ evictionOrder e s = Some l /\ size (lst s Tiny) = z /\ nth 17 outs MUnit = o.
Proof.
  intros G R0 L E. apply mlegalsb_ok in L. destruct (initLfu e c 0) as [s0|] eqn:E0; [|discriminate].
  destruct (mexecs e s0 h) as [(s, outs)|] eqn:E1; [|discriminate].
  destruct (evictionOrder e s) as [l'|] eqn:E2; [|discriminate]. injection E as E3 E4 E5. subst l'.
  exists s, outs. split; [|auto]. split; [exact G|]. split; [now apply N.leb_le|]. split; [exact L|]. exists s0. auto.
Qed.
Example C07_demo : exists s outs, reached demo_env demo_conf 0 demo_hist s outs /\
  evictionOrder demo_env s = Some [1; 5; 9; 7; 10; 6; 8] /\ size (lst s Tiny) = 2 /\ nth 17 outs MUnit = MPtr (Some 7).
Proof. apply demo_of_run; vm_compute; reflexivity. Qed.
