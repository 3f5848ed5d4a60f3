(** C24: theorems on the count-min sketch. *)
From Verif Require Import Bytes CountMin_model CountMin_spec CountMin_proofs.

(** For every history of increments, single-key resets, decays and full resets on a sketch whose
    table fits in 32 bits, no access leaves the table, and the count reported for any key is at
    least the (capped, decayed) number of its increments since the last reset of anything, and at
    most everything counted, and never above the counter's maximum.  [h] is any hash. *)
Theorem C24_never_underestimates :
  forall (cmax : N) (h : N -> N -> N) (w d : N) (s : sketch) (cs : list call) (k : N),
  (0 < cmax)%N -> create w d = Some s -> (w * d < two32)%N -> Forall decaying cs ->
  exists s' m, execs cmax h s cs = Some s' /\ getCount cmax h s' k = Some m /\
    (lo cmax k 0 cs <= m /\ m <= N.min cmax (hi 0 cs))%N.
Proof. intros. eapply never_under; eauto. Qed.
Print Assumptions C24_never_underestimates.

(** Without resets/decays: at least the number of increments of [k], at most all of them. *)
Corollary C24_counts :
  forall (cmax : N) (h : N -> N -> N) (w d : N) (s : sketch) (ks : list N) (k : N),
  (0 < cmax)%N -> create w d = Some s -> (w * d < two32)%N ->
  exists s' m, execs cmax h s (map Inc ks) = Some s' /\ getCount cmax h s' k = Some m /\
    (N.min cmax (N.of_nat (count_occ N.eq_dec ks k)) <= m)%N /\ (m <= N.min cmax (N.of_nat (length ks)))%N.
Proof.
  intros cmax h w d s ks k P C B.
  destruct (never_under cmax h P w d s (map Inc ks) k C B) as (s' & m & E & G & L & H).
  { apply Forall_forall. intros c X. apply in_map_iff in X as (x & <- & _). exact I. }
  exists s', m. split; [exact E|]. split; [exact G|].
  assert (HL : forall l a, (a <= cmax)%N -> lo cmax k a (map Inc l) = N.min cmax (a + N.of_nat (count_occ N.eq_dec l k))).
  { induction l as [|x l IH]; intros a A; cbn [map lo count_occ]; [cbn; lia|].
    destruct (N.eqb_spec x k); destruct (N.eq_dec x k); try congruence.
    - rewrite IH by lia. rewrite Nat2N.inj_succ. lia.
    - apply IH; auto. }
  assert (HH : forall l a, hi a (map Inc l) = (a + N.of_nat (length l))%N).
  { induction l as [|x l IH]; intros a; cbn [map hi length]; [cbn; lia|]. rewrite IH, Nat2N.inj_succ. lia. }
  rewrite HL in L by lia. rewrite HH in H. lia.
Qed.

(** In every reachable state: an increment raises its own key's count by exactly one (up to the
    maximum), and no other key's count falls or rises by more than one. *)
Theorem C24_increment :
  forall (cmax : N) (h : N -> N -> N) (w d : N) (s0 s : sketch) (cs : list call) (k m : N),
  (0 < cmax)%N -> create w d = Some s0 -> (w * d < two32)%N -> Forall decaying cs ->
  execs cmax h s0 cs = Some s -> getCount cmax h s k = Some m ->
  exists s', increment cmax h s k = Some s' /\ getCount cmax h s' k = Some (N.min cmax (m + 1)) /\
    forall k' n, getCount cmax h s k' = Some n ->
      exists n', getCount cmax h s' k' = Some n' /\ (n <= n' /\ n' <= n + 1)%N.
Proof.
  intros cmax h w d s0 s cs k m P C B D E G.
  destruct (increment_effect cmax h P s k m (reachable_ok cmax h P w d s0 cs s C B D E) G) as (s' & E' & _ & H).
  exists s'. tauto.
Qed.

(** In every reachable state: resetting a key's count makes it exactly zero, without underflow,
    and other keys never gain and lose at most that count. *)
Theorem C24_reset_key :
  forall (cmax : N) (h : N -> N -> N) (w d : N) (s0 s : sketch) (cs : list call) (k m : N),
  (0 < cmax)%N -> create w d = Some s0 -> (w * d < two32)%N -> Forall decaying cs ->
  execs cmax h s0 cs = Some s -> getCount cmax h s k = Some m ->
  exists s', resetCount cmax h s k = Some s' /\ getCount cmax h s' k = Some 0%N /\
    forall k' n, getCount cmax h s k' = Some n ->
      exists n', getCount cmax h s' k' = Some n' /\ (n - m <= n' /\ n' <= n)%N.
Proof.
  intros cmax h w d s0 s cs k m P C B D E G.
  destruct (reset_effect cmax h P s k m (reachable_ok cmax h P w d s0 cs s C B D E) G) as (s' & E' & _ & H).
  exists s'. tauto.
Qed.

(** A default-constructed (or moved-from) sketch reports 0 for every key and ignores increments. *)
Theorem C24_empty_sketch : forall (cmax : N) (h : N -> N -> N) (k : N),
  getCount cmax h emptySketch k = Some 0%N /\ increment cmax h emptySketch k = Some emptySketch.
Proof. intros. split; reflexivity. Qed.

(** Without the size bound the claim is false: width * depth is computed in 32 bits.
    A 65536 x 65536 sketch gets an empty table and the first increment writes outside it. *)
Theorem C24_large_sketch_refuted :
  exists w d s, create w d = Some s /\ (w < two32)%N /\ (d < two32)%N /\
    forall cmax h k, execs cmax h s [Inc k] = None.
Proof.
  exists 65536%N, 65536%N. eexists. split; [reflexivity|].
  split; [reflexivity|]. split; [reflexivity|]. intros. cbn [execs exec].
  unfold increment, rows. cbn [depth]. change (N.to_nat 65536) with (N.to_nat (N.succ 65535)).
  rewrite N2Nat.inj_succ. cbn [seq map loop]. unfold incRow, rdCell. cbn [tsize].
  change (wrap32 (65536 * 65536)) with 0%N.
  match goal with |- context [(?x <? 0)%N] => assert (Q : (x <? 0)%N = false) by (apply N.ltb_ge; lia); rewrite Q end.
  reflexivity.
Qed.

(** "since its own last reset" would be false: resetting one key can bring another key's count
    below its number of increments (they share a cell). *)
Theorem C24_reset_other_key_refuted :
  exists s s' m, create 2 1 = Some s /\
    execs 255 (fun _ k => k) s [Inc 0%N; Inc 0%N; Inc 2%N; ResetKey 2%N] = Some s' /\
    getCount 255 (fun _ k => k) s' 0%N = Some m /\ (m < 2)%N.
Proof. do 3 eexists. split; [reflexivity|]. split; [vm_compute; reflexivity|]. split; [vm_compute; reflexivity|]. lia. Qed.

(** The saturation statistic is not lowered by reset(): after a full reset it still reports the
    counters that had saturated although every count is zero. *)
Theorem C24_saturated_after_reset_refuted :
  exists s s', create 1 1 = Some s /\
    execs 3 (fun _ k => k) s [Inc 7%N; Inc 7%N; Inc 7%N; Reset] = Some s' /\
    getCount 3 (fun _ k => k) s' 7%N = Some 0%N /\ saturated s' = 1%N.
Proof. do 2 eexists. split; [reflexivity|]. split; [vm_compute; reflexivity|]. split; vm_compute; reflexivity. Qed.

(** Non-vacuity: a 4x3 sketch, a hash with collisions, all kinds of calls. *)
Example C24_demo :
  let h := fun i k => (i * 5 + k * 3)%N in
  exists s s', create 4 3 = Some s /\
    Forall decaying [Inc 1%N; Inc 5%N; Inc 1%N; Decay (fun x => x / 2)%N; Inc 5%N; ResetKey 5%N; Inc 1%N] /\
    execs 255 h s [Inc 1%N; Inc 5%N; Inc 1%N; Decay (fun x => x / 2)%N; Inc 5%N; ResetKey 5%N; Inc 1%N] = Some s' /\
    getCount 255 h s' 1%N = Some 1%N /\ getCount 255 h s' 2%N = Some 0%N /\
    lo 255 1 0 [Inc 1%N; Inc 5%N; Inc 1%N; Decay (fun x => x / 2)%N; Inc 5%N] = 1%N.
Proof.
  cbv zeta. do 2 eexists. split; [reflexivity|]. split.
  - repeat constructor.
    + intros x. apply N.div_le_upper_bound; lia.
    + intros x y H. apply N.div_le_mono; lia.
  - split; [vm_compute; reflexivity|]. repeat split; vm_compute; reflexivity.
Qed.

Print Assumptions C24_counts.
Print Assumptions C24_increment.
Print Assumptions C24_reset_key.
Print Assumptions C24_empty_sketch.
Print Assumptions C24_large_sketch_refuted.
Print Assumptions C24_reset_other_key_refuted.
Print Assumptions C24_saturated_after_reset_refuted.
