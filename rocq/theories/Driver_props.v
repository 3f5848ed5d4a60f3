(** * C35: admission accounting of the flash driver. *)
From Coq Require Import List NArith Bool Lia.
Import ListNotations.
From Verif Require Import Driver_model Driver_spec Driver_proofs.
Local Open Scope N_scope.

(** At every moment of every interleaving the outstanding inserts are within both limits. *)
Theorem C35_limits g s : reach g s ->
  outstanding_bytes s <= maxParcelMemory g /\ outstanding_count s <= maxConcurrentInserts g.
Proof. intro R. exact (conj (bytes_bound g s R) (count_bound g s R)). Qed.

(** The counters are exactly what the calls in progress reserved and have not given back
    (no wrap-around, nothing released twice or forgotten). *)
Theorem C35_exact g s : reach g s ->
  parcelMemory s = total_size (filter holds_memory (calls s)) /\
  concurrentInserts s = N.of_nat (length (filter holds_slot (calls s))).
Proof. intro R. destruct (reach_inv g s R) as [H1 H2 _ _ _ _ _]. exact (conj H1 H2). Qed.

(** When nothing is in progress both are zero again. *)
Theorem C35_released g s : reach g s -> quiescent s -> parcelMemory s = 0 /\ concurrentInserts s = 0.
Proof. exact (quiet g s). Qed.

(** With nothing in progress, an insert the policy accepts and that fits the limits is admitted:
    its whole admission run ends Outstanding, never in a rejection. *)
Theorem C35_admits_when_idle g s ks vs :
  reach g s -> quiescent s -> ks <= maxKeySize g -> ks + vs < W ->
  ks + vs <= maxParcelMemory g -> 1 <= maxConcurrentInserts g ->
  admit g true (add_fetch (parcelMemory s) (ks + vs)) (add_fetch (concurrentInserts s) 1) = true.
Proof.
  intros R Q Hk Hw Hm Hc. destruct (quiet g s R Q) as [-> ->].
  unfold admit, add_fetch. rewrite !N.add_0_l, (N.mod_small _ _ Hw).
  rewrite (N.mod_small 1) by (unfold W; lia).
  apply N.leb_le in Hm, Hc. now rewrite Hm, Hc.
Qed.

(** Two concurrent inserts of 6 bytes against a limit of 10: the second, which observes 12, is
    rejected and gives its reservation back. *)
Example C35_ex :
  let g := mkCfg 10 5 100 in
  reach g (mkSt 6 1 [mkCall 6 (Outstanding 6 1); mkCall 6 Rejected]).
Proof.
  intro g. pose proof (r_init g) as R.
  assert (R1 : reach g (mkSt 6 0 [mkCall 6 (Added 6)])).
  { refine (r_step _ _ _ R (s_add g 0 0 [] 2 4 _ _ _)); [now vm_compute| |]; vm_compute; reflexivity. }
  assert (R2 : reach g (mkSt 12 0 [mkCall 6 (Added 6); mkCall 6 (Added 12)])).
  { refine (r_step _ _ _ R1 (s_add g 6 0 [mkCall 6 (Added 6)] 2 4 _ _ _)); [now vm_compute| |]; vm_compute; reflexivity. }
  pose proof (r_step _ _ _ R2 (s_test g 12 0 [] 6 6 [mkCall 6 (Added 12)])) as R3.
  pose proof (r_step _ _ _ R3 (s_test g 12 1 [mkCall 6 (Tested 6 1)] 6 12 [])) as R4.
  pose proof (r_step _ _ _ R4 (s_admit g 12 2 [] 6 6 1 [mkCall 6 (Tested 12 2)] true eq_refl)) as R5.
  pose proof (r_step _ _ _ R5 (s_reject1 g 12 2 [mkCall 6 (Outstanding 6 1)] 6 12 2 [] true eq_refl)) as R6.
  exact (r_step _ _ _ R6 (s_reject2 g 12 1 [mkCall 6 (Outstanding 6 1)] 6 [])).
Qed.

Print Assumptions C35_limits.
Print Assumptions C35_exact.
Print Assumptions C35_released.
Print Assumptions C35_admits_when_idle.
