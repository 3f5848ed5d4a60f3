(** C49: a compact cache resized while it is in use. *)
From Coq Require Import List Arith Bool Lia.
Import ListNotations.
From Verif Require Import CCResize_model CCResize_spec CCResize_proofs1 CCResize_proofs2 CCResize_proofs3 CCResize_proofs4 CCResize_proofs5 CCResize_proofs6.

(** No call ever touches the memory of a chunk that has been given back. *)
Theorem C49_no_use_after_release : forall home n s e, inRange home -> 0 < n -> reach home calm (init n) s -> step home s e <> Some Bad.
Proof. intros home n s e H. exact (safe home H n s e). Qed.
Print Assumptions C49_no_use_after_release.

(** After resize has waited, every call that holds a token got it after the switch; whatever the sizes and the schedule. *)
Theorem C49_waited : forall home n s P a m ph o, reach home P (init n) s -> cur s = Some (a, m, ph) -> waited ph = true ->
  In o (ops s) -> holds o = true -> te o = xors s.
Proof. intros home n s P a m ph o. exact (drained home n s P a m ph o). Qed.
Print Assumptions C49_waited.

(** No get finds a value that was replaced or removed before the get began, if no set or del of the key is under way at the store of the number of chunks. *)
Theorem C49_no_stale : forall home n s, inRange home -> 0 < n -> reach home (fun s e => calm s e /\ noStraddle s e) (init n) s -> ~ stale s.
Proof. intros home n s H. exact (no_stale home H n s). Qed.
Print Assumptions C49_no_stale.

(** What a get finds was set, in any run. *)
Theorem C49_found_was_set : forall home n s P g i, reach home P (init n) s -> In (g, Some i) (gets s) -> exists o, In o (ops s) /\ kd o = Set_ /\ st o = i.
Proof. intros home n s P g i. exact (found_set home n s P g i). Qed.
Print Assumptions C49_found_was_set.

(** When nothing is written and every entry is copied, gets before, during and after any resizes find the entry. *)
Theorem C49_lossless : forall home n s0 s i g v, inRange home -> 0 < n -> reach home (fun s e => calm s e /\ noStraddle s e) (init n) s0 -> quiet s0 ->
  ent s0 (home (num s0)) = Some i -> reach home readOnly s0 s -> In (g, v) (gets s) -> now s0 <= g -> v = Some i.
Proof. intros home n s0 s i g v H. exact (lossless home H n s0 s i g v). Qed.
Print Assumptions C49_lossless.

(** When a resize is over the cache has and uses the chunks it was resized to, and nothing is pending. *)
Theorem C49_over : forall home n s m b x s', inRange home -> 0 < n -> reach home calm (init n) s -> step home s (ERes b x) = Some (Ok s') -> finished m s s' -> settled m s'.
Proof. intros home n s m b x s' H. exact (over home H n s m b x s'). Qed.
Print Assumptions C49_over.

Ltac walk l := eapply runs_reach with (es := l); [apply reach0|vm_compute; reflexivity|].

(** A set, a resize from one chunk to two with gets before, in the old bucket after the store, and after: all find the entry. *)
Example ex_quiet : reach hm (fun s e => calm s e /\ noStraddle s e) (init 1) s1 /\ quiet s1 /\ ent s1 (hm (num s1)) = Some 1.
Proof.
  split; [walk g1; vm_compute; intuition|]. split; [|vm_compute; reflexivity].
  vm_compute. repeat split; auto. intros o [<-|[]]. reflexivity.
Qed.
Example ex_ro : reach hm readOnly s1 s2 /\ gets s2 = [(37, Some 1); (22, Some 1); (11, Some 1)] /\ settled 2 s2 /\ now s1 = 8.
Proof. split; [walk g2; vm_compute; intuition|]. repeat split; vm_compute; reflexivity. Qed.
(** A set and a del that both return, the del while entries are copied; then a get finds nothing. *)
Example ex_calm : reach hm (fun s e => calm s e /\ noStraddle s e) (init 1) s4 /\ done s4 = [(14, 22); (1, 7)] /\ gets s4 = [(26, None)].
Proof.
  split; [|split; vm_compute; reflexivity]. walk inTime. vm_compute.
  repeat match goal with |- _ /\ _ => split | |- True => exact I | |- _ = _ => reflexivity | |- _ <= _ => lia end;
  intros o Ho [H1 H2]; destruct Ho as [<-|[<-|[]]]; exact H2.
Qed.

(** Otherwise a del that returned is undone: it had looked up its first bucket before the store, and its second after it, in the same chunk. *)
Theorem C49_no_stale_refuted : exists home n s, inRange home /\ 0 < n /\ reach home calm (init n) s /\ stale s.
Proof.
  exists hm, 1, s3. split; [exact hm_range|]. split; [lia|]. split; [walk straddle; vm_compute; intuition|].
  exists 25, 1, 16, 24, 7. vm_compute. repeat split; auto; lia.
Qed.
Print Assumptions C49_no_stale_refuted.

(** A cache that is resized to nothing: a call that had seen chunks uses one that has been given back. *)
Theorem C49_disable_refuted : exists home n s e, inRange home /\ 0 < n /\ reach home calmZero (init n) s /\ step home s e = Some Bad.
Proof.
  exists hm, 1, s5, (EStep 0 false). split; [exact hm_range|]. split; [lia|]. split; [walk disable; vm_compute; intuition|]. vm_compute. reflexivity.
Qed.
Print Assumptions C49_disable_refuted.

(** Two calls of resize at a time: the second ends with an exception and leaves the pending number of chunks set. *)
Theorem C49_overlap_refuted : exists home n s, inRange home /\ 0 < n /\ reach home calmTwo (init n) s /\ cur s = None /\ calls s = [] /\ ~ settled (num s) s.
Proof.
  exists hm, 3, s6. split; [exact hm_range|]. split; [lia|]. split; [walk two; vm_compute; intuition|]. repeat split; try (vm_compute; reflexivity).
  intros [_ [_ H]]. vm_compute in H. discriminate.
Qed.
Print Assumptions C49_overlap_refuted.

(** The pool shrinks again while a resize runs: chunks in use are given back. *)
Theorem C49_pool_refuted : exists home n s e, inRange home /\ 0 < n /\ reach home calmPool (init n) s /\ step home s e = Some Bad.
Proof.
  exists hm, 3, s7, (EStep 0 false). split; [exact hm_range|]. split; [lia|]. split; [walk again; vm_compute; intuition|]. vm_compute. reflexivity.
Qed.
Print Assumptions C49_pool_refuted.
