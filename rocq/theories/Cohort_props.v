(** C54: the double reference count behind switchCohorts. *)
From Coq Require Import List ZArith Bool.
Import ListNotations.
From Verif Require Import Cohort_model Cohort_spec Cohort_proofs.
Open Scope Z_scope.

(** The two counts in the word are right at every moment, whatever the interleaving. *)
Theorem C54_exact : forall n s t, fits n -> reachable n s -> pending (word s) t = Z.of_nat (users t s).
Proof. exact exact_counts. Qed.
Print Assumptions C54_exact.

(** Exactly one cohort is the current one. *)
Theorem C54_one_cohort : forall n s, fits n -> reachable n s -> isBottom (word s) = negb (isTop (word s)).
Proof. exact one_cohort. Qed.
Print Assumptions C54_one_cohort.

(** switchCohorts does not return before every token handed out before it began is given back: as long as the holder [i] does nothing,
    no call returns, whatever the others do. *)
Theorem C54_waits : forall n s s' i t l, fits n -> reachable n s -> waiting s = 0%nat -> nth_error (reqs s) i = Some (Holds t) ->
  oneAtATime s l -> ~ In (Req i) l -> run s l = Some s' -> returns s' = returns s.
Proof. exact waits. Qed.
Print Assumptions C54_waits.

(** While no call is under way (so also when one has just returned), every token held is of the current cohort. *)
Theorem C54_drained : forall n s i t, fits n -> reachable n s -> waiting s = 0%nat -> nth_error (reqs s) i = Some (Holds t) -> t = isTop (word s).
Proof. exact current. Qed.
Print Assumptions C54_drained.

(** A token is always handed out for the cohort current at that moment. *)
Theorem C54_joins : forall n s s' i t, fits n -> reachable n s -> step s (Req i) = Some s' -> nth_error (reqs s') i = Some (Holds t) ->
  isTop (word s') = t /\ isTop (word s) = t.
Proof. exact joins. Qed.
Print Assumptions C54_joins.

(** A waiting call returns at its next look once nobody uses the old cohort, and every user of it is out with its own next operation. *)
Theorem C54_finishes : forall n s, fits n -> reachable n s -> waiting s <> 0%nat -> users (negb (isTop (word s))) s = 0%nat ->
  exists s', step s Poll = Some s' /\ waiting s' = 0%nat /\ returns s' = S (returns s) /\ reqs s' = reqs s.
Proof. exact finishes. Qed.
Print Assumptions C54_finishes.
Theorem C54_releases : forall s i t, nth_error (reqs s) i = Some (Holds t) \/ nth_error (reqs s) i = Some (Undo t) ->
  exists s', step s (Req i) = Some s' /\ nth_error (reqs s') i = Some Out.
Proof. exact releases. Qed.
Print Assumptions C54_releases.

(** A request gets its token at the first try unless a switch came between its two operations. *)
Theorem C54_no_retry : forall n s s1 s2 s3 i l, fits n -> reachable n s -> nth_error (reqs s) i = Some Out -> step s (Req i) = Some s1 ->
  oneAtATime s1 l -> ~ In (Req i) l -> ~ In Switch l -> run s1 l = Some s2 -> step s2 (Req i) = Some s3 -> exists t, nth_error (reqs s3) i = Some (Holds t).
Proof. exact no_retry. Qed.
Print Assumptions C54_no_retry.

(** REFUTED without "one at a time": two calls of switchCohorts at once both return although a token given out before them is still held. *)
Theorem C54_two_switchers_refuted : exists l s, run (start 1) l = Some s /\ returns s = 2%nat /\ waiting s = 0%nat /\ nth_error (reqs s) 0 = Some (Holds false).
Proof. exact two_switchers. Qed.
Print Assumptions C54_two_switchers_refuted.

(** Non-vacuity: a request loads, a switch comes, another holds the old cohort, the first undoes and gets the new one, the call waits and returns. *)
Definition demo : list event := [Req 1%nat; Req 1%nat; Req 0%nat; Switch; Req 0%nat; Poll; Req 0%nat; Req 0%nat; Req 0%nat; Poll; Req 1%nat; Poll].
Example C54_meets : fits 2 /\ oneAtATime (start 2) demo.
Proof. split; [reflexivity|]. unfold demo. cbn [oneAtATime]. repeat (split; [intros X; try discriminate X; reflexivity|]; match goal with |- context [step ?a ?b] => let v := eval vm_compute in (step a b) in change (step a b) with v end; cbn [oneAtATime]). exact I. Qed.
Example C54_waiting : match run (start 2) (firstn 10 demo) with
  Some s => waiting s = 1%nat /\ returns s = 0%nat /\ pending (word s) false = 1 /\ pending (word s) true = 1 /\ reqs s = [Holds true; Holds false] | None => False end.
Proof. vm_compute. repeat split; reflexivity. Qed.
Example C54_returned : match run (start 2) demo with Some s => waiting s = 0%nat /\ returns s = 1%nat /\ reqs s = [Holds true; Out] | None => False end.
Proof. vm_compute. repeat split; reflexivity. Qed.
