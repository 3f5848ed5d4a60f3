(** C44: handles whose item is still being fetched from flash. *)
From Coq Require Import List Arith ZArith Bool Lia.
Import ListNotations.
From Verif Require Import AsyncHdl_model AsyncHdl_spec AsyncHdl_proofs7 AsyncHdl_proofs8.

(** No reference is ever taken from or given back to a freed item; an item somebody
    holds is alive; when all handles, futures and fetches are gone every item has been
    given back, and the number of active handles is minus the number of futures that
    were destroyed with their item in them. *)
Theorem C44_references_are_accounted_for : forall maxRef s tr, history maxRef s tr ->
  ~ In EBad tr /\ (forall i, held s i -> 0 < refs s i) /\
  (quiet s -> (forall i, refs s i = 0) /\ total s = (- Z.of_nat (dropped tr))%Z).
Proof. exact no_bad. Qed.
Print Assumptions C44_references_are_accounted_for.

(** A handle gives the item its fetch brought, and a miss only if it brought none (or
    a reference count overflowed). *)
Theorem C44_right_value : forall maxRef s tr, history maxRef s tr -> right_value tr.
Proof. exact right_values. Qed.
Print Assumptions C44_right_value.

(** All looks at one handle, or at the future made of it, agree; ready stays ready. *)
Theorem C44_one_answer : forall maxRef s tr, history maxRef s tr -> one_answer tr.
Proof. exact one_answers. Qed.
Print Assumptions C44_one_answer.

(** Once the fetch is over every handle that waited for it has its answer, except at
    most one per fetch: that at which a reference count overflowed.  Only such a handle
    can break a promise or be destroyed unresolved. *)
Theorem C44_everyone_is_answered_except_one_on_overflow : forall maxRef s tr, history maxRef s tr ->
  (forall f c, In (EClosed f) tr -> In (EFind c f) tr -> ~ In (EOver f c) tr -> answered maxRef s c) /\
  (forall f c c', In (EOver f c) tr -> In (EOver f c') tr -> c = c') /\
  (forall c f, In (EFind c f) tr -> In (EBroken c) tr \/ In (EUnresolved c) tr -> In (EOver f c) tr).
Proof. exact all_answered. Qed.
Print Assumptions C44_everyone_is_answered_except_one_on_overflow.

(** Nothing users do can keep a fetch from ending: from every state its own steps
    lead to its end. *)
Theorem C44_fetch_can_always_finish : forall maxRef s tr c f, history maxRef s tr -> In (EFind c f) tr ->
  exists acts s' e, (forall a, In a acts -> a = AClose f \/ a = AWake f) /\
    run maxRef s acts = Some (s', e) /\ In (EClosed f) (tr ++ e).
Proof. exact fetch_finishes. Qed.
Print Assumptions C44_fetch_can_always_finish.

(** wentToNvm() is true on a ready handle that came from flash. *)
Theorem C44_wentToNvm_when_ready : forall maxRef s tr c f b, history maxRef s tr ->
  In (EFind c f) tr -> no_overflow tr f -> In (EWent c true b) tr -> b = true.
Proof. exact went. Qed.
Print Assumptions C44_wentToNvm_when_ready.

(** Refuted: that a waiter at which the count overflows gets a miss, as the comment in
    wakeUpWaiters says.  With any limit, a user who cloned a handle up to the limit leaves
    the next waiter of the same fetch blocked for ever. *)
Theorem C44_overflow_is_a_miss_refuted : forall maxRef, 2 <= maxRef -> exists s tr,
  history maxRef s tr /\ In (EFind 1 0) tr /\ In (EFilled 0 0) tr /\ In (EClosed 0) tr /\ In (EBlock 1) tr /\
  forall acts s' e, run maxRef s acts = Some (s', e) -> cwait (ctxs s' 1) = true /\ forall v, ~ In (EGot 1 v) (tr ++ e).
Proof. exact overflow_blocks. Qed.
Print Assumptions C44_overflow_is_a_miss_refuted.

(** Refuted: that a future always gets a value. *)
Theorem C44_future_gets_a_value_refuted : forall maxRef, 3 <= maxRef -> exists s tr,
  history maxRef s tr /\ In (EFind 1 0) tr /\ In (EFilled 0 0) tr /\ In (EConv 1) tr /\ In (EBroken 1) tr.
Proof. exact overflow_breaks. Qed.
Print Assumptions C44_future_gets_a_value_refuted.

(** Refuted: that the cache can be shut down once nobody has a handle.  A future
    destroyed with its item not taken out leaves the number of active handles at -1. *)
Theorem C44_shutdown_when_all_released_refuted : forall maxRef, 3 <= maxRef -> exists s tr,
  history maxRef s tr /\ quiet s /\ (forall i, refs s i = 0) /\ total s = (-1)%Z /\ shutdown_refused s.
Proof. exact dropped_future. Qed.
Print Assumptions C44_shutdown_when_all_released_refuted.

(** Refuted: that wentToNvm() tells of a handle that is still pending. *)
Theorem C44_wentToNvm_when_pending_refuted : forall maxRef, exists s tr,
  history maxRef s tr /\ In (EFind 0 0) tr /\ In (EWent 0 false false) tr.
Proof. exact went_pending. Qed.
Print Assumptions C44_wentToNvm_when_pending_refuted.

(** Two waiters, one of them as a future, an item arrives, all is given back. *)
Definition demo : list action :=
  [AFind; AFind; AConvert 1; AReset 1; AWait 0; AFill 0; AClose 0;
   AWake 0; AWake 0; AWake 0; AWake 0; AWake 0; AWake 0; AWake 0; AWake 0; AWake 0; AWake 0;
   AWake 0; AAwake 0; AWent 0; AClone 0; ATake 1; AReset 0; AFree 0; AFree 0; AWake 0; AWake 0].
Example C44_demo : exists s, run 5 init demo =
  Some (s, [EFind 0 0; EFind 1 0; EConv 1; EBlock 0; EFilled 0 0; EFut 1 (Some 0); EGot 0 (Some 0); EWent 0 true true;
            ETaken 1 (Some 0); EClosed 0]) /\ total s = 0%Z /\ refs s 0 = 0 /\ plain s = [].
Proof. eexists. split; [vm_compute; reflexivity|]. vm_compute. auto. Qed.
Example C44_demo_quiet : exists s tr, history 5 s tr /\ In (EGot 0 (Some 0)) tr /\ In (EClosed 0) tr /\ dropped tr = 0 /\ total s = 0%Z.
Proof.
  eexists. eexists. split; [exists demo; vm_compute; reflexivity|].
  repeat split; try reflexivity; cbn; auto 12.
Qed.
