(** C19: the item destructor runs exactly once. *)
From Coq Require Import List Arith Bool.
Import ListNotations.
From Verif Require Import Destr_model Destr_spec Destr_proofs9.

(** In every interleaving of calls, evictions, fills, flash jobs, drops and callbacks without the hazards
    of [Destr_spec.hazard]: the destructor runs at most once for each item. *)
Theorem C19_at_most_once : forall l s tr id,
  run init l = Some (s, tr) -> calm init l -> destructions id tr <= 1.
Proof. intros l s tr id R C. exact (at_most_once l s tr R C id). Qed.

(** When nothing is in progress any more: it has run once for each inserted item the cache no longer has, and
    never for one it still has, in RAM or on flash. *)
Theorem C19_exactly_once : forall l s tr, run init l = Some (s, tr) -> calm init l ->
  forall id, quiet s -> In (Inserted id) tr ->
  (inCache s id /\ destructions id tr = 0) \/ (~ inCache s id /\ destructions id tr = 1).
Proof. exact quiet_cases. Qed.

(** It never runs before its time: not for an item a find returns, nor for a removed or replaced item somebody still has a
    handle to ... *)
Theorem C19_not_early : forall l s tr, run init l = Some (s, tr) -> calm init l ->
  (forall it, findRam s = Some it -> destructions (iid it) tr = 0) /\ (forall id, In id (loose s) -> destructions id tr = 0).
Proof.
  intros l s tr R C. split.
  - intros it F. apply (held_zero l s tr R C). apply (ram_hold l s tr R C). exact F.
  - intros id I. apply (held_zero l s tr R C). unfold Destr_proofs.hold. apply in_or_app. right. apply in_or_app. left. exact I.
Qed.

(** ... and only for items inserted before. *)
Theorem C19_only_inserted : forall l s tr t1 id t2,
  run init l = Some (s, tr) -> calm init l -> tr = t1 ++ Destructed id :: t2 -> In (Inserted id) t1.
Proof. exact only_inserted. Qed.

(** *** The hypotheses are met: a run with a copy on flash filled back, replaced while on flash, dropped, removed. *)
Definition insertAll := ASpawn CInsert :: repeat (AMut 0 false) 7.
Definition toFlash := [ASpawn (CEvict true); AEv 0 true; AEv 0 true; AEv 0 true; AEv 0 true; AEv 0 true; AIns InsOk; ACb true].
Definition fillIn := [AFindFill; AFindEnq; ALook; ACb true; ACb true; ACb true; ACb true].
Definition remJob := [ARem true; ACb true; ACb true; ACb true].
Definition dropAll := [ADrop; APendInval 0; APendCb 0].
(* insertOrReplace over a copy on flash: the removal part queues a remove job *)
Definition replace_ := ASpawn CInsert :: repeat (AMut 0 false) 8.
Definition example : list action :=
  insertAll ++ toFlash ++ fillIn ++ replace_ ++ [ARelease 0] ++ remJob ++ toFlash ++ dropAll ++ insertAll ++ toFlash ++ fillIn
  ++ dropAll ++ [ASpawn CRemove] ++ repeat (AMut 0 false) 4 ++ repeat (AMut 0 false) 4 ++ [ARelease 0] ++ insertAll.
Definition calmb : state -> list action -> bool :=
  fix f s l := match l with [] => true | a :: r => negb (hazard s a) && match step s a with Some (s1, _) => f s1 r | None => true end end.
Lemma calmb_ok l : forall s, calmb s l = true -> calm s l.
Proof. induction l as [|a l IH]; intros s; cbn; auto. intro E. apply andb_prop in E. destruct E as [A B]. apply negb_true_iff in A. split; auto. destruct (step s a) as [[s1 e]|]; auto. Qed.
Definition calmButb (k : action -> bool) : state -> list action -> bool :=
  fix f s l := match l with [] => true | a :: r => (negb (hazard s a) || k a) && match step s a with Some (s1, _) => f s1 r | None => true end end.
Lemma calmButb_ok k l : forall s, calmButb k s l = true -> calmBut k s l.
Proof.
  induction l as [|a l IH]; intros s; cbn; auto. intro E. apply andb_prop in E. destruct E as [A B]. split; [intro Z; rewrite Z in A; exact A|]. destruct (step s a) as [[s1 e]|]; auto.
Qed.
Example C19_example : exists s, calm init example /\ quiet s /\ findRam s <> None
  /\ run init example = Some (s, [Inserted 0; Inserted 1; Destructed 0; Destructed 1; Inserted 2; Destructed 2; Inserted 3]).
Proof. eexists. split; [apply calmb_ok; vm_compute; reflexivity|]. split; [|split]; [| | vm_compute; reflexivity]; vm_compute; [repeat split | discriminate]. Qed.

(** *** Each of the hazards is real: alone, it breaks the property. *)
Ltac forget := split; [apply calmButb_ok; vm_compute; reflexivity|]; eexists; eexists; exists 0; split; [vm_compute; reflexivity|];
  split; [vm_compute; repeat split|]; split; [vm_compute; auto 20|]; split; [|vm_compute; reflexivity]; vm_compute; intros [(it & E & F)|E]; [inversion E; subst; discriminate | discriminate].

(** Two mutating calls on the same key overlap: the second insertOrReplace replaces the first one's item, which is
    not NvmClean, so it tells flash nothing; the new item is evicted and silently overwrites the old copy on flash
    before the first call has come to its removal. *)
Theorem C19_overlapping_calls_refuted : exists l,
  calmBut (fun a => match a with ASpawn _ => true | _ => false end) init l /\ forgotten l.
Proof.
  exists (insertAll ++ toFlash ++ [ASpawn CInsert; AMut 0 false; ASpawn CInsert; AMut 1 false; AMut 1 false; ARelease 0] ++ toFlash
    ++ repeat (AMut 0 false) 7 ++ remJob). forget.
Qed.
(** A removal finds, by "couldExist", nothing on flash, while the callback for the copy just dropped is still to come. *)
Theorem C19_drop_during_removal_refuted : exists l,
  calmBut (fun a => match a with AMut _ _ => true | _ => false end) init l /\ forgotten l.
Proof. exists (insertAll ++ toFlash ++ [ADrop] ++ insertAll ++ toFlash ++ fillIn ++ [APendInval 0; APendCb 0]). forget. Qed.
(** A remove job finds nothing on flash, while the callback for the copy just dropped is still to come. *)
Theorem C19_drop_during_remove_job_refuted : exists l,
  calmBut (fun a => match a with ARem true => true | _ => false end) init l /\ forgotten l.
Proof. exists (insertAll ++ toFlash ++ replace_ ++ [ADrop; ARem true; ACb true] ++ toFlash ++ fillIn ++ [APendInval 0; APendCb 0]). forget. Qed.
(** The insertion into flash ends with BadState: the item was already marked NvmClean in RAM. *)
Theorem C19_insert_badstate_refuted : exists l,
  calmBut (fun a => match a with AIns InsBad => true | _ => false end) init l /\ forgotten l.
Proof. exists (insertAll ++ [ASpawn (CEvict true); AEv 0 true; AEv 0 true; AEv 0 true; AEv 0 true; AEv 0 true; AIns InsBad; ACb true]). forget. Qed.
(** A copy is lost without a callback. *)
Theorem C19_lost_copy_refuted : exists l, calmBut (fun a => match a with ALose => true | _ => false end) init l /\ forgotten l.
Proof. exists (insertAll ++ toFlash ++ [ALose]). forget. Qed.
(** The flag "flash has dropped the copy" is not carried over when the item is moved to another slab. *)
Theorem C19_moved_item_refuted : exists l, calmBut (fun a => match a with AMove => true | _ => false end) init l /\ forgotten l.
Proof. exists (insertAll ++ toFlash ++ fillIn ++ dropAll ++ [AMove; ASpawn (CEvict false); AEv 0 true; AEv 0 true]). forget. Qed.
(** The copy to be removed cannot be read: flash keeps it, the item in RAM has been destructed. *)
Theorem C19_unreadable_copy_refuted : exists l, calmBut (fun a => match a with ARem false => true | _ => false end) init l /\ tooEarly l.
Proof.
  exists (insertAll ++ toFlash ++ fillIn ++ [ASpawn CRemove] ++ repeat (AMut 0 false) 9 ++ [ARelease 0; ARem false; ACb true]).
  split; [apply calmButb_ok; vm_compute; reflexivity|]. eexists; eexists; exists 0. split; [vm_compute; reflexivity|]. split; [vm_compute; repeat split|]. split; [right; reflexivity | reflexivity].
Qed.

Print Assumptions C19_at_most_once.
Print Assumptions C19_exactly_once.
Print Assumptions C19_not_early.
Print Assumptions C19_only_inserted.
Print Assumptions C19_overlapping_calls_refuted.
Print Assumptions C19_drop_during_removal_refuted.
Print Assumptions C19_drop_during_remove_job_refuted.
Print Assumptions C19_insert_badstate_refuted.
Print Assumptions C19_lost_copy_refuted.
Print Assumptions C19_moved_item_refuted.
Print Assumptions C19_unreadable_copy_refuted.
