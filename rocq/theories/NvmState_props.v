(** C42: the flash cache is resumed only after a clean save by the last instance. *)
From Coq Require Import List Bool Arith Lia.
Import ListNotations.
From Verif Require Import NvmState_model NvmState_spec NvmState_proofs NvmState_proofs2.

(** Whenever an instance starts with the contents of an earlier one, they are
    exactly what the last instance that came up had saved and marked, with the same
    format and settings, and the description matches the device. *)
Theorem C42_resume_only_saved : forall tr,
  nhistory tr -> no_silent tr -> resume_only_saved tr.
Proof. exact resume_saved. Qed.
Print Assumptions C42_resume_only_saved.

(** A starting instance sees the drop request iff it was made and not removed. *)
Theorem C42_drop_request_seen : forall tr, nhistory tr ->
  forall a p s b, tr = a ++ NELooked p s :: b -> s = ice_of a.
Proof. exact looked_sees. Qed.
Print Assumptions C42_drop_request_seen.

(** An instance that saw the drop request never starts with old contents. *)
Theorem C42_drop_request_honoured : forall tr, nhistory tr ->
  forall a p y q v t s b,
    tr = a ++ NELooked p true :: y ++ NEResumed q v t s :: b -> ~ nostart y.
Proof. intros tr H a p y q v t s b E N. exact (dropped tr H a p y q v t s b E N). Qed.
Print Assumptions C42_drop_request_honoured.

(** An instance that was told to drop reports a creation time no earlier than now. *)
Theorem C42_dropped_cache_has_new_time : forall a1 w1 tr1 a2 w2 z q t b,
  nrun nw0 a1 = Some (w1, tr1) -> told_to_drop tr1 -> nrun w1 a2 = Some (w2, z ++ NEFresh q t :: b) -> nostart z -> clk w1 <= t.
Proof.
  intros a1 w1 tr1 a2 w2 z q t b E T E2 N.
  eapply new_time; [apply (nrun_reach a1 nw0 [] w1 tr1); [constructor|exact E]|exact T|exact E2|reflexivity|exact N].
Qed.
Print Assumptions C42_dropped_cache_has_new_time.

(** Without failures nothing is lost: from any reachable running instance, a
    shutdown followed by a start with the same settings resumes its contents and
    its creation time. *)
Theorem C42_clean_hand_over_resumes : forall acts w tr q i p c,
  nrun nw0 acts = Some (w, tr) -> no_silent tr ->
  cur w = Some (q, i) -> ipc i = NRun -> nHas (icfg i) = true -> iOn i = true ->
  ice w = false -> fits (icfg i) c ->
  exists pre y v t w',
    tr = pre ++ NEStart q (icfg i) :: y /\ nostart y /\
    content_of y = Some v /\ time_of y = Some t /\
    nrun w (hand_over p c) = Some (w',
      [NEMarked q; NEShut q (Some true); NEStart p c; NELooked p false;
       NEResumed p v t true; NEIceGone p]).
Proof. exact hands_over. Qed.
Print Assumptions C42_clean_hand_over_resumes.

(** ** Non-vacuity *)
Definition exc : ncfg := mkCfg 7 false true true true true.
Definition exUp (p : nat) : list naction := NaStart p exc :: repeat (NaNext OK) 7.
Definition exUpF (p : nat) : list naction := NaStart p exc :: repeat (NaNext OK) 6.

Example C42_example : exists tr w, nrun nw0
  (exUpF 1 ++ [NaPut 5; NaPut 9; NaShut OK; NaNext OK; NaTick] ++
   [NaStart 2 exc; NaNext OK; NaCrash] ++ exUp 3 ++ [NaPut 4; NaCrash] ++ exUpF 5) = Some (w, tr) /\
  no_silent tr /\ In (NEResumed 3 9 0 true) tr /\ In (NEFresh 5 1) tr.
Proof.
  eexists. eexists. split; [vm_compute; reflexivity|]. split.
  - intros p X. cbn in X.
    repeat (destruct X as [X|X]; [discriminate X|]). exact X.
  - split; cbn; auto 60.
Qed.

Example C42_example_drop : exists tr w, nrun nw0
  (exUpF 1 ++ [NaPut 5; NaShut OK; NaNext OK; NaIce; NaTick] ++ exUpF 2) = Some (w, tr) /\
  In (NELooked 2 true) tr /\ In (NEFresh 2 1) tr.
Proof. eexists. eexists. split; [vm_compute; reflexivity|]. split; cbn; auto 60. Qed.

Example C42_example_hand_over : exists w tr i,
  nrun nw0 (exUpF 1 ++ [NaPut 5]) = Some (w, tr) /\ no_silent tr /\
  cur w = Some (1, i) /\ ipc i = NRun /\ nHas (icfg i) = true /\ iOn i = true /\
  ice w = false /\ fits (icfg i) exc.
Proof.
  eexists. eexists. eexists. split; [vm_compute; reflexivity|].
  split; [intros p X; cbn in X; repeat (destruct X as [X|X]; [discriminate X|]); exact X|].
  split; [reflexivity|]. repeat split.
Qed.

(** ** What does not hold *)

(** The second instance drops with its RAM cache: its creation time is the clock's, 1, not the record's, 0. *)
Definition exDrop : ncfg := mkCfg (nVer exc) (nEnc exc) (nTrunc exc) true true false.
Example ex_new_time : exists w1 tr1 w2,
  nrun nw0 (exUpF 1 ++ [NaPut 5; NaShut OK; NaNext OK; NaStart 2 exDrop; NaNext OK; NaNext OK; NaNext OK; NaTick]) = Some (w1, tr1) /\
  told_to_drop tr1 /\ clk w1 = 1 /\ nrun w1 [NaNext OK] = Some (w2, [] ++ NEFresh 2 1 :: []).
Proof.
  eexists. eexists. eexists. split; [vm_compute; reflexivity|]. split; [|split; [reflexivity|vm_compute; reflexivity]].
  do 4 eexists. split; [|split; [|right; split]]; cycle 1.
  - instantiate (1 := [NELooked 2 false]). intros p c [X|[]]. discriminate.
  - instantiate (1 := exDrop). reflexivity.
  - reflexivity.
  - instantiate (1 := 2). instantiate (1 := [NEStart 1 exc; NELooked 1 false; NEFresh 1 0; NEIceGone 1; NEPut 1 5; NEMarked 1; NEShut 1 (Some true)]). reflexivity.
Qed.

(** The metadata writer ignores a failing write of its last block
    (RecordIO.cpp:37-53).  An instance that dropped the flash cache leaves the old
    metadata on the device; if then its own save fails unnoticed and the state
    file is marked, the next instance resumes the contents of the instance before,
    over data blocks that were overwritten since. *)
Theorem C42_resume_after_silent_failure_refuted :
  ~ (forall tr, nhistory tr -> resume_only_saved tr).
Proof.
  intros H.
  assert (X : exists tr w, nrun nw0
    (exUpF 1 ++ [NaPut 5; NaShut OK; NaNext OK; NaIce] ++
     exUpF 2 ++ [NaPut 6; NaShut (Silent true); NaNext OK] ++ exUp 3) = Some (w, tr) /\
    exists pre post, tr = pre ++ NEResumed 3 5 0 false :: post).
  { eexists. eexists. split; [vm_compute; reflexivity|].
    match goal with |- exists pre post, ?l = _ =>
      exists (firstn 18 l), (skipn 19 l) end. vm_compute. reflexivity. }
  destruct X as (tr & w & E & pre & post & Etr).
  destruct (H tr (ex_intro _ _ (ex_intro _ w E)) _ _ _ _ _ _ Etr) as [S _]. discriminate S.
Qed.
Print Assumptions C42_resume_after_silent_failure_refuted.

(** A drop request made between the look and the removal is deleted although
    nobody started empty because of it. *)
Theorem C42_drop_request_removed_only_if_honoured_refuted :
  ~ (forall tr a m p b, nhistory tr -> tr = a ++ NEIce :: m ++ NEIceGone p :: b ->
       exists q t, In (NEFresh q t) m).
Proof.
  intros H.
  assert (X : exists tr w, nrun nw0
    (exUpF 1 ++ [NaPut 5; NaShut OK; NaNext OK; NaStart 2 exc; NaNext OK; NaIce] ++
     repeat (NaNext OK) 6) = Some (w, tr) /\
    exists pre v t, tr = pre ++ NEIce :: [NEResumed 2 v t true] ++ NEIceGone 2 :: []).
  { eexists. eexists. split; [vm_compute; reflexivity|].
    match goal with |- exists pre v t, ?l = _ => exists (firstn 9 l), 5, 0 end.
    vm_compute. reflexivity. }
  destruct X as (tr & w & E & pre & v & t & Etr).
  destruct (H tr pre _ _ _ (ex_intro _ _ (ex_intro _ w E)) Etr) as (q & t' & Hin).
  cbn in Hin. destruct Hin as [X|[]]. discriminate X.
Qed.
Print Assumptions C42_drop_request_removed_only_if_honoured_refuted.

(** An instance that comes up empty because the engines could not recover reports
    the creation time of the cache it failed to recover. *)
Theorem C42_fresh_creation_time_is_recent_refuted :
  ~ (forall a1 a2 w1 tr1 w2 tr2 p t,
       nrun nw0 a1 = Some (w1, tr1) -> nrun w1 a2 = Some (w2, tr2) -> cur w1 = None ->
       In (NEFresh p t) tr2 -> clk w1 <= t).
Proof.
  intros H.
  assert (X : exists w1 tr1 w2 tr2,
    nrun nw0 (exUpF 1 ++ [NaPut 5; NaShut OK; NaNext OK; NaTick]) = Some (w1, tr1) /\
    nrun w1 [NaStart 2 exc; NaNext OK; NaNext OK; NaNext OK; NaNext (Fail true)] = Some (w2, tr2) /\
    cur w1 = None /\ In (NEFresh 2 0) tr2 /\ clk w1 = 1).
  { do 4 eexists. split; [vm_compute; reflexivity|]. split; [vm_compute; reflexivity|].
    split; [reflexivity|]. split; [cbn; auto|reflexivity]. }
  destruct X as (w1 & tr1 & w2 & tr2 & E1 & E2 & C & Hin & K).
  pose proof (H _ _ _ _ _ _ _ _ E1 E2 C Hin). lia.
Qed.
Print Assumptions C42_fresh_creation_time_is_recent_refuted.

(** Once the flash cache was disabled after an error, shutDown reports no failure
    (CacheAllocator.h: value_or(true)) although nothing was saved. *)
Theorem C42_shutdown_success_means_saved_refuted :
  ~ (forall tr q c s, nhistory tr -> In (NEStart q c) tr -> nHas c = true ->
       In (NEShut q s) tr -> s <> Some false -> In (NEMarked q) tr).
Proof.
  intros H.
  assert (X : exists w, nrun nw0 (exUpF 1 ++ [NaPut 5; NaDisable; NaShut OK]) = Some (w,
    [NEStart 1 exc; NELooked 1 false; NEFresh 1 0; NEIceGone 1; NEPut 1 5; NEDisabled 1; NEShut 1 None])).
  { eexists. vm_compute. reflexivity. }
  destruct X as (w & E).
  specialize (H _ 1 exc None (ex_intro _ _ (ex_intro _ w E))). cbn [In] in H.
  destruct H as [X|[X|[X|[X|[X|[X|[X|X]]]]]]]; auto 10; try discriminate X.
  discriminate.
Qed.
Print Assumptions C42_shutdown_success_means_saved_refuted.
