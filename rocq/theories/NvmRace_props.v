(** C17: removed or replaced data is not resurrected from flash. *)
From Coq Require Import List Arith Bool.
Import ListNotations.
From Verif Require Import NvmRace_model NvmRace_spec NvmRace_proofs5.

(** In every interleaving in which mutators of the key do not overlap, no removal takes the
    "cannot exist" shortcut while flash has dropped the entry without having told so, no find joins
    a fill that is already done, and flash stays enabled: a find begun after a replacement or a
    removal has returned does not return what was there before it. *)
Theorem C17_no_resurrection : forall acts s tr, run init acts = Some (s, tr) ->
  serialMutators tr -> noShortcutInDropWindow tr -> noJoinAfterFill tr -> neverDisabled tr -> ~ resurrected tr.
Proof. exact no_resurrection. Qed.
Print Assumptions C17_no_resurrection.

(** Stronger: it returns nothing older than that call, and nothing but what is newer if the call
    was a removal. *)
Theorem C17_fresh_reads : forall acts s tr, run init acts = Some (s, tr) ->
  serialMutators tr -> noShortcutInDropWindow tr -> noJoinAfterFill tr -> neverDisabled tr -> freshReads tr.
Proof. exact fresh_reads. Qed.
Print Assumptions C17_fresh_reads.

(** Every hit, in every interleaving, is a value some earlier call wrote. *)
Theorem C17_no_thin_air : forall acts s tr, run init acts = Some (s, tr) -> noThinAir tr.
Proof. exact no_thin_air. Qed.
Print Assumptions C17_no_thin_air.

(** ** None of the four conditions can be dropped *)
Definition th (i : nat) (n : nat) : list action := repeat (AThread i false) n.
(* insertOrReplace of version 1 by thread 0, evicted to flash by thread 1 *)
Definition toFlash : list action :=
  ASpawn CInsert :: th 0 7 ++ ASpawn (CEvict true) :: AThread 1 true :: AThread 1 true :: AThread 1 true :: AThread 1 true :: AExec InsOk :: ACb true :: [].
(* a find by thread [i], up to the submission of the flash lookup *)
Definition slowFind (i : nat) : list action := ASpawn CFind :: th i 5.

(* insertOrReplace (2) has put its item into RAM, remove (3) takes it out and, as it was never on
   flash, does not touch flash; version 1 is still there *)
Definition overlapRun : list action :=
  toFlash ++ ASpawn CInsert :: th 2 1 ++ ASpawn CRemove :: th 3 5 ++
  slowFind 4 ++ AExec InsOk :: ACb true :: ACb true :: ACb true :: ACb true :: [].
(* a lookup has read version 1; flash drops it; remove sees "cannot exist"; the lookup fills RAM *)
Definition dropRun : list action :=
  toFlash ++ slowFind 2 ++ AExec InsOk :: ACb true :: ADrop :: ASpawn CRemove :: th 3 7 ++
  ACb true :: ACb true :: ACb true :: ASpawn CFind :: th 4 1.
(* the fill has put version 1 into RAM; remove takes it out of RAM and flash; a find joins the fill *)
Definition joinRun : list action :=
  toFlash ++ slowFind 2 ++ AExec InsOk :: ACb true :: ACb true :: ACb true :: ASpawn CRemove :: th 3 9 ++
  ASpawn CFind :: th 4 4 ++ ACb true :: [].
(* a lookup has read version 1 and passed the enabled check; flash is disabled; remove returns *)
Definition disableRun : list action :=
  toFlash ++ slowFind 2 ++ AExec InsOk :: ACb true :: ADisable :: ASpawn CRemove :: th 3 5 ++
  ACb true :: ACb true :: ACb true :: ASpawn CFind :: th 4 1.
Definition traceOf (l : list action) : option (list event) := option_map snd (run init l).

Ltac guards := first [apply (okS_sound false); vm_compute; reflexivity | apply (okJ_sound false); vm_compute; reflexivity
  | vm_compute; intuition congruence].
Theorem C17_overlapping_mutators_refuted : exists acts s tr, run init acts = Some (s, tr) /\
  noShortcutInDropWindow tr /\ noJoinAfterFill tr /\ neverDisabled tr /\ resurrected tr.
Proof.
  eexists overlapRun, _, _. split; [vm_compute; reflexivity|]. split; [guards|]. split; [guards|]. split; [guards|].
  exists 1, 3, KRemove, 0, [MutStart 1 KInsert; Shortcut], [MutStart 2 KInsert], [], [], [Filled; Erased], []. reflexivity.
Qed.
Print Assumptions C17_overlapping_mutators_refuted.
Theorem C17_shortcut_in_drop_window_refuted : exists acts s tr, run init acts = Some (s, tr) /\
  serialMutators tr /\ noJoinAfterFill tr /\ neverDisabled tr /\ resurrected tr.
Proof.
  eexists dropRun, _, _. split; [vm_compute; reflexivity|]. split; [guards|]. split; [guards|]. split; [guards|].
  exists 1, 2, KRemove, 1, [MutStart 1 KInsert; Shortcut], [FindStart 0; Dropped], [Shortcut], [Filled; Erased; FindRet 0 (Some 1)], [], []. reflexivity.
Qed.
Print Assumptions C17_shortcut_in_drop_window_refuted.
Theorem C17_join_after_fill_refuted : exists acts s tr, run init acts = Some (s, tr) /\
  serialMutators tr /\ noShortcutInDropWindow tr /\ neverDisabled tr /\ resurrected tr.
Proof.
  eexists joinRun, _, _. split; [vm_compute; reflexivity|]. split; [guards|]. split; [guards|]. split; [guards|].
  exists 1, 2, KRemove, 1, [MutStart 1 KInsert; Shortcut], [FindStart 0; Filled], [], [], [Joined 1; Erased; FindRet 0 (Some 1)], []. reflexivity.
Qed.
Print Assumptions C17_join_after_fill_refuted.
Theorem C17_disable_refuted : exists acts s tr, run init acts = Some (s, tr) /\
  serialMutators tr /\ noShortcutInDropWindow tr /\ noJoinAfterFill tr /\ resurrected tr.
Proof.
  eexists disableRun, _, _. split; [vm_compute; reflexivity|]. split; [guards|]. split; [guards|]. split; [guards|].
  exists 1, 2, KRemove, 1, [MutStart 1 KInsert; Shortcut], [FindStart 0; Disabled], [], [Filled; Erased; FindRet 0 (Some 1)], [], []. reflexivity.
Qed.
Print Assumptions C17_disable_refuted.

(** ** The conditions are met by runs in which all activities overlap: a fill, a find joining it, an
    eviction to flash of the filled item, a flash eviction, a replacement that takes the shortcut
    afterwards, a removal while a lookup is in flight. *)
Definition busyRun : list action :=
  toFlash ++ slowFind 2 ++ ASpawn CFind :: th 3 4 ++ AExec InsOk :: ACb true :: ACb true :: ACb true :: ACb true ::
  ADrop :: AInval :: AMark :: ASpawn (CEvict true) :: AThread 4 true :: ASpawn CInsert :: AThread 5 false :: AThread 4 true ::
  AThread 5 false :: AThread 5 false :: AThread 5 false :: AThread 4 true :: AThread 4 true :: AThread 5 false :: AThread 5 false :: AThread 5 false ::
  ASpawn (CEvict false) :: AThread 6 true :: AThread 4 true :: ASpawn CFind :: th 7 3.
Definition busyRun2 : list action :=
  toFlash ++ slowFind 2 ++ ASpawn CFind :: th 3 4 ++ AExec InsOk :: ACb true :: ASpawn CRemove :: th 4 3 ++ ACb true :: th 4 5 ++ ACb true ::
  AExec InsOk :: ACb true :: ASpawn CFind :: th 5 3.
Definition guardedRun (acts : list action) : Prop := exists s tr, run init acts = Some (s, tr) /\
  serialMutators tr /\ noShortcutInDropWindow tr /\ noJoinAfterFill tr /\ neverDisabled tr /\
  In (FindRet 2 None) tr /\ exists n k, In (MutStart n k) tr /\ In (MutRet n) tr /\ 1 < n.
Example C17_conditions_met : guardedRun busyRun /\ guardedRun busyRun2.
Proof.
  split.
  - eexists _, _. split; [vm_compute; reflexivity|]. split; [guards|]. split; [guards|]. split; [guards|]. split; [guards|].
    split; [cbn; tauto|]. exists 2, KInsert. split; [cbn; tauto|]. split; [cbn; tauto|]. auto.
  - eexists _, _. split; [vm_compute; reflexivity|]. split; [guards|]. split; [guards|]. split; [guards|]. split; [guards|].
    split; [cbn; tauto|]. exists 2, KRemove. split; [cbn; tauto|]. split; [cbn; tauto|]. auto.
Qed.
