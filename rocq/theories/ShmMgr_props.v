(** C41: the RAM cache is attached again after a restart only after a clean
    shutdown, and only by the one process that owns the directory. *)
From Verif Require Import Bytes ShmMgr_model ShmMgr_spec ShmMgr_proofs ShmMgr_proofs2
  ShmMgr_proofs6 ShmMgr_proofs7.

(** Every segment any process attaches to is, byte for byte, as its previous
    owner left it when that owner's shutDown finished writing its record, and
    nobody ran in between: for every number of processes, every interleaving of
    their file-system calls, every crash point, every torn write and every
    deletion, provided starts do not overlap and no older version runs after this
    one (both conditions are needed: see the _refuted theorems). *)
Theorem C41_attach_only_after_clean_shutdown tr :
  run_trace tr -> serial tr -> starts_alone tr -> upgrade_only tr ->
  attach_only_clean tr.
Proof. exact (attach_clean tr). Qed.

(** While nobody deletes the metadata file, at most one process runs. *)
Theorem C41_one_owner tr p q :
  run_trace tr -> meta_kept tr -> running p tr -> running q tr -> p = q.
Proof. exact (one_owner tr p q). Qed.

(** ... and the lock is what gives [serial]. *)
Theorem C41_lock_serializes tr : run_trace tr -> meta_kept tr -> serial tr.
Proof. exact (kept_serial tr). Qed.

Theorem C41_attach_only_after_clean_shutdown_kept tr :
  run_trace tr -> meta_kept tr -> starts_alone tr -> upgrade_only tr ->
  attach_only_clean tr.
Proof. intros R M. exact (attach_clean tr R (kept_serial tr R M)). Qed.

(** A process that finds the drop marker attaches to nothing, ever. *)
Theorem C41_drop_marker_respected tr p :
  run_trace tr -> drop_requested tr p -> never_attaches tr p.
Proof. exact (drop_marker tr p). Qed.

(** Completeness: from every reachable state in which [p] runs and has segment
    [n], shutDown followed by a start of [q] gets that segment back, unchanged. *)
Theorem C41_clean_restart_attaches acts w tr (p q : nat) (n : name) (o : bool) (x : nat)
    (leg : bool) :
  run world0 acts = Some (w, tr) -> meta_kept tr -> ~ In EDropMade tr ->
  pc (procs w p) = PRun -> pc (procs w q) = PNone ->
  afind (segs (procs w p)) n = Some (o, x) -> bound w n o = Some x ->
  (if leg then o = true else o = true -> bound w n false = None) ->
  exists w',
   run w ([AShut p; ANext p; ANext p; ANext p] ++
          [AStart q leg (posix (procs w p)); ANext q; ANext q; ANext q; ANext q; ANext q;
           ANext q; ANext q; AAttach q n])
    = Some (w', [ESaved p; EReleased p; EShut p kSuccess; EStart q; ELooked q false;
                 ERead q; ELocked q; ERunning q leg; EAttached q n (objv w x)]).
Proof. exact (restart_attaches acts w tr p q n o x leg). Qed.

(** shutDown notices that the metadata file is gone: it says so, and releases the lock. *)
Theorem C41_deleted_file_reported acts w tr p :
  run world0 acts = Some (w, tr) -> pc (procs w p) = PRun -> meta w = None ->
  exists w', run w [AShut p; ANext p; ANext p] = Some (w', [EReleased p; EShut p kFileDeleted]).
Proof. exact (deleted_reported acts w tr p). Qed.

(** The record survives the file, and no proper prefix of it is accepted. *)
Theorem C41_record_round_trip pos m : map_ok m ->
  dec_obj (enc_obj pos m) = Some (shmVal pos, m).
Proof. exact (dec_enc pos m). Qed.

Theorem C41_torn_record_rejected pos m k : map_ok m -> k < length (enc_obj pos m) ->
  dec_obj (firstn k (enc_obj pos m)) = None.
Proof. exact (dec_cut pos m k). Qed.

(** ** Non-vacuity and counterexamples *)

Definition nA : name := [97%N].
Definition nexts (p k : nat) : list action := repeat (ANext p) k.
(** A start in an empty directory, and a start in an existing one. *)
Definition boot0 (p : nat) (leg : bool) : list action := AStart p leg true :: nexts p 4.
Definition boot (p : nat) (leg : bool) : list action := AStart p leg true :: nexts p 7.
Definition shut (p : nat) : list action := AShut p :: nexts p 3.
Definition trace_of (l : list action) : list event :=
  match run world0 l with Some (_, t) => t | None => [] end.
Definition ran_ok (l : list action) : bool :=
  match run world0 l with Some _ => true | None => false end.

Lemma trace_of_run l : ran_ok l = true -> run_trace (trace_of l).
Proof.
  unfold ran_ok, trace_of. destruct (run world0 l) as [[w t]|] eqn:E; [|discriminate].
  intros _. exists l, w. exact E.
Qed.

Definition s_clean : list action :=
  boot0 1 false ++ [ACreate 1 nA; AWrite 1 nA 5] ++ shut 1 ++ boot 2 false ++ [AAttach 2 nA].

Example C41_clean_restart_example :
  ran_ok s_clean = true /\
  trace_of s_clean =
   [EStart 1; ERead 1; ELocked 1; ERunning 1 false; ECreated 1 nA; EWrote 1 nA 5;
    ESaved 1; EReleased 1; EShut 1 kSuccess; EStart 2; ELooked 2 false; ERead 2;
    ELocked 2; ERunning 2 false; EAttached 2 nA 5].
Proof. vm_compute. split; reflexivity. Qed.

(** The hypotheses of the main theorem hold of that run. *)
Ltac unapp E a :=
  repeat (destruct a as [|? a]; cbn [app] in E;
          [try discriminate E | injection E as ? E]);
  try discriminate E; try (destruct a; discriminate E).

Ltac inj E := first [injection E as ? E | injection E as E]; subst.

Lemma holdsb_not q a : holdb q a = false -> ~ holds q a.
Proof. intros H X. apply holdb_holds in X. congruence. Qed.

Example C41_hypotheses_met :
  serial (trace_of s_clean) /\ starts_alone (trace_of s_clean) /\
  upgrade_only (trace_of s_clean) /\ meta_kept (trace_of s_clean) /\
  running 2 (trace_of s_clean).
Proof.
  destruct C41_clean_restart_example as [R ->].
  assert (K : meta_kept (trace_of s_clean)) by (vm_compute; intuition discriminate).
  split; [|split; [|split; [|split]]].
  - pose proof (kept_serial _ (trace_of_run _ R) K) as S.
    destruct C41_clean_restart_example as [_ E]. rewrite E in S. exact S.
  - intros a p b c E. unapp E a.
    + inj E. split.
      * intros q _. apply holdsb_not. reflexivity.
      * unapp E b. all: inj E.
        all: intros q Hq X; cbn [In] in X.
        all: repeat (destruct X as [X|X]; [try discriminate X; injection X as X; congruence|]).
        all: try contradiction.
    + inj E. split.
      * intros q Hq. apply holdsb_not. unfold holdb. cbn [fold_left hold_step].
        destruct (1 =? q)%nat; reflexivity.
      * unapp E b. all: inj E.
        all: intros q Hq X; cbn [In] in X.
        all: repeat (destruct X as [X|X]; [try discriminate X; injection X as X; congruence|]).
        all: try contradiction.
  - intros a p b E. unapp E a.
  - destruct C41_clean_restart_example as [_ E]. rewrite E in K. exact K.
  - eexists [_; _; _; _; _; _; _; _; _; _; _; _; _], false, _. split; [reflexivity|].
    intros e [<- | []] [X|[X|X]]; discriminate X.
Qed.

(** If starts may overlap, a process can attach to what a crashed process left:
    initFromFile reads the record before the lock is taken (ShmManager.cpp:104,
    109).  Process 2 reads, process 3 runs and crashes, process 2 continues. *)
Definition s_toctou : list action :=
  boot0 1 false ++ [ACreate 1 nA; AWrite 1 nA 5] ++ shut 1 ++
  AStart 2 false true :: nexts 2 4 ++
  boot 3 false ++ [AAttach 3 nA; AWrite 3 nA 7; ACrash 3] ++
  nexts 2 3 ++ [AAttach 2 nA].

Lemma not_clean_from tr pre p n v post : tr = pre ++ EAttached p n v :: post ->
  ~ from_clean_shutdown pre p n v -> ~ attach_only_clean tr.
Proof. intros E H A. apply H, (A _ _ _ _ _ E). Qed.

Theorem C41_overlapping_starts_refuted :
  ~ (forall tr, run_trace tr -> meta_kept tr -> upgrade_only tr -> attach_only_clean tr).
Proof.
  intros H.
  assert (R : ran_ok s_toctou = true) by (vm_compute; reflexivity).
  pose proof (trace_of_run _ R) as T.
  assert (E : trace_of s_toctou =
    [EStart 1; ERead 1; ELocked 1; ERunning 1 false; ECreated 1 nA; EWrote 1 nA 5;
     ESaved 1; EReleased 1; EShut 1 kSuccess; EStart 2; ELooked 2 false; ERead 2;
     EStart 3; ELooked 3 false; ERead 3; ELocked 3; ERunning 3 false; EAttached 3 nA 5;
     EWrote 3 nA 7; ECrashed 3; ELocked 2; ERunning 2 false] ++ EAttached 2 nA 7 :: [])
    by (vm_compute; reflexivity).
  rewrite E in T.
  apply (not_clean_from _ _ _ _ _ _ eq_refl) with (2 := H _ T
     ltac:(unfold meta_kept; cbn [In app]; intuition discriminate)
     ltac:(intros a p b X; unapp X a)).
  intros (q & p1 & p2 & X & _ & L & _). unapp X p1.
  injection X as Hq X. subst. vm_compute in L. discriminate L.
Qed.

(** The other order: a process that found no metadata file creates it before it
    locks it, and does not truncate it again under the lock (ShmManager.cpp:63-66,
    94-97).  The record process 2 left then survives while process 1 runs; after
    process 1 crashes, process 3 attaches to its memory. *)
Definition s_create : list action :=
  AStart 1 false true :: nexts 1 2 ++
  boot 2 false ++ [ACreate 2 nA; AWrite 2 nA 5] ++ shut 2 ++
  nexts 1 2 ++ [ACreate 1 nA; AWrite 1 nA 7; ACrash 1] ++
  boot 3 false ++ [AAttach 3 nA].

Example C41_create_before_lock_example :
  trace_of s_create =
   [EStart 1; ERead 1; EStart 2; ELooked 2 false; ERead 2; ELocked 2; ERunning 2 false;
    ECreated 2 nA; EWrote 2 nA 5; ESaved 2; EReleased 2; EShut 2 kSuccess; ELocked 1;
    ERunning 1 false; ECreated 1 nA; EWrote 1 nA 7; ECrashed 1; EStart 3;
    ELooked 3 false; ERead 3; ELocked 3; ERunning 3 false; EAttached 3 nA 7].
Proof. vm_compute. reflexivity. Qed.

(** After a rollback to a version that only knows the old segment ids and a new
    upgrade, the attach finds the segment of before the rollback: it ignores the
    key saved in the record and tries the new id first (ShmManager.cpp:348-370). *)
Definition s_rollback : list action :=
  boot0 1 false ++ [ACreate 1 nA; AWrite 1 nA 5] ++ shut 1 ++
  boot 2 true ++ [AAttach 2 nA; ACreate 2 nA; AWrite 2 nA 9] ++ shut 2 ++
  boot 3 false ++ [AAttach 3 nA].

Theorem C41_rollback_refuted :
  ~ (forall tr, run_trace tr -> serial tr -> starts_alone tr -> attach_only_clean tr).
Proof.
  intros H.
  assert (R : ran_ok s_rollback = true) by (vm_compute; reflexivity).
  pose proof (trace_of_run _ R) as T.
  assert (K : meta_kept (trace_of s_rollback)) by (vm_compute; intuition discriminate).
  pose proof (kept_serial _ T K) as S.
  assert (E : trace_of s_rollback =
    [EStart 1; ERead 1; ELocked 1; ERunning 1 false; ECreated 1 nA; EWrote 1 nA 5;
     ESaved 1; EReleased 1; EShut 1 kSuccess; EStart 2; ELooked 2 false; ERead 2;
     ELocked 2; ERunning 2 true; ECreated 2 nA; EWrote 2 nA 9; ESaved 2; EReleased 2;
     EShut 2 kSuccess; EStart 3; ELooked 3 false; ERead 3; ELocked 3; ERunning 3 false]
    ++ EAttached 3 nA 5 :: []) by (vm_compute; reflexivity).
  rewrite E in T, S.
  apply (not_clean_from _ _ _ _ _ _ eq_refl) with (2 := H _ T S
     ltac:(intros a p b c X; unapp X a; inj X;
       (split; [intros q Hq; apply holdsb_not; unfold holdb; cbn [fold_left hold_step];
                repeat match goal with |- context [(?k =? q)%nat] => destruct (k =? q)%nat end;
                reflexivity
               |unapp X b; inj X; intros q Hq Y; cbn [In] in Y;
                repeat (destruct Y as [Y|Y];
                        [try discriminate Y; injection Y as Y; congruence|]);
                try contradiction]))).
  intros (q & p1 & p2 & X & Hq & L & Rn). unapp X p1.
  - injection X as Hq' X. subst. pose proof (Rn 2 true) as Y.
    cbn [In app] in Y. assert (Z : 2 = 3) by (apply Y; tauto). discriminate Z.
  - injection X as Hq' X. subst. vm_compute in L. discriminate L.
Qed.

(** A start that fails because another process runs still consumes the drop
    marker (SCOPE_EXIT, ShmManager.cpp:78-88): the request is lost and the next
    start attaches. *)
Definition s_drop : list action :=
  boot0 1 false ++ [ACreate 1 nA; AWrite 1 nA 5; AMakeDrop] ++
  AStart 2 false true :: nexts 2 5 ++ shut 1 ++ boot 3 false ++ [AAttach 3 nA].

Theorem C41_drop_request_not_lost_refuted :
  ~ (forall tr a b p, run_trace tr -> tr = a ++ EDropMade :: b ->
       (forall q leg, In (ERunning q leg) b -> q = p) -> never_attaches b p).
Proof.
  intros H.
  assert (R : ran_ok s_drop = true) by (vm_compute; reflexivity).
  pose proof (trace_of_run _ R) as T.
  assert (E : trace_of s_drop =
    [EStart 1; ERead 1; ELocked 1; ERunning 1 false; ECreated 1 nA; EWrote 1 nA 5]
    ++ EDropMade ::
    [EStart 2; ELooked 2 true; EDropGone; EThrow 2; ESaved 1; EReleased 1;
     EShut 1 kSuccess; EStart 3; ELooked 3 false; ERead 3; ELocked 3; ERunning 3 false;
     EAttached 3 nA 5]) by (vm_compute; reflexivity).
  apply (H _ _ _ 3 T E) with (n := nA) (v := 5).
  - intros q leg X. cbn [In] in X.
    repeat (destruct X as [X|X]; [try discriminate X; injection X as X; congruence|]).
    contradiction.
  - cbn [In]. tauto.
Qed.

(** Deleting the metadata file under a running process lets a second one run;
    the first one's shutDown still reports success, although its record goes to
    the deleted file. *)
Definition s_two : list action :=
  boot0 1 false ++ [ACreate 1 nA; ADelMeta] ++ AStart 2 false true :: nexts 2 6.

Theorem C41_one_owner_with_deletion_refuted :
  ~ (forall tr p q, run_trace tr -> running p tr -> running q tr -> p = q).
Proof.
  intros H.
  assert (R : ran_ok s_two = true) by (vm_compute; reflexivity).
  pose proof (trace_of_run _ R) as T.
  assert (E : trace_of s_two =
    [EStart 1; ERead 1; ELocked 1; ERunning 1 false; ECreated 1 nA; EMetaDeleted;
     EStart 2; ELooked 2 false; ERead 2; ELocked 2; ERunning 2 false])
    by (vm_compute; reflexivity).
  rewrite E in T. cut (1 = 2); [discriminate|]. apply (H _ 1 2 T).
  - exists [EStart 1; ERead 1; ELocked 1], false. eexists. split; [reflexivity|].
    intros e He. cbn [In] in He.
    repeat (destruct He as [He|He]; [subst e; intros [X|[X|X]]; discriminate X|]).
    contradiction.
  - exists [EStart 1; ERead 1; ELocked 1; ERunning 1 false; ECreated 1 nA; EMetaDeleted;
     EStart 2; ELooked 2 false; ERead 2; ELocked 2], false. eexists. split; [reflexivity|].
    intros e [].
Qed.

Theorem C41_success_means_recorded_refuted :
  ~ (forall acts w tr p, run world0 acts = Some (w, tr ++ [EShut p kSuccess]) ->
       exists i, meta w = Some i /\
         fdata w i = enc_obj (posix (procs w p)) (attached (procs w p))).
Proof.
  intros H.
  destruct (run world0 (s_two ++ shut 1)) as [[w t]|] eqn:E;
    [|vm_compute in E; discriminate E].
  assert (X : (meta w, fdata w 1, t) =
     match run world0 (s_two ++ shut 1) with
     | Some (w', t') => (meta w', fdata w' 1, t') | None => (None, [], []) end)
    by (rewrite E; reflexivity).
  vm_compute in X. injection X as X1 X2 X3.
  assert (Y : t = removelast t ++ [EShut 1 kSuccess]) by (rewrite X3; reflexivity).
  rewrite Y in E. destruct (H _ _ _ _ E) as (i & M & D).
  change (meta w = Some 1) in X1. change (fdata w 1 = []) in X2.
  rewrite X1 in M. injection M as <-. rewrite X2 in D. discriminate D.
Qed.

(** A torn write is never taken for a record, but it is not treated as "no
    record" either: the next start throws, and so does every later one. *)
Definition s_torn : list action :=
  boot0 1 false ++ [ACreate 1 nA; AShut 1; AWriteCut 1 3] ++ nexts 1 2 ++
  AStart 2 false true :: nexts 2 5 ++ AStart 3 false true :: nexts 3 5.

Example C41_torn_record_blocks_starts_example :
  trace_of s_torn =
   [EStart 1; ERead 1; ELocked 1; ERunning 1 false; ECreated 1 nA; EReleased 1;
    EShut 1 kFailedWrite; EStart 2; ELooked 2 false; ERead 2; EThrow 2;
    EStart 3; ELooked 3 false; ERead 3; EThrow 3].
Proof. vm_compute. reflexivity. Qed.

(** shutDown removes the segments it never attached AFTER it released the lock
    (ShmManager.cpp:208-213), by name: it can remove the segment the next process
    has just created.  So a running process's segment may be gone although nobody
    else holds the lock and nobody deleted it. *)
Definition s_late : list action :=
  boot0 1 false ++ [ACreate 1 nA] ++ shut 1 ++
  boot 2 false ++ AShut 2 :: nexts 2 2 ++
  boot 3 false ++ [ACreate 3 nA; AWrite 3 nA 5; ANext 2].

Theorem C41_segment_stays_while_running_refuted :
  ~ (forall acts w tr p n o x, run world0 acts = Some (w, tr) -> meta_kept tr ->
       (forall m, ~ In (ESegDeleted m) tr) -> starts_alone tr -> upgrade_only tr ->
       pc (procs w p) = PRun -> afind (segs (procs w p)) n = Some (o, x) ->
       bound w n o = Some x).
Proof.
  intros H.
  destruct (run world0 s_late) as [[w t]|] eqn:E; [|vm_compute in E; discriminate E].
  assert (X : (pc (procs w 3), afind (segs (procs w 3)) nA, bound w nA false, t) =
     match run world0 s_late with
     | Some (w', t') => (pc (procs w' 3), afind (segs (procs w' 3)) nA, bound w' nA false, t')
     | None => (PNone, None, None, []) end)
    by (rewrite E; reflexivity).
  vm_compute in X. injection X as X1 X2 X3 X4.
  assert (Y : bound w nA false = Some 1).
  { apply (H _ _ _ 3 nA false 1 E); rewrite ?X4; auto.
    - unfold meta_kept; cbn [In app]; intuition discriminate.
    - intros m; cbn [In app]; intuition discriminate.
    - intros a p b c X; unapp X a; inj X;
       (split; [intros q Hq; apply holdsb_not; unfold holdb; cbn [fold_left hold_step];
                repeat match goal with |- context [(?k =? q)%nat] => destruct (k =? q)%nat end;
                reflexivity
               |unapp X b; inj X; intros q Hq Y; cbn [In] in Y;
                repeat (destruct Y as [Y|Y];
                        [try discriminate Y; injection Y as Y; congruence|]);
                try contradiction]).
    - intros a p b X; unapp X a. }
  change (bound w nA false = None) in X3. rewrite X3 in Y. discriminate Y.
Qed.

Print Assumptions C41_attach_only_after_clean_shutdown.
Print Assumptions C41_one_owner.
Print Assumptions C41_deleted_file_reported.
Print Assumptions C41_lock_serializes.
Print Assumptions C41_attach_only_after_clean_shutdown_kept.
Print Assumptions C41_drop_marker_respected.
Print Assumptions C41_clean_restart_attaches.
Print Assumptions C41_record_round_trip.
Print Assumptions C41_torn_record_rejected.
Print Assumptions C41_overlapping_starts_refuted.
Print Assumptions C41_rollback_refuted.
Print Assumptions C41_drop_request_not_lost_refuted.
Print Assumptions C41_one_owner_with_deletion_refuted.
Print Assumptions C41_success_means_recorded_refuted.
Print Assumptions C41_segment_stays_while_running_refuted.
