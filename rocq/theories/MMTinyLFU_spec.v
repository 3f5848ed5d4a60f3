(** Specification for C07: two queues and a frequency estimate. *)
From Verif Require Import Bytes DList_model DList_spec MMTinyLFU_model.
From Verif Require CountMin_model.

Record qt := mkQ {
  M : list node;     (* main, most recent first *)
  T : list node;     (* tiny, most recent first *)
  seen : node -> bool;     (* accessed since added *)
  stamp : node -> N;       (* when each item was last added / promoted *)
  qcfg : conf; ref_of : N; next_of : N;
  win : N; maxwin : N; capa : N;      (* position in the counting window, its length, capacity sized for *)
  wid : N; freq : list CountMin_model.call   (* width of the sketch and what was counted since it was made *)
}.
Definition members (q : qt) : list node := M q ++ T q.
Definition mem (n : node) (l : list node) : bool := existsb (Nat.eqb n) l.
Definition with_queues (q : qt) (m t : list node) : qt :=
  mkQ m t (seen q) (stamp q) (qcfg q) (ref_of q) (next_of q) (win q) (maxwin q) (capa q) (wid q) (freq q).
Definition with_seen (q : qt) (n : node) (b : bool) : qt :=
  mkQ (M q) (T q) (updb (seen q) n b) (stamp q) (qcfg q) (ref_of q) (next_of q) (win q) (maxwin q) (capa q) (wid q) (freq q).
Definition with_stamp (q : qt) (n : node) (t : N) : qt :=
  mkQ (M q) (T q) (seen q) (updt (stamp q) n t) (qcfg q) (ref_of q) (next_of q) (win q) (maxwin q) (capa q) (wid q) (freq q).
Definition with_cfg (q : qt) (c : conf) (r nx : N) : qt :=
  mkQ (M q) (T q) (seen q) (stamp q) c r nx (win q) (maxwin q) (capa q) (wid q) (freq q).
Definition with_freq (q : qt) (w mw c wd : N) (f : list CountMin_model.call) : qt :=
  mkQ (M q) (T q) (seen q) (stamp q) (qcfg q) (ref_of q) (next_of q) w mw c wd f.

(** The estimated frequency of an item: a count-min sketch (C24) fed with everything counted. *)
Definition est (e : env) (q : qt) (n : node) : N :=
  match CountMin_model.create (wid q) 4 with
  | Some s0 => match CountMin_model.execs CMAX (rowh e) s0 (freq q) with
               | Some s => match CountMin_model.getCount CMAX (rowh e) s (khash e n) with Some m => m | None => 0%N end
               | None => 0%N
               end
  | None => 0%N
  end.
(** Does [t] of the tiny queue deserve [m]'s place in the main queue? *)
Definition admits (e : env) (q : qt) (t m : node) : bool :=
  if newcomerWins (qcfg q) then (est e q m <=? est e q t)%N else (est e q m <? est e q t)%N.

(** Eviction candidates: of the two oldest, the main one if the tiny one deserves its place. *)
Fixpoint merge (adm : node -> node -> bool) (t : list node) : list node -> list node :=
  match t with
  | [] => fun m => m
  | a :: t' => fix inner (m : list node) : list node :=
    match m with
    | [] => a :: t'
    | b :: m' => if adm a b then b :: inner m' else a :: merge adm t' (b :: m')
    end
  end.
Definition eviction (e : env) (q : qt) : list node := merge (admits e q) (rev (T q)) (rev (M q)).

(** One more occurrence is counted; at the end of the window all counts are halved. *)
Definition counted (e : env) (q : qt) (n : node) : qt :=
  let w := (win q + 1)%N in
  if (w =? maxwin q)%N then
    with_freq q (w / 2) (maxwin q) (capa q) (wid q) (freq q ++ [CountMin_model.Inc (khash e n); CountMin_model.Decay N.div2])
  else with_freq q w (maxwin q) (capa q) (wid q) (freq q ++ [CountMin_model.Inc (khash e n)]).
(** New counters when the number of items doubled. *)
Definition regrown (e : env) (q : qt) : qt :=
  let n := N.of_nat (length (members q)) in
  if (n <? 2 * capa q)%N then q
  else let c := N.max n 100 in
       let w := (c * windowRatio (qcfg q))%N in with_freq q 0 w c (nextPow2 (raw e w)) [].
(** The oldest tiny and main items contend; a main item that stays gets another round. *)
Definition contest (e : env) (q : qt) : qt :=
  match rev (M q), rev (T q) with
  | m :: _, t :: _ =>
    if admits e q t m then with_queues q (t :: removelast (M q)) (removelast (T q) ++ [m])
    else with_queues q (m :: removelast (M q)) (T q)
  | _, _ => q
  end.
(** The oldest tiny item moves to main. *)
Definition overflow (q : qt) : qt :=
  match rev (T q) with t :: _ => with_queues q (t :: M q) (removelast (T q)) | [] => q end.
Definition share (pct : N) (n : nat) : N := (pct * N.of_nat n / 100)%N.
Definition spec_add (e : env) (q0 : qt) (n : node) (now : N) : qt :=
  let q := counted e (with_queues q0 (M q0) (n :: T q0)) n in
  let q1 := if (share (tinyPct (qcfg q)) (length (members q)) <? N.of_nat (length (T q)))%N then overflow q else contest e q in
  with_seen (with_stamp (regrown e q1) n now) n false.
Definition taken_out (q : qt) (n : node) : qt :=
  with_seen (with_queues q (remove_node (M q) n) (remove_node (T q) n)) n false.

(** Recomputation of the refresh time, from the age of the oldest main item. *)
Definition spec_reconf (q : qt) (now : N) : qt :=
  if (now <? next_of q)%N then q
  else
    let age := match rev (M q) with n :: _ => wrap32 (now + 2 ^ 32 - stamp q n)%N | [] => 0%N end in
    with_cfg q (qcfg q) (N.min (N.max (defRefresh (qcfg q)) (ratio (qcfg q) age)) 900) (wrap32 (now + interval (qcfg q))).
(** An access: to the young end of its own queue, and counted. *)
Definition promoted (q : qt) (n : node) : qt :=
  if mem n (T q) then with_queues q (M q) (n :: remove_node (T q) n)
  else with_queues q (n :: remove_node (M q) n) (T q).
Definition spec_access (e : env) (q0 : qt) (n : node) (now : N) : qt * mout :=
  let q := spec_reconf q0 now in
  if mem n (members q) then (counted e (with_stamp (promoted q n) n now) n, MBool true) else (q, MBool false).
(** Accesses are acted upon when the mode is enabled and the item was not promoted recently, or
    not accessed since it was added. *)
Definition due (q : qt) (n : node) (write : bool) (now : N) : bool :=
  (if write then updOnWrite (qcfg q) else updOnRead (qcfg q)) && mem n (members q) &&
  ((wrap32 (stamp q n + ref_of q) <=? now)%N || negb (seen q n)).

Definition good_conf (c : conf) : bool :=
  ((1 <=? tinyPct c) && (tinyPct c <=? 50) && (2 <=? windowRatio c) && (windowRatio c <=? 128))%N.
Definition next_at (c : conf) (now : N) : N :=
  if (interval c =? 0)%N then (2 ^ 32 - 1)%N else wrap32 (now + interval c).
Fixpoint after (n : node) (l : list node) : ptr :=
  match l with [] => None | x :: r => if x =? n then hd_error r else after n r end.

Definition spec_exec (e : env) (q : qt) (c : mcall) : qt * mout :=
  match c with
  | MAdd n now => if mem n (members q) then (q, MBool false) else (spec_add e q n now, MBool true)
  | MRemove n => if mem n (members q) then (taken_out q n, MBool true) else (q, MBool false)
  | MEvict n => (taken_out q n, MPtr (after n (eviction e q)))
  | MReplace o n =>
    if mem o (members q) && negb (mem n (members q)) then
      (with_seen (with_stamp (with_queues q (replace_node (M q) o n) (replace_node (T q) o n)) n (stamp q o)) n (seen q o), MBool true)
    else (q, MBool false)
  | MAccessCheck n w now => (q, MBool (due q n w now))
  | MMark n => (with_seen q n true, MUnit)
  | MAccessLocked n now => spec_access e q n now
  | MRecordAccess n w now => if due q n w now then spec_access e (with_seen q n true) n now else (q, MBool false)
  | MSetConfig c now =>
    if good_conf c then (with_cfg q c (initRefresh c) (next_at c now), MBool true) else (q, MBool false)
  | MRestart now =>
    let c := qcfg q in
    let c1 := mkConf (ref_of q) (ref_of q) (ratio c) (updOnWrite c) (updOnRead c) (windowRatio c) (tinyPct c)
                (interval c) (newcomerWins c) in
    (regrown e (with_freq (with_cfg q c1 (ref_of q) (next_at c1 now)) 0 0 0 0 []), MUnit)
  end.

(** The counters for [k] items fit the 32-bit table size: at most 2^29 per row. *)
Definition roomy (e : env) (c : conf) (k : nat) : Prop := (raw e (N.max (N.of_nat k) 100 * windowRatio c) <= 2 ^ 29)%N.
Definition mlegal (e : env) (q : qt) (c : mcall) : Prop :=
  match c with
  | MAdd n _ => ~ In n (members q) -> roomy e (qcfg q) (S (length (members q)))
  | MEvict n => In n (members q)
  | MRestart _ => roomy e (qcfg q) (length (members q))
  | _ => True
  end.
Fixpoint mlegals (e : env) (q : qt) (cs : list mcall) : Prop :=
  match cs with [] => True | c :: r => mlegal e q c /\ mlegals e (fst (spec_exec e q c)) r end.
Fixpoint spec_execs (e : env) (q : qt) (cs : list mcall) : qt * list mout :=
  match cs with
  | [] => (q, [])
  | c :: r => let (q1, o) := spec_exec e q c in let (q2, os) := spec_execs e q1 r in (q2, o :: os)
  end.
Definition init_q (e : env) (c : conf) (now : N) : qt :=
  regrown e (mkQ [] [] (fun _ => false) (fun _ => 0%N) c (initRefresh c) (next_at c now) 0 0 0 0 []).

(** Each of the two lists, oldest first. *)
Definition oldest_first (s : lfu) (i : nat) : option (list node) := walkPrev (size (lst s i)) (wheap (wd s)) (tail (lst s i)).
(** The container holds exactly the queues of [q]. *)
Definition shows (e : env) (s : lfu) (q : qt) : Prop :=
  evictionOrder e s = Some (eviction e q) /\ NoDup (members q) /\ total s = length (members q) /\
  oldest_first s Main = Some (rev (M q)) /\ oldest_first s Tiny = Some (rev (T q)) /\
  (forall n, inMM s n = true <-> In n (members q)) /\
  (forall n, tiny s n = true <-> In n (T q)) /\
  window s = win q /\ maxWindow s = maxwin q.

(** A state reached from an empty container by calls respecting [mlegals]. *)
Definition reached (e : env) (c0 : conf) (now : N) (cs : list mcall) (s : lfu) (outs : list mout) : Prop :=
  good_conf c0 = true /\ roomy e c0 0 /\ mlegals e (init_q e c0 now) cs /\
  exists s0, initLfu e c0 now = Some s0 /\ mexecs e s0 cs = Some (s, outs).

(** Which items are inside, read off a history of calls and results. *)
Definition inside_step (inside : node -> bool) (ev : mcall * mout) : node -> bool :=
  match ev with
  | (MAdd n _, MBool true) => updb inside n true
  | (MRemove n, MBool true) | (MEvict n, _) => updb inside n false
  | (MReplace o n, MBool true) => updb (updb inside o false) n true
  | _ => inside
  end.
Definition inside_after (es : list (mcall * mout)) : node -> bool := fold_left inside_step es (fun _ => false).
(** Successful adds and accesses: all of them, and those of a key (its hash). *)
Definition tally_step (e : env) (k : N) (x : N * N) (ev : mcall * mout) : N * N :=
  match ev with
  | (MAdd n _, MBool true) | (MAccessLocked n _, MBool true) | (MRecordAccess n _ _, MBool true) =>
    (fst x + 1, if (khash e n =? k)%N then snd x + 1 else snd x)%N
  | _ => x
  end.
Definition tally (e : env) (k : N) (es : list (mcall * mout)) : N * N := fold_left (tally_step e k) es (0, 0)%N.
(** What the container currently estimates for an item. *)
Definition estimate (e : env) (s : lfu) (n : node) : option N := CountMin_model.getCount CMAX (rowh e) (sk s) (khash e n).
