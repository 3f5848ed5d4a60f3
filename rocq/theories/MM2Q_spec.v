(** Specification for C06: three queues. *)
From Verif Require Import Bytes DList_model DList_spec MM2Q_model.

Record q2 := mkQ {
  H : list node;     (* hot, most recent first *)
  W : list node;     (* warm *)
  C : list node;     (* cold *)
  wt : nat;          (* how many of the last warm items are tracked as its tail *)
  ct : nat;          (* same for cold *)
  qcfg : conf; track : bool; ref_of : N; next_of : N; qcnt : counters;
  stamp : node -> N;     (* when each item was last added / promoted *)
  used : node -> bool    (* was in the container since it was last allocated *)
}.
Definition members (q : q2) : list node := H q ++ W q ++ C q.
(** Least valuable first: all of cold, then hot, then warm; each oldest first. *)
Definition eviction (q : q2) : list node := rev (C q) ++ rev (H q) ++ rev (W q).
Definition mem (n : node) (l : list node) : bool := existsb (Nat.eqb n) l.

Definition with_queues (q : q2) (h w c : list node) (a b : nat) : q2 :=
  mkQ h w c a b (qcfg q) (track q) (ref_of q) (next_of q) (qcnt q) (stamp q) (used q).
Definition with_cfg (q : q2) (c : conf) (r nx : N) (k : counters) : q2 :=
  mkQ (H q) (W q) (C q) (wt q) (ct q) c (track q) r nx k (stamp q) (used q).
Definition with_stamp (q : q2) (n : node) (t : N) : q2 :=
  mkQ (H q) (W q) (C q) (wt q) (ct q) (qcfg q) (track q) (ref_of q) (next_of q) (qcnt q) (updt (stamp q) n t) (used q).
Definition with_used (q : q2) (n : node) (b : bool) : q2 :=
  mkQ (H q) (W q) (C q) (wt q) (ct q) (qcfg q) (track q) (ref_of q) (next_of q) (qcnt q) (stamp q) (updb (used q) n b).

(** [pct] percent of [n], rounded down. *)
Definition share (pct : N) (n : nat) : nat := N.to_nat (pct * N.of_nat n / 100).
Definition warm_pct (c : conf) : N := (100 - hotPct c - coldPct c)%N.
(** A tail grows to the configured size as far as there are items; it never shrinks by itself. *)
Definition grow (t : nat) (k : nat) (l : list node) : nat := Nat.max t (Nat.min (length l) k).

(** Overflow of warm, then of hot, goes to the young end of cold, order kept. *)
Definition rebalanced (q : q2) : q2 :=
  let n := length (members q) in
  let ew := share (warm_pct (qcfg q)) n in
  let eh := share (hotPct (qcfg q)) n in
  let w' := firstn ew (W q) in
  let h' := firstn eh (H q) in
  let c' := skipn eh (H q) ++ skipn ew (W q) ++ C q in
  with_queues q h' w' c'
    (grow (wt q - (length (W q) - length w')) (tailSize (qcfg q)) w')
    (grow (ct q) (tailSize (qcfg q)) c').

(** Tail length after taking [n] out of [l]. *)
Definition less (t : nat) (l : list node) (n : node) : nat :=
  if mem n (skipn (length l - t) l) then t - 1 else t.
Definition in_tail (t : nat) (l : list node) (n : node) : bool := mem n (skipn (length l - t) l).
Definition taken_out (q : q2) (n : node) : q2 :=
  with_queues q (remove_node (H q) n) (remove_node (W q) n) (remove_node (C q) n)
    (less (wt q) (W q) n) (less (ct q) (C q) n).

(** Recomputation of the refresh time, from the age of the oldest warm item. *)
Definition spec_reconf (q : q2) (now : N) : q2 :=
  if (now <? next_of q)%N then q
  else
    let age := match rev (W q) with n :: _ => wrap32 (now + 2 ^ 32 - stamp q n)%N | [] => 0%N end in
    with_cfg q (qcfg q) (N.min (N.max (defRefresh (qcfg q)) (ratio (qcfg q) age)) 900)
      (wrap32 (now + interval (qcfg q))) (qcnt q).

Definition count (q : q2) (a b c d e : nat) : q2 :=
  let k := qcnt q in
  with_cfg q (qcfg q) (ref_of q) (next_of q)
    (mkCnt (a + nHot k) (b + nCold k) (c + nWarm k) (d + nWarmTail k) (e + nColdTail k)).
Definition b2n (b : bool) : nat := if b then 1 else 0.

(** An access: hot items go to the head of hot; warm and cold items to the head of warm. *)
Definition promoted (q : q2) (n : node) : q2 :=
  if mem n (H q) then count (with_queues q (n :: remove_node (H q) n) (W q) (C q) (wt q) (ct q)) 1 0 0 0 0
  else
    let q1 := taken_out q n in
    let q2 := with_queues q1 (H q1) (n :: W q1) (C q1) (wt q1) (ct q1) in
    if mem n (C q)
    then let q3 := count q2 0 1 0 0 (b2n (in_tail (ct q) (C q) n)) in
         if rebalOnAccess (qcfg q) then rebalanced q3 else q3
    else count q2 0 0 1 (b2n (in_tail (wt q) (W q) n)) 0.
Definition spec_access (q0 : q2) (n : node) (now : N) : q2 * mout :=
  let q := spec_reconf q0 now in
  if mem n (members q) then (with_stamp (promoted q n) n now, MBool true) else (q, MBool false).
(** Accesses are acted upon when the mode is enabled and the item was not promoted recently. *)
Definition due (q : q2) (n : node) (write : bool) (now : N) : bool :=
  (if write then updOnWrite (qcfg q) else updOnRead (qcfg q)) && mem n (members q) &&
  (wrap32 (stamp q n + ref_of q) <=? now)%N.

(** Valid percentages: hot alone, or all three queues between 1% and 99%. *)
Definition good_pct (c : conf) : bool :=
  ((hotPct c =? 100) && (coldPct c =? 0))%N ||
  ((1 <=? hotPct c) && (1 <=? coldPct c) && (hotPct c + coldPct c <=? 99))%N.
Definition good_conf (q : q2) (c : conf) : bool := good_pct c && Bool.eqb (0 <? tailSize c) (track q).
Definition next_at (c : conf) (now : N) : N :=
  if (interval c =? 0)%N then (2 ^ 32 - 1)%N else wrap32 (now + interval c).

Fixpoint after (n : node) (l : list node) : ptr :=
  match l with [] => None | x :: r => if x =? n then hd_error r else after n r end.

Definition spec_exec (q : q2) (c : mcall) : q2 * mout :=
  match c with
  | MFresh n => (with_used q n false, MUnit)
  | MAdd n now =>
    if mem n (members q) then (q, MBool false)
    else (with_stamp (with_used (rebalanced (with_queues q (n :: H q) (W q) (C q) (wt q) (ct q))) n true) n now, MBool true)
  | MRemove n =>
    if mem n (members q) then (rebalanced (taken_out q n), MBool true) else (q, MBool false)
  | MEvict n => (taken_out q n, MPtr (after n (eviction q)))
  | MReplace o n =>
    if mem o (members q) && negb (mem n (members q)) then
      (with_stamp (with_used (with_queues q (replace_node (H q) o n) (replace_node (W q) o n) (replace_node (C q) o n)
                   (wt q) (ct q)) n true) n (stamp q o), MBool true)
    else (q, MBool false)
  | MAccessCheck n w now => (q, MBool (due q n w now))
  | MAccessLocked n now => spec_access q n now
  | MRecordAccess n w now => if due q n w now then spec_access q n now else (q, MBool false)
  | MSetConfig c now =>
    if good_conf q c then (with_cfg q c (defRefresh c) (next_at c now) (qcnt q), MBool true) else (q, MBool false)
  | MRestart t now =>
    if Bool.eqb (0 <? t) (track q) then
      let c := qcfg q in
      (with_cfg q (mkConf (ref_of q) (ratio c) (updOnWrite c) (updOnRead c) (rebalOnAccess c) (hotPct c) (coldPct c) t 0)
         (ref_of q) (2 ^ 32 - 1)%N cnt0, MBool true)
    else (q, MBool false)
  end.

(** Percentages are 64-bit values; an eviction concerns a member; an item is reallocated only when outside; the replacement item is
    newly allocated (it was in no container since). *)
Definition mlegal (q : q2) (c : mcall) : Prop :=
  match c with
  | MFresh n => ~ In n (members q)
  | MEvict n => In n (members q)
  | MReplace o n => In o (members q) -> In n (members q) \/ used q n = false
  | MSetConfig c _ => (hotPct c < 2 ^ 64 /\ coldPct c < 2 ^ 64)%N
  | _ => True
  end.
Fixpoint mlegals (q : q2) (cs : list mcall) : Prop :=
  match cs with [] => True | c :: r => mlegal q c /\ mlegals (fst (spec_exec q c)) r end.
Fixpoint spec_execs (q : q2) (cs : list mcall) : q2 * list mout :=
  match cs with
  | [] => (q, [])
  | c :: r => let (q1, o) := spec_exec q c in let (q2, os) := spec_execs q1 r in (q2, o :: os)
  end.
Definition init_q (c : conf) (now : N) : q2 :=
  mkQ [] [] [] 0 0 c (0 <? tailSize c) (defRefresh c) (next_at c now) cnt0 (fun _ => 0%N) (fun _ => false).

(** The container holds exactly the queues of [q]. *)
Definition shows (s : mm) (q : q2) : Prop :=
  evictionOrder s = Some (eviction q) /\ NoDup (members q) /\ total s = length (members q) /\
  (forall n, inMM s n = true <-> In n (members q)) /\
  (forall n, In n (H q) <-> inMM s n = true /\ getLruType s n = Hot) /\
  (forall n, In n (W q) <-> inMM s n = true /\ (getLruType s n = Warm \/ getLruType s n = WarmTail)) /\
  (forall n, In n (C q) <-> inMM s n = true /\ (getLruType s n = Cold \/ getLruType s n = ColdTail)) /\
  size (lst s WarmTail) = wt q /\ size (lst s ColdTail) = ct q /\ cnt s = qcnt q.

(** A state reached from an empty container by calls respecting [mlegals]. *)
Definition reached (c0 : conf) (now : N) (cs : list mcall) (s : mm) (outs : list mout) : Prop :=
  good_pct c0 = true /\ mlegals (init_q c0 now) cs /\ mexecs (initMM c0 now) cs = Some (s, outs).

(** Which items are inside, read off a history of calls and results. *)
Definition inside_step (inside : node -> bool) (e : mcall * mout) : node -> bool :=
  match e with
  | (MAdd n _, MBool true) => updb inside n true
  | (MRemove n, MBool true) | (MEvict n, _) => updb inside n false
  | (MReplace o n, MBool true) => updb (updb inside o false) n true
  | _ => inside
  end.
Definition inside_after (es : list (mcall * mout)) : node -> bool := fold_left inside_step es (fun _ => false).
(** Which items were accessed (with effect) since they were added; a replacement inherits. *)
Definition touched_step (touched : node -> bool) (e : mcall * mout) : node -> bool :=
  match e with
  | (MAdd n _, MBool true) => updb touched n false
  | (MAccessLocked n _, MBool true) | (MRecordAccess n _ _, MBool true) => updb touched n true
  | (MReplace o n, MBool true) => updb touched n (touched o)
  | _ => touched
  end.
Definition touched_after (es : list (mcall * mout)) : node -> bool := fold_left touched_step es (fun _ => false).
Definition no_config (c : mcall) : Prop := match c with MSetConfig _ _ => False | _ => True end.
Definition isWarm (s : mm) (n : node) : Prop := inMM s n = true /\ hot s n = false /\ cold s n = false.

(** Hot and warm within their percentages. *)
Definition bounded (s : mm) : Prop :=
  size (lst s Hot) <= N.to_nat (hotPct (cfg s) * N.of_nat (total s) / 100) /\
  size (lst s Warm) + size (lst s WarmTail) <=
    N.to_nat ((100 - hotPct (cfg s) - coldPct (cfg s)) * N.of_nat (total s) / 100).
