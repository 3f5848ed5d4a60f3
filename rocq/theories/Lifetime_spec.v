(** * What C16 says, in terms of handles, the index and the event trace. *)
From Coq Require Import List Arith Bool.
Import ListNotations.
From Verif Require Import Lifetime_model.

(** Handles a running call owns. *)
Definition inflight (t : tst) : list hdl :=
  match t with
  | FGot _ h => [h]
  | InChk h | InMM h | InPre h | InAC h | InRm h => [h]
  | OrChk h | OrMM h | OrPre h | OrAC h | OrFail h | OrWait h _ => [h]
  | OrRm h h2 => [h; h2]
  | RmAC h _ | RmMM h _ | XAC h | RDec h _ => [h]
  | XMM h h2 => [h; h2]
  | SMM _ n | SRep _ n | SRm _ n => [(n, true)]
  | SOld _ n | SUnm _ n | SWake _ n => [(n, false)]
  | THung (Some h) => [h]
  | _ => []
  end.

(** Some handle to [a] exists, with a user or inside a call. *)
Definition held (s : state) (a : id) : Prop :=
  exists nas, In (a, nas) (hs s) \/ exists t, In t (thr s) /\ In (a, nas) (inflight t).
Definition indexed (s : state) (a : id) : Prop := exists k, idx s k = Some a.
Definition evictable (s : state) (a : id) : Prop := mm s a = true.

(** Number of events in a trace. *)
Definition times (p : event -> bool) (tr : list event) : nat := length (filter p tr).
Definition allocOf (a : id) (e : event) : bool := match e with EAlloc b => ideq b a | _ => false end.
Definition freeOf (a : id) (e : event) : bool := match e with EFree b => ideq b a | _ => false end.
Definition dtorOf (a : id) (e : event) : bool := match e with EDtor b => ideq b a | _ => false end.

Definition published (s : state) (a : id) : Prop :=
  In (EIns a) (tr s) \/ exists o, In (EMoved o a) (tr s).
Definition movedAway (s : state) (a : id) : Prop := exists n, In (EMoved a n) (tr s).

(** No call is running. *)
Definition quiet (s : state) : Prop := forall t, In t (thr s) -> t = TIdle.
(** No call is running, except those stuck in a wait whose wake-up was lost. *)
Definition settled (s : state) : Prop := forall t, In t (thr s) -> t = TIdle \/ exists h, t = THung h.

(** Executions in which running calls go on and no new call is made. *)
Definition onlySteps (ls : list label) : Prop := forall l, In l ls -> exists i c, l = LStep i c.

(** [progress maxRef s ls k s']: running [ls] from [s] ends in [s'], and [k] of the steps changed
    something.  (A step that looks at an eviction candidate that cannot be taken changes nothing.) *)
Inductive progress (maxRef : nat) : state -> list label -> nat -> state -> Prop :=
| pr_nil : forall s, progress maxRef s [] 0 s
| pr_same : forall s l r k s', step maxRef true s l = Some s -> progress maxRef s r k s' ->
    progress maxRef s (l :: r) k s'
| pr_step : forall s l r k s1 s', step maxRef true s l = Some s1 -> s1 <> s ->
    progress maxRef s1 r k s' -> progress maxRef s (l :: r) (S k) s'.
