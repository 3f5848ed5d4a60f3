(** What C44 means, over the observable events of a history of lookups that go to flash. *)
From Coq Require Import List Arith ZArith Bool.
Import ListNotations.
From Verif Require Import AsyncHdl_model.

Definition history (maxRef : nat) (s : state) (tr : list event) : Prop :=
  exists acts, run maxRef init acts = Some (s, tr).

(** Values users see: through the handle, or through the future made of it. *)
Definition sees (tr : list event) (c : nat) (v : option nat) : Prop :=
  In (EGot c v) tr \/ In (EFut c v) tr \/ In (ETaken c v) tr.

(** No reference count overflowed while the waiters of the fetch were woken. *)
Definition no_overflow (tr : list event) (f : nat) : Prop := forall c, ~ In (EOver f c) tr.

(** A handle that waits for fetch f gives the item that fetch brought, or a miss if it
    brought none (or if a reference count overflowed). *)
Definition right_value (tr : list event) : Prop :=
  forall c f v, In (EFind c f) tr -> sees tr c v ->
    match v with
    | Some i => In (EFilled f i) tr
    | None => (forall i, ~ In (EFilled f i) tr) \/ exists c', In (EOver f c') tr
    end.

(** One answer per handle: all looks at it agree, and a ready handle stays ready. *)
Definition one_answer (tr : list event) : Prop :=
  (forall c v w, sees tr c v -> sees tr c w -> v = w) /\
  (forall c a b, tr = a ++ EReady c true :: b -> ~ In (EReady c false) b) /\
  (forall c v a b, tr = a ++ EGot c v :: b -> ~ In (EReady c false) b) /\
  (forall f i j, In (EFilled f i) tr -> In (EFilled f j) tr -> i = j) /\
  (forall c v a b, tr = a ++ EFut c v :: b -> forall w, ~ In (EFut c w) b).

(** Handle c has its answer: a user blocked in wait() can go on, isReady() is true, and
    a future made of it is not left without a value. *)
Definition answered (maxRef : nat) (s : state) (c : nat) : Prop :=
  (cwait (ctxs s c) = true -> step maxRef s (AAwake c) <> None) /\
  (forall s' b, step maxRef s (AIsReady c) = Some (s', [EReady c b]) -> b = true) /\
  cfut (ctxs s c) <> UPend /\ cfut (ctxs s c) <> UBroken.

(** Somebody has a handle (or a future with a handle in it) to item i. *)
Definition held (s : state) (i : nat) : Prop :=
  In i (plain s) \/
  exists c, c < nc s /\
    (chold (ctxs s c) = true /\ cval (ctxs s c) = Some (Some i) \/
     cfut (ctxs s c) = UHas (Some i)).

(** No handle, future or fetch is left. *)
Definition quiet (s : state) : Prop :=
  plain s = [] /\
  (forall c, c < nc s -> chold (ctxs s c) = false /\ forall i, cfut (ctxs s c) <> UHas (Some i)) /\
  (forall f, f < nf s -> fpcs (fetches s f) = FDone).

(** Futures destroyed before their item was taken out. *)
Definition isDropped (e : event) : bool := match e with EFutDropped _ _ => true | _ => false end.
Definition dropped (tr : list event) : nat := length (filter isDropped tr).

(** shutDown() and saving the cache are refused while handles are counted
    (CacheAllocator.h:5966-5971). *)
Definition shutdown_refused (s : state) : Prop := total s <> 0%Z.
