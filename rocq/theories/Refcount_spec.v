(** Specification for C01/C02: an item state with a handle count and named marks, and what
    the history of completed calls says about who holds what. *)
From Verif Require Import Bytes Refcount_model.
Open Scope N_scope.

(** ** C01: the state as a record of independent fields *)
Record item_state := mkIS {
  refs : N;             (* outstanding references *)
  marks : N -> bool     (* mark/flag number 0..13: linked, accessible, exclusive, flags *)
}.
Definition m_linked : N := 0.
Definition m_accessible : N := 1.
Definition m_exclusive : N := 2.
Definition max_refs : N := 262143.

Definition set_mark (v : item_state) (m : N) (b : bool) : item_state :=
  {| refs := refs v; marks := fun i => if i =? m then b else marks v i |}.
Definition set_refs (v : item_state) (n : N) : item_state :=
  {| refs := n; marks := marks v |}.

(** The number of references and the linked/accessible/exclusive marks read as one
    number: what dropping a handle reports (zero: nobody can reach the item). *)
Definition ref_code (v : item_state) : N :=
  refs v + N.b2n (marks v 0) * 262144 + N.b2n (marks v 1) * 524288 + N.b2n (marks v 2) * 1048576.

Definition spec_apply (o : rc_op) (v : item_state) : item_state * rc_result :=
  match o with
  | OInc =>
    if refs v =? max_refs then (v, RThrowOverflow)
    else if marks v m_exclusive
         then (v, if refs v =? 0 then RIncFailedEviction else RIncFailedMoving)
         else (set_refs v (refs v + 1), RIncOk)
  | ODec =>
    if refs v =? 0 then (v, RThrowUnderflow)
    else let v' := set_refs v (refs v - 1) in (v', RRef (ref_code v'))
  | OMarkForEviction =>
    if negb (marks v m_linked) then (v, REvUnlinked)
    else if marks v m_exclusive then (v, REvExclusive)
    else if negb (refs v =? 0) then (v, REvRefHeld)
    else (set_mark v m_exclusive true, REvSuccess)
  | OUnmarkForEviction => let v' := set_mark v m_exclusive false in (v', RRef (ref_code v'))
  | OMarkMoving =>
    if (refs v =? 0) && marks v m_linked && negb (marks v m_exclusive)
    then (set_mark (set_refs v 1) m_exclusive true, RMark true)
    else (v, RMark false)
  | OUnmarkMoving =>
    let v' := set_mark (set_refs v (refs v - 1)) m_exclusive false in (v', RRef (ref_code v'))
  | OMarkForEvictionWhenMoving => (set_refs v (refs v - 1), RMark true)
  | OSetBit b => (set_mark v (b - 18) true, RVoid)
  | OClearBit b => (set_mark v (b - 18) false, RVoid)
  end.

(** When the call is within its documented precondition (Refcount.h:402-442: the item is
    moving; a bit operation names one of the fourteen mark bits). *)
Definition pre (o : rc_op) (v : item_state) : Prop :=
  match o with
  | OUnmarkMoving | OMarkForEvictionWhenMoving => 0 < refs v
  | OSetBit b | OClearBit b => 18 <= b < 32
  | _ => True
  end.

Definition same_state (v v' : item_state) : Prop :=
  refs v = refs v' /\ forall m, m < 14 -> marks v m = marks v' m.

(** Reading the state out of the word: low 18 bits and then one bit per mark. *)
Definition view (w : N) : item_state :=
  {| refs := w mod 262144; marks := fun m => N.testbit w (18 + m) |}.

(** ** C02: what the completed calls tell the callers *)
Definition event := (tid * rc_op * rc_result)%type.

(** Threads holding a handle, one occurrence per handle: acquired and not yet dropped. *)
Fixpoint remove_one (t : tid) (l : list tid) : list tid :=
  match l with [] => [] | x :: r => if Nat.eqb x t then r else x :: remove_one t r end.
Fixpoint holders (tr : list event) : list tid :=
  match tr with
  | [] => []
  | (t, OInc, RIncOk) :: r => t :: holders r
  | (t, ODec, RRef _) :: r => remove_one t (holders r)
  | _ :: r => holders r
  end.

(** Threads owning the item exclusively, with the purpose. *)
Inductive purpose := Evicting | Moving.
Fixpoint owners (tr : list event) : list (tid * purpose) :=
  match tr with
  | [] => []
  | (t, OMarkForEviction, REvSuccess) :: r => (t, Evicting) :: owners r
  | (t, OMarkMoving, RMark true) :: r => (t, Moving) :: owners r
  | (t, OMarkForEvictionWhenMoving, RMark true) :: r =>
    (t, Evicting) :: filter (fun p => negb (Nat.eqb (fst p) t)) (owners r)
  | (t, OUnmarkForEviction, RRef _) :: r => filter (fun p => negb (Nat.eqb (fst p) t)) (owners r)
  | (t, OUnmarkMoving, RRef _) :: r => filter (fun p => negb (Nat.eqb (fst p) t)) (owners r)
  | _ :: r => owners r
  end.

(** The calling discipline: drop only a handle you hold, end only an exclusivity you own,
    and set/clear any mark except the exclusive one at any time. *)
Definition client (tr : list event) (t : tid) (o : rc_op) : Prop :=
  match o with
  | ODec => In t (holders tr)
  | OUnmarkForEviction => In (t, Evicting) (owners tr)
  | OUnmarkMoving | OMarkForEvictionWhenMoving => In (t, Moving) (owners tr)
  | OSetBit b | OClearBit b => 18 <= b < 32 /\ b <> 20
  | _ => True
  end.

Definition reachable (s : shared) : Prop := steps client initShared s.
