(** Property theorems C01 and C02. *)
From Verif Require Import Bytes Refcount_model Refcount_spec Refcount_proofs Refcount_proofs2.
Open Scope N_scope.

(** C01: on every 32-bit word, every call changes the handle count and the marks exactly as
    the field-level specification says, and reports the same. *)
Theorem C01_word_refines_fields : forall o w, w < two32 -> pre o (view w) ->
  fst (apply o w) < two32 /\
  same_state (view (fst (apply o w))) (fst (spec_apply o (view w))) /\
  snd (apply o w) = snd (spec_apply o (view w)).
Proof. exact apply_refines_l. Qed.

(** ... along any sequence of calls from the initial word. *)
Fixpoint run (ops : list rc_op) (w : N) : N * list rc_result :=
  match ops with
  | [] => (w, [])
  | o :: l => let (w1, r) := apply o w in let (w2, rs) := run l w1 in (w2, r :: rs)
  end.
Fixpoint spec_run (ops : list rc_op) (v : item_state) (rs : list rc_result) (v' : item_state) : Prop :=
  match ops, rs with
  | [], [] => same_state v v'
  | o :: l, r :: rs' =>
    r = snd (spec_apply o v) /\ spec_run l (fst (spec_apply o v)) rs' v'
  | _, _ => False
  end.

Lemma same_sym v v' : same_state v v' -> same_state v' v.
Proof. intros [A B]. split; [auto|]. intros; symmetry; auto. Qed.
Lemma same_trans a b c : same_state a b -> same_state b c -> same_state a c.
Proof. intros [A B] [C D]. split; [congruence|]. intros m H. rewrite B, D; auto. Qed.
Lemma pre_same o v v' : same_state v v' -> pre o v -> pre o v'.
Proof. intros [A B]. destruct o; cbn [pre]; auto; rewrite A; auto. Qed.
Lemma set_mark_same v v' m b : same_state v v' -> same_state (set_mark v m b) (set_mark v' m b).
Proof.
  intros [A B]. split; [exact A|]. intros i Hi. cbn [set_mark marks]. destruct (i =? m); auto.
Qed.
Lemma set_refs_same v v' n : same_state v v' -> same_state (set_refs v n) (set_refs v' n).
Proof. intros [A B]. split; auto. Qed.
Lemma spec_same o v v' : same_state v v' ->
  same_state (fst (spec_apply o v)) (fst (spec_apply o v')) /\
  snd (spec_apply o v) = snd (spec_apply o v').
Proof.
  intros S. pose proof S as [A B].
  assert (B0 : marks v 0 = marks v' 0) by (apply B; lia).
  assert (B2 : marks v 2 = marks v' 2) by (apply B; lia).
  destruct o; cbn [spec_apply]; unfold m_linked, m_exclusive; rewrite ?B0, ?B2, ?A.
  - destruct (refs v' =? max_refs); [auto|]. destruct (marks v' 2); [auto|].
    split; [|auto]. now apply set_refs_same.
  - destruct (refs v' =? 0); [auto|]. cbn [fst snd].
    assert (X : same_state (set_refs v (refs v' - 1)) (set_refs v' (refs v' - 1))) by now apply set_refs_same.
    split; [auto|]. f_equal. now apply refcode_same.
  - destruct (marks v' 0), (marks v' 2), (refs v' =? 0); cbn [negb fst snd]; auto.
    split; [|auto]. now apply set_mark_same.
  - cbn [fst snd]. assert (X := set_mark_same _ _ 2 false S). split; [auto|]. f_equal.
    now apply refcode_same.
  - destruct ((refs v' =? 0) && marks v' 0 && negb (marks v' 2))%bool; cbn [fst snd]; auto.
    split; [|auto]. apply set_mark_same. now apply set_refs_same.
  - cbn [fst snd]. assert (X : same_state (set_mark (set_refs v (refs v' - 1)) 2 false)
      (set_mark (set_refs v' (refs v' - 1)) 2 false)) by (apply set_mark_same; now apply set_refs_same).
    split; [auto|]. f_equal. now apply refcode_same.
  - split; [|auto]. now apply set_refs_same.
  - split; [|auto]. now apply set_mark_same.
  - split; [|auto]. now apply set_mark_same.
Qed.
Lemma spec_run_same ops : forall v v1 rs v', same_state v v1 -> spec_run ops v1 rs v' -> spec_run ops v rs v'.
Proof.
  induction ops as [|o l IH]; intros v v1 [|r rs] v' S; simpl; auto.
  - intros. eapply same_trans; eauto.
  - intros [E1 E2]. destruct (spec_same o _ _ S) as [X1 X2]. split; [congruence|]. eapply IH; eauto.
Qed.

(** [legal_run]: every call is within its precondition when it is made. *)
Fixpoint legal_run (ops : list rc_op) (w : N) : Prop :=
  match ops with
  | [] => True
  | o :: l => pre o (view w) /\ legal_run l (fst (apply o w))
  end.
Theorem C01_history : forall ops w, w < two32 -> legal_run ops w ->
  spec_run ops (view w) (snd (run ops w)) (view (fst (run ops w))).
Proof.
  induction ops as [|o l IH]; intros w Hw HL.
  - simpl. split; auto.
  - destruct HL as [P HL]. destruct (apply_refines_l o w Hw P) as (A & B & C).
    specialize (IH (fst (apply o w)) A HL). simpl. destruct (apply o w) as [w1 r].
    cbn [fst snd] in *. destruct (run l w1) as [w2 rs] eqn:E. cbn [fst snd] in *.
    split; [auto|]. eapply spec_run_same; [|exact IH]. now apply same_sym.
Qed.

(** Acquiring a handle. *)
Theorem C01_acquire : forall w, w < two32 ->
  match apply OInc w with
  | (w', RIncOk) => refs (view w') = refs (view w) + 1 /\
                    (forall m, m < 14 -> marks (view w') m = marks (view w) m) /\
                    marks (view w) m_exclusive = false
  | (w', RThrowOverflow) => w' = w /\ refs (view w) = max_refs
  | (w', RIncFailedEviction) => w' = w /\ marks (view w) m_exclusive = true /\ refs (view w) = 0
  | (w', RIncFailedMoving) => w' = w /\ marks (view w) m_exclusive = true /\ refs (view w) <> 0
  | _ => False
  end.
Proof.
  intros w Hw. destruct (apply_refines_l OInc w Hw I) as (A & B & C).
  assert (U : match apply OInc w with (w', r) => r = RIncOk \/ w' = w end).
  { unfold apply, attemptOf. cbv zeta.
    repeat match goal with |- context [if ?b then _ else _] => destruct b end; auto. }
  destruct (apply OInc w) as [w' r]. cbn [fst snd spec_apply] in *.
  destruct (N.eqb_spec (refs (view w)) max_refs) as [E|E].
  { cbn [fst snd] in *. subst r. destruct U as [U|U]; [discriminate|auto]. }
  destruct (marks (view w) m_exclusive) eqn:M.
  - cbn [fst snd] in *. subst r.
    destruct (N.eqb_spec (refs (view w)) 0); destruct U as [U|U]; try discriminate; auto.
  - cbn [fst snd] in *. subst r. destruct B as [B1 B2]. split; [exact B1|]. split; [|auto].
    intros m Hm. apply B2; auto.
Qed.

(** Dropping a handle; the reported code is zero exactly when nothing refers to the item. *)
Theorem C01_drop : forall w, w < two32 ->
  match apply ODec w with
  | (w', RRef c) => refs (view w) = refs (view w') + 1 /\
                    (forall m, m < 14 -> marks (view w') m = marks (view w) m) /\
                    (c = 0 <-> refs (view w') = 0 /\ marks (view w') m_linked = false /\
                               marks (view w') m_accessible = false /\
                               marks (view w') m_exclusive = false)
  | (w', RThrowUnderflow) => w' = w /\ refs (view w) = 0
  | _ => False
  end.
Proof.
  intros w Hw. destruct (apply_refines_l ODec w Hw I) as (A & B & C).
  assert (U : match apply ODec w with (w', r) => (exists c, r = RRef c) \/ w' = w end).
  { unfold apply, attemptOf. cbv zeta.
    repeat match goal with |- context [if ?b then _ else _] => destruct b end; eauto. }
  destruct (apply ODec w) as [w' r]. cbn [fst snd spec_apply] in *.
  destruct (N.eqb_spec (refs (view w)) 0) as [E|E].
  { cbn [fst snd] in *. subst r. destruct U as [[c U]|U]; [discriminate|auto]. }
  cbn [fst snd] in *. subst r. pose proof B as [B1 B2]. cbn [set_refs refs marks] in B1, B2.
  split; [lia|]. split; [intros; auto|].
  rewrite <- (refcode_same _ _ B). unfold ref_code, m_linked, m_accessible, m_exclusive.
  destruct (marks (view w') 0), (marks (view w') 1), (marks (view w') 2); cbn [N.b2n];
    split; intros; try lia; intuition (try discriminate; lia).
Qed.

(** Every mark/flag setter changes only its own bit. *)
Theorem C01_set_mark_only : forall w b, w < two32 -> 18 <= b < 32 ->
  (refs (view (fst (apply (OSetBit b) w))) = refs (view w) /\
   forall m, m < 14 -> marks (view (fst (apply (OSetBit b) w))) m
                       = if m =? b - 18 then true else marks (view w) m) /\
  (refs (view (fst (apply (OClearBit b) w))) = refs (view w) /\
   forall m, m < 14 -> marks (view (fst (apply (OClearBit b) w))) m
                       = if m =? b - 18 then false else marks (view w) m).
Proof.
  intros w b Hw Hb.
  destruct (apply_refines_l (OSetBit b) w Hw Hb) as (_ & A & _).
  destruct (apply_refines_l (OClearBit b) w Hw Hb) as (_ & B & _).
  split; [exact A|exact B].
Qed.

(** Observers report the fields. *)
Theorem C01_observers : forall w,
  isInMMContainer w = marks (view w) 0 /\ isAccessible w = marks (view w) 1 /\
  (forall f, f < 11 -> isFlagSet w (21 + f) = marks (view w) (3 + f)) /\
  isMarkedForEviction w = (marks (view w) 2 && (refs (view w) =? 0))%bool /\
  isMoving w = (marks (view w) 2 && negb (refs (view w) =? 0))%bool /\
  isDrained w = (negb (marks (view w) 0) && negb (marks (view w) 1) && negb (marks (view w) 2)
                 && (refs (view w) =? 0))%bool /\
  getAccessRef w = (if marks (view w) 2 then refs (view w) - 1 else refs (view w)).
Proof. exact accessors_l. Qed.

Example C01_demo :
  run [OSetBit 18; OInc; OInc; OMarkForEviction; ODec; ODec; ODec; OMarkMoving; OInc;
       OMarkForEvictionWhenMoving; OInc; OSetBit 26; OUnmarkForEviction; OInc] 0
  = (262145 + 67108864,
     [RVoid; RIncOk; RIncOk; REvRefHeld; RRef 262145; RRef 262144; RThrowUnderflow; RMark true;
      RIncFailedMoving; RMark true; RIncFailedEviction; RVoid; RRef 262144; RIncOk]).
Proof. reflexivity. Qed.

(** ** C02 *)

(** At most one thread owns the item exclusively. *)
Theorem C02_at_most_one_owner : forall s, reachable s -> (length (owners (trace s)) <= 1)%nat.
Proof. exact one_owner_l. Qed.

(** While some thread owns it, no handle is outstanding. *)
Theorem C02_owner_excludes_handles : forall s, reachable s ->
  owners (trace s) <> [] -> holders (trace s) = [].
Proof. exact owner_no_handles_l. Qed.

(** The word's handle count is the number of handles acquired and not yet dropped. *)
Theorem C02_count_exact : forall s, reachable s ->
  getAccessRef (word s) = N.of_nat (length (holders (trace s))).
Proof. exact count_exact_l. Qed.

(** The eviction/moving status read from the word is the ownership the callers were told. *)
Theorem C02_status_exact : forall s, reachable s ->
  (isMarkedForEviction (word s) = true <-> exists t, owners (trace s) = [(t, Evicting)]) /\
  (isMoving (word s) = true <-> exists t, owners (trace s) = [(t, Moving)]).
Proof. exact status_exact_l. Qed.

(** No handle is acquired while the item is owned. *)
Theorem C02_no_acquire_while_owned : forall s s' t, reachable s -> step client s s' ->
  owners (trace s) <> [] -> trace s' <> (t, OInc, RIncOk) :: trace s.
Proof. exact no_acquire_l. Qed.

(** Exclusivity is granted only when no handle and no owner exists, on a linked item. *)
Theorem C02_granted_only_when_free : forall s s' t o r, reachable s -> step client s s' ->
  trace s' = (t, o, r) :: trace s -> grants o r ->
  holders (trace s) = [] /\ owners (trace s) = [] /\ isInMMContainer (word s) = true.
Proof. exact grant_free_l. Qed.

(** A failed call leaves the item unchanged. *)
Theorem C02_failed_unchanged : forall s s' t o r, step client s s' ->
  trace s' = (t, o, r) :: trace s -> failure o r -> word s' = word s.
Proof. exact failed_unchanged_l. Qed.

(** Every call returns what its atomic version returns at an instant inside the call, and a
    successful one takes effect exactly then. *)
Theorem C02_linearised : forall s s' t o r, reachable s -> step client s s' ->
  trace s' = (t, o, r) :: trace s ->
  exists s0, since t s0 s /\ snd (apply o (word s0)) = r /\
    (failure o r \/ (s0 = s /\ word s' = fst (apply o (word s0)))).
Proof. exact linearised_l. Qed.

(** Dropping a held handle never throws; acquiring throws only when the maximum number of
    handles really was outstanding during the call. *)
Theorem C02_drop_never_throws : forall s, reachable s ->
  forall t, ~ In (t, ODec, RThrowUnderflow) (trace s).
Proof. exact no_underflow_l. Qed.
Theorem C02_overflow_genuine : forall s s' t, reachable s -> step client s s' ->
  trace s' = (t, OInc, RThrowOverflow) :: trace s ->
  exists s0, since t s0 s /\ N.of_nat (length (holders (trace s0))) = max_refs.
Proof. exact overflow_true_l. Qed.

(** Non-vacuity: thread 2 starts acquiring, thread 3 marks the item for eviction in between,
    thread 2's compare-exchange fails and it then reports the eviction. *)
Example C02_demo : exists s, reachable s /\ owners (trace s) = [(3%nat, Evicting)] /\
  trace s = [(2%nat, OInc, RIncFailedEviction); (3%nat, OMarkForEviction, REvSuccess);
             (1%nat, ODec, RRef 262144); (1%nat, OInc, RIncOk); (1%nat, OSetBit 18, RVoid)].
Proof.
  eexists. split.
  - unfold reachable.
    eapply steps_trans; [eapply steps_trans; [eapply steps_trans; [eapply steps_trans; [
    eapply steps_trans; [eapply steps_trans; [eapply steps_trans; [eapply steps_trans; [
    eapply steps_trans; [eapply steps_trans; [apply steps_refl|]|]|]|]|]|]|]|]|]|].
    + eapply (StepRmw client initShared 1%nat (OSetBit 18)); [reflexivity|reflexivity|simpl; lia|reflexivity].
    + apply StepLoad with (t := 1%nat) (o := OInc); [reflexivity|reflexivity|exact I].
    + eapply StepCasOk with (t := 1%nat) (o := OInc); reflexivity.
    + apply StepLoad with (t := 1%nat) (o := ODec); [reflexivity|reflexivity|simpl; auto].
    + eapply StepCasOk with (t := 1%nat) (o := ODec); reflexivity.
    + apply StepLoad with (t := 2%nat) (o := OInc); [reflexivity|reflexivity|exact I].
    + apply StepLoad with (t := 3%nat) (o := OMarkForEviction); [reflexivity|reflexivity|exact I].
    + eapply StepCasOk with (t := 3%nat) (o := OMarkForEviction); reflexivity.
    + eapply StepCasFail with (t := 2%nat) (o := OInc); [reflexivity|reflexivity|discriminate].
    + eapply StepStop with (t := 2%nat) (o := OInc); reflexivity.
  - split; reflexivity.
Qed.

Print Assumptions C01_word_refines_fields.
Print Assumptions C01_history.
Print Assumptions C01_acquire.
Print Assumptions C01_drop.
Print Assumptions C01_set_mark_only.
Print Assumptions C01_observers.
Print Assumptions C02_at_most_one_owner.
Print Assumptions C02_owner_excludes_handles.
Print Assumptions C02_count_exact.
Print Assumptions C02_status_exact.
Print Assumptions C02_no_acquire_while_owned.
Print Assumptions C02_granted_only_when_free.
Print Assumptions C02_failed_unchanged.
Print Assumptions C02_linearised.
Print Assumptions C02_drop_never_throws.
Print Assumptions C02_overflow_genuine.
