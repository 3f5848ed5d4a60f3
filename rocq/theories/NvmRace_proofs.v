(** Counting invariants: tombstones, tokens, contexts, fills. *)
From Coq Require Import List Arith Bool Lia.
Import ListNotations.
From Verif Require Import NvmRace_model NvmRace_spec.

Inductive reach : state -> list event -> Prop :=
| reach_init : reach init []
| reach_step s tr a s' e : reach s tr -> step s a = Some (s', e) -> reach s' (tr ++ e).
Lemma run_reach s tr l s' e : reach s tr -> run s l = Some (s', e) -> reach s' (tr ++ e).
Proof.
  revert s tr e. induction l as [|a l IH]; intros s tr e R H; cbn [run] in H.
  - injection H as <- <-. rewrite app_nil_r. exact R.
  - destruct (step s a) as [[s1 e1]|] eqn:E; [|discriminate].
    destruct (run s1 l) as [[s2 e2]|] eqn:F; [|discriminate]. injection H as <- <-.
    rewrite app_assoc. eapply IH; [|exact F]. eapply reach_step; [exact R|exact E].
Qed.

Definition b2n (b : bool) : nat := if b then 1 else 0.
Fixpoint cnt {A} (p : A -> bool) (l : list A) : nat :=
  match l with [] => 0 | x :: r => b2n (p x) + cnt p r end.
Lemma cnt_app {A} (p : A -> bool) l r : cnt p (l ++ r) = cnt p l + cnt p r.
Proof. induction l as [|x l IH]; cbn; [reflexivity|rewrite IH; lia]. Qed.
Lemma cnt_upd p l i t t' : nth_error l i = Some t -> cnt p (upd l i t') + b2n (p t) = cnt p l + b2n (p t').
Proof.
  revert i. induction l as [|x l IH]; intros [|i] H; cbn in *; try discriminate.
  - injection H as ->. lia.
  - specialize (IH i H). lia.
Qed.
Lemma cnt_pos {A} (p : A -> bool) l x : In x l -> p x = true -> 1 <= cnt p l.
Proof. induction l as [|y l IH]; cbn; [tauto|]. intros [->|H] E; [rewrite E; cbn; lia|]. specialize (IH H E). lia. Qed.
Lemma cnt_zero {A} (p : A -> bool) l x : cnt p l = 0 -> In x l -> p x = false.
Proof. intros Z I. destruct (p x) eqn:E; [|reflexivity]. pose proof (cnt_pos p l x I E). lia. Qed.
Lemma cnt_one_upd p l i t x : nth_error l i = Some t -> p t = true -> cnt p l <= 1 -> forall t', In x (upd l i t') -> x = t' \/ p x = false.
Proof.
  intros H P C t' I.
  assert (cnt p (upd l i t') <= b2n (p t')) by (pose proof (cnt_upd p l i t t' H); rewrite P in *; cbn in *; lia).
  revert i H I H0. induction l as [|y l IH]; intros [|i] H I H0; cbn in *; try discriminate.
  - injection H as ->. destruct I as [<-|I]; [left; reflexivity|]. right.
    apply (cnt_zero p l); [|exact I]. rewrite P in C. cbn in C. lia.
  - destruct (p y) eqn:Y; cbn in C.
    + pose proof (cnt_pos p l t (nth_error_In _ _ H) P). lia.
    + destruct I as [<-|I]; [right; exact Y|]. apply (IH ltac:(lia) i H I). cbn in H0. exact H0.
Qed.
Lemma in_upd l i t x : In x (upd l i t) -> x = t \/ In x l.
Proof.
  revert i. induction l as [|y l IH]; intros [|i] H; cbn in *; try tauto.
  - destruct H as [<-|H]; tauto.
  - destruct H as [<-|H]; [tauto|]. destruct (IH i H); tauto.
Qed.
Lemma in_upd_self l i t t0 : nth_error l i = Some t0 -> In t (upd l i t).
Proof. revert i. induction l as [|y l IH]; intros [|i] H; cbn in *; try discriminate; [left; reflexivity|right; eapply IH; exact H]. Qed.
Lemma nth_in (l : list tst) i t : nth_error l i = Some t -> In t l.
Proof. apply nth_error_In. Qed.

Definition holdTomb (t : tst) : bool :=
  match t with TLock _ | TInv _ | THas _ | TCould _ | TEnq _ | TMFind _ | TMAcc _ _ => true | _ => false end.
Definition holdTok (t : tst) : bool :=
  match t with TEUnlink _ _ true | TEPut _ | TECtx _ | TEExec _ | TEAbCtx | TEAbTok => true | _ => false end.
Definition holdCtx (t : tst) : bool := match t with TEExec _ | TEAbCtx | TEAbCtxOnly => true | _ => false end.
Definition isFEnq (t : tst) : bool := match t with TFEnq => true | _ => false end.
Definition isRem (j : job) : bool := match j with JRem => true | _ => false end.
Definition isIns (j : job) : bool := match j with JIns _ => true | _ => false end.
Definition isLook (j : job) : bool := match j with JLook => true | _ => false end.
Definition someN {A} (o : option A) : nat := match o with Some _ => 1 | None => 0 end.
Definition headOk (s : state) : Prop :=
  match phase s with
  | PIdle => True
  | PInsDone => exists v q, queue s = JIns v :: q
  | PRead _ | PGot _ | PLocked _ | PErase => exists q, queue s = JLook :: q
  | PRemDone => (exists q, queue s = JRem :: q) /\ content s = None
  end.
Record counts (s : state) : Prop := mkCounts {
  c_tomb : tombs s = cnt holdTomb (thr s) + cnt isRem (queue s);
  c_tok : cnt holdTok (thr s) = someN (token s);
  c_ctx : putctx s = cnt holdCtx (thr s) + cnt isIns (queue s);
  c_fill : cnt isLook (queue s) + cnt isFEnq (thr s) = someN (fill s);
  c_head : headOk s }.

Ltac cntupd H :=
  repeat match goal with
  | |- context [cnt ?p (upd ?l ?i ?t)] =>
      let X := fresh "X" in pose proof (cnt_upd p l i _ t H) as X; cbn [holdTomb holdTok holdCtx isFEnq b2n] in X;
      generalize dependent (cnt p (upd l i t)); intros
  end.
Ltac proj := cbn [ram tombs token putctx fill queue phase content enabled nextm nexti nextf thr
   setRam setTombs setToken setPutctx setFill setQueue setPhase setContent setEnabled setThr setNext goto invalidateToken] in *.
Ltac inv1 H := injection H as <- <-.
Ltac case1 H :=
  match type of H with
  | Some _ = Some _ => inv1 H
  | None = Some _ => discriminate H
  | (if ?x then _ else _) = _ => destruct x eqn:?
  | (match ?x with _ => _ end) = _ => destruct x eqn:?
  end.
Ltac cases H := repeat case1 H.

Lemma counts_init : counts init.
Proof. constructor; cbn; auto. Qed.
Lemma counts_spawn s c s' e : counts s -> spawn s c = Some (s', e) -> counts s'.
Proof.
  intros [A B C D E] H. unfold spawn in H. destruct c; cases H; proj; constructor; unfold headOk in *; proj;
    rewrite ?cnt_app; cbn [cnt holdTomb holdTok holdCtx isFEnq b2n someN]; try exact E; rewrite ?Heqo0 in *; cbn [someN] in *; try lia.
Qed.
Lemma counts_thread s i t b s' e : counts s -> nth_error (thr s) i = Some t -> tstep s i t b = Some (s', e) -> counts s'.
Proof.
  intros [A B C D E] N H. unfold tstep in H.
  destruct t; cases H; subst; proj;
  repeat match goal with
  | |- context [if ?x then TEPut _ else _] => destruct x
  | |- context [match ?x with WIns _ _ => _ | WRem _ => _ | WUpd _ _ => _ | WSpur => _ end] => destruct x
  | |- context [match findRam s with _ => _ end] => destruct (findRam s)
  | |- context [if clean ?x then _ else _] => destruct (clean x)
  | |- context [if Nat.eqb ?x ?y then _ else _] => destruct (Nat.eqb x y)
  | |- context [match ram s with _ => _ end] => destruct (ram s)
  end; proj;
  (constructor; unfold headOk in *; proj;
   [ cntupd N; rewrite ?cnt_app; cbn [cnt isRem isIns isLook b2n] in *; lia
   | cntupd N; destruct (token s) eqn:TK; cbn [someN b2n] in *; try discriminate; try lia
   | cntupd N; rewrite ?cnt_app; cbn [cnt isRem isIns isLook b2n] in *; lia
   | cntupd N; rewrite ?cnt_app; rewrite ?Heqo in *; destruct (fill s) eqn:FL; cbn [cnt isRem isIns isLook b2n someN] in *; try discriminate; lia
   | try exact E; destruct (phase s); try exact E;
     repeat match goal with H : _ /\ _ |- _ => destruct H | H : exists _, _ |- _ => destruct H end;
     repeat (try split; try eexists); try (rewrite H; reflexivity); eauto;
     try (match goal with Q : queue s = _ |- _ => rewrite Q end; cbn [app]; eauto) ]).
Qed.
Lemma counts_exec s r s' e : counts s -> execJob s r = Some (s', e) -> counts s'.
Proof.
  intros [A B C D E] H. unfold execJob in H. cases H; proj; constructor; unfold headOk in *; proj; auto;
    rewrite ?Heql in *; eauto.
Qed.
Lemma counts_callback s b s' e : counts s -> callback s b = Some (s', e) -> counts s'.
Proof.
  intros [A B C D E] H. unfold callback in H. unfold headOk in E. 
  cases H; proj; constructor; unfold headOk; proj; rewrite ?Heqj in *;
    repeat match goal with X : _ /\ _ |- _ => destruct X | X : exists _, _ |- _ => destruct X end;
    try match goal with X : queue s = _ |- _ => rewrite X in * end; cbn [tl cnt isRem isIns isLook b2n someN] in *;
    eauto; try lia; try (destruct (fill s); cbn [someN] in *; lia).
Qed.
Lemma counts_step s a s' e : counts s -> step s a = Some (s', e) -> counts s'.
Proof.
  intros C H. destruct a; cbn [step] in H.
  - eapply counts_spawn; eassumption.
  - destruct (nth_error (thr s) i) eqn:N; [|discriminate]. eapply counts_thread; eassumption.
  - eapply counts_exec; eassumption.
  - eapply counts_callback; eassumption.
  - destruct C as [A B C D E]. cases H. proj. constructor; unfold headOk in *; proj; auto.
    destruct (phase s); auto. destruct E; auto.
  - destruct C as [A B C D E]. cases H. proj. constructor; unfold headOk in *; proj; auto.
    rewrite D. destruct (fill s); reflexivity.
  - destruct C as [A B C D E]. cases H. proj. constructor; unfold headOk in *; proj; auto.
  - destruct C as [A B C D E]. cases H. proj. constructor; unfold headOk in *; proj; auto.
Qed.
Lemma reach_counts s tr : reach s tr -> counts s.
Proof. induction 1; [apply counts_init|eapply counts_step; eassumption]. Qed.

(** ** Reading the trace *)
Definition actStep (a : option nat) (e : event) : option nat :=
  match e with MutStart n _ => Some n | MutRet _ => None | _ => a end.
Definition active (tr : list event) : option nat := fold_left actStep tr None.
Definition floorStep (m : nat) (e : event) : nat := match e with MutRet n => Nat.max m n | _ => m end.
Definition floor (tr : list event) : nat := fold_left floorStep tr 0.
Definition pendStep (p : bool) (e : event) : bool := match e with Dropped => true | Notified => false | _ => p end.
Definition pend (tr : list event) : bool := fold_left pendStep tr false.
Definition winStep (p : bool) (e : event) : bool := match e with Filled => true | Erased => false | _ => p end.
Definition win (tr : list event) : bool := fold_left winStep tr false.

Lemma serial_app a t u : serialFrom a (t ++ u) <-> serialFrom a t /\ serialFrom (fold_left actStep t a) u.
Proof.
  revert a. induction t as [|e t IH]; intros a; cbn; [tauto|].
  destruct e; cbn; rewrite ?IH; tauto.
Qed.
Lemma pend_true tr : pend tr = true -> exists t0 t1, tr = t0 ++ Dropped :: t1 /\ ~ In Notified t1.
Proof.
  induction tr as [|e tr IH] using rev_ind; [discriminate|].
  unfold pend. rewrite fold_left_app. cbn [fold_left]. fold (pend tr). intros H.
  destruct e; cbn in H; try discriminate;
    try (destruct (IH H) as (t0 & t1 & -> & N); eexists t0, _; split;
         [rewrite <- app_assoc; cbn; reflexivity|rewrite in_app_iff; cbn; intuition congruence]).
  exists tr, []. split; [reflexivity|auto].
Qed.
Lemma win_true tr : win tr = true -> exists t0 t1, tr = t0 ++ Filled :: t1 /\ ~ In Erased t1.
Proof.
  induction tr as [|e tr IH] using rev_ind; [discriminate|].
  unfold win. rewrite fold_left_app. cbn [fold_left]. fold (win tr). intros H.
  destruct e; cbn in H; try discriminate;
    try (destruct (IH H) as (t0 & t1 & -> & N); eexists t0, _; split;
         [rewrite <- app_assoc; cbn; reflexivity|rewrite in_app_iff; cbn; intuition congruence]).
  exists tr, []. split; [reflexivity|auto].
Qed.
(** The guards, together; closed under prefixes. *)
Definition guarded (tr : list event) : Prop :=
  serialMutators tr /\ noShortcutInDropWindow tr /\ noJoinAfterFill tr /\ neverDisabled tr.
Lemma guarded_prefix t u : guarded (t ++ u) -> guarded t.
Proof.
  intros (A & B & C & D). split; [|split; [|split]].
  - unfold serialMutators in *. apply serial_app in A. apply A.
  - intros t0 t1 t2 ->. apply (B t0 t1 (t2 ++ u)). rewrite <- !app_assoc. cbn. rewrite <- !app_assoc. reflexivity.
  - intros t0 t1 t2 f ->. apply (C t0 t1 (t2 ++ u) f). rewrite <- !app_assoc. cbn. rewrite <- !app_assoc. reflexivity.
  - intros I. apply D. apply in_app_iff. auto.
Qed.
Lemma guard_shortcut tr : guarded (tr ++ [Shortcut]) -> pend tr = false.
Proof.
  intros (_ & B & _). destruct (pend tr) eqn:E; [|reflexivity]. exfalso.
  destruct (pend_true tr E) as (t0 & t1 & -> & N). apply N. apply (B t0 t1 []).
  rewrite <- app_assoc. reflexivity.
Qed.
Lemma guard_join tr f : guarded (tr ++ [Joined f]) -> win tr = false.
Proof.
  intros (_ & _ & C & _). destruct (win tr) eqn:E; [|reflexivity]. exfalso.
  destruct (win_true tr E) as (t0 & t1 & -> & N). apply N. apply (C t0 t1 [] f).
  rewrite <- app_assoc. reflexivity.
Qed.
Lemma guard_start tr n k : guarded (tr ++ [MutStart n k]) -> active tr = None.
Proof. intros (A & _). apply serial_app in A. destruct A as [_ A]. cbn in A. apply A. Qed.
Lemma guard_ret tr n : guarded (tr ++ [MutRet n]) -> active tr = Some n.
Proof. intros (A & _). apply serial_app in A. destruct A as [_ A]. cbn in A. apply A. Qed.
Lemma guard_enabled tr : guarded tr -> ~ In Disabled tr.
Proof. intros (_ & _ & _ & D). exact D. Qed.

Lemma active_snoc t e : active (t ++ [e]) = actStep (active t) e.
Proof. unfold active. rewrite fold_left_app. reflexivity. Qed.
Lemma floor_snoc t e : floor (t ++ [e]) = floorStep (floor t) e.
Proof. unfold floor. rewrite fold_left_app. reflexivity. Qed.
Lemma pend_snoc t e : pend (t ++ [e]) = pendStep (pend t) e.
Proof. unfold pend. rewrite fold_left_app. reflexivity. Qed.
Lemma win_snoc t e : win (t ++ [e]) = winStep (win t) e.
Proof. unfold win. rewrite fold_left_app. reflexivity. Qed.
(** Events that only answer finds do not move the trace readings. *)
Lemma rets_neutral t (c : option nat) l :
  active (t ++ map (fun f => FindRet f c) l) = active t /\
  floor (t ++ map (fun f => FindRet f c) l) = floor t /\
  pend (t ++ map (fun f => FindRet f c) l) = pend t /\
  win (t ++ map (fun f => FindRet f c) l) = win t.
Proof.
  revert t. induction l as [|f l IH]; intros t; cbn [map]; [rewrite app_nil_r; auto|].
  change (FindRet f c :: map (fun f0 => FindRet f0 c) l) with ([FindRet f c] ++ map (fun f0 => FindRet f0 c) l).
  rewrite app_assoc. destruct (IH (t ++ [FindRet f c])) as (A & B & C & D).
  rewrite A, B, C, D, active_snoc, floor_snoc, pend_snoc, win_snoc. cbn. auto.
Qed.
(** The latest return before find [f] began. *)
Fixpoint sinceFrom (m : nat) (tr : list event) (f : nat) : option nat :=
  match tr with
  | [] => None
  | FindStart g :: r => if Nat.eqb g f then Some m else sinceFrom m r f
  | e :: r => sinceFrom (floorStep m e) r f
  end.
Definition since (tr : list event) (f : nat) : option nat := sinceFrom 0 tr f.
Lemma sinceFrom_app m t u f :
  sinceFrom m (t ++ u) f = match sinceFrom m t f with Some x => Some x | None => sinceFrom (fold_left floorStep t m) u f end.
Proof.
  revert m. induction t as [|e t IH]; intros m; cbn; [reflexivity|].
  destruct e; cbn; try apply IH. destruct (Nat.eqb f0 f); [reflexivity|apply IH].
Qed.
Lemma since_keep t u f m : since t f = Some m -> since (t ++ u) f = Some m.
Proof. unfold since. rewrite sinceFrom_app. intros ->. reflexivity. Qed.
Lemma since_new t f : since t f = None -> since (t ++ [FindStart f]) f = Some (floor t).
Proof. unfold since, floor. rewrite sinceFrom_app. intros ->. cbn. rewrite Nat.eqb_refl. reflexivity. Qed.
Lemma floor_mono t u m : m <= fold_left floorStep t m -> fold_left floorStep t m <= fold_left floorStep (t ++ u) m.
Proof.
  intros _. rewrite fold_left_app. generalize (fold_left floorStep t m). induction u as [|e u IH]; intros k; cbn; [lia|].
  destruct e; cbn; try apply IH. specialize (IH (Nat.max k n)). lia.
Qed.
Lemma foldfloor_ge t m : m <= fold_left floorStep t m.
Proof. revert m. induction t as [|e t IH]; intros m; cbn; [lia|]. destruct e; cbn; try apply IH. specialize (IH (Nat.max m n)). lia. Qed.
Lemma since_le_floor t f m : since t f = Some m -> m <= floor t.
Proof.
  unfold since, floor. generalize 0. induction t as [|e t IH]; intros k H; cbn in H; [discriminate|].
  destruct e; cbn in *; try (apply IH; exact H).
  destruct (Nat.eqb f0 f); [|apply IH; exact H]. injection H as <-. apply foldfloor_ge.
Qed.
Lemma since_split t0 f t1 : since t0 f = None -> forall n, In (MutRet n) t0 ->
  exists m, since (t0 ++ FindStart f :: t1) f = Some m /\ n <= m.
Proof.
  intros S n I. exists (floor t0). split.
  - unfold since. rewrite sinceFrom_app. unfold since in S. rewrite S. cbn. rewrite Nat.eqb_refl. reflexivity.
  - unfold floor. clear S. revert I. generalize 0. induction t0 as [|e t IH]; intros k I; [destruct I|].
    destruct I as [->|I]; cbn; [|apply IH; exact I].
    pose proof (foldfloor_ge t (Nat.max k n)). lia.
Qed.
