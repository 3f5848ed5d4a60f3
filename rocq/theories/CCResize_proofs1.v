(** Counts of the cohorts, and what the calls may have seen in each phase of a resize. *)
From Coq Require Import List Arith Bool Lia.
Import ListNotations.
From Verif Require Import CCResize_model CCResize_spec.

Lemma ok_inj : forall a b, Some (Ok a) = Some (Ok b) -> a = b.
Proof. intros. congruence. Qed.

Fixpoint count {A} (f : A -> bool) (l : list A) : nat := match l with [] => 0 | a :: l => (if f a then 1 else 0) + count f l end.
Lemma count_app {A} : forall f (a b : list A), count f (a ++ b) = count f a + count f b.
Proof. induction a; simpl; intros; auto. rewrite IHa. lia. Qed.
Lemma count_set {A} : forall f (l : list A) i a b, nth_error l i = Some a ->
  count f (setNth i b l) + (if f a then 1 else 0) = count f l + (if f b then 1 else 0).
Proof.
  induction l; intros i x b H; [destruct i; discriminate|]. destruct i; simpl in *.
  - injection H as ->. lia.
  - specialize (IHl i x b H). lia.
Qed.
Lemma count_pos {A} : forall f (l : list A) a, In a l -> f a = true -> 0 < count f l.
Proof. induction l; simpl; intros; [tauto|]. destruct H as [->|H]; [rewrite H0; lia|]. specialize (IHl a0 H H0). lia. Qed.
Lemma in_set {A} : forall (l : list A) i b x, In x (setNth i b l) -> x = b \/ In x l.
Proof. induction l; intros i b x H; [destruct i; simpl in H; tauto|]. destruct i; simpl in H; destruct H; auto; [right; right; auto|right; left; auto|]. destruct (IHl _ _ _ H); [auto|right; right; auto]. Qed.
Lemma nth_set {A} : forall (l : list A) i a b, nth_error l i = Some a -> nth_error (setNth i b l) i = Some b.
Proof. induction l; intros [|i] x b N; simpl in *; try discriminate; eauto. Qed.
Lemma nth_in {A} : forall (l : list A) i x, nth_error l i = Some x -> In x l.
Proof. intros. eapply nth_error_In; eauto. Qed.

Section P.
Variable home : nat -> nat.
Hypothesis HR : inRange home.

Definition contrib (b : bool) (o : op) : bool :=
  (holds o && Bool.eqb (sd o) b) || match pc o with PUndo t => Bool.eqb t b | _ => false end.

Definition waiting (ph : phase) : option bool :=
  match ph with ASw1w b | ASw2w b | ASw3w b | ZSww b => Some b | _ => None end.

(** the cohorts *)
Record tokInv (s : state) : Prop := mkTok {
  tkC : forall b, cnt s b = count (contrib b) (ops s);
  tkT : forall o, In o (ops s) -> holds o = true ->
        (te o = xors s /\ sd o = act s) \/
        (exists a b ph, cur s = Some (a, b, ph) /\ waiting ph = Some (sd o) /\ sd o = negb (act s) /\ S (te o) = xors s)
}.

Lemma tok_init : forall n, tokInv (init n).
Proof. intros. constructor; simpl; intros; [reflexivity|tauto]. Qed.

Lemma updB_same : forall f k v, updB f k v k = v.
Proof. intros. unfold updB. rewrite eqb_reflx. reflexivity. Qed.

(** a step of a call *)
Lemma tok_set : forall s i o o' s', tokInv s -> nth_error (ops s) i = Some o ->
  ops s' = setNth i o' (ops s) -> cur s' = cur s -> act s' = act s -> xors s' = xors s ->
  (forall b, cnt s' b + (if contrib b o then 1 else 0) = cnt s b + (if contrib b o' then 1 else 0)) ->
  (holds o' = true -> (holds o = true /\ te o' = te o /\ sd o' = sd o) \/ (te o' = xors s /\ sd o' = act s)) ->
  tokInv s'.
Proof.
  intros s i o o' s' [C T] H E1 E2 E3 E4 HC HT. constructor.
  - intros b. rewrite E1. specialize (HC b). specialize (C b). pose proof (count_set (contrib b) (ops s) i o o' H). lia.
  - intros x Hx Hh. rewrite E1 in Hx. rewrite E2, E3, E4. apply in_set in Hx. destruct Hx as [->|Hx]; [|auto].
    destruct (HT Hh) as [[Ho [Et Es]]|[Et Es]]; [|left; auto].
    rewrite Et, Es. apply T; auto. eapply nth_in; eauto.
Qed.

Lemma tok_op : forall s i o b s', tokInv s -> nth_error (ops s) i = Some o -> opStep home s i o b = Some (Ok s') -> tokInv s'.
Proof.
  intros s i o b s' T H E. unfold opStep in E.
  destruct (pc o) as [|t|t| |p| |n|p|ok|] eqn:P;
  repeat match type of E with
       | context [if ?c then _ else _] => destruct c eqn:?
       | context [match ptrTo s ?c with _ => _ end] => destruct (ptrTo s c) eqn:?
       | context [match kd o with _ => _ end] => destruct (kd o) eqn:?
       end; try discriminate; apply ok_inj in E; subst s';
       (eapply tok_set; [exact T|exact H|reflexivity..| |]); cbn [kd st pc sd te ap at_ wrote holds contrib cnt withOp withCnt withDone withEnt put act xors]; unfold contrib, holds; rewrite ?P; cbn [pc at_ wrote sd te];
       try (intros; left; auto; fail);
       try (intros; rewrite ?andb_true_l, ?andb_false_l, ?orb_false_r, ?orb_false_l; lia).
  - intros b0. unfold updB. rewrite !orb_false_r. cbn [andb]. apply eqb_prop in Heqb0. destruct b0, t; cbn; lia.
  - intros _. right. apply eqb_prop in Heqb0. auto.
  - intros b0. unfold updB. rewrite ?orb_false_r, ?andb_false_l, ?orb_false_l. destruct b0, t; cbn; lia.
  - intros b0. unfold updB. cbn [andb orb].
    assert (0 < cnt s t) as Q.
    { rewrite (tkC s T t). apply count_pos with (a := o); [eapply nth_in; eauto|]. unfold contrib. rewrite P. unfold holds. rewrite P. simpl. apply eqb_reflx. }
    destruct b0, t; cbn; lia.
  - intros b0. unfold updB. cbn [andb orb].
    assert (0 < cnt s (sd o)) as Q.
    { rewrite (tkC s T (sd o)). apply count_pos with (a := o); [eapply nth_in; eauto|]. unfold contrib, holds. rewrite P. rewrite eqb_reflx. reflexivity. }
    destruct b0, (sd o); cbn in *; lia.
  - intros b0. unfold updB. cbn [andb orb].
    assert (0 < cnt s (sd o)) as Q.
    { rewrite (tkC s T (sd o)). apply count_pos with (a := o); [eapply nth_in; eauto|]. unfold contrib, holds. rewrite P. rewrite eqb_reflx. reflexivity. }
    destruct b0, (sd o); cbn in *; lia.
Qed.

(** everything else leaves the calls alone *)
Lemma tok_same : forall s s', tokInv s -> ops s' = ops s -> act s' = act s -> xors s' = xors s -> cnt s' = cnt s ->
  (forall a b ph w, cur s = Some (a, b, ph) -> waiting ph = Some w -> (forall o, In o (ops s) -> holds o = true -> sd o = negb (act s) -> False) \/ cur s' = cur s) -> tokInv s'.
Proof.
  intros s s' [C T] E1 E2 E3 E4 H. constructor.
  - intros b. rewrite E1, E4. auto.
  - intros o Ho Hh. rewrite E1 in Ho. rewrite E2, E3. destruct (T o Ho Hh) as [Q|[a [b [ph [Q1 [Q2 [Q3 Q4]]]]]]]; [auto|].
    destruct (H a b ph (sd o) Q1 Q2) as [X|X]; [destruct (X o Ho Hh Q3)|].
    right. exists a, b, ph. rewrite X. auto.
Qed.

Lemma tok_xor : forall s a b ph ph', tokInv s -> cur s = Some (a, b, ph) -> waiting ph = None -> waiting ph' = Some (act s) ->
  tokInv (doXor s (Some (a, b, ph'))).
Proof.
  intros s a b ph ph' [C T] E W W'. constructor; simpl; [exact C|].
  intros o Ho Hh. right. exists a, b, ph'. destruct (T o Ho Hh) as [[Q1 Q2]|[a1 [b1 [ph1 [Q1 [Q2 _]]]]]].
  - rewrite Q2, negb_involutive. rewrite Q1. auto.
  - rewrite E in Q1. injection Q1 as <- <- <-. congruence.
Qed.

Lemma tok_drained : forall s a b ph old, tokInv s -> cur s = Some (a, b, ph) -> waiting ph = Some old -> cnt s old = 0 ->
  forall o, In o (ops s) -> holds o = true -> te o = xors s /\ sd o = act s.
Proof.
  intros s a b ph old [C T] E W Z o Ho Hh. destruct (T o Ho Hh) as [Q|[a1 [b1 [ph1 [Q1 [Q2 [Q3 Q4]]]]]]]; [auto|].
  exfalso. rewrite E in Q1. injection Q1 as <- <- <-. assert (sd o = old) by congruence. subst old.
  rewrite C in Z. assert (0 < count (contrib (sd o)) (ops s)); [|lia].
  apply count_pos with (a := o); auto. unfold contrib. rewrite Hh, eqb_reflx. reflexivity.
Qed.

Lemma tok_step : forall s e s', tokInv s -> step home s e = Some (Ok s') -> tokInv s'.
Proof.
  intros s e s' T E. unfold step in E. destruct (step0 home s e) as [[|s1]|] eqn:E0; try discriminate. apply ok_inj in E. subst s'.
  assert (X : tokInv s1 -> tokInv (tick s1)).
  { intros [C U]. constructor; simpl; auto. }
  apply X. clear X. destruct e as [k|i b|c|n| |j x|b x]; simpl in E0.
  - destruct (num s =? 0); [discriminate|]. apply ok_inj in E0. subst s1. destruct T as [C U]. constructor; simpl.
    + intros b. rewrite count_app, C. simpl. unfold contrib, holds. simpl. lia.
    + intros o Ho Hh. apply in_app_or in Ho. destruct Ho as [Ho|[<-|[]]]; [auto|discriminate].
  - destruct (nth_error (ops s) i) as [o|] eqn:N; [|discriminate]. eapply tok_op; eauto.
  - apply ok_inj in E0. subst s1. eapply tok_same; eauto.
  - apply ok_inj in E0. subst s1. eapply tok_same; eauto.
  - destruct (num s =? conf s); [discriminate|]. apply ok_inj in E0. subst s1. eapply tok_same; eauto.
  - destruct (cur s) as [c0|] eqn:Cu; [discriminate|]. destruct (nth_error (calls s) j) as [[o w]|]; [|discriminate].
    apply ok_inj in E0. subst s1. unfold lockStep.
    destruct (o <? w); destruct (_ =? o); try destruct (_ || _); eapply tok_same; eauto; intros; congruence.
  - destruct (cur s) as [[[o m] ph]|] eqn:Cu; [|discriminate].
    destruct ph; simpl in E0;
    repeat match type of E0 with
       | context [if ?c then _ else _] => destruct c eqn:?
       | context [match ent s ?c with _ => _ end] => destruct (ent s c) eqn:?
       end; apply ok_inj in E0; subst s1; try exact T;
    try (eapply tok_xor; [exact T|exact Cu|reflexivity|reflexivity]);
    (eapply tok_same; [exact T|reflexivity..|]; intros a0 b0 ph0 w Q1 Q2; rewrite Cu in Q1; injection Q1 as <- <- <-; try discriminate Q2);
    left; intros o0 Ho Hh Hs; injection Q2 as Q2; subst w; apply Nat.eqb_eq in Heqb0;
    destruct (tok_drained s _ _ _ _ T Cu eq_refl Heqb0 o0 Ho Hh) as [_ Q]; rewrite Q in Hs; destruct (act s); discriminate.
Qed.

(** ** Phases *)

Definition nums (s : state) (o : op) : list nat :=
  match cur s with
  | Some (a, m, ASw2x) => [a; m]
  | Some (a, m, ASw2w _) => if te o =? xors s then [m] else [a; m]
  | _ => [num s]
  end.
Definition pends (s : state) (o : op) : list nat :=
  match cur s with
  | Some (_, m, (ASw1x | ASw1w _ | ACopy _ | ANum | ASw2x | ASw2w _ | AUnp | ASw3x)) => [m]
  | Some (_, m, ASw3w _) => if te o =? xors s then [] else [m]
  | _ => []
  end.
Definition dbls (s : state) (o : op) : list nat :=
  match cur s with
  | Some (_, m, (ASw1x | ASw1w _ | ACopy _ | ANum | ASw2x)) => [m]
  | Some (_, m, ASw2w _) => if te o =? xors s then [] else [m]
  | _ => []
  end.
Definition view (s : state) (o : op) : Prop :=
  match pc o with
  | PApply (c, g) => g = rel s c /\ exists n, In n (nums s o) /\ c = home n
  | PNum2 n => In n (pends s o)
  | PDbl (c, g) => g = rel s c /\ exists n, In n (dbls s o) /\ c = home n
  | _ => True
  end.

Definition base (s : state) : Prop :=
  0 < num s /\ 0 < conf s /\
  match cur s with
  | None => pend s = 0 /\ na s = num s /\ (calls s = [] \/ (calls s = [(num s, conf s)] /\ num s <> conf s))
  | Some (o, m, ph) =>
    0 < o /\ 0 < m /\ o <> m /\ calls s = [] /\ na s = Nat.max o m /\ (m < o -> conf s = m) /\
    match ph with
    | APend => num s = o /\ pend s = 0
    | ASw1x | ASw1w _ | ACopy _ | ANum => num s = o /\ pend s = m
    | ASw2x | ASw2w _ | AUnp => num s = m /\ pend s = m
    | ASw3x | ASw3w _ | ADel _ | AFree => num s = m /\ pend s = 0
    | ZNum | ZSwx | ZSww _ => False
    end
  end.

Record inv (s : state) : Prop := mkInv {
  iT : tokInv s; iB : base s; iV : forall o, In o (ops s) -> view s o
}.

Lemma view_tick : forall s o, view s o -> view (tick s) o.
Proof. intros s o H. exact H. Qed.

(** nums, pends, dbls depend only on this *)
Lemma view_ext : forall s s' o, cur s' = cur s -> xors s' = xors s -> num s' = num s -> rel s' = rel s -> view s o -> view s' o.
Proof.
  intros s s' o E1 E2 E3 E4 H. unfold view, nums, pends, dbls in *. rewrite E1, E2, E3, E4. exact H.
Qed.

Lemma home_lt : forall n k, 0 < n -> n <= k -> home n < k.
Proof. intros. pose proof (HR n H). lia. Qed.

(** what a call sees now is allowed *)
Lemma num_ok : forall s o, base s -> In (num s) (nums s o).
Proof.
  intros s o B. unfold base in B. unfold nums. destruct (cur s) as [[[a m] ph]|]; [|left; auto].
  destruct B as [_ [_ [_ [_ [_ [_ [_ [_ B]]]]]]]].
  destruct ph; try (left; reflexivity); destruct B as [B _]; rewrite B; [right; left; auto|].
  destruct (te o =? xors s); [left; auto|right; left; auto].
Qed.
Lemma num_na : forall s, base s -> num s <= na s.
Proof.
  intros s B. unfold base in B. destruct (cur s) as [[[a m] ph]|]; [|lia].
  destruct B as [_ [_ [_ [_ [_ [_ [N [_ B]]]]]]]]. destruct ph; lia.
Qed.

(** a bucket that a call may have found is there *)
Lemma nums_na : forall s o n, base s -> In n (nums s o) -> 0 < n /\ n <= na s.
Proof.
  intros s o n B H. pose proof (num_na s B). unfold base in B. unfold nums in H.
  destruct (cur s) as [[[a m] ph]|].
  - destruct B as [B0 [_ [B1 [B2 [_ [_ [N _]]]]]]].
    destruct ph; try destruct (te o =? xors s); simpl in H; repeat (destruct H as [H|H]; [subst n; lia|]); tauto.
  - destruct H as [<-|[]]. destruct B as [B0 _]. auto.
Qed.
Lemma pends_na : forall s o n, base s -> In n (pends s o) -> 0 < n /\ n <= na s.
Proof.
  intros s o n B H. unfold base in B. unfold pends in H.
  destruct (cur s) as [[[a m] ph]|]; [|destruct H].
  destruct B as [B0 [_ [B1 [B2 [_ [_ [N _]]]]]]].
  destruct ph; try destruct (te o =? xors s); simpl in H; try tauto; destruct H as [<-|[]]; lia.
Qed.

Lemma pend_step : forall s o, tokInv s -> base s -> In o (ops s) -> holds o = true -> pend s <> 0 -> In (pend s) (pends s o).
Proof.
  intros s o T B Ho Hh P. unfold base in B. unfold pends. destruct (cur s) as [[[a m] ph]|]; [|destruct B as [_ [_ [B _]]]; congruence].
  destruct B as [_ [_ [_ [_ [_ [_ [_ [_ B]]]]]]]].
  destruct ph; try tauto; destruct B as [_ B]; try (left; congruence); congruence.
Qed.

Lemma dbl_step : forall s o n, tokInv s -> base s -> In o (ops s) -> holds o = true -> In n (pends s o) -> home (num s) <> home n ->
  In n (dbls s o).
Proof.
  intros s o n T B Ho Hh P N. unfold base in B. unfold pends in P. unfold dbls.
  destruct (cur s) as [[[a m] ph]|] eqn:Cu; [|destruct P].
  destruct B as [_ [_ [_ [_ [_ [_ [_ [_ B]]]]]]]].
  destruct ph; try destruct (te o =? xors s); simpl in P; try tauto; destruct P as [<-|[]]; try (left; reflexivity);
  exfalso; apply N; f_equal; tauto.
Qed.

Lemma op_shape : forall s i o b s', opStep home s i o b = Some (Ok s') ->
  exists o', ops s' = setNth i o' (ops s) /\ cur s' = cur s /\ xors s' = xors s /\ num s' = num s /\ rel s' = rel s /\ pend s' = pend s /\
    na s' = na s /\ conf s' = conf s /\ calls s' = calls s.
Proof.
  intros s i o b s' E. unfold opStep in E.
  destruct (pc o) as [|t|t| |p| |n|p|ok|] eqn:P;
  repeat match type of E with
       | context [if ?c then _ else _] => destruct c eqn:?
       | context [match ptrTo s ?c with _ => _ end] => destruct (ptrTo s c) eqn:?
       | context [match kd o with _ => _ end] => destruct (kd o) eqn:?
       end; try discriminate; apply ok_inj in E; subst s'; eexists; repeat split; reflexivity.
Qed.

Lemma ptr_some : forall s c p, ptrTo s c = Some p -> p = (c, rel s c).
Proof. intros s c p. unfold ptrTo. destruct (c <? na s); congruence. Qed.

Lemma base_ext : forall s s', cur s' = cur s -> num s' = num s -> pend s' = pend s -> na s' = na s -> conf s' = conf s -> calls s' = calls s -> base s -> base s'.
Proof. intros s s' E1 E2 E3 E4 E5 E6 B. unfold base in *. rewrite E1, E2, E3, E4, E5, E6. exact B. Qed.

(** the step of a call keeps its view *)
Lemma op_view : forall s i o b s' o', inv s -> nth_error (ops s) i = Some o -> opStep home s i o b = Some (Ok s') ->
  nth_error (ops s') i = Some o' -> view s' o'.
Proof.
  intros s i o b s' o' [T B V] H E H'.
  assert (Ho : In o (ops s)) by (eapply nth_in; eauto).
  assert (SN : forall (x : op), nth_error (setNth i x (ops s)) i = Some x).
  { intros x. eapply nth_set; eauto. }
  unfold opStep in E.
  destruct (pc o) as [|t|t| |p| |n|p|ok|] eqn:P;
  repeat match type of E with
       | context [if ?c then _ else _] => destruct c eqn:?
       | context [match ptrTo s ?c with _ => _ end] => destruct (ptrTo s c) eqn:?
       | context [match kd o with _ => _ end] => destruct (kd o) eqn:?
       end; try discriminate; apply ok_inj in E; subst s'; cbn [ops withOp] in H'; cbn [ops withCnt withDone withEnt put] in H';
       rewrite SN in H'; injection H' as <-; unfold view; cbn [pc at_ wrote]; try exact I.
  - apply ptr_some in Heqo0. subst p. split; [reflexivity|]. exists (num s). split; [|reflexivity].
    pose proof (num_ok s (at_ o (PApply (home (num s), rel s (home (num s))))) B) as Q. exact Q.
  - apply Nat.eqb_neq in Heqb0. assert (Hh : holds o = true) by (unfold holds; rewrite P; reflexivity).
    pose proof (pend_step s o T B Ho Hh Heqb0) as Q. exact Q.
  - apply ptr_some in Heqo0, Heqo1. subst p p0. cbn [fst] in Heqb0. apply Nat.eqb_neq in Heqb0.
    assert (Hh : holds o = true) by (unfold holds; rewrite P; reflexivity).
    split; [reflexivity|]. exists n. split; [|reflexivity].
    pose proof (V o Ho) as Vo. unfold view in Vo. rewrite P in Vo.
    pose proof (dbl_step s o n T B Ho Hh Vo Heqb0) as Q. exact Q.
Qed.

Lemma inv_init : forall n, 0 < n -> inv (init n).
Proof.
  intros n H. constructor; [apply tok_init| |simpl; tauto]. unfold base. simpl. repeat split; auto.
Qed.

Lemma in_set_cases {A} : forall (l : list A) i b x, In x (setNth i b l) -> (exists a, nth_error l i = Some a) -> nth_error (setNth i b l) i = Some x \/ In x l.
Proof.
  intros l i b x H [a N]. apply in_set in H. destruct H as [->|H]; [left|auto].
  eapply nth_set; eauto.
Qed.

Definition phv (s s' : state) (o : op) : Prop :=
  (forall n, In n (nums s o) -> In n (nums s' o)) /\ (forall n, In n (pends s o) -> In n (pends s' o)) /\ (forall n, In n (dbls s o) -> In n (dbls s' o)).
Lemma view_sub : forall s s' o, phv s s' o -> (forall n, In n (nums s o) \/ In n (dbls s o) -> rel s' (home n) = rel s (home n)) -> view s o -> view s' o.
Proof.
  intros s s' o [H1 [H2 H3]] R V. unfold view in *. destruct (pc o) as [|t|t| |[c g]| |n|[c g]|ok|]; auto.
  - destruct V as [-> [n [I ->]]]. rewrite R by auto. split; [auto|]. exists n; auto.
  - destruct V as [-> [n [I ->]]]. rewrite R by auto. split; [auto|]. exists n; auto.
Qed.

(** a resize goes on *)
Lemma res_phv : forall s a m ph b x s' o, inv s -> cur s = Some (a, m, ph) -> resStep home s a m ph b x = Some (Ok s') -> In o (ops s) -> holds o = true -> phv s s' o.
Proof.
  intros s a m ph b x s' o [T B V] Cu E Ho Hh. unfold base in B. rewrite Cu in B.
  destruct B as [B0 [BC [B1 [B2 [B3 [B4 [B5 [B6 B7]]]]]]]].
  assert (TE : forall old, waiting ph = Some old -> cnt s old = 0 -> te o = xors s).
  { intros old W Z. destruct (tok_drained s _ _ _ _ T Cu W Z o Ho Hh); auto. }
  pose proof (tkT s T o Ho Hh) as TT.
  assert (NW : waiting ph = None -> te o = xors s).
  { intros W. destruct TT as [[Q _]|[a1 [b1 [ph1 [Q1 [Q2 _]]]]]]; [auto|]. rewrite Cu in Q1. injection Q1 as <- <- <-. congruence. }
  destruct ph; simpl in E; try tauto;
  repeat match type of E with
       | context [if ?c then _ else _] => destruct c eqn:?
       | context [match ent s ?c with _ => _ end] => destruct (ent s c) eqn:?
       end; apply ok_inj in E; subst s'; unfold phv, nums, pends, dbls; cbn [cur num xors setPend setNum doXor withCur withEnt alloc]; rewrite ?Cu;
  try (repeat split; intros nn Hn; exact Hn);
  try (specialize (TE _ eq_refl ltac:(apply Nat.eqb_eq; assumption)); rewrite TE, ?Nat.eqb_refl);
  try (specialize (NW eq_refl); rewrite NW; assert (xors s =? S (xors s) = false) as -> by (apply Nat.eqb_neq; lia));
  repeat split; intros nn Hn; simpl in *; try tauto;
  try (destruct B7; subst; simpl; tauto).
  all: try (destruct Hn as [<-|[]]; destruct B7; subst; simpl; tauto).
  all: pose proof (HR m B2) as HM;
    repeat match goal with
    | X : (_ <? _) = false |- _ => apply Nat.ltb_ge in X
    | X : (_ <? _) = true |- _ => apply Nat.ltb_lt in X
    end; lia.
Qed.
End P.
