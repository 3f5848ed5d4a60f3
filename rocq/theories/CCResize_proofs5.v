(** What a get finds was set; nothing is lost when every entry is copied. *)
From Coq Require Import List Arith Bool Lia.
Import ListNotations.
From Verif Require Import CCResize_model CCResize_spec CCResize_proofs1 CCResize_proofs2 CCResize_proofs3 CCResize_proofs4.

Section P.
Variable home : nat -> nat.
Hypothesis HR : inRange home.

Lemma res_ops : forall s a m ph b x s1, resStep home s a m ph b x = Some (Ok s1) -> ops s1 = ops s /\ gets s1 = gets s /\ now s1 = now s.
Proof.
  intros s a m ph b x s1 E. destruct ph; simpl in E; repeat match type of E with
       | context [if ?c then _ else _] => destruct c eqn:?
       | context [match ent s ?c with _ => _ end] => destruct (ent s c) eqn:?
       end; apply ok_inj in E; subst s1; auto.
Qed.
Lemma res_ent : forall s a m ph b x s1 c v, resStep home s a m ph b x = Some (Ok s1) -> ent s1 c = Some v -> exists c0, ent s c0 = Some v.
Proof.
  intros s a m ph b x s1 c v E. destruct ph; simpl in E; repeat match type of E with
       | context [if ?c then _ else _] => destruct c eqn:?
       | context [match ent s ?c with _ => _ end] => destruct (ent s c) eqn:?
       end; apply ok_inj in E; subst s1; cbn [ent withCur withEnt setPend doXor setNum alloc]; unfold upd; intros H; eauto;
  try (destruct (c =? _); [|eauto]; first [injection H as <-; eauto | discriminate]).
  destruct (_ && _); [discriminate|eauto].
Qed.

Definition wasSet (s : state) (i : nat) : Prop := exists o, In o (ops s) /\ kd o = Set_ /\ st o = i /\ st o < now s.
Record sinv (s : state) : Prop := mkSi {
  sE : forall c i, ent s c = Some i -> wasSet s i;
  sG : forall g i, In (g, Some i) (gets s) -> wasSet s i;
  sT : forall o, In o (ops s) -> st o < now s
}.
Lemma ws_op : forall s i0 o o' s' j, nth_error (ops s) i0 = Some o -> st o' = st o -> kd o' = kd o -> ops s' = setNth i0 o' (ops s) -> now s <= now s' -> wasSet s j -> wasSet s' j.
Proof.
  intros s i0 o o' s' j N E1 E2 Eo Hn [x [H1 [H2 [H3 H4]]]].
  apply In_nth_error in H1. destruct H1 as [k Hk].
  destruct (Nat.eq_dec k i0) as [->|Q].
  - rewrite N in Hk. injection Hk as <-. exists o'. rewrite Eo. repeat split; try congruence; [eapply nth_in, nth_set; eauto|rewrite E1; lia].
  - exists x. rewrite Eo. repeat split; auto; [|lia].
    apply nth_error_In with (n := k). clear - Hk Q. revert i0 k Hk Q. induction (ops s) as [|a l]; intros [|i0] [|k] H Q; simpl in *; try discriminate; auto; try congruence.
Qed.
Lemma op_st : forall s i o b s', opStep home s i o b = Some (Ok s') -> exists o', ops s' = setNth i o' (ops s) /\ st o' = st o /\ kd o' = kd o /\ now s' = now s /\
   (forall c v, ent s' c = Some v -> ent s c = Some v \/ (v = st o /\ kd o = Set_)) /\
   (forall g v, In (g, Some v) (gets s') -> In (g, Some v) (gets s) \/ exists c, ent s c = Some v).
Proof.
  intros s i o b s' E. unfold opStep in E.
  destruct (pc o) as [|t|t| |p| |n|p|ok|] eqn:P;
  repeat match type of E with
       | context [if ?c then _ else _] => destruct c eqn:?
       | context [match ptrTo s ?c with _ => _ end] => destruct (ptrTo s c) eqn:?
       | context [match kd o with _ => _ end] => destruct (kd o) eqn:?
       end; try discriminate; apply ok_inj in E; subst s'; eexists; (split; [reflexivity|]);
  cbn [st kd at_ wrote withOp withDone withCnt put withEnt ent gets now]; repeat (split; [auto; fail|]); try split; auto.
  - intros g v [Q|Q]; [injection Q as _ Q; right; eauto|auto].
  - intros c v. unfold upd. destruct (c =? fst p); [|auto]. rewrite Heqk. intros Q. injection Q as <-. auto.
  - intros c v. unfold upd. destruct (c =? fst p); [|auto]. rewrite Heqk. discriminate.
  - intros c v. unfold upd. destruct (c =? fst p); [|auto]. destruct (kd o); intros Q; try discriminate. injection Q as <-. auto.
Qed.
Lemma sinv_step : forall s e s', sinv s -> step home s e = Some (Ok s') -> sinv s'.
Proof.
  intros s e s' [SE SG ST] E. unfold step in E. destruct (step0 home s e) as [[|s1]|] eqn:E0; try discriminate. apply ok_inj in E. subst s'.
  assert (W : ops s1 = ops s -> now s1 = now s -> forall i, wasSet s i -> wasSet (tick s1) i).
  { intros E1 E2 i [o [H1 [H2 [H3 H4]]]]. exists o. cbn. rewrite E1, E2. repeat split; auto. }
  assert (W2 : ops s1 = ops s -> now s1 = now s -> gets s1 = gets s -> (forall c v, ent s1 c = Some v -> exists c0, ent s c0 = Some v) -> sinv (tick s1)).
  { intros E1 E2 E3 E4. constructor; cbn.
    - intros c i H. apply W; auto. destruct (E4 c i H) as [c0 Q]. eauto.
    - intros g i H. apply W; auto. rewrite E3 in H. eauto.
    - intros o Ho. rewrite E1 in Ho. rewrite E2. specialize (ST o Ho). lia. }
  destruct e as [k|i b|c|n| |j x|b x]; cbn [step0] in E0.
  - destruct (num s =? 0); [discriminate|]. apply ok_inj in E0. subst s1.
    assert (X : forall i, wasSet s i -> wasSet (tick (mkS (now s) (num s) (pend s) (na s) (rel s) (conf s) (ent s) (act s) (cnt s) (xors s)
                       (ops s ++ [mkOp k (now s) PLoad false 0 []]) (calls s) (cur s) (t1 s) (t2 s) (done s) (gets s))) i).
    { intros i [o [H1 [H2 [H3 H4]]]]. exists o. cbn. repeat split; auto. apply in_or_app. auto. }
    constructor; cbn; eauto.
    intros o Ho. apply in_app_or in Ho. destruct Ho as [Ho|[<-|[]]]; [specialize (ST o Ho)|cbn]; lia.
  - destruct (nth_error (ops s) i) as [o|] eqn:N; [|discriminate].
    destruct (op_st _ _ _ _ _ E0) as [o' [Q1 [Q2 [Q3 [Q4 [Q5 Q6]]]]]].
    assert (X : forall v, wasSet s v -> wasSet (tick s1) v).
    { intros v. apply ws_op with (i0 := i) (o := o) (o' := o'); auto. cbn. lia. }
    assert (Y : kd o = Set_ -> wasSet s (st o)).
    { intros K. exists o. pose proof (nth_in _ _ _ N). repeat split; auto. }
    constructor; cbn.
    + intros c v H. destruct (Q5 c v H) as [Z|[-> Z]]; eauto.
    + intros g v H. destruct (Q6 g v H) as [Z|[c Z]]; eauto.
    + intros z Hz. rewrite Q1 in Hz. rewrite Q4. apply in_set in Hz. destruct Hz as [->|Hz]; [rewrite Q2; pose proof (ST o (nth_in _ _ _ N)); lia|specialize (ST z Hz); lia].
  - apply ok_inj in E0. subst s1. apply W2; auto. intros k v H. apply upd_none in H. eauto.
  - apply ok_inj in E0. subst s1. apply W2; auto. eauto.
  - destruct (num s =? conf s); [discriminate|]. apply ok_inj in E0. subst s1. apply W2; auto. eauto.
  - destruct (cur s) as [c0|] eqn:Cu; [discriminate|]. destruct (nth_error (calls s) j) as [[o w]|]; [|discriminate].
    apply ok_inj in E0. subst s1. unfold lockStep in *. destruct (o <? w); destruct (_ =? o); try destruct (_ || _); apply W2; auto; cbn; eauto; intros c v; destruct (_ && _); try discriminate; eauto.
  - destruct (cur s) as [[[a m] ph]|] eqn:Cu; [|discriminate]. pose proof (res_ops _ _ _ _ _ _ _ E0) as [R1 [R2 R3]].
    apply W2; auto. intros c v. eapply res_ent; eauto.
Qed.

(** whatever the sizes and the schedule *)
Theorem found_set : forall n s (P : state -> event -> Prop) g i, reach home P (init n) s -> In (g, Some i) (gets s) -> exists o, In o (ops s) /\ kd o = Set_ /\ st o = i.
Proof.
  intros n s P g i R H.
  assert (S : sinv s).
  { clear H. induction R; [|eapply sinv_step; eauto]. constructor; cbn; try tauto; try discriminate. }
  destruct (sG s S g i H) as [o [H1 [H2 [H3 _]]]]. eauto.
Qed.

(** ** Nothing is lost *)
Section K.
Variables (i0 n0 : nat).
Definition copied (s : state) : Prop :=
  match cur s with
  | Some (a, m, ACopy n) => home a < n -> ent s (home m) = Some i0
  | Some (a, m, ANum) => ent s (home m) = Some i0
  | Some (a, m, (ASw2x | ASw2w _)) => ent s (home a) = Some i0
  | _ => True
  end.
Record kinv (s : state) : Prop := mkK {
  kO : forall o, In o (ops s) -> pc o = PDone \/ kd o = Get;
  kP : forall o, In o (ops s) -> kd o = Get -> match pc o with PPend | PNum2 _ | PDbl _ => False | _ => True end;
  kE : forall c v, ent s c = Some v -> v = i0;
  kN : ent s (home (num s)) = Some i0;
  kC : copied s;
  kG : forall g v, In (g, v) (gets s) -> n0 <= g -> v = Some i0
}.

Lemma kinv_same : forall s s', kinv s -> ops s' = ops s -> gets s' = gets s -> (forall c v, ent s' c = Some v -> v = i0) ->
  ent s' (home (num s')) = Some i0 -> copied s' -> kinv s'.
Proof. intros s s' [A B C D E F] E1 E2 E3 E4 E5. constructor; rewrite ?E1, ?E2; auto. Qed.

Lemma kinv_step : forall s e s', inv home s -> kinv s -> readOnly s e -> step home s e = Some (Ok s') -> kinv s'.
Proof.
  intros s e s' I K [C RO] E. unfold step in E. destruct (step0 home s e) as [[|s1]|] eqn:E0; try discriminate. apply ok_inj in E. subst s'.
  pose proof (iB home s I) as B.
  destruct e as [k|i b|c|n| |j x|b x]; cbn [step0] in E0.
  - destruct (num s =? 0); [discriminate|]. apply ok_inj in E0. subst s1 k. destruct K as [A1 A2 A3 A4 A5 A6]. constructor; cbn; auto.
    + intros o Ho. apply in_app_or in Ho. destruct Ho as [Ho|[<-|[]]]; auto.
    + intros o Ho. apply in_app_or in Ho. destruct Ho as [Ho|[<-|[]]]; [exact (A2 o Ho)|intros _; exact Logic.I].
  - subst b. destruct (nth_error (ops s) i) as [o|] eqn:N; [|discriminate].
    pose proof (nth_in _ _ _ N) as Ho. destruct K as [A1 A2 A3 A4 A5 A6].
    destruct (A1 o Ho) as [Q|KG]; [unfold opStep in E0; rewrite Q in E0; discriminate|].
    pose proof (A2 o Ho KG) as AP. pose proof (iV home s I o Ho) as V.
    assert (X : forall o' s2, ops s2 = setNth i o' (ops s) -> ent s2 = ent s -> num s2 = num s -> cur s2 = cur s -> kd o' = kd o ->
      match pc o' with PPend | PNum2 _ | PDbl _ => False | _ => True end ->
      (forall g v, In (g, v) (gets s2) -> In (g, v) (gets s) \/ v = Some i0) -> kinv (tick s2)).
    { intros o' s2 Q1 Q2 Q3 Q4 Q5 Q6 Q7. constructor; cbn; rewrite ?Q1, ?Q2, ?Q3; auto.
      - intros z Hz. apply in_set in Hz. destruct Hz as [->|Hz]; [right; congruence|auto].
      - intros z Hz. apply in_set in Hz. destruct Hz as [->|Hz]; [intros _; exact Q6|exact (A2 z Hz)].
      - unfold copied in *. cbn [tick cur ent]. rewrite Q2, Q4. exact A5.
      - intros g v Hg Hn. destruct (Q7 g v Hg) as [Y|Y]; eauto. }
    unfold opStep in E0. unfold view in V. destruct (pc o) as [|t|t| |[c g]| |n|p|ok|] eqn:P; try tauto; try discriminate.
    + apply ok_inj in E0. subst s1. eapply X; try reflexivity. auto.
    + destruct (Bool.eqb _ _); apply ok_inj in E0; subst s1; eapply X; try reflexivity; auto.
    + apply ok_inj in E0. subst s1. eapply X; try reflexivity. auto.
    + destruct (ptrTo _ _); apply ok_inj in E0; subst s1; eapply X; try reflexivity; auto.
    + destruct (negb _); [discriminate|]. rewrite KG in E0. apply ok_inj in E0. subst s1. eapply X; try reflexivity.
      intros g' v [Q|Q]; [|auto]. injection Q as _ <-. right. cbn [fst]. destruct V as [_ [n [Hn ->]]].
      unfold base in B. unfold copied in A5. unfold nums in Hn. destruct (cur s) as [[[a m] ph]|]; [|destruct Hn as [<-|[]]; auto].
      destruct B as [_ [_ [_ [_ [_ [_ [_ [_ B]]]]]]]].
      destruct ph; try (destruct Hn as [<-|[]]; auto; fail); destruct B as [B _]; rewrite B in A4; try destruct (te o =? xors s); simpl in Hn; intuition congruence.
    + apply ok_inj in E0. subst s1. eapply X; try reflexivity. auto.
  - destruct RO.
  - apply ok_inj in E0. subst s1. destruct K. constructor; auto.
  - destruct (num s =? conf s); [discriminate|]. apply ok_inj in E0. subst s1. destruct K. constructor; auto.
  - destruct (cur s) as [c0|] eqn:Cu; [discriminate|]. destruct (nth_error (calls s) j) as [[o w]|] eqn:N; [|discriminate].
    apply ok_inj in E0. subst s1. unfold base in B. rewrite Cu in B. destruct B as [B0 [B1 [B2 [B3 B4]]]].
    pose proof (HR (num s) B0) as HN.
    unfold lockStep. set (s0 := mkS _ _ _ _ _ _ _ _ _ _ _ _ _ _ _ _ _).
    assert (X : forall s2, ops s2 = ops s -> gets s2 = gets s -> num s2 = num s -> (forall c, c < na s -> ent s2 c = ent s c) -> (forall c v, ent s2 c = Some v -> ent s c = Some v) ->
      (cur s2 = None \/ exists a m, cur s2 = Some (a, m, APend) \/ cur s2 = Some (a, m, ZNum)) -> kinv (tick s2)).
    { intros s2 Q1 Q2 Q3 Q4 Q5 Q6. eapply kinv_same; [exact K|auto..].
      - cbn. intros c v H. apply Q5 in H. apply (kE s K) in H. auto.
      - cbn. rewrite Q3, Q4 by lia. apply (kN s K).
      - unfold copied. cbn. destruct Q6 as [->|[a [m [->| ->]]]]; exact Logic.I. }
    assert (Y1 : forall n c, c < na s -> ent (alloc s0 n) c = ent s c).
    { intros n c Hc. unfold s0. cbn. destruct (Nat.leb_spec (na s) c); [lia|reflexivity]. }
    assert (Y2 : forall n c v, ent (alloc s0 n) c = Some v -> ent s c = Some v).
    { intros n c v. unfold s0. cbn. destruct (_ && _); [discriminate|auto]. }
    destruct (o <? w); destruct (_ =? o); try destruct (_ || _); apply X; try reflexivity; auto; try (intros; apply Y1; auto; fail); try (intros c v; apply Y2; fail); cbn; eauto.
  - subst b. destruct (cur s) as [[[a m] ph]|] eqn:Cu; [|discriminate].
    pose proof (res_ops _ _ _ _ _ _ _ E0) as [R1 [R2 R3]].
    unfold base in B. rewrite Cu in B. destruct B as [B0 [BC [B1 [B2 [B3 [B4 [B5 [B6 B7]]]]]]]].
    pose proof (HR m B2) as HM. pose proof (HR a B1) as HA.
    pose proof (kN s K) as KN. pose proof (kC s K) as KC. unfold copied in KC. rewrite Cu in KC.
    apply kinv_same with (s := s); auto.
    + cbn. intros c v H. destruct (res_ent _ _ _ _ _ _ _ _ _ E0 H) as [c0 Q]. eapply (kE s K); eauto.
    + cbn [tick ent num]. destruct ph as [| |old|n| | |old| | |old|n| | | |old]; cbn [resStep] in E0; try tauto; destruct B7 as [N0 P0];
      repeat match type of E0 with
       | context [if ?c then _ else _] => destruct c eqn:?
       | context [match ent s ?c with _ => _ end] => destruct (ent s c) eqn:?
       end; apply ok_inj in E0; subst s1; cbn [ent num withCur withEnt setPend doXor setNum alloc]; auto; unfold upd.
      * destruct (Nat.eqb_spec (home (num s)) (home m)) as [Q|Q]; [|auto]. f_equal. eapply (kE s K); eauto.
      * destruct (Nat.eqb_spec (home (num s)) n) as [Q|Q]; [|auto]. exfalso. apply Nat.eqb_neq in Heqb2. congruence.
      * destruct (Nat.leb_spec (na s) (home (num s))); [rewrite N0 in *; lia|]. exact KN.
    + unfold copied. cbn [tick cur ent]. destruct ph as [| |old|n| | |old| | |old|n| | | |old]; cbn [resStep] in E0; try tauto; destruct B7 as [N0 P0];
      repeat match type of E0 with
       | context [if ?c then _ else _] => destruct c eqn:?
       | context [match ent s ?c with _ => _ end] => destruct (ent s c) eqn:?
       end; apply ok_inj in E0; subst s1; cbn [cur ent num withCur withEnt setPend doXor setNum alloc]; rewrite ?Cu; auto; try lia;
      try (intros QQ; apply KC; destruct (Nat.eq_dec (home a) n) as [Z|Z]; [exfalso; rewrite N0, Z in KN; congruence|lia]).
      * apply Nat.eqb_eq in Heqb2. intros _. rewrite Heqb2. rewrite Heqo. f_equal. eapply (kE s K); eauto.
      * intros _. unfold upd. rewrite Nat.eqb_refl. f_equal. eapply (kE s K); eauto.
      * apply KC. apply Nat.ltb_ge in Heqb. lia.
      * rewrite N0 in KN. exact KN.
Qed.
End K.

Theorem lossless : forall n s0 s i g v, 0 < n -> reach home (fun s e => calm s e /\ noStraddle s e) (init n) s0 -> quiet s0 -> ent s0 (home (num s0)) = Some i ->
  reach home readOnly s0 s -> In (g, v) (gets s) -> now s0 <= g -> v = Some i.
Proof.
  intros n s0 s i g v Hn R Q E R2 Hg Hl.
  assert (IJ : inv home s0 /\ jnv home s0).
  { clear - R Hn HR. induction R as [|s e s' R IH [P1 P2] E].
    - split; [apply inv_init; auto|apply jnv_init].
    - destruct IH as [I J]. split; [eapply inv_step; eauto|eapply jnv_step; eauto]. }
  destruct IJ as [I J]. destruct Q as [Q1 [Q2 Q3]].
  assert (IK : inv home s /\ kinv i (now s0) s).
  { clear Hg Hl. induction R2 as [|s e s' R2 IH P1 E1].
    - split; [auto|]. constructor; auto.
      + intros o Ho _. rewrite (Q3 o Ho). exact Logic.I.
      + intros c x H. pose proof (jE _ s0 J) as EM. unfold empties in EM. rewrite Q1 in EM.
        destruct (Nat.eq_dec c (home (num s0))) as [->|Z]; [congruence|]. rewrite (EM c Z) in H. discriminate.
      + unfold copied. rewrite Q1. exact Logic.I.
      + intros g0 v0 H Hn0. apply (jS _ s0 J) in H. lia.
    - destruct IH as [I' K]. split; [eapply inv_step; eauto; apply P1|eapply kinv_step; eauto]. }
  eapply (kG _ _ s (proj2 IK)); eauto.
Qed.
End P.
