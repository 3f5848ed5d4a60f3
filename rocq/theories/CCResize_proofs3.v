(** No stale value. *)
From Coq Require Import List Arith Bool Lia.
Import ListNotations.
From Verif Require Import CCResize_model CCResize_spec CCResize_proofs1 CCResize_proofs2.

Section P.
Variable home : nat -> nat.
Hypothesis HR : inRange home.

Definition clean (s : state) (c ws : nat) : Prop := forall i se, ent s c = Some i -> In (i, se) (done s) -> ws <= se.

(** both buckets are written *)
Definition mirror (s : state) : option nat :=
  match cur s with Some (_, m, (ASw1x | ASw1w _ | ACopy _ | ANum)) => Some m | _ => None end.
Definition phase1 (s : state) : bool := match cur s with Some (_, _, (ASw1x | ASw1w _)) => true | _ => false end.
Definition inW1 (s : state) : bool := match cur s with Some (_, _, ASw1w _) => true | _ => false end.
(** gets may still be in the old bucket *)
Definition phase3 (s : state) : option nat := match cur s with Some (a, _, (ASw2x | ASw2w _)) => Some a | _ => None end.
Definition inW2 (s : state) : bool := match cur s with Some (_, _, ASw2w _) => true | _ => false end.

Definition apset (s : state) (o : op) : Prop :=
  match mirror s with
  | Some m => In (home m) (ap o) -> In (home (num s)) (ap o)
  | None => match phase3 s with
            | None => forall c, In c (ap o) -> c = home (num s)
            | Some _ => inW2 s = true -> te o = xors s -> forall c, In c (ap o) -> c = home (num s)
            end
  end.
Definition early (o : op) : bool := match pc o with PLoad | PAdd _ | PUndo _ | PNum | PApply _ => true | _ => false end.
Definition where_ (s : state) (o : op) : Prop :=
  match pc o with
  | PPend | PNum2 _ | PDrop true => In (home (num s)) (ap o)
  | PDbl _ => phase3 s = None -> In (home (num s)) (ap o)
  | PApply (c, _) => c = home (num s)
  | _ => True
  end.
Definition both (s : state) (o : op) : Prop :=
  forall m, mirror s = Some m -> pc o = PDrop true ->
    home (num s) = home m \/ In (home m) (ap o) \/ (phase1 s = true /\ st o < t1 s /\ (inW1 s = true -> te o <> xors s)).
Definition reader (s : state) (o : op) : Prop :=
  forall c g a, kd o = Get -> pc o = PApply (c, g) -> phase3 s = Some a -> c = home (num s) \/ (c = home a /\ st o < t2 s).
Record tp (s : state) (o : op) : Prop := mkTp {
  pE : early o = true -> ap o = [];
  pW : kd o <> Get -> where_ s o;
  pB : kd o <> Get -> both s o;
  pA : pc o <> PDone -> apset s o;
  pR : reader s o;
  pT : st o < now s;
  pN : pc o <> PDone -> forall se, ~ In (st o, se) (done s);
  pK : kd o = Get -> match pc o with PPend | PNum2 _ | PDbl _ => False | _ => True end
}.
Definition used (s : state) (c : nat) : Prop := c = home (num s) \/ exists m, mirror s = Some m /\ c = home m.
Definition empties (s : state) : Prop :=
  match cur s with
  | None | Some (_, _, (APend | ZNum | ZSwx | ZSww _ | AFree)) => forall c, c <> home (num s) -> ent s c = None
  | Some (a, m, ADel n) => forall c, c <> home m -> (c <> home a \/ c < n) -> ent s c = None
  | Some (a, m, _) => forall c, c <> home m -> c <> home a -> ent s c = None
  end.
Record jnv (s : state) : Prop := mkJ {
  jP : forall o, In o (ops s) -> tp s o;
  jU : NoDup (map st (ops s));
  jD : forall ws we, In (ws, we) (done s) -> ws < now s /\ we < now s;
  jS : forall g v, In (g, v) (gets s) -> g < now s;
  j12 : t1 s <= now s /\ t2 s <= now s;
  jE : empties s;
  jC : forall c, used s c -> (forall ws we, In (ws, we) (done s) -> clean s c ws) /\
                 (forall o, In o (ops s) -> pc o <> PDone -> In c (ap o) -> clean s c (st o));
  j1 : forall m, mirror s = Some m -> phase1 s = true -> home (num s) <> home m -> forall ws, ws <= t1 s -> clean s (home m) ws;
  j2 : forall a, phase3 s = Some a -> forall ws we, In (ws, we) (done s) -> we < t2 s -> clean s (home a) ws;
  jG : forall g i ws we se, In (g, Some i) (gets s) -> In (ws, we) (done s) -> we < g -> In (i, se) (done s) -> ws <= se
}.

Lemma jnv_init : forall n, jnv (init n).
Proof.
  intros n. constructor; simpl; try tauto; try discriminate.
  - constructor.
  - lia.
  - unfold empties. simpl. auto.
Qed.

(** what a state says of the phase *)
Definition samePh (s s' : state) : Prop :=
  cur s' = cur s /\ num s' = num s /\ xors s' = xors s /\ t1 s' = t1 s /\ t2 s' = t2 s /\ now s' = S (now s).

Lemma clean_ent : forall s s' c ws, ent s' c = ent s c -> done s' = done s -> clean s c ws -> clean s' c ws.
Proof. intros s s' c ws E1 E2 H i se. rewrite E1, E2. apply H. Qed.

(** op o is replaced by o'; the entries and the done list are those of s', which are good *)
Lemma map_set : forall (l : list op) i o o', nth_error l i = Some o -> st o' = st o -> map st (setNth i o' l) = map st l.
Proof. induction l; intros [|i] o o' H E; simpl in *; try discriminate; [injection H as ->; congruence|]. f_equal. eauto. Qed.

Lemma tp_same : forall s s' o, samePh s s' -> (forall se, In (st o, se) (done s') -> In (st o, se) (done s) \/ pc o = PDone) -> tp s o -> tp s' o.
Proof.
  intros s s' o [E1 [E2 [E3 [E4 [E5 E6]]]]] HD [A B C D E F G K]. constructor; auto.
  - unfold where_, phase3 in *. rewrite E1, E2. exact B.
  - unfold both, mirror, phase1, inW1 in *. rewrite E1, E2, E3, E4. exact C.
  - unfold apset, mirror, phase3, inW2 in *. rewrite E1, E2, E3. exact D.
  - unfold reader, phase3 in *. rewrite E1, E2, E5. exact E.
  - rewrite E6. lia.
  - intros Hp se Hs. destruct (HD se Hs) as [X|X]; [exact (G Hp se X)|contradiction].
Qed.

(** calls and phases as they were; one call moves on *)
Lemma jnv_op : forall s s' i o o', jnv s -> nth_error (ops s) i = Some o -> st o' = st o -> ops s' = setNth i o' (ops s) -> samePh s s' ->
  tp s' o' ->
  (forall x se, In (x, se) (done s') -> In (x, se) (done s) \/ (x = st o /\ se = now s /\ pc o' = PDone)) ->
  (done s' = done s \/ done s' = (st o, now s) :: done s) ->
  gets s' = gets s \/ gets s' = (st o, ent s (match pc o with PApply (c, _) => c | _ => 0 end)) :: gets s ->
  (forall c v, ent s' c = Some v -> ent s c = Some v \/ (v = st o /\ pc o <> PDone /\ pc o' <> PDone)) ->
  empties s' ->
  (* the call that returns *)
  (done s' = (st o, now s) :: done s -> (forall c, used s c -> clean s c (st o))) ->
  (* newly written *)
  (forall c, In c (ap o') -> In c (ap o) \/ forall v, ent s' c = Some v -> v = st o) ->
  (pc o' <> PDone -> pc o <> PDone) ->
  (forall g i ws we se, In (g, Some i) (gets s') -> In (ws, we) (done s) -> we < g -> In (i, se) (done s) -> ws <= se) ->
  jnv s'.
Proof.
  intros s s' i o o' J N Est Eo Ph Tp HD HD2 HG HE Em HR' HA HP HG2.
  pose proof Ph as [E1 [E2 [E3 [E4 [E5 E6]]]]].
  assert (Ho : In o (ops s)) by (eapply nth_in; eauto).
  pose proof (jP s J o Ho) as To.
  assert (DT : forall ws we, In (ws, we) (done s') -> ws < now s /\ we <= now s).
  { intros ws we H. destruct (HD _ _ H) as [X|[-> [-> _]]]; [apply (jD s J) in X; lia|]. pose proof (pT s o To). lia. }
  (* cleanness is kept *)
  assert (CL : forall c ws, ws <= now s -> clean s c ws -> clean s' c ws).
  { intros c ws Hws Hc v se Hv Hse. destruct (HE c v Hv) as [Q|[-> [Q Q2]]].
    - destruct (HD v se Hse) as [X|[_ [-> _]]]; [eapply Hc; eauto|lia].
    - destruct (HD _ se Hse) as [X|[_ [-> _]]]; [exfalso; eapply (pN s o To); eauto|lia]. }
  assert (US : forall c, used s' c -> used s c).
  { intros c. unfold used, mirror. rewrite E1, E2. auto. }
  constructor.
  - intros x Hx. rewrite Eo in Hx. destruct (in_set_cases _ _ _ _ Hx ltac:(eauto)) as [X|X].
    + rewrite (nth_set _ _ _ _ N) in X. injection X as <-. exact Tp.
    + destruct (HD2) as [Q|Q].
      { apply tp_same with (s := s); auto; [|apply (jP s J); auto]. intros se Hs. rewrite Q in Hs. auto. }
      (* the call that returned *)
      assert (X2 : In x (ops s) /\ (In x (setNth i o' (ops s)))) by auto.
      destruct (Nat.eq_dec (st x) (st o)) as [Es|Es].
      * (* the same call *)
        assert (XO : x = o').
        { assert (ND : NoDup (map st (setNth i o' (ops s)))) by (rewrite (map_set _ _ _ _ N Est); apply (jU s J)).
          assert (In o' (setNth i o' (ops s))) by (eapply nth_in; eapply nth_set; eauto).
          clear - ND Hx H Es Est. induction (setNth i o' (ops s)) as [|a l]; [destruct Hx|].
          simpl in ND. inversion ND as [|? ? NI ND']; subst. destruct Hx as [->|Hx]; destruct H as [->|H]; auto.
          - exfalso. apply NI. replace (st x) with (st o') by congruence. apply in_map; auto.
          - exfalso. apply NI. replace (st o') with (st x) by congruence. apply in_map; auto. }
        subst x. exact Tp.
      * apply tp_same with (s := s); auto; [|apply (jP s J); auto]. intros se Hs. rewrite Q in Hs. destruct Hs as [Hs|Hs]; [congruence|auto].
  - rewrite Eo, (map_set _ _ _ _ N Est). apply (jU s J).
  - intros ws we H. rewrite E6. apply DT in H. lia.
  - intros g v H. rewrite E6. destruct HG as [Q|Q]; rewrite Q in H; [apply (jS s J) in H; lia|].
    destruct H as [H|H]; [injection H as <- _; pose proof (pT s o To); lia|apply (jS s J) in H; lia].
  - rewrite E4, E5, E6. pose proof (j12 s J). lia.
  - exact Em.
  - intros c Hc. apply US in Hc. destruct (jC s J c Hc) as [C1 C2]. split.
    + intros ws we H. destruct HD2 as [Q|Q]; rewrite Q in H.
      * apply CL; [apply (jD s J) in H; lia|eauto].
      * destruct H as [H|H]; [injection H as <- <-; apply CL; [pose proof (pT s o To); lia|apply HR'; auto]|].
        apply CL; [apply (jD s J) in H; lia|eauto].
    + intros x Hx Hp Ha. rewrite Eo in Hx. destruct (in_set_cases _ _ _ _ Hx ltac:(eauto)) as [X|X].
      * rewrite (nth_set _ _ _ _ N) in X. injection X as <-. rewrite Est.
        destruct (HA c Ha) as [Q|Q].
        { apply CL; [pose proof (pT s o To); lia|]. apply C2; auto. }
        { intros v se Hv Hse. rewrite (Q v Hv) in Hse. destruct (HD _ _ Hse) as [Y|[_ [_ Y]]]; [|contradiction].
          exfalso. apply (pN s o To (HP Hp) se Y). }
      * apply CL; [pose proof (pT s x (jP s J x X)); lia|]. apply C2; auto.
  - intros m Hm Hp Hn ws Hw. unfold mirror, phase1 in *. rewrite E1 in *. rewrite E2 in Hn. rewrite E4 in Hw.
    apply CL; [pose proof (j12 s J); lia|]. apply (j1 s J); auto.
  - intros a Ha ws we H Hw. unfold phase3 in Ha. rewrite E1 in Ha. rewrite E5 in Hw.
    destruct (HD _ _ H) as [X|[-> [-> _]]]; [|pose proof (j12 s J); lia].
    apply CL; [apply (jD s J) in X; lia|]. eapply (j2 s J); eauto.
  - intros g v ws we se Hg Hw Hl Hs.
    assert (Gn : g < S (now s)).
    { destruct HG as [Q|Q]; rewrite Q in Hg; [apply (jS s J) in Hg; lia|]. destruct Hg as [Hg|Hg]; [injection Hg as <- _; pose proof (pT s o To); lia|apply (jS s J) in Hg; lia]. }
    assert (Gs : g < now s).
    { destruct HG as [Q|Q]; rewrite Q in Hg; [apply (jS s J) in Hg; lia|]. destruct Hg as [Hg|Hg]; [injection Hg as <- _; pose proof (pT s o To); lia|apply (jS s J) in Hg; lia]. }
    destruct (HD _ _ Hw) as [X|[-> [-> _]]]; [|lia].
    destruct (HD _ _ Hs) as [Y|[_ [-> _]]]; [eapply HG2; eauto|]. apply (jD s J) in X. lia.
Qed.

Lemma emp_put : forall s c v, base s -> empties s ->
  (exists n o, (In n (nums s o) \/ In n (dbls s o)) /\ c = home n) -> empties (withEnt s c v).
Proof.
  intros s c v B E [n [o [H ->]]]. unfold base in B. unfold empties in *. unfold nums, dbls in H. cbn [cur withEnt num ent] in *.
  destruct (cur s) as [[[a m] ph]|].
  - destruct B as [_ [_ [_ [_ [_ [_ [_ [_ B]]]]]]]].
    assert (forall k, k <> home n -> upd (ent s) (home n) v k = ent s k) as U.
    { intros k Hk. unfold upd. apply Nat.eqb_neq in Hk. rewrite Hk. reflexivity. }
    destruct ph; try tauto; destruct B as [B1 B2]; try rewrite B1 in *;
    try destruct (te o =? xors s); simpl in H;
    repeat match goal with X : _ \/ _ |- _ => destruct X end; try tauto; subst; intros; rewrite U; auto.
  - intros k Hk. unfold upd. destruct H as [[<-|[]]|[]]. apply Nat.eqb_neq in Hk. rewrite Hk. apply E. apply Nat.eqb_neq; auto.
Qed.

Lemma tp_plain : forall s s' o o', samePh s s' -> tp s o -> st o' = st o -> kd o' = kd o -> te o' = te o \/ ap o = [] -> ap o' = ap o -> pc o <> PDone ->
  done s' = done s -> (early o' = true -> early o = true) ->
  (kd o' <> Get -> where_ s' o') -> (kd o' <> Get -> both s' o') -> reader s' o' ->
  (kd o' = Get -> match pc o' with PPend | PNum2 _ | PDbl _ => False | _ => True end) -> tp s' o'.
Proof.
  intros s s' o o' [E1 [E2 [E3 [E4 [E5 E6]]]]] [A B C D E F G K] Es Ek Et Ea Np Ed HE HW HB HRr HK. constructor; auto.
  - rewrite Ea. auto.
  - intros _. specialize (D Np). unfold apset, mirror, phase3, inW2 in *. rewrite E1, E2, E3, Ea.
    destruct (match cur s with Some (_, m, (ASw1x | ASw1w _ | ACopy _ | ANum)) => Some m | _ => None end); [exact D|].
    destruct (match cur s with Some (a, _, (ASw2x | ASw2w _)) => Some a | _ => None end); [|exact D].
    destruct Et as [->| ->]; [exact D|]. intros _ _ c [].
  - rewrite E6, Es. lia.
  - intros _ se. rewrite Es, Ed. apply G. auto.
Qed.

Lemma samePh_op : forall s i o b s', opStep home s i o b = Some (Ok s') -> samePh s (tick s').
Proof.
  intros s i o b s' E. unfold opStep in E.
  destruct (pc o) as [|t|t| |p| |n|p|ok|] eqn:P;
  repeat match type of E with
       | context [if ?c then _ else _] => destruct c eqn:?
       | context [match ptrTo s ?c with _ => _ end] => destruct (ptrTo s c) eqn:?
       | context [match kd o with _ => _ end] => destruct (kd o) eqn:?
       end; try discriminate; apply ok_inj in E; subst s'; repeat split; reflexivity.
Qed.

(** a step that changes nothing but where the call is *)
Lemma j_plain : forall s s' i o o', jnv s -> nth_error (ops s) i = Some o -> samePh s s' -> st o' = st o -> kd o' = kd o -> te o' = te o \/ ap o = [] -> ap o' = ap o -> pc o <> PDone ->
  ops s' = setNth i o' (ops s) -> done s' = done s -> ent s' = ent s -> gets s' = gets s -> (early o' = true -> early o = true) ->
  (kd o' <> Get -> where_ s' o') -> (kd o' <> Get -> both s' o') -> reader s' o' ->
  (kd o' = Get -> match pc o' with PPend | PNum2 _ | PDbl _ => False | _ => True end) -> jnv s'.
Proof.
  intros s s' i o o' J N Ph Es Ek Et Ea Np Eo Ed Ee Eg HE HW HB HRr HK.
  assert (Ho : In o (ops s)) by (eapply nth_in; eauto).
  eapply jnv_op with (o := o) (o' := o'); eauto.
  - eapply tp_plain; eauto. apply (jP s J); auto.
  - intros x se. rewrite Ed. auto.
  - intros c v. rewrite Ee. auto.
  - pose proof (jE s J) as E. destruct Ph as [E1 [E2 _]]. unfold empties in *. rewrite E1, E2, Ee. exact E.
  - intros Q. rewrite Ed in Q. exfalso. apply (f_equal (@length _)) in Q. simpl in Q. lia.
  - intros c. rewrite Ea. auto.
  - rewrite Eg. intros. eapply (jG s J); eauto.
Qed.

Lemma where_ph : forall s s' o p, samePh s s' -> (match p with PPend | PNum2 _ | PDrop true | PDbl _ => True | _ => False end) ->
  In (home (num s)) (ap o) -> where_ s' (at_ o p).
Proof.
  intros s s' o p [E1 [E2 _]] Hp H. unfold where_. cbn [pc at_ ap]. rewrite E2. destruct p as [| | | |[? ?]| | | |[]|]; try tauto.
Qed.

Lemma noreader : forall s o, (forall q, pc o <> PApply q) -> reader s o.
Proof. intros s o H c g a _ Q. exfalso. exact (H _ Q). Qed.
Lemma noboth : forall s o, pc o <> PDrop true -> both s o.
Proof. intros s o H m _ Q. contradiction. Qed.

Ltac fin := match goal with
 | |- early _ = true -> _ => unfold early; try match goal with P : pc _ = _ |- _ => rewrite ?P end; cbn; solve [auto | discriminate]
 | |- _ -> where_ _ _ => intros _; exact Logic.I
 | |- _ -> both _ _ => intros _; apply noboth; discriminate
 | |- reader _ _ => apply noreader; discriminate
 | |- _ = Get -> match _ with _ => _ end => cbn; let Kx := fresh in intros Kx; first [exact Logic.I | congruence]
 end.


Ltac plain J N Ph x x' te :=
  eapply j_plain with (o := x) (o' := x');
  [exact J|exact N|exact Ph|reflexivity|reflexivity|te|reflexivity|congruence|reflexivity|reflexivity|reflexivity|reflexivity| | | | | ]; try fin.
Lemma cons_neq {A} : forall (x : A) l, l = x :: l -> False.
Proof. intros x l Q. apply (f_equal (@length _)) in Q. simpl in Q. lia. Qed.

Lemma j_op : forall s i o b s1, inv home s -> jnv s -> nth_error (ops s) i = Some o -> opStep home s i o b = Some (Ok s1) -> jnv (tick s1).
Proof.
  intros s i o b s1 I J N E. pose proof (samePh_op _ _ _ _ _ E) as Ph.
  assert (Ho : In o (ops s)) by (eapply nth_in; eauto).
  pose proof (iB home s I) as B. pose proof (iV home s I o Ho) as V. pose proof (jP s J o Ho) as To.
  assert (WH : kd o <> Get -> match pc o with PPend | PNum2 _ => True | _ => False end -> In (home (num s)) (ap o)).
  { intros K Hp. pose proof (pW s o To K) as W. unfold where_ in W. destruct (pc o); tauto. }
  unfold opStep in E. unfold view in V.
  destruct (pc o) as [|t|t| |p| |n|p|ok|] eqn:P.
  - apply ok_inj in E. subst s1. plain J N Ph o (at_ o (PAdd (act s))) ltac:(left; reflexivity).
  - destruct (Bool.eqb (act s) t); apply ok_inj in E; subst s1.
    + plain J N Ph o (mkOp (kd o) (st o) PNum t (xors s) (ap o)) ltac:(right; apply (pE s o To); unfold early; rewrite P; reflexivity).
    + plain J N Ph o (at_ o (PUndo t)) ltac:(left; reflexivity).
  - apply ok_inj in E. subst s1. plain J N Ph o (at_ o PLoad) ltac:(left; reflexivity).
  - destruct (ptrTo s (home (num s))) as [p|] eqn:Q; apply ok_inj in E; subst s1.
    + apply ptr_some in Q. subst p.
      plain J N Ph o (at_ o (PApply (home (num s), rel s (home (num s))))) ltac:(left; reflexivity).
      * intros _. unfold where_. reflexivity.
      * intros c g a _ Q _. cbn [pc at_] in Q. injection Q as <- _. left. reflexivity.
    + plain J N Ph o (at_ o (PDrop false)) ltac:(left; reflexivity).
  - destruct p as [c g]. cbn [fst snd] in *. destruct V as [-> [n0 [Hn0 Hc]]].
    assert (AN : ap o = []) by (apply (pE s o To); unfold early; rewrite P; auto).
    destruct b.
    { apply ok_inj in E; subst s1. plain J N Ph o (at_ o (PDrop false)) ltac:(left; reflexivity). }
    destruct (negb (live s (c, rel s c))); [discriminate|].
    assert (WR : kd o <> Get -> jnv (tick (withOp (put s o c) i (wrote o PPend c)))).
    { intros K. assert (c = home (num s)) as Ec.
      { pose proof (pW s o To K) as W. unfold where_ in W. rewrite P in W. exact W. }
      assert (Ph' : samePh s (tick (withOp (put s o c) i (wrote o PPend c)))) by (repeat split; reflexivity).
      eapply jnv_op with (o := o) (o' := wrote o PPend c); [exact J|exact N|reflexivity|reflexivity|exact Ph'| | |left; reflexivity|left; reflexivity| | | | | |].
      - constructor; cbn [kd st pc te ap wrote early tick now withOp put withEnt].
        + discriminate.
        + intros _. unfold where_. cbn. left. exact Ec.
        + intros _. apply noboth. discriminate.
        + intros _. unfold apset. change (mirror (tick _)) with (mirror s). change (phase3 (tick _)) with (phase3 s).
          cbn [ap wrote num tick withOp put withEnt]. rewrite AN, <- Ec.
          destruct (mirror s); [intros _; left; reflexivity|].
          destruct (phase3 s); intros; match goal with X : In _ [c] |- _ => destruct X as [<-|[]]; reflexivity end.
        + apply noreader. discriminate.
        + pose proof (pT s o To). lia.
        + intros _. apply (pN s o To). congruence.
        + intros Q. contradiction.
      - cbn. auto.
      - intros k v. cbn [tick withOp put withEnt ent]. unfold upd. destruct (k =? c) eqn:Ek; [|auto].
        destruct (kd o); intros Q; try discriminate. injection Q as <-. right. cbn. repeat split; congruence.
      - apply emp_put with (s := s); auto; [apply (jE s J)|]. exists n0, o. auto.
      - intros Q. destruct (cons_neq _ _ Q).
      - cbn [wrote ap]. rewrite AN. intros k [<-|[]]. right. intros v. cbn [tick withOp put withEnt ent]. unfold upd. rewrite Nat.eqb_refl.
        destruct (kd o); congruence.
      - cbn. congruence.
      - intros. eapply (jG s J); eauto. }
    destruct (kd o) eqn:K; apply ok_inj in E; subst s1; try (apply WR; congruence).
    (* a get *)
    eapply jnv_op with (o := o) (o' := at_ o (PDrop true)); [exact J|exact N|reflexivity|reflexivity|exact Ph| | |left; reflexivity| | | | | | |].
    + eapply tp_plain with (s := s) (o := o); [exact Ph|exact To|reflexivity|reflexivity|left; reflexivity|reflexivity|congruence|reflexivity| | | | |]; try fin.
      * cbn [kd at_]. congruence.
      * cbn [kd at_]. congruence.
    + cbn. auto.
    + right. rewrite P. reflexivity.
    + cbn. auto.
    + exact (jE s J).
    + intros Q. destruct (cons_neq _ _ Q).
    + cbn. auto.
    + congruence.
    + cbn [gets tick withOp withDone]. intros g v ws we se [Q|Q] Hw Hl Hs; [|eapply (jG s J); eauto].
      injection Q as Eg Ev. subst g.
      assert (CC : clean s c ws).
      { destruct (phase3 s) as [a|] eqn:P3.
        - destruct (pR s o To c _ a K P P3) as [->|[-> Hst]].
          + apply (jC s J (home (num s)) ltac:(left; reflexivity)) with (we := we); auto.
          + apply (j2 s J a P3 ws we Hw). lia.
        - assert (c = home (num s)) as ->.
          { rewrite Hc. unfold nums in Hn0. unfold phase3 in P3. destruct (cur s) as [[[a m] ph]|]; [destruct ph; try discriminate|]; destruct Hn0 as [<-|[]]; reflexivity. }
          apply (jC s J (home (num s)) ltac:(left; reflexivity)) with (we := we); auto. }
      eapply CC; eauto.
  - assert (KG : kd o <> Get) by (intros K; pose proof (pK s o To K) as X; rewrite P in X; exact X).
    destruct (Nat.eqb_spec (pend s) 0) as [Z|Z]; apply ok_inj in E; subst s1.
    + plain J N Ph o (at_ o (PDrop true)) ltac:(left; reflexivity).
      * intros K. eapply where_ph; [exact Ph|exact Logic.I|]. apply WH; auto.
      * intros K m Hm _. exfalso. change (mirror s = Some m) in Hm. unfold mirror in Hm. unfold base in B. destruct (cur s) as [[[a k] ph]|]; [|discriminate].
        destruct B as [_ [_ [_ [B2 [_ [_ [_ [_ B]]]]]]]]. destruct ph; try discriminate; lia.
    + plain J N Ph o (at_ o (PNum2 (pend s))) ltac:(left; reflexivity).
      intros K. eapply where_ph; [exact Ph|exact Logic.I|]. apply WH; auto.
  - assert (KG : kd o <> Get) by (intros K; pose proof (pK s o To K) as X; rewrite P in X; exact X).
    assert (F : jnv (tick (withOp s i (at_ o (PDrop false))))).
    { assert (Ph' : samePh s (tick (withOp s i (at_ o (PDrop false))))) by (repeat split; reflexivity).
      plain J N Ph' o (at_ o (PDrop false)) ltac:(left; reflexivity). }
    destruct (ptrTo s (home (num s))) as [p|] eqn:Q1; [destruct (ptrTo s (home n)) as [q|] eqn:Q2|]; try (apply ok_inj in E; subst s1; exact F).
    apply ptr_some in Q1, Q2. subst p q. cbn [fst] in E.
    destruct (Nat.eqb_spec (home (num s)) (home n)) as [Z|Z]; apply ok_inj in E; subst s1.
    + plain J N Ph o (at_ o (PDrop true)) ltac:(left; reflexivity).
      * intros K. eapply where_ph; [exact Ph|exact Logic.I|]. apply WH; auto.
      * intros K m Hm _. change (mirror s = Some m) in Hm. left. cbn [num tick withOp]. rewrite Z. f_equal.
        unfold mirror in Hm. unfold pends in V. destruct (cur s) as [[[a k] ph]|]; [|discriminate].
        destruct ph; try discriminate; injection Hm as <-; destruct V as [V|[]]; auto.
    + plain J N Ph o (at_ o (PDbl (home n, rel s (home n)))) ltac:(left; reflexivity).
      intros K. eapply where_ph; [exact Ph|exact Logic.I|]. apply WH; auto.
  - destruct p as [c g]. cbn [fst snd] in *. destruct V as [-> [n0 [Hn0 Hc]]].
    assert (KG : kd o <> Get) by (intros K; pose proof (pK s o To K) as X; rewrite P in X; exact X).
    pose proof (pW s o To KG) as W. unfold where_ in W. rewrite P in W.
    destruct (negb _); [discriminate|]. apply ok_inj in E. subst s1.
    eapply jnv_op with (o := o) (o' := wrote o (PDrop true) c); [exact J|exact N|reflexivity|reflexivity|exact Ph| | |left; reflexivity|left; reflexivity| | | | | |].
    + constructor; cbn [kd st pc te ap wrote early tick now withOp put withEnt].
      * discriminate.
      * intros _. unfold where_. cbn [pc wrote ap num tick withOp put withEnt].
        destruct (phase3 s) as [a|] eqn:P3; [|right; auto]. left. rewrite Hc. f_equal.
        unfold phase3 in P3. unfold dbls in Hn0. unfold base in B. destruct (cur s) as [[[a' k] ph]|]; [|discriminate].
        destruct B as [_ [_ [_ [_ [_ [_ [_ [_ B]]]]]]]].
        destruct ph; try discriminate; try destruct (te o =? xors s); simpl in Hn0; intuition congruence.
      * intros K m Hm _. change (mirror s = Some m) in Hm. right. left. cbn [ap wrote]. left. rewrite Hc. f_equal.
        unfold mirror in Hm. unfold dbls in Hn0. destruct (cur s) as [[[a' k] ph]|]; [|discriminate].
        destruct ph; try discriminate; injection Hm as <-; destruct Hn0 as [V|[]]; auto.
      * intros _. unfold apset. change (mirror (tick _)) with (mirror s). change (phase3 (tick _)) with (phase3 s). change (inW2 (tick _)) with (inW2 s).
        cbn [num xors ap te wrote tick withOp put withEnt].
        unfold mirror, phase3, inW2 in *. unfold dbls in Hn0. destruct (cur s) as [[[a' k] ph]|]; [|destruct Hn0].
        destruct ph; try (destruct Hn0; fail); try (intros _; right; apply W; reflexivity); try (intros; discriminate).
        intros _ Q. rewrite Q, Nat.eqb_refl in Hn0. destruct Hn0.
      * apply noreader. discriminate.
      * pose proof (pT s o To). lia.
      * intros _. apply (pN s o To). congruence.
      * auto.
    + cbn. auto.
    + intros k v. cbn [tick withOp put withEnt ent]. unfold upd. destruct (k =? c) eqn:Ek; [|auto].
      destruct (kd o); intros Q; try discriminate. injection Q as <-. right. cbn. repeat split; congruence.
    + apply emp_put with (s := s); auto; [apply (jE s J)|]. exists n0, o. auto.
    + intros Q. destruct (cons_neq _ _ Q).
    + cbn [wrote ap]. intros k [<-|Hk]; [|auto]. right. intros v. cbn [tick withOp put withEnt ent]. unfold upd. rewrite Nat.eqb_refl.
      destruct (kd o); congruence.
    + cbn. congruence.
    + intros. eapply (jG s J); eauto.
  - apply ok_inj in E. subst s1.
    assert (TP : tp (tick (withOp (withDone (withCnt s (sd o) (cnt s (sd o) - 1))
              (if ok && match kd o with Get => false | _ => true end then (st o, now s) :: done s else done s) (gets s)) i (at_ o PDone))) (at_ o PDone)).
    { constructor; try (cbn; congruence); try (intros _; exact Logic.I).
      - intros _. apply noboth. discriminate.
      - apply noreader. discriminate.
      - cbn. pose proof (pT s o To). lia. }
    assert (DD : ok && match kd o with Get => false | _ => true end = true -> forall c, used s c -> clean s c (st o)).
    { intros Q c Hc. apply andb_true_iff in Q. destruct Q as [-> Q].
      assert (KG : kd o <> Get) by (destruct (kd o); congruence).
      pose proof (pW s o To KG) as W. unfold where_ in W. rewrite P in W.
      assert (R : clean s (home (num s)) (st o)).
      { apply (jC s J (home (num s)) ltac:(left; reflexivity)); auto. congruence. }
      destruct Hc as [->|[m [Hm ->]]]; [exact R|].
      destruct (Nat.eq_dec (home (num s)) (home m)) as [Em|Em]; [rewrite <- Em; exact R|].
      destruct (pB s o To KG m Hm P) as [X|[X|[X1 [X2 _]]]]; [contradiction| |].
      - apply (jC s J (home m) ltac:(right; exists m; auto)); auto. congruence.
      - apply (j1 s J m Hm X1 Em). lia. }
    eapply jnv_op with (o := o) (o' := at_ o PDone); [exact J|exact N|reflexivity|reflexivity|exact Ph|exact TP| | |left; reflexivity| | | | | |].
    + cbn [tick withOp withDone done]. destruct (ok && _); [|auto]. intros x se [Q|Q]; [injection Q as <- <-; auto|auto].
    + cbn [tick withOp withDone done]. destruct (ok && _); auto.
    + cbn. auto.
    + exact (jE s J).
    + cbn [tick withOp withDone done]. destruct (ok && _) eqn:Q; [intros _; apply DD; reflexivity|]. intros X. destruct (cons_neq _ _ X).
    + cbn. auto.
    + cbn. congruence.
    + cbn [tick withOp withDone gets]. intros. eapply (jG s J); eauto.
  - discriminate.
Qed.
End P.
