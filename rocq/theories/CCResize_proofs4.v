(** No stale value: the steps of a resize. *)
From Coq Require Import List Arith Bool Lia.
Import ListNotations.
From Verif Require Import CCResize_model CCResize_spec CCResize_proofs1 CCResize_proofs2 CCResize_proofs3.

Section P.
Variable home : nat -> nat.
Hypothesis HR : inRange home.
Notation jnv := (jnv home).

Lemma clean_sub : forall s s' c ws, (forall v, ent s' c = Some v -> ent s c = Some v) -> done s' = done s -> clean s c ws -> clean s' c ws.
Proof. intros s s' c ws E1 E2 H i se Q1 Q2. rewrite E2 in Q2. eapply H; eauto. Qed.

(** the calls stay where they are *)
Lemma jnv_res : forall s s', jnv s -> ops s' = ops s -> done s' = done s -> gets s' = gets s -> now s' = S (now s) ->
  t1 s' <= S (now s) -> t2 s' <= S (now s) ->
  (forall o, In o (ops s) -> kd o <> Get -> where_ home s' o) ->
  (forall o, In o (ops s) -> kd o <> Get -> both home s' o) ->
  (forall o, In o (ops s) -> pc o <> PDone -> apset home s' o) ->
  (forall o, In o (ops s) -> reader home s' o) ->
  empties home s' ->
  (forall c, used home s' c -> (forall ws we, In (ws, we) (done s) -> clean s' c ws) /\
                 (forall o, In o (ops s) -> pc o <> PDone -> In c (ap o) -> clean s' c (st o))) ->
  (forall m, mirror s' = Some m -> phase1 s' = true -> home (num s') <> home m -> forall ws, ws <= t1 s' -> clean s' (home m) ws) ->
  (forall a, phase3 s' = Some a -> forall ws we, In (ws, we) (done s) -> we < t2 s' -> clean s' (home a) ws) ->
  jnv s'.
Proof.
  intros s s' J Eo Ed Eg En T1 T2 HW HB HA HRr HE HC H1 H2. constructor; rewrite ?Eo, ?Ed, ?Eg, ?En.
  - intros o Ho. destruct (jP _ s J o Ho) as [A B C D E F G K]. constructor; auto.
    + rewrite En. lia.
    + rewrite Ed. exact G.
  - apply (jU _ s J).
  - intros ws we H. apply (jD _ s J) in H. lia.
  - intros g v H. apply (jS _ s J) in H. lia.
  - lia.
  - exact HE.
  - exact HC.
  - exact H1.
  - exact H2.
  - apply (jG _ s J).
Qed.

(** nothing that matters changes *)
Lemma j_keep : forall s s', jnv s -> ops s' = ops s -> done s' = done s -> gets s' = gets s -> now s' = S (now s) ->
  t1 s' = t1 s -> t2 s' = t2 s -> num s' = num s ->
  mirror s' = mirror s -> phase1 s' = phase1 s -> inW1 s' = inW1 s -> phase3 s' = phase3 s -> inW2 s' = inW2 s ->
  (inW1 s || inW2 s = true -> xors s' = xors s) ->
  (forall c v, ent s' c = Some v -> ent s c = Some v) -> empties home s' -> jnv s'.
Proof.
  intros s s' J Eo Ed Eg En T1 T2 E0 E1 E2 E3 E4 E5 EX EE HE.
  pose proof (j12 _ s J) as [L1 L2].
  eapply jnv_res; eauto; try lia.
  - intros o Ho K. pose proof (pW _ s o (jP _ s J o Ho) K) as X. unfold where_ in *. rewrite E4, E0. exact X.
  - intros o Ho K. pose proof (pB _ s o (jP _ s J o Ho) K) as X. unfold both in *. rewrite E1, E2, E3, E0, T1.
    intros m Hm Hp. destruct (X m Hm Hp) as [Y|[Y|[Y1 [Y2 Y3]]]]; auto. right. right. repeat split; auto. intros Q. rewrite EX; auto. rewrite Q. reflexivity.
  - intros o Ho K. pose proof (pA _ s o (jP _ s J o Ho) K) as X. unfold apset in *. rewrite E1, E4, E5, E0.
    destruct (mirror s); auto. destruct (phase3 s); auto. intros Q. rewrite EX; auto. rewrite Q. apply orb_true_r.
  - intros o Ho. pose proof (pR _ s o (jP _ s J o Ho)) as X. unfold reader in *. rewrite E4, E0, T2. exact X.
  - intros c Hc. assert (used home s c) as U by (unfold used in *; rewrite E0, E1 in Hc; exact Hc).
    destruct (jC _ s J c U) as [C1 C2]. split; intros.
    + eapply clean_sub with (s := s); eauto.
    + eapply clean_sub with (s := s); eauto.
  - intros m Hm Hp Hn ws Hw. rewrite E1 in Hm. rewrite E2 in Hp. rewrite E0 in Hn. rewrite T1 in Hw.
    eapply clean_sub with (s := s); eauto. apply (j1 _ s J); auto.
  - intros a Ha ws we H Hw. rewrite E4 in Ha. rewrite T2 in Hw. eapply clean_sub with (s := s); eauto. eapply (j2 _ s J); eauto.
Qed.

Lemma emp_sub : forall s s', cur s' = cur s -> num s' = num s -> (forall c v, ent s' c = Some v -> ent s c = Some v) -> empties home s -> empties home s'.
Proof.
  intros s s' E1 E2 EE H. unfold empties in *. rewrite E1, E2.
  assert (X : forall c, ent s c = None -> ent s' c = None).
  { intros c Q. destruct (ent s' c) as [v|] eqn:Q2; [|auto]. apply EE in Q2. congruence. }
  destruct (cur s) as [[[a m] ph]|]; [destruct ph|]; intros; apply X; apply H; auto.
Qed.

Lemma j_same : forall s s', jnv s -> samePh s s' -> ops s' = ops s -> done s' = done s -> gets s' = gets s ->
  (forall c v, ent s' c = Some v -> ent s c = Some v) -> jnv s'.
Proof.
  intros s s' J [E1 [E2 [E3 [E4 [E5 E6]]]]] Eo Ed Eg EE.
  eapply j_keep; eauto; try (unfold mirror, phase1, inW1, phase3, inW2; rewrite E1; reflexivity).
  eapply emp_sub; eauto. apply (jE _ s J).
Qed.

Lemma upd_none : forall (f : nat -> option nat) k c v, upd f k None c = Some v -> f c = Some v.
Proof. intros f k c v. unfold upd. destruct (c =? k); congruence. Qed.

Lemma idle_ap : forall s o, tp home s o -> holds o = false -> pc o <> PDone -> ap o = [].
Proof.
  intros s o T H N. apply (pE _ s o T). unfold holds, early in *. destruct (pc o); try discriminate; try reflexivity. congruence.
Qed.

Ltac spl E := repeat match type of E with
       | context [if ?c then _ else _] => destruct c eqn:?
       | context [match ent ?s ?c with _ => _ end] => destruct (ent s c) eqn:?
       end.
Ltac bools := repeat match goal with
    | X : (_ <? _) = false |- _ => apply Nat.ltb_ge in X
    | X : (_ <? _) = true |- _ => apply Nat.ltb_lt in X
    | X : (_ =? _) = true |- _ => apply Nat.eqb_eq in X
    | X : (_ =? _) = false |- _ => apply Nat.eqb_neq in X
    end.
Ltac proj := unfold mirror, phase1, inW1, phase3, inW2 in *; cbn [cur withCur doXor setNum setPend tick alloc withEnt num xors t1 t2 ent done ops gets now] in *.

Lemma j_res : forall s a m ph b x s1, inv home s -> jnv s -> cur s = Some (a, m, ph) -> noStraddle s (ERes b x) ->
  resStep home s a m ph b x = Some (Ok s1) -> jnv (tick s1).
Proof.
  intros s a m ph b x s1 I J Cu NS E.
  pose proof (iB home s I) as B. unfold base in B. rewrite Cu in B.
  destruct B as [B0 [BC [B1 [B2 [B3 [B4 [B5 [B6 B7]]]]]]]].
  pose proof (HR m B2) as HM. pose proof (HR a B1) as HA.
  pose proof (iT home s I) as T.
  assert (TE : forall o old, In o (ops s) -> holds o = true -> waiting ph = Some old -> cnt s old = 0 -> te o = xors s).
  { intros o old Ho Hh W Z. destruct (tok_drained s _ _ _ _ T Cu W Z o Ho Hh); auto. }
  assert (NW : forall o, In o (ops s) -> holds o = true -> waiting ph = None -> te o = xors s).
  { intros o Ho Hh W. destruct (tkT s T o Ho Hh) as [[Q _]|[a1 [b1 [ph1 [Q1 [Q2 _]]]]]]; [auto|]. rewrite Cu in Q1. injection Q1 as <- <- <-. congruence. }
  pose proof (jE _ s J) as EM. unfold empties in EM. rewrite Cu in EM.
  pose proof (j12 _ s J) as [L1 L2].
  destruct ph as [| |old|n| | |old| | |old|n| | | |old]; cbn [resStep] in E; try tauto.
  - (* APend *)
    apply ok_inj in E. subst s1. destruct B7 as [N0 P0].
    eapply jnv_res with (s := s); auto; proj; try lia; try (intros; discriminate); try (intros ? ? ? ? ? ? ? Q0; discriminate Q0); try (intros ? ? ? ? Q0; discriminate Q0).
    + intros o Ho K. pose proof (pW _ s o (jP _ s J o Ho) K) as X. unfold where_ in *. proj. rewrite Cu in X. exact X.
    + intros o Ho K m' Hm Hp. proj. right. right. repeat split; [|congruence]. apply (pT _ s o (jP _ s J o Ho)).
    + intros o Ho K. pose proof (pA _ s o (jP _ s J o Ho) K) as X. unfold apset in *. proj. rewrite Cu in X. intros Q. rewrite <- (X _ Q). exact Q.
    + unfold empties. proj. rewrite N0 in EM. auto.
    + intros c Hc. unfold used in Hc. proj.
      assert (X : (forall ws we, In (ws, we) (done s) -> clean s c ws) /\ (forall o, In o (ops s) -> pc o <> PDone -> In c (ap o) -> clean s c (st o))).
      { destruct Hc as [->|[m' [Hm ->]]]; [apply (jC _ s J); left; reflexivity|]. injection Hm as <-.
        destruct (Nat.eq_dec (home m) (home (num s))) as [Q|Q]; [rewrite Q; apply (jC _ s J); left; reflexivity|].
        apply EM in Q. split; intros; intros v se Hv; congruence. }
      exact X.
    + intros m' Hm _ Hn ws Hw. injection Hm as <-. intros v se Hv. exfalso. proj. rewrite EM in Hv; [discriminate|]. auto.
  - (* ASw1x *)
    apply ok_inj in E. subst s1.
    eapply jnv_res with (s := s); auto; proj; try lia; try (intros; discriminate); try (intros ? ? ? ? ? ? ? Q0; discriminate Q0); try (intros ? ? ? ? Q0; discriminate Q0).
    + intros o Ho K. pose proof (pW _ s o (jP _ s J o Ho) K) as X. unfold where_ in *. proj. rewrite Cu in X. exact X.
    + intros o Ho K m' Hm Hp. proj. destruct (pB _ s o (jP _ s J o Ho) K m' ltac:(proj; rewrite Cu; exact Hm) Hp) as [Y|[Y|[Y1 [Y2 Y3]]]]; auto.
      right. right. repeat split; auto. intros _. assert (te o = xors s) as -> by (apply NW; auto; unfold holds; rewrite Hp; reflexivity). lia.
    + intros o Ho K. pose proof (pA _ s o (jP _ s J o Ho) K) as X. unfold apset in *. proj. rewrite Cu in X. exact X.
    + intros c Hc. apply (jC _ s J). unfold used in *. proj. rewrite Cu. exact Hc.
    + intros m' Hm _ Hn ws Hw. apply (j1 _ s J m'); auto; proj; rewrite Cu; auto.
  - (* ASw1w *)
    destruct (cnt s old =? 0) eqn:Z; apply ok_inj in E; subst s1.
    2:{ eapply j_same; [exact J|repeat split; reflexivity|reflexivity..|auto]. }
    apply Nat.eqb_eq in Z.
    eapply jnv_res with (s := s); auto; proj; try lia; try (intros; discriminate); try (intros ? ? ? ? ? ? ? Q0; discriminate Q0); try (intros ? ? ? ? Q0; discriminate Q0).
    + intros o Ho K. pose proof (pW _ s o (jP _ s J o Ho) K) as X. unfold where_ in *. proj. rewrite Cu in X. exact X.
    + intros o Ho K m' Hm Hp. proj. destruct (pB _ s o (jP _ s J o Ho) K m' ltac:(proj; rewrite Cu; exact Hm) Hp) as [Y|[Y|[Y1 [Y2 Y3]]]]; auto.
      exfalso. proj. rewrite Cu in Y3. apply Y3; auto. eapply TE; eauto; [|reflexivity]. unfold holds. rewrite Hp. reflexivity.
    + intros o Ho K. pose proof (pA _ s o (jP _ s J o Ho) K) as X. unfold apset in *. proj. rewrite Cu in X. exact X.
    + intros c Hc. apply (jC _ s J). unfold used in *. proj. rewrite Cu. exact Hc.
  - (* ACopy *)
    destruct (Nat.ltb_spec n a) as [La|La].
    2:{ apply ok_inj in E. subst s1. eapply j_keep; [exact J|try reflexivity..]; try (proj; rewrite Cu; auto; fail); try (proj; auto; fail). }
    assert (n < na s) as Ln by lia. apply Nat.ltb_lt in Ln. rewrite Ln in E.
    destruct (ent s n) as [v|] eqn:En.
    2:{ apply ok_inj in E. subst s1. eapply j_keep; [exact J|try reflexivity..]; try (proj; rewrite Cu; auto; fail); try (proj; auto; fail). }
    assert (home m < na s) as Lm by lia. apply Nat.ltb_lt in Lm. rewrite Lm in E.
    destruct (Nat.eqb_spec (home m) n) as [Em|Em].
    1:{ apply ok_inj in E. subst s1. eapply j_keep; [exact J|try reflexivity..]; try (proj; rewrite Cu; auto; fail); try (proj; auto; fail). }
    destruct b.
    2:{ apply ok_inj in E. subst s1. eapply j_keep; [exact J|try reflexivity..]; try (proj; rewrite Cu; auto; fail); try (proj; auto; fail). }
    apply ok_inj in E. subst s1. destruct B7 as [N0 P0].
    assert (Hn : n = home (num s)).
    { rewrite N0. destruct (Nat.eq_dec n (home a)) as [Q|Q]; [auto|]. rewrite EM in En; auto. discriminate. }
    eapply jnv_res with (s := s); auto; proj; try lia; try (intros; discriminate); try (intros ? ? ? ? ? ? ? Q0; discriminate Q0); try (intros ? ? ? ? Q0; discriminate Q0).
    + intros o Ho K. pose proof (pW _ s o (jP _ s J o Ho) K) as X. unfold where_ in *. proj. rewrite Cu in X. exact X.
    + intros o Ho K m' Hm Hp. proj. destruct (pB _ s o (jP _ s J o Ho) K m' ltac:(proj; rewrite Cu; exact Hm) Hp) as [Y|[Y|[Y1 [Y2 Y3]]]]; auto.
      exfalso. proj. rewrite Cu in Y1. discriminate.
    + intros o Ho K. pose proof (pA _ s o (jP _ s J o Ho) K) as X. unfold apset in *. proj. rewrite Cu in X. exact X.
    + unfold empties. proj. intros c H1 H2. unfold upd. apply Nat.eqb_neq in H1. rewrite H1. apply EM; auto. apply Nat.eqb_neq; auto.
    + intros c Hc. unfold used in Hc. proj.
      destruct (jC _ s J (home (num s)) ltac:(left; reflexivity)) as [C1 C2]. rewrite <- Hn in C1, C2.
      destruct Hc as [->|[m' [Hm ->]]].
      * rewrite <- Hn. split; intros; apply clean_sub with (s := s); eauto; proj; intros v0; unfold upd;
        assert (n =? home m = false) as -> by (apply Nat.eqb_neq; auto); auto.
      * injection Hm as <-. split.
        -- intros ws we H v0 se Hv Hs. proj. unfold upd in Hv. rewrite Nat.eqb_refl in Hv. injection Hv as <-. eapply C1; eauto.
        -- intros o Ho Hp Ha v0 se Hv Hs. proj. unfold upd in Hv. rewrite Nat.eqb_refl in Hv. injection Hv as <-.
           pose proof (pA _ s o (jP _ s J o Ho) Hp) as X. unfold apset in X. proj. rewrite Cu in X. specialize (X Ha). rewrite <- Hn in X.
           eapply (C2 o Ho Hp X); eauto.
  - (* ANum *)
    apply ok_inj in E. subst s1. destruct B7 as [N0 P0].
    unfold noStraddle in NS. rewrite Cu in NS.
    eapply jnv_res with (s := s); auto; proj; try lia; try (intros; discriminate); try (intros ? ? ? ? ? ? ? Q0; discriminate Q0); try (intros ? ? ? ? Q0; discriminate Q0).
    + intros o Ho K. pose proof (pW _ s o (jP _ s J o Ho) K) as X. specialize (NS o Ho). unfold between in NS. unfold where_ in *. proj. rewrite Cu in X.
      destruct (pc o) as [|t|t| |[c g]| |k|p|[]|] eqn:P; auto; try (exfalso; apply NS; auto; fail).
      * intros Q. discriminate.
      * destruct (pB _ s o (jP _ s J o Ho) K m ltac:(proj; rewrite Cu; reflexivity) P) as [Y|[Y|[Y1 _]]]; auto.
        -- rewrite <- Y. exact X.
        -- proj. rewrite Cu in Y1. discriminate.
    + intros o Ho c g a' K P Q. proj. injection Q as <-. right. split; [|apply (pT _ s o (jP _ s J o Ho))].
      pose proof (iV home s I o Ho) as V. unfold view, nums in V. rewrite P, Cu in V. destruct V as [_ [n0 [[<-|[]] ->]]]. congruence.
    + intros c Hc. unfold used in Hc. proj. apply (jC _ s J). right. exists m. proj. rewrite Cu. split; [reflexivity|].
      destruct Hc as [->|[m' [Hm _]]]; [reflexivity|discriminate].
    + intros a' Q ws we Hw _. proj. injection Q as <-. rewrite <- N0. eapply (jC _ s J); eauto. left. reflexivity.
  - (* ASw2x *)
    apply ok_inj in E. subst s1.
    eapply jnv_res with (s := s); auto; proj; try lia; try (intros; discriminate); try (intros ? ? ? ? ? ? ? Q0; discriminate Q0); try (intros ? ? ? ? Q0; discriminate Q0).
    + intros o Ho K. pose proof (pW _ s o (jP _ s J o Ho) K) as X. unfold where_ in *. proj. rewrite Cu in X. exact X.
    + intros o Ho K. unfold apset. proj. intros _ Q c Hc. exfalso. destruct (holds o) eqn:Hh.
      * rewrite (NW o Ho Hh eq_refl) in Q. lia.
      * rewrite (idle_ap s o (jP _ s J o Ho) Hh K) in Hc. exact Hc.
    + intros o Ho. pose proof (pR _ s o (jP _ s J o Ho)) as X. unfold reader in *. proj. rewrite Cu in X. exact X.
    + intros c Hc. apply (jC _ s J). unfold used in *. proj. rewrite Cu. exact Hc.
    + intros a' Q ws we H Hw. proj. eapply (j2 _ s J); eauto. proj. rewrite Cu. exact Q.
  - (* ASw2w *)
    destruct (cnt s old =? 0) eqn:Z; apply ok_inj in E; subst s1.
    2:{ eapply j_same; [exact J|repeat split; reflexivity|reflexivity..|auto]. }
    apply Nat.eqb_eq in Z.
    eapply jnv_res with (s := s); auto; proj; try lia; try (intros; discriminate); try (intros ? ? ? ? ? ? ? Q0; discriminate Q0); try (intros ? ? ? ? Q0; discriminate Q0).
    + intros o Ho K. pose proof (pW _ s o (jP _ s J o Ho) K) as X. unfold where_ in *. proj. rewrite Cu in X.
      destruct (pc o) as [|t|t| |[c g]| |k|[c g]|[]|] eqn:P; auto.
      exfalso. pose proof (iV home s I o Ho) as V. unfold view, dbls in V. rewrite P, Cu in V. destruct V as [_ [n0 [Hn _]]].
      rewrite (TE o old Ho) in Hn; auto; [rewrite Nat.eqb_refl in Hn; exact Hn|]. unfold holds. rewrite P. reflexivity.
    + intros o Ho K. pose proof (pA _ s o (jP _ s J o Ho) K) as X. unfold apset in *. proj. rewrite Cu in X.
      intros c Hc. destruct (holds o) eqn:Hh.
      * apply X; auto. eapply TE; eauto; reflexivity.
      * rewrite (idle_ap s o (jP _ s J o Ho) Hh K) in Hc. destruct Hc.
    + intros c Hc. apply (jC _ s J). unfold used in *. proj. rewrite Cu. exact Hc.
  - (* AUnp *)
    apply ok_inj in E. subst s1. eapply j_keep; [exact J|try reflexivity..]; try (proj; rewrite Cu; auto; fail); try (proj; auto; fail).
  - (* ASw3x *)
    apply ok_inj in E. subst s1. eapply j_keep; [exact J|try reflexivity..]; try (proj; rewrite Cu; auto; try discriminate; fail); try (proj; auto; fail).
  - (* ASw3w *)
    destruct (cnt s old =? 0) eqn:Z; apply ok_inj in E; subst s1.
    2:{ eapply j_same; [exact J|repeat split; reflexivity|reflexivity..|auto]. }
    eapply j_keep; [exact J|try reflexivity..]; try (proj; rewrite Cu; auto; try discriminate; fail); try (proj; auto; fail).
    unfold empties. proj. intros c H1 H2. apply EM; auto. destruct H2; [auto|lia].
  - (* ADel *)
    destruct (Nat.ltb_spec n a) as [La|La].
    2:{ apply ok_inj in E. subst s1. eapply j_keep; [exact J|try reflexivity..]; try (proj; rewrite Cu; auto; fail); try (proj; auto; fail).
        unfold empties. proj. destruct B7 as [-> _]. intros c Hc. apply EM; auto. destruct (Nat.eq_dec c (home a)); [right; lia|auto]. }
    assert (n < na s) as Ln by lia. apply Nat.ltb_lt in Ln. rewrite Ln in E.
    destruct (ent s n) as [v|] eqn:En.
    2:{ apply ok_inj in E. subst s1. eapply j_keep; [exact J|try reflexivity..]; try (proj; rewrite Cu; auto; fail); try (proj; auto; fail).
        unfold empties. proj. intros c H1 H2. destruct (Nat.eq_dec c n) as [->|Q]; [auto|]. apply EM; auto. destruct H2; [auto|right; lia]. }
    assert (home m < na s) as Lm by lia. apply Nat.ltb_lt in Lm. rewrite Lm in E.
    destruct (Nat.eqb_spec (home m) n) as [Em|Em]; apply ok_inj in E; subst s1.
    + eapply j_keep; [exact J|try reflexivity..]; try (proj; rewrite Cu; auto; fail); try (proj; auto; fail).
      unfold empties. proj. intros c H1 H2. apply EM; auto. destruct H2; [auto|right; lia].
    + eapply j_keep; [exact J|try reflexivity..]; try (proj; rewrite Cu; auto; fail); try (proj; auto; fail).
      * proj. intros c v0. apply upd_none.
      * unfold empties. proj. intros c H1 H2. unfold upd. destruct (Nat.eqb_spec c n); [auto|]. apply EM; auto. destruct H2; [auto|right; lia].
  - (* AFree *)
    apply ok_inj in E. subst s1. destruct (m <? a).
    + eapply j_keep; [exact J|try reflexivity..]; try (proj; rewrite Cu; auto; fail); try (proj; auto; fail).
      * proj. intros c v. destruct (_ && _); [discriminate|auto].
      * unfold empties. proj. intros c Hc. destruct (_ && _); auto.
    + eapply j_keep; [exact J|try reflexivity..]; try (proj; rewrite Cu; auto; fail); try (proj; auto; fail).
Qed.

Lemma jnv_step : forall s e s', inv home s -> jnv s -> calm s e -> noStraddle s e -> step home s e = Some (Ok s') -> jnv s'.
Proof.
  intros s e s' I J C NS E.
  unfold step in E. destruct (step0 home s e) as [[|s1]|] eqn:E0; try discriminate. apply ok_inj in E. subst s'.
  destruct e as [k|i b|c|n| |j x|b x]; cbn [step0] in E0.
  - destruct (num s =? 0); [discriminate|]. apply ok_inj in E0. subst s1.
    set (o0 := mkOp k (now s) PLoad false 0 []).
    pose proof (j12 _ s J) as [L1 L2].
    assert (T0 : forall s', samePh s s' -> done s' = done s -> tp home s' o0).
    { intros s' [_ [_ [_ [_ [_ En]]]]] Ed. constructor; auto; try (intros _; exact Logic.I).
      - intros _. apply noboth. discriminate.
      - intros _. unfold apset. destruct (mirror s'); [intros []|]. destruct (phase3 s'); [intros _ _ c []|intros c []].
      - apply noreader. discriminate.
      - cbn. rewrite En. lia.
      - intros _ se. rewrite Ed. intros H. apply (jD _ s J) in H. cbn in H. lia. }
    constructor; cbn [ops done gets now tick t1 t2].
    + intros o Ho. apply in_app_or in Ho. destruct Ho as [Ho|[<-|[]]].
      * apply tp_same with (s := s); [repeat split; reflexivity|auto|apply (jP _ s J); auto].
      * apply T0; [repeat split; reflexivity|reflexivity].
    + rewrite map_app. cbn. apply NoDup_Add with (a := now s) (l := map st (ops s)).
      * replace (map st (ops s)) with (map st (ops s) ++ []) at 1 by apply app_nil_r. apply Add_app.
      * split; [apply (jU _ s J)|]. intros Q. apply in_map_iff in Q. destruct Q as [o [Q Ho]]. pose proof (pT _ s o (jP _ s J o Ho)). lia.
    + intros ws we H. apply (jD _ s J) in H. lia.
    + intros g v H. apply (jS _ s J) in H. lia.
    + lia.
    + exact (jE _ s J).
    + intros c Hc. destruct (jC _ s J c Hc) as [C1 C2]. split; [exact C1|].
      intros o Ho Hp Ha. apply in_app_or in Ho. destruct Ho as [Ho|[<-|[]]]; [apply C2; auto|destruct Ha].
    + exact (j1 _ s J).
    + exact (j2 _ s J).
    + exact (jG _ s J).
  - destruct (nth_error (ops s) i) as [o|] eqn:N; [|discriminate]. eapply j_op; eauto.
  - apply ok_inj in E0. subst s1. eapply j_same; [exact J|repeat split; reflexivity|reflexivity..|]. intros k v. apply upd_none.
  - apply ok_inj in E0. subst s1. eapply j_same; [exact J|repeat split; reflexivity|reflexivity..|auto].
  - destruct (num s =? conf s); [discriminate|]. apply ok_inj in E0. subst s1. eapply j_same; [exact J|repeat split; reflexivity|reflexivity..|auto].
  - destruct (cur s) as [c0|] eqn:Cu; [discriminate|]. destruct (nth_error (calls s) j) as [[o w]|]; [|discriminate].
    apply ok_inj in E0. subst s1.
    pose proof (jE _ s J) as EM. unfold empties in EM. rewrite Cu in EM.
    set (s0 := mkS _ _ _ _ _ _ _ _ _ _ _ _ _ _ _ _ _).
    assert (X : forall s2, ops s2 = ops s -> done s2 = done s -> gets s2 = gets s -> now s2 = now s -> t1 s2 = t1 s -> t2 s2 = t2 s -> num s2 = num s -> xors s2 = xors s ->
      (forall c v, ent s2 c = Some v -> ent s c = Some v) -> (cur s2 = None \/ exists a m, cur s2 = Some (a, m, APend) \/ cur s2 = Some (a, m, ZNum)) -> jnv (tick s2)).
    { intros s2 Q1 Q2 Q3 Q4 Q5 Q6 Q7 Q8 Q9 Q10.
      assert (forall c, c <> home (num s2) -> ent s2 c = None) as EE.
      { intros c Hc. destruct (ent s2 c) as [v|] eqn:Y; [|auto]. apply Q9 in Y. rewrite EM in Y; [discriminate|congruence]. }
      eapply j_keep; [exact J|auto..]; cbn [now tick]; try congruence; unfold mirror, phase1, inW1, phase3, inW2, empties; cbn [tick cur num ent]; rewrite ?Cu;
      destruct Q10 as [->|[a [m [->| ->]]]]; auto. }
    unfold lockStep. destruct (o <? w); destruct (_ =? o); try destruct (_ || _); apply X; try reflexivity; try (cbn; eauto; fail); unfold s0; cbn [alloc ent withCur na]; auto;
    intros c v; destruct (_ && _); congruence.
  - destruct (cur s) as [[[o m] ph]|] eqn:Cu; [|discriminate]. eapply j_res; eauto.
Qed.

Theorem no_stale : forall n s, 0 < n -> reach home (fun s e => calm s e /\ noStraddle s e) (init n) s -> ~ stale s.
Proof.
  intros n s Hn R.
  assert (inv home s /\ jnv s) as [_ J].
  { induction R as [|s e s' R IH [P1 P2] E].
    - split; [apply inv_init; auto|apply jnv_init].
    - destruct IH as [I J]. split; [eapply inv_step; eauto|eapply jnv_step; eauto]. }
  intros [g [i [ws [we [se [H1 [H2 [H3 [H4 H5]]]]]]]]]. pose proof (jG _ s J g i ws we se H1 H2 H3 H4). lia.
Qed.
End P.
