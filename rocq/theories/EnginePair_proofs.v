From Coq Require Import List Arith Bool Lia.
Import ListNotations.
From Verif Require Import EnginePair_model EnginePair_spec.

Definition inA (c : option val) (A : list val) : Prop := match c with Some v => In v A | None => True end.

Definition idle (a b : option val) (A : list val) (two : bool) : Prop :=
  inA a A /\ inA b A /\ (two = false -> a = None \/ b = None).

Definition kinv (s : sys) (k : key) : Prop :=
  let a := small (eng_pair s) k in
  let b := large (eng_pair s) k in
  let A := fst (view k (hist s)) in
  let two := snd (view k (hist s)) in
  match job s k with
  | Some (mkJob (OInsert v big) true f) =>
      let c1 := if big then b else a in
      let c2 := if big then a else b in
      inA c2 A /\ match f with
                  | Ok => inA c1 [v]
                  | Rejected => inA c1 A
                  | BadState | ChecksumError => inA c1 (v :: A)
                  | _ => False
                  end
  | Some (mkJob ORemove true _) => a = None /\ inA b A
  | _ => idle a b A two
  end.

Lemma inA_cons c v A : inA c A -> inA c (v :: A).
Proof. destruct c; cbn; auto. Qed.

Lemma view_other k e h : ekey e <> k -> view k (e :: h) = view k h.
Proof. intro H. cbn [view]. destruct (view k h). apply Nat.eqb_neq in H. now rewrite H. Qed.

Definition seng (s : sys) k := small (eng_pair s) k.

(** A step on key [k0] leaves every other key alone. *)
Lemma kinv_frame s s' k :
  small (eng_pair s') k = small (eng_pair s) k -> large (eng_pair s') k = large (eng_pair s) k ->
  job s' k = job s k -> view k (hist s') = view k (hist s) -> kinv s k -> kinv s' k.
Proof. unfold kinv. intros -> -> -> ->. auto. Qed.

Lemma apply_eff_other e k v f x : x <> k -> apply_eff e k v f x = e x.
Proof. intro H. apply Nat.eqb_neq in H. destruct f; cbn; unfold put; rewrite ?H; auto. Qed.
Lemma apply_eff_same e k v f :
  apply_eff e k v f k = match f with Keep => e k | Lose => None | Take => Some v end.
Proof. destruct f; cbn; unfold put; rewrite ?Nat.eqb_refl; auto. Qed.

Lemma insert_other p k v big skip r1 r2 p' st sk x :
  insertInternal p k v big skip r1 r2 = (p', st, sk) -> x <> k ->
  small p' x = small p x /\ large p' x = large p x.
Proof.
  intros H Hx. unfold insertInternal in H.
  destruct skip, big; repeat match goal with
  | H : context [status_eqb ?a ?b] |- _ => destruct (status_eqb a b); cbn in H
  end; inversion H; subst; cbn; rewrite ?apply_eff_other by auto; auto.
Qed.
Lemma remove_other p k skip rs rl p' st sk x :
  removeInternal p k skip rs rl = (p', st, sk) -> x <> k ->
  small p' x = small p x /\ large p' x = large p x.
Proof.
  intros H Hx. unfold removeInternal in H.
  destruct skip; repeat match goal with
  | H : context [status_eqb ?a ?b] |- _ => destruct (status_eqb a b); cbn in H
  end; inversion H; subst; cbn; rewrite ?apply_eff_other by auto; auto.
Qed.

Lemma settle_other s p k0 o st v sk f k :
  k <> k0 -> small p k = small (eng_pair s) k -> large p k = large (eng_pair s) k ->
  kinv s k -> kinv (settle s p k0 o st v sk f) k.
Proof.
  intros Hk H1 H2. unfold settle.
  assert (E : (k =? k0) = false) by now apply Nat.eqb_neq.
  destruct (status_eqb st Retry); apply kinv_frame; cbn [eng_pair job hist]; auto;
    unfold setJob; rewrite ?E; auto. apply view_other. cbn. congruence.
Qed.

Lemma idle_lose_a a b A t : idle a b A t -> idle None b A t.
Proof. unfold idle; cbn; tauto. Qed.
Lemma idle_lose_b a b A t : idle a b A t -> idle a None A t.
Proof. unfold idle; cbn; tauto. Qed.

Ltac keq := rewrite ?Nat.eqb_refl in *.

Lemma step_kinv s s' : step s s' -> (forall k, kinv s k) -> forall k, kinv s' k.
Proof.
  intros Hs Hi k. destruct Hs.
  - destruct (Nat.eq_dec k k0) as [->|Hk].
    + specialize (Hi k0). unfold kinv in *. rewrite H in Hi. cbn. unfold setJob. keq.
      destruct o; auto.
    + apply (kinv_frame s); cbn; auto. unfold setJob. apply Nat.eqb_neq in Hk. now rewrite Hk.
  - destruct (Nat.eq_dec k k0) as [->|Hk].
    2:{ destruct (insert_other _ _ _ _ _ _ _ _ _ _ k H2 Hk). apply settle_other; auto. }
    specialize (Hi k0). unfold kinv in Hi. rewrite H in Hi.
    destruct r1 as [s1 f1], r2 as [s2 f2]. cbn [fst snd] in *.
    unfold settle, kinv.
    destruct (view k0 (hist s)) as [A two] eqn:EV. cbn [fst snd] in Hi.
    assert (G : status_eqb st Retry = true \/ status_eqb st Retry = false) by (destruct (status_eqb st Retry); auto).
    destruct skip.
    + unfold insertInternal in H2. cbn [fst snd] in H2.
      destruct s2; cbn in H2; try contradiction; inversion H2; subst; clear H2; cbn [status_eqb eng_pair job hist];
      unfold setJob; keq; cbn [view]; rewrite EV; cbn [ekey eop est efirst fst snd]; keq;
      cbn in H1; destruct Hi as [Hc2 Hc1];
      destruct big; cbn [small large]; rewrite ?apply_eff_same;
      destruct f; try contradiction; cbn [fst snd];
      try (subst f2; cbn; solve [auto]);
      try (destruct f2; try congruence); unfold idle; cbn [inA];
      repeat split; auto using inA_cons; try discriminate; try (left; reflexivity); try (right; reflexivity).
      all: destruct (small (eng_pair s) k0), (large (eng_pair s) k0); cbn in *; tauto.
    + destruct Hi as (Ha & Hb & Ht).
      unfold insertInternal in H2. cbn [fst snd] in H2.
      destruct s1; cbn in H0; try contradiction; cbn in H2.
      all: destruct s2; cbn in H1, H2; try contradiction.
      all: destruct big; cbn [small large status_eqb orb] in H2; inversion H2; subst; clear H2; cbn [status_eqb eng_pair job hist].
      all: unfold setJob; keq; cbn [view]; rewrite EV; cbn [ekey eop est efirst fst snd]; keq.
      all: cbn [small large]; rewrite ?apply_eff_same; cbn [fst snd].
      all: try (destruct f1; try congruence); try (destruct f2; try congruence).
      all: unfold idle; cbn [inA]; repeat split; auto using inA_cons; try discriminate;
        try (left; reflexivity); try (right; reflexivity); cbn; auto.
  - destruct (Nat.eq_dec k k0) as [->|Hk]; [|apply settle_other; auto].
    specialize (Hi k0). unfold kinv in Hi. rewrite H in Hi.
    unfold settle, kinv. destruct (status_eqb st Retry); cbn [eng_pair job hist]; unfold setJob; keq.
    + exact Hi.
    + cbn [view]. destruct (view k0 (hist s)). cbn [ekey eop est]. keq. exact Hi.
  - destruct (Nat.eq_dec k k0) as [->|Hk].
    2:{ destruct (remove_other _ _ _ _ _ _ _ _ k H3 Hk). apply settle_other; auto. }
    specialize (Hi k0). unfold kinv in Hi. rewrite H in Hi.
    destruct rs as [s1 f1], rl as [s2 f2]. unfold rem_found in H1. cbn [fst snd] in *.
    unfold settle, kinv.
    destruct (view k0 (hist s)) as [A two] eqn:EV. cbn [fst snd] in Hi.
    unfold removeInternal in H3. cbn [fst snd] in H3.
    destruct skip.
    + destruct Hi as [Ha Hb]. cbn in H3. inversion H3; subst; clear H3.
      destruct st; cbn in H2; try contradiction; cbn [status_eqb eng_pair job hist].
      all: unfold setJob; keq; cbn [view]; rewrite EV; cbn [ekey eop est efirst fst snd]; keq.
      all: cbn [small large]; rewrite ?apply_eff_same.
      all: try (destruct f2; try congruence); unfold idle; try destruct two; cbn [inA]; rewrite ?Ha; cbn; auto.
    + destruct Hi as (Ha & Hb & Ht).
      destruct s1; cbn in H0, H3; try contradiction.
      2: destruct s2; cbn in H2, H3; try contradiction.
      all: inversion H3; subst; clear H3; cbn [status_eqb eng_pair job hist].
      all: unfold setJob; keq; cbn [view]; rewrite EV; cbn [ekey eop est efirst fst snd]; keq.
      all: cbn [small large]; rewrite ?apply_eff_same.
      all: try (destruct f1; try congruence); try (destruct f2; try congruence); unfold idle;
        destruct two; cbn [inA]; cbn; auto.
      all: destruct (Ht eq_refl) as [E|E]; [exfalso; exact (H1 eq_refl E) | rewrite E; cbn; auto].
  - specialize (Hi k). unfold kinv in *. cbn [eng_pair job hist small large]. unfold put.
    destruct (k =? k0) eqn:E; auto.
    destruct (job s k) as [[[v big| | ] [|] f]|]; try (eapply idle_lose_a; eassumption).
    + destruct Hi as [H1 H2]. destruct big; cbn; split; cbn; auto.
      destruct f; cbn; auto.
    + destruct Hi; auto.
  - specialize (Hi k). unfold kinv in *. cbn [eng_pair job hist small large]. unfold put.
    destruct (k =? k0) eqn:E; auto.
    destruct (job s k) as [[[v big| | ] [|] f]|]; try (eapply idle_lose_b; eassumption).
    + destruct Hi as [H1 H2]. destruct big; cbn; split; cbn; auto.
      destruct f; cbn; auto.
    + destruct Hi; cbn; auto.
Qed.

Lemma reach_kinv s : reach s -> forall k, kinv s k.
Proof.
  induction 1.
  - intro k. cbn. unfold idle; cbn; auto.
  - eapply step_kinv; eauto.
Qed.

(** Every lookup answered Ok so far returned an allowed value. *)
Definition good (h : list event) : Prop :=
  forall h1 e h2, h = h1 ++ e :: h2 -> eop e = OLookup -> est e = Ok -> In (eval e) (fst (view (ekey e) h2)).

Lemma good_cons e h : good h -> (eop e = OLookup -> est e = Ok -> In (eval e) (fst (view (ekey e) h))) -> good (e :: h).
Proof.
  intros G H h1 e' h2 E. destruct h1; cbn in E; inversion E; subst; auto. eapply G; eauto.
Qed.

Lemma good_settle s p k o st v sk f :
  good (hist s) -> (o = OLookup -> st = Ok -> In v (fst (view k (hist s)))) -> good (hist (settle s p k o st v sk f)).
Proof. intros G H. unfold settle. destruct (status_eqb st Retry); cbn [hist]; auto. apply good_cons; cbn; auto. Qed.

Lemma reach_good s : reach s -> good (hist s).
Proof.
  induction 1 as [|s s' R IH Hs].
  - intros h1 e h2 E. destruct h1; discriminate.
  - assert (K := reach_kinv s R). destruct Hs; cbn [hist]; auto; apply good_settle; auto; try discriminate.
    intros _ ->. specialize (K k). unfold kinv in K. rewrite H in K.
    assert (Hd : idle (small (eng_pair s) k) (large (eng_pair s) k) (fst (view k (hist s))) (snd (view k (hist s))))
      by (destruct skip; exact K).
    destruct Hd as (Ha & Hb & _). destruct rl as [s1 v1], rs as [s2 v2]. unfold look_ok in *. cbn [fst snd] in *.
    unfold lookupInternal in H2. cbn [fst snd] in H2.
    destruct skip; [|destruct s1]; cbn in H2; inversion H2; subst.
    + rewrite (H1 eq_refl) in Ha. exact Ha.
    + rewrite (H0 eq_refl) in Hb. exact Hb.
    + rewrite (H1 eq_refl) in Ha. exact Ha.
Qed.

Lemma view_only k h1 h2 : only_lookups k h1 -> view k (h1 ++ h2) = view k h2.
Proof.
  induction h1 as [|e h1 IH]; intro O; auto.
  change (view k ((e :: h1) ++ h2)) with (view k (e :: (h1 ++ h2))).
  destruct (Nat.eq_dec (ekey e) k) as [E|E].
  - cbn [view]. rewrite IH by (intros x ? ?; apply O; cbn; auto).
    rewrite (O e) by (cbn; auto). destruct (view k h2). now destruct (ekey e =? k).
  - rewrite view_other by auto. apply IH. intros x ? ?; apply O; cbn; auto.
Qed.

Lemma view_clean k h : inserts_clean k h -> snd (view k h) = false.
Proof.
  induction h as [|e h IH]; intro C; auto. cbn [view]. destruct (view k h) as [A two]. cbn in IH.
  assert (T : two = false) by (apply IH; intros x ? ?; apply C; cbn; auto).
  destruct (ekey e =? k) eqn:E; auto. apply Nat.eqb_eq in E.
  specialize (C e (or_introl eq_refl) E). destruct (eop e); auto.
  - destruct C as [-> | ->]; auto. destruct (efirst e); auto.
  - destruct (est e); auto. destruct two; auto.
Qed.
