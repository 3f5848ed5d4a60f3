(** The invariant is kept by every step. *)
From Coq Require Import List Arith ZArith Bool Lia Permutation.
Import ListNotations.
From Verif Require Import AsyncHdl_model AsyncHdl_spec AsyncHdl_proofs1.

Section P.
Variable maxRef : nat.

Definition same_but_over (g g' : fetch) : Prop := fit g' = fit g /\ (fover g' = fover g \/ (fover g = None /\ fover g' <> None)).
Lemma okv_over : forall g g' v, same_but_over g g' -> okv g v -> okv g' v.
Proof. intros g g' v (E & O) [H|(H & H')]; [left; congruence|]. destruct O as [O|(O & O')]; [|congruence]. right. split; congruence. Qed.
Lemma over_ne : forall g g', same_but_over g g' -> fover g <> None -> fover g' <> None.
Proof. intros g g' (_ & [O|(O & O')]) H; congruence. Qed.
Lemma valued_over : forall g g' x, same_but_over g g' -> valued g x -> valued g' x.
Proof.
  intros g g' x S (v & A & B & C). exists v. split; [assumption|]. split; [intro H; eapply okv_over; eauto|].
  destruct C as [C|C]; [left; assumption|right; eapply over_ne; eauto].
Qed.
Lemma settled_over : forall g g' x, same_but_over g g' -> settledC g x -> settledC g' x.
Proof.
  intros g g' x S (A & B & C & D). split; [eapply valued_over; eauto|]. split; [assumption|]. split; [assumption|].
  unfold futok in *. destruct (cfut x); auto. eapply okv_over; eauto.
Qed.
Lemma done_over : forall g g' c x, same_but_over g g' -> fover g = None \/ fover g' = fover g -> doneC g c x -> doneC g' c x.
Proof.
  intros g g' c x S O [(V1 & V2 & V3 & V4)|(A & B)].
  - left. split; [destruct O; congruence|]. split; [assumption|]. split; [|assumption].
    destruct V3 as [V|V]; [left; assumption|right; eapply valued_over; eauto].
  - right. split; [eapply settled_over; eauto|assumption].
Qed.
Lemma sbo_refl : forall w p g, same_but_over g (mkF w p (fit g) (fover g)).
Proof. intros. split; [reflexivity|left; reflexivity]. Qed.

Ltac shape s0 := eapply WF_alike with (s := s0); [repeat split; reflexivity|].
Ltac fok := unfold fetchOK, setFetch, setCtx; cbn [fetches ctxs fillmap nf nc]; rewrite upd_same; cbn [fpcs fwait fit fover].
Lemma pc_ne : forall (g : fetch) p, fpcs g <> FOpen -> p <> FOpen -> (p = FOpen <-> fpcs g = FOpen).
Proof. intros; split; congruence. Qed.

Lemma headin : forall s f dn c r, WF s -> f < nf s -> fwait (fetches s f) = dn ++ c :: r ->
  c < nc s /\ cfetch (ctxs s c) = f /\ ~ In c dn /\ ~ In c r.
Proof.
  intros s f dn c r W Hf E. pose proof (w_nodup s W f Hf) as N. rewrite E in N. apply NoDup_remove_2 in N.
  assert (I : In c (fwait (fetches s f))) by (rewrite E; apply in_or_app; right; left; reflexivity).
  apply (w_wait s W f c Hf) in I. destruct I. repeat split; auto; intro X; apply N; apply in_or_app; auto.
Qed.

Lemma WF_setPc : forall s f p, WF s -> f < nf s -> fpcs (fetches s f) <> FOpen -> p <> FOpen ->
  fetchOK (setPc s f p) f -> WF (setPc s f p).
Proof.
  intros s f p W Hf N N' OK. unfold setPc in *. apply WF_fetch; auto; cbn [fpcs fwait fit].
  - split; intro; congruence.
  - intros i. apply (w_item s W). assumption.
Qed.

Lemma decRef_alike : forall s i, alike s (fst (decRef s i)).
Proof. intros. repeat split; reflexivity. Qed.
Lemma incRef_alike : forall s i, alike s (fst (incRef s i)).
Proof. intros. repeat split; reflexivity. Qed.

Lemma WF_destroy : forall s c s' e, WF s -> c < nc s -> chold (ctxs s c) = false -> cshare (ctxs s c) = false ->
  destroyCtx s c = (s', e) -> WF s'.
Proof.
  intros s c s' e W Hc H1 H2 D. unfold destroyCtx in D.
  assert (A : forall s1 e2, match cval (ctxs s c) with Some (Some i) => decRef (adjust s 1) i | _ => (s, []) end = (s1, e2) -> alike s s1).
  { intros s1 e2 X. destruct (cval (ctxs s c)) as [[i|]|]; inversion X; repeat split; reflexivity. }
  destruct (match cval (ctxs s c) with Some (Some i) => decRef (adjust s 1) i | _ => (s, []) end) as [s1 e2] eqn:E.
  specialize (A _ _ eq_refl).
  destruct (cfut (ctxs s c)) eqn:F; inversion D; subst s'; clear D; try (eapply WF_alike; eassumption).
  destruct A as (E1 & E2 & E3 & E4 & E5 & E6).
  apply WF_alike with (s := setCtx s c (withFut (ctxs s c) UBroken)).
  { unfold alike, setCtx; cbn. rewrite E1, E2, E3, E4, E5, E6. repeat split; reflexivity. }
  apply WF_uev; auto.
  - unfold uev, withFut; cbn. repeat split; auto. right. right. right. right. auto.
  - unfold withFut; cbn. intro X. destruct (w_blk s W c Hc X). congruence.
Qed.

Lemma WF_wake : forall s f s' e, WF s -> f < nf s -> wake maxRef s f = Some (s', e) -> WF s'.
Proof.
  intros s f s' e W Hf K. pose proof (w_ok s W f Hf) as OK. unfold wake in K. unfold fetchOK in OK.
  pose proof (w_item s W f) as WI.
  destruct (fpcs (fetches s f)) as [|rest sb| |rest|] eqn:P; try discriminate.
  - destruct OK as (dn & Ew & Hd & Ho & R).
    destruct rest as [|c r].
    { inversion K; subst s' e; clear K. apply WF_setPc; auto; try congruence. unfold setPc. fok.
      rewrite app_nil_r in Ew. intros c I. rewrite Ew in I. destruct (Hd c I) as (A & B). split; [|assumption].
      eapply done_over; [apply sbo_refl|right; reflexivity|exact A]. }
    destruct (headin s f dn c r W Hf Ew) as (Hc & Cf & Nd & Nr). destruct R as (Rr & Rc).
    assert (DN : forall w p d, In d dn -> doneC (mkF w p (fit (fetches s f)) (fover (fetches s f))) d (ctxs s d) /\ cshare (ctxs s d) = true).
    { intros w p d I. destruct (Hd d I). split; [|assumption]. eapply done_over; [apply sbo_refl|right; reflexivity|assumption]. }
    assert (DO : forall w p d, fover (fetches s f) = None -> In d dn -> doneC (mkF w p (fit (fetches s f)) (Some c)) d (ctxs s d) /\ cshare (ctxs s d) = true).
    { intros w p d O I. destruct (Hd d I). split; [|assumption]. apply done_over with (g := fetches s f); [|left; assumption|assumption].
      split; [reflexivity|right]. cbn. split; [assumption|discriminate]. }
    destruct sb as [|h b|h|].
    + (* SClone *)
      assert (GO : forall h b, okh (fetches s f) h -> b = true \/ fover (fetches s f) <> None ->
                   WF (setPc s f (FRun (c :: r) (SStore h b)))).
      { intros h b A B. apply WF_setPc; auto; try congruence. unfold setPc. fok.
        exists dn. split; [assumption|]. split; [apply DN|]. split; [assumption|]. split; [assumption|].
        split; [assumption|]. split; [exact A|exact B]. }
      destruct (fover (fetches s f)) as [v|] eqn:O.
      * inversion K; subst s' e; clear K. apply GO; [unfold okh; rewrite O; reflexivity|right; discriminate].
      * destruct (fit (fetches s f)) as [i|] eqn:Fi.
        -- destruct (full maxRef s i) eqn:Fu.
           ++ inversion K; subst s' e; clear K. unfold overflow. apply WF_fetch; auto; cbn [fpcs fwait fit].
              ** split; congruence.
              ** intros j Hj. apply (WI j Hf). congruence.
              ** fok. exists (dn ++ [c]). rewrite <- app_assoc. split; [assumption|].
                 split; [|split].
                 --- intros d I. apply in_app_or in I. destruct I as [I|[<-|[]]].
                     +++ rewrite Fi. apply DO; auto.
                     +++ destruct Rc as (F1 & F2 & F3 & F4 & F5). split; [|assumption].
                         left. split; [reflexivity|]. split; [assumption|]. split; [left; assumption|].
                         destruct F5 as [F5|[F5|F5]]; rewrite F5; split; try intro; discriminate.
                 --- intros d E. inversion E; subst. apply in_or_app. right. left. reflexivity.
                 --- destruct r as [|c2 r2]; [exact I|].
                     split; [intros d I; apply Rr; right; assumption|]. apply Rr. left. reflexivity.
           ++ cbn in K. inversion K; subst s' e; clear K. shape (setPc s f (FRun (c :: r) (SStore (Some i) true))).
              apply GO; [unfold okh; rewrite O, Fi; reflexivity|left; reflexivity].
        -- inversion K; subst s' e; clear K. apply GO; [unfold okh; rewrite O, Fi; reflexivity|left; reflexivity].
    + (* SStore *)
      destruct Rc as (Fr & G1 & G2).
      inversion K; subst s'; clear K.
      set (y := withFlag (withVal (ctxs s c) (Some h)) b).
      eapply WF_alike with (s := setFetch (setCtx s c y) f (mkF (fwait (fetches s f)) (FRun (c :: r) (SCall h)) (fit (fetches s f)) (fover (fetches s f)))).
      { destruct h; repeat split; reflexivity. }
      apply WF_both; auto; cbn [fpcs fwait fit fover].
      * split; congruence.
      * unfold y; cbn. apply (w_blk s W c Hc).
      * fok. exists dn. split; [assumption|]. split; [|split; [assumption|split]].
        -- intros d I. rewrite upd_diff by congruence. apply DN. assumption.
        -- intros d I. rewrite upd_diff by congruence. apply Rr. assumption.
        -- rewrite upd_same. split; [|assumption].
           destruct Fr as (F1 & F2 & F3 & F4 & F5). unfold calledC, y; cbn.
           split; [discriminate|]. split; [reflexivity|]. split; [assumption|]. auto.
    + (* SCall *)
      destruct Rc as (Ca & Oh).
      assert (SP : forall y, cfetch y = f -> settledC (fetches s f) y -> cposted y = false -> cshare y = true ->
                (cwait y = true -> chold y = true /\ cfut y = UNone) ->
                WF (setFetch (setCtx s c y) f (mkF (fwait (fetches s f)) (FRun (c :: r) SPost) (fit (fetches s f)) (fover (fetches s f))))).
      { intros y Y1 Y2 Y3 Y4 Y5. apply WF_both; auto; cbn [fpcs fwait fit fover].
        - split; congruence.
        - fok. exists dn. split; [assumption|]. split; [|split; [assumption|split]].
          + intros d I. rewrite upd_diff by congruence. apply DN. assumption.
          + intros d I. rewrite upd_diff by congruence. apply Rr. assumption.
          + rewrite upd_same. split; [|split; assumption].
            eapply settled_over; [apply sbo_refl|exact Y2]. }
      pose proof Ca as (C1 & C2 & C3 & C4 & C5 & C6).
      assert (VA : forall u, valued (fetches s f) (withFut (ctxs s c) u)).
      { intro u. unfold withFut, valued; cbn. destruct (cval (ctxs s c)) as [v|] eqn:V; [|congruence].
        exists v. split; [reflexivity|]. split; [|assumption]. intro H. specialize (C2 H). inversion C2; subst.
        apply okh_okv. assumption. }
      assert (VS : forall u, u <> UPend -> u <> UBroken -> futok (fetches s f) u -> settledC (fetches s f) (withFut (ctxs s c) u)).
      { intros u U1 U2 U3. split; [apply VA|]. auto. }
      assert (same : forall s1, alike s s1 -> forall u, cfut (ctxs s c) = u -> u <> UPend -> u <> UBroken -> futok (fetches s f) u ->
                 WF (setPc s1 f (FRun (c :: r) SPost))).
      { intros s1 A u U1 U2 U3 U4. destruct A as (E1 & E2 & E3 & E4 & E5 & E6).
        apply WF_alike with (s := setPc s f (FRun (c :: r) SPost)).
        { unfold alike, setPc, setFetch; cbn. rewrite E1, E2, E3, E4, E5, E6. repeat split; reflexivity. }
        apply WF_setPc; auto; try congruence. unfold setPc. fok.
        exists dn. split; [assumption|]. split; [apply DN|]. split; [assumption|]. split; [assumption|].
        split; [|split; assumption]. eapply settled_over; [apply sbo_refl|].
        specialize (VS u U2 U3 U4). subst u. destruct (ctxs s c). exact VS. }
      assert (OV : h <> None -> WF (overflow s f c r)).
      { intro Hh. unfold overflow. assert (O : fover (fetches s f) = None) by (unfold okh in Oh; destruct (fover (fetches s f)); congruence).
        apply WF_fetch; auto; cbn [fpcs fwait fit].
        - split; congruence.
        - fok. exists (dn ++ [c]). rewrite <- app_assoc. split; [assumption|].
          split; [|split].
          + intros d I. apply in_app_or in I. destruct I as [I|[<-|[]]].
            * apply DO; auto.
            * split; [|assumption]. left. split; [reflexivity|]. split; [assumption|]. split.
              -- right. specialize (VA (cfut (ctxs s c))). destruct VA as (v & V1 & V2 & V3).
                 exists v. split; [exact V1|]. split.
                 ++ intro H. eapply okv_over; [|apply V2; exact H]. split; [reflexivity|right]. cbn. split; [assumption|discriminate].
                 ++ right. cbn. discriminate.
              -- destruct C6 as [F|[F|F]]; rewrite F; split; try intro; discriminate.
          + intros d E. inversion E; subst. apply in_or_app. right. left. reflexivity.
          + destruct r as [|c2 r2]; [exact I|].
            split; [intros d I; apply Rr; right; assumption|]. apply Rr. left. reflexivity. }
      assert (BL : cfut (ctxs s c) <> UNone -> cwait (ctxs s c) = false).
      { intro U. destruct (cwait (ctxs s c)) eqn:X; [|reflexivity]. destruct (w_blk s W c Hc X). congruence. }
      assert (HA : cfut (ctxs s c) = UPend -> forall s1, alike s s1 ->
                WF (setPc (setCtx s1 c (withFut (ctxs s c) (UHas h))) f (FRun (c :: r) SPost))).
      { intros U s1 (E1 & E2 & E3 & E4 & E5 & E6).
        apply WF_alike with (s := setFetch (setCtx s c (withFut (ctxs s c) (UHas h))) f (mkF (fwait (fetches s f)) (FRun (c :: r) SPost) (fit (fetches s f)) (fover (fetches s f)))).
        { unfold alike, setPc, setFetch, setCtx; cbn. rewrite E1, E2, E3, E4, E5, E6. repeat split; reflexivity. }
        apply SP; auto.
        - apply VS; try discriminate. cbn. apply okh_okv. assumption.
        - cbn. rewrite BL by congruence. discriminate. }
      destruct C6 as [F|[F|F]]; rewrite F in K.
      * inversion K; subst s' e; clear K. eapply same; [repeat split; reflexivity|eassumption| | |exact I]; discriminate.
      * destruct h as [i|].
        -- destruct (full maxRef s i); inversion K; subst s' e; clear K; [apply OV; discriminate|].
           apply HA; [assumption|]. repeat split; reflexivity.
        -- inversion K; subst s' e; clear K. apply HA; [assumption|]. repeat split; reflexivity.
      * destruct h as [i|].
        -- destruct (full maxRef s i); inversion K; subst s' e; clear K; [apply OV; discriminate|].
           eapply same; [repeat split; reflexivity|eassumption| | |exact I]; discriminate.
        -- inversion K; subst s' e; clear K. eapply same; [repeat split; reflexivity|eassumption| | |exact I]; discriminate.
    + (* SPost *)
      destruct Rc as (Se & Po & Sh). inversion K; subst s' e; clear K.
      apply WF_both; auto; cbn [fpcs fwait fit fover setCtx].
      * unfold setCtx; cbn. split; congruence.
      * cbn. apply (w_blk s W c Hc).
      * fok. exists (dn ++ [c]). rewrite <- app_assoc. split; [assumption|]. split; [|split].
        -- intros d I. apply in_app_or in I. destruct I as [I|[<-|[]]].
           ++ rewrite upd_diff by congruence. apply DN. assumption.
           ++ rewrite upd_same. split; [|assumption]. right. split; [|reflexivity].
              eapply settled_over; [apply sbo_refl|]. exact Se.
        -- intros d E. apply in_or_app. left. apply Ho. assumption.
        -- destruct r as [|c2 r2]; [exact I|]. split.
           ++ intros d I. rewrite upd_diff by (intro X; subst; apply Nr; right; assumption). apply Rr. right. assumption.
           ++ rewrite upd_diff by (intro X; subst; apply Nr; left; reflexivity). apply Rr. left. reflexivity.
  - (* FRel *)
    assert (GO : WF (setPc s f (FDrop (fwait (fetches s f))))).
    { apply WF_setPc; auto; try congruence. unfold setPc. fok. exists []. split; [reflexivity|]. split; [intros c []|].
      intros c I. destruct (OK c I). split; [|assumption]. eapply done_over; [apply sbo_refl|right; reflexivity|assumption]. }
    destruct (fit (fetches s f)) as [i|] eqn:Fi; inversion K; subst s' e; clear K; [|exact GO].
    shape (setPc s f (FDrop (fwait (fetches s f)))). exact GO.
  - (* FDrop *)
    destruct OK as (dn & Ew & Hd & Hr). destruct rest as [|c r].
    { inversion K; subst s' e; clear K. apply WF_setPc; auto; try congruence. unfold setPc. fok.
      rewrite app_nil_r in Ew. intros c I. rewrite Ew in I. destruct (Hd c I). split; [|assumption].
      eapply done_over; [apply sbo_refl|right; reflexivity|assumption]. }
    destruct (headin s f dn c r W Hf Ew) as (Hc & Cf & Nd & Nr).
    set (s1 := setPc (setCtx s c (withShare (ctxs s c) false)) f (FDrop r)) in *.
    assert (W1 : WF s1).
    { unfold s1, setPc. apply WF_both; auto; cbn [fpcs fwait fit fover setCtx].
      - unfold setCtx; cbn. split; congruence.
      - cbn. apply (w_blk s W c Hc).
      - fok. exists (dn ++ [c]). rewrite <- app_assoc. split; [assumption|]. split.
        + intros d I. apply in_app_or in I. destruct I as [I|[<-|[]]].
          * rewrite upd_diff by congruence. destruct (Hd d I). split; [|assumption].
            eapply done_over; [apply sbo_refl|right; reflexivity|assumption].
          * rewrite upd_same. split; [|reflexivity]. destruct (Hr c (or_introl eq_refl)) as (D & _).
            eapply done_over; [apply sbo_refl|right; reflexivity|]. destruct D as [D|(D & E)]; [left; exact D|right; split; [exact D|exact E]].
        + intros d I. rewrite upd_diff by (intro X; subst; auto). destruct (Hr d (or_intror I)). split; [|assumption].
          eapply done_over; [apply sbo_refl|right; reflexivity|assumption]. }
    destruct (chold (ctxs s c)) eqn:CH; [inversion K; subst s' e; assumption|].
    inversion K as [D]. eapply WF_destroy; [exact W1|exact Hc| | |exact D]; unfold s1, setPc, setFetch, setCtx; cbn; rewrite upd_same; [exact CH|reflexivity].
Qed.
End P.

Section Q.
Variable maxRef : nat.

Lemma mine_inv : forall s c, mine s c = true ->
  c < nc s /\ chold (ctxs s c) = true /\ cwait (ctxs s c) = false /\ cfut (ctxs s c) = UNone.
Proof.
  intros s c H. unfold mine in H. apply andb_prop in H. destruct H as [H H4].
  apply andb_prop in H. destruct H as [H H3]. apply andb_prop in H. destruct H as [H1 H2].
  apply Nat.ltb_lt in H1. apply negb_true_iff in H3. destruct (cfut (ctxs s c)); try discriminate. auto.
Qed.

Lemma WF_letGo : forall s c s' e, WF s -> c < nc s -> cwait (ctxs s c) = false -> letGo s c = (s', e) -> WF s'.
Proof.
  intros s c s' e W Hc Hw L. unfold letGo in L.
  assert (W1 : WF (setCtx s c (withHold (ctxs s c) false))).
  { apply WF_uev; auto; [|cbn; congruence].
    unfold uev, withHold; cbn. repeat split; auto. discriminate. }
  destruct (cshare (ctxs s c)) eqn:S; [inversion L; subst s' e; assumption|].
  eapply WF_destroy; [exact W1|exact Hc| | |exact L]; unfold setCtx; cbn; rewrite upd_same; [reflexivity|exact S].
Qed.

Lemma WF_doFind : forall s s' e, WF s -> doFind s = (s', e) -> WF s'.
Proof.
  intros s s' e W D. unfold doFind in D.
  set (y f := mkC f None false false UNone false true true) in *.
  assert (FY : forall f, freshC (y f)) by (intro; unfold freshC, early; cbn; auto 10).
  pose proof W as [W1 W2 W3 W4 W5 W6 W7 W8].
  assert (OLD : forall f, f < nf s -> ~ In (nc s) (fwait (fetches s f))).
  { intros f Hf I. apply W3 in I; [|assumption]. lia. }
  destruct (fillmap s) as [f|] eqn:M; inversion D; subst s' e; clear D.
  - destruct (W1 f eq_refl) as (Hf & Po). pose proof (W6 f Hf) as OK. unfold fetchOK in OK. rewrite Po in OK. destruct OK as (Ov & Fr).
    constructor; unfold setFetch; cbn [fillmap nf nc fetches ctxs nitem].
    + intros k Hk. rewrite M in Hk. inversion Hk; subst k. split; [assumption|]. rewrite upd_same. assumption.
    + intros k Hk Pk. rewrite M. destruct (Nat.eq_dec k f) as [->|N]; [reflexivity|rewrite upd_diff in Pk by assumption].
      apply W2; assumption.
    + intros k d Hk. destruct (Nat.eq_dec d (nc s)) as [->|Nd].
      * rewrite upd_same. cbn. destruct (Nat.eq_dec k f) as [->|N].
        -- rewrite upd_same. cbn. split; [intro; split; [lia|reflexivity]|intro; apply in_or_app; right; left; reflexivity].
        -- rewrite upd_diff by assumption. split; [intro I; exfalso; eapply OLD; eauto|intros (_ & X); congruence].
      * rewrite (upd_diff _ (ctxs s)) by assumption. destruct (Nat.eq_dec k f) as [->|N].
        -- rewrite upd_same. cbn. split.
           ++ intro I. apply in_app_or in I. destruct I as [I|[X|[]]]; [|congruence]. apply W3 in I; [|assumption]. intuition.
           ++ intros (A & B). apply in_or_app. left. apply W3; [assumption|]. split; [lia|assumption].
        -- rewrite upd_diff by assumption. rewrite W3 by assumption. split; intros (A & B); split; auto; lia.
    + intros d Hd. destruct (Nat.eq_dec d (nc s)) as [->|Nd]; [rewrite upd_same; assumption|rewrite upd_diff by assumption; apply W4; lia].
    + intros k Hk. destruct (Nat.eq_dec k f) as [->|N]; [|rewrite upd_diff by assumption; auto].
      rewrite upd_same. cbn.
      assert (NoDup (nc s :: fwait (fetches s f))) by (constructor; auto).
      eapply Permutation.Permutation_NoDup; [|eassumption]. apply Permutation.Permutation_cons_append.
    + intros k Hk. destruct (Nat.eq_dec k f) as [->|N].
      * unfold fetchOK; cbn [fetches ctxs]. rewrite upd_same. cbn [fpcs fwait fover fit]. rewrite Po. split; [assumption|].
        intros d I. apply in_app_or in I. destruct I as [I|[<-|[]]]; [|rewrite upd_same; apply FY].
        rewrite upd_diff; [auto|]. intro X; subst d. eapply OLD; eauto.
      * eapply fetchOK_same; [| |apply W6; eassumption]; cbn [fetches ctxs]; [rewrite upd_diff by assumption; reflexivity|].
        intros d I. apply upd_diff. intro X; subst d. eapply OLD; eauto.
    + intros d Hd. destruct (Nat.eq_dec d (nc s)) as [->|Nd]; [rewrite upd_same; discriminate|rewrite upd_diff by assumption; apply W7; lia].
    + intros k i Hk. destruct (Nat.eq_dec k f) as [->|N]; [rewrite upd_same; cbn; eauto|rewrite upd_diff by assumption; eauto].
  - constructor; unfold setFetch; cbn [fillmap nf nc fetches ctxs nitem].
    + intros k Hk. inversion Hk; subst k. split; [lia|]. rewrite upd_same. reflexivity.
    + intros k Hk Pk. destruct (Nat.eq_dec k (nf s)) as [->|N]; [reflexivity|rewrite upd_diff in Pk by assumption].
      specialize (W2 k ltac:(lia) Pk). congruence.
    + intros k d Hk. destruct (Nat.eq_dec d (nc s)) as [->|Nd].
      * rewrite upd_same. cbn. destruct (Nat.eq_dec k (nf s)) as [->|N].
        -- rewrite upd_same. cbn. split; [intro; split; [lia|reflexivity]|auto].
        -- rewrite upd_diff by assumption. split; [intro I; exfalso; eapply (OLD k); [lia|assumption]|intros (_ & X); congruence].
      * rewrite (upd_diff _ (ctxs s)) by assumption. destruct (Nat.eq_dec k (nf s)) as [->|N].
        -- rewrite upd_same. cbn. split; [intros [X|[]]; congruence|]. intros (A & B). specialize (W4 d ltac:(lia)). lia.
        -- rewrite upd_diff by assumption. rewrite W3 by lia. split; intros (A & B); split; auto; lia.
    + intros d Hd. destruct (Nat.eq_dec d (nc s)) as [->|Nd]; [rewrite upd_same; cbn; lia|rewrite upd_diff by assumption].
      specialize (W4 d ltac:(lia)). lia.
    + intros k Hk. destruct (Nat.eq_dec k (nf s)) as [->|N]; [rewrite upd_same; cbn; constructor; [intros []|constructor]|].
      rewrite upd_diff by assumption. apply W5. lia.
    + intros k Hk. destruct (Nat.eq_dec k (nf s)) as [->|N].
      * unfold fetchOK; cbn [fetches ctxs]. rewrite upd_same. cbn [fpcs fwait fover fit]. split; [reflexivity|].
        intros d [<-|[]]. rewrite upd_same; apply FY.
      * eapply fetchOK_same; [| |apply (W6 k); lia]; cbn [fetches ctxs]; [rewrite upd_diff by assumption; reflexivity|].
        intros d I. apply upd_diff. intro X; subst d. eapply (OLD k); [lia|eauto].
    + intros d Hd. destruct (Nat.eq_dec d (nc s)) as [->|Nd]; [rewrite upd_same; discriminate|rewrite upd_diff by assumption; apply W7; lia].
    + intros k i Hk. destruct (Nat.eq_dec k (nf s)) as [->|N]; [rewrite upd_same; cbn; discriminate|rewrite upd_diff by assumption; apply W8; lia].
Qed.

Ltac alike_s W := eapply WF_alike; [|exact W]; repeat split; reflexivity.

Lemma WF_step : forall s a s' e, WF s -> step maxRef s a = Some (s', e) -> WF s'.
Proof.
  intros s a s' e W K. destruct a as [|f|f|f|c|c|c|c|c|c|c|c|c|c|k|k]; cbn [step] in K.
  - inversion K. eapply WF_doFind; eauto.
  - destruct (Nat.ltb_spec f (nf s)) as [Hf|]; [|discriminate].
    destruct (fpcs (fetches s f)) eqn:P; try discriminate. destruct (fit (fetches s f)) eqn:Fi; [discriminate|].
    inversion K; subst s' e; clear K.
    pose proof (w_ok s W f Hf) as OK. unfold fetchOK in OK. rewrite P in OK.
    destruct W as [W1 W2 W3 W4 W5 W6 W7 W8].
    constructor; cbn [fillmap nf nc fetches ctxs nitem]; auto.
    + intros k Hk. destruct (W1 k Hk). split; [assumption|]. destruct (Nat.eq_dec k f) as [->|N]; [rewrite upd_same; reflexivity|rewrite upd_diff by assumption; assumption].
    + intros k Hk Pk. destruct (Nat.eq_dec k f) as [->|N]; [auto|rewrite upd_diff in Pk by assumption; auto].
    + intros k d Hk. destruct (Nat.eq_dec k f) as [->|N]; [rewrite upd_same; cbn; auto|rewrite upd_diff by assumption; auto].
    + intros k Hk. destruct (Nat.eq_dec k f) as [->|N]; [rewrite upd_same; cbn; auto|rewrite upd_diff by assumption; auto].
    + intros k Hk. destruct (Nat.eq_dec k f) as [->|N].
      * unfold fetchOK; cbn [fetches ctxs]. rewrite upd_same. exact OK.
      * eapply fetchOK_same; [| |apply W6; eassumption]; cbn [fetches ctxs]; [rewrite upd_diff by assumption; reflexivity|reflexivity].
    + intros k i Hk. destruct (Nat.eq_dec k f) as [->|N]; [rewrite upd_same; cbn; intro X; inversion X; lia|rewrite upd_diff by assumption; intro X; specialize (W8 k i Hk X); lia].
  - destruct (Nat.ltb_spec f (nf s)) as [Hf|]; [|discriminate].
    destruct (fpcs (fetches s f)) eqn:P; try discriminate.
    pose proof (w_map2 s W f Hf P) as M. rewrite M in K. inversion K; subst s' e; clear K.
    pose proof (w_ok s W f Hf) as OK. unfold fetchOK in OK. rewrite P in OK. destruct OK as (Ov & Fr).
    destruct W as [W1 W2 W3 W4 W5 W6 W7 W8].
    constructor; unfold setPc, setFetch, setMap; cbn [fillmap nf nc fetches ctxs nitem]; auto.
    + intros k Hk. discriminate.
    + intros k Hk Pk. destruct (Nat.eq_dec k f) as [->|N]; [rewrite upd_same in Pk; discriminate|rewrite upd_diff in Pk by assumption; specialize (W2 k Hk Pk); congruence].
    + intros k d Hk. destruct (Nat.eq_dec k f) as [->|N]; [rewrite upd_same; cbn; auto|rewrite upd_diff by assumption; auto].
    + intros k Hk. destruct (Nat.eq_dec k f) as [->|N]; [rewrite upd_same; cbn; auto|rewrite upd_diff by assumption; auto].
    + intros k Hk. destruct (Nat.eq_dec k f) as [->|N].
      * unfold fetchOK; cbn [fetches ctxs]. rewrite upd_same. cbn [fpcs fwait fover fit]. exists []. split; [reflexivity|].
        split; [intros c []|]. split; [intros c X; congruence|].
        destruct (fwait (fetches s f)) as [|c r]; [exact I|]. split; [intros d I; apply Fr; right; assumption|apply Fr; left; reflexivity].
      * eapply fetchOK_same; [| |apply W6; eassumption]; cbn [fetches ctxs]; [rewrite upd_diff by assumption; reflexivity|reflexivity].
    + intros k i Hk. destruct (Nat.eq_dec k f) as [->|N]; [rewrite upd_same; cbn; eauto|rewrite upd_diff by assumption; eauto].
  - destruct (Nat.ltb_spec f (nf s)) as [Hf|]; [|discriminate]. eapply WF_wake; eauto.
  - destruct (mine s c); inversion K; subst s' e; assumption.
  - destruct (mine s c); inversion K; subst s' e; assumption.
  - destruct (mine s c) eqn:Mi; [|discriminate]. destruct (mine_inv _ _ Mi) as (Hc & Ho & Wa & Fu).
    destruct (cval (ctxs s c)); inversion K; subst s' e; [assumption|].
    apply WF_uev; auto. unfold uev, withWait; cbn. repeat split; auto.
  - destruct ((c <? nc s) && cwait (ctxs s c) && cposted (ctxs s c)) eqn:B; [|discriminate].
    apply andb_prop in B. destruct B as [B _]. apply andb_prop in B. destruct B as [B _]. apply Nat.ltb_lt in B.
    destruct (cval (ctxs s c)); inversion K; subst s' e.
    apply WF_uev; auto; [|cbn; discriminate]. unfold uev, withWait; cbn. repeat split; auto.
  - destruct (mine s c) eqn:Mi; [|discriminate].
    destruct (cval (ctxs s c)) as [[i|]|]; try discriminate; [|inversion K; subst s' e; assumption].
    destruct (full maxRef s i); inversion K; subst s' e; [assumption|alike_s W].
  - destruct (mine s c) eqn:Mi; [|discriminate]. destruct (mine_inv _ _ Mi) as (Hc & Ho & Wa & Fu).
    destruct (cval (ctxs s c)) as [[i|]|] eqn:V; try discriminate; [|inversion K; eapply WF_letGo; eauto].
    set (s2 := setPlain (adjust (setCtx s c (withVal (ctxs s c) (Some None))) 1) (plain (adjust (setCtx s c (withVal (ctxs s c) (Some None))) 1) ++ [i])) in *.
    assert (L : letGo s2 c = (s', e)) by congruence. clear K. unfold letGo in L.
    assert (E : ctxs s2 c = withVal (ctxs s c) (Some None)) by (unfold s2; cbn; apply upd_same).
    rewrite E in L. cbn [cshare withVal] in L.
    assert (W1 : WF (setCtx s2 c (withHold (withVal (ctxs s c) (Some None)) false))).
    { apply WF_alikeP with (s := setCtx s c (withHold (withVal (ctxs s c) (Some None)) false)).
      - unfold alikeP, s2, setCtx, setPlain, adjust, setTotal; cbn. repeat split; try reflexivity.
        intro d. unfold upd. destruct (d =? c); reflexivity.
      - apply WF_uev; auto; [|cbn; congruence].
        unfold uev, withHold, withVal; cbn. repeat split; auto; try discriminate.
        right. repeat split; congruence. }
    destruct (cshare (ctxs s c)) eqn:S; [inversion L; subst s' e; exact W1|].
    eapply WF_destroy; [exact W1|exact Hc| | |exact L]; unfold setCtx; cbn; rewrite upd_same; [reflexivity|exact S].
  - destruct (mine s c) eqn:Mi; [|discriminate]. destruct (mine_inv _ _ Mi) as (Hc & Ho & Wa & Fu).
    destruct (cval (ctxs s c)) eqn:V; inversion K; subst s' e; [assumption|].
    apply WF_uev; auto; [|cbn; congruence]. unfold uev, withFut; cbn. repeat split; auto.
  - destruct ((c <? nc s) && chold (ctxs s c) && negb (cwait (ctxs s c))) eqn:B; [|discriminate].
    apply andb_prop in B. destruct B as [B B2]. apply andb_prop in B. destruct B as [B _]. apply Nat.ltb_lt in B.
    apply negb_true_iff in B2. inversion K. eapply WF_letGo; eauto.
  - destruct (cfut (ctxs s c)) as [| |v| | |] eqn:U; try discriminate.
    destruct (Nat.ltb_spec c (nc s)) as [Hc|]; [|discriminate].
    assert (W1 : WF (setCtx s c (withFut (ctxs s c) UDone))).
    { apply WF_uev; auto.
      - unfold uev, withFut; cbn. repeat split; auto. right. right. right. left. eauto.
      - cbn. intro X. destruct (w_blk s W c Hc X). congruence. }
    destruct v; inversion K; subst s' e; [alike_s W1|assumption].
  - destruct (Nat.ltb_spec c (nc s)) as [Hc|]; [|discriminate].
    destruct (cfut (ctxs s c)) as [| |v| | |] eqn:U; try discriminate.
    + inversion K; subst s' e. apply WF_uev; auto.
      * unfold uev, withFut; cbn. repeat split; auto.
      * cbn. intro X. destruct (w_blk s W c Hc X). congruence.
    + assert (W1 : WF (setCtx s c (withFut (ctxs s c) UDone))).
      { apply WF_uev; auto.
        - unfold uev, withFut; cbn. repeat split; auto. right. right. right. left. eauto.
        - cbn. intro X. destruct (w_blk s W c Hc X). congruence. }
      destruct v; inversion K; subst s' e; [alike_s W1|assumption].
  - destruct (nth_error (plain s) k) as [i|]; [|discriminate].
    destruct (full maxRef s i); inversion K; subst s' e; [assumption|alike_s W].
  - destruct (nth_error (plain s) k) as [i|]; [|discriminate].
    inversion K; subst s' e. alike_s W.
Qed.

Lemma WF_init : WF init.
Proof. constructor; cbn; intros; try lia; discriminate. Qed.
End Q.
