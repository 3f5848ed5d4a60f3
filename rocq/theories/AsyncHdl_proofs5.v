(** What a step leaves unchanged, and what its events tell. *)
From Coq Require Import List Arith ZArith Bool Lia.
Import ListNotations.
From Verif Require Import AsyncHdl_model AsyncHdl_spec AsyncHdl_proofs1 AsyncHdl_proofs2.

Definition cmono (x y : ctx) : Prop :=
  cfetch y = cfetch x /\ (cval x <> None -> cval y <> None) /\
  (chold y = true -> chold x = true /\ forall v, cval x = Some v -> cval y = Some v) /\
  (cfut x = UNone -> cval x <> None -> cfut y = UNone) /\
  (forall v, cfut x = UHas v -> cfut y = UHas v \/ cfut y = UDone) /\
  (cfut x = UDone -> cfut y = UDone).
Definition fmono (g g' : fetch) : Prop :=
  (forall i, fit g = Some i -> fit g' = Some i) /\
  (fpcs g <> FOpen -> fpcs g' <> FOpen /\ fit g' = fit g) /\
  (forall c, fover g = Some c -> fover g' = Some c) /\
  (fpcs g = FDone -> g' = g).
Definition smono (s s' : state) : Prop :=
  nc s <= nc s' /\ nf s <= nf s' /\
  (forall c, c < nc s -> cmono (ctxs s c) (ctxs s' c)) /\
  (forall f, f < nf s -> fmono (fetches s f) (fetches s' f)).

Lemma cmono_refl : forall x, cmono x x.
Proof. intro x. unfold cmono. intuition. Qed.
Lemma fmono_refl : forall x, fmono x x.
Proof. intro x. unfold fmono. intuition. Qed.
Lemma cmono_trans : forall x y z, cmono x y -> cmono y z -> cmono x z.
Proof.
  intros x y z (A1 & A2 & A3 & A4 & A5 & A6) (B1 & B2 & B3 & B4 & B5 & B6).
  split; [congruence|]. split; [auto|]. split.
  { intro H. destruct (B3 H) as (C & D). destruct (A3 C) as (E & F). split; [assumption|]. intros v V. auto. }
  split; [auto|]. split; [|auto].
  intros v V. destruct (A5 v V) as [H|H]; [apply B5; assumption|right; auto].
Qed.
Lemma fmono_trans : forall x y z, fmono x y -> fmono y z -> fmono x z.
Proof.
  intros x y z (A1 & A2 & A3 & A4) (B1 & B2 & B3 & B4). split; [auto|]. split; [|split; [auto|]].
  - intro H. destruct (A2 H) as (C & D). destruct (B2 C). split; [assumption|congruence].
  - intro H. specialize (A4 H). subst y. auto.
Qed.
Lemma smono_refl : forall s, smono s s.
Proof. intro s. split; [lia|]. split; [lia|]. split; intros; [apply cmono_refl|apply fmono_refl]. Qed.
Lemma smono_trans : forall x y z, smono x y -> smono y z -> smono x z.
Proof.
  intros x y z (A1 & A2 & A3 & A4) (B1 & B2 & B3 & B4). split; [lia|]. split; [lia|]. split; intros.
  - eapply cmono_trans; [apply A3; assumption|apply B3; lia].
  - eapply fmono_trans; [apply A4; assumption|apply B4; lia].
Qed.

Lemma smono_fields : forall s s', nc s' = nc s -> nf s' = nf s -> ctxs s' = ctxs s -> fetches s' = fetches s -> smono s s'.
Proof.
  intros s s' A B C D. unfold smono. rewrite A, B, C, D. split; [lia|]. split; [lia|]. split; intros; [apply cmono_refl|apply fmono_refl].
Qed.
Lemma smono_ctx : forall s c y, cmono (ctxs s c) y -> smono s (setCtx s c y).
Proof.
  intros s c y H. unfold smono, setCtx; cbn. split; [lia|]. split; [lia|]. split; intros; [|apply fmono_refl].
  unfold upd. destruct (Nat.eqb_spec c0 c); [subst; assumption|apply cmono_refl].
Qed.
Lemma smono_fetch : forall s f g, fmono (fetches s f) g -> smono s (setFetch s f g).
Proof.
  intros s c y H. unfold smono, setFetch; cbn. split; [lia|]. split; [lia|]. split; intros; [apply cmono_refl|].
  unfold upd. destruct (Nat.eqb_spec f c); [subst; assumption|apply fmono_refl].
Qed.
Lemma smono_pc : forall s f p, fpcs (fetches s f) <> FDone -> p <> FOpen -> smono s (setPc s f p).
Proof.
  intros s f p N N'. unfold setPc. apply smono_fetch. unfold fmono; cbn. repeat split; auto. congruence.
Qed.

Ltac cm := unfold cmono, withVal, withFlag, withPosted, withFut, withWait, withHold, withShare; cbn; intuition (try congruence).

Lemma smono_destroy : forall s c s' e, destroyCtx s c = (s', e) -> smono s s'.
Proof.
  intros s c s' e D. unfold destroyCtx in D.
  destruct (cval (ctxs s c)) as [[i|]|]; cbn in D; destruct (cfut (ctxs s c)) eqn:U; inversion D; subst s' e; clear D;
    try (apply smono_fields; reflexivity); try (apply smono_ctx; cm).
  eapply smono_trans; [apply smono_ctx with (c := c) (y := withFut (ctxs s c) UBroken); cm|]. apply smono_fields; reflexivity.
Qed.
Lemma smono_letGo : forall s c s' e, letGo s c = (s', e) -> smono s s'.
Proof.
  intros s c s' e L. unfold letGo in L.
  assert (M : smono s (setCtx s c (withHold (ctxs s c) false))) by (apply smono_ctx; cm).
  destruct (cshare (ctxs s c)); [inversion L; subst s' e; assumption|].
  eapply smono_trans; [exact M|]. eapply smono_destroy; eassumption.
Qed.

Section R.
Variable maxRef : nat.

Lemma smono_wake : forall s f s' e, WF s -> f < nf s -> wake maxRef s f = Some (s', e) -> smono s s'.
Proof.
  intros s f s' e W Hf K. pose proof (w_ok s W f Hf) as OK. unfold wake in K. unfold fetchOK in OK.
  destruct (fpcs (fetches s f)) as [|rest sb| |rest|] eqn:P; try discriminate.
  - destruct OK as (dn & Ew & Hd & Ho & R).
    assert (PC : forall t p, nc t = nc s -> nf t = nf s -> ctxs t = ctxs s -> fetches t = fetches s -> p <> FOpen -> smono s (setPc t f p)).
    { intros t p T1 T2 T3 T4 Np. eapply smono_trans; [apply smono_fields; eassumption|]. apply smono_pc; [rewrite T4, P; discriminate|assumption]. }
    assert (OV : forall c r, fover (fetches s f) = None -> smono s (overflow s f c r)).
    { intros c r O. apply smono_fetch. unfold fmono; cbn. repeat split; auto; congruence. }
    destruct rest as [|c r]; [inversion K; subst s' e; apply PC; auto; discriminate|].
    destruct R as (Rr & Rc).
    destruct sb as [|h b|h|].
    + destruct (fover (fetches s f)) as [v|] eqn:O; [inversion K; subst s' e; apply PC; auto; discriminate|].
      destruct (fit (fetches s f)) as [i|] eqn:Fi; [|inversion K; subst s' e; apply PC; auto; discriminate].
      destruct (full maxRef s i); inversion K; subst s' e; [apply OV; reflexivity|apply PC; auto; discriminate].
    + destruct Rc as (Fr & _). destruct Fr as (F1 & F2 & F3 & F4 & F5). inversion K; subst s'; clear K.
      eapply smono_trans; [apply smono_ctx with (c := c) (y := withFlag (withVal (ctxs s c) (Some h)) b)|].
      { cm. }
      eapply smono_trans; [|apply smono_pc; [|discriminate]]; [destruct h; apply smono_fields; reflexivity|].
      destruct h; cbn; rewrite P; discriminate.
    + destruct Rc as (Ca & Oh).
      assert (O : h <> None -> fover (fetches s f) = None).
      { intro Hh. unfold okh in Oh. destruct (fover (fetches s f)); congruence. }
      destruct Ca as (C1 & C2 & C3 & C4 & C5 & C6).
      destruct C6 as [F|[F|F]]; rewrite F in K.
      * inversion K; subst s' e. apply PC; auto; discriminate.
      * assert (U : smono s (setCtx s c (withFut (ctxs s c) (UHas h)))) by (apply smono_ctx; cm).
        destruct h as [i|].
        -- destruct (full maxRef s i); inversion K; subst s' e; [apply OV; apply O; discriminate|].
           eapply smono_trans; [exact U|]. eapply smono_trans; [|apply smono_pc; [|discriminate]].
           ++ apply smono_fields; reflexivity.
           ++ cbn. rewrite P. discriminate.
        -- inversion K; subst s' e. eapply smono_trans; [exact U|]. apply smono_pc; [|discriminate]. cbn. rewrite P. discriminate.
      * destruct h as [i|].
        -- destruct (full maxRef s i); inversion K; subst s' e; [apply OV; apply O; discriminate|apply PC; auto; discriminate].
        -- inversion K; subst s' e. apply PC; auto; discriminate.
    + inversion K; subst s' e. eapply smono_trans; [apply smono_ctx with (c := c) (y := withPosted (ctxs s c) true); cm|].
      apply smono_pc; [|discriminate]. cbn. rewrite P. discriminate.
  - destruct (fit (fetches s f)); inversion K; subst s' e.
    + eapply smono_trans; [|apply smono_pc; [|discriminate]]; [apply smono_fields; reflexivity|]. cbn. rewrite P. discriminate.
    + apply smono_pc; [rewrite P|]; discriminate.
  - destruct rest as [|c r]; [inversion K; subst s' e; apply smono_pc; [rewrite P|]; discriminate|].
    assert (M : smono s (setPc (setCtx s c (withShare (ctxs s c) false)) f (FDrop r))).
    { eapply smono_trans; [apply smono_ctx with (c := c) (y := withShare (ctxs s c) false); cm|].
      apply smono_pc; [|discriminate]. cbn. rewrite P. discriminate. }
    destruct (chold (ctxs s c)); inversion K as [D]; [assumption|].
    eapply smono_trans; [exact M|]. eapply smono_destroy; eassumption.
Qed.

Lemma smono_step : forall s a s' e, WF s -> step maxRef s a = Some (s', e) -> smono s s'.
Proof.
  intros s a s' e W K. destruct a as [|f|f|f|c|c|c|c|c|c|c|c|c|c|k|k]; cbn [step] in K.
  - inversion K as [D]; clear K. unfold doFind in D. destruct (fillmap s) as [f|] eqn:M; inversion D; subst s' e; clear D.
    + unfold smono, setFetch; cbn. split; [lia|]. split; [lia|]. split.
      * intros c Hc. rewrite upd_diff by lia. apply cmono_refl.
      * intros k Hk. unfold upd. destruct (Nat.eqb_spec k f); [subst|apply fmono_refl].
        unfold fmono; cbn. destruct (w_map s W f M) as (_ & P). repeat split; auto; congruence.
    + unfold smono; cbn. split; [lia|]. split; [lia|]. split.
      * intros c Hc. rewrite upd_diff by lia. apply cmono_refl.
      * intros k Hk. rewrite upd_diff by lia. apply fmono_refl.
  - destruct (Nat.ltb_spec f (nf s)) as [Hf|]; [|discriminate].
    destruct (fpcs (fetches s f)) eqn:P; try discriminate. destruct (fit (fetches s f)) eqn:Fi; [discriminate|].
    inversion K; subst s' e; clear K. unfold smono; cbn. split; [lia|]. split; [lia|]. split; intros; [apply cmono_refl|].
    unfold upd. destruct (Nat.eqb_spec f0 f); [subst|apply fmono_refl]. unfold fmono; cbn. repeat split; auto; congruence.
  - destruct (Nat.ltb_spec f (nf s)) as [Hf|]; [|discriminate].
    destruct (fpcs (fetches s f)) eqn:P; try discriminate.
    pose proof (w_map2 s W f Hf P) as M. rewrite M in K. inversion K; subst s' e; clear K.
    eapply smono_trans; [|apply smono_pc; [|discriminate]]; [apply smono_fields; reflexivity|]. cbn. rewrite P. discriminate.
  - destruct (Nat.ltb_spec f (nf s)) as [Hf|]; [|discriminate]. eapply smono_wake; eauto.
  - destruct (mine s c); inversion K; subst s' e. apply smono_refl.
  - destruct (mine s c); inversion K; subst s' e. apply smono_refl.
  - destruct (mine s c) eqn:Mi; [|discriminate].
    destruct (cval (ctxs s c)); inversion K; subst s' e; [apply smono_refl|]. apply smono_ctx; cm.
  - destruct ((c <? nc s) && cwait (ctxs s c) && cposted (ctxs s c)) eqn:B; [|discriminate].
    destruct (cval (ctxs s c)); inversion K; subst s' e. apply smono_ctx; cm.
  - destruct (mine s c) eqn:Mi; [|discriminate].
    destruct (cval (ctxs s c)) as [[i|]|] eqn:V; try discriminate; [|inversion K; subst s' e; apply smono_refl].
    destruct (full maxRef s i); inversion K; subst s' e; [apply smono_refl|apply smono_fields; reflexivity].
  - destruct (mine s c) eqn:Mi; [|discriminate]. destruct (mine_inv _ _ Mi) as (Hc & Ho & Wa & Fu).
    destruct (cval (ctxs s c)) as [[i|]|] eqn:V; try discriminate; [|inversion K; eapply smono_letGo; eauto].
    set (s2 := setPlain (adjust (setCtx s c (withVal (ctxs s c) (Some None))) 1) (plain (adjust (setCtx s c (withVal (ctxs s c) (Some None))) 1) ++ [i])) in *.
    assert (L : letGo s2 c = (s', e)) by congruence. clear K. unfold letGo in L.
    assert (M : smono s (setCtx s2 c (withHold (ctxs s2 c) false))).
    { unfold smono, s2; cbn. split; [lia|]. split; [lia|]. split; intros; [|apply fmono_refl].
      unfold upd. rewrite Nat.eqb_refl. destruct (Nat.eqb_spec c0 c); [subst|apply cmono_refl]. cm. }
    destruct (cshare (ctxs s2 c)); [inversion L; subst s' e; exact M|].
    eapply smono_trans; [exact M|]. eapply smono_destroy; eassumption.
  - destruct (mine s c) eqn:Mi; [|discriminate]. destruct (mine_inv _ _ Mi) as (Hc & Ho & Wa & Fu).
    destruct (cval (ctxs s c)) eqn:V; inversion K; subst s' e; [apply smono_refl|]. apply smono_ctx; cm.
  - destruct ((c <? nc s) && chold (ctxs s c) && negb (cwait (ctxs s c))) eqn:B; [|discriminate].
    inversion K. eapply smono_letGo; eauto.
  - destruct (cfut (ctxs s c)) as [| |v| | |] eqn:U; try discriminate.
    destruct (c <? nc s); [|discriminate].
    assert (M : smono s (setCtx s c (withFut (ctxs s c) UDone))) by (apply smono_ctx; cm).
    destruct v; inversion K; subst s' e; [|assumption]. eapply smono_trans; [exact M|]. apply smono_fields; reflexivity.
  - destruct (c <? nc s); [|discriminate].
    destruct (cfut (ctxs s c)) as [| |v| | |] eqn:U; try discriminate.
    + inversion K; subst s' e. apply smono_ctx; cm.
    + assert (M : smono s (setCtx s c (withFut (ctxs s c) UDone))) by (apply smono_ctx; cm).
      destruct v; inversion K; subst s' e; [|assumption]. eapply smono_trans; [exact M|]. apply smono_fields; reflexivity.
  - destruct (nth_error (plain s) k) as [i|]; [|discriminate].
    destruct (full maxRef s i); inversion K; subst s' e; [apply smono_refl|apply smono_fields; reflexivity].
  - destruct (nth_error (plain s) k) as [i|]; [|discriminate].
    inversion K; subst s' e. apply smono_fields; reflexivity.
Qed.
End R.
