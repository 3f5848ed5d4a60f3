(** Events of a step. *)
From Coq Require Import List Arith ZArith Bool Lia.
Import ListNotations.
From Verif Require Import AsyncHdl_model AsyncHdl_spec AsyncHdl_proofs1 AsyncHdl_proofs2 AsyncHdl_proofs5.

Definition isSome {A} (o : option A) : bool := match o with Some _ => true | None => false end.
Definition evOK (s s' : state) (x : event) : Prop :=
  match x with
  | EFind c f => nc s <= c < nc s' /\ cfetch (ctxs s' c) = f
  | EFilled f i => f < nf s /\ fpcs (fetches s f) = FOpen /\ fit (fetches s f) = None /\ fit (fetches s' f) = Some i
  | EOver f c => f < nf s /\ fover (fetches s f) = None /\ fover (fetches s' f) = Some c
  | EReady c b => c < nc s /\ b = isSome (cval (ctxs s c))
  | EWent c r b => c < nc s /\ r = isSome (cval (ctxs s c)) /\ b = cflag (ctxs s c)
  | EGot c v => c < nc s /\ chold (ctxs s c) = true /\ cval (ctxs s c) = Some v /\ cfut (ctxs s c) = UNone
  | EFut c v => c < nc s /\ cfut (ctxs s c) = UPend /\ cfut (ctxs s' c) = UHas v /\ cval (ctxs s c) <> None /\
                okh (fetches s (cfetch (ctxs s c))) v /\ fpcs (fetches s (cfetch (ctxs s c))) <> FOpen
  | ETaken c v => c < nc s /\ cfut (ctxs s c) = UHas v /\ cfut (ctxs s' c) = UDone
  | EClosed f => f < nf s /\ fpcs (fetches s' f) = FDone
  | EBroken c | EUnresolved c => c < nc s /\ fover (fetches s (cfetch (ctxs s c))) = Some c
  | _ => True
  end.

(** No event of [b] may come after [a]. *)
Definition notafter (a b : event) : Prop :=
  match a, b with
  | EReady c true, EReady d false => c <> d
  | EGot c _, EReady d false => c <> d
  | EFut c _, EFut d _ => c <> d
  | _, _ => True
  end.

Definition newfit (s s' : state) (e : list event) : Prop :=
  forall f i, f < nf s' -> fit (fetches s' f) = Some i -> (f < nf s /\ fit (fetches s f) = Some i) \/ In (EFilled f i) e.
Definition newover (s s' : state) (e : list event) : Prop :=
  forall f c, f < nf s' -> fover (fetches s' f) = Some c -> (f < nf s /\ fover (fetches s f) = Some c) \/ In (EOver f c) e.
Definition newhas (s s' : state) (e : list event) : Prop :=
  forall c v, c < nc s' -> cfut (ctxs s' c) = UHas v -> (c < nc s /\ cfut (ctxs s c) = UHas v) \/ In (EFut c v) e.
Definition evs (s s' : state) (e : list event) : Prop :=
  (forall x, In x e -> evOK s s' x) /\ newfit s s' e /\ newover s s' e /\ newhas s s' e /\ ForallOrdPairs notafter e.

Definition quietF (s s' : state) : Prop :=
  nf s' = nf s /\ forall f, f < nf s -> fit (fetches s' f) = fit (fetches s f) /\ fover (fetches s' f) = fover (fetches s f).
Definition quietC (s s' : state) : Prop :=
  nc s' = nc s /\ forall c v, c < nc s -> cfut (ctxs s' c) = UHas v -> cfut (ctxs s c) = UHas v.
Lemma qF_fit : forall s s' e, quietF s s' -> newfit s s' e.
Proof. intros s s' e (A & B) f i Hf E. rewrite A in Hf. left. split; [assumption|]. destruct (B f Hf). congruence. Qed.
Lemma qF_over : forall s s' e, quietF s s' -> newover s s' e.
Proof. intros s s' e (A & B) f i Hf E. rewrite A in Hf. left. split; [assumption|]. destruct (B f Hf). congruence. Qed.
Lemma qC_has : forall s s' e, quietC s s' -> newhas s s' e.
Proof. intros s s' e (A & B) f i Hf E. rewrite A in Hf. left. split; [assumption|]. auto. Qed.
Lemma evs_quiet : forall s s' e, quietF s s' -> quietC s s' -> (forall x, In x e -> evOK s s' x) -> ForallOrdPairs notafter e -> evs s s' e.
Proof. intros s s' e F C O P. split; [assumption|]. split; [apply qF_fit; assumption|]. split; [apply qF_over; assumption|]. split; [apply qC_has; assumption|assumption]. Qed.

Lemma fop0 : ForallOrdPairs notafter [].
Proof. constructor. Qed.
Lemma fop1 : forall x, ForallOrdPairs notafter [x].
Proof. intro. constructor; constructor. Qed.
Lemma fop_bad : forall (b : bool) l, ForallOrdPairs notafter l -> ForallOrdPairs notafter ((if b then [EBad] else []) ++ l).
Proof. intros [|] l H; [|assumption]. cbn. constructor; [|assumption]. apply Forall_forall. intros x _. exact I. Qed.
Lemma in_bad : forall (b : bool) l x, In x ((if b then [EBad] else []) ++ l) -> x = EBad \/ In x l.
Proof. intros [|] l x H; cbn in H; [destruct H; auto|auto]. Qed.

Ltac flds := unfold quietF, quietC, setPc, overflow, setFetch, setCtx, setPlain, setTotal, setRefs, setMap, adjust; cbn; repeat split; auto.

Lemma qF_refl : forall s, quietF s s.
Proof. intro. split; auto. Qed.
Lemma qC_refl : forall s, quietC s s.
Proof. intro. split; auto. Qed.
Lemma qF_trans : forall a b c, quietF a b -> quietF b c -> quietF a c.
Proof. intros a b c (A1 & A2) (B1 & B2). split; [congruence|]. intros f Hf. destruct (A2 f Hf). rewrite <- A1 in Hf. destruct (B2 f Hf). split; congruence. Qed.
Lemma qC_trans : forall a b c, quietC a b -> quietC b c -> quietC a c.
Proof. intros a b c (A1 & A2) (B1 & B2). split; [congruence|]. intros f v Hf E. apply A2; [assumption|]. apply B2; [congruence|assumption]. Qed.
Lemma qF_pc : forall s f p, quietF s (setPc s f p).
Proof. intros s f p. flds; unfold upd; destruct (Nat.eqb_spec f0 f); subst; reflexivity. Qed.
Lemma qC_pc : forall s f p, quietC s (setPc s f p).
Proof. intros. flds. Qed.
Lemma qF_ctx : forall s c y, quietF s (setCtx s c y).
Proof. intros. flds. Qed.
Lemma qC_ctx : forall s c y, (forall v, cfut y = UHas v -> cfut (ctxs s c) = UHas v) -> quietC s (setCtx s c y).
Proof. intros s c y H. flds. intros d v _ E. unfold upd in E. destruct (Nat.eqb_spec d c); subst; auto. Qed.
Lemma qF_fields : forall s s', nf s' = nf s -> fetches s' = fetches s -> quietF s s'.
Proof. intros s s' A B. split; [assumption|]. intros f _. rewrite B. auto. Qed.
Lemma qC_fields : forall s s', nc s' = nc s -> ctxs s' = ctxs s -> quietC s s'.
Proof. intros s s' A B. split; [assumption|]. intros f v _. rewrite B. auto. Qed.

Lemma destroy_ev : forall s c s' e, destroyCtx s c = (s', e) ->
  quietF s s' /\ quietC s s' /\ ForallOrdPairs notafter e /\
  forall x, In x e -> x = EBad \/ (x = EUnresolved c /\ cval (ctxs s c) = None) \/ (x = EBroken c /\ cfut (ctxs s c) = UPend).
Proof.
  intros s c s' e D. unfold destroyCtx in D.
  assert (G : quietF s s' /\ quietC s s').
  { destruct (cval (ctxs s c)) as [[i|]|]; cbn in D; destruct (cfut (ctxs s c)) eqn:U; inversion D; subst s' e; clear D;
    (split; [apply qF_fields; reflexivity|]); try (apply qC_fields; reflexivity).
    - eapply qC_trans; [|apply qC_ctx; cbn; discriminate]. apply qC_fields; reflexivity.
    - apply qC_ctx; cbn; discriminate.
    - apply qC_ctx; cbn; discriminate. }
  destruct G as (G1 & G2). split; [assumption|]. split; [assumption|]. clear G1 G2.
  split.
  - destruct (cval (ctxs s c)) as [[i|]|]; cbn in D; destruct (cfut (ctxs s c)) eqn:U; inversion D; subst s' e; clear D;
      try apply fop0; try apply fop1.
    + rewrite <- app_nil_r. apply fop_bad. apply fop0.
    + apply fop_bad. apply fop1.
    + rewrite <- app_nil_r. apply fop_bad. apply fop0.
    + rewrite <- app_nil_r. apply fop_bad. apply fop0.
    + rewrite <- app_nil_r. apply fop_bad. apply fop0.
    + rewrite <- app_nil_r. apply fop_bad. apply fop0.
    + constructor; [|apply fop1]. constructor; [exact I|constructor].
  - intros x I. destruct (cval (ctxs s c)) as [[i|]|]; cbn in D; destruct (cfut (ctxs s c)) eqn:U; inversion D; subst s' e; clear D;
      try (rewrite <- app_nil_r in I; apply in_bad in I); cbn in I; try apply in_bad in I; cbn in I; intuition.
Qed.

Lemma victim_over : forall g c x, doneC g c x -> cval x = None \/ cfut x = UPend -> fover g = Some c.
Proof.
  intros g c x [V|((V & U & _) & _)] H; [apply V|]. destruct V as (v & V & _). destruct H; congruence.
Qed.
Lemma noshare : forall s c, WF s -> c < nc s -> cshare (ctxs s c) = false -> doneC (fetches s (cfetch (ctxs s c))) c (ctxs s c).
Proof.
  intros s c W Hc S. pose proof (w_cf s W c Hc) as Hf. set (f := cfetch (ctxs s c)) in *.
  assert (I : In c (fwait (fetches s f))) by (apply (w_wait s W f c Hf); auto).
  pose proof (w_ok s W f Hf) as OK. unfold fetchOK in OK.
  destruct (fpcs (fetches s f)) as [|rest sb| |rest|] eqn:P.
  - destruct OK as (_ & OK). destruct (OK c I) as (_ & _ & _ & X & _). congruence.
  - destruct OK as (dn & Ew & Hd & Ho & R). rewrite Ew in I. apply in_app_or in I. destruct I as [I|I]; [destruct (Hd c I); congruence|].
    destruct rest as [|d r]; [destruct I|]. destruct R as (R1 & R2). destruct I as [->|I]; [|destruct (R1 c I) as (_ & _ & _ & X & _); congruence].
    destruct sb.
    + destruct R2 as (_ & _ & _ & X & _); congruence.
    + destruct R2 as ((_ & _ & _ & X & _) & _); congruence.
    + destruct R2 as ((_ & _ & _ & _ & X & _) & _); congruence.
    + destruct R2 as (_ & _ & X); congruence.
  - destruct (OK c I); congruence.
  - destruct OK as (dn & Ew & Hd & Hr). rewrite Ew in I. apply in_app_or in I. destruct I as [I|I]; [apply Hd; assumption|destruct (Hr c I); congruence].
  - apply OK. assumption.
Qed.

Lemma letGo_evs : forall s c s' e, WF s -> c < nc s -> letGo s c = (s', e) -> evs s s' e.
Proof.
  intros s c s' e W Hc L. unfold letGo in L.
  assert (A : quietF s (setCtx s c (withHold (ctxs s c) false))) by apply qF_ctx.
  assert (B : quietC s (setCtx s c (withHold (ctxs s c) false))) by (apply qC_ctx; cbn; auto).
  destruct (cshare (ctxs s c)) eqn:S; [inversion L; subst s' e; apply evs_quiet; auto; [intros x []|apply fop0]|].
  apply destroy_ev in L. destruct L as (L1 & L2 & L3 & L4).
  apply evs_quiet; [eapply qF_trans; eassumption|eapply qC_trans; eassumption| |assumption].
  intros x I. specialize (L4 x I). unfold setCtx in L4; cbn in L4. rewrite upd_same in L4. cbn in L4.
  pose proof (noshare s c W Hc S) as N.
  destruct L4 as [->|[(-> & V)|(-> & V)]]; cbn; [trivial|..]; (split; [assumption|eapply victim_over; [exact N|auto]]).
Qed.

Section R.
Variable maxRef : nat.

Lemma wake_evs : forall s f s' e, WF s -> f < nf s -> wake maxRef s f = Some (s', e) -> evs s s' e.
Proof.
  intros s f s' e W Hf K. pose proof (w_ok s W f Hf) as OK. unfold wake in K. unfold fetchOK in OK.
  assert (PC : forall t p, nc t = nc s -> nf t = nf s -> ctxs t = ctxs s -> fetches t = fetches s ->
               quietF s (setPc t f p) /\ quietC s (setPc t f p)).
  { intros t p T1 T2 T3 T4. split.
    - eapply qF_trans; [apply qF_fields; eassumption|apply qF_pc].
    - eapply qC_trans; [apply qC_fields; eassumption|apply qC_pc]. }
  assert (PN : forall t p, nc t = nc s -> nf t = nf s -> ctxs t = ctxs s -> fetches t = fetches s -> evs s (setPc t f p) []).
  { intros t p T1 T2 T3 T4. destruct (PC t p T1 T2 T3 T4). apply evs_quiet; auto; [intros x []|apply fop0]. }
  assert (PB : forall t p (b : bool), nc t = nc s -> nf t = nf s -> ctxs t = ctxs s -> fetches t = fetches s -> evs s (setPc t f p) (if b then [EBad] else [])).
  { intros t p b T1 T2 T3 T4. destruct (PC t p T1 T2 T3 T4). apply evs_quiet; auto.
    - intros x I. destruct b; [destruct I as [<-|[]]; exact Logic.I|destruct I].
    - destruct b; [apply fop1|apply fop0]. }
  destruct (fpcs (fetches s f)) as [|rest sb| |rest|] eqn:P; try discriminate.
  - destruct OK as (dn & Ew & Hd & Ho & R).
    assert (OV : forall c r, fover (fetches s f) = None -> evs s (overflow s f c r) [EOver f c]).
    { intros c r O. unfold evs.
      split; [intros x [<-|[]]; cbn; rewrite upd_same; auto|].
      split; [intros k d Hk E; unfold overflow, setFetch in E; cbn in E; unfold upd in E; destruct (Nat.eqb_spec k f); subst; left; auto|]. split.
      - intros k d Hk E. unfold overflow, setFetch in E; cbn in E. unfold upd in E. destruct (Nat.eqb_spec k f); [subst; inversion E; subst; right; left; reflexivity|left; auto].
      - split; [apply qC_has; flds|apply fop1]. }
    destruct rest as [|c r]; [inversion K; subst s' e; apply PN; reflexivity|].
    destruct (headin s f dn c r W Hf Ew) as (Hc & Cf & Nd & Nr). destruct R as (Rr & Rc).
    destruct sb as [|h b|h|].
    + destruct (fover (fetches s f)) as [v|] eqn:O; [inversion K; subst s' e; apply PN; reflexivity|].
      destruct (fit (fetches s f)) as [i|] eqn:Fi; [|inversion K; subst s' e; apply PN; reflexivity].
      destruct (full maxRef s i); inversion K; subst s' e; [apply OV; reflexivity|apply PB; reflexivity].
    + inversion K; subst s' e; clear K. apply evs_quiet; [| |intros x []|apply fop0].
      * eapply qF_trans; [|apply qF_pc]. destruct h; apply qF_fields; reflexivity.
      * eapply qC_trans; [apply qC_ctx with (c := c) (y := withFlag (withVal (ctxs s c) (Some h)) b); cbn; auto|].
        eapply qC_trans; [|apply qC_pc]. destruct h; apply qC_fields; reflexivity.
    + destruct Rc as (Ca & Oh).
      assert (O : h <> None -> fover (fetches s f) = None).
      { intro Hh. unfold okh in Oh. destruct (fover (fetches s f)); congruence. }
      destruct Ca as (C1 & C2 & C3 & C4 & C5 & C6).
      assert (HA : forall t e0, nc t = nc s -> nf t = nf s -> ctxs t = ctxs s -> fetches t = fetches s -> cfut (ctxs s c) = UPend ->
                (forall x, In x e0 -> x = EBad \/ x = EFut c h) -> In (EFut c h) e0 -> ForallOrdPairs notafter e0 ->
                evs s (setPc (setCtx t c (withFut (ctxs s c) (UHas h))) f (FRun (c :: r) SPost)) e0).
      { intros t e0 T1 T2 T3 T4 F E1 E2 E3. unfold evs.
        assert (Q : quietF s (setPc (setCtx t c (withFut (ctxs s c) (UHas h))) f (FRun (c :: r) SPost))).
        { eapply qF_trans; [|apply qF_pc]. eapply qF_trans; [|apply qF_ctx]. apply qF_fields; assumption. }
        split; [|split; [apply qF_fit; assumption|split; [apply qF_over; assumption|split; [|assumption]]]].
        - intros x I. destruct (E1 x I) as [->| ->]; [exact Logic.I|]. unfold evOK, setPc, setFetch, setCtx; cbn. rewrite T3, upd_same. cbn. rewrite Cf, P.
          repeat split; auto; discriminate.
        - intros d v Hd' E. unfold setPc, setFetch, setCtx in Hd', E; cbn in Hd', E. rewrite T1 in Hd'. rewrite T3 in E. unfold upd in E.
          destruct (Nat.eqb_spec d c); [subst|left; auto]. cbn in E. inversion E; subst. right. assumption. }
      destruct C6 as [F|[F|F]]; rewrite F in K.
      * inversion K; subst s' e. apply PN; reflexivity.
      * destruct h as [i|].
        -- destruct (full maxRef s i); inversion K; subst s' e; [apply OV; apply O; discriminate|].
           apply HA; auto.
           ++ intros x I. apply in_bad in I. destruct I as [I|[I|[]]]; auto.
           ++ apply in_or_app. right. left. reflexivity.
           ++ apply fop_bad. apply fop1.
        -- inversion K; subst s' e. apply HA; auto; [intros x [<-|[]]; auto|left; reflexivity|apply fop1].
      * destruct h as [i|].
        -- destruct (full maxRef s i); inversion K; subst s' e; [apply OV; apply O; discriminate|].
           match goal with |- evs s (setPc ?t f ?p) ?l => destruct (PC t p eq_refl eq_refl eq_refl eq_refl) end.
           apply evs_quiet; auto.
           ++ intros x I. apply in_bad in I. destruct I as [->|I]; [exact Logic.I|]. apply in_bad in I. destruct I as [->|[<-|[]]]; exact Logic.I.
           ++ apply fop_bad, fop_bad, fop1.
        -- inversion K; subst s' e. apply PN; reflexivity.
    + inversion K; subst s' e. apply evs_quiet; [| |intros x []|apply fop0].
      * eapply qF_trans; [|apply qF_pc]. apply qF_fields; reflexivity.
      * eapply qC_trans; [apply qC_ctx with (c := c) (y := withPosted (ctxs s c) true); cbn; auto|apply qC_pc].
  - destruct (fit (fetches s f)); inversion K; subst s' e; [apply PB|apply PN]; reflexivity.
  - destruct rest as [|c r].
    { inversion K; subst s' e. destruct (PC s FDone eq_refl eq_refl eq_refl eq_refl). apply evs_quiet; auto; [|apply fop1].
      intros x [<-|[]]. cbn. unfold setPc, setFetch; cbn. rewrite upd_same. auto. }
    destruct OK as (dn & Ew & Hd & Hr). destruct (headin s f dn c r W Hf Ew) as (Hc & Cf & Nd & Nr).
    assert (A : quietF s (setPc (setCtx s c (withShare (ctxs s c) false)) f (FDrop r))) by (eapply qF_trans; [|apply qF_pc]; apply qF_fields; reflexivity).
    assert (B : quietC s (setPc (setCtx s c (withShare (ctxs s c) false)) f (FDrop r))) by (eapply qC_trans; [apply qC_ctx with (c := c) (y := withShare (ctxs s c) false); cbn; auto|apply qC_pc]).
    destruct (chold (ctxs s c)); inversion K as [D]; clear K; [subst s' e; apply evs_quiet; auto; [intros x []|apply fop0]|].
    apply destroy_ev in D. destruct D as (L1 & L2 & L3 & L4).
    apply evs_quiet; [eapply qF_trans; eassumption|eapply qC_trans; eassumption| |assumption].
    intros x I. specialize (L4 x I). unfold setPc, setFetch, setCtx in L4; cbn in L4. rewrite upd_same in L4. cbn in L4.
    destruct (Hr c (or_introl eq_refl)) as (N & _).
    destruct L4 as [->|[(-> & V)|(-> & V)]]; cbn; [trivial|..]; (split; [assumption|rewrite Cf; eapply victim_over; [exact N|auto]]).
Qed.

Lemma step_evs : forall s a s' e, WF s -> step maxRef s a = Some (s', e) -> evs s s' e.
Proof.
  intros s a s' e W K. destruct a as [|f|f|f|c|c|c|c|c|c|c|c|c|c|k|k]; cbn [step] in K.
  - inversion K as [D]; clear K. unfold doFind in D. destruct (fillmap s) as [f|] eqn:M; inversion D; subst s' e; clear D; unfold evs.
    + assert (Q : forall t, t = mkS (refs s) (total s) (fillmap s) (upd (fetches s) f (mkF (fwait (fetches s f) ++ [nc s]) (fpcs (fetches s f)) (fit (fetches s f)) (fover (fetches s f)))) (nf s)
                      (upd (ctxs s) (nc s) (mkC f None false false UNone false true true)) (S (nc s)) (plain s) (nitem s) -> quietF s t).
      { intros t ->. flds; unfold upd; destruct (Nat.eqb_spec f0 f); subst; reflexivity. }
      split; [intros x [<-|[]]; cbn; rewrite upd_same; cbn; split; [lia|reflexivity]|].
      split; [apply qF_fit; apply Q; reflexivity|]. split; [apply qF_over; apply Q; reflexivity|]. split; [|apply fop1].
      intros d v Hd E. cbn in *. unfold upd in E. destruct (Nat.eqb_spec d (nc s)); [discriminate|]. left. split; [lia|assumption].
    + split; [intros x [<-|[]]; cbn; rewrite upd_same; cbn; split; [lia|reflexivity]|].
      split; [|split; [|split; [|apply fop1]]].
      * intros k i Hk E. cbn in *. unfold upd in E. destruct (Nat.eqb_spec k (nf s)); [discriminate|]. left. split; [lia|assumption].
      * intros k i Hk E. cbn in *. unfold upd in E. destruct (Nat.eqb_spec k (nf s)); [discriminate|]. left. split; [lia|assumption].
      * intros d v Hd E. cbn in *. unfold upd in E. destruct (Nat.eqb_spec d (nc s)); [discriminate|]. left. split; [lia|assumption].
  - destruct (Nat.ltb_spec f (nf s)) as [Hf|]; [|discriminate].
    destruct (fpcs (fetches s f)) eqn:P; try discriminate. destruct (fit (fetches s f)) eqn:Fi; [discriminate|].
    inversion K; subst s' e; clear K. unfold evs.
    split; [intros x [<-|[]]; cbn; rewrite upd_same; auto|].
    split; [|split; [|split; [apply qC_has; flds|apply fop1]]].
    + intros k i Hk E. cbn in *. unfold upd in E. destruct (Nat.eqb_spec k f); [subst; inversion E; auto|auto].
    + intros k i Hk E. cbn in *. unfold upd in E. destruct (Nat.eqb_spec k f); [subst; auto|auto].
  - destruct (Nat.ltb_spec f (nf s)) as [Hf|]; [|discriminate].
    destruct (fpcs (fetches s f)) eqn:P; try discriminate.
    pose proof (w_map2 s W f Hf P) as M. rewrite M in K. inversion K; subst s' e; clear K.
    apply evs_quiet; [| |intros x []|apply fop0].
    + eapply qF_trans; [|apply qF_pc]. apply qF_fields; reflexivity.
    + eapply qC_trans; [|apply qC_pc]. apply qC_fields; reflexivity.
  - destruct (Nat.ltb_spec f (nf s)) as [Hf|]; [|discriminate]. eapply wake_evs; eauto.
  - destruct (mine s c) eqn:Mi; inversion K; subst s' e. destruct (mine_inv _ _ Mi) as (Hc & _).
    apply evs_quiet; [apply qF_refl|apply qC_refl| |apply fop1]. intros x [<-|[]]. split; auto.
  - destruct (mine s c) eqn:Mi; inversion K; subst s' e. destruct (mine_inv _ _ Mi) as (Hc & _).
    apply evs_quiet; [apply qF_refl|apply qC_refl| |apply fop1]. intros x [<-|[]]. repeat split; auto.
  - destruct (mine s c) eqn:Mi; [|discriminate]. destruct (mine_inv _ _ Mi) as (Hc & Ho & Wa & Fu).
    destruct (cval (ctxs s c)) eqn:V; inversion K; subst s' e.
    + apply evs_quiet; [apply qF_refl|apply qC_refl| |apply fop1]. intros x [<-|[]]. repeat split; auto.
    + apply evs_quiet; [apply qF_ctx|apply qC_ctx; cbn; auto| |apply fop1]. intros x [<-|[]]. exact I.
  - destruct ((c <? nc s) && cwait (ctxs s c) && cposted (ctxs s c)) eqn:B; [|discriminate].
    apply andb_prop in B. destruct B as [B _]. apply andb_prop in B. destruct B as [B B2]. apply Nat.ltb_lt in B.
    destruct (w_blk s W c B B2). destruct (cval (ctxs s c)) eqn:V; inversion K; subst s' e.
    apply evs_quiet; [apply qF_ctx|apply qC_ctx; cbn; auto| |apply fop1]. intros x [<-|[]]. repeat split; auto.
  - destruct (mine s c) eqn:Mi; [|discriminate].
    destruct (cval (ctxs s c)) as [[i|]|] eqn:V; try discriminate; [|inversion K; subst s' e; apply evs_quiet; [apply qF_refl|apply qC_refl|intros x []|apply fop0]].
    destruct (full maxRef s i); inversion K; subst s' e.
    + apply evs_quiet; [apply qF_refl|apply qC_refl| |apply fop1]. intros x [<-|[]]. exact I.
    + apply evs_quiet; [apply qF_fields; reflexivity|apply qC_fields; reflexivity| |].
      * intros x I. destruct (refs s i =? 0); [destruct I as [<-|[]]; exact Logic.I|destruct I].
      * destruct (refs s i =? 0); [apply fop1|apply fop0].
  - destruct (mine s c) eqn:Mi; [|discriminate]. destruct (mine_inv _ _ Mi) as (Hc & Ho & Wa & Fu).
    destruct (cval (ctxs s c)) as [[i|]|] eqn:V; try discriminate; [|inversion K; eapply letGo_evs; eauto].
    set (s2 := setPlain (adjust (setCtx s c (withVal (ctxs s c) (Some None))) 1) (plain (adjust (setCtx s c (withVal (ctxs s c) (Some None))) 1) ++ [i])) in *.
    assert (L : letGo s2 c = (s', e)) by congruence. clear K. unfold letGo in L.
    assert (X : ctxs s2 c = withVal (ctxs s c) (Some None)) by (unfold s2; cbn; apply upd_same). rewrite X in L.
    assert (A : quietF s (setCtx s2 c (withHold (withVal (ctxs s c) (Some None)) false))) by (apply qF_fields; reflexivity).
    assert (B : quietC s (setCtx s2 c (withHold (withVal (ctxs s c) (Some None)) false))).
    { eapply qC_trans; [apply qC_ctx with (c := c) (y := withVal (ctxs s c) (Some None)); cbn; auto|].
      eapply qC_trans; [apply qC_fields with (s' := s2); reflexivity|]. apply qC_ctx. rewrite X. cbn. auto. }
    destruct (cshare (withVal (ctxs s c) (Some None))); [inversion L; subst s' e; apply evs_quiet; auto; [intros x []|apply fop0]|].
    apply destroy_ev in L. destruct L as (L1 & L2 & L3 & L4).
    apply evs_quiet; [eapply qF_trans; eassumption|eapply qC_trans; eassumption| |assumption].
    intros x I. specialize (L4 x I). unfold setCtx in L4; cbn in L4. rewrite upd_same in L4. cbn in L4.
    destruct L4 as [->|[(-> & Y)|(-> & Y)]]; [exact Logic.I|discriminate|congruence].
  - destruct (mine s c) eqn:Mi; [|discriminate]. destruct (mine_inv _ _ Mi) as (Hc & Ho & Wa & Fu).
    destruct (cval (ctxs s c)) eqn:V; inversion K; subst s' e.
    + apply evs_quiet; [apply qF_refl|apply qC_refl| |apply fop1]. intros x [<-|[]]. repeat split; auto.
    + apply evs_quiet; [apply qF_ctx|apply qC_ctx; cbn; discriminate| |apply fop1]. intros x [<-|[]]. exact I.
  - destruct ((c <? nc s) && chold (ctxs s c) && negb (cwait (ctxs s c))) eqn:B; [|discriminate].
    apply andb_prop in B. destruct B as [B _]. apply andb_prop in B. destruct B as [B _]. apply Nat.ltb_lt in B.
    inversion K. eapply letGo_evs; eauto.
  - destruct (cfut (ctxs s c)) as [| |v| | |] eqn:U; try discriminate.
    destruct (Nat.ltb_spec c (nc s)) as [Hc|]; [|discriminate].
    assert (A : quietF s (setCtx s c (withFut (ctxs s c) UDone))) by apply qF_ctx.
    assert (B : quietC s (setCtx s c (withFut (ctxs s c) UDone))) by (apply qC_ctx; cbn; discriminate).
    destruct v; inversion K; subst s' e; apply evs_quiet; auto; try apply fop1;
      try (intros x [<-|[]]; cbn; rewrite upd_same; auto).
  - destruct (Nat.ltb_spec c (nc s)) as [Hc|]; [|discriminate].
    destruct (cfut (ctxs s c)) as [| |v| | |] eqn:U; try discriminate.
    + inversion K; subst s' e. apply evs_quiet; [apply qF_ctx|apply qC_ctx; cbn; discriminate|intros x []|apply fop0].
    + assert (A : quietF s (setCtx s c (withFut (ctxs s c) UDone))) by apply qF_ctx.
      assert (B : quietC s (setCtx s c (withFut (ctxs s c) UDone))) by (apply qC_ctx; cbn; discriminate).
      destruct v; inversion K; subst s' e; apply evs_quiet; auto; try apply fop0.
      * intros x I. apply in_bad in I. destruct I as [->|[<-|[]]]; exact Logic.I.
      * apply fop_bad, fop1.
      * intros x [].
  - destruct (nth_error (plain s) k) as [i|]; [|discriminate].
    destruct (full maxRef s i); inversion K; subst s' e.
    + apply evs_quiet; [apply qF_refl|apply qC_refl| |apply fop1]. intros x [<-|[]]. exact I.
    + apply evs_quiet; [apply qF_fields; reflexivity|apply qC_fields; reflexivity| |].
      * intros x I. destruct (refs s i =? 0); [destruct I as [<-|[]]; exact Logic.I|destruct I].
      * destruct (refs s i =? 0); [apply fop1|apply fop0].
  - destruct (nth_error (plain s) k) as [i|]; [|discriminate].
    inversion K; subst s' e. apply evs_quiet; [apply qF_fields; reflexivity|apply qC_fields; reflexivity| |].
    + intros x I. destruct (refs s i =? 0); [destruct I as [<-|[]]; exact Logic.I|destruct I].
    + destruct (refs s i =? 0); [apply fop1|apply fop0].
Qed.
End R.
