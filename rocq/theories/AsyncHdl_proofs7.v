(** The trace and the state; the theorems of C44. *)
From Coq Require Import List Arith ZArith Bool Lia.
Import ListNotations.
From Verif Require Import AsyncHdl_model AsyncHdl_spec AsyncHdl_proofs1 AsyncHdl_proofs2 AsyncHdl_proofs3 AsyncHdl_proofs4 AsyncHdl_proofs5 AsyncHdl_proofs6.

Lemma val_ok : forall s c v, WF s -> c < nc s -> cval (ctxs s c) = Some v ->
  fpcs (fetches s (cfetch (ctxs s c))) <> FOpen /\
  (chold (ctxs s c) = true -> okv (fetches s (cfetch (ctxs s c))) v) /\
  (cflag (ctxs s c) = true \/ fover (fetches s (cfetch (ctxs s c))) <> None).
Proof.
  intros s c v W Hc V. pose proof (w_cf s W c Hc) as Hf. set (f := cfetch (ctxs s c)) in *.
  assert (I : In c (fwait (fetches s f))) by (apply (w_wait s W f c Hf); auto).
  assert (VD : valued (fetches s f) (ctxs s c) -> (chold (ctxs s c) = true -> okv (fetches s f) v) /\
              (cflag (ctxs s c) = true \/ fover (fetches s f) <> None)).
  { intros (w & A & B & C). rewrite V in A. inversion A; subst w. auto. }
  assert (DN : doneC (fetches s f) c (ctxs s c) -> (chold (ctxs s c) = true -> okv (fetches s f) v) /\
              (cflag (ctxs s c) = true \/ fover (fetches s f) <> None)).
  { intros [(_ & _ & [X|X] & _)|((X & _) & _)]; [congruence|auto|auto]. }
  pose proof (w_ok s W f Hf) as OK. unfold fetchOK in OK.
  destruct (fpcs (fetches s f)) as [|rest sb| |rest|] eqn:P.
  - destruct OK as (_ & OK). destruct (OK c I) as (X & _). congruence.
  - split; [discriminate|]. destruct OK as (dn & Ew & Hd & Ho & R). rewrite Ew in I. apply in_app_or in I.
    destruct I as [I|I]; [destruct (Hd c I); auto|].
    destruct rest as [|d r]; [destruct I|]. destruct R as (R1 & R2). destruct I as [->|I]; [|destruct (R1 c I) as (X & _); congruence].
    destruct sb as [|h b|h|].
    + destruct R2 as (X & _); congruence.
    + destruct R2 as ((X & _) & _); congruence.
    + destruct R2 as ((_ & C2 & C3 & _) & Oh). split; [|assumption]. intro H. specialize (C2 H). rewrite V in C2. inversion C2; subst. apply okh_okv. assumption.
    + destruct R2 as ((X & _) & _). auto.
  - split; [discriminate|]. destruct (OK c I); auto.
  - split; [discriminate|]. destruct OK as (dn & Ew & Hd & Hr). rewrite Ew in I. apply in_app_or in I. destruct I as [I|I]; [destruct (Hd c I); auto|destruct (Hr c I); auto].
  - split; [discriminate|]. destruct (OK c I); auto.
Qed.

Lemma okv_mono : forall g g' v, fmono g g' -> fpcs g <> FOpen -> okv g v -> okv g' v.
Proof.
  intros g g' v (A1 & A2 & A3 & A4) N [H|(H & H')]; destruct (A2 N) as (B & C); [left; congruence|].
  right. split; [assumption|]. destruct (fover g) as [c|] eqn:E; [|congruence]. rewrite (A3 c eq_refl). discriminate.
Qed.

Record TL (s : state) (tr : list event) : Prop := {
  t_find : forall c f, In (EFind c f) tr -> c < nc s /\ cfetch (ctxs s c) = f;
  t_fill : forall f i, In (EFilled f i) tr -> f < nf s /\ fit (fetches s f) = Some i;
  t_fill2 : forall f i, f < nf s -> fit (fetches s f) = Some i -> In (EFilled f i) tr;
  t_over : forall f c, In (EOver f c) tr -> f < nf s /\ fover (fetches s f) = Some c;
  t_over2 : forall f c, f < nf s -> fover (fetches s f) = Some c -> In (EOver f c) tr;
  t_ready : forall c, In (EReady c true) tr -> c < nc s /\ cval (ctxs s c) <> None;
  t_got : forall c v, In (EGot c v) tr -> c < nc s /\ cval (ctxs s c) <> None /\
          (chold (ctxs s c) = true -> cval (ctxs s c) = Some v) /\ cfut (ctxs s c) = UNone /\
          okv (fetches s (cfetch (ctxs s c))) v /\ fpcs (fetches s (cfetch (ctxs s c))) <> FOpen;
  t_fut : forall c v, In (EFut c v) tr -> c < nc s /\ (cfut (ctxs s c) = UHas v \/ cfut (ctxs s c) = UDone) /\
          okv (fetches s (cfetch (ctxs s c))) v /\ fpcs (fetches s (cfetch (ctxs s c))) <> FOpen;
  t_taken : forall c v, In (ETaken c v) tr -> In (EFut c v) tr;
  t_has : forall c v, c < nc s -> cfut (ctxs s c) = UHas v -> In (EFut c v) tr;
  t_same : forall c v w, (In (EGot c v) tr \/ In (EFut c v) tr) -> (In (EGot c w) tr \/ In (EFut c w) tr) -> v = w;
  t_closed : forall f, In (EClosed f) tr -> f < nf s /\ fpcs (fetches s f) = FDone;
  t_vic : forall c, (In (EBroken c) tr \/ In (EUnresolved c) tr) -> c < nc s /\ fover (fetches s (cfetch (ctxs s c))) = Some c;
  t_went : forall c b, In (EWent c true b) tr -> c < nc s /\ (b = true \/ fover (fetches s (cfetch (ctxs s c))) <> None);
  t_fop : ForallOrdPairs notafter tr
}.

Lemma fop_app : forall l1 l2, ForallOrdPairs notafter l1 -> ForallOrdPairs notafter l2 ->
  (forall x y, In x l1 -> In y l2 -> notafter x y) -> ForallOrdPairs notafter (l1 ++ l2).
Proof.
  induction l1 as [|a l1 IH]; intros l2 H1 H2 H; [assumption|]. inversion H1; subst. cbn. constructor.
  - apply Forall_forall. intros x I. apply in_app_or in I. destruct I as [I|I].
    + rewrite Forall_forall in H4. auto.
    + apply H; [left; reflexivity|assumption].
  - apply IH; auto. intros. apply H; [right|]; assumption.
Qed.

Section R.
Variable maxRef : nat.

Lemma TL_step : forall s tr a s' e, WF s -> TL s tr -> step maxRef s a = Some (s', e) -> TL s' (tr ++ e).
Proof.
  intros s tr a s' e W T K.
  pose proof (WF_step maxRef s a s' e W K) as W'.
  pose proof (smono_step maxRef s a s' e W K) as (M1 & M2 & M3 & M4).
  pose proof (step_evs maxRef s a s' e W K) as (EO & NF & NO & NH & FP). clear K.
  destruct T as [T1 T2 T2b T3 T3b T4 T5 T6 T7 T8 T9 T10 T11 T12 T13].
  assert (FM : forall c, c < nc s -> fmono (fetches s (cfetch (ctxs s c))) (fetches s' (cfetch (ctxs s' c)))).
  { intros c Hc. destruct (M3 c Hc) as (E & _). rewrite E. apply M4. apply (w_cf s W). assumption. }
  constructor.
  - intros c f I. apply in_app_or in I. destruct I as [I|I].
    + destruct (T1 c f I) as (A & B). split; [lia|]. destruct (M3 c A) as (E & _). congruence.
    + specialize (EO _ I). cbn in EO. intuition.
  - intros f i I. apply in_app_or in I. destruct I as [I|I].
    + destruct (T2 f i I) as (A & B). split; [lia|]. destruct (M4 f A) as (E & _). auto.
    + specialize (EO _ I). cbn in EO. destruct EO as (A & B & C & D). split; [lia|assumption].
  - intros f i Hf E. apply in_or_app. destruct (NF f i Hf E) as [(A & B)|I]; auto.
  - intros f c I. apply in_app_or in I. destruct I as [I|I].
    + destruct (T3 f c I) as (A & B). split; [lia|]. destruct (M4 f A) as (_ & _ & E & _). auto.
    + specialize (EO _ I). cbn in EO. destruct EO as (A & B & C). split; [lia|assumption].
  - intros f c Hf E. apply in_or_app. destruct (NO f c Hf E) as [(A & B)|I]; auto.
  - intros c I. apply in_app_or in I. destruct I as [I|I].
    + destruct (T4 c I) as (A & B). split; [lia|]. destruct (M3 c A) as (_ & E & _). auto.
    + specialize (EO _ I). cbn in EO. destruct EO as (A & B). split; [lia|]. destruct (M3 c A) as (_ & E & _). apply E.
      intro X. rewrite X in B. discriminate.
  - intros c v I. apply in_app_or in I.
    assert (OLD : c < nc s /\ cval (ctxs s c) <> None /\
          (chold (ctxs s c) = true -> cval (ctxs s c) = Some v) /\ cfut (ctxs s c) = UNone /\
          okv (fetches s (cfetch (ctxs s c))) v /\ fpcs (fetches s (cfetch (ctxs s c))) <> FOpen).
    { destruct I as [I|I]; [auto|]. specialize (EO _ I). cbn in EO. destruct EO as (A & B & C & D).
      destruct (val_ok s c v W A C) as (X & Y & _). repeat split; auto; congruence. }
    destruct OLD as (A & B & C & D & E & F). destruct (M3 c A) as (G1 & G2 & G3 & G4 & G5 & G6).
    pose proof (FM c A) as FMc.
    split; [lia|]. split; [auto|]. split; [intro H; destruct (G3 H) as (H1 & H2); auto|]. split; [auto|].
    split; [eapply okv_mono; eauto|]. destruct FMc as (_ & Z & _). apply Z. assumption.
  - intros c v I. apply in_app_or in I. destruct I as [I|I].
    + destruct (T6 c v I) as (A & B & C & D). destruct (M3 c A) as (G1 & G2 & G3 & G4 & G5 & G6). pose proof (FM c A) as FMc.
      split; [lia|]. split; [destruct B as [B|B]; [auto|right; auto]|].
      split; [eapply okv_mono; eauto|]. destruct FMc as (_ & Z & _). apply Z. assumption.
    + specialize (EO _ I). cbn in EO. destruct EO as (A & B & C & D & E & F). pose proof (FM c A) as FMc.
      split; [lia|]. split; [auto|]. split; [eapply okv_mono; eauto; apply okh_okv; assumption|].
      destruct FMc as (_ & Z & _). apply Z. assumption.
  - intros c v I. apply in_app_or in I. apply in_or_app. destruct I as [I|I]; [auto|].
    specialize (EO _ I). cbn in EO. destruct EO as (A & B & C). left. auto.
  - intros c v Hc E. apply in_or_app. destruct (NH c v Hc E) as [(A & B)|I]; auto.
  - intros c v w.
    (* new answers agree with all there are *)
    assert (NEW : forall v w, (In (EGot c v) e \/ In (EFut c v) e) -> (In (EGot c w) tr \/ In (EFut c w) tr) -> v = w).
    { intros v0 w0 [I|I] [J|J]; specialize (EO _ I); cbn in EO.
      - destruct EO as (A & B & C & D). destruct (T5 c w0 J) as (_ & _ & X & _). specialize (X B). congruence.
      - destruct EO as (A & B & C & D). destruct (T6 c w0 J) as (_ & [X|X] & _); congruence.
      - destruct EO as (A & B & C & D & _). destruct (T5 c w0 J) as (_ & _ & _ & X & _). congruence.
      - destruct EO as (A & B & C & D & _). destruct (T6 c w0 J) as (_ & [X|X] & _); congruence. }
    assert (NN : forall v w, (In (EGot c v) e \/ In (EFut c v) e) -> (In (EGot c w) e \/ In (EFut c w) e) -> v = w).
    { intros v0 w0 [I|I] [J|J]; pose proof (EO _ I) as X; pose proof (EO _ J) as Y; cbn in X, Y; intuition congruence. }
    intros H1 H2. rewrite !in_app_iff in H1, H2.
    assert (H1' : (In (EGot c v) tr \/ In (EFut c v) tr) \/ (In (EGot c v) e \/ In (EFut c v) e)) by tauto.
    assert (H2' : (In (EGot c w) tr \/ In (EFut c w) tr) \/ (In (EGot c w) e \/ In (EFut c w) e)) by tauto.
    destruct H1' as [H1'|H1'], H2' as [H2'|H2']; [eauto|symmetry; eauto|eauto|eauto].
  - intros f I. apply in_app_or in I. destruct I as [I|I].
    + destruct (T10 f I) as (A & B). split; [lia|]. destruct (M4 f A) as (_ & _ & _ & E). rewrite (E B). assumption.
    + specialize (EO _ I). cbn in EO. destruct EO. split; [lia|assumption].
  - intros c I. assert (OLD : c < nc s /\ fover (fetches s (cfetch (ctxs s c))) = Some c).
    { rewrite !in_app_iff in I. destruct I as [[I|I]|[I|I]]; [apply T11; auto|specialize (EO _ I); exact EO|apply T11; auto|specialize (EO _ I); exact EO]. }
    destruct OLD as (A & B). split; [lia|]. pose proof (FM c A) as (_ & _ & E & _). auto.
  - intros c b I. assert (OLD : c < nc s /\ (b = true \/ fover (fetches s (cfetch (ctxs s c))) <> None)).
    { apply in_app_or in I. destruct I as [I|I]; [auto|]. specialize (EO _ I). cbn in EO. destruct EO as (A & B & C). split; [assumption|].
      destruct (cval (ctxs s c)) as [v|] eqn:V; [|discriminate]. destruct (val_ok s c v W A V) as (_ & _ & X). rewrite C. assumption. }
    destruct OLD as (A & B). split; [lia|]. destruct B as [B|B]; [auto|right]. pose proof (FM c A) as (_ & _ & E & _).
    destruct (fover (fetches s (cfetch (ctxs s c)))) as [d|]; [|congruence]. rewrite (E d eq_refl). discriminate.
  - apply fop_app; auto. intros x y Ix Iy. specialize (EO _ Iy).
    destruct x; try exact I; destruct y; try (destruct b; exact I); try exact I; cbn; try (destruct b; trivial); try (destruct b0; trivial).
    + intro X; subst c0. destruct (T4 c Ix) as (A & B). cbn in EO. destruct EO as (_ & EO). destruct (cval (ctxs s c)); [discriminate|congruence].
    + intro X; subst c0. destruct (T5 c v Ix) as (A & B & _). cbn in EO. destruct EO as (_ & EO). destruct (cval (ctxs s c)); [discriminate|congruence].
    + intro X; subst c0. destruct (T6 c v Ix) as (A & [B|B] & _); cbn in EO; destruct EO as (_ & EO & _); congruence.
Qed.

Lemma TL_init : TL init [].
Proof. constructor; cbn; intros; try lia; try tauto. constructor. Qed.

Lemma run_inv : forall acts s tr s' e, All s tr -> TL s tr -> run maxRef s acts = Some (s', e) -> All s' (tr ++ e) /\ TL s' (tr ++ e).
Proof.
  induction acts as [|a r IH]; intros s tr s' e A T R; cbn in R.
  - inversion R; subst. rewrite app_nil_r. auto.
  - destruct (step maxRef s a) as [[s1 e1]|] eqn:K; [|discriminate].
    destruct (run maxRef s1 r) as [[s2 e2]|] eqn:R2; [|discriminate]. inversion R; subst s2 e.
    rewrite app_assoc. eapply IH; [eapply All_step; eauto|eapply TL_step; eauto; apply A|eassumption].
Qed.
Lemma history_inv : forall s tr, history maxRef s tr -> All s tr /\ TL s tr.
Proof. intros s tr (acts & R). change tr with ([] ++ tr). eapply run_inv; [apply All_init|apply TL_init|eassumption]. Qed.
Lemma run_app : forall a b s s1 e1 s2 e2, run maxRef s a = Some (s1, e1) -> run maxRef s1 b = Some (s2, e2) -> run maxRef s (a ++ b) = Some (s2, e1 ++ e2).
Proof.
  induction a as [|x a IH]; intros b s s1 e1 s2 e2 R1 R2; cbn in *; [inversion R1; subst; assumption|].
  destruct (step maxRef s x) as [[t e]|]; [|discriminate]. destruct (run maxRef t a) as [[t' e']|] eqn:Q; [|discriminate].
  inversion R1; subst. rewrite (IH b t s1 e' s2 e2 Q R2). rewrite app_assoc. reflexivity.
Qed.

(** ** The theorems *)
Theorem no_bad : forall s tr, history maxRef s tr ->
  ~ In EBad tr /\ (forall i, held s i -> 0 < refs s i) /\
  (quiet s -> (forall i, refs s i = 0) /\ total s = (- Z.of_nat (dropped tr))%Z).
Proof.
  intros s tr H. apply history_inv in H. destruct H as ([W A B N] & _). split; [assumption|]. split.
  - intros i Hh. destruct A as (A & _). rewrite A. destruct Hh as [Hh|(c & Hc & Hh)].
    + apply cnt_in in Hh. unfold owners. lia.
    + pose proof (held_ctx s c i Hc) as X. unfold octx in X. destruct Hh as [(H1 & H2)|H1]; rewrite ?H1, ?H2 in X; cbn [orb] in X; rewrite isI_self in X; lia.
  - intros (Q1 & Q2 & Q3).
    assert (O : forall i, owners s i = 0).
    { intro i. unfold owners. rewrite Q1. rewrite !sumTo_0; [reflexivity| |].
      - intros f Hf. unfold ofet. rewrite (Q3 f Hf). reflexivity.
      - intros c Hc. destruct (Q2 c Hc) as (H1 & H2). unfold octx. rewrite H1.
        assert (S : cshare (ctxs s c) = false).
        { pose proof (w_cf s W c Hc) as Hf. pose proof (w_ok s W _ Hf) as OK. unfold fetchOK in OK. rewrite (Q3 _ Hf) in OK.
          apply OK. apply (w_wait s W _ c Hf). auto. }
        rewrite S. cbn. destruct (cfut (ctxs s c)) as [| |[j|]| | |] eqn:U; try reflexivity. exfalso. eapply H2. reflexivity. }
    split; [intro i; destruct A as (A & _); rewrite A; apply O|].
    assert (active s = 0).
    { unfold active. rewrite Q1, sumTo_0; [reflexivity|]. intros f Hf. unfold hfet. rewrite (Q3 f Hf). reflexivity. }
    lia.
Qed.

Lemma sees_red : forall s tr c v, TL s tr -> sees tr c v -> In (EGot c v) tr \/ In (EFut c v) tr.
Proof. intros s tr c v T [H|[H|H]]; auto. right. eapply t_taken; eauto. Qed.

Theorem right_values : forall s tr, history maxRef s tr -> right_value tr.
Proof.
  intros s tr H. apply history_inv in H. destruct H as (A & T). intros c f v F S.
  destruct (t_find s tr T c f F) as (Hc & Cf). pose proof (w_cf s (a_wf _ _ A) c Hc) as Hf. rewrite Cf in Hf.
  assert (O : okv (fetches s f) v).
  { apply (sees_red s) in S; [|assumption]. destruct S as [S|S].
    - destruct (t_got s tr T c v S) as (_ & _ & _ & _ & X & _). congruence.
    - destruct (t_fut s tr T c v S) as (_ & _ & X & _). congruence. }
  destruct v as [i|].
  - destruct O as [O|(O & _)]; [|discriminate]. apply (t_fill2 s tr T); auto.
  - destruct O as [O|(_ & O)].
    + left. intros i I. destruct (t_fill s tr T f i I). congruence.
    + right. destruct (fover (fetches s f)) as [d|] eqn:E; [|congruence]. exists d. apply (t_over2 s tr T); auto.
Qed.

Lemma fop_split : forall a x b y, ForallOrdPairs notafter (a ++ x :: b) -> In y b -> notafter x y.
Proof.
  induction a as [|z a IH]; intros x b y F I; cbn in F; inversion F; subst.
  - rewrite Forall_forall in H1. auto.
  - eapply IH; eauto.
Qed.

Theorem one_answers : forall s tr, history maxRef s tr -> one_answer tr.
Proof.
  intros s tr H. apply history_inv in H. destruct H as (A & T). split; [|split; [|split; [|split]]].
  - intros c v w S1 S2. apply (sees_red s) in S1; [|assumption]. apply (sees_red s) in S2; [|assumption]. eapply t_same; eauto.
  - intros c a b E I. pose proof (t_fop s tr T) as F. rewrite E in F. pose proof (fop_split _ _ _ _ F I) as X. cbn in X. congruence.
  - intros c v a b E I. pose proof (t_fop s tr T) as F. rewrite E in F. pose proof (fop_split _ _ _ _ F I) as X. cbn in X. congruence.
  - intros f i j I J. destruct (t_fill s tr T f i I), (t_fill s tr T f j J). congruence.
  - intros c v a b E w I. pose proof (t_fop s tr T) as F. rewrite E in F. pose proof (fop_split _ _ _ _ F I) as X. cbn in X. congruence.
Qed.

Theorem all_answered : forall s tr, history maxRef s tr ->
  (forall f c, In (EClosed f) tr -> In (EFind c f) tr -> ~ In (EOver f c) tr -> answered maxRef s c) /\
  (forall f c c', In (EOver f c) tr -> In (EOver f c') tr -> c = c') /\
  (forall c f, In (EFind c f) tr -> In (EBroken c) tr \/ In (EUnresolved c) tr -> In (EOver f c) tr).
Proof.
  intros s tr H. apply history_inv in H. destruct H as (A & T). pose proof (a_wf _ _ A) as W. split; [|split].
  - intros f c C F N. destruct (t_closed s tr T f C) as (Hf & P). destruct (t_find s tr T c f F) as (Hc & Cf).
    assert (I : In c (fwait (fetches s f))) by (apply (w_wait s W f c Hf); auto).
    pose proof (w_ok s W f Hf) as OK. unfold fetchOK in OK. rewrite P in OK. destruct (OK c I) as (D & _).
    destruct D as [(V & _)|((V & U1 & U2 & _) & Po)]; [exfalso; apply N; apply (t_over2 s tr T); auto|].
    destruct V as (v & V & _). split; [|split; [|split; assumption]].
    + intro Wt. cbn [step]. rewrite (proj2 (Nat.ltb_lt _ _) Hc), Wt, Po, V. discriminate.
    + intros s' b K. cbn [step] in K. destruct (mine s c); [|discriminate]. rewrite V in K. inversion K. reflexivity.
  - intros f c c' I J. destruct (t_over s tr T f c I), (t_over s tr T f c' J). congruence.
  - intros c f F I. destruct (t_find s tr T c f F) as (Hc & Cf). destruct (t_vic s tr T c I) as (_ & O). rewrite Cf in O.
    apply (t_over2 s tr T); [|assumption]. rewrite <- Cf. apply (w_cf s W). assumption.
Qed.

Theorem went : forall s tr c f b, history maxRef s tr -> In (EFind c f) tr -> no_overflow tr f -> In (EWent c true b) tr -> b = true.
Proof.
  intros s tr c f b H F N I. apply history_inv in H. destruct H as (A & T). destruct (t_find s tr T c f F) as (Hc & Cf).
  destruct (t_went s tr T c b I) as (_ & [X|X]); [assumption|]. exfalso. rewrite Cf in X.
  destruct (fover (fetches s f)) as [d|] eqn:E; [|congruence]. apply (N d). apply (t_over2 s tr T); [|assumption].
  rewrite <- Cf. apply (w_cf s (a_wf _ _ A)). assumption.
Qed.

(** ** Fetches finish *)
Definition subn (sb : sub) : nat := match sb with SClone => 4 | SStore _ _ => 3 | SCall _ => 2 | SPost => 1 end.
Definition meas (g : fetch) : nat :=
  match fpcs g with
  | FOpen => 0
  | FRun [] _ => length (fwait g) + 3
  | FRun (_ :: r) sb => length (fwait g) + 4 + 4 * length r + subn sb
  | FRel => length (fwait g) + 2
  | FDrop r => length r + 1
  | FDone => 0
  end.

Lemma destroy_fetch : forall s c s' e, destroyCtx s c = (s', e) -> fetches s' = fetches s.
Proof.
  intros s c s' e D. unfold destroyCtx in D.
  destruct (cval (ctxs s c)) as [[i|]|]; cbn in D; destruct (cfut (ctxs s c)) eqn:U; inversion D; reflexivity.
Qed.

Lemma wake_meas : forall s f, fpcs (fetches s f) <> FOpen -> fpcs (fetches s f) <> FDone ->
  exists s' e, wake maxRef s f = Some (s', e) /\
   (meas (fetches s' f) < meas (fetches s f) /\ fpcs (fetches s' f) <> FOpen) /\ (fpcs (fetches s' f) = FDone -> In (EClosed f) e).
Proof.
  intros s f N1 N2. unfold wake, meas.
  destruct (fpcs (fetches s f)) as [|rest sb| |rest|] eqn:P; try congruence.
  - destruct rest as [|c r].
    { eexists. eexists. split; [reflexivity|]. unfold setPc, setFetch; cbn. rewrite upd_same. cbn. split; [split; [lia|discriminate]|discriminate]. }
    assert (L : forall x, match r with [] => x + 3 | _ :: r' => x + 4 + 4 * length r' + 4 end <= x + 4 + 4 * length r).
    { intro x. destruct r; cbn [length]; lia. }
    assert (OV : forall s1 x, fpcs (fetches s1 f) = FRun r SClone -> fwait (fetches s1 f) = fwait (fetches s f) -> 0 < x ->
       (match fpcs (fetches s1 f) with FOpen => 0 | FRun [] _ => length (fwait (fetches s1 f)) + 3 | FRun (_ :: r) sb => length (fwait (fetches s1 f)) + 4 + 4 * length r + subn sb | FRel => length (fwait (fetches s1 f)) + 2 | FDrop r => length r + 1 | FDone => 0 end
          < length (fwait (fetches s f)) + 4 + 4 * length r + x /\ fpcs (fetches s1 f) <> FOpen) /\ fpcs (fetches s1 f) <> FDone).
    { intros s1 x E1 E2 Hx. rewrite E1, E2. specialize (L (length (fwait (fetches s f)))). split; [|discriminate]. split; [|discriminate]. destruct r; cbn [subn]; lia. }
    assert (GO : forall t sb' (e : list event), fetches t = fetches s -> subn sb' < subn sb ->
       exists s' e', Some (setPc t f (FRun (c :: r) sb'), e) = Some (s', e') /\
       (match fpcs (fetches s' f) with FOpen => 0 | FRun [] _ => length (fwait (fetches s' f)) + 3 | FRun (_ :: r) sb => length (fwait (fetches s' f)) + 4 + 4 * length r + subn sb | FRel => length (fwait (fetches s' f)) + 2 | FDrop r => length r + 1 | FDone => 0 end
          < length (fwait (fetches s f)) + 4 + 4 * length r + subn sb /\ fpcs (fetches s' f) <> FOpen) /\ (fpcs (fetches s' f) = FDone -> In (EClosed f) e')).
    { intros t sb' e E L'. eexists. eexists. split; [reflexivity|]. unfold setPc, setFetch; cbn. rewrite upd_same. cbn. rewrite E. split; [split; [lia|discriminate]|discriminate]. }
    assert (OW : forall c' (e : list event), 0 < subn sb -> exists s' e', Some (overflow s f c' r, e) = Some (s', e') /\
       (match fpcs (fetches s' f) with FOpen => 0 | FRun [] _ => length (fwait (fetches s' f)) + 3 | FRun (_ :: r) sb => length (fwait (fetches s' f)) + 4 + 4 * length r + subn sb | FRel => length (fwait (fetches s' f)) + 2 | FDrop r => length r + 1 | FDone => 0 end
          < length (fwait (fetches s f)) + 4 + 4 * length r + subn sb /\ fpcs (fetches s' f) <> FOpen) /\ (fpcs (fetches s' f) = FDone -> In (EClosed f) e')).
    { intros c' e Hp. eexists. eexists. split; [reflexivity|].
      destruct (OV (overflow s f c' r) (subn sb)) as (X & Y); [unfold overflow, setFetch; cbn; rewrite upd_same; reflexivity|unfold overflow, setFetch; cbn; rewrite upd_same; reflexivity|assumption|].
      split; [exact X|intro Z; contradiction]. }
    destruct sb as [|h b|h|].
    + destruct (fover (fetches s f)); [apply GO; [reflexivity|cbn; lia]|].
      destruct (fit (fetches s f)) as [i|]; [|apply GO; [reflexivity|cbn; lia]].
      destruct (full maxRef s i); [apply OW; cbn; lia|apply GO; [reflexivity|cbn; lia]].
    + destruct h; apply GO; try reflexivity; cbn; lia.
    + destruct h as [i|].
      * destruct (full maxRef s i); destruct (cfut (ctxs s c)); try (apply OW; cbn; lia); apply GO; try reflexivity; cbn; lia.
      * destruct (cfut (ctxs s c)); apply GO; try reflexivity; cbn; lia.
    + eexists. eexists. split; [reflexivity|].
      match goal with |- context [fpcs (fetches ?t f)] => destruct (OV t 1) as (X & Y); [unfold setPc, setFetch; cbn; rewrite upd_same; reflexivity|unfold setPc, setFetch; cbn; rewrite upd_same; reflexivity|lia|] end.
      split; [exact X|intro Z; contradiction].
  - destruct (fit (fetches s f)) as [i|]; eexists; eexists; (split; [reflexivity|]); unfold setPc, setFetch; cbn; rewrite upd_same; cbn; (split; [split; [lia|discriminate]|discriminate]).
  - destruct rest as [|c r].
    { eexists. eexists. split; [reflexivity|]. unfold setPc, setFetch; cbn. rewrite upd_same. cbn. split; [split; [lia|discriminate]|auto]. }
    set (s1 := setPc (setCtx s c (withShare (ctxs s c) false)) f (FDrop r)).
    assert (E : fpcs (fetches s1 f) = FDrop r) by (unfold s1, setPc, setFetch; cbn; rewrite upd_same; reflexivity).
    destruct (chold (ctxs s c)).
    + exists s1, []. split; [reflexivity|]. rewrite E. cbn. split; [split; [lia|discriminate]|discriminate].
    + destruct (destroyCtx s1 c) as [s2 e2] eqn:D. exists s2, e2. split; [reflexivity|]. rewrite (destroy_fetch _ _ _ _ D), E. cbn. split; [split; [lia|discriminate]|discriminate].
Qed.

Lemma finish : forall n s f, WF s -> f < nf s -> meas (fetches s f) <= n -> fpcs (fetches s f) <> FOpen -> fpcs (fetches s f) <> FDone ->
  exists k s' e, run maxRef s (repeat (AWake f) k) = Some (s', e) /\ In (EClosed f) e.
Proof.
  induction n as [|n IH]; intros s f W Hf L N1 N2; destruct (wake_meas s f N1 N2) as (s1 & e1 & K & (M & N3) & D); [lia|].
  assert (ST : step maxRef s (AWake f) = Some (s1, e1)) by (cbn [step]; rewrite (proj2 (Nat.ltb_lt _ _) Hf); exact K).
  pose proof (WF_step maxRef s _ s1 e1 W ST) as W1. pose proof (smono_step maxRef s _ s1 e1 W ST) as (_ & M2 & _).
  destruct (fpcs (fetches s1 f)) eqn:P1; try congruence.
  4:{ exists 1, s1, e1. cbn [repeat run]. rewrite ST. rewrite app_nil_r. split; [reflexivity|auto]. }
  all: destruct (IH s1 f W1) as (k & s' & e & R & I); [lia|lia|rewrite P1; discriminate|rewrite P1; discriminate|];
    exists (S k), s', (e1 ++ e); cbn [repeat run]; rewrite ST, R; split; [reflexivity|apply in_or_app; auto].
Qed.

Lemma wake_other : forall s f s' e g, wake maxRef s f = Some (s', e) -> g <> f -> fetches s' g = fetches s g.
Proof.
  intros s f s' e g K N. unfold wake in K.
  assert (PC : forall t p, fetches t = fetches s -> fetches (setPc t f p) g = fetches s g).
  { intros t p E. unfold setPc, setFetch; cbn. rewrite upd_diff by assumption. rewrite E. reflexivity. }
  assert (OV : forall c r, fetches (overflow s f c r) g = fetches s g).
  { intros. unfold overflow, setFetch; cbn. apply upd_diff. assumption. }
  destruct (fpcs (fetches s f)) as [|[|c r] sb| |[|c r]|]; try discriminate.
  - inversion K. apply PC. reflexivity.
  - destruct sb as [|h b|h|].
    + destruct (fover (fetches s f)); [inversion K; apply PC; reflexivity|].
      destruct (fit (fetches s f)) as [i|]; [|inversion K; apply PC; reflexivity].
      destruct (full maxRef s i); inversion K; [apply OV|apply PC; reflexivity].
    + inversion K. destruct h; apply PC; reflexivity.
    + destruct (cfut (ctxs s c)); destruct h as [i|]; try (destruct (full maxRef s i)); inversion K; try apply OV; apply PC; reflexivity.
    + inversion K. apply PC. reflexivity.
  - destruct (fit (fetches s f)); inversion K; apply PC; reflexivity.
  - inversion K. apply PC. reflexivity.
  - destruct (chold (ctxs s c)); inversion K as [D]; [apply PC; reflexivity|].
    rewrite (destroy_fetch _ _ _ _ D). apply PC. reflexivity.
Qed.

Lemma letGo_fetch : forall s c s' e, letGo s c = (s', e) -> fetches s' = fetches s.
Proof.
  intros s c s' e L. unfold letGo in L. destruct (cshare (ctxs s c)); [inversion L; reflexivity|].
  rewrite (destroy_fetch _ _ _ _ L). reflexivity.
Qed.
Lemma destroy_nf : forall s c s' e, destroyCtx s c = (s', e) -> nf s' = nf s.
Proof.
  intros s c s' e D. unfold destroyCtx in D.
  destruct (cval (ctxs s c)) as [[i|]|]; cbn in D; destruct (cfut (ctxs s c)) eqn:U; inversion D; reflexivity.
Qed.
Lemma letGo_nf : forall s c s' e, letGo s c = (s', e) -> nf s' = nf s.
Proof.
  intros s c s' e L. unfold letGo in L. destruct (cshare (ctxs s c)); [inversion L; reflexivity|].
  rewrite (destroy_nf _ _ _ _ L). reflexivity.
Qed.

Lemma newdone : forall s a s' e f, WF s -> step maxRef s a = Some (s', e) -> f < nf s' -> fpcs (fetches s' f) = FDone ->
  (f < nf s /\ fpcs (fetches s f) = FDone) \/ In (EClosed f) e.
Proof.
  intros s a s' e f W K Hf P.
  assert (SAME : nf s' = nf s -> fetches s' = fetches s -> (f < nf s /\ fpcs (fetches s f) = FDone) \/ In (EClosed f) e).
  { intros E1 E2. left. rewrite E1 in Hf. rewrite E2 in P. auto. }
  destruct a as [|g|g|g|c|c|c|c|c|c|c|c|c|c|k|k]; cbn [step] in K.
  - inversion K as [D]; clear K. unfold doFind in D. destruct (fillmap s) as [g|] eqn:M; inversion D; subst s' e; clear D SAME; unfold setFetch in *; cbn in *.
    + unfold upd in P. destruct (Nat.eqb_spec f g); [subst; cbn in P|]; left; auto.
    + unfold upd in P. destruct (Nat.eqb_spec f (nf s)); [discriminate|]. left. split; [lia|assumption].
  - destruct (Nat.ltb_spec g (nf s)) as [Hg|]; [|discriminate].
    destruct (fpcs (fetches s g)) eqn:Q; try discriminate. destruct (fit (fetches s g)); [discriminate|].
    inversion K; subst s' e; clear K SAME. cbn in *. unfold upd in P. destruct (Nat.eqb_spec f g); [discriminate|]. auto.
  - destruct (Nat.ltb_spec g (nf s)) as [Hg|]; [|discriminate].
    destruct (fpcs (fetches s g)) eqn:Q; try discriminate. destruct (fillmap s) as [m|] eqn:M; inversion K; subst s' e; clear K SAME; [|auto].
    unfold setPc, setFetch in *; cbn in *. unfold upd in P. destruct (Nat.eqb_spec f m); [discriminate|auto].
  - destruct (Nat.ltb_spec g (nf s)) as [Hg|]; [|discriminate].
    destruct (smono_wake maxRef s g s' e W Hg K) as (_ & NF & _).
    assert (NE : nf s' = nf s).
    { clear - K. unfold wake in K.
      destruct (fpcs (fetches s g)) as [|[|c r] sb| |[|c r]|]; try discriminate.
      - inversion K; reflexivity.
      - destruct sb as [|h b|h|].
        + destruct (fover (fetches s g)); [inversion K; reflexivity|]. destruct (fit (fetches s g)) as [i|]; [|inversion K; reflexivity].
          destruct (full maxRef s i); inversion K; reflexivity.
        + inversion K. destruct h; reflexivity.
        + destruct (cfut (ctxs s c)); destruct h as [i|]; try (destruct (full maxRef s i)); inversion K; reflexivity.
        + inversion K. reflexivity.
      - destruct (fit (fetches s g)); inversion K; reflexivity.
      - inversion K; reflexivity.
      - destruct (chold (ctxs s c)); inversion K as [D]; [reflexivity|]. rewrite (destroy_nf _ _ _ _ D). reflexivity. }
    rewrite NE in Hf. destruct (Nat.eq_dec f g) as [->|N]; [|rewrite (wake_other _ _ _ _ _ K N) in P; auto].
    destruct (fpcs (fetches s g)) eqn:Q; auto; right.
    + unfold wake in K. rewrite Q in K. discriminate.
    + destruct (wake_meas s g) as (s1 & e1 & K1 & _ & D); [rewrite Q; discriminate|rewrite Q; discriminate|]. rewrite K in K1. inversion K1; subst. auto.
    + destruct (wake_meas s g) as (s1 & e1 & K1 & _ & D); [rewrite Q; discriminate|rewrite Q; discriminate|]. rewrite K in K1. inversion K1; subst. auto.
    + destruct (wake_meas s g) as (s1 & e1 & K1 & _ & D); [rewrite Q; discriminate|rewrite Q; discriminate|]. rewrite K in K1. inversion K1; subst. auto.
  - destruct (mine s c); inversion K; subst s' e. auto.
  - destruct (mine s c); inversion K; subst s' e. auto.
  - destruct (mine s c); [|discriminate]. destruct (cval (ctxs s c)); inversion K; subst s' e; auto.
  - destruct ((c <? nc s) && cwait (ctxs s c) && cposted (ctxs s c)); [|discriminate]. destruct (cval (ctxs s c)); inversion K; subst s' e; auto.
  - destruct (mine s c); [|discriminate]. destruct (cval (ctxs s c)) as [[i|]|]; try discriminate; [|inversion K; subst s' e; auto].
    destruct (full maxRef s i); inversion K; subst s' e; auto.
  - destruct (mine s c); [|discriminate]. destruct (cval (ctxs s c)) as [[i|]|]; try discriminate.
    + match type of K with Some (letGo ?t c) = _ => assert (L : letGo t c = (s', e)) by congruence end.
      apply SAME; [rewrite (letGo_nf _ _ _ _ L)|rewrite (letGo_fetch _ _ _ _ L)]; reflexivity.
    + assert (L : letGo s c = (s', e)) by congruence. apply SAME; [apply (letGo_nf _ _ _ _ L)|apply (letGo_fetch _ _ _ _ L)].
  - destruct (mine s c); [|discriminate]. destruct (cval (ctxs s c)); inversion K; subst s' e; auto.
  - destruct ((c <? nc s) && chold (ctxs s c) && negb (cwait (ctxs s c))); [|discriminate].
    assert (L : letGo s c = (s', e)) by congruence. apply SAME; [apply (letGo_nf _ _ _ _ L)|apply (letGo_fetch _ _ _ _ L)].
  - destruct (cfut (ctxs s c)) as [| |v| | |]; try discriminate. destruct (c <? nc s); [|discriminate]. destruct v; inversion K; subst s' e; auto.
  - destruct (c <? nc s); [|discriminate]. destruct (cfut (ctxs s c)) as [| |v| | |]; try discriminate; [|destruct v]; inversion K; subst s' e; auto.
  - destruct (nth_error (plain s) k) as [i|]; [|discriminate]. destruct (full maxRef s i); inversion K; subst s' e; auto.
  - destruct (nth_error (plain s) k) as [i|]; [|discriminate]. inversion K; subst s' e; auto.
Qed.

Lemma closed_done : forall s tr f, history maxRef s tr -> f < nf s -> fpcs (fetches s f) = FDone -> In (EClosed f) tr.
Proof.
  assert (G : forall acts s tr s' e, All s tr -> (forall f, f < nf s -> fpcs (fetches s f) = FDone -> In (EClosed f) tr) ->
    run maxRef s acts = Some (s', e) -> forall f, f < nf s' -> fpcs (fetches s' f) = FDone -> In (EClosed f) (tr ++ e)).
  { induction acts as [|a r IH]; intros s tr s' e A B R; cbn in R.
    - inversion R; subst. rewrite app_nil_r. assumption.
    - destruct (step maxRef s a) as [[s1 e1]|] eqn:K; [|discriminate].
      destruct (run maxRef s1 r) as [[s2 e2]|] eqn:R2; [|discriminate]. inversion R; subst s2 e.
      rewrite app_assoc. eapply IH; [eapply All_step; eauto| |eassumption].
      intros f Hf P. apply in_or_app. destruct (newdone s a s1 e1 f (a_wf _ _ A) K Hf P) as [(X & Y)|X]; auto. }
  intros s tr f (acts & R). change tr with ([] ++ tr). eapply G; [apply All_init| |eassumption]. cbn. intros; lia.
Qed.

Theorem fetch_finishes : forall s tr c f, history maxRef s tr -> In (EFind c f) tr ->
  exists acts s' e, (forall a, In a acts -> a = AClose f \/ a = AWake f) /\ run maxRef s acts = Some (s', e) /\ In (EClosed f) (tr ++ e).
Proof.
  intros s tr c f H F. pose proof H as H0. apply history_inv in H. destruct H as (A & T). pose proof (a_wf _ _ A) as W.
  destruct (t_find s tr T c f F) as (Hc & Cf). pose proof (w_cf s W c Hc) as Hf. rewrite Cf in Hf.
  assert (RW : forall k a, In a (repeat (AWake f) k) -> a = AClose f \/ a = AWake f) by (intros k a I; apply repeat_spec in I; auto).
  destruct (fpcs (fetches s f)) eqn:P.
  - pose proof (w_map2 s W f Hf P) as M.
    assert (ST : step maxRef s (AClose f) = Some (setPc (setMap s None) f (FRun (fwait (fetches s f)) SClone), [])).
    { cbn [step]. rewrite (proj2 (Nat.ltb_lt _ _) Hf), P, M. reflexivity. }
    pose proof (WF_step maxRef s _ _ _ W ST) as W1.
    destruct (finish _ _ f W1 Hf (le_n _)) as (k & s' & e & R & I).
    + unfold setPc, setFetch; cbn. rewrite upd_same. discriminate.
    + unfold setPc, setFetch; cbn. rewrite upd_same. discriminate.
    + exists (AClose f :: repeat (AWake f) k), s', e. split; [intros a [<-|J]; [auto|eauto]|]. split; [|apply in_or_app; auto].
      cbn [run]. rewrite ST, R. reflexivity.
  - destruct (finish _ s f W Hf (le_n _)) as (k & s' & e & R & I); [rewrite P; discriminate|rewrite P; discriminate|].
    exists (repeat (AWake f) k), s', e. split; [eauto|]. split; [assumption|apply in_or_app; auto].
  - destruct (finish _ s f W Hf (le_n _)) as (k & s' & e & R & I); [rewrite P; discriminate|rewrite P; discriminate|].
    exists (repeat (AWake f) k), s', e. split; [eauto|]. split; [assumption|apply in_or_app; auto].
  - destruct (finish _ s f W Hf (le_n _)) as (k & s' & e & R & I); [rewrite P; discriminate|rewrite P; discriminate|].
    exists (repeat (AWake f) k), s', e. split; [eauto|]. split; [assumption|apply in_or_app; auto].
  - exists [], s, []. split; [intros a []|]. split; [reflexivity|]. rewrite app_nil_r.
    eapply closed_done; eauto.
Qed.
End R.
