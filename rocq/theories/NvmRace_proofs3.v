(** The invariant is kept by every step that is not a mutator's. *)
From Coq Require Import List Arith Bool Lia.
Import ListNotations.
From Verif Require Import NvmRace_model NvmRace_spec NvmRace_proofs NvmRace_proofs2.

Lemma soft_in l i t t' : nth_error l i = Some t -> isMut t = false -> isMut t' = false ->
  forall x, isMut x = true -> (In x (upd l i t') <-> In x l).
Proof.
  intros N A B x M. revert i N. induction l as [|y l IH]; intros [|i] N; cbn in *; try discriminate.
  - injection N as ->. split; (intros [<-|H]; [congruence|auto]).
  - rewrite (IH i N). tauto.
Qed.
Lemma soft_cnt l i t t' : nth_error l i = Some t -> isMut t = false -> isMut t' = false ->
  cnt isMut (upd l i t') = cnt isMut l.
Proof. intros N A B. pose proof (cnt_upd isMut l i t t' N) as X. rewrite A, B in X. cbn in X. lia. Qed.
Lemma neutral_nil tr : neutral tr [].
Proof. unfold neutral. rewrite app_nil_r. auto. Qed.
Lemma neutral_one tr e : (match e with MutStart _ _ | MutRet _ => False | _ => True end) -> neutral tr [e].
Proof. intros H. split; [rewrite active_snoc|rewrite floor_snoc]; destruct e; try contradiction; reflexivity. Qed.
Lemma Qt_thr L s s' : (token s' = Some true -> token s = Some true) ->
  (forall t v, In t (thr s') -> tokVer t = Some v -> exists t0, In t0 (thr s) /\ tokVer t0 = Some v) -> Qt L s -> Qt L s'.
Proof. intros A B H T t v I V. destruct (B t v I V) as (t0 & I0 & V0). exact (H (A T) t0 v I0 V0). Qed.

(** Steps that change no flash-side component except validity, token, counts. *)
Lemma inv_quiet s tr s' e i t t' :
  Inv s tr -> counts s' -> enabled s' = enabled s -> nextm s' = nextm s -> nexti s' = nexti s -> neutral tr e ->
  (match e with [Notified] => True | _ => pend (tr ++ e) = pend tr end) ->
  (match e with [Notified] => ctxValid s' = false | _ => True end) ->
  nth_error (thr s) i = Some t -> thr s' = upd (thr s) i t' -> isMut t = false -> isMut t' = false ->
  (forall v, tokVer t' = Some v -> tokVer t = Some v) ->
  (forall a b c, t' = TEUnlink a b c -> t = t') ->
  ramSame (ram s) (ram s') -> content s' = content s -> queue s' = queue s -> phase s' = phase s ->
  (match phase s with PRead (Some _) | PGot _ => True | _ => False end -> ctxValid s' = true -> ctxValid s = true) ->
  (token s' = Some true -> token s = Some true) ->
  Inv s' (tr ++ e).
Proof.
  intros Iv Cn En Nm Ni Ne Pe Pv N Th Mt Mt' Tk Un Rs Co Qu Ph Va To.
  apply (inv_soft s); auto.
  - rewrite En. apply (i_en _ _ Iv).
  - lia.
  - rewrite Th. apply (soft_cnt _ _ t); assumption.
  - intros x M. rewrite Th. apply (soft_in _ _ t); assumption.
  - rewrite Co. apply (i_bc _ _ Iv).
  - rewrite Qu. apply (i_bi _ _ Iv).
  - rewrite Ph. apply (i_bp _ _ Iv).
  - intros x v I V. rewrite Th in I. apply in_upd in I. destruct I as [->|I].
    + apply (i_bt _ _ Iv t v (nth_in _ _ _ N)). auto.
    + apply (i_bt _ _ Iv x v I V).
  - intros a b c I. rewrite Th in I. apply in_upd in I. destruct I as [I|I]; [|exact I].
    rewrite I. rewrite <- (Un _ _ _ (eq_sym I)). apply (nth_in _ _ _ N).
  - intros L A _. apply (Q_ext L s); auto.
  - intros L. apply Qt_thr; [exact To|]. intros x v I V. rewrite Th in I. apply in_upd in I. destruct I as [->|I].
    + exists t. split; [apply (nth_in _ _ _ N)|auto].
    + exists x. auto.
  - intros x I M H L (v & K). apply L. exists v. rewrite <- Ph. exact K.
  - intros x n I M T. destruct x; auto. cbn in T. rewrite Qu. apply T.
  - rewrite Ph. pose proof (i_rd _ _ Iv) as R. destruct (phase s) as [| |[v|]|v|v| |] eqn:P; auto.
    + intros V W. rewrite Co. apply R; [auto|].
      destruct e as [|[] [|]]; try (rewrite Pe in W; exact W). congruence.
    + intros V W. rewrite Co. apply R; [auto|].
      destruct e as [|[] [|]]; try (rewrite Pe in W; exact W). congruence.
Qed.

Lemma step_counts s tr a s' e : Inv s tr -> step s a = Some (s', e) -> counts s'.
Proof. intros I H. eapply counts_step; [apply (i_cnt _ _ I)|exact H]. Qed.
Lemma pend_one tr e : (match e with Dropped | Notified => False | _ => True end) -> pend (tr ++ [e]) = pend tr.
Proof. intros H. rewrite pend_snoc. destruct e; try contradiction; reflexivity. Qed.

Ltac quiet Iv C N :=
  eapply (inv_quiet _ _ _ _ _ _ _ Iv C); cycle 6; [exact N|proj; reflexivity|..];
    proj; try reflexivity; try apply ramSame_refl; try exact I; auto;
    try (rewrite app_nil_r; reflexivity); try apply neutral_nil; try (apply neutral_one; exact I);
    try (apply pend_one; exact I); try discriminate; try (intros; congruence).

(** *** find *)
Lemma find_step s tr i t b s' e : Inv s tr -> nth_error (thr s) i = Some t ->
  (match t with TFRam _ | TFInval _ | TFShared _ | TFExcl _ => True | _ => False end) ->
  tstep s i t b = Some (s', e) -> Inv s' (tr ++ e).
Proof.
  intros Iv N K H.
  assert (C : counts s') by (eapply counts_thread; [apply (i_cnt _ _ Iv)|exact N|exact H]).
  destruct t; try contradiction; cbn [tstep] in H; cases H.
  all: try (quiet Iv C N).
  - (* invalidateToken *) destruct (token s); discriminate.
  - (* joined *) intros _. unfold ctxValid. proj. rewrite Heqo. auto.
  - (* new fill *) intros P. exfalso. apply (reading_fill s (i_cnt _ _ Iv)); [|assumption].
    destruct (phase s) as [| |[v|]|v|v| |]; auto.
Qed.
(** *** Appending a job *)
Lemma Q_snoc L s s' j : Q L s -> content s' = content s -> phase s' = phase s -> ctxValid s' = ctxValid s ->
  queue s' = queue s ++ [j] -> (forall v, j = JIns v -> L <= v) -> Q L s'.
Proof.
  intros [A B C] Co Ph Va Qu J. constructor; rewrite ?Co, ?Ph, ?Va, ?Qu.
  - intros v E K. apply in_app_iff. left. apply (A v E K).
  - intros v l1 l2 E K. destruct (snoc_split _ _ _ _ _ E) as [(l2' & -> & E')|(-> & -> & _)].
    + apply in_app_iff. left. apply (B v l1 l2' E' K).
    + specialize (J v eq_refl). lia.
  - destruct (phase s) as [| |[v|]|v|v| |]; auto; intros K V; apply in_app_iff; left; auto.
Qed.
Lemma Q_rem L s s' : content s' = content s -> phase s' = phase s -> queue s' = queue s ++ [JRem] -> ~ locked s -> Q L s'.
Proof.
  intros Co Ph Qu Lk. constructor; rewrite ?Qu.
  - intros v _ _. apply in_app_iff. right. left. reflexivity.
  - intros v l1 l2 E K. destruct (snoc_split _ _ _ _ _ E) as [(l2' & -> & E')|(-> & X & _)]; [|discriminate].
    apply in_app_iff. right. left. reflexivity.
  - rewrite Ph. destruct (phase s) as [| |[v|]|v|v| |] eqn:P; auto; try (intros _ _; apply in_app_iff; right; left; reflexivity).
    exfalso. apply Lk. exists v. exact P.
Qed.
Lemma inv_append s tr s' i t t' j :
  Inv s tr -> counts s' -> enabled s' = enabled s -> nextm s' = nextm s -> nexti s' = nexti s ->
  nth_error (thr s) i = Some t -> thr s' = upd (thr s) i t' -> isMut t = false -> isMut t' = false ->
  tokVer t' = None -> (forall a b c, t' <> TEUnlink a b c) ->
  ram s' = ram s -> content s' = content s -> queue s' = queue s ++ [j] -> phase s' = phase s -> fill s' = fill s ->
  (token s' = Some true -> token s = Some true) ->
  (forall v, j = JIns v -> token s = Some true /\ tokVer t = Some v) ->
  Inv s' tr.
Proof.
  intros Iv Cn En Nm Ni N Th Mt Mt' Tk Un Ra Co Qu Ph Fi To J.
  assert (Va : ctxValid s' = ctxValid s) by (unfold ctxValid; rewrite Fi; reflexivity).
  rewrite <- (app_nil_r tr).
  apply (inv_soft s); auto.
  - rewrite En. apply (i_en _ _ Iv).
  - lia.
  - apply neutral_nil.
  - rewrite Th. apply (soft_cnt _ _ t); assumption.
  - intros x M. rewrite Th. apply (soft_in _ _ t); assumption.
  - rewrite Ra. apply ramSame_refl.
  - rewrite Co. apply (i_bc _ _ Iv).
  - intros v I. rewrite Qu in I. apply in_app_iff in I. destruct I as [I|[I|[]]]; [apply (i_bi _ _ Iv v I)|].
    destruct (J v I) as (_ & V). apply (i_bt _ _ Iv t v (nth_in _ _ _ N) V).
  - rewrite Ph. apply (i_bp _ _ Iv).
  - intros x v I V. rewrite Th in I. apply in_upd in I. destruct I as [->|I]; [congruence|]. apply (i_bt _ _ Iv x v I V).
  - intros a b c I. rewrite Th in I. apply in_upd in I. destruct I as [I|I]; [|exact I]. exfalso. apply (Un a b c). auto.
  - intros L A B. apply (Q_snoc L s s' j A Co Ph Va Qu). intros v E. destruct (J v E) as (T & V).
    apply (B T t v (nth_in _ _ _ N) V).
  - intros L. apply Qt_thr; [exact To|]. intros x v I V. rewrite Th in I. apply in_upd in I. destruct I as [->|I]; [congruence|].
    exists x. auto.
  - intros x I M H L (v & K). apply L. exists v. rewrite <- Ph. exact K.
  - intros x n I M T. destruct x; auto. cbn in T. destruct T as (T1 & T2 & T3 & T4). rewrite Qu. intros v E.
    apply in_app_iff in E. destruct E as [E|[E|[]]]; [apply (T4 v E)|].
    destruct (J v E) as (Tt & V). cbn in M. specialize (T3 n M Tt t v (nth_in _ _ _ N) V).
    pose proof (i_bt _ _ Iv t v (nth_in _ _ _ N) V). destruct (i_last _ _ Iv n); [|lia].
    apply (i_actn _ _ Iv (TCould w)); assumption.
  - rewrite Ph, Va, Co, app_nil_r. apply (i_rd _ _ Iv).
Qed.

(** *** Other threads that do not mutate: lookups being enqueued, evictions, spurious removals *)
Definition softTh (t : tst) : Prop :=
  match t with
  | TFEnq | TEPut _ | TECtx _ | TEExec _ | TEAbCtx | TEAbTok | TEAbCtxOnly => True
  | TTomb WSpur | TLock WSpur | TInv WSpur | THas WSpur | TCould WSpur | TEnq WSpur | TRet WSpur => True
  | _ => False
  end.
Lemma soft_step s tr i t b s' e : Inv s tr -> nth_error (thr s) i = Some t -> softTh t ->
  tstep s i t b = Some (s', e) -> Inv s' (tr ++ e).
Proof.
  intros Iv N K H.
  assert (C : counts s') by (eapply counts_thread; [apply (i_cnt _ _ Iv)|exact N|exact H]).
  destruct t; try contradiction; try (destruct w; try contradiction); cbn [tstep] in H; cases H; try solve [quiet Iv C N]; try solve [quiet Iv C N; destruct (token s); discriminate].
  - rewrite app_nil_r. apply (inv_append s tr _ i TFEnq TIdle JLook Iv C); proj; auto; discriminate.
  - rewrite app_nil_r. apply (inv_append s tr _ i (TEExec v) TIdle (JIns v) Iv C); proj; auto; try discriminate.
    intros v0 E. injection E as <-. split; [assumption|reflexivity].
  - rewrite app_nil_r. apply (inv_append s tr _ i (TEnq WSpur) (TRet WSpur) JRem Iv C); proj; auto; try discriminate.
Qed.

(** *** Unlinking the evicted item *)
Lemma unlink_step s tr i j v tok b s' e : Inv s tr -> nth_error (thr s) i = Some (TEUnlink j v tok) ->
  tstep s i (TEUnlink j v tok) b = Some (s', e) -> Inv s' (tr ++ e).
Proof.
  intros Iv N H.
  assert (C : counts s') by (eapply counts_thread; [apply (i_cnt _ _ Iv)|exact N|exact H]).
  cbn [tstep] in H. injection H as <- <-.
  set (t' := if tok then TEPut v else TIdle) in *.
  assert (Mt' : isMut t' = false) by (unfold t'; destruct tok; reflexivity).
  assert (S1 : Inv (goto s i t') (tr ++ [])).
  { assert (C1 : counts (goto s i t')).
    { destruct C as [C1 C2 C3 C4 C5]. constructor; proj; auto. }
    eapply (inv_quiet _ _ _ _ i (TEUnlink j v tok) t' Iv C1); proj; auto; try apply neutral_nil; try apply ramSame_refl.
    - rewrite app_nil_r. reflexivity.
    - unfold t'. destruct tok; cbn; auto.
    - unfold t'. intros a b0 c. destruct tok; discriminate. }
  set (s1 := goto s i t') in *.
  destruct (ram s) as [it|] eqn:R.
  2:{ replace (goto (setRam s None) i t') with s1; [exact S1|]. unfold s1, goto, setThr, setRam; cbn; rewrite R; reflexivity. }
  destruct (Nat.eqb_spec (iid it) j) as [E|E].
  2:{ replace (goto (setRam s (Some it)) i t') with s1; [exact S1|]. unfold s1, goto, setThr, setRam; cbn; rewrite R; reflexivity. }
  destruct (i_unl _ _ Iv j v tok (nth_in _ _ _ N)) as (_ & X). specialize (X it R E).
  set (s2 := goto (setRam s None) i t') in *.
  assert (R1 : ram s1 = Some it) by (unfold s1; proj; exact R).
  destruct S1 as [G1 G2 G3 G4 G5 G6 G7 G8 G9 G10 G11 G12 G13 G14 G15 G16 G17].
  assert (QE : forall L, Q L s1 -> Q L s2) by (intros L; apply Q_ext; unfold s1, s2; proj; auto).
  assert (TE : forall L, Qt L s1 -> Qt L s2) by (intros L A; exact A).
  constructor; unfold s2 in *; proj; auto; try discriminate.
  - intros a b0 c I. destruct (G12 a b0 c I) as (Y & _). split; [exact Y|]. discriminate.
  - intros t I M. specialize (G16 t I M).
    assert (NR : forall k, ~ ramIs s1 k).
    { intros k (it' & A & _ & B). rewrite R1 in A. injection A as <-. congruence. }
    assert (NW : forall w, whoOk s1 w -> whoOk s2 w).
    { intros [n k|n|n k|] W; cbn in *; auto.
      - destruct W as (it' & A & _ & _ & B). rewrite R in A. injection A as <-. congruence.
      - exfalso. exact (NR k W). }
    destruct t; cbn [TI] in *; auto; try (exfalso; eapply NR; eassumption).
    + destruct w; cbn [whoOk0] in *; auto; apply NW; exact G16.
    + destruct w; cbn [whoOk0] in *; auto; apply NW; exact G16.
    + destruct G16. split; auto.
    + destruct G16 as (T1 & T2 & T3). repeat split; auto.
    + destruct G16 as (T1 & T2 & T3 & T4). repeat split; auto.
    + destruct G16 as (T1 & T2 & T3). repeat split; auto.
    + destruct G16 as (T1 & T2). exfalso. exact (NR _ T1).
    + destruct G16 as (T1 & T2). split; [auto|]. intros k K. destruct (T2 k K). split; auto.
Qed.

(** *** New threads that do not mutate *)
Lemma inv_add s tr s' e t' :
  Inv s tr -> counts s' -> enabled s' = enabled s -> nextm s' = nextm s -> nexti s' = nexti s -> neutral tr e ->
  pend (tr ++ e) = pend tr -> thr s' = thr s ++ [t'] -> isMut t' = false -> tokVer t' = None -> (forall a b c, t' <> TEUnlink a b c) ->
  ram s' = ram s -> content s' = content s -> queue s' = queue s -> phase s' = phase s -> fill s' = fill s -> token s' = token s ->
  Inv s' (tr ++ e).
Proof.
  intros Iv Cn En Nm Ni Ne Pe Th Mt Tk Un Ra Co Qu Ph Fi To.
  assert (Va : ctxValid s' = ctxValid s) by (unfold ctxValid; rewrite Fi; reflexivity).
  apply (inv_soft s); auto.
  - rewrite En. apply (i_en _ _ Iv).
  - lia.
  - rewrite Th, cnt_app. cbn. rewrite Mt. cbn. lia.
  - intros x M. rewrite Th, in_app_iff. cbn. intuition congruence.
  - rewrite Ra. apply ramSame_refl.
  - rewrite Co. apply (i_bc _ _ Iv).
  - rewrite Qu. apply (i_bi _ _ Iv).
  - rewrite Ph. apply (i_bp _ _ Iv).
  - intros x v I V. rewrite Th in I. apply in_app_iff in I. destruct I as [I|[<-|[]]]; [|congruence]. apply (i_bt _ _ Iv x v I V).
  - intros a b c I. rewrite Th in I. apply in_app_iff in I. destruct I as [I|[I|[]]]; [exact I|]. exfalso. apply (Un a b c I).
  - intros L A _. apply (Q_ext L s); auto. rewrite Va. auto.
  - intros L. apply Qt_thr; [congruence|]. intros x v I V. rewrite Th in I. apply in_app_iff in I. destruct I as [I|[<-|[]]]; [|congruence].
    exists x. auto.
  - intros x I M H L (v & K). apply L. exists v. rewrite <- Ph. exact K.
  - intros x n I M T. destruct x; auto. cbn in T. rewrite Qu. apply T.
  - rewrite Ph, Va, Co, Pe. apply (i_rd _ _ Iv).
Qed.
Lemma spawn_find s tr s' e : Inv s tr -> spawn s CFind = Some (s', e) -> Inv s' (tr ++ e).
Proof.
  intros Iv H. assert (C : counts s') by (eapply counts_spawn; [apply (i_cnt _ _ Iv)|exact H]).
  cbn [spawn] in H. injection H as <- <-.
  apply (inv_add s tr _ _ (TFRam (nextf s)) Iv C); proj; auto; try (apply neutral_one; exact I); try (apply pend_one; exact I); discriminate.
Qed.
Lemma spawn_spur s tr s' e : Inv s tr -> spawn s CSpurious = Some (s', e) -> Inv s' (tr ++ e).
Proof.
  intros Iv H. assert (C : counts s') by (eapply counts_spawn; [apply (i_cnt _ _ Iv)|exact H]).
  cbn [spawn] in H. injection H as <- <-.
  apply (inv_add s tr _ _ (TTomb WSpur) Iv C); proj; auto; try apply neutral_nil; try (rewrite app_nil_r; reflexivity); discriminate.
Qed.
Lemma spawn_evict s tr tok s' e : Inv s tr -> spawn s (CEvict tok) = Some (s', e) -> Inv s' (tr ++ e).
Proof.
  intros Iv H. assert (C : counts s') by (eapply counts_spawn; [apply (i_cnt _ _ Iv)|exact H]).
  cbn [spawn] in H. destruct (findRam s) as [it|] eqn:F; [|discriminate].
  destruct (findRam_some s it F) as (R & X).
  destruct (pinned s (iid it)) eqn:P; [discriminate|]. pose proof (pinned_spec s (iid it) P) as NP.
  set (it' := {| iid := iid it; ver := ver it; clean := clean it; evicted := evicted it; excl := true |}) in *.
  destruct (i_ram _ _ Iv it R) as (R1 & R2 & R3). specialize (R1 X).
  assert (R4 : ver it <= floor tr).
  { destruct R3 as [R3|(t & A & B & _)]; [exact R3|]. exfalso. exact (NP t A B). }
  assert (NR : forall i t, In t (thr s) -> pinOf t = Some i -> ~ ramIs s i).
  { intros i t I E (it0 & A & B & _). rewrite R in A. injection A as <-. apply (NP t I). congruence. }
  assert (EX : e = [] /\ exists tk, (tk = token s \/ (tk = Some true /\ token s = None /\ tok = true)) /\
     s' = setThr (setToken (setRam s (Some it')) tk) (thr s ++ [TEUnlink (iid it) (ver it) tok]) /\
     (tok = true -> tk = Some true /\ token s = None)).
  { destruct tok.
    - destruct (enabled s && (negb (clean it) || evicted it)); [|discriminate].
      destruct (token s) eqn:T; [discriminate|]. injection H as <- <-. split; [reflexivity|]. exists (Some true).
      split; [right; auto|]. split; [reflexivity|auto].
    - injection H as <- <-. split; [reflexivity|]. exists (token s). split; [left; reflexivity|]. split; [|discriminate].
      unfold setThr, setRam, setToken. cbn. reflexivity. }
  destruct EX as (-> & tk & TK & -> & TKt). clear H. rewrite app_nil_r.
  set (s2 := setThr (setToken (setRam s (Some it')) tk) (thr s ++ [TEUnlink (iid it) (ver it) tok])) in *.
  assert (NH : cnt holdTok (thr s) = someN (token s)) by apply (c_tok _ (i_cnt _ _ Iv)).
  assert (HQ : forall L, Q L s -> Q L s2) by (intros L; apply Q_ext; unfold s2; proj; auto).
  assert (HT : forall L, L <= ver it -> Qt L s -> Qt L s2).
  { intros L LE A T t v I V. unfold s2 in T, I. proj. apply in_app_iff in I. destruct I as [I|[<-|[]]].
    - destruct TK as [->|(-> & T0 & ->)]; [exact (A T t v I V)|].
      exfalso. rewrite T0 in NH. cbn in NH. pose proof (cnt_zero _ _ t NH I) as Z.
      destruct t; cbn in *; try discriminate. destruct t; discriminate.
    - cbn in V. destruct tok; [|discriminate]. injection V as <-. exact LE. }
  assert (HT2 : forall L, tok = false -> Qt L s -> Qt L s2).
  { intros L -> A T t v I V. unfold s2 in T, I. proj. apply in_app_iff in I. destruct I as [I|[<-|[]]]; [|discriminate].
    destruct TK as [->|(_ & _ & D)]; [exact (A T t v I V)|discriminate]. }
  constructor.
  - unfold s2; proj; apply (i_en _ _ Iv).
  - exact C.
  - unfold s2; proj. apply (i_nm _ _ Iv).
  - unfold s2; proj. rewrite cnt_app. cbn. rewrite Nat.add_0_r. apply (i_act _ _ Iv).
  - unfold s2; proj. intros t n I M. apply in_app_iff in I. destruct I as [I|[<-|[]]]; [|discriminate]. apply (i_actn _ _ Iv t n I M).
  - unfold s2; proj. apply (i_last _ _ Iv).
  - unfold s2; proj. apply (i_bc _ _ Iv).
  - unfold s2; proj. apply (i_bi _ _ Iv).
  - unfold s2; proj. apply (i_bp _ _ Iv).
  - unfold s2; proj. intros t v I V. apply in_app_iff in I. destruct I as [I|[<-|[]]]; [apply (i_bt _ _ Iv t v I V)|].
    cbn in V. destruct tok; [|discriminate]. injection V as <-. exact R4.
  - unfold s2; proj. intros it0 E. injection E as <-. cbn. split; [discriminate|]. split; [exact R2|]. left. exact R4.
  - unfold s2; proj. intros a v b I. apply in_app_iff in I. destruct I as [I|[I|[]]].
    + destruct (i_unl _ _ Iv a v b I) as (A & B). split; [exact A|]. intros it0 E _. injection E as <-. reflexivity.
    + injection I as <- <- <-. split; [exact R2|]. intros it0 E _. injection E as <-. reflexivity.
  - apply HQ. apply (i_Q _ _ Iv).
  - apply HT; [exact R1|]. apply (i_Qt _ _ Iv).
  - unfold s2; proj. intros it0 E K. injection E as <-. discriminate.
  - intros t I M. unfold s2 in I. proj. apply in_app_iff in I. destruct I as [I|[<-|[]]]; [|discriminate].
    pose proof (i_TI _ _ Iv t I M) as T.
    assert (NF : findRam s <> None) by congruence.
    destruct t; cbn [TI] in *; auto; try (exfalso; apply (NR i _ I eq_refl); assumption).
    + destruct w; cbn [whoOk0 whoOk] in *; auto; try discriminate; exfalso.
      * destruct T as (x & A & B & _ & D). apply (NR i _ I eq_refl). exists x. auto.
      * apply (NR i _ I eq_refl). exact T.
    + destruct w; cbn [whoOk0 whoOk] in *; auto; try discriminate; exfalso.
      * destruct T as (x & A & B & _ & D). apply (NR i _ I eq_refl). exists x. auto.
      * apply (NR i _ I eq_refl). exact T.
    + destruct T as (T & _). exfalso. destruct w; cbn [whoOk] in T; try discriminate; [|congruence|].
      * destruct T as (x & A & B & _ & D). apply (NR i _ I eq_refl). exists x. auto.
      * apply (NR i _ I eq_refl). exact T.
    + destruct T as (T & _). exfalso. destruct w; cbn [whoOk] in T; try discriminate; [|congruence|].
      * destruct T as (x & A & B & _ & D). apply (NR i _ I eq_refl). exists x. auto.
      * apply (NR i _ I eq_refl). exact T.
    + destruct T as (T & _). exfalso. destruct w; cbn [whoOk] in T; try discriminate; [|congruence|].
      * destruct T as (x & A & B & _ & D). apply (NR i _ I eq_refl). exists x. auto.
      * apply (NR i _ I eq_refl). exact T.
    + destruct T as (T & _). exfalso. destruct w; cbn [whoOk] in T; try discriminate; [|congruence|].
      * destruct T as (x & A & B & _ & D). apply (NR i _ I eq_refl). exists x. auto.
      * apply (NR i _ I eq_refl). exact T.
    + exfalso. apply (NR i _ I eq_refl). apply T.
    + destruct T as (T & _). exfalso. destruct w; cbn [whoOk] in T; try discriminate; [|congruence|].
      * destruct T as (x & A & B & _ & D). apply (NR i _ I eq_refl). exists x. auto.
      * apply (NR i _ I eq_refl). exact T.
  - unfold s2; proj. apply (i_rd _ _ Iv).
Qed.

(** *** Jobs and flash events *)
Lemma inv_job s tr s' e :
  Inv s tr -> counts s' -> enabled s' = enabled s -> nextm s' = nextm s -> nexti s' = nexti s -> neutral tr e ->
  thr s' = thr s -> token s' = token s -> ramSame (ram s) (ram s') ->
  (forall v, content s' = Some v -> v <= floor tr) ->
  (forall j, In j (queue s') -> In j (queue s)) ->
  (match phase s' with PRead (Some v) | PGot v | PLocked v => v <= floor tr | _ => True end) ->
  (forall L, Q L s -> Q L s') ->
  (locked s' -> ~ locked s -> tombs s = 0) ->
  (match phase s' with
   | PRead (Some v) | PGot v => ctxValid s' = true -> pend (tr ++ e) = false -> content s' = Some v
   | _ => True end) ->
  Inv s' (tr ++ e).
Proof.
  intros Iv Cn En Nm Ni Ne Th To Rs Bc Bq Bp HQ HL Rd.
  apply (inv_soft s); auto; rewrite ?Th, ?To; auto; try tauto.
  - rewrite En. apply (i_en _ _ Iv).
  - lia.
  - intros v I. apply (i_bi _ _ Iv). auto.
  - apply (i_bt _ _ Iv).
  - intros L A. unfold Qt. rewrite Th, To. exact A.
  - intros t I M H NL L. specialize (HL L NL). pose proof (hold_tombs s t (i_cnt _ _ Iv) I H). lia.
  - intros x n I M T. destruct x; auto. cbn in T. intros v J. apply Bq in J. destruct T as (_ & _ & _ & T). exact (T v J).
Qed.
Lemma exec_step s tr r s' e : Inv s tr -> execJob s r = Some (s', e) -> Inv s' (tr ++ e).
Proof.
  intros Iv H. assert (C : counts s') by (eapply counts_exec; [apply (i_cnt _ _ Iv)|exact H]).
  unfold execJob in H. destruct (phase s) eqn:P; try discriminate. destruct (queue s) as [|j q] eqn:Eq; [discriminate|].
  destruct j; injection H as <- <-; apply (inv_job s); proj; auto; try apply neutral_nil; try apply ramSame_refl;
    try (intros (v0 & X); discriminate X).
  - intros w E. destruct r; [injection E as <-|discriminate|apply (i_bc _ _ Iv w E)].
    apply (i_bi _ _ Iv). rewrite Eq. left. reflexivity.
  - intros L [A B D]. constructor; proj; rewrite ?Eq; auto.
    + intros w E K. destruct r; [injection E as <-|discriminate|rewrite Eq in A; apply (A w E K)].
      right. apply (B v [] q); [rewrite Eq; reflexivity|exact K].
    + intros w l1 l2 E K. apply (B w l1 l2); [rewrite Eq; exact E|exact K].
  - apply (i_bc _ _ Iv).
  - destruct r; auto. destruct (content s) eqn:Ec; [|exact I]. apply (i_bc _ _ Iv). exact Ec.
  - intros L [A B D]. constructor; proj; rewrite ?Eq in *; auto.
    destruct r; auto. destruct (content s) eqn:Ec; [|exact I]. intros K _. apply (A n eq_refl K).
  - destruct r; auto. destruct (content s) eqn:Ec; auto.
  - intros w E. discriminate.
  - intros L [A B D]. constructor; proj; rewrite ?Eq in *; auto. discriminate.
Qed.
Lemma tl_in {A} (x : A) l : In x (tl l) -> In x l.
Proof. destruct l; cbn; auto. Qed.
Lemma Q_pop L s s' j q : Q L s -> queue s = j :: q -> queue s' = q -> phase s' = PIdle -> content s' = content s ->
  (j = JRem -> content s = None) -> Q L s'.
Proof.
  intros [A B D] E E' P Co J. constructor; rewrite ?E', ?P, ?Co; auto.
  - intros v K LT. specialize (A v K LT). rewrite E in A. destruct A as [->|A]; [|exact A].
    rewrite (J eq_refl) in K. discriminate.
  - intros v l1 l2 K LT. apply (B v (j :: l1) l2); [rewrite E, K; reflexivity|exact LT].
Qed.
Lemma fill_step s tr v s' e : Inv s tr -> phase s = PLocked v -> ram s = None ->
  callback s true = Some (s', e) -> Inv s' (tr ++ e).
Proof.
  intros Iv P R H. assert (C : counts s') by (eapply counts_callback; [apply (i_cnt _ _ Iv)|exact H]).
  unfold callback in H. rewrite P, R in H. injection H as <- <-.
  assert (LV : floor tr <= v) by (pose proof (q_r _ _ (i_Q _ _ Iv)) as X; rewrite P in X; exact X).
  assert (VL : v <= floor tr) by (pose proof (i_bp _ _ Iv) as X; rewrite P in X; exact X).
  assert (HQ : forall L s2, content s2 = content s -> queue s2 = queue s -> phase s2 = PErase -> Q L s -> Q L s2).
  { intros L s2 E1 E2 E3 [A B D]. constructor; rewrite ?E1, ?E2, ?E3; auto. }
  destruct (neutral_one tr Filled I) as (Na & Nf).
  constructor; rewrite ?Na, ?Nf; try (unfold setNext, setRam, setPhase, setFill; cbn; fail).
  - proj. apply (i_en _ _ Iv).
  - exact C.
  - proj. apply (i_nm _ _ Iv).
  - proj. apply (i_act _ _ Iv).
  - proj. apply (i_actn _ _ Iv).
  - proj. apply (i_last _ _ Iv).
  - proj. apply (i_bc _ _ Iv).
  - proj. apply (i_bi _ _ Iv).
  - proj. exact I.
  - proj. apply (i_bt _ _ Iv).
  - proj. intros it E. injection E as <-. cbn. split; [intros _; exact LV|]. split; [lia|]. left. exact VL.
  - proj. intros a b c K. destruct (i_unl _ _ Iv a b c K) as (A & _). split; [lia|].
    intros it E F. injection E as <-. cbn in F. lia.
  - apply HQ; try reflexivity. apply (i_Q _ _ Iv).
  - exact (i_Qt _ _ Iv).
  - proj. intros it E _ K. injection E as <-. discriminate.
  - proj. intros t K M. pose proof (i_TI _ _ Iv t K M) as T.
    assert (LK : locked s) by (exists v; exact P).
    assert (NR : forall i, ~ ramIs s i) by (intros i (x & A & _); congruence).
    assert (NW : forall n i, ~ whoOk s (WIns n i)) by (intros n i (x & A & _); congruence).
    destruct t; cbn [TI] in *; auto; try (exfalso; eapply NR; eassumption); try (exfalso; apply T; exact LK).
    + destruct w; cbn [whoOk0] in *; auto; exfalso; [eapply NW|eapply NR]; exact T.
    + destruct w; cbn [whoOk0] in *; auto; exfalso; [eapply NW|eapply NR]; exact T.
    + destruct T as (T1 & T2). exfalso. destruct (mutOf (TRet w)) as [n|] eqn:MO; [|unfold isMut in M; rewrite MO in M; discriminate].
      cbn in MO. destruct (T2 n MO) as ([_ _ X] & _). rewrite P in X.
      destruct (i_last _ _ Iv n); [|lia]. apply (i_actn _ _ Iv (TRet w)); assumption.
  - proj. exact I.
Qed.
Lemma cb_step s tr b s' e : Inv s tr -> callback s b = Some (s', e) -> Inv s' (tr ++ e).
Proof.
  intros Iv H. assert (C : counts s') by (eapply counts_callback; [apply (i_cnt _ _ Iv)|exact H]).
  pose proof (i_rd _ _ Iv) as RD. pose proof (i_bp _ _ Iv) as BP. pose proof (c_head _ (i_cnt _ _ Iv)) as HD. unfold headOk in HD.
  unfold callback in H. destruct (phase s) as [| |[v|]|v|v| |] eqn:P; try discriminate.
  - injection H as <- <-. destruct HD as (v & q & Eq). apply (inv_job s); proj; auto; try apply neutral_nil; try apply ramSame_refl;
      try (intros (v0 & X); discriminate X).
    + apply (i_bc _ _ Iv).
    + intros j. apply tl_in.
    + intros L A. apply (Q_pop L s _ (JIns v) q A Eq); proj; auto; [rewrite Eq; reflexivity|discriminate].
  - assert (X : exists p', (p' = PGot v \/ p' = PErase) /\ s' = setPhase s p' /\ e = []).
    { destruct (enabled s && b); injection H as <- <-; eauto. }
    clear H. destruct X as (p' & Hp & -> & ->). apply (inv_job s); proj; auto; try apply neutral_nil; try apply ramSame_refl.
    + apply (i_bc _ _ Iv).
    + destruct Hp as [->| ->]; auto.
    + intros L [A B D]. constructor; proj; auto. rewrite P in D. destruct Hp as [->| ->]; auto.
    + intros (w & X). proj. destruct Hp as [->| ->]; discriminate.
    + rewrite app_nil_r. destruct Hp as [->| ->]; auto.
  - injection H as <- <-. apply (inv_job s); proj; auto; try apply neutral_nil; try apply ramSame_refl.
    + apply (i_bc _ _ Iv).
    + intros L [A B D]. constructor; proj; auto.
    + intros (w & X). discriminate.
  - assert (X : e = [] /\ ((tombs s = 0 /\ ctxValid s = true /\ s' = setPhase s (PLocked v)) \/ s' = setPhase s PErase)).
    { destruct (Nat.eqb_spec (tombs s) 0) as [T|T]; [destruct (ctxValid s) eqn:V|]; cbn [andb] in H; injection H as <- <-; auto. }
    clear H. destruct X as (-> & [(T & V & ->)| ->]).
    + apply (inv_job s); proj; auto; try apply neutral_nil; try apply ramSame_refl.
      * apply (i_bc _ _ Iv).
      * intros L [A B D]. constructor; proj; auto. rewrite P in D.
        destruct (Nat.le_gt_cases L v) as [LE|GT]; [exact LE|]. specialize (D GT V).
        pose proof (rem_tombs s (i_cnt _ _ Iv) D). lia.
    + apply (inv_job s); proj; auto; try apply neutral_nil; try apply ramSame_refl.
      * apply (i_bc _ _ Iv).
      * intros L [A B D]. constructor; proj; auto.
      * intros (w & X). discriminate.
  - destruct (ram s) as [it|] eqn:R.
    + injection H as <- <-. apply (inv_job s); proj; auto; try apply neutral_nil; try apply ramSame_refl.
      * apply (i_bc _ _ Iv).
      * intros L [A B D]. constructor; proj; auto.
      * intros (w & X). discriminate.
    + apply (fill_step s tr v); auto. unfold callback. rewrite P, R. exact H.
  - injection H as <- <-. destruct HD as (q & Eq).
    assert (NE : forall t l c, neutral t (Erased :: map (fun f => FindRet f c) l) /\ pend (t ++ Erased :: map (fun f => FindRet f c) l) = pend t).
    { intros t l c. change (Erased :: map (fun f => FindRet f c) l) with ([Erased] ++ map (fun f => FindRet f c) l).
      unfold neutral. rewrite app_assoc. destruct (rets_neutral (t ++ [Erased]) c l) as (A & B & D & _). rewrite A, B, D.
      rewrite active_snoc, floor_snoc, pend_snoc. auto. }
    assert (NE1 : neutral tr (Erased :: match fill s with Some c => map (fun f => FindRet f (cit c)) (cwait c) | None => [] end)).
    { destruct (fill s) as [c|]; [apply NE|]. apply (NE tr [] None). }
    apply (inv_job s); proj; auto; try apply ramSame_refl;
      try (intros (v0 & X); discriminate X).
    + apply (i_bc _ _ Iv).
    + intros j. apply tl_in.
    + intros L A. apply (Q_pop L s _ JLook q A Eq); proj; auto; [rewrite Eq; reflexivity|discriminate].
  - injection H as <- <-. destruct HD as ((q & Eq) & Co). apply (inv_job s); proj; auto; try apply neutral_nil; try apply ramSame_refl;
      try (intros (v0 & X); discriminate X).
    + apply (i_bc _ _ Iv).
    + intros j. apply tl_in.
    + intros L A. apply (Q_pop L s _ JRem q A Eq); proj; auto. rewrite Eq; reflexivity.
Qed.
Lemma flash_step s tr a s' e : Inv s tr -> (a = ADrop \/ a = AInval \/ a = AMark) -> step s a = Some (s', e) -> Inv s' (tr ++ e).
Proof.
  intros Iv K H. assert (C : counts s') by (eapply counts_step; [apply (i_cnt _ _ Iv)|exact H]).
  destruct K as [->|[->| ->]]; cbn [step] in H.
  - destruct (content s) as [v|] eqn:Ec; [|discriminate]. injection H as <- <-.
    apply (inv_job s); proj; auto; try (apply neutral_one; exact I); try apply ramSame_refl.
    + discriminate.
    + apply (i_bp _ _ Iv).
    + intros L [A B D]. constructor; proj; auto. discriminate.
    + intros L NL. contradiction.
    + destruct (phase s) as [| |[w|]|w|w| |]; auto; intros _; rewrite pend_snoc; discriminate.
  - destruct (lockFree s) eqn:LF; [|discriminate]. injection H as <- <-.
    apply (inv_job s); proj; auto; try (apply neutral_one; exact I); try apply ramSame_refl.
    + apply (i_bc _ _ Iv).
    + apply (i_bp _ _ Iv).
    + intros L. apply Q_ext; proj; auto. intros _. unfold ctxValid. proj. destruct (fill s); discriminate.
    + intros L NL. contradiction.
    + destruct (phase s) as [| |[w|]|w|w| |]; auto; unfold ctxValid; proj; destruct (fill s); discriminate.
  - destruct (findRam s) as [it|] eqn:F; [|discriminate]. destruct (findRam_some s it F) as (R & X).
    destruct (clean it) eqn:Cl; [|discriminate]. injection H as <- <-.
    apply (inv_job s); proj; auto; try apply neutral_nil.
    + rewrite R. cbn. unfold itemSame. cbn. auto.
    + apply (i_bc _ _ Iv).
    + apply (i_bp _ _ Iv).
    + intros L. apply Q_ext; proj; auto.
    + intros L NL. contradiction.
    + rewrite app_nil_r. apply (i_rd _ _ Iv).
Qed.
