(** The invariant is kept by the steps of the mutators. *)
From Coq Require Import List Arith Bool Lia.
Import ListNotations.
From Verif Require Import NvmRace_model NvmRace_spec NvmRace_proofs NvmRace_proofs2 NvmRace_proofs3.

Lemma mutOf_tok t n : mutOf t = Some n -> tokVer t = None.
Proof. destruct t; cbn; try discriminate; auto. Qed.
Lemma mutOf_is t n : mutOf t = Some n -> isMut t = true.
Proof. unfold isMut. intros ->. reflexivity. Qed.
Lemma only_mut s tr i t n x : Inv s tr -> nth_error (thr s) i = Some t -> mutOf t = Some n -> In x (thr s) -> isMut x = true -> x = t.
Proof.
  intros Iv N M I X.
  assert (U : upd (thr s) i t = thr s).
  { clear - N. revert i N. induction (thr s) as [|y l IH]; intros [|i] N; cbn in *; try discriminate.
    - injection N as ->. reflexivity.
    - rewrite (IH i N). reflexivity. }
  assert (C : cnt isMut (thr s) <= 1) by (rewrite (i_act _ _ Iv); destruct (active tr); cbn; lia).
  rewrite <- U in I. destruct (cnt_one_upd isMut _ _ _ x N (mutOf_is _ _ M) C t I); congruence.
Qed.

Lemma inv_mut s tr s' e i t t' n :
  Inv s tr -> counts s' -> enabled s' = enabled s -> nextm s' = nextm s -> nexti s <= nexti s' -> neutral tr e -> pend (tr ++ e) = pend tr ->
  nth_error (thr s) i = Some t -> mutOf t = Some n -> mutOf t' = Some n -> thr s' = upd (thr s) i t' ->
  content s' = content s -> phase s' = phase s -> fill s' = fill s ->
  (queue s' = queue s \/ queue s' = queue s ++ [JRem]) ->
  (token s' = Some true -> token s = Some true) ->
  (forall it, ram s' = Some it -> (excl it = false -> floor tr <= ver it) /\ iid it < nexti s' /\ (ver it <= floor tr \/ pinOf t' = Some (iid it))) ->
  (forall it', ram s' = Some it' -> (iid it' = nexti s /\ nexti s < nexti s') \/ exists it, ram s = Some it /\ iid it = iid it' /\ excl it = excl it') ->
  (forall it, ram s' = Some it -> excl it = false -> clean it = false -> ~ window t' (iid it) -> Q (S (ver it)) s' /\ Qt (S (ver it)) s') ->
  TI s' t' ->
  Inv s' (tr ++ e).
Proof.
  intros Iv Cn En Nm Ni (Na & Nf) Pe N M M' Th Co Ph Fi Qu To Ra Un RQ T.
  assert (HQ : forall L, Q L s -> Q L s').
  { intros L H. destruct Qu as [Qu|Qu].
    - apply (Q_ext L s); auto. intros _. unfold ctxValid. rewrite Fi. auto.
    - apply (Q_snoc L s s' JRem); auto; [unfold ctxValid; rewrite Fi; reflexivity|discriminate]. }
  assert (HT : forall L, Qt L s -> Qt L s').
  { intros L. apply Qt_thr; [exact To|]. intros x v I V. rewrite Th in I. apply in_upd in I. destruct I as [->|I].
    - rewrite (mutOf_tok _ _ M') in V. discriminate.
    - exists x. auto. }
  assert (OM : forall x, In x (thr s') -> x = t' \/ isMut x = false).
  { intros x I. rewrite Th in I. refine (cnt_one_upd isMut _ _ _ x N (mutOf_is _ _ M) _ t' I).
    rewrite (i_act _ _ Iv). destruct (active tr); cbn; lia. }
  constructor; rewrite ?Na, ?Nf; auto.
  - rewrite En. apply (i_en _ _ Iv).
  - rewrite Nm. apply (i_nm _ _ Iv).
  - rewrite Th. rewrite <- (i_act _ _ Iv). pose proof (cnt_upd isMut (thr s) i t t' N) as X.
    rewrite (mutOf_is _ _ M), (mutOf_is _ _ M') in X. cbn in X. lia.
  - intros x k I K. rewrite Th in I. apply in_upd in I. destruct I as [->|I]; [|apply (i_actn _ _ Iv x k I K)].
    apply (i_actn _ _ Iv t k); [apply (nth_in _ _ _ N)|congruence].
  - intros k K. rewrite Nm. apply (i_last _ _ Iv k K).
  - rewrite Co. apply (i_bc _ _ Iv).
  - intros v I. apply (i_bi _ _ Iv). destruct Qu as [-> | ->] in I; [exact I|]. apply in_app_iff in I.
    destruct I as [I|[I|[]]]; [exact I|discriminate].
  - rewrite Ph. apply (i_bp _ _ Iv).
  - intros x v I V. rewrite Th in I. apply in_upd in I. destruct I as [->|I]; [|apply (i_bt _ _ Iv x v I V)].
    rewrite (mutOf_tok _ _ M') in V. discriminate.
  - intros it E. destruct (Ra it E) as (A & B & C). split; [exact A|]. split; [exact B|].
    destruct C as [C|C]; [left; exact C|right]. exists t'. split; [rewrite Th; eapply in_upd_self; exact N|].
    split; [exact C|]. apply (mutOf_is _ _ M').
  - intros a v b I. rewrite Th in I. apply in_upd in I. destruct I as [I|I]; [rewrite <- I in M'; discriminate|].
    destruct (i_unl _ _ Iv a v b I) as (A & B). split; [lia|].
    intros it E K. destruct (Un it E) as [(U & _)|(it0 & U1 & U2 & U3)]; [lia|]. rewrite <- U3. apply B; [exact U1|congruence].
  - apply HQ, (i_Q _ _ Iv).
  - apply HT, (i_Qt _ _ Iv).
  - intros it E X Cl W. apply RQ; auto. apply W. rewrite Th. eapply in_upd_self; exact N.
  - intros x I X. destruct (OM x I) as [->|Y]; [exact T|congruence].
  - rewrite Ph, Co, Pe. unfold ctxValid. rewrite Fi. apply (i_rd _ _ Iv).
Qed.

(** A mutator step that leaves RAM alone. *)
Lemma inv_mut_q s tr s' e i t t' n :
  Inv s tr -> counts s' -> enabled s' = enabled s -> nextm s' = nextm s -> nexti s' = nexti s -> neutral tr e -> pend (tr ++ e) = pend tr ->
  nth_error (thr s) i = Some t -> mutOf t = Some n -> mutOf t' = Some n -> thr s' = upd (thr s) i t' ->
  content s' = content s -> phase s' = phase s -> fill s' = fill s ->
  (queue s' = queue s \/ queue s' = queue s ++ [JRem]) ->
  (token s' = Some true -> token s = Some true) ->
  ram s' = ram s -> (forall j, pinOf t = Some j -> pinOf t' = Some j) ->
  ((forall j, window t j -> window t' j) \/ (Q (S n) s' /\ Qt (S n) s')) ->
  TI s' t' ->
  Inv s' (tr ++ e).
Proof.
  intros Iv Cn En Nm Ni Ne Pe N M M' Th Co Ph Fi Qu To Ra Pi Wi T.
  assert (HQ : forall L, Q L s -> Q L s').
  { intros L H. destruct Qu as [Qu|Qu].
    - apply (Q_ext L s); auto. intros _. unfold ctxValid. rewrite Fi. auto.
    - apply (Q_snoc L s s' JRem); auto; [unfold ctxValid; rewrite Fi; reflexivity|discriminate]. }
  assert (HT : forall L, Qt L s -> Qt L s').
  { intros L. apply Qt_thr; [exact To|]. intros x v I V. rewrite Th in I. apply in_upd in I. destruct I as [->|I].
    - rewrite (mutOf_tok _ _ M') in V. discriminate.
    - exists x. auto. }
  apply (inv_mut s tr s' e i t t' n); auto; try lia.
  - intros it E. rewrite Ra in E. rewrite Ni. destruct (i_ram _ _ Iv it E) as (A & B & C). split; [exact A|]. split; [exact B|].
    destruct C as [C|(x & C1 & C2 & C3)]; [left; exact C|right]. rewrite (only_mut s tr i t n x) in C2 by assumption. auto.
  - intros it E. rewrite Ra in E. right. exists it. auto.
  - intros it E X Cl W. rewrite Ra in E. destruct Wi as [Wi|(Q1 & Q2)].
    + destruct (i_rQ _ _ Iv it E X Cl) as (A & B); [|split; auto].
      intros x I K. pose proof (isMut_pin _ _ (window_pin _ _ K)) as Mx.
      rewrite (only_mut s tr i t n x) in K by assumption. auto.
    + assert (LT : floor tr < S n).
      { destruct (i_last _ _ Iv n); [|lia]. apply (i_actn _ _ Iv t n (nth_in _ _ _ N) M). }
      assert (V : Q (S n) s' -> Q (S (ver it)) s').
      { intros H. apply (Q_le (S n)); [exact H| | |].
        - intros v Ev _. rewrite Co in Ev. pose proof (i_bc _ _ Iv v Ev). lia.
        - intros v Ev _. assert (In (JIns v) (queue s)) as Iq.
          { destruct Qu as [-> | ->] in Ev; [exact Ev|]. apply in_app_iff in Ev. destruct Ev as [Ev|[Ev|[]]]; [exact Ev|discriminate]. }
          pose proof (i_bi _ _ Iv v Iq). lia.
        - rewrite Ph. pose proof (i_bp _ _ Iv) as B. destruct (phase s) as [| |[v|]| v | v | |]; auto; intros; lia. }
      split; [auto|]. intros Tk x v I K. pose proof (Q2 Tk x v I K). rewrite Th in I. apply in_upd in I.
      destruct I as [->|I]; [rewrite (mutOf_tok _ _ M') in K; discriminate|]. pose proof (i_bt _ _ Iv x v I K). lia.
Qed.

(** Starting a mutator. *)
Lemma inv_start s tr s' n k t' :
  Inv s tr -> counts s' -> active tr = None -> n = nextm s -> enabled s' = enabled s -> nextm s' = S n -> nexti s' = nexti s ->
  thr s' = thr s ++ [t'] -> mutOf t' = Some n -> (forall j, ~ window t' j) -> TI s' t' ->
  ram s' = ram s -> content s' = content s -> queue s' = queue s -> phase s' = phase s -> fill s' = fill s -> token s' = token s ->
  Inv s' (tr ++ [MutStart n k]).
Proof.
  intros Iv Cn Ac -> En Nm Ni Th M W T Ra Co Qu Ph Fi To.
  assert (Va : ctxValid s' = ctxValid s) by (unfold ctxValid; rewrite Fi; reflexivity).
  assert (Fl : floor (tr ++ [MutStart (nextm s) k]) = floor tr) by (rewrite floor_snoc; reflexivity).
  assert (At : active (tr ++ [MutStart (nextm s) k]) = Some (nextm s)) by (rewrite active_snoc; reflexivity).
  assert (Z : cnt isMut (thr s) = 0) by (rewrite (i_act _ _ Iv), Ac; reflexivity).
  assert (HQ : forall L, Q L s -> Q L s').
  { intros L. apply Q_ext; auto. rewrite Va. auto. }
  assert (HT : forall L, Qt L s -> Qt L s').
  { intros L. apply Qt_thr; [congruence|]. intros x v I V. rewrite Th in I. apply in_app_iff in I. destruct I as [I|[<-|[]]].
    - exists x. auto.
    - rewrite (mutOf_tok _ _ M) in V. discriminate. }
  constructor; rewrite ?Fl, ?At; auto.
  - rewrite En. apply (i_en _ _ Iv).
  - rewrite Nm. pose proof (i_nm _ _ Iv). lia.
  - rewrite Th, cnt_app, Z. cbn. rewrite (mutOf_is _ _ M). reflexivity.
  - intros x j I K. rewrite Th in I. apply in_app_iff in I. destruct I as [I|[<-|[]]]; [|congruence].
    pose proof (cnt_zero _ _ x Z I) as Y. rewrite (mutOf_is _ _ K) in Y. discriminate.
  - intros j K. injection K as <-. split; [congruence|apply (i_nm _ _ Iv)].
  - rewrite Co. apply (i_bc _ _ Iv).
  - rewrite Qu. apply (i_bi _ _ Iv).
  - rewrite Ph. apply (i_bp _ _ Iv).
  - intros x v I V. rewrite Th in I. apply in_app_iff in I. destruct I as [I|[<-|[]]]; [apply (i_bt _ _ Iv x v I V)|].
    rewrite (mutOf_tok _ _ M) in V. discriminate.
  - intros it E. rewrite Ra in E. rewrite Ni. destruct (i_ram _ _ Iv it E) as (A & B & C). split; [exact A|]. split; [exact B|].
    destruct C as [C|(x & C1 & C2 & C3)]; [left; exact C|right]. exists x. split; [rewrite Th; apply in_app_iff; auto|auto].
  - intros a v b I. rewrite Th in I. apply in_app_iff in I. destruct I as [I|[I|[]]]; [|rewrite I in M; discriminate].
    rewrite Ni, Ra. apply (i_unl _ _ Iv a v b I).
  - apply HQ, (i_Q _ _ Iv).
  - apply HT, (i_Qt _ _ Iv).
  - intros it E X Cl Wn. rewrite Ra in E. destruct (i_rQ _ _ Iv it E X Cl) as (A & B); [|split; auto].
    intros x I. apply Wn. rewrite Th. apply in_app_iff. auto.
  - intros x I X. rewrite Th in I. apply in_app_iff in I. destruct I as [I|[<-|[]]]; [|exact T].
    rewrite (cnt_zero _ _ x Z I) in X. discriminate.
  - rewrite Ph, Va, Co, pend_snoc. cbn. apply (i_rd _ _ Iv).
Qed.
Lemma spawn_mut s tr c s' e : Inv s tr -> guarded (tr ++ e) -> (c = CInsert \/ c = CRemove \/ c = CUpdate) ->
  spawn s c = Some (s', e) -> Inv s' (tr ++ e).
Proof.
  intros Iv G K H. assert (C : counts s') by (eapply counts_spawn; [apply (i_cnt _ _ Iv)|exact H]).
  destruct K as [->|[->| ->]]; cbn [spawn] in H.
  - injection H as <- <-. apply (inv_start s tr _ _ _ (TIAcc (nextm s)) Iv C); proj; auto; [apply (guard_start _ _ _ G)|exact I].
  - injection H as <- <-. apply (inv_start s tr _ _ _ (TTomb (WRem (nextm s))) Iv C); proj; auto; [apply (guard_start _ _ _ G)| |exact I].
    intros j X. discriminate.
  - destruct (findRam s) as [it|] eqn:F; [|discriminate]. injection H as <- <-. destruct (findRam_some _ _ F) as (R & X).
    apply (inv_start s tr _ _ _ (TUClean (nextm s) (iid it)) Iv C); proj; auto; [apply (guard_start _ _ _ G)|].
    exists it. auto.
Qed.

(** A mutator returns. *)
Lemma ret_step s tr i w n b s' e : Inv s tr -> guarded (tr ++ e) -> nth_error (thr s) i = Some (TRet w) -> whoMut w = Some n ->
  tstep s i (TRet w) b = Some (s', e) -> Inv s' (tr ++ e).
Proof.
  intros Iv G N M H. assert (C : counts s') by (eapply counts_thread; [apply (i_cnt _ _ Iv)|exact N|exact H]).
  pose proof (i_TI _ _ Iv _ (nth_in _ _ _ N)) as T. unfold isMut in T. cbn [mutOf] in T. rewrite M in T. specialize (T eq_refl).
  cbn [TI] in T. destruct T as (Wo & T). destruct (T n M) as (HQ & HT). clear T.
  pose proof (i_actn _ _ Iv _ n (nth_in _ _ _ N) M) as Ac. destruct (i_last _ _ Iv n Ac) as (Ln & Lf).
  assert (Z : cnt isMut (upd (thr s) i TIdle) = 0).
  { pose proof (cnt_upd isMut _ _ _ TIdle N) as X. rewrite (mutOf_is (TRet w) n M) in X. rewrite (i_act _ _ Iv), Ac in X. cbn in X. lia. }
  assert (X : e = [MutRet n] /\ thr s' = upd (thr s) i TIdle /\ nextm s' = nextm s /\ nexti s' = nexti s /\ enabled s' = enabled s /\
     content s' = content s /\ queue s' = queue s /\ phase s' = phase s /\ fill s' = fill s /\ token s' = token s /\
     (forall it', ram s' = Some it' -> (excl it' = false -> ver it' = n) /\ ver it' <= n /\
        exists it, ram s = Some it /\ iid it = iid it' /\ excl it = excl it')).
  { cbn [tstep] in H. destruct w as [m j|m|m j|]; cbn in M; try discriminate; injection M as ->.
    - injection H as <- <-. proj. do 10 (split; [reflexivity|]). cbn in Wo. destruct Wo as (it & A & B & D & F). intros it' E.
      rewrite A in E. injection E as <-. split; [auto|]. split; [lia|]. exists it. auto.
    - injection H as <- <-. proj. do 10 (split; [reflexivity|]). cbn in Wo. rewrite findRam_none in Wo. intros it' E.
      specialize (Wo it' E). split; [congruence|]. split; [|exists it'; auto].
      destruct (i_ram _ _ Iv it' E) as (_ & _ & [A|(x & A1 & A2 & A3)]); [lia|].
      rewrite (only_mut s tr i (TRet (WRem n)) n x) in A2 by (auto; reflexivity). discriminate.
    - cbn in Wo. destruct Wo as (it & A & B & D). rewrite A, B, Nat.eqb_refl in H. injection H as <- <-. proj.
      do 10 (split; [reflexivity|]). intros it' E. injection E as <-. cbn. split; [auto|]. split; [lia|]. exists it. auto. }
  clear H. destruct X as (-> & Th & Nm & Ni & En & Co & Qu & Ph & Fi & To & Ra).
  assert (Fl : floor (tr ++ [MutRet n]) = n) by (rewrite floor_snoc; cbn; lia).
  assert (At : active (tr ++ [MutRet n]) = None) by (rewrite active_snoc; reflexivity).
  assert (Va : ctxValid s' = ctxValid s) by (unfold ctxValid; rewrite Fi; reflexivity).
  assert (EQ : forall L, Q L s -> Q L s') by (intros L; apply Q_ext; auto; rewrite Va; auto).
  assert (IT : forall x v, In x (thr s') -> tokVer x = Some v -> In x (thr s)).
  { intros x v I V. rewrite Th in I. apply in_upd in I. destruct I as [->|I]; [discriminate|exact I]. }
  assert (ET : forall L, Qt L s -> Qt L s').
  { intros L. apply Qt_thr; [congruence|]. intros x v I V. exists x. split; [eapply IT; eassumption|exact V]. }
  constructor; rewrite ?Fl, ?At; auto.
  - rewrite En. apply (i_en _ _ Iv).
  - lia.
  - rewrite Th, Z. reflexivity.
  - intros x k I K. rewrite Th in I. pose proof (cnt_zero _ _ x Z I) as Y. rewrite (mutOf_is _ _ K) in Y. discriminate.
  - discriminate.
  - intros v E. rewrite Co in E. pose proof (i_bc _ _ Iv v E). lia.
  - intros v E. rewrite Qu in E. pose proof (i_bi _ _ Iv v E). lia.
  - rewrite Ph. pose proof (i_bp _ _ Iv) as B. destruct (phase s) as [| |[v|]| v | v | |]; auto; lia.
  - intros x v I V. pose proof (i_bt _ _ Iv x v (IT x v I V) V). lia.
  - intros it' E. destruct (Ra it' E) as (A & B & it & D1 & D2 & D3). destruct (i_ram _ _ Iv it D1) as (_ & Y & _).
    split; [intros X; rewrite (A X); lia|]. split; [lia|]. left. exact B.
  - intros a v b0 I. rewrite Th in I. apply in_upd in I. destruct I as [I|I]; [discriminate|].
    destruct (i_unl _ _ Iv a v b0 I) as (A & B). split; [lia|]. intros it' E K.
    destruct (Ra it' E) as (_ & _ & it & D1 & D2 & D3). rewrite <- D3. apply (B it D1). congruence.
  - apply EQ. apply (Q_up s tr (S n)); [exact Iv|exact HQ|lia].
  - apply ET. apply (Qt_up s tr (S n)); [exact Iv|exact HT|lia].
  - intros it' E X _ _. destruct (Ra it' E) as (A & _). rewrite (A X). split; auto.
  - intros x I X. rewrite Th in I. rewrite (cnt_zero _ _ x Z I) in X. discriminate.
  - rewrite Ph, Va, Co, pend_snoc. cbn. apply (i_rd _ _ Iv).
Qed.

(** The other steps of a mutator. *)
Lemma unclean_Q s tr i t n it : Inv s tr -> nth_error (thr s) i = Some t -> mutOf t = Some n -> (forall j, ~ window t j) ->
  ram s = Some it -> excl it = false -> clean it = false -> Q (S n) s /\ Qt (S n) s.
Proof.
  intros Iv N M W R X Cl. destruct (i_rQ _ _ Iv it R X Cl) as (A & B).
  - intros x I K. pose proof (isMut_pin _ _ (window_pin _ _ K)) as Mx. rewrite (only_mut s tr i t n x) in K by assumption. apply (W _ K).
  - destruct (i_ram _ _ Iv it R) as (F & _). specialize (F X).
    split; [apply (Q_up s tr (S (ver it))); auto; lia|apply (Qt_up s tr (S (ver it))); auto; lia].
Qed.
Lemma q_flash L s s' : content s' = content s -> queue s' = queue s -> phase s' = phase s -> fill s' = fill s -> Q L s -> Q L s'.
Proof. intros A B C D. apply Q_ext; auto. unfold ctxValid. rewrite D. auto. Qed.
Lemma qt_upd L s s' i t' n : thr s' = upd (thr s) i t' -> mutOf t' = Some n -> token s' = token s -> Qt L s -> Qt L s'.
Proof.
  intros Th M To. apply Qt_thr; [congruence|]. intros x v I V. rewrite Th in I. apply in_upd in I. destruct I as [->|I].
  - rewrite (mutOf_tok _ _ M) in V. discriminate.
  - exists x. auto.
Qed.
Lemma mut_step s tr i t n b s' e : Inv s tr -> guarded (tr ++ e) -> nth_error (thr s) i = Some t -> mutOf t = Some n ->
  (forall w, t <> TRet w) -> tstep s i t b = Some (s', e) -> Inv s' (tr ++ e).
Proof.
  intros Iv G N M NR H. assert (C : counts s') by (eapply counts_thread; [apply (i_cnt _ _ Iv)|exact N|exact H]).
  pose proof (i_TI _ _ Iv _ (nth_in _ _ _ N) (mutOf_is _ _ M)) as T.
  pose proof (i_actn _ _ Iv _ n (nth_in _ _ _ N) M) as Ac. destruct (i_last _ _ Iv n Ac) as (Ln & Lf).
  destruct t; cbn [mutOf] in M; try discriminate; cbn [tstep] in H.
  - (* TIAcc *) injection M as ->. clear T.
    set (w := WIns n (nexti s)) in *.
    set (new := {| iid := nexti s; ver := n; clean := false; evicted := false; excl := false |}) in *.
    set (t' := match findRam s with Some old => if clean old then TTomb w else TRet w | None => TTomb w end) in *.
    assert (D : t' = TTomb w \/ (t' = TRet w /\ Q (S n) s /\ Qt (S n) s)).
    { unfold t'. destruct (findRam s) as [old|] eqn:F; [|auto]. destruct (clean old) eqn:Cl; [auto|]. right. split; [reflexivity|].
      destruct (findRam_some _ _ F) as (R & X). apply (unclean_Q s tr i (TIAcc n) n old); auto. }
    clearbody t'. injection H as <- <-.
    assert (Mt' : mutOf t' = Some n) by (destruct D as [->|(-> & _)]; reflexivity).
    assert (Pt' : pinOf t' = Some (nexti s)) by (destruct D as [->|(-> & _)]; reflexivity).
    apply (inv_mut s tr _ _ i (TIAcc n) t' n); auto; proj; auto; try apply neutral_nil; try (rewrite app_nil_r; reflexivity).
    + intros it E. injection E as <-. cbn. split; [intros _; lia|]. split; [lia|]. right. exact Pt'.
    + intros it E. injection E as <-. left. cbn. lia.
    + intros it E _ _ W. injection E as <-. cbn [ver iid new] in *. destruct D as [->|(-> & Q1 & Q2)]; [exfalso; apply W; reflexivity|].
      split; [apply (q_flash _ s); auto|]. eapply (qt_upd _ s _ i (TRet w) n); auto.
    + destruct D as [->|(-> & Q1 & Q2)]; cbn [TI whoOk0 whoOk w].
      * exists new. auto.
      * split; [exists new; auto|]. intros k K. injection K as <-.
        split; [apply (q_flash _ s); auto|]. eapply (qt_upd _ s _ i (TRet w) n); auto.
  - (* TUClean *) injection M as ->. cbn [TI] in T. destruct T as (it & R & E & X). rewrite R, E, Nat.eqb_refl in H. cbn [andb] in H.
    destruct (i_ram _ _ Iv it R) as (R1 & R2 & R3).
    destruct (clean it) eqn:Cl; injection H as <- <-.
    + apply (inv_mut s tr _ _ i (TUClean n i0) (TTomb (WUpd n i0)) n); auto; proj; auto; try apply neutral_nil; try (rewrite app_nil_r; reflexivity).
      * intros it' K. injection K as <-. cbn. split; [exact R1|]. split; [lia|]. right. congruence.
      * intros it' K. injection K as <-. right. exists it. auto.
      * intros it' K _ _ W. injection K as <-. exfalso. apply W. cbn. congruence.
      * cbn [TI whoOk0 whoOk]. unfold ramIs. proj. eexists. split; [reflexivity|]. cbn. auto.
    + destruct (unclean_Q s tr i (TUClean n i0) n it) as (Q1 & Q2); auto.
      assert (Q1' : Q (S n) (goto s i (TRet (WUpd n i0)))) by (apply (q_flash _ s); auto).
      assert (Q2' : Qt (S n) (goto s i (TRet (WUpd n i0)))) by (eapply (qt_upd _ s _ i (TRet (WUpd n i0)) n); auto).
      apply (inv_mut_q s tr _ _ i (TUClean n i0) (TRet (WUpd n i0)) n); auto; proj; auto; try apply neutral_nil; try (rewrite app_nil_r; reflexivity).
      cbn [TI]. split; [exists it; auto|]. intros k K. injection K as <-. auto.
  - (* TTomb *) injection H as <- <-. apply (inv_mut_q s tr _ _ i (TTomb w) (TLock w) n); auto; proj; auto; try apply neutral_nil; try (rewrite app_nil_r; reflexivity).
  - (* TLock *) destruct (lockFree s) eqn:LF; [|discriminate]. injection H as <- <-.
    assert (NL : ~ locked s) by (intros (v & P); unfold lockFree in LF; rewrite P in LF; discriminate).
    cbn [TI] in T.
    destruct w as [m j|m|m j|]; try discriminate; injection M as ->.
    + apply (inv_mut_q s tr _ _ i (TLock (WIns n j)) (TInv (WIns n j)) n); auto; proj; auto; try apply neutral_nil; try (rewrite app_nil_r; reflexivity).
      cbn [TI]. split; auto.
    + apply (inv_mut_q s tr _ _ i (TLock (WRem n)) (TMFind n) n); auto; proj; auto; try apply neutral_nil; try (rewrite app_nil_r; reflexivity).
      left. intros j K. discriminate.
    + apply (inv_mut_q s tr _ _ i (TLock (WUpd n j)) (TInv (WUpd n j)) n); auto; proj; auto; try apply neutral_nil; try (rewrite app_nil_r; reflexivity).
      cbn [TI]. split; auto.
  - (* TInv *) rewrite (i_en _ _ Iv) in H. injection H as <- <-. cbn [TI] in T. destruct T as (T1 & T2).
    apply (inv_mut_q s tr _ _ i (TInv w) (THas w) n); auto; proj; auto; try apply neutral_nil; try (rewrite app_nil_r; reflexivity).
    + destruct (token s); [discriminate|auto].
    + cbn [TI]. split; [exact T1|]. split; [exact T2|]. intros k _ Tk. proj. destruct (token s); discriminate.
  - (* THas *) cbn [TI] in T. destruct T as (T1 & T2 & T3).
    assert (QT : forall t' m, mutOf t' = Some n -> whoMut w = Some m -> Qt (S m) (goto s i t')).
    { intros t' m K Km. eapply (qt_upd _ s _ i t' n); auto. }
    destruct (b || negb (Nat.eqb (putctx s) 0)) eqn:B; injection H as <- <-.
    + apply (inv_mut_q s tr _ _ i (THas w) (TEnq w) n); auto; proj; auto; try apply neutral_nil; try (rewrite app_nil_r; reflexivity).
      cbn [TI]. split; [exact T1|]. split; [exact T2|]. intros m Km. apply QT; auto.
    + apply orb_false_iff in B. destruct B as (_ & B). apply negb_false_iff, Nat.eqb_eq in B.
      apply (inv_mut_q s tr _ _ i (THas w) (TCould w) n); auto; proj; auto; try apply neutral_nil; try (rewrite app_nil_r; reflexivity).
      cbn [TI]. split; [exact T1|]. split; [exact T2|]. split; [intros m Km; apply QT; auto|].
      intros v I. pose proof (ctx_ins s v (i_cnt _ _ Iv) I). lia.
  - (* TCould *) cbn [TI] in T. destruct T as (T1 & T2 & T3 & T4).
    assert (QT : forall t' m, mutOf t' = Some n -> whoMut w = Some m -> Qt (S m) (goto s i t')).
    { intros t' m K Km. eapply (qt_upd _ s _ i t' n); auto. }
    assert (X : (s' = goto s i (TEnq w) /\ e = []) \/ (content s = None /\ s' = goto (setTombs s (tombs s - 1)) i (TRet w) /\ e = [Shortcut])).
    { destruct (content s); [injection H as <- <-; auto|]. destruct b; injection H as <- <-; auto. }
    clear H. destruct X as [(-> & ->)|(Ec & -> & ->)].
    + apply (inv_mut_q s tr _ _ i (TCould w) (TEnq w) n); auto; proj; auto; try apply neutral_nil; try (rewrite app_nil_r; reflexivity).
      cbn [TI]. split; [exact T1|]. split; [exact T2|]. intros m Km. apply QT; auto.
    + pose proof (guard_shortcut tr G) as NP. pose proof (i_rd _ _ Iv) as RD.
      assert (QQ : forall L, Q L s).
      { intros L. constructor.
        - congruence.
        - intros v l1 l2 E _. exfalso. apply (T4 v). rewrite E. apply in_app_iff. right. left. reflexivity.
        - destruct (phase s) as [| |[v|]| v | v | |] eqn:P; auto.
          + intros _ Va. exfalso. specialize (RD Va NP). congruence.
          + intros _ Va. exfalso. specialize (RD Va NP). congruence.
          + exfalso. apply T2. exists v. exact P. }
      assert (Q1 : Q (S n) (goto (setTombs s (tombs s - 1)) i (TRet w))) by (apply (q_flash _ s); auto).
      assert (Q2 : Qt (S n) (goto (setTombs s (tombs s - 1)) i (TRet w))).
      { eapply (qt_upd _ s _ i (TRet w) n); auto. }
      apply (inv_mut_q s tr _ _ i (TCould w) (TRet w) n); auto; proj; auto; try (apply neutral_one; exact I); try (apply pend_one; exact I).
      cbn [TI]. split; [exact T1|]. intros m Km. assert (m = n) as -> by congruence. auto.
  - (* TEnq *) injection H as <- <-. cbn [TI] in T. destruct T as (T1 & T2 & T3).
    assert (Q1 : Q (S n) (goto (setQueue s (queue s ++ [JRem])) i (TRet w))) by (apply (Q_rem _ s); auto).
    assert (Q2 : Qt (S n) (goto (setQueue s (queue s ++ [JRem])) i (TRet w))) by (eapply (qt_upd _ s _ i (TRet w) n); auto).
    apply (inv_mut_q s tr _ _ i (TEnq w) (TRet w) n); auto; proj; auto; try apply neutral_nil; try (rewrite app_nil_r; reflexivity).
    cbn [TI]. split; [exact T1|]. intros m Km. assert (m = n) as -> by congruence. auto.
  - (* TMFind *) injection M as ->. cbn [TI] in T. destruct (findRam s) as [it|] eqn:F; injection H as <- <-.
    + destruct (findRam_some _ _ F) as (R & X).
      apply (inv_mut_q s tr _ _ i (TMFind n) (TMAcc n (iid it)) n); auto; proj; auto; try apply neutral_nil; try (rewrite app_nil_r; reflexivity); try discriminate.
      cbn [TI]. split; [exists it; auto|exact T].
    + apply (inv_mut_q s tr _ _ i (TMFind n) (TInv (WRem n)) n); auto; proj; auto; try apply neutral_nil; try (rewrite app_nil_r; reflexivity); try discriminate.
      * left. intros j K. contradiction.
      * cbn [TI]. split; [exact F|exact T].
  - (* TMAcc *) injection M as ->. cbn [TI] in T. destruct T as ((it & R & E & X) & NL). rewrite R, E, Nat.eqb_refl in H.
    destruct (clean it) eqn:Cl; injection H as <- <-.
    + apply (inv_mut s tr _ _ i (TMAcc n i0) (TInv (WRem n)) n); auto; proj; auto; try apply neutral_nil; try (rewrite app_nil_r; reflexivity); try discriminate.
      cbn [TI]. split; [reflexivity|exact NL].
    + destruct (unclean_Q s tr i (TMAcc n i0) n it) as (Q1 & Q2); auto.
      apply (inv_mut s tr _ _ i (TMAcc n i0) (TRet (WRem n)) n); auto; proj; auto; try apply neutral_nil; try (rewrite app_nil_r; reflexivity); try discriminate.
      cbn [TI]. split; [reflexivity|]. intros k K. injection K as <-.
      split; [apply (q_flash _ s); auto|]. eapply (qt_upd _ s _ i (TRet (WRem n)) n); auto.
  - exfalso. apply (NR w). reflexivity.
Qed.

Lemma inv_step s tr a s' e : Inv s tr -> guarded (tr ++ e) -> step s a = Some (s', e) -> Inv s' (tr ++ e).
Proof.
  intros Iv G H. destruct a as [c|i b|r|b| | | |].
  - cbn [step] in H. destruct c.
    + eapply spawn_find; eauto.
    + apply (spawn_mut s tr CInsert); auto.
    + apply (spawn_mut s tr CRemove); auto.
    + apply (spawn_mut s tr CUpdate); auto.
    + eapply spawn_spur; eauto.
    + eapply spawn_evict; eauto.
  - cbn [step] in H. destruct (nth_error (thr s) i) as [t|] eqn:N; [|discriminate].
    destruct (mutOf t) as [n|] eqn:M.
    + destruct t; try (eapply mut_step; eauto; discriminate). eapply ret_step; eauto.
    + destruct t; cbn in M; try discriminate; try (destruct w; cbn in M; try discriminate);
        try (eapply find_step; [exact Iv|exact N|exact I|exact H]);
        try (eapply soft_step; [exact Iv|exact N|exact I|exact H]);
        try (eapply unlink_step; [exact Iv|exact N|exact H]).
  - eapply exec_step; eauto.
  - eapply cb_step; eauto.
  - apply (flash_step s tr ADrop); auto.
  - apply (flash_step s tr AInval); auto.
  - apply (flash_step s tr AMark); auto.
  - cbn [step] in H. injection H as <- <-. exfalso. apply (guard_enabled _ G). apply in_app_iff. right. left. reflexivity.
Qed.
