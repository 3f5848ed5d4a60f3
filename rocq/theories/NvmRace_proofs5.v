(** Finds: what they return; and the theorems about traces. *)
From Coq Require Import List Arith Bool Lia.
Import ListNotations.
From Verif Require Import NvmRace_model NvmRace_spec NvmRace_proofs NvmRace_proofs2 NvmRace_proofs3 NvmRace_proofs4.

Lemma app_cons_split {A} (x : A) tr e t0 t1 : tr ++ e = t0 ++ x :: t1 ->
  (exists u, tr = t0 ++ x :: u) \/ (exists p q, t0 = tr ++ p /\ e = p ++ x :: q).
Proof.
  revert t0. induction tr as [|y tr IH]; intros t0 H; cbn in *.
  - right. exists t0, t1. auto.
  - destruct t0 as [|z t0]; cbn in H.
    + injection H as -> _. left. exists tr. reflexivity.
    + injection H as -> H. destruct (IH t0 H) as [(u & ->)|(p & q & -> & ->)].
      * left. exists u. reflexivity.
      * right. exists p, q. auto.
Qed.

Definition findOf (t : tst) : option nat :=
  match t with TFRam f | TFInval f | TFShared f | TFExcl f => Some f | _ => None end.
Definition starts (e : list event) : Prop := exists f, In (FindStart f) e.
Record FI (s : state) (tr : list event) : Prop := mkFI {
  f_lt : forall f, f < nextf s -> exists m, since tr f = Some m;
  f_ge : forall f, nextf s <= f -> since tr f = None;
  f_thr : forall t f, In t (thr s) -> findOf t = Some f -> f < nextf s;
  f_wait : forall c f, fill s = Some c -> In f (cwait c) -> f < nextf s;
  f_cit : forall c v, fill s = Some c -> cit c = Some v -> win tr = true /\
            forall f m, In f (cwait c) -> since tr f = Some m -> m <= v;
  f_ret : forall f v, In (FindRet f (Some v)) tr -> f < nextf s /\ forall m, since tr f = Some m -> m <= v;
  f_uniq : forall t f u, tr = t ++ FindStart f :: u -> since t f = None;
  f_mut : forall t n k u, tr = t ++ MutStart n k :: u -> floor t < n }.

Lemma since_none_app t e f : since t f = None -> (forall g, In (FindStart g) e -> g <> f) -> since (t ++ e) f = None.
Proof.
  unfold since. rewrite sinceFrom_app. intros -> H. generalize (fold_left floorStep t 0). 
  induction e as [|x e IH]; intros m; cbn; [reflexivity|].
  assert (R : forall m, sinceFrom m e f = None) by (intros m'; apply IH; intros g I; apply H; right; exact I).
  destruct x; cbn; auto. destruct (Nat.eqb_spec f0 f) as [->|]; [|auto]. exfalso. apply (H f); [left; reflexivity|reflexivity].
Qed.

(** Steps that start nothing. *)
Lemma fi_keep s tr s' e :
  FI s tr -> nextf s' = nextf s ->
  (forall f, ~ In (FindStart f) e) -> (forall n k, ~ In (MutStart n k) e) ->
  (forall t f, In t (thr s') -> findOf t = Some f -> exists t0, In t0 (thr s) /\ findOf t0 = Some f) ->
  (forall c', fill s' = Some c' ->
     (forall f, In f (cwait c') -> (exists c, fill s = Some c /\ In f (cwait c)) \/ (exists t0, In t0 (thr s) /\ findOf t0 = Some f)) /\
     (forall v, cit c' = Some v -> win (tr ++ e) = true /\ forall f m, In f (cwait c') -> since tr f = Some m -> m <= v)) ->
  (forall f v m, In (FindRet f (Some v)) e -> since tr f = Some m -> f < nextf s /\ m <= v) ->
  (forall f v, In (FindRet f (Some v)) e -> f < nextf s) ->
  FI s' (tr ++ e).
Proof.
  intros [A B C D E F G K] Nf NS NM Th Fi Re Rl.
  assert (SK : forall f m, f < nextf s -> since (tr ++ e) f = Some m -> since tr f = Some m).
  { intros f m L S. destruct (A f L) as (m' & S'). rewrite (since_keep _ e _ _ S') in S. congruence. }
  constructor; rewrite ?Nf.
  - intros f L. destruct (A f L) as (m & S). exists m. apply since_keep. exact S.
  - intros f L. apply since_none_app; [apply B; exact L|]. intros g I. exfalso. apply (NS g I).
  - intros t f I X. destruct (Th t f I X) as (t0 & I0 & X0). apply (C t0 f I0 X0).
  - intros c f E1 I. destruct (Fi c E1) as (H & _). destruct (H f I) as [(c0 & E0 & I0)|(t0 & I0 & X0)]; [apply (D c0 f E0 I0)|apply (C t0 f I0 X0)].
  - intros c v E1 X. destruct (Fi c E1) as (H & H2). destruct (H2 v X) as (W & Y). split; [exact W|]. intros f m I S.
    apply (Y f m I). apply SK; [|exact S].
    destruct (H f I) as [(c0 & E0 & I0)|(t0 & I0 & X0)]; [apply (D c0 f E0 I0)|apply (C t0 f I0 X0)].
  - intros f v I. apply in_app_iff in I. destruct I as [I|I].
    + destruct (F f v I) as (L & Y). split; [exact L|]. intros m S. apply Y. apply SK; assumption.
    + split; [apply (Rl f v I)|]. intros m S. apply (Re f v m I). apply SK; [apply (Rl f v I)|exact S].
  - intros t f u E1. destruct (app_cons_split _ _ _ _ _ E1) as [(u' & X)|(p & q & -> & X)]; [apply (G t f u' X)|].
    exfalso. apply (NS f). rewrite X. apply in_app_iff. right. left. reflexivity.
  - intros t n k u E1. destruct (app_cons_split _ _ _ _ _ E1) as [(u' & X)|(p & q & -> & X)]; [apply (K t n k u' X)|].
    exfalso. apply (NM n k). rewrite X. apply in_app_iff. right. left. reflexivity.
Qed.
Lemma in_map_ret f v c l : In (FindRet f (Some v)) (map (fun f => FindRet f c) l) -> c = Some v /\ In f l.
Proof. intros H. apply in_map_iff in H. destruct H as (g & E & I). injection E as -> ->. auto. Qed.

Lemma since_floor_le tr f m : since tr f = Some m -> m <= floor tr.
Proof. apply since_le_floor. Qed.
Lemma ram_since s tr it f m : Inv s tr -> findRam s = Some it -> since tr f = Some m -> m <= ver it.
Proof.
  intros Iv F S. destruct (findRam_some _ _ F) as (R & X). destruct (i_ram _ _ Iv it R) as (A & _). specialize (A X).
  pose proof (since_le_floor _ _ _ S). lia.
Qed.
Ltac noEv := unfold not; intros; match goal with I : In _ _ |- False => cbn in I; intuition discriminate end.
Lemma winStep_one tr e : (match e with Filled | Erased => False | _ => True end) -> win (tr ++ [e]) = win tr.
Proof. intros H. rewrite win_snoc. destruct e; try contradiction; reflexivity. Qed.

Lemma fi_thread s tr i t b s' e : Inv s tr -> FI s tr -> guarded (tr ++ e) -> nth_error (thr s) i = Some t ->
  tstep s i t b = Some (s', e) -> FI s' (tr ++ e).
Proof.
  intros Iv Fi G N H. pose proof (nth_in _ _ _ N) as In0.
  (* a thread that is not looking anything up: nothing of it matters *)
  assert (GEN : forall t', nextf s' = nextf s -> thr s' = upd (thr s) i t' -> (findOf t' = None \/ findOf t' = findOf t) -> fill s' = fill s ->
     (forall f, ~ In (FindStart f) e) -> (forall n k, ~ In (MutStart n k) e) -> (win (tr ++ e) = win tr) ->
     (forall f v, In (FindRet f (Some v)) e -> f < nextf s /\ forall m, since tr f = Some m -> m <= v) -> FI s' (tr ++ e)).
  { intros t' E1 E2 E3 E4 E5 E6 E7 E8. apply (fi_keep s); auto.
    - intros x f I X. rewrite E2 in I. apply in_upd in I. destruct I as [->|I]; [|exists x; auto].
      destruct E3 as [E3|E3]; [congruence|]. exists t. split; [exact In0|congruence].
    - intros c E. rewrite E4 in E. split; [intros f I; left; exists c; auto|]. intros v X. rewrite E7. apply (f_cit _ _ Fi c v E X).
    - intros f v m I S. destruct (E8 f v I). auto.
    - intros f v I. destruct (E8 f v I). auto. }
  assert (NR : forall g v, In (FindRet g (Some v)) ([] : list event) -> g < nextf s /\ forall m, since tr g = Some m -> m <= v)
    by (intros g v []).
  assert (N0 : win (tr ++ []) = win tr) by (rewrite app_nil_r; reflexivity).
  assert (HIT : forall f it, findOf t = Some f -> findRam s = Some it ->
      forall g v, In (FindRet g (Some v)) [FindRet f (Some (ver it))] -> g < nextf s /\ forall m, since tr g = Some m -> m <= v).
  { intros f it K F g v [X|[]]. injection X as <- <-. split; [apply (f_thr _ _ Fi t f In0 K)|]. intros m S.
    apply (ram_since s tr it f m Iv F S). }
  assert (MISS : forall f g v, In (FindRet g (Some v)) [FindRet f None] -> g < nextf s /\ forall m, since tr g = Some m -> m <= v)
    by (intros f g v [X|[]]; discriminate).
  assert (CHK : forall f v, checkShared s b = ChkHit v -> findOf t = Some f ->
      forall g w, In (FindRet g (Some w)) [FindRet f (Some v)] -> g < nextf s /\ forall m, since tr g = Some m -> m <= w).
  { intros f v X K. unfold checkShared in X. destruct (findRam s) as [it|] eqn:F.
    - injection X as <-. apply HIT; auto.
    - destruct (fill s); [discriminate|]. destruct (_ && _); discriminate. }
  destruct t; cbn [tstep] in H.
  - discriminate.
  - destruct (findRam s) as [it|] eqn:F; [|destruct (enabled s)]; injection H as <- <-.
    + apply (GEN TIdle); proj; auto; try noEv; try (apply winStep_one; exact I). apply (HIT f it); auto.
    + apply (GEN (TFInval f)); proj; auto.
    + apply (GEN TIdle); proj; auto; try noEv; try (apply winStep_one; exact I); try apply MISS.
  - injection H as <- <-. apply (GEN (TFShared f)); proj; auto.
  - destruct (lockFree s); [|discriminate]. destruct (checkShared s b) as [v| |] eqn:Ck; injection H as <- <-.
    + apply (GEN TIdle); proj; auto; try noEv; try (apply winStep_one; exact I). apply (CHK f v); auto.
    + apply (GEN TIdle); proj; auto; try noEv; try (apply winStep_one; exact I); try apply MISS.
    + apply (GEN (TFExcl f)); proj; auto.
  - destruct (lockFree s); [|discriminate]. destruct (checkShared s b) as [v| |] eqn:Ck.
    + injection H as <- <-. apply (GEN TIdle); proj; auto; try noEv; try (apply winStep_one; exact I). apply (CHK f v); auto.
    + injection H as <- <-. apply (GEN TIdle); proj; auto; try noEv; try (apply winStep_one; exact I); try apply MISS.
    + destruct (fill s) as [c|] eqn:Fc; injection H as <- <-.
      * apply (fi_keep s); proj; auto; try noEv.
        -- intros x g I X. apply in_upd in I. destruct I as [->|I]; [discriminate|]. exists x; auto.
        -- intros c' E. injection E as <-. cbn. split.
           ++ intros g I. apply in_app_iff in I. destruct I as [I|[<-|[]]]; [left; exists c; auto|right]. exists (TFExcl f). auto.
           ++ intros v X. exfalso. destruct (f_cit _ _ Fi c v Fc X) as (W & _). rewrite (guard_join _ _ G) in W. discriminate.
        -- intros g v m [X|[]]. discriminate.
        -- intros g v [X|[]]. discriminate.
      * apply (fi_keep s); proj; auto; try noEv.
        -- intros x g I X. apply in_upd in I. destruct I as [->|I]; [discriminate|]. exists x; auto.
        -- intros c' E. injection E as <-. cbn. split.
           ++ intros g [<-|[]]. right. exists (TFExcl f). auto.
           ++ discriminate.
        -- intros g v m [].
        -- intros g v [].
  - injection H as <- <-. apply (GEN TIdle); proj; auto.
  - injection H as <- <-. apply (GEN (if t then TEPut v else TIdle)); proj; auto. destruct t; auto.
  - destruct (b && enabled s && Nat.eqb (tombs s) 0); injection H as <- <-; [apply (GEN (TECtx v))|apply (GEN TEAbTok)]; proj; auto.
  - injection H as <- <-. apply (GEN (TEExec v)); proj; auto.
  - destruct (token s) as [[]|]; [destruct b| |]; injection H as <- <-; [apply (GEN TIdle)|apply (GEN TEAbCtxOnly)|apply (GEN TEAbCtx)|apply (GEN TEAbCtx)]; proj; auto.
  - injection H as <- <-. apply (GEN TEAbTok); proj; auto.
  - injection H as <- <-. apply (GEN TIdle); proj; auto.
  - injection H as <- <-. apply (GEN TIdle); proj; auto.
  - destruct (findRam s) as [old|]; [destruct (clean old)|]; injection H as <- <-; eapply GEN; proj; auto.
  - destruct (ram s) as [it|]; [destruct (Nat.eqb (iid it) i0 && clean it)|]; injection H as <- <-; eapply GEN; proj; auto.
  - injection H as <- <-. eapply GEN; proj; auto.
  - destruct (lockFree s); [|discriminate]. injection H as <- <-. eapply GEN; proj; auto. destruct w; auto.
  - destruct (enabled s); injection H as <- <-; eapply GEN; proj; auto.
  - destruct (b || _); injection H as <- <-; eapply GEN; proj; auto.
  - destruct (content s); [|destruct b]; injection H as <- <-; eapply GEN; proj; auto; try noEv; try (apply winStep_one; exact I).
    intros f v [X|[]]; discriminate.
  - injection H as <- <-. eapply GEN; proj; auto.
  - destruct (findRam s); injection H as <- <-; eapply GEN; proj; auto.
  - destruct (ram s) as [it|]; [destruct (Nat.eqb (iid it) i0); [destruct (clean it)|]|]; injection H as <- <-; eapply GEN; proj; auto.
  - destruct w as [n j|n|n j|]; injection H as <- <-.
    + eapply (GEN TIdle); proj; auto; try noEv; try (apply winStep_one; exact I). intros f v [X|[]]; discriminate.
    + eapply (GEN TIdle); proj; auto; try noEv; try (apply winStep_one; exact I). intros f v [X|[]]; discriminate.
    + destruct (ram s) as [it|]; [destruct (Nat.eqb (iid it) j)|]; (eapply (GEN TIdle); proj; auto; try noEv; try (apply winStep_one; exact I));
        intros f v [X|[]]; discriminate.
    + eapply (GEN TIdle); proj; auto.
Qed.

Lemma fi_cb s tr b s' e : Inv s tr -> FI s tr -> callback s b = Some (s', e) -> FI s' (tr ++ e).
Proof.
  intros Iv Fi H.
  assert (GEN : nextf s' = nextf s -> thr s' = thr s -> fill s' = fill s -> e = [] -> FI s' (tr ++ e)).
  { intros E1 E2 E3 ->. apply (fi_keep s); auto.
    - intros t f I X. rewrite E2 in I. exists t; auto.
    - intros c E. rewrite E3 in E. split; [intros f I; left; exists c; auto|]. rewrite app_nil_r. intros v X. apply (f_cit _ _ Fi c v E X).
    - intros f v m [].
    - intros f v []. }
  unfold callback in H. destruct (phase s) as [| |[v|]|v|v| |] eqn:P; try discriminate.
  - injection H as <- <-. apply GEN; reflexivity.
  - destruct (enabled s && b); injection H as <- <-; apply GEN; reflexivity.
  - injection H as <- <-. apply GEN; reflexivity.
  - destruct (_ && _); injection H as <- <-; apply GEN; reflexivity.
  - destruct (ram s) as [it|] eqn:R; injection H as <- <-; [apply GEN; reflexivity|].
    assert (LV : floor tr <= v) by (pose proof (q_r _ _ (i_Q _ _ Iv)) as X; rewrite P in X; exact X).
    destruct (fill s) as [c|] eqn:Fc.
    2:{ exfalso. apply (reading_fill s (i_cnt _ _ Iv)); [rewrite P; exact I|exact Fc]. }
    apply (fi_keep s); proj; auto; try noEv.
    + intros t f I X. exists t; auto.
    + intros c' E. injection E as <-. cbn. split.
      * intros f I. left. exists c; auto.
      * intros w X. injection X as <-. split; [rewrite win_snoc; reflexivity|]. intros f m _ S.
        pose proof (since_le_floor _ _ _ S). lia.
    + intros f w m [X|[]]; discriminate.
    + intros f w [X|[]]; discriminate.
  - injection H as <- <-.
    assert (RT : forall f v, In (FindRet f (Some v)) (Erased :: match fill s with Some c => map (fun f => FindRet f (cit c)) (cwait c) | None => [] end) ->
       exists c, fill s = Some c /\ cit c = Some v /\ In f (cwait c)).
    { intros f v [X|I]; [discriminate|]. destruct (fill s) as [c|]; [|destruct I]. destruct (in_map_ret _ _ _ _ I). exists c. auto. }
    assert (NS : forall f, ~ In (FindStart f) (Erased :: match fill s with Some c => map (fun f => FindRet f (cit c)) (cwait c) | None => [] end)).
    { intros f [X|I]; [discriminate|]. destruct (fill s) as [c|]; [|destruct I]. apply in_map_iff in I. destruct I as (g & X & _). discriminate. }
    assert (NM : forall n k, ~ In (MutStart n k) (Erased :: match fill s with Some c => map (fun f => FindRet f (cit c)) (cwait c) | None => [] end)).
    { intros n k [X|I]; [discriminate|]. destruct (fill s) as [c|]; [|destruct I]. apply in_map_iff in I. destruct I as (g & X & _). discriminate. }
    apply (fi_keep s); proj; auto.
    + intros t f I X. exists t; auto.
    + intros c X. discriminate.
    + intros f v m I S. destruct (RT f v I) as (c & A & B & C). split; [apply (f_wait _ _ Fi c f A C)|].
      destruct (f_cit _ _ Fi c v A B) as (_ & Y). apply (Y f m C S).
    + intros f v I. destruct (RT f v I) as (c & A & B & C). apply (f_wait _ _ Fi c f A C).
  - injection H as <- <-. apply GEN; reflexivity.
Qed.

Lemma fi_init : FI init [].
Proof.
  constructor; cbn; try tauto; try discriminate; try lia; auto.
  - intros t f u H. destruct t; discriminate.
  - intros t n k u H. destruct t; discriminate.
Qed.
Lemma fi_mutstart s tr s' n k t' :
  FI s tr -> floor tr < n -> nextf s' = nextf s -> thr s' = thr s ++ [t'] -> findOf t' = None -> fill s' = fill s ->
  FI s' (tr ++ [MutStart n k]).
Proof.
  intros [A B C D E F G K] LT E1 E2 E3 E4.
  assert (SE : forall f m, since (tr ++ [MutStart n k]) f = Some m -> since tr f = Some m).
  { intros f m. unfold since. rewrite sinceFrom_app. destruct (sinceFrom 0 tr f); [auto|]. cbn. discriminate. }
  constructor; rewrite ?E1, ?E4.
  - intros f L. destruct (A f L) as (m & S). exists m. apply since_keep, S.
  - intros f L. apply since_none_app; [apply B, L|]. intros g [X|[]]. discriminate.
  - intros t f I X. rewrite E2 in I. apply in_app_iff in I. destruct I as [I|[<-|[]]]; [apply (C t f I X)|congruence].
  - exact D.
  - intros c v X Y. destruct (E c v X Y) as (W & Z). split; [rewrite win_snoc; exact W|]. intros f m I S. apply (Z f m I). apply SE, S.
  - intros f v I. apply in_app_iff in I. destruct I as [I|[I|[]]]; [|discriminate]. destruct (F f v I) as (L & Y).
    split; [exact L|]. intros m S. apply Y. apply SE, S.
  - intros t f u E5. destruct (app_cons_split _ _ _ _ _ E5) as [(u' & X)|(p & q & -> & X)]; [apply (G t f u' X)|].
    destruct p as [|? [|? ?]]; discriminate.
  - intros t j k' u E5. destruct (app_cons_split _ _ _ _ _ E5) as [(u' & X)|(p & q & -> & X)]; [apply (K t j k' u' X)|].
    destruct p as [|? [|? ?]]; try discriminate. injection X as <- <- <-. rewrite app_nil_r. exact LT.
Qed.
Lemma fi_findstart s tr s' t' :
  FI s tr -> nextf s' = S (nextf s) -> thr s' = thr s ++ [t'] -> findOf t' = Some (nextf s) -> fill s' = fill s ->
  FI s' (tr ++ [FindStart (nextf s)]).
Proof.
  intros [A B C D E F G K] E1 E2 E3 E4.
  assert (SN : since (tr ++ [FindStart (nextf s)]) (nextf s) = Some (floor tr)) by (apply since_new, B; lia).
  assert (SE : forall f m, f < nextf s -> since (tr ++ [FindStart (nextf s)]) f = Some m -> since tr f = Some m).
  { intros f m L. destruct (A f L) as (m' & S). rewrite (since_keep _ _ _ _ S). congruence. }
  constructor; rewrite ?E1, ?E4.
  - intros f L. destruct (Nat.eq_dec f (nextf s)) as [->|NE]; [eauto|]. destruct (A f) as (m & S); [lia|]. exists m. apply since_keep, S.
  - intros f L. apply since_none_app; [apply B; lia|]. intros g [X|[]]. injection X as <-. lia.
  - intros t f I X. rewrite E2 in I. apply in_app_iff in I. destruct I as [I|[<-|[]]]; [pose proof (C t f I X); lia|].
    rewrite E3 in X. injection X as <-. lia.
  - intros c f X I. pose proof (D c f X I). lia.
  - intros c v X Y. destruct (E c v X Y) as (W & Z). split; [rewrite win_snoc; exact W|]. intros f m I S. apply (Z f m I).
    apply SE; [apply (D c f X I)|exact S].
  - intros f v I. apply in_app_iff in I. destruct I as [I|[I|[]]]; [|discriminate]. destruct (F f v I) as (L & Y).
    split; [lia|]. intros m S. apply Y. apply SE; assumption.
  - intros t f u E5. destruct (app_cons_split _ _ _ _ _ E5) as [(u' & X)|(p & q & -> & X)]; [apply (G t f u' X)|].
    destruct p as [|? [|? ?]]; try discriminate. injection X as <- <-. rewrite app_nil_r. apply B. lia.
  - intros t j k' u E5. destruct (app_cons_split _ _ _ _ _ E5) as [(u' & X)|(p & q & -> & X)]; [apply (K t j k' u' X)|].
    destruct p as [|? [|? ?]]; discriminate.
Qed.

Lemma fi_same s tr s' e : FI s tr -> nextf s' = nextf s -> thr s' = thr s -> 
  (forall c', fill s' = Some c' -> exists c, fill s = Some c /\ cwait c' = cwait c /\ cit c' = cit c) -> win (tr ++ e) = win tr ->
  (forall f, ~ In (FindStart f) e) -> (forall n k, ~ In (MutStart n k) e) -> (forall f v, ~ In (FindRet f (Some v)) e) -> FI s' (tr ++ e).
Proof.
  intros Fi E1 E2 E3 W A B C. apply (fi_keep s); auto.
  - intros t f I X. rewrite E2 in I. exists t; auto.
  - intros c' E. destruct (E3 c' E) as (c & F1 & F2 & F3). rewrite F2, F3. split; [intros f I; left; exists c; auto|].
    intros v X. rewrite W. apply (f_cit _ _ Fi c v F1 X).
  - intros f v m I. exfalso. apply (C f v I).
  - intros f v I. exfalso. apply (C f v I).
Qed.
Lemma fi_step s tr a s' e : Inv s tr -> FI s tr -> guarded (tr ++ e) -> step s a = Some (s', e) -> FI s' (tr ++ e).
Proof.
  intros Iv Fi G H.
  assert (ID : forall c', fill s = Some c' -> exists c, fill s = Some c /\ cwait c' = cwait c /\ cit c' = cit c) by (intros c' E; eauto).
  assert (N0 : win (tr ++ []) = win tr) by (rewrite app_nil_r; reflexivity).
  assert (ADD : forall t', nextf s' = nextf s -> thr s' = thr s ++ [t'] -> findOf t' = None -> fill s' = fill s -> e = [] -> FI s' (tr ++ e)).
  { intros t' E1 E2 E3 E4 ->. apply (fi_keep s); auto.
    - intros t f I X. rewrite E2 in I. apply in_app_iff in I. destruct I as [I|[<-|[]]]; [exists t; auto|congruence].
    - intros c E. rewrite E4 in E. split; [intros f I; left; exists c; auto|]. rewrite N0. intros v X. apply (f_cit _ _ Fi c v E X).
    - intros f v m [].
    - intros f v []. }
  destruct a as [c|i b|r|b| | | |]; cbn [step] in H.
  - destruct c; cbn [spawn] in H.
    + injection H as <- <-. apply (fi_findstart s tr _ (TFRam (nextf s))); auto.
    + injection H as <- <-. apply (fi_mutstart s tr _ _ _ (TIAcc (nextm s))); auto. apply (i_nm _ _ Iv).
    + injection H as <- <-. apply (fi_mutstart s tr _ _ _ (TTomb (WRem (nextm s)))); auto. apply (i_nm _ _ Iv).
    + destruct (findRam s) as [it|]; [|discriminate]. injection H as <- <-.
      apply (fi_mutstart s tr _ _ _ (TUClean (nextm s) (iid it))); auto. apply (i_nm _ _ Iv).
    + injection H as <- <-. apply (ADD (TTomb WSpur)); auto.
    + destruct (findRam s) as [it|]; [|discriminate]. destruct (pinned s (iid it)); [discriminate|].
      destruct withToken.
      * destruct (enabled s && _); [|discriminate]. destruct (token s); [discriminate|]. injection H as <- <-. eapply ADD; reflexivity.
      * injection H as <- <-. eapply ADD; reflexivity.
  - destruct (nth_error (thr s) i) as [t|] eqn:N; [|discriminate]. eapply fi_thread; eauto.
  - unfold execJob in H. destruct (phase s); try discriminate. destruct (queue s) as [|[] ?]; try discriminate; injection H as <- <-; apply (fi_same s); auto.
  - eapply fi_cb; eauto.
  - destruct (content s); [|discriminate]. injection H as <- <-. apply (fi_same s); auto; try noEv. apply winStep_one. exact I.
  - destruct (lockFree s); [|discriminate]. injection H as <- <-. apply (fi_same s); auto; try noEv; try (apply winStep_one; exact I).
    proj. intros c' E. destruct (fill s) as [c|]; [|discriminate]. injection E as <-. exists c. auto.
  - destruct (findRam s) as [it|]; [|discriminate]. destruct (clean it); [|discriminate]. injection H as <- <-. apply (fi_same s); auto.
  - injection H as <- <-. apply (fi_same s); auto; try noEv. apply winStep_one. exact I.
Qed.
Lemma reach_FI s tr : reach s tr -> guarded tr -> Inv s tr /\ FI s tr.
Proof.
  induction 1 as [|s tr a s' e R IH H]; intros G; [split; [apply inv_init|apply fi_init]|].
  destruct (IH (guarded_prefix _ _ G)) as (Iv & Fi). split; [eapply inv_step; eauto|eapply fi_step; eauto].
Qed.
Lemma floor_in t n : In (MutRet n) t -> n <= floor t.
Proof.
  unfold floor. generalize 0. induction t as [|e t IH]; intros k I; [destruct I|]. destruct I as [->|I]; cbn; [|apply IH; exact I].
  pose proof (foldfloor_ge t (Nat.max k n)). lia.
Qed.
Lemma no_resurrection acts s tr : run init acts = Some (s, tr) ->
  serialMutators tr -> noShortcutInDropWindow tr -> noJoinAfterFill tr -> neverDisabled tr -> ~ resurrected tr.
Proof.
  intros H G1 G2 G3 G4 (v & n & k & f & t0 & t1 & t2 & t3 & t4 & t5 & E).
  pose proof (run_reach init [] acts s tr reach_init H) as R. cbn in R.
  destruct (reach_FI s tr R) as (Iv & Fi); [unfold guarded; auto|].
  assert (A : floor (t0 ++ MutRet v :: t1) < n).
  { apply (f_mut _ _ Fi _ n k (t2 ++ MutRet n :: t3 ++ FindStart f :: t4 ++ FindRet f (Some v) :: t5)).
    rewrite E, <- app_assoc. reflexivity. }
  assert (B : v < n).
  { assert (In (MutRet v) (t0 ++ MutRet v :: t1)) as I0 by (apply in_app_iff; right; left; reflexivity).
    pose proof (floor_in _ _ I0). lia. }
  set (p := t0 ++ MutRet v :: t1 ++ MutStart n k :: t2 ++ MutRet n :: t3) in *.
  assert (E2 : tr = p ++ FindStart f :: t4 ++ FindRet f (Some v) :: t5).
  { rewrite E. unfold p. repeat (rewrite <- app_assoc; cbn). reflexivity. }
  pose proof (f_uniq _ _ Fi p f _ E2) as U.
  destruct (since_split p f (t4 ++ FindRet f (Some v) :: t5) U n) as (m & S & L).
  { unfold p. apply in_app_iff. right. right. apply in_app_iff. right. right. apply in_app_iff. right. left. reflexivity. }
  rewrite <- E2 in S. destruct (f_ret _ _ Fi f v) as (_ & Y).
  { rewrite E2. apply in_app_iff. right. right. apply in_app_iff. right. left. reflexivity. }
  specialize (Y m S). lia.
Qed.

(** ** No thin air: holds for every run *)
Definition W (tr : list event) (v : nat) : Prop := exists k, writes k /\ In (MutStart v k) tr.
Definition verOf (t : tst) : option nat :=
  match t with
  | TEUnlink _ v _ | TEPut v | TECtx v | TEExec v => Some v
  | TIAcc n | TUClean n _ => Some n
  | TTomb w | TLock w | TInv w | THas w | TCould w | TEnq w | TRet w => match w with WIns n _ | WUpd n _ => Some n | _ => None end
  | _ => None
  end.
Record TA (s : state) (tr : list event) : Prop := mkTA {
  ta_ram : forall it, ram s = Some it -> W tr (ver it);
  ta_c : forall v, content s = Some v -> W tr v;
  ta_q : forall v, In (JIns v) (queue s) -> W tr v;
  ta_p : match phase s with PRead (Some v) | PGot v | PLocked v => W tr v | _ => True end;
  ta_t : forall t v, In t (thr s) -> verOf t = Some v -> W tr v;
  ta_f : forall c v, fill s = Some c -> cit c = Some v -> W tr v;
  ta_r : noThinAir tr }.
Lemma W_mono tr e v : W tr v -> W (tr ++ e) v.
Proof. intros (k & A & B). exists k. split; [exact A|]. apply in_app_iff. auto. Qed.
Lemma ta_ext tr e : noThinAir tr -> (forall f v, In (FindRet f (Some v)) e -> W tr v) -> noThinAir (tr ++ e).
Proof.
  intros A B t0 f v t1 E. destruct (app_cons_split _ _ _ _ _ E) as [(u & X)|(p & q & -> & X)]; [apply (A t0 f v u X)|].
  destruct (B f v) as (k & K1 & K2); [rewrite X; apply in_app_iff; right; left; reflexivity|].
  exists k. split; [exact K1|]. apply in_app_iff. auto.
Qed.
Lemma ta_init : TA init [].
Proof.
  constructor; cbn; try tauto; try discriminate. intros t0 f v t1 E. destruct t0; discriminate.
Qed.
Ltac ta_r0 := apply ta_ext; [assumption|]; let f := fresh in let v := fresh in let X := fresh in intros f v X; cbn in X; try tauto; intuition discriminate.
Lemma ta_step s tr a s' e : TA s tr -> step s a = Some (s', e) -> TA s' (tr ++ e).
Proof.
  intros [A B C D E F G] H.
  assert (A' : forall it, ram s = Some it -> W (tr ++ e) (ver it)) by (intros; apply W_mono; auto).
  assert (B' : forall v, content s = Some v -> W (tr ++ e) v) by (intros; apply W_mono; auto).
  assert (C' : forall v, In (JIns v) (queue s) -> W (tr ++ e) v) by (intros; apply W_mono; auto).
  assert (D' : match phase s with PRead (Some v) | PGot v | PLocked v => W (tr ++ e) v | _ => True end).
  { destruct (phase s) as [| |[v|]| v | v | |]; auto; apply W_mono; auto. }
  assert (E' : forall t v, In t (thr s) -> verOf t = Some v -> W (tr ++ e) v) by (intros; apply W_mono; eauto).
  assert (F' : forall c v, fill s = Some c -> cit c = Some v -> W (tr ++ e) v) by (intros; apply W_mono; eauto).
  assert (FR : forall it, findRam s = Some it -> ram s = Some it) by (intros it K; apply (findRam_some _ _ K)).
  assert (UP : forall i t', verOf t' = None \/ (exists t, In t (thr s) /\ verOf t = verOf t') ->
     forall t v, In t (upd (thr s) i t') -> verOf t = Some v -> W (tr ++ e) v).
  { intros i t' K t v I V. apply in_upd in I. destruct I as [->|I]; [|eauto]. destruct K as [K|(t0 & I0 & V0)]; [congruence|].
    apply (E' t0 v I0). congruence. }
  assert (AD : forall t', (forall v, verOf t' = Some v -> W (tr ++ e) v) -> forall t v, In t (thr s ++ [t']) -> verOf t = Some v -> W (tr ++ e) v).
  { intros t' K t v I V. apply in_app_iff in I. destruct I as [I|[<-|[]]]; eauto. }
  destruct a as [c|i b|r|b| | | |]; cbn [step] in H.
  - destruct c; cbn [spawn] in H.
    + injection H as <- <-. constructor; proj; auto; [apply AD; discriminate|ta_r0].
    + injection H as <- <-. constructor; proj; auto; [|ta_r0]. apply AD. intros v K. injection K as <-.
      exists KInsert. split; [left; reflexivity|]. apply in_app_iff. right. left. reflexivity.
    + injection H as <- <-. constructor; proj; auto; [apply AD; discriminate|ta_r0].
    + destruct (findRam s) as [it|]; [|discriminate]. injection H as <- <-. constructor; proj; auto; [|ta_r0]. apply AD. intros v K. injection K as <-.
      exists KUpdate. split; [right; reflexivity|]. apply in_app_iff. right. left. reflexivity.
    + injection H as <- <-. constructor; proj; auto; [apply AD; discriminate|ta_r0].
    + destruct (findRam s) as [it|] eqn:Fr; [|discriminate]. destruct (pinned s (iid it)); [discriminate|].
      specialize (FR it eq_refl).
      assert (X : e = [] /\ exists tk, s' = setThr (setToken (setRam s (Some {| iid := iid it; ver := ver it; clean := clean it; evicted := evicted it; excl := true |})) tk) (thr s ++ [TEUnlink (iid it) (ver it) withToken])).
      { destruct withToken.
        - destruct (enabled s && _); [|discriminate]. destruct (token s); [discriminate|]. injection H as <- <-. split; [reflexivity|]. eexists; reflexivity.
        - injection H as <- <-. split; [reflexivity|]. exists (token s). reflexivity. }
      destruct X as (-> & tk & ->). constructor; proj; auto; [| |ta_r0].
      * intros it' K. injection K as <-. cbn. auto.
      * apply AD. cbn. intros v K. injection K as <-. auto.
  - destruct (nth_error (thr s) i) as [t|] eqn:N; [|discriminate]. pose proof (nth_in _ _ _ N) as I0.
    pose proof (E' t) as Et.
    assert (HIT : forall f it, findRam s = Some it -> forall g v, In (FindRet g (Some v)) [FindRet f (Some (ver it))] -> W tr v).
    { intros f it K g v [X|[]]. injection X as _ <-. apply A. auto. }
    assert (CHK : forall f v, checkShared s b = ChkHit v -> forall g w, In (FindRet g (Some w)) [FindRet f (Some v)] -> W tr w).
    { intros f v X. unfold checkShared in X. destruct (findRam s) as [it|] eqn:K.
      - injection X as <-. apply HIT; auto.
      - destruct (fill s); [discriminate|]. destruct (_ && _); discriminate. }
    destruct t; cbn [tstep] in H.
    + discriminate.
    + destruct (findRam s) as [it|] eqn:K; [|destruct (enabled s)]; injection H as <- <-; (constructor; proj; auto; [apply UP; left; reflexivity|]); try ta_r0.
      apply ta_ext; auto. apply (HIT f it); auto.
    + injection H as <- <-. constructor; proj; auto; [apply UP; left; reflexivity|ta_r0].
    + destruct (lockFree s); [|discriminate]. destruct (checkShared s b) as [v| |] eqn:Ck; injection H as <- <-; (constructor; proj; auto; [apply UP; left; reflexivity|]); try ta_r0.
      apply ta_ext; auto. apply (CHK f v); auto.
    + destruct (lockFree s); [|discriminate]. destruct (checkShared s b) as [v| |] eqn:Ck.
      * injection H as <- <-. constructor; proj; auto; [apply UP; left; reflexivity|]. apply ta_ext; auto. apply (CHK f v); auto.
      * injection H as <- <-. constructor; proj; auto; [apply UP; left; reflexivity|ta_r0].
      * destruct (fill s) as [c|] eqn:Fc; injection H as <- <-; (constructor; proj; auto; [apply UP; left; reflexivity| |ta_r0]).
        -- intros c' v K. injection K as <-. cbn. intros K. apply (F' c v); auto.
        -- intros c' v K. injection K as <-. discriminate.
    + injection H as <- <-. constructor; proj; auto; [|apply UP; left; reflexivity|ta_r0].
      intros v I. apply in_app_iff in I. destruct I as [I|[I|[]]]; [auto|discriminate].
    + injection H as <- <-. constructor; proj; auto; [| |ta_r0].
      * intros it K. destruct (ram s) as [x|]; [|discriminate]. destruct (Nat.eqb (iid x) i0); [discriminate|]. auto.
      * apply UP. destruct t; [right; eexists; split; [exact I0|reflexivity]|left; reflexivity].
    + destruct (b && enabled s && _); injection H as <- <-; (constructor; proj; auto; [|ta_r0]); apply UP; [right; eexists; split; [exact I0|reflexivity]|left; reflexivity].
    + injection H as <- <-. constructor; proj; auto; [|ta_r0]. apply UP. right; eexists; split; [exact I0|reflexivity].
    + destruct (token s) as [[]|]; [destruct b| |]; injection H as <- <-; (constructor; proj; auto; try ta_r0); try (apply UP; left; reflexivity).
      intros w I. apply in_app_iff in I. destruct I as [I|[I|[]]]; [auto|]. injection I as <-. apply Et; auto.
    + injection H as <- <-. constructor; proj; auto; [|ta_r0]. apply UP; left; reflexivity.
    + injection H as <- <-. constructor; proj; auto; [|ta_r0]. apply UP; left; reflexivity.
    + injection H as <- <-. constructor; proj; auto; [|ta_r0]. apply UP; left; reflexivity.
    + injection H as <- <-. constructor; proj; auto; [| |ta_r0].
      * intros it K. injection K as <-. cbn. apply Et; auto.
      * apply UP. right. exists (TIAcc n). split; [exact I0|]. destruct (findRam s) as [o|]; [destruct (clean o)|]; reflexivity.
    + destruct (ram s) as [it|] eqn:Rm; [destruct (Nat.eqb (iid it) i0 && clean it)|]; injection H as <- <-; (constructor; proj; rewrite ?Rm; auto; try ta_r0);
        try (apply UP; right; eexists; split; [exact I0|reflexivity]).
      intros x K. injection K as <-. cbn. auto.
    + injection H as <- <-. constructor; proj; auto; [|ta_r0]. apply UP. right; eexists; split; [exact I0|reflexivity].
    + destruct (lockFree s); [|discriminate]. injection H as <- <-. constructor; proj; auto; [|ta_r0]. apply UP.
      destruct w; [right; eexists; split; [exact I0|reflexivity]|left; reflexivity|right; eexists; split; [exact I0|reflexivity]|left; reflexivity].
    + destruct (enabled s); injection H as <- <-; (constructor; proj; auto; [|ta_r0]); apply UP; right; eexists; (split; [exact I0|reflexivity]).
    + destruct (b || _); injection H as <- <-; (constructor; proj; auto; [|ta_r0]); apply UP; right; eexists; (split; [exact I0|reflexivity]).
    + destruct (content s) eqn:Ec; [|destruct b]; injection H as <- <-; (constructor; proj; rewrite ?Ec; auto; [|ta_r0]); apply UP; right; eexists; (split; [exact I0|reflexivity]).
    + injection H as <- <-. constructor; proj; auto; [| |ta_r0].
      * intros v I. apply in_app_iff in I. destruct I as [I|[I|[]]]; [auto|discriminate].
      * apply UP; right; eexists; (split; [exact I0|reflexivity]).
    + destruct (findRam s); injection H as <- <-; (constructor; proj; auto; [|ta_r0]); apply UP; left; reflexivity.
    + destruct (ram s) as [it|] eqn:Rm; [destruct (Nat.eqb (iid it) i0); [destruct (clean it)|]|]; injection H as <- <-; (constructor; proj; rewrite ?Rm; auto; try ta_r0; try discriminate);
        try (apply UP; left; reflexivity).
    + destruct w as [n j|n|n j|]; injection H as <- <-.
      * constructor; proj; auto; [|ta_r0]. apply UP; left; reflexivity.
      * constructor; proj; auto; [|ta_r0]. apply UP; left; reflexivity.
      * destruct (ram s) as [it|] eqn:Rm; [destruct (Nat.eqb (iid it) j)|]; (constructor; proj; rewrite ?Rm; auto; try ta_r0);
          try (apply UP; left; reflexivity).
        intros x K. injection K as <-. cbn. apply Et; auto.
      * constructor; proj; auto; [|ta_r0]. apply UP; left; reflexivity.
  - unfold execJob in H. destruct (phase s) eqn:P; try discriminate. destruct (queue s) as [|[v| |] q] eqn:Q; try discriminate; injection H as <- <-;
      (constructor; proj; rewrite ?Q; auto; try ta_r0; try discriminate).
    + intros w K. destruct r; [injection K as <-; apply C'; left; reflexivity|discriminate|auto].
    + destruct r; auto. destruct (content s) eqn:Ec; auto.
  - unfold callback in H. destruct (phase s) as [| |[v|]|v|v| |] eqn:P; try discriminate.
    + injection H as <- <-. constructor; proj; auto; [|ta_r0]. intros w I. apply C'. destruct (queue s); [exact I|right; exact I].
    + destruct (enabled s && b); injection H as <- <-; (constructor; proj; auto; ta_r0).
    + injection H as <- <-. constructor; proj; auto; ta_r0.
    + destruct (_ && _); injection H as <- <-; (constructor; proj; auto; ta_r0).
    + destruct (ram s) as [it|] eqn:R; injection H as <- <-.
      * constructor; proj; rewrite ?R; auto; ta_r0.
      * constructor; proj; auto; try ta_r0.
        -- intros x K. injection K as <-. cbn. exact D'.
        -- intros c w K X. destruct (fill s) as [c0|]; [|discriminate]. injection K as <-. cbn in X. injection X as <-. exact D'.
    + injection H as <- <-. constructor; proj; auto; try discriminate.
      * intros w I. apply C'. destruct (queue s); [exact I|right; exact I].
      * apply ta_ext; [exact G|]. intros f v [X|I]; [discriminate|]. destruct (fill s) as [c|] eqn:Fc; [|destruct I].
        destruct (in_map_ret _ _ _ _ I) as (X & _). apply (F c v eq_refl X).
    + injection H as <- <-. constructor; proj; auto; [|ta_r0]. intros w I. apply C'. destruct (queue s); [exact I|right; exact I].
  - destruct (content s) eqn:Ec; [|discriminate]. injection H as <- <-. constructor; proj; auto; [discriminate|ta_r0].
  - destruct (lockFree s); [|discriminate]. injection H as <- <-. constructor; proj; auto; [|ta_r0].
    intros c v K X. destruct (fill s) as [c0|]; [|discriminate]. injection K as <-. cbn in X. apply (F' c0 v); auto.
  - destruct (findRam s) as [it|] eqn:Fr; [|discriminate]. specialize (FR it eq_refl). destruct (clean it); [|discriminate]. injection H as <- <-.
    constructor; proj; auto; [|ta_r0]. intros x K. injection K as <-. cbn. auto.
  - injection H as <- <-. constructor; proj; auto. ta_r0.
Qed.
Lemma no_thin_air acts s tr : run init acts = Some (s, tr) -> noThinAir tr.
Proof.
  intros H. pose proof (run_reach init [] acts s tr reach_init H) as R. cbn in R.
  apply (ta_r s). clear H. induction R; [apply ta_init|eapply ta_step; eauto].
Qed.

(** Mutators have distinct, increasing numbers. *)
Lemma reach_muts s tr : reach s tr ->
  (forall n k, In (MutStart n k) tr -> n < nextm s) /\ (forall n k k', In (MutStart n k) tr -> In (MutStart n k') tr -> k = k').
Proof.
  induction 1 as [|s tr a s' e R (A & B) H]; [split; [intros ? ? []|intros ? ? ? []]|].
  assert (X : (nextm s' = nextm s /\ forall n k, ~ In (MutStart n k) e) \/
              (nextm s' = S (nextm s) /\ exists k, e = [MutStart (nextm s) k])).
  { destruct a as [c|i b|r|b| | | |]; cbn [step] in H.
    - destruct c; cbn [spawn] in H.
      + injection H as <- <-. left. split; [reflexivity|]. noEv.
      + injection H as <- <-. right. split; [reflexivity|]. eauto.
      + injection H as <- <-. right. split; [reflexivity|]. eauto.
      + destruct (findRam s); [|discriminate]. injection H as <- <-. right. split; [reflexivity|]. eauto.
      + injection H as <- <-. left. split; [reflexivity|]. noEv.
      + left. cases H; (split; [reflexivity|noEv]).
    - left. destruct (nth_error (thr s) i) as [t|]; [|discriminate]. unfold tstep in H. destruct t; cases H; (split; [try reflexivity|try noEv]).
      destruct (ram s) as [it|]; [destruct (Nat.eqb (iid it) i0)|]; reflexivity.
    - left. unfold execJob in H. cases H; (split; [reflexivity|noEv]).
    - left. unfold callback in H. cases H; (split; [reflexivity|try noEv]).
      all: intros n k [Y|I]; [discriminate|]. all: try destruct (fill s); try contradiction. all: apply in_map_iff in I; destruct I as (g9 & Y9 & _); discriminate.
    - left. cases H. split; [reflexivity|noEv].
    - left. cases H; (split; [reflexivity|noEv]).
    - left. cases H. split; [reflexivity|noEv].
    - left. cases H. split; [reflexivity|noEv]. }
  destruct X as [(-> & N)|(-> & k0 & ->)].
  - split.
    + intros n k I. apply in_app_iff in I. destruct I as [I|I]; [eauto|exfalso; eapply N; exact I].
    + intros n k k' I J. apply in_app_iff in I, J. destruct I as [I|I]; [|exfalso; eapply N; exact I].
      destruct J as [J|J]; [|exfalso; eapply N; exact J]. eauto.
  - split.
    + intros n k I. apply in_app_iff in I. destruct I as [I|[I|[]]]; [pose proof (A n k I); lia|]. injection I as <- _. lia.
    + intros n k k' I J. apply in_app_iff in I, J. destruct I as [I|[I|[]]]; destruct J as [J|[J|[]]].
      * eauto.
      * injection J as <- _. pose proof (A _ _ I). lia.
      * injection I as <- _. pose proof (A _ _ J). lia.
      * congruence.
Qed.
Lemma fresh_reads acts s tr : run init acts = Some (s, tr) ->
  serialMutators tr -> noShortcutInDropWindow tr -> noJoinAfterFill tr -> neverDisabled tr -> freshReads tr.
Proof.
  intros H G1 G2 G3 G4 t0 n t1 f t2 v t3 E.
  pose proof (run_reach init [] acts s tr reach_init H) as R. cbn in R.
  destruct (reach_FI s tr R) as (Iv & Fi); [unfold guarded; auto|].
  set (p := t0 ++ MutRet n :: t1) in *.
  assert (E2 : tr = p ++ FindStart f :: t2 ++ FindRet f (Some v) :: t3).
  { rewrite E. unfold p. repeat (rewrite <- app_assoc; cbn). reflexivity. }
  pose proof (f_uniq _ _ Fi p f _ E2) as U.
  destruct (since_split p f (t2 ++ FindRet f (Some v) :: t3) U n) as (m & S & L).
  { unfold p. apply in_app_iff. right. left. reflexivity. }
  rewrite <- E2 in S. destruct (f_ret _ _ Fi f v) as (_ & Y).
  { rewrite E2. apply in_app_iff. right. right. apply in_app_iff. right. left. reflexivity. }
  specialize (Y m S). split; [lia|]. intros K. destruct (Nat.eq_dec n v) as [->|]; [|lia]. exfalso.
  destruct (no_thin_air acts s tr H (p ++ FindStart f :: t2) f v t3) as (k & Wk & Ik).
  { rewrite E2. repeat (rewrite <- app_assoc; cbn). reflexivity. }
  destruct (reach_muts s tr R) as (_ & B).
  assert (k = KRemove) as ->.
  { apply (B v); [|exact K]. rewrite E2. replace (p ++ FindStart f :: t2 ++ FindRet f (Some v) :: t3) with ((p ++ FindStart f :: t2) ++ FindRet f (Some v) :: t3) by (repeat (rewrite <- app_assoc; cbn); reflexivity).
    apply in_app_iff. left. exact Ik. }
  destruct Wk; discriminate.
Qed.

(** Deciding the guards on a given trace. *)
Fixpoint okS (p : bool) (tr : list event) : bool :=
  match tr with
  | [] => true
  | Dropped :: r => okS true r
  | Notified :: r => okS false r
  | Shortcut :: r => negb p && okS p r
  | _ :: r => okS p r
  end.
Lemma okS_pend tr t1 t2 : okS true tr = true -> tr = t1 ++ Shortcut :: t2 -> In Notified t1.
Proof.
  revert t1. induction tr as [|e tr IH]; intros t1 H E; [destruct t1; discriminate|].
  destruct t1 as [|x t1]; cbn in E; injection E as -> ->; [discriminate|].
  destruct x; cbn in H; try (right; apply IH; [exact H|reflexivity]); try discriminate.
  left. reflexivity.
Qed.
Lemma okS_sound p tr : okS p tr = true -> noShortcutInDropWindow tr.
Proof.
  intros H t0 t1 t2 ->. revert p H. induction t0 as [|x t0 IH]; intros p H; cbn in H.
  - apply (okS_pend _ t1 t2 H eq_refl).
  - destruct x; try (eapply IH; exact H). apply andb_true_iff in H. eapply IH; apply H.
Qed.
Fixpoint okJ (p : bool) (tr : list event) : bool :=
  match tr with
  | [] => true
  | Filled :: r => okJ true r
  | Erased :: r => okJ false r
  | Joined _ :: r => negb p && okJ p r
  | _ :: r => okJ p r
  end.
Lemma okJ_win tr t1 f t2 : okJ true tr = true -> tr = t1 ++ Joined f :: t2 -> In Erased t1.
Proof.
  revert t1. induction tr as [|e tr IH]; intros t1 H E; [destruct t1; discriminate|].
  destruct t1 as [|x t1]; cbn in E; injection E as -> ->; [discriminate|].
  destruct x; cbn in H; try (right; apply IH; [exact H|reflexivity]); try discriminate.
  left. reflexivity.
Qed.
Lemma okJ_sound p tr : okJ p tr = true -> noJoinAfterFill tr.
Proof.
  intros H t0 t1 t2 f ->. revert p H. induction t0 as [|x t0 IH]; intros p H; cbn in H.
  - apply (okJ_win _ t1 f t2 H eq_refl).
  - destruct x; try (eapply IH; exact H). apply andb_true_iff in H. eapply IH; apply H.
Qed.
