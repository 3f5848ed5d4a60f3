(** C41, part 3: what an attach sees, when starts do not overlap. *)
From Verif Require Import Bytes ShmMgr_model ShmMgr_spec ShmMgr_proofs ShmMgr_proofs2.
Ltac Zify.zify_post_hook ::= idtac.

(** ** Hypotheses and traces *)

Definition hyps (tr : list event) : Prop :=
  serial tr /\ starts_alone tr /\ upgrade_only tr.

Lemma hyps_prefix tr e : hyps (tr ++ e) -> hyps tr.
Proof.
  intros (S & A & U). split; [|split].
  - intros a p b E q Hq. apply (S a p (b ++ e)); [|exact Hq].
    rewrite E, <- app_assoc. reflexivity.
  - intros a p b c E. apply (A a p b (c ++ e)). rewrite E, <- !app_assoc.
    cbn [app]. rewrite <- app_assoc. reflexivity.
  - intros a p b E. apply (U a p (b ++ e)). rewrite E, <- app_assoc. reflexivity.
Qed.

Definition cleansince (p : nat) (tr : list event) : Prop :=
  exists a b, tr = a ++ ERead p :: b /\ (forall q, q <> p -> ~ holds q a) /\
    (forall q, q <> p -> ~ In (ELocked q) b).

Lemma split_app_notin {A} (x : A) : forall t e a b, t ++ e = a ++ x :: b ->
  ~ In x e -> exists b', t = a ++ x :: b' /\ b = b' ++ e.
Proof.
  induction t as [|y t IH]; intros e a b E Hx.
  - cbn [app] in E. subst e. destruct Hx. apply in_or_app. right. left. reflexivity.
  - destruct a as [|z a]; cbn [app] in E; injection E as -> E.
    + exists t. auto.
    + destruct (IH _ _ _ E Hx) as (b' & -> & ->). exists b'. auto.
Qed.

Lemma cleansince_back p tr e : ~ In (ERead p) e -> cleansince p (tr ++ e) ->
  cleansince p tr.
Proof.
  intros Hn (a & b & E & Ha & Hb).
  destruct (split_app_notin _ _ _ _ _ E Hn) as (b' & -> & ->).
  exists a, b'. repeat split; auto. intros q Hq X. apply (Hb q Hq).
  apply in_or_app. left. exact X.
Qed.

Lemma cleansince_snoc p tr : ~ In (ERead p) tr -> cleansince p (tr ++ [ERead p]) ->
  forall q, q <> p -> ~ holds q tr.
Proof.
  intros Hn (a & b & E & Ha & _).
  destruct b as [|y b _] using rev_ind.
  - apply app_inj_tail in E as [-> _]. exact Ha.
  - rewrite app_comm_cons, app_assoc in E. apply app_inj_tail in E as [-> _].
    destruct Hn. apply in_or_app. right. left. reflexivity.
Qed.

Lemma hold_nolock q b : forall x, (~ In (ELocked q) b) ->
  fold_left (hold_step q) b x = true -> x = true.
Proof.
  induction b as [|e b IH]; intros x Hn; cbn [fold_left]; [auto|].
  intros E. apply IH in E; [|intros Y; apply Hn; right; exact Y].
  destruct x; [reflexivity|]. apply hold_step_mono in E. subst e.
  destruct Hn. left. reflexivity.
Qed.

Lemma cleansince_nohold p tr q : cleansince p tr -> q <> p -> holdb q tr = false.
Proof.
  intros (a & b & -> & Ha & Hb) Hq. destruct (holdb q (a ++ ERead p :: b)) eqn:E;
    [|reflexivity].
  rewrite holdb_app in E. cbn [fold_left hold_step] in E.
  apply hold_nolock in E; [|apply Hb, Hq].
  apply holdb_holds in E. destruct (Ha q Hq E).
Qed.

(** The lock step of a process that starts alone. *)
Lemma starts_alone_clean tr p : starts_alone (tr ++ [ELocked p]) ->
  In (ERead p) tr -> cleansince p tr.
Proof.
  intros A X. apply in_split in X as (a & b & ->).
  destruct (A a p b []) as [A1 A2]; [rewrite <- !app_assoc; reflexivity|].
  exists a, b. auto.
Qed.

Definition good (tr : list event) (R : nat -> Prop) (n : name) (v : nat) : Prop :=
  exists q a b, tr = a ++ ESaved q :: b /\ last_value q n a = Some v /\
    forall r leg, In (ERunning r leg) b -> R r.

Lemma good_mono tr e (R R' : nat -> Prop) n v : good tr R n v ->
  (forall r, R r -> R' r) -> (forall r leg, In (ERunning r leg) e -> R' r) ->
  good (tr ++ e) R' n v.
Proof.
  intros (q & a & b & -> & L & H1) Hw He. exists q, a, (b ++ e).
  split; [rewrite <- app_assoc; reflexivity|]. split; [exact L|].
  intros r leg X. apply in_app_or in X as [X|X]; eauto.
Qed.

Lemma last_value_app p n tr e :
  last_value p n (tr ++ e) = fold_left (note_value p n) e (last_value p n tr).
Proof. unfold last_value. apply fold_left_app. Qed.

Lemma last_value_frame p n tr e : (forall y, In y e -> about y <> Some p) ->
  last_value p n (tr ++ e) = last_value p n tr.
Proof.
  intros Hy. rewrite last_value_app. generalize (last_value p n tr) as x.
  induction e as [|y e IH]; intros x; cbn [fold_left]; [reflexivity|].
  rewrite IH by (intros z Hz; apply Hy; right; exact Hz).
  specialize (Hy y (or_introl eq_refl)).
  destruct y; cbn [note_value about] in *; try reflexivity;
    replace (p0 =? p) with false by (symmetry; apply Nat.eqb_neq; congruence);
    reflexivity.
Qed.

(** ** The invariant *)

Definition live (x : pcT) : bool := match x with PRun | PWrite => true | _ => false end.

Lemma live_hold x : live x = true -> holdpc x = true.
Proof. destruct x; cbn; congruence. Qed.
Lemma active_hold x : active x = true -> holdpc x = true.
Proof. destruct x; try destruct ok; cbn; congruence. Qed.
Lemma live_active x : live x = true -> active x = true.
Proof. destruct x; cbn; congruence. Qed.

Definition waits (x : pcT) : bool :=
  match x with PTrunc | PExit true | PRun => true | _ => false end.
Lemma waits_hold x : waits x = true -> holdpc x = true.
Proof. destruct x; try destruct ok; cbn; congruence. Qed.

Record kinv (w : world) (tr : list event) : Prop := mkKinv {
  k_nb : forall n x y, bound w n false = Some x -> bound w n true = Some y -> False;
  k_up : forall n x, bound w n false = Some x -> exists q, In (ERunning q false) tr;
  k_inj : forall n o n' o' x, bound w n o = Some x -> bound w n' o' = Some x ->
            n = n' /\ o = o';
  k_fresh : forall n o x, bound w n o = Some x -> x < nextObj w;
  k_one : forall p q, holdpc (pc (procs w p)) = true ->
            holdpc (pc (procs w q)) = true -> p = q;
  k_leg : forall p q, live (pc (procs w p)) = true -> legacy (procs w p) = true ->
            ~ In (ERunning q false) tr
}.

Record sinv (w : world) (tr : list event) (p : nat) : Prop := mkSinv {
  s_seg : forall n o x, live (pc (procs w p)) = true ->
     afind (segs (procs w p)) n = Some (o, x) ->
     x < nextObj w /\
     (forall n' o', bound w n' o' = Some x -> n' = n /\ o' = o) /\
     (forall o' y, bound w n o' = Some y -> y = x) /\
     last_value p n tr = Some (objv w x);
  s_dis : forall n n' o o' x, live (pc (procs w p)) = true ->
     afind (segs (procs w p)) n = Some (o, x) ->
     afind (segs (procs w p)) n' = Some (o', x) -> n = n';
  s_act : active (pc (procs w p)) = true -> forall i, meta w = Some i -> fdata w i = [];
  s_lock : pc (procs w p) = PLock -> cleansince p tr ->
     forall n v o x, afind (names (procs w p)) n = Some v -> bound w n o = Some x ->
     good tr (fun r => r = p) n (objv w x);
  s_lock2 : pc (procs w p) = PLock2 -> cleansince p tr ->
     forall i, meta w = Some i -> fdata w i = [];
  s_names : waits (pc (procs w p)) = true ->
     forall n v o x, afind (names (procs w p)) n = Some v ->
     afind (segs (procs w p)) n = None -> bound w n o = Some x ->
     good tr (fun r => r = p) n (objv w x)
}.

Definition qinv (w : world) (tr : list event) : Prop :=
  (forall p, active (pc (procs w p)) = false) ->
  forall i s m, meta w = Some i -> dec_obj (fdata w i) = Some (s, m) ->
  forall n v o x, afind m n = Some v -> bound w n o = Some x ->
  good tr (fun _ => False) n (objv w x).

(** ** Steps that leave the shared objects alone *)

Definition heavy (w : world) (a : action) : bool :=
  match a with
  | ACreate _ _ | AWrite _ _ _ | AWriteCut _ _ => true
  | ANext p => match pc (procs w p) with PWrite => true | _ => false end
  | _ => false
  end.

Record shared_ok (w w' : world) : Prop := mkShared {
  so_b : shrinks (bound w) (bound w');
  so_v : objv w' = objv w;
  so_n : nextObj w' = nextObj w;
  so_m : forall i, meta w' = Some i ->
           fdata w' i = [] \/ (meta w = Some i /\ fdata w' i = fdata w i)
}.

Lemma light_shared w a w' e : step w a = Some (w', e) -> heavy w a = false ->
  shared_ok w w'.
Proof.
  intros E Hh. destruct a; cbn [heavy] in Hh; try discriminate Hh.
  4:{ apply remove_inv in E as (P & b & D & ->). apply doRemove_spec in D.
      destruct D. constructor; try assumption.
      intros i Hi. right. rewrite rm_fdata. split; congruence. }
  all: step_cases E.
  all: try discriminate Hh.
  all: try match goal with H : pc _ = PWrite |- _ => rewrite H in Hh; discriminate Hh end.
  all: constructor; wsimp; try reflexivity.
  all: try apply shrinks_refl.
  all: try apply shrinks_unlinkAll.
  all: try apply shrinks_unlinkId.
  all: try solve [intros i Hi; right; split; [congruence | reflexivity]].
  all: try solve [intros i Hi; first [discriminate Hi | congruence]].
  all: try solve [intros i Hi; left; match goal with |- updN _ ?k _ _ = _ =>
     assert (i = k) by congruence; subst i; apply updN_same end].
  all: try solve [intros i Hi; left; injection Hi as <-; apply updN_same].
Qed.

Lemma running_from w a w' e r leg : step w a = Some (w', e) -> In (ERunning r leg) e ->
  a = ANext r /\ pc (procs w r) = PExit true /\ leg = legacy (procs w r).
Proof.
  intros E Hin. destruct a.
  4:{ apply create_inv in E as (_ & _ & _ & w1 & b & _ & [[_ ->]|(_ & _ & ->)]);
      cbn [In] in Hin; intuition discriminate. }
  4:{ apply remove_inv in E as (_ & b & _ & ->). destruct b; cbn [In] in Hin;
      intuition discriminate. }
  all: step_cases E; cbn [In app] in Hin;
    repeat match goal with H : _ \/ _ |- _ => destruct H as [H|H] end;
    try contradiction; try discriminate Hin; injection Hin as <- <-; auto.
Qed.

Lemma locked_from w a w' e r : step w a = Some (w', e) -> In (ELocked r) e ->
  e = [ELocked r] /\ a = ANext r /\ (pc (procs w r) = PLock \/ pc (procs w r) = PLock2).
Proof.
  intros E Hin. destruct a.
  4:{ apply create_inv in E as (_ & _ & _ & w1 & b & _ & [[_ ->]|(_ & _ & ->)]);
      cbn [In] in Hin; intuition discriminate. }
  4:{ apply remove_inv in E as (_ & b & _ & ->). destruct b; cbn [In] in Hin;
      intuition discriminate. }
  all: step_cases E; cbn [In app] in Hin;
    repeat match goal with H : _ \/ _ |- _ => destruct H as [H|H] end;
    try contradiction; try discriminate Hin; injection Hin as <-; auto.
Qed.

Lemma locked_dec p e : {In (ELocked p) e} + {~ In (ELocked p) e}.
Proof.
  induction e as [|x e [IH|IH]]; [right; intros [] | left; right; exact IH |].
  destruct x; try (right; intros [X|X]; [discriminate X | exact (IH X)]).
  destruct (Nat.eq_dec p0 p) as [->|Hne]; [left; left; reflexivity|].
  right. intros [X|X]; [injection X as X; contradiction | exact (IH X)].
Qed.

(** A process becomes a holder only by locking. *)
Lemma hold_from w tr a w' e p : step w a = Some (w', e) -> pinv w tr p ->
  holdpc (pc (procs w' p)) = true -> pinv w' (tr ++ e) p ->
  holdpc (pc (procs w p)) = true \/ In (ELocked p) e.
Proof.
  intros E V H' V'. rewrite <- (pv_hold _ _ _ V') in H'. rewrite holdb_app in H'.
  rewrite <- (pv_hold _ _ _ V). 
  destruct (locked_dec p e) as [X|X]; [right; exact X | left].
  eapply hold_nolock; eauto.
Qed.

(** ** Preservation *)

Section Step.
Variables (w w' : world) (tr e : list event) (a : action).
Hypothesis E : step w a = Some (w', e).
Hypothesis HY : hyps (tr ++ e).
Hypothesis PV : forall p, pinv w tr p.
Hypothesis PV' : forall p, pinv w' (tr ++ e) p.
Hypothesis FV : finv w.
Hypothesis K : kinv w tr.
Hypothesis SI : forall p, sinv w tr p.
Hypothesis QI : qinv w tr.

(** Only one holder. *)
Lemma one' p q : holdpc (pc (procs w' p)) = true ->
  holdpc (pc (procs w' q)) = true -> p = q.
Proof.
  intros Hp Hq. destruct (Nat.eq_dec p q) as [X|X]; [exact X|exfalso].
  destruct HY as (S & _ & _).
  assert (L : forall r s, r <> s -> holdpc (pc (procs w' s)) = true ->
              In (ELocked r) e -> False).
  { intros r s Hrs Hs Hl. destruct (locked_from _ _ _ _ _ E Hl) as (-> & -> & _).
    assert (Hs0 : holdpc (pc (procs w s)) = true).
    { rewrite <- (step_frame _ _ _ _ E s); [exact Hs|]. cbn [actor]. congruence. }
    rewrite <- (pv_hold _ _ _ (PV s)) in Hs0. apply holdb_holds in Hs0.
    apply (S tr r [] eq_refl s) in Hs0; [exact Hs0 | congruence]. }
  destruct (hold_from _ _ _ _ _ _ E (PV p) Hp (PV' p)) as [Hp0|Hp0];
    [|exact (L p q X Hq Hp0)].
  destruct (hold_from _ _ _ _ _ _ E (PV q) Hq (PV' q)) as [Hq0|Hq0];
    [|apply (L q p); auto].
  apply X. apply (k_one _ _ K); assumption.
Qed.

(** When another process holds, the acting process only does light steps, and
    does not come up. *)
Lemma other_light r : actor a <> Some r ->
  (holdpc (pc (procs w r)) = true \/ cleansince r tr) ->
  heavy w a = false /\ forall q leg, In (ERunning q leg) e -> q = r.
Proof.
  intros Ha Hr.
  assert (NH : forall p, actor a = Some p -> holdpc (pc (procs w p)) = true -> False).
  { intros p Hp Hh. assert (p <> r) by congruence.
    destruct Hr as [Hr|Hr].
    - apply H. apply (k_one _ _ K); assumption.
    - rewrite <- (pv_hold _ _ _ (PV p)) in Hh.
      rewrite (cleansince_nohold r tr p Hr H) in Hh. discriminate. }
  split.
  - destruct a; cbn [heavy actor] in *; try reflexivity.
    + destruct (pc (procs w p)) eqn:P; try reflexivity. exfalso.
      apply (NH p eq_refl). rewrite P. reflexivity.
    + exfalso. apply create_inv in E as (P & _). apply (NH p eq_refl).
      rewrite P. reflexivity.
    + exfalso. cbn [step] in E. destruct (pc (procs w p)) eqn:P; try discriminate E.
      apply (NH p eq_refl). rewrite P. reflexivity.
    + exfalso. cbn [step] in E. destruct (pc (procs w p)) eqn:P; try discriminate E.
      apply (NH p eq_refl). rewrite P. reflexivity.
  - intros q leg X. destruct (running_from _ _ _ _ _ _ E X) as (-> & P & _).
    exfalso. apply (NH q eq_refl). rewrite P. reflexivity.
Qed.

Lemma read_not_in r : actor a <> Some r -> ~ In (ERead r) e.
Proof.
  intros Ha X. apply (step_not_about _ _ _ _ _ E Ha) in X. apply X. reflexivity.
Qed.

(** Processes that do not act. *)
Lemma sinv_other r : actor a <> Some r -> sinv w' (tr ++ e) r.
Proof.
  intros Ha. pose proof (step_frame _ _ _ _ E r Ha) as FR.
  pose proof (step_not_about _ _ _ _ _ E Ha) as NA.
  pose proof (SI r) as [s1 s2 s3 s4 s5 s6].
  assert (OL : holdpc (pc (procs w r)) = true \/ cleansince r tr ->
     shared_ok w w' /\ forall q leg, In (ERunning q leg) e -> q = r).
  { intros X. destruct (other_light r Ha X) as [H1 H2]. split; [|exact H2].
    eapply light_shared; eauto. }
  assert (CB : cleansince r (tr ++ e) -> cleansince r tr)
    by (apply cleansince_back, read_not_in, Ha).
  constructor; rewrite FR.
  - intros n o x Hl Hs. destruct (OL (or_introl (live_hold _ Hl))) as [SO _].
    destruct (s1 n o x Hl Hs) as (A & B & C & D).
    rewrite (so_n _ _ SO), (so_v _ _ SO). split; [exact A|]. split; [|split].
    + intros n' o' X. apply B, (so_b _ _ SO), X.
    + intros o' y X. apply C with (o' := o'), (so_b _ _ SO), X.
    + rewrite last_value_frame by exact NA. exact D.
  - exact s2.
  - intros Hac i Hi. destruct (OL (or_introl (active_hold _ Hac))) as [SO _].
    destruct (so_m _ _ SO i Hi) as [X | [X Y]]; [exact X|]. rewrite Y. auto.
  - intros Hp Hc n v o x Hn Hb. apply CB in Hc.
    destruct (OL (or_intror Hc)) as [SO NR]. rewrite (so_v _ _ SO).
    apply good_mono with (R := fun z => z = r); [|auto|exact NR].
    apply (s4 Hp Hc n v o x Hn), (so_b _ _ SO), Hb.
  - intros Hp Hc i Hi. apply CB in Hc. destruct (OL (or_intror Hc)) as [SO _].
    destruct (so_m _ _ SO i Hi) as [X | [X Y]]; [exact X|]. rewrite Y. auto.
  - intros Hw n v o x Hn Hs Hb.
    destruct (OL (or_introl (waits_hold _ Hw))) as [SO NR]. rewrite (so_v _ _ SO).
    apply good_mono with (R := fun z => z = r); [|auto|exact NR].
    apply (s6 Hw n v o x Hn Hs), (so_b _ _ SO), Hb.
Qed.

(** Nobody active: nothing came up in this step. *)
Lemma quiet_norun : (forall p, active (pc (procs w' p)) = false) ->
  forall q leg, In (ERunning q leg) e -> False.
Proof.
  intros Q q leg X. destruct (running_from _ _ _ _ _ _ E X) as (Ea & P & _).
  specialize (Q q). revert Q. rewrite Ea in E. cbn [step] in E. rewrite P in E.
  injection E as <- _. wsimp. destruct (dropSeen (procs w q)); wsimp;
    rewrite updN_same; wsimp; discriminate.
Qed.

Lemma qinv_light : heavy w a = false -> qinv w' (tr ++ e).
Proof.
  intros Hh Q i s m Hm Hd n v o x Hn Hb.
  pose proof (light_shared _ _ _ _ E Hh) as SO.
  destruct (so_m _ _ SO i Hm) as [X | [X Y]].
  - rewrite X in Hd. discriminate Hd.
  - rewrite Y in Hd. rewrite (so_v _ _ SO).
    apply good_mono with (R := fun _ => False); [|auto|intros r leg Z; destruct (quiet_norun Q r leg Z)].
    apply (QI) with (i := i) (s := s) (m := m) (v := v) (o := o); auto.
    + intros p. destruct (active (pc (procs w p))) eqn:Ac; [|reflexivity].
      rewrite (s_act _ _ _ (SI p) Ac i X) in Hd. discriminate Hd.
    + apply (so_b _ _ SO), Hb.
Qed.

Lemma kleg' : forall p q, live (pc (procs w' p)) = true -> legacy (procs w' p) = true ->
  ~ In (ERunning q false) (tr ++ e).
Proof.
  intros p q Hl Hg X.
  assert (IR : In (ERunning p true) (tr ++ e)).
  { rewrite <- Hg. apply (pv_runs _ _ _ (PV' p)); [apply live_active, Hl|].
    intros Z. rewrite Z in Hl. discriminate Hl. }
  apply in_app_or in X as [X|X].
  - apply in_app_or in IR as [IR|IR].
    + apply (k_leg _ _ K p q); auto.
      * destruct (pv_ran _ _ _ (PV p) _ IR) as [Hr _].
        destruct (actor_dec a p) as [Ha|Ha].
        -- destruct (pc (procs w p)) eqn:P; try reflexivity; try discriminate Hr.
           ++ exfalso. destruct a; cbn [actor] in Ha; try discriminate Ha;
              injection Ha as ->; step_cases E; try congruence;
              revert Hl; wsimp; rewrite updN_same; wsimp; discriminate.
           ++ exfalso. destruct a; cbn [actor] in Ha; try discriminate Ha;
              injection Ha as ->; step_cases E; try congruence;
              revert Hl; wsimp; rewrite updN_same; wsimp; discriminate.
           ++ exfalso. destruct a; cbn [actor] in Ha; try discriminate Ha;
              injection Ha as ->; step_cases E; try congruence.
        -- rewrite <- (step_frame _ _ _ _ E p Ha). exact Hl.
      * apply (pv_ran _ _ _ (PV p) _ IR).
    + destruct (running_from _ _ _ _ _ _ E IR) as (Ea & P & Lg).
      destruct HY as (_ & _ & U).
      apply in_split in IR as (e1 & e2 & ->).
      apply (U (tr ++ e1) p e2) with (q := q).
      * rewrite <- app_assoc. reflexivity.
      * apply in_or_app. left. exact X.
  - destruct (running_from _ _ _ _ _ _ E X) as (Ea & P & Lg).
    assert (Hq : holdpc (pc (procs w' q)) = true).
    { rewrite Ea in E. cbn [step] in E. rewrite P in E. injection E as <- _. wsimp.
      destruct (dropSeen (procs w q)); wsimp; rewrite updN_same; reflexivity. }
    assert (p = q) by (apply one'; auto using live_hold). subst q.
    pose proof (pv_ran _ _ _ (PV' p) false) as [_ Z];
      [apply in_or_app; right; exact X | congruence].
Qed.

Lemma kinv_light : heavy w a = false -> kinv w' (tr ++ e).
Proof.
  intros Hh. pose proof (light_shared _ _ _ _ E Hh) as SO. constructor.
  - intros n x y X Y. eapply (k_nb _ _ K); apply (so_b _ _ SO); eassumption.
  - intros n x X. apply (so_b _ _ SO) in X. destruct (k_up _ _ K _ _ X) as [q Hq].
    exists q. apply in_or_app. left. exact Hq.
  - intros n o n' o' x X Y. eapply (k_inj _ _ K); apply (so_b _ _ SO); eassumption.
  - intros n o x X. rewrite (so_n _ _ SO). eapply (k_fresh _ _ K), (so_b _ _ SO), X.
  - exact one'.
  - exact kleg'.
Qed.
End Step.
