(** Mutating calls, spurious removals. *)
From Coq Require Import List Arith Bool Lia.
Import ListNotations.
From Verif Require Import Destr_model Destr_spec Destr_proofs Destr_proofs2.

Lemma rm_change s d k r r1 :
  Inv s d -> muts s = [MRm k r] -> (k = false -> waits r1 = false) ->
  (forall v, phase s = PLocked v -> waits r1 = true) ->
  (k = true -> early r1 \/ existsb validTok (evs s) = false) ->
  (k = true -> r1 = RCould -> hasIns (queue s) = false) ->
  Inv (setMuts s [MRm k r1]) d.
Proof.
  intros H E Hk Hl Ht Hc. open_inv H. rewrite E in *. inv_goal.
  - cbn. destruct k; [exact Iheld | auto].
  - intro M. destruct (Imark M) as (A & B & C & D). split; [exact A|]. split; [exact B|]. split; [exact C|]. right. cbn. eauto.
  - intros v P. destruct (Ilock v P) as (A & B & C & D & F). split; [exact A|]. split; [exact B|]. split; [exact C|]. split; [|exact F].
    intros m [<- | []]. cbn. exact (Hl v P).
  - intros it E1 E2 E3. destruct (Isettled it E1 E2 E3) as [(r0 & X) | X]; [|right; exact X]. rewrite E in X. inversion X; subst k r0. left. exists r1. reflexivity.
  - intros L it E1 E2. destruct (Ilast L it E1 E2) as (r0 & X). rewrite E in X. inversion X; subst k r0. exists r1. reflexivity.
  - intros e E1 E2. destruct (Itok e E1 E2) as (A & B & C & D). split; [exact A|]. split; [exact B|]. split; [|exact D].
    intros it E3 E4. destruct (C it E3 E4) as (r0 & X & Y). inversion X; subst k r0. exists r1. split; [reflexivity|].
    destruct (Ht eq_refl) as [?|N]; [assumption|]. exfalso. rewrite (proj1 (existsb_false _ _) N e E1) in E2. discriminate.
  - cbn. destruct k; auto. destruct r1; auto.
  - intros r0 X Y. cbn in X. inversion X; subst k r0. destruct (Ht eq_refl) as [?|N]; [contradiction|exact N].
Qed.

Lemma rm_done s d k r m :
  Inv s d -> muts s = [MRm k r] -> (m = MRet) ->
  (marked s = true -> hasRem (queue s) = true) ->
  (k = true -> sim (occ s) (rest s) = Some false /\ lastIns (queue s) = false /\ existsb validTok (evs s) = false) ->
  Inv (setMuts s [m]) d.
Proof.
  intros H E -> Hm Hk. open_inv H. rewrite E in *. inv_goal.
  - intro M. destruct (Imark M) as (A & B & C & D). split; [exact A|]. split; [exact B|]. split; [exact C|]. left. exact (Hm M).
  - intros v P. destruct (Ilock v P) as (A & B & C & D & F). split; [exact A|]. split; [exact B|]. split; [exact C|]. split; [|exact F].
    intros m [<- | []]. reflexivity.
  - intros it E1 E2 E3. right. destruct (Isettled it E1 E2 E3) as [(r0 & X) | X]; [|exact X]. rewrite E in X. inversion X; subst k r0. exact (proj1 (Hk eq_refl)).
  - intros L it E1 E2. exfalso. destruct (Ilast L it E1 E2) as (r0 & X). rewrite E in X. inversion X; subst k r0. destruct (Hk eq_refl) as (_ & Y & _). cbn in L. congruence.
  - intros e E1 E2. destruct (Itok e E1 E2) as (A & B & C & D). split; [exact A|]. split; [exact B|]. split; [|exact D].
    intros it E3 E4. exfalso. destruct (C it E3 E4) as (r0 & X & Y). inversion X; subst k r0. destruct (Hk eq_refl) as (_ & _ & N).
    rewrite (proj1 (existsb_false _ _) N e E1) in E2. discriminate.
  - intros r0 X. discriminate.
Qed.

Lemma lock_not_early s d k r : Inv s d -> muts s = [MRm k r] -> waits r = false -> lockFree s = true.
Proof.
  intros H E W. unfold lockFree. destruct (phase s) eqn:P; auto. destruct (i_lock _ _ H id P) as (_ & _ & _ & X & _).
  specialize (X (MRm k r)). rewrite E in X. cbn in X. rewrite X in W; auto.
Qed.

Lemma notLocked s : lockFree s = true -> forall v, phase s <> PLocked v.
Proof. unfold lockFree. intros H v E. rewrite E in H. discriminate. Qed.

Lemma setQueue_muts s q l : setMuts (setQueue s q) l = setQueue (setMuts s l) q. Proof. reflexivity. Qed.

(** one step of the removal part of the mutating call *)
Lemma mut_rm s d k r b s1 o :
  Inv s d -> muts s = [MRm k r] -> rstep s r b = Some (s1, o) ->
  (r = RCould -> content s = None -> b = false -> pend s = []) ->
  Inv (setMuts s1 [match o with Some r1 => MRm k r1 | None => MRet end]) d.
Proof.
  intros H E St Hz. pose proof (i_held _ _ H) as Ih. pose proof (i_late _ _ H) as Il. pose proof (i_chain _ _ H) as Ic. rewrite E in Ih, Il, Ic.
  destruct r; cbn in St.
  - inversion St; subst. apply (rm_change s1 d k RTomb RLock); auto.
    + intros ->. cbn in Ih. discriminate.
    + intros _. left. unfold early. auto.
    + discriminate.
  - destruct (lockFree s) eqn:Lf; inversion St; subst. apply (rm_change s1 d k RLock RInv); auto.
    + intros v P. exfalso. exact (notLocked _ Lf v P).
    + intros _. left. unfold early. auto.
    + discriminate.
  - rewrite (i_en _ _ H) in St. inversion St; subst. pose proof (lock_not_early s d k RInv H E eq_refl) as Lf.
    apply (rm_change (invalidateToken s) d k RInv RHas); auto.
    + apply inval_inv. exact H.
    + intros v P. exfalso. exact (notLocked _ Lf v P).
    + intros _. right. apply inval_valid.
    + discriminate.
  - pose proof (lock_not_early s d k RHas H E eq_refl) as Lf.
    assert (Nv : k = true -> existsb validTok (evs s) = false).
    { intros ->. apply (Il RHas eq_refl). unfold early. intuition congruence. }
    destruct (b || hasContexts s) eqn:C; inversion St; subst.
    + apply (rm_change s1 d k RHas REnq); auto; [intros v P; exfalso; exact (notLocked _ Lf v P) | discriminate].
    + apply (rm_change s1 d k RHas RCould); auto; [intros v P; exfalso; exact (notLocked _ Lf v P) |].
      intros _ _. apply orb_false_iff in C. destruct C as [_ C]. unfold hasContexts in C. apply orb_false_iff in C. apply C.
  - pose proof (lock_not_early s d k RCould H E eq_refl) as Lf.
    assert (Nv : k = true -> existsb validTok (evs s) = false).
    { intros ->. apply (Il RCould eq_refl). unfold early. intuition congruence. }
    assert (Go : Inv (setMuts s [MRm k REnq]) d).
    { apply (rm_change s d k RCould REnq); auto; [intros v P; exfalso; exact (notLocked _ Lf v P) | discriminate]. }
    destruct (content s) eqn:Co; [inversion St; subst; exact Go|]. destruct b; inversion St; subst; [exact Go|].
    specialize (Hz eq_refl eq_refl eq_refl).
    assert (Of : onFlash s1 = []) by (unfold onFlash; rewrite Hz, Co; reflexivity).
    apply (rm_done s1 d k RCould MRet H E eq_refl).
    + intro M. destruct (i_mark _ _ H M) as ((v & Cv) & _ & Np & _). unfold cur in Cv. rewrite Of, app_nil_r in Cv.
      pose proof (i_ph _ _ H) as Ph. unfold cbs in Cv. destruct (phase s1); try discriminate; try contradiction; destruct Ph as (q & ->); reflexivity.
    + intros ->. assert (Ni : hasIns (queue s1) = false) by exact Ic. split; [|split; [apply lastIns_noIns; exact Ni | auto]].
      destruct (i_sim _ _ H) as (f & F). unfold occ in *. rewrite Of in *. rewrite F. f_equal.
      assert (hasIns (rest s1) = false). { unfold rest. destruct (phase s1); auto; apply hasIns_tl; auto. }
      clear -F H0. revert f F H0. induction (rest s1) as [|[v| |] q IH]; cbn; intros f F N; try (inversion F; subst; reflexivity); try discriminate; apply IH; auto.
  - pose proof (lock_not_early s d k REnq H E eq_refl) as Lf.
    assert (Nv : k = true -> existsb validTok (evs s) = false).
    { intros ->. apply (Il REnq eq_refl). unfold early. intuition congruence. }
    inversion St; subst. pose proof (enq_rem s d H Lf) as H1.
    apply (rm_done (setQueue s (queue s ++ [JRem])) d k REnq MRet H1 E eq_refl).
    + intros _. cbn. rewrite hasRem_app. apply orb_true_r.
    + intro Hk. rewrite (rest_snoc s d JRem H). split; [|split; [cbn; rewrite lastIns_app; reflexivity | exact (Nv Hk)]].
      destruct (i_sim _ _ H) as (f & F). change (occ (setQueue s (queue s ++ [JRem]))) with (occ s). rewrite sim_app, F. reflexivity.
Qed.

(** spurious removals *)
Lemma spurs_change s d l : Inv s d -> (forall v, phase s = PLocked v -> forall r, In r l -> waits r = true) -> Inv (setSpurs s l) d.
Proof.
  intros H Hw. open_inv H. inv_goal.
  intros v P. destruct (Ilock v P) as (A & B & C & D & F). split; [exact A|]. split; [exact B|]. split; [exact C|]. split; [exact D|]. exact (Hw v P).
Qed.
Lemma spur_inv s d i l1 r l2 b s1 o :
  Inv s d -> pick i (spurs s) = Some (l1, r, l2) -> rstep s r b = Some (s1, o) ->
  Inv (setSpurs s1 (match o with Some r1 => l1 ++ r1 :: l2 | None => l1 ++ l2 end)) d.
Proof.
  intros H P St. apply pick_app in P.
  assert (Old : forall v, phase s = PLocked v -> forall x, In x (l1 ++ l2) -> waits x = true).
  { intros v Pv x Hx. destruct (i_lock _ _ H v Pv) as (_ & _ & _ & _ & F). apply F. rewrite P. rewrite in_app_iff in *. cbn. tauto. }
  assert (Me : waits r = false -> lockFree s = true).
  { intro W. unfold lockFree. destruct (phase s) eqn:Pv; auto. destruct (i_lock _ _ H id Pv) as (_ & _ & _ & _ & F).
    rewrite (F r) in W; [discriminate|]. rewrite P, in_app_iff. cbn. auto. }
  assert (Fr : forall x s0, Inv s0 d -> phase s0 = phase s -> (waits x = true \/ lockFree s = true) -> Inv (setSpurs s0 (l1 ++ x :: l2)) d).
  { intros x s0 H0 Ep Hx. apply spurs_change; auto. rewrite Ep. intros v Pv y Hy. rewrite in_app_iff in Hy. cbn in Hy.
    destruct Hy as [Hy | [<- | Hy]]; [apply (Old v Pv); rewrite in_app_iff; auto | | apply (Old v Pv); rewrite in_app_iff; auto].
    destruct Hx as [?|Lf]; auto. exfalso. exact (notLocked _ Lf v Pv). }
  assert (Dn : forall s0, Inv s0 d -> phase s0 = phase s -> Inv (setSpurs s0 (l1 ++ l2)) d).
  { intros s0 H0 Ep. apply spurs_change; auto. rewrite Ep. exact Old. }
  destruct r; cbn in St.
  - inversion St; subst. apply Fr; auto.
  - destruct (lockFree s) eqn:Lf; inversion St; subst. apply Fr; auto.
  - rewrite (i_en _ _ H) in St. inversion St; subst. apply Fr; auto. apply inval_inv. exact H.
  - destruct (b || hasContexts s); inversion St; subst; apply Fr; auto.
  - destruct (content s); [|destruct b]; inversion St; subst; auto.
  - inversion St; subst. apply Dn; auto. apply enq_rem; auto.
Qed.
