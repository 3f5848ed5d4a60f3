(** Releases, finds, flash jobs and their callbacks. *)
From Coq Require Import List Arith Bool Lia.
Import ListNotations.
From Verif Require Import Destr_model Destr_spec Destr_proofs Destr_proofs2 Destr_proofs3 Destr_proofs4 Destr_proofs5.
Local Arguments Nat.ltb : simpl never.

Lemma release_inv s d i l1 v l2 : Inv s d -> pick i (loose s) = Some (l1, v, l2) -> Inv (setLoose s (l1 ++ l2)) (d ++ [v]).
Proof.
  intros H P. apply pick_app in P. open_inv H. inv_goal. intro w. specialize (Iown w). unfold hold in *. cbn [loose setLoose nextid evs] in *.
  change (ramHold (setLoose _ _)) with (ramHold s). change (flashHold (setLoose _ _)) with (flashHold s). rewrite P in Iown. cn. lia.
Qed.

Lemma looks_head s d r : Inv s d -> queue s = JLook :: r -> fill s <> None.
Proof. intros H E F. pose proof (i_fillq _ _ H) as Q. rewrite E, F in Q. unfold looks in Q. cbn in Q. discriminate. Qed.
Lemma live_queue s d : Inv s d -> match phase s with PRead _ | PGot _ => True | _ => False end -> fill s <> None.
Proof.
  intros H L. pose proof (i_ph _ _ H) as P. destruct (phase s); try contradiction; destruct P as (q & P); eapply looks_head; eauto.
Qed.

Lemma findfill_inv s d : Inv s d -> fill s = None -> Inv (setFilling (setFill s (Some true)) true) d.
Proof.
  intros H F. pose proof (live_queue s d H) as Lq. assert (Nl : ~ match phase s with PRead _ | PGot _ => True | _ => False end) by (intro X; exact (Lq X F)). clear Lq.
  open_inv H. inv_goal.
  - intros _ v [X|X]; cbn in X; rewrite X in Nl; exfalso; apply Nl; exact Logic.I.
  - intros v X L. unfold liveFill in L. cbn in L. destruct (phase s) as [| | | | | | |[w|]|w|w|]; try contradiction; apply Nl; exact Logic.I.
  - cbn. rewrite F in Ifillq. lia.
Qed.

Lemma findenq_inv s d : Inv s d -> filling s = true -> Inv (setFilling (setQueue s (queue s ++ [JLook])) false) d.
Proof.
  intros H F. pose proof (rest_snoc s d JLook H) as R0. set (t := setFilling (setQueue s (queue s ++ [JLook])) false).
  assert (R : rest t = rest s ++ [JLook]) by exact R0. clear R0.
  assert (Sm : sim (occ s) (rest t) = sim (occ s) (rest s)). { rewrite R, sim_app. destruct (sim (occ s) (rest s)); reflexivity. }
  assert (Li : lastIns (queue t) = lastIns (queue s)). { cbn. rewrite lastIns_app. reflexivity. }
  assert (Hi : hasIns (queue t) = hasIns (queue s)). { cbn. rewrite hasIns_app. apply orb_false_r. }
  assert (Hr : hasRem (queue t) = hasRem (queue s)). { cbn. rewrite hasRem_app. apply orb_false_r. }
  assert (Pi : pins t = pins s). { unfold pins. rewrite R, insIds_app. apply app_nil_r. }
  assert (Ho : hold t = hold s). { unfold hold, flashHold. rewrite Pi. reflexivity. }
  pose proof (ph_snoc s JLook) as Phs.
  open_inv H. inv_goal.
  - exact (Phs Iph).
  - change (occ t) with (occ s). rewrite Sm. exact Isim.
  - intro v. rewrite Ho. exact (Iown v).
  - rewrite Pi, Hr. exact Imark.
  - rewrite Hr. exact Ilock.
  - cbn. rewrite looks_app. change (looks [JLook]) with 1. rewrite F in Ifillq. lia.
  - rewrite Hi. exact Iclean.
  - change (occ t) with (occ s). rewrite Sm. exact Isettled.
  - rewrite Li. exact Ilast.
  - change (occ t) with (occ s). rewrite Sm, Li, Hi. exact Itok.
  - rewrite Hi. exact Ichain.
Qed.

(** changing the phase to one that does nothing, or popping the queue *)
Lemma pop_inv s d j q :
  Inv s d -> queue s = j :: q -> match phase s with PInsOk | PDone => True | _ => False end -> Inv (setPhase (setQueue s q) PIdle) d.
Proof.
  intros H E Ph. set (t := setPhase (setQueue s q) PIdle).
  assert (R : rest t = rest s). { unfold rest. cbn. rewrite E. destruct (phase s); try contradiction; reflexivity. }
  assert (Pi : pins t = pins s) by (unfold pins; rewrite R; reflexivity).
  assert (Cb : cbs s = []) by (unfold cbs; destruct (phase s); try contradiction; reflexivity).
  assert (Cu : cur t = cur s). { unfold cur. rewrite Cb. reflexivity. }
  assert (Ho : hold t = hold s). { unfold hold, flashHold. rewrite Pi, Cu. reflexivity. }
  assert (Hi : hasIns (queue s) = false -> hasIns q = false). { intro X. apply hasIns_tl in X. rewrite E in X. exact X. }
  assert (Li : lastIns (queue s) = false -> lastIns q = false). { intro X. destruct (lastIns q) eqn:L; auto. assert (lastIns (queue s) = true) by (apply lastIns_tl; rewrite E; exact L). congruence. }
  assert (Lk : looks q = looks (queue s)). { pose proof (i_ph _ _ H) as P. rewrite E in *. unfold looks. destruct (phase s); try contradiction; destruct P as (x & P); try destruct P as (y & P); inversion P; subst; reflexivity. }
  assert (Mr : marked s = true -> hasRem (queue s) = true -> hasRem q = true).
  { intros M Rr. destruct (phase s) eqn:Pe; try contradiction.
    - pose proof (i_ph _ _ H) as P. rewrite Pe, E in P. destruct P as (v & r & P). inversion P; subst. rewrite E in Rr. exact Rr.
    - exfalso. destruct (i_mark _ _ H M) as ((v & X) & _). pose proof (i_rem _ _ H) as Y. rewrite Pe in Y. unfold cur in X. rewrite Cb, Y in X. discriminate. }
  assert (Nl : forall v, phase s <> PLocked v). { intros v X. rewrite X in Ph. exact Ph. }
  open_inv H. inv_goal; fold t.
  - rewrite Cu. assumption.
  - rewrite R. exact Isim.
  - intro v. rewrite Ho. exact (Iown v).
  - intro M. destruct (Imark M) as (A & B & C & D). rewrite Cu, Pi. split; [exact A|]. split; [exact B|]. split; [exact Logic.I|]. destruct D as [D|D]; [left; exact (Mr M D) | right; exact D].
  - intros [].
  - intros v _ [].
  - intros v X. discriminate.
  - cbn. rewrite Lk. exact Ifillq.
  - intros it X Y Z. destruct (Iclean it X Y Z) as (A & B & C). rewrite Cu. split; [exact (Hi A)|]. split; [exact B|exact C].
  - rewrite R. exact Isettled.
  - intros L. apply Ilast. apply lastIns_tl. rewrite E. exact L.
  - intros e X Y. destruct (Itok e X Y) as (A & B & C & D). rewrite R, Cu. split; [exact A|]. split; [exact (Li B)|]. split; [exact C|]. destruct (epcs e); auto; destruct D as [D1 D2]; split; auto; exact (Hi D2).
  - cbn. destruct (muts s) as [|m [|m' l]]; [exact Logic.I | | destruct m as [| | | | | | |[|] []|]; exact Logic.I]. destruct m as [| | | | | | |[|] []|]; try exact Logic.I. exact (Hi Ichain).
Qed.

(** the lookup callback gives up *)
Lemma erase_inv s d : Inv s d -> match phase s with PRead _ | PGot _ | PLocked _ => True | _ => False end -> Inv (setPhase s PErase) d.
Proof.
  intros H Ph. set (t := setPhase s PErase).
  assert (R : rest t = rest s). { unfold rest. cbn. destruct (phase s); try contradiction; reflexivity. }
  assert (Pi : pins t = pins s) by (unfold pins; rewrite R; reflexivity).
  assert (Cu : cur t = cur s). { unfold cur, cbs, onFlash. cbn. destruct (phase s); try contradiction; reflexivity. }
  assert (Ho : hold t = hold s). { unfold hold, flashHold. rewrite Pi, Cu. reflexivity. }
  open_inv H. inv_goal; fold t.
  - cbn. destruct (phase s); try contradiction; exact Iph.
  - rewrite Cu. assumption.
  - rewrite R. exact Isim.
  - intro v. rewrite Ho. exact (Iown v).
  - intro M. destruct (Imark M) as (A & B & C & D). rewrite Cu, Pi. split; [exact A|]. split; [exact B|]. split; [exact Logic.I|exact D].
  - intros [].
  - intros v _ [].
  - intros v X. discriminate.
  - intros it X Y Z. rewrite Cu. exact (Iclean it X Y Z).
  - rewrite R. exact Isettled.
  - rewrite R, Cu. exact Itok.
Qed.
Lemma erased_inv s d : Inv s d -> phase s = PErase -> Inv (setPhase (setQueue (setFill s None) (tl (queue s))) PIdle) d.
Proof.
  intros H Ph. pose proof (i_ph _ _ H) as P. rewrite Ph in P. destruct P as (q & E). set (t := setPhase (setQueue (setFill s None) (tl (queue s))) PIdle).
  assert (R : rest t = rest s). { unfold rest. cbn. rewrite E, Ph. reflexivity. }
  assert (Pi : pins t = pins s) by (unfold pins; rewrite R; reflexivity).
  assert (Cu : cur t = cur s). { unfold cur, cbs, onFlash. cbn. rewrite Ph. reflexivity. }
  assert (Ho : hold t = hold s). { unfold hold, flashHold. rewrite Pi, Cu. reflexivity. }
  assert (Hi : hasIns (queue t) = hasIns (queue s)) by (cbn; rewrite E; reflexivity).
  assert (Hr : hasRem (queue t) = hasRem (queue s)) by (cbn; rewrite E; reflexivity).
  assert (Li : lastIns (queue t) = lastIns (queue s)) by (cbn; rewrite E; reflexivity).
  open_inv H. inv_goal; fold t.
  - rewrite Cu. assumption.
  - rewrite R. exact Isim.
  - intro v. rewrite Ho. exact (Iown v).
  - intro M. destruct (Imark M) as (A & B & C & D). rewrite Cu, Pi, Hr. split; [exact A|]. split; [exact B|]. split; [exact Logic.I|exact D].
  - intros [].
  - intros v _ [].
  - intros v X. discriminate.
  - cbn. rewrite E in *. cbn. unfold looks in *. cbn in Ifillq. destruct (fill s), (filling s); cbn in Ifillq; lia.
  - intros it X Y Z. rewrite Cu, Hi. exact (Iclean it X Y Z).
  - rewrite R. exact Isettled.
  - rewrite Li. exact Ilast.
  - rewrite R, Cu, Li, Hi. exact Itok.
  - rewrite Hi. exact Ichain.
Qed.

Lemma onFlash_len s : length (onFlash s) <= length (cur s).
Proof. unfold cur. rewrite app_length. lia. Qed.
Lemma content_one s d v : Inv s d -> content s = Some v -> pend s = [] /\ cbs s = [] /\ onFlash s = [v].
Proof.
  intros H E. pose proof (i_cur _ _ H) as C. unfold cur, onFlash in *. rewrite E in *. rewrite !app_length, map_length in C. cbn in C.
  destruct (pend s), (cbs s); cbn in C; try lia. auto.
Qed.

Lemma look_inv s d q : Inv s d -> phase s = PIdle -> queue s = JLook :: q -> Inv (setPhase s (PRead (content s))) d.
Proof.
  intros H Ph E. set (t := setPhase s (PRead (content s))).
  assert (R : rest s = JLook :: rest t). { unfold rest. cbn. rewrite Ph, E. reflexivity. }
  assert (Sm : sim (occ s) (rest t) = sim (occ s) (rest s)) by (rewrite R; reflexivity).
  assert (Pi : pins t = pins s) by (unfold pins; rewrite R; reflexivity).
  assert (Cu : cur t = cur s). { unfold cur, cbs, onFlash. cbn. rewrite Ph. reflexivity. }
  assert (Ho : hold t = hold s). { unfold hold, flashHold. rewrite Pi, Cu. reflexivity. }
  pose proof (content_one s d) as Co. specialize (fun v => Co v H).
  open_inv H. inv_goal; fold t.
  - cbn. eexists. exact E.
  - rewrite Cu. assumption.
  - change (occ t) with (occ s). rewrite Sm. exact Isim.
  - intro v. rewrite Ho. exact (Iown v).
  - intro M. destruct (Imark M) as (A & B & C & D). rewrite Cu, Pi. split; [exact A|]. split; [exact B|]. split; [exact Logic.I|exact D].
  - intros _ v [X|X]; [|discriminate]. cbn in X. inversion X as [Y]. apply Co. exact Y.
  - intros v X L. unfold liveFill in L. cbn in L. destruct (content s) eqn:Y; [|exact L]. destruct (Co n eq_refl) as (Z & _). cbn in X. congruence.
  - intros v X. discriminate.
  - intros it X Y Z. rewrite Cu. exact (Iclean it X Y Z).
  - change (occ t) with (occ s). rewrite Sm. exact Isettled.
  - change (occ t) with (occ s). rewrite Sm, Cu. exact Itok.
Qed.

Lemma got_inv s d v : Inv s d -> phase s = PRead (Some v) -> Inv (setPhase s (PGot v)) d.
Proof.
  intros H Ph. set (t := setPhase s (PGot v)).
  assert (R : rest t = rest s). { unfold rest. cbn. rewrite Ph. reflexivity. }
  assert (Pi : pins t = pins s) by (unfold pins; rewrite R; reflexivity).
  assert (Cu : cur t = cur s). { unfold cur, cbs, onFlash. cbn. rewrite Ph. reflexivity. }
  assert (Ho : hold t = hold s). { unfold hold, flashHold. rewrite Pi, Cu. reflexivity. }
  assert (Lv : liveFill t = liveFill s). { unfold liveFill. cbn. rewrite Ph. reflexivity. }
  open_inv H. inv_goal; fold t.
  - cbn. rewrite Ph in Iph. exact Iph.
  - rewrite Cu. assumption.
  - rewrite R. exact Isim.
  - intro w. rewrite Ho. exact (Iown w).
  - intro M. destruct (Imark M) as (A & B & C & D). rewrite Cu, Pi. split; [exact A|]. split; [exact B|]. split; [exact Logic.I|exact D].
  - rewrite Lv. intros L w [X|X]; [discriminate|]. cbn in X. inversion X; subst. apply (Ifill L). auto.
  - rewrite Lv. exact Ipinv.
  - intros w X. discriminate.
  - intros it X Y Z. rewrite Cu. exact (Iclean it X Y Z).
  - rewrite R. exact Isettled.
  - rewrite R, Cu. exact Itok.
Qed.

Lemma locked_inv s d v : Inv s d -> phase s = PGot v -> tombed s = false -> fill s = Some true -> Inv (setPhase s (PLocked v)) d.
Proof.
  intros H Ph Tb F. set (t := setPhase s (PLocked v)).
  assert (R : rest t = rest s). { unfold rest. cbn. rewrite Ph. reflexivity. }
  assert (Pi : pins t = pins s) by (unfold pins; rewrite R; reflexivity).
  assert (Cu : cur t = cur s). { unfold cur, cbs, onFlash. cbn. rewrite Ph. reflexivity. }
  assert (Ho : hold t = hold s). { unfold hold, flashHold. rewrite Pi, Cu. reflexivity. }
  assert (Lv : liveFill s). { unfold liveFill. rewrite Ph. exact F. }
  apply tombed_false in Tb. destruct Tb as (T1 & T2 & T3).
  open_inv H. inv_goal; fold t.
  - cbn. rewrite Ph in Iph. exact Iph.
  - rewrite Cu. assumption.
  - rewrite R. exact Isim.
  - intro w. rewrite Ho. exact (Iown w).
  - intro M. destruct (Imark M) as (A & B & C & D). rewrite Cu, Pi. split; [exact A|]. split; [exact B|]. split; [exact Logic.I|exact D].
  - intros [].
  - intros w _ [].
  - intros w X. cbn in X. inversion X; subst w. split; [exact (Ifill Lv v (or_intror Ph))|]. split; [exact T3|]. split; [intros w Y; exact (Ipinv w Y Lv)|]. split.
    + intros m Hm. specialize (T1 m Hm). destruct m as [| | | | | | |k []|]; cbn in *; congruence.
    + intros r Hr. specialize (T2 r Hr). destruct r; cbn in *; congruence.
  - intros it X Y Z. rewrite Cu. exact (Iclean it X Y Z).
  - rewrite R. exact Isettled.
  - rewrite R, Cu. exact Itok.
Qed.

Lemma filled_inv s d v : Inv s d -> phase s = PLocked v -> ram s = None -> Inv (setPhase (setRam s (Some (mkItem v true false false))) PErase) d.
Proof.
  intros H Ph Er.
  assert (H1 : Inv (setRam s (Some (mkItem v true false false))) d).
  { destruct (i_lock _ _ H v Ph) as (L1 & L2 & L3 & L4 & L5). pose proof (i_ph _ _ H) as P. rewrite Ph in P. destruct P as (q & E).
    assert (Re : rest s = q) by (unfold rest; rewrite Ph, E; reflexivity).
    assert (Oc : occ s = true) by (unfold occ; rewrite L1; reflexivity).
    assert (Nr : hasRem (rest s) = false). { rewrite Re. destruct (hasRem q) eqn:X; auto. assert (hasRem (queue s) = true) by (apply hasRem_tl; rewrite E; exact X). congruence. }
    destruct (i_sim _ _ H) as (f & Sf). destruct (sim_norem _ _ _ Sf Nr) as (N1 & _). destruct (N1 Oc) as (-> & Ni).
    assert (Nq : hasIns (queue s) = false) by (rewrite E; rewrite Re in Ni; exact Ni).
    assert (Nm : forall k r, muts s <> [MRm k r]).
    { intros k r X. pose proof (i_held _ _ H) as Y. rewrite X in Y. destruct k; [destruct Y as (it & Y & _); congruence|].
      specialize (L4 (MRm false r)). rewrite X in L4. cbn in L4. rewrite L4 in Y; [discriminate|auto]. }
    assert (Mk : marked s = false). { destruct (marked s) eqn:M; auto. destruct (i_mark _ _ H M) as (_ & _ & _ & [D|(k & r & D)]); [congruence | exfalso; exact (Nm k r D)]. }
    assert (Cu : cur s = [v]) by (unfold cur, cbs; rewrite Ph, L1; reflexivity).
    open_inv H. inv_goal.
    - cbn. destruct (muts s) as [|m [|m' l]]; try exact Logic.I. 2: destruct m as [| | | | | | |[|] r|]; exact Logic.I. destruct m as [| | | | | | |[|] r|]; try exact Logic.I; try (destruct Iheld as (x & X & _); congruence). exact Iheld.
    - intros it X Y. cbn in X. inversion X; subst. discriminate.
    - intro w. specialize (Iown w). unfold hold, ramHold in *. cbn. rewrite Er in Iown. exact Iown.
    - intros it X Y Z. cbn in X. inversion X; subst. cbn. auto.
    - intros it X Y Z. cbn in X. inversion X; subst. cbn in Z. destruct Z; discriminate.
    - intros X. exfalso. cbn in X. rewrite (lastIns_noIns _ Nq) in X. discriminate.
    - intros e X Y. exfalso. destruct (Itok e X Y) as (A & _). congruence. }
  change (setPhase (setRam s (Some (mkItem v true false false))) PErase) with (setPhase (setRam s (Some (mkItem v true false false))) PErase).
  apply erase_inv; auto. cbn. rewrite Ph. exact Logic.I.
Qed.
