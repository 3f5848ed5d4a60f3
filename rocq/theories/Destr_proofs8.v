(** Every step keeps the invariant; what follows for runs. *)
From Coq Require Import List Arith Bool Lia.
Import ListNotations.
From Verif Require Import Destr_model Destr_spec Destr_proofs Destr_proofs2 Destr_proofs3 Destr_proofs4 Destr_proofs5 Destr_proofs6 Destr_proofs7.
Local Arguments Nat.ltb : simpl never.

Lemma nonempty_nil {A} (l : list A) : nonempty l = false -> l = [].
Proof. destruct l; auto; discriminate. Qed.

(** evictCB, as one of the three outcomes *)
Lemma cb_cases s v failed s1 e :
  evictCB s v failed = (s1, e) -> (failed = true -> marked s = false) ->
  exists r m, s1 = setMarked (setRam s r) m /\
  ((exists it, ram s = Some it /\ excl it = false /\ clean it = true /\ r = Some (mkItem (iid it) true true false) /\ m = marked s /\ e = [])
   \/ (r = ram s /\ marked s = true /\ m = false /\ e = [] /\ (forall it, ram s = Some it -> excl it = false -> clean it = false))
   \/ (r = ram s /\ marked s = false /\ m = false /\ e = [Destructed v] /\ (forall it, ram s = Some it -> excl it = false -> clean it = false))).
Proof.
  intros E Hf. unfold evictCB in E. destruct (findRam s) as [it|] eqn:Fr.
  - apply findRam_some in Fr. destruct Fr as [Er Ex]. destruct (clean it) eqn:Cl.
    + inversion E; subst. eexists; exists (marked s). split; [|left; exists it; split; [exact Er|]; split; [exact Ex|]; split; [exact Cl|]; split; [reflexivity|]; auto]. destruct s; reflexivity.
    + assert (Cf : forall x, ram s = Some x -> excl x = false -> clean x = false) by (intros x X _; congruence).
      destruct (marked s) eqn:Mk.
      * destruct failed; [specialize (Hf eq_refl); discriminate|]. cbn in E. inversion E; subst. exists (ram s), false. split; [destruct s; reflexivity|]. right; left. auto.
      * rewrite andb_false_r in E. inversion E; subst. exists (ram s1), false. split; [destruct s1; cbn in *; rewrite Mk; reflexivity|]. right; right. auto.
  - assert (Cf : forall x, ram s = Some x -> excl x = false -> clean x = false) by (intros x X Y; rewrite (findRam_none s x Fr X) in Y; discriminate).
    destruct (marked s) eqn:Mk.
    + destruct failed; [specialize (Hf eq_refl); discriminate|]. cbn in E. inversion E; subst. exists (ram s), false. split; [destruct s; reflexivity|]. right; left. auto.
    + rewrite andb_false_r in E. inversion E; subst. exists (ram s1), false. split; [destruct s1; cbn in *; rewrite Mk; reflexivity|]. right; right. auto.
Qed.

Lemma cb_gone s d v p failed s1 e :
  Inv s d -> cur s = [v] -> content s = None ->
  (phase s = PRem2 v /\ p = PDone) \/ (phase s = PFail2 v /\ p = PInsOk) \/ (phase s = p /\ pend s = [(v, true)]) ->
  (failed = true -> marked s = false) -> evictCB s v failed = (s1, e) ->
  Inv (setPend (setPhase s1 p) []) (d ++ dids e).
Proof.
  intros H Cu Cn C Hf E. destruct (cb_cases s v failed s1 e E Hf) as (r & m & -> & O).
  change (setPend (setPhase (setMarked (setRam s r) m) p) []) with (goneTo s p r m).
  apply (gone_inv s d v); auto. destruct O as [(it & A & B & D & -> & -> & ->)|[(-> & A & -> & -> & B)|(-> & A & -> & -> & B)]].
  - left. exists it. rewrite app_nil_r. auto 10.
  - right; left. cbn. rewrite app_nil_r. auto.
  - right; right. cbn. auto.
Qed.

Lemma cur_ph s d v : Inv s d -> cbs s = [v] -> cur s = [v] /\ onFlash s = [].
Proof. intros H E. pose proof (i_cur _ _ H) as C. unfold cur in *. rewrite E in *. cbn in *. destruct (onFlash s); [auto|cbn in C; lia]. Qed.

Lemma callback_inv s d b s1 e : Inv s d -> callback s b = Some (s1, e) -> Inv s1 (d ++ dids e).
Proof.
  intros H E. unfold callback in E. pose proof (i_ph _ _ H) as Ph. destruct (phase s) as [| |v|v|v|v| |[v|]|v|v|] eqn:P; try discriminate.
  - destruct Ph as (v & q & Q). inversion E; subst. cbn. rewrite app_nil_r, Q. cbn. eapply pop_inv; eauto. rewrite P. exact Logic.I.
  - inversion E; subst. cbn. rewrite app_nil_r. pose proof (fillInval_inv s d (PFail2 v) H ltac:(left; eauto) (pend s) eq_refl (or_introl eq_refl)) as X. destruct s; exact X.
  - destruct (evictCB s v true) as [s2 e2] eqn:C. inversion E; subst. destruct (cur_ph s d v H) as [Cu Fl]; [unfold cbs; rewrite P; reflexivity|]. destruct (onFlash_nil s Fl) as [Cn Pn].
    assert (Nm : marked s = false). { destruct (marked s) eqn:M; auto. destruct (i_mark _ _ H M) as (_ & _ & X & _). rewrite P in X. contradiction. }
    pose proof (cb_gone s d v PInsOk true s2 e H Cu Cn ltac:(auto) ltac:(auto) C) as X.
    assert (Q2 : queue s2 = queue s /\ pend s2 = pend s). { destruct (cb_cases s v true s2 e C ltac:(auto)) as (r & m & -> & _). split; reflexivity. } destruct Q2 as [Q2 Q3].
    destruct Ph as (w & q & Q). rewrite Q2, Q. cbn [tl].
    pose proof (pop_inv _ _ (JIns w) q X) as Y. cbn in Y. rewrite Q2 in Y. specialize (Y Q Logic.I).
    replace (setPhase (setQueue s2 q) PIdle) with (setPhase (setQueue (setPend (setPhase s2 PInsOk) []) q) PIdle); [exact Y|]. destruct s2; cbn in *. rewrite Q3, Pn. reflexivity.
  - inversion E; subst. cbn. rewrite app_nil_r. pose proof (fillInval_inv s d (PRem2 v) H ltac:(right; left; eauto) (pend s) eq_refl (or_introl eq_refl)) as X. destruct s; exact X.
  - destruct (evictCB s v false) as [s2 e2] eqn:C. inversion E; subst. destruct (cur_ph s d v H) as [Cu Fl]; [unfold cbs; rewrite P; reflexivity|]. destruct (onFlash_nil s Fl) as [Cn Pn].
    pose proof (cb_gone s d v PDone false s2 e H Cu Cn ltac:(auto) ltac:(discriminate) C) as X.
    assert (Q3 : pend s2 = []). { destruct (cb_cases s v false s2 e C ltac:(discriminate)) as (r & m & -> & _). exact Pn. }
    replace (setPhase s2 PDone) with (setPend (setPhase s2 PDone) []); [exact X|]. destruct s2; cbn in *. rewrite Q3. reflexivity.
  - destruct Ph as (q & Q). inversion E; subst. cbn. rewrite app_nil_r, Q. cbn. eapply pop_inv; eauto. rewrite P. exact Logic.I.
  - destruct (enabled s && b); inversion E; subst; cbn; rewrite app_nil_r; [apply got_inv; auto | apply erase_inv; auto; rewrite P; exact Logic.I].
  - inversion E; subst; cbn; rewrite app_nil_r. apply erase_inv; auto; rewrite P; exact Logic.I.
  - destruct (negb (tombed s) && match fill s with Some x => x | None => false end) eqn:G; inversion E; subst; cbn; rewrite app_nil_r; [|apply erase_inv; auto; rewrite P; exact Logic.I].
    apply andb_prop in G. destruct G as [G1 G2]. apply negb_true_iff in G1. apply locked_inv; auto. destruct (fill s) as [[|]|]; auto; discriminate.
  - destruct (ram s) eqn:R; inversion E; subst; cbn; rewrite app_nil_r; [apply erase_inv; auto; rewrite P; exact Logic.I | apply filled_inv; auto].
  - inversion E; subst; cbn; rewrite app_nil_r. apply erased_inv; auto.
Qed.

Lemma step_inv s d a s1 e : Inv s d -> hazard s a = false -> step s a = Some (s1, e) -> Inv s1 (d ++ dids e).
Proof.
  intros H Hz St. destruct a; cbn in St.
  - (* spawn *)
    destruct (spawn s c) as [s2|] eqn:Sp; [|discriminate]. inversion St; subst. cbn. rewrite app_nil_r. destruct c; cbn in Sp, Hz.
    + inversion Sp; subst. apply spawn_mut; [exact H | apply nonempty_nil; exact Hz | exact Logic.I].
    + inversion Sp; subst. apply spawn_mut; [exact H | apply nonempty_nil; exact Hz | exact Logic.I].
    + destruct (findRam s) as [it|] eqn:Fr; [|discriminate]. inversion Sp; subst. apply findRam_some in Fr. apply spawn_mut; [exact H | apply nonempty_nil; exact Hz | exists it; tauto].
    + inversion Sp; subst. apply spurious_inv. exact H.
    + destruct (findRam s) as [it|] eqn:Fr; [|discriminate]. apply findRam_some in Fr. destruct Fr as [Er Ex]. destruct (holds s) eqn:Hh; [discriminate|].
      destruct withToken.
      * destruct (enabled s && (negb (clean it) || evicted it) && negb (hasToken s)) eqn:G; [|discriminate]. inversion Sp; subst. apply andb_prop in G. destruct G as [G G3]. apply andb_prop in G. destruct G as [_ G2].
        apply evict_inv; auto; intros _; [|destruct (hasToken s); [discriminate|reflexivity]]. destruct (clean it); auto.
      * inversion Sp; subst. apply evict_inv; auto; discriminate.
  - (* mutating call *)
    destruct (pick i (muts s)) as [[[l1 m] l2]|] eqn:P; [|discriminate]. destruct (muts_one s d i l1 m l2 H P) as (L1 & L2 & _). subst l1 l2. cbn [map app] in *.
    assert (Go : forall s2 m2, mstep s m b = Some (s2, m2, e) -> Inv (setMuts s2 [m2]) d).
    { intros s2 m2 X. change [m2] with ([] ++ m2 :: []). eapply mut_inv; eauto. intros k -> Cn Bf. cbn in Hz. rewrite P, Cn, Bf in Hz. cbn in Hz. apply nonempty_nil. exact Hz. }
    assert (Ne : m <> MRet -> e = [] \/ exists n, e = [Inserted n]).
    { intro Nm. destruct m; cbn in St; try congruence; try (inversion St; subst; auto; fail).
      - destruct (findRam s); inversion St; subst; eauto.
      - destruct (ram s) as [it|]; [destruct (_ && _)|]; inversion St; subst; auto.
      - destruct (ram s) as [it|]; [destruct (_ =? _)|]; inversion St; subst; auto.
      - destruct (lockFree s); inversion St; subst; auto.
      - destruct (findRam s); inversion St; subst; auto.
      - destruct (ram s) as [it|]; [destruct (_ =? _)|]; inversion St; subst; auto.
      - destruct (rstep s r b) as [[? [?|]]|]; inversion St; subst; auto. }
    assert (Dn : m <> MRet -> dids e = []) by (intro X; destruct (Ne X) as [-> | (n & ->)]; reflexivity).
    destruct m; try (rewrite Dn, app_nil_r by discriminate; destruct (mstep s _ b) as [[[s2 m2] e2]|] eqn:M; [|discriminate]; inversion St; subst; eapply Go; eauto; fail).
    inversion St; subst. cbn. rewrite app_nil_r. exact (mut_ret s d i [] [] H P).
  - (* spurious removal *)
    destruct (pick i (spurs s)) as [[[l1 r] l2]|] eqn:P; [|discriminate]. destruct (rstep s r b) as [[s2 o]|] eqn:R; [|discriminate].
    pose proof (spur_inv s d i l1 r l2 b s2 o H P R) as X. destruct o; inversion St; subst; cbn; rewrite app_nil_r; exact X.
  - (* eviction *)
    destruct (pick i (evs s)) as [[[l1 x] l2]|] eqn:P; [|discriminate]. inversion St as [St']. eapply ev_inv; eauto.
  - destruct (pick i (loose s)) as [[[l1 x] l2]|] eqn:P; [|discriminate]. inversion St; subst. cbn. eapply release_inv; eauto.
  - inversion St; subst. cbn. rewrite app_nil_r. apply inval_inv. exact H.
  - destruct (lockFree s && _); [|discriminate]. destruct (fill s) eqn:F; [discriminate|]. inversion St; subst. cbn. rewrite app_nil_r. apply findfill_inv; auto.
  - destruct (filling s) eqn:F; [|discriminate]. inversion St; subst. cbn. rewrite app_nil_r. apply findenq_inv; auto.
  - destruct (phase s) eqn:P; try discriminate. destruct (queue s) as [|[v| |] q] eqn:Q; try discriminate. destruct r; [| |discriminate]; inversion St; subst; cbn; rewrite app_nil_r.
    + exact (insjob_inv s d v q true H P Q).
    + exact (insjob_inv s d v q false H P Q).
  - destruct (phase s) eqn:P; try discriminate. destruct (queue s) as [|[v| |] q] eqn:Q; try discriminate. inversion St; subst; cbn; rewrite app_nil_r. eapply look_inv; eauto.
  - destruct (phase s) eqn:P; try discriminate. destruct (queue s) as [|[v| |] q] eqn:Q; try discriminate. cbn in Hz. apply orb_false_iff in Hz. destruct Hz as [Hz1 Hz2]. apply nonempty_nil in Hz1.
    pose proof (remjob_inv s d q H P Q Hz1) as X. destruct ok.
    + destruct (content s); inversion St; subst; cbn; rewrite app_nil_r; exact X.
    + destruct (content s); [discriminate|]. inversion St; subst; cbn; rewrite app_nil_r; exact X.
  - eapply callback_inv; eauto.
  - destruct (content s) eqn:C; [|discriminate]. inversion St; subst; cbn; rewrite app_nil_r. apply drop_inv; auto.
  - destruct (pick i (pend s)) as [[[l1 [v [|]]] l2]|] eqn:P; try discriminate. destruct (lockFree s) eqn:L; [|discriminate]. inversion St; subst; cbn; rewrite app_nil_r.
    apply pick_app in P. pose proof (fillInval_inv s d (phase s) H ltac:(auto) (l1 ++ (v, true) :: l2)) as X. destruct s; cbn in *. apply X; [|auto]. rewrite P, !map_app. reflexivity.
  - destruct (pick i (pend s)) as [[[l1 [v [|]]] l2]|] eqn:P; try discriminate. destruct (evictCB s v false) as [s2 e2] eqn:C. inversion St; subst. apply pick_app in P.
    assert (Pn : l1 = [] /\ l2 = [] /\ content s = None /\ cbs s = []).
    { pose proof (i_cur _ _ H) as L. unfold cur, onFlash in L. rewrite P in L. rewrite !app_length, map_length, app_length in L. cbn in L.
      destruct l1; cbn in L; [|lia]. destruct l2; cbn in L; [|lia]. destruct (content s); cbn in L; [lia|]. destruct (cbs s); cbn in L; [auto|lia]. }
    destruct Pn as (-> & -> & Cn & Cb). cbn [app] in *.
    assert (Cu : cur s = [v]) by (unfold cur, onFlash; rewrite Cb, P, Cn; reflexivity).
    pose proof (cb_gone s d v (phase s) false s2 e H Cu Cn ltac:(auto) ltac:(discriminate) C) as X.
    destruct (cb_cases s v false s2 e C ltac:(discriminate)) as (r & m & -> & _). exact X.
  - discriminate.
  - destruct (findRam s) as [it|] eqn:Fr; [|discriminate]. destruct (holds s) eqn:Hh; [discriminate|]. inversion St; subst. cbn. rewrite app_nil_r.
    cbn in Hz. rewrite Fr in Hz. apply findRam_some in Fr. destruct Fr as [Er Ex].
    replace (setRam s (Some (mkItem (iid it) (clean it) false false))) with s; [exact H|]. destruct s; cbn in *. rewrite Er. destruct it; cbn in *. subst. reflexivity.
  - discriminate.
Qed.
