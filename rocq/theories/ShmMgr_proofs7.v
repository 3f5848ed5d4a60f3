(** C41, part 7: a clean shutdown followed by a start re-attaches. *)
From Verif Require Import Bytes ShmMgr_model ShmMgr_spec ShmMgr_proofs ShmMgr_proofs2
  ShmMgr_proofs3 ShmMgr_proofs6.
Ltac Zify.zify_post_hook ::= idtac.

Lemma unlinkAny_other b leg n m o : m <> n -> unlinkAny b leg n m o = b m o.
Proof.
  intros Hm.
  assert (X : forall o', unlinkId b n o' m o = b m o).
  { intros o'. unfold unlinkId, updB.
    replace (bytes_eqb m n) with false by (symmetry; apply bytes_eqb_false, Hm).
    reflexivity. }
  unfold unlinkAny. destruct leg; [apply X|]. destruct (b n false); apply X.
Qed.

Lemma unlinkAll_other leg l n o : (forall kv, In kv l -> fst kv <> n) -> forall b,
  unlinkAll b leg l n o = b n o.
Proof.
  induction l as [|[k x] l IH]; intros H b; cbn [unlinkAll]; [reflexivity|].
  rewrite IH by (intros kv Hk; apply H; right; exact Hk).
  apply unlinkAny_other. intros ->. apply (H (k, x) (or_introl eq_refl)). reflexivity.
Qed.

Lemma unattached_not q n s : afind (segs q) n = Some s ->
  forall kv, In kv (unattached q) -> fst kv <> n.
Proof.
  intros S kv H Hk. subst n. unfold unattached in H. apply filter_In in H as [_ H].
  rewrite S in H. discriminate H.
Qed.

Lemma attached_find q n s k : afind (segs q) n = Some s -> afind (names q) n = Some k ->
  exists k', afind (attached q) n = Some k'.
Proof.
  intros S. unfold attached. generalize (names q) as l.
  induction l as [|[a x] l IH]; cbn [afind filter fst]; [discriminate|].
  destruct (bytes_eqb a n) eqn:B.
  - apply bytes_eqb_spec in B. subst a. rewrite S. intros _. cbn [afind].
    rewrite bytes_eqb_refl. eauto.
  - intros H. destruct (afind (segs q) a); [cbn [afind]; rewrite B|]; apply IH, H.
Qed.

(** A running process knows the names of its segments. *)
Definition sn (w : world) (p : nat) : Prop :=
  pc (procs w p) = PRun -> forall n s, afind (segs (procs w p)) n = Some s ->
  exists k, afind (names (procs w p)) n = Some k.

Lemma removed_sn w p n w1 b : doRemove w p n = (w1, b) ->
  (forall m s, afind (segs (procs w p)) m = Some s -> exists k, afind (names (procs w p)) m = Some k) ->
  forall m s, afind (segs (procs w1 p)) m = Some s -> exists k, afind (names (procs w1 p)) m = Some k.
Proof.
  intros D H m s Hs. apply doRemove_spec in D.
  destruct (rm_segs _ _ _ _ D) as [R1 R2].
  destruct (bytes_eq_dec m n) as [->|Hne]; [congruence|].
  rewrite R2 in Hs by exact Hne. destruct (H _ _ Hs) as [k Hk]. exists k.
  destruct (rm_names _ _ _ _ D) as [-> | ->]; [exact Hk|].
  rewrite afind_aerase_other by exact Hne. exact Hk.
Qed.

Lemma sn_reach w tr : reach w tr -> forall p, sn w p.
Proof.
  induction 1 as [|w tr a w' e R IH E]; intros p; [intros P; discriminate P|].
  specialize (IH p). pose proof (pinv_reach _ _ R p) as PV.
  destruct (actor_dec a p) as [Ha|Ha].
  2:{ unfold sn in *. rewrite (step_frame _ _ _ _ E p Ha). exact IH. }
  destruct a; cbn [actor] in Ha; try discriminate Ha; injection Ha as ->.
  4:{ apply create_inv in E as (P & _ & _ & w1 & b & D & [[-> _]|(_ & -> & _)]).
      - intros _. eapply removed_sn; eauto.
      - pose proof (removed_sn _ _ _ _ _ D (IH P)) as H1. intros _ m s.
        unfold created_world. wsimp. rewrite updN_same. wsimp. cbn [afind].
        destruct (bytes_eqb n m) eqn:B.
        + intros _. apply bytes_eqb_spec in B. subst m.
          destruct (afind (names (procs w1 p)) n) as [k|] eqn:F; [exists k; exact F|].
          exists n. rewrite afind_app, F. cbn [afind]. rewrite bytes_eqb_refl. reflexivity.
        + intros Hs. destruct (H1 _ _ Hs) as [k Hk]. exists k.
          destruct (afind (names (procs w1 p)) n) as [k'|]; [exact Hk|].
          rewrite afind_app, Hk. reflexivity. }
  4:{ apply remove_inv in E as (P & b & D & _). intros _. eapply removed_sn; eauto. }
  all: unfold sn in *.
  all: step_cases E; wsimp; rewrite ?updN_same; wsimp; try discriminate; try exact IH.
  all: try solve [intros _ m s; rewrite (pv_noseg _ _ _ PV)
    by (match goal with H : pc _ = _ |- _ => rewrite H end; reflexivity); discriminate].
  all: try solve [intros _; exact (IH eq_refl)].
  all: intros P m s; cbn [afind]; destruct (bytes_eqb n m) eqn:B;
    [apply bytes_eqb_spec in B; subst m; intros _; eauto | intros Hs; eauto].
Qed.

(** Where the record goes, while nobody deletes the metadata file. *)
Record minv (w : world) : Prop := mkMinv {
  m_dir : forall i, meta w = Some i -> dir w = true;
  m_dir2 : forall p, match pc (procs w p) with
             | PNone | PStatDir | PDead => True | _ => dir w = true end;
  m_str : forall p, active (pc (procs w p)) = true ->
             meta w = Some (strIno (procs w p));
  m_str2 : forall p, pc (procs w p) = PLock2 -> meta w = Some (strIno (procs w p))
}.

Lemma minv_step w a w' e : step w a = Some (w', e) -> ~ In EMetaDeleted e ->
  minv w -> minv w'.
Proof.
  intros E Hd M.
  assert (G : forall wx, meta wx = meta w -> dir wx = dir w ->
     (forall r, pc (procs wx r) = pc (procs w r) /\ strIno (procs wx r) = strIno (procs w r)) ->
     minv wx).
  { destruct M as [m1 m2 m3 m4]. intros wx Mx I Pr. constructor; rewrite ?Mx, ?I; auto.
    - intros r. destruct (Pr r) as [-> _]. apply m2.
    - intros r. destruct (Pr r) as [-> ->]. apply m3.
    - intros r. destruct (Pr r) as [-> ->]. apply m4. }
  destruct a.
  4:{ apply create_inv in E as (P & _ & _ & w1 & b & D & X).
      apply doRemove_spec in D.
      assert (Pr : forall r, pc (procs w1 r) = pc (procs w r) /\
                             strIno (procs w1 r) = strIno (procs w r)).
      { intros r. destruct (Nat.eq_dec r p) as [->|Hr]; [split; apply D|].
        rewrite (rm_pr _ _ _ _ D r Hr). auto. }
      destruct X as [[-> _]|(_ & -> & _)].
      - apply G; auto; apply D.
      - unfold created_world. apply G; wsimp; try apply D.
        intros r. destruct (Pr r) as [<- <-]. destruct (Nat.eq_dec r p) as [->|Hr];
          [rewrite updN_same; auto | rewrite updN_other by exact Hr; auto]. }
  4:{ apply remove_inv in E as (P & b & D & _). apply doRemove_spec in D.
      apply G; try apply D.
      intros r. destruct (Nat.eq_dec r p) as [->|Hr]; [split; apply D|].
      rewrite (rm_pr _ _ _ _ D r Hr). auto. }
  all: step_cases E.
  all: try solve [exfalso; apply Hd; cbn; auto].
  all: clear G; destruct M as [m1 m2 m3 m4].
  all: constructor; wsimp; try assumption; try reflexivity.
  all: try solve [intros i X; apply (m1 i); congruence].
  all: intros rr.
  all: try (match goal with |- context [updN _ ?p _ ?r0] =>
      destruct (Nat.eq_dec r0 p) as [Heq|Hne];
      [rewrite Heq in *; rewrite updN_same; wsimp; cbn [active]; try discriminate; try exact I
      |rewrite updN_other by exact Hne] end).
  all: try (destruct ok).
  all: try apply m2; try apply m3; try apply m4.
  all: try solve [intros X; try discriminate X; auto].
  all: try solve [match goal with H : pc (procs _ ?p) = _ |- _ =>
     pose proof (m2 p) as X2; rewrite H in X2; exact X2 end].
  all: try solve [eapply m1; eassumption].
  all: try solve [match goal with |- match ?x with _ => _ end => destruct x end; auto].
  all: try solve [intros _; match goal with H : pc (procs _ ?p) = _ |- _ =>
     pose proof (m3 p) as X2; rewrite H in X2; apply X2; reflexivity end].
  all: try solve [intros _; match goal with H : pc (procs _ ?p) = _ |- _ =>
     pose proof (m4 p) as X2; rewrite H in X2; apply X2; reflexivity end].
  all: try solve [intros X; apply m3 in X; congruence].
  all: try solve [intros X; apply m4 in X; congruence].
  all: try solve [intros _; assumption].
  all: try solve [match goal with H : pc (procs _ ?p) = PCreate2 |- _ =>
     pose proof (m2 p) as X2; rewrite H in X2; intros _; exact X2 end].
  all: try solve [match goal with H : pc (procs _ ?p) = PTrunc |- _ =>
     pose proof (m2 p) as X2; rewrite H in X2; intros _; exact X2 end].
  all: first [assumption | reflexivity].
Qed.

Lemma minv_reach w tr : reach w tr -> meta_kept tr -> minv w.
Proof.
  induction 1 as [|w tr a w' e R IH E]; intros HM.
  - constructor; cbn; try discriminate; intros; exact I.
  - eapply minv_step; eauto.
    + intros X. apply HM, in_or_app. right. exact X.
    + apply IH. intros X. apply HM, in_or_app. left. exact X.
Qed.

Lemma dropb_never tr : ~ In EDropMade tr -> dropb tr = false.
Proof.
  unfold dropb. 
  assert (G : forall x, ~ In EDropMade tr -> x = false -> fold_left drop_step tr x = false).
  { induction tr as [|e tr IH]; intros x H ->; cbn [fold_left]; [reflexivity|].
    apply IH; [intros Y; apply H; right; exact Y|].
    destruct e; cbn [drop_step]; try reflexivity. destruct H. left. reflexivity. }
  intros H. apply G; auto.
Qed.

Lemma updN_twice {V} (f : nat -> V) i u v j : updN (updN f i u) i v j = updN f i v j.
Proof. unfold updN. destruct (j =? i); reflexivity. Qed.

Lemma xorb_shmVal b : xorb b (shmVal b =? shmVal true)%N = false.
Proof. destruct b; reflexivity. Qed.

(** What one solitary start does, given what it will find. *)
Lemma solo_start (w : world) (q : nat) (leg pos : bool) (i : nat) m (n : name) (o : bool)
    (x : nat) k :
  pc (procs w q) = PNone -> dir w = true -> dropf w = false -> meta w = Some i ->
  fdata w i = enc_obj pos m -> map_ok m -> flock w i = None ->
  afind m n = Some k -> bound w n o = Some x ->
  (if leg then o = true else o = true -> bound w n false = None) ->
  exists w', run w [AStart q leg pos; ANext q; ANext q; ANext q; ANext q; ANext q;
                    ANext q; ANext q; AAttach q n]
    = Some (w', [EStart q; ELooked q false; ERead q; ELocked q; ERunning q leg;
                 EAttached q n (objv w x)]).
Proof.
  intros P D Dr M F Mok Fl Nm B Old.
  destruct (enc_obj pos m) as [|b0 d0] eqn:EE; [unfold enc_obj in EE; discriminate EE|].
  rewrite <- EE in F.
  assert (DE : dec_obj (enc_obj pos m) = Some (shmVal pos, m)) by (apply dec_enc, Mok).
  set (q1 := mkProc PStatDir leg pos false [] [] 0 0).
  set (w1 := w_proc w q q1).
  assert (S1 : step w (AStart q leg pos) = Some (w1, [EStart q])).
  { unfold step. rewrite P. reflexivity. }
  set (w2 := w_proc w1 q (set_pc PStatDrop q1)).
  assert (S2 : step w1 (ANext q) = Some (w2, [])).
  { unfold step, w1. wsimp. rewrite updN_same. unfold q1 at 1. wsimp. rewrite D. reflexivity. }
  set (q3 := set_pc PStatMeta (set_drop false q1)).
  set (w3 := w_proc w2 q q3).
  assert (S3 : step w2 (ANext q) = Some (w3, [ELooked q false])).
  { unfold step, w2. wsimp. rewrite updN_same. unfold w1. wsimp. rewrite Dr. reflexivity. }
  set (w4 := w_proc w3 q (set_pc PRead q3)).
  assert (S4 : step w3 (ANext q) = Some (w4, [])).
  { unfold step, w3. wsimp. rewrite updN_same. unfold q3 at 1. wsimp.
    unfold w2, w1. wsimp. rewrite M. reflexivity. }
  set (q5 := set_pc PLock (set_names m q3)).
  set (w5 := w_proc w4 q q5).
  assert (S5 : step w4 (ANext q) = Some (w5, [ERead q])).
  { unfold step, w4. wsimp. rewrite updN_same. unfold set_pc at 1. wsimp.
    unfold w3, w2, w1. wsimp. rewrite M, F, EE, <- EE, DE.
    unfold q3. wsimp. unfold q1. wsimp. rewrite xorb_shmVal. reflexivity. }
  set (q6 := set_pc PTrunc (set_lockIno i q5)).
  set (w6 := w_proc (w_flock w5 (updN (flock w5) i (Some q))) q q6).
  assert (S6 : step w5 (ANext q) = Some (w6, [ELocked q])).
  { unfold step, w5. wsimp. rewrite updN_same. unfold q5 at 1. wsimp.
    unfold tryLock. wsimp. unfold w4, w3, w2, w1. wsimp. rewrite M, Fl. reflexivity. }
  set (q7 := set_pc (PExit true) (set_strIno i q6)).
  set (w7 := w_proc (w_fdata w6 (updN (fdata w6) i [])) q q7).
  assert (S7 : step w6 (ANext q) = Some (w7, [])).
  { unfold step, w6. wsimp. rewrite updN_same. unfold q6 at 1. wsimp.
    unfold openTrunc. wsimp. unfold w5, w4, w3, w2, w1. wsimp. rewrite M. reflexivity. }
  set (q8 := set_pc PRun q7).
  set (w8 := w_proc w7 q q8).
  assert (S8 : step w7 (ANext q) = Some (w8, [ERunning q leg])).
  { unfold step, w7. wsimp. rewrite updN_same. unfold q7 at 1. wsimp. reflexivity. }
  assert (S9 : exists w9, step w8 (AAttach q n) = Some (w9, [EAttached q n (objv w x)])).
  { assert (L1 : legacy q8 = leg) by reflexivity. assert (L2 : segs q8 = []) by reflexivity.
    assert (L3 : names q8 = m) by reflexivity. assert (L4 : pc q8 = PRun) by reflexivity.
    unfold step, w8. wsimp. rewrite updN_same. rewrite L1, L2, L3, L4. cbn [afind].
    rewrite Nm. unfold w7, w6, w5, w4, w3, w2, w1. wsimp.
    destruct leg.
    - subst o. rewrite B. eauto.
    - destruct o; [rewrite (Old eq_refl), B | rewrite B]; eauto. }
  destruct S9 as [w9 S9]. exists w9.
  cbn [run]. rewrite S1. cbn [run]. rewrite S2, S3, S4, S5, S6, S7, S8, S9. reflexivity.
Qed.

Lemma restart_attaches acts w tr (p q : nat) (n : name) (o : bool) (x : nat) (leg : bool) :
  run world0 acts = Some (w, tr) -> meta_kept tr -> ~ In EDropMade tr ->
  pc (procs w p) = PRun -> pc (procs w q) = PNone ->
  afind (segs (procs w p)) n = Some (o, x) -> bound w n o = Some x ->
  (if leg then o = true else o = true -> bound w n false = None) ->
  exists w',
   run w ([AShut p; ANext p; ANext p; ANext p] ++
          [AStart q leg (posix (procs w p)); ANext q; ANext q; ANext q; ANext q; ANext q;
           ANext q; ANext q; AAttach q n])
    = Some (w', [ESaved p; EReleased p; EShut p kSuccess; EStart q; ELooked q false;
                 ERead q; ELocked q; ERunning q leg; EAttached q n (objv w x)]).
Proof.
  intros E HM HD P Q S B Old.
  assert (R : reach w tr) by (apply (run_reach acts world0 []); [constructor | exact E]).
  assert (Hpq : q <> p) by (intros ->; congruence).
  pose proof (finv_reach _ _ R) as FV.
  destruct (minv_reach _ _ R HM) as [m1 m2 m3 _].
  assert (M : meta w = Some (strIno (procs w p))) by (apply m3; rewrite P; reflexivity).
  destruct (linv_reach _ _ R HM) as [_ l2 l3].
  assert (I0 : strIno (procs w p) = 0) by (apply l2, M).
  assert (Fl : flock w 0 = Some p) by (apply l3; rewrite P; reflexivity).
  assert (Dr : dropf w = false).
  { rewrite (d_file _ _ (dinv_reach _ _ R)). apply dropb_never, HD. }
  destruct (sn_reach _ _ R p P n _ S) as [k Hk].
  destruct (attached_find _ _ _ _ S Hk) as [k' Hk'].
  set (qp := procs w p) in *.
  set (w1 := w_proc w p (set_pc PWrite qp)).
  assert (S1 : step w (AShut p) = Some (w1, [])).
  { unfold step. fold qp. cbv zeta. rewrite P, M. reflexivity. }
  set (w2 := w_proc (w_fdata w1 (updN (fdata w1) (strIno qp)
               (enc_obj (posix qp) (attached qp)))) p (set_pc (PUnlock kSuccess) (set_pc PWrite qp))).
  assert (S2 : step w1 (ANext p) = Some (w2, [ESaved p])).
  { unfold step, w1. wsimp. rewrite updN_same. unfold set_pc at 1. wsimp. reflexivity. }
  set (w3 := w_proc (unlockAll w2 p) p (set_pc (PRmUn kSuccess) qp)).
  assert (S3 : step w2 (ANext p) = Some (w3, [EReleased p])).
  { unfold step, w2. wsimp. rewrite updN_same. unfold set_pc at 1. wsimp. reflexivity. }
  set (w4 := w_proc (w_bound w3 (unlinkAll (bound w3) (legacy qp) (unattached qp))) p
               (set_pc PDead qp)).
  assert (S4 : step w3 (ANext p) = Some (w4, [EShut p kSuccess])).
  { unfold step, w3. wsimp. rewrite updN_same. unfold set_pc at 1. wsimp. reflexivity. }
  destruct (solo_start w4 q leg (posix qp) 0 (attached qp) n o x k') as [w' Rn].
  - unfold w4, w3, w2, w1. wsimp. rewrite !updN_other by exact Hpq. exact Q.
  - unfold w4, w3, w2, w1. wsimp. eapply m1, M.
  - exact Dr.
  - unfold w4, w3, w2, w1. wsimp. rewrite M, I0. reflexivity.
  - unfold w4, w3, w2, w1. wsimp. rewrite I0, updN_same. reflexivity.
  - apply map_ok_filter, (fv_names _ FV).
  - unfold w4, w3, w2, w1. wsimp. rewrite Fl, Nat.eqb_refl. reflexivity.
  - exact Hk'.
  - unfold w4, w3, w2, w1. wsimp.
    rewrite unlinkAll_other by (eapply unattached_not, S). exact B.
  - unfold w4, w3, w2, w1. wsimp. destruct leg; [exact Old|]. intros Ho.
    rewrite unlinkAll_other by (eapply unattached_not, S). auto.
  - exists w'. cbn [app]. remember [AStart q leg (posix qp); ANext q; ANext q; ANext q; ANext q;
      ANext q; ANext q; ANext q; AAttach q n] as acts2.
    cbn [run]. rewrite S1, S2, S3, S4, Rn. reflexivity.
Qed.

Lemma deleted_reported acts w tr p :
  run world0 acts = Some (w, tr) -> pc (procs w p) = PRun -> meta w = None ->
  exists w', run w [AShut p; ANext p; ANext p] = Some (w', [EReleased p; EShut p kFileDeleted]).
Proof.
  intros _ P M. set (qp := procs w p) in *.
  set (q1 := set_pc (PUnlock kFileDeleted) (set_names [] qp)).
  set (w1 := w_proc (w_bound w (unlinkAll (bound w) (legacy qp) (names qp))) p q1).
  assert (S1 : step w (AShut p) = Some (w1, [])).
  { unfold step. fold qp. cbv zeta. rewrite P, M. reflexivity. }
  assert (S2 : exists w2, step w1 (ANext p) = Some (w2, [EReleased p]) /\ pc (procs w2 p) = PRmUn kFileDeleted).
  { unfold step, w1. wsimp. rewrite updN_same. unfold q1, set_pc at 1. wsimp. eexists. split; [reflexivity|]. wsimp. rewrite updN_same. reflexivity. }
  destruct S2 as (w2 & S2 & P2).
  assert (S3 : exists w3, step w2 (ANext p) = Some (w3, [EShut p kFileDeleted])).
  { unfold step. cbv zeta. rewrite P2. eexists. reflexivity. }
  destruct S3 as (w3 & S3). exists w3. cbn [run]. rewrite S1, S2, S3. reflexivity.
Qed.
