(** * Lifetime: the invariant is inductive. *)
From Coq Require Import List Arith Bool Lia.
Import ListNotations.
From Verif Require Import Lifetime_model Lifetime_proofs Lifetime_proofs2 Lifetime_proofs3 Lifetime_proofs3b Lifetime_proofs3c Lifetime_proofs3d Lifetime_proofs4 Lifetime_proofs5 Lifetime_proofs6.

(** ** What a thread touches is alive. *)
Definition owns (t : tst) (a : id) : nat :=
  cn (thdls t) a + cf (thdls t) a + cnt (lmov t) a + cnt (lxo t) a + cnt (ldown t) a.

Lemma touch_owns t a : In a (touch t) -> 1 <= owns t a.
Proof.
  unfold owns.
  destruct t; try (destruct c); try (destruct n);
  repeat match goal with h : hdl |- _ => destruct h as [? []] end; cbn;
  intros H; repeat (destruct H as [<-|H]); try contradiction;
  rewrite ?ideq_refl; cbn [b2n negb]; lia.
Qed.

Lemma owns_alive s i t a : Inv s -> nth_error (thr s) i = Some t -> 1 <= owns t a -> alive (it s a) = true.
Proof.
  intros Hi HN H. unfold owns in H. pose proof (proj2 (own_facts s a Hi)) as Ho.
  pose proof (sm_ge (fun t => cnt (lmov t) a) _ _ _ HN).
  pose proof (sm_ge (fun t => cnt (lxo t) a) _ _ _ HN).
  pose proof (sm_ge (fun t => cnt (ldown t) a) _ _ _ HN).
  pose proof (sm_ge (fun t => cn (thdls t) a) _ _ _ HN).
  pose proof (sm_ge (fun t => cf (thdls t) a) _ _ _ HN). cbn beta in *.
  unfold OF, Sn, Sf, Sq in Ho. destruct Ho as (O1&O2&O3&_).
  assert (b2n (alive (it s a)) = 1) as E.
  { assert (1 <= cn (hs s) a + cf (hs s) a + sm (fun t => cn (thdls t) a) (thr s) + sm (fun t => cf (thdls t) a) (thr s)
       \/ 1 <= sm (fun t => cnt (lmov t) a) (thr s) + sm (fun t => cnt (lxo t) a) (thr s)
       \/ 1 <= sm (fun t => cnt (ldown t) a) (thr s)) as [D|[D|D]] by (clear O1 O2 O3; lia).
    - destruct (O1 D) as (_&_&D1&_). exact D1.
    - destruct (O2 D) as (D1&_). exact D1.
    - destruct (O3 D) as (D1&_). exact D1. }
  destruct (alive (it s a)); [reflexivity|discriminate E].
Qed.

Lemma acc_alive s a : Inv s -> acc (it s a) = true -> alive (it s a) = true.
Proof.
  intros Hi Ha. pose proof (proj2 (own_facts s a Hi)) as Ho. unfold OF in Ho.
  destruct Ho as (_&_&_&_&_&O&_). rewrite Ha in O. destruct (O eq_refl) as [O1 _].
  destruct (alive (it s a)); [reflexivity|discriminate O1].
Qed.
Lemma lnk_alive s a : Inv s -> lnk (it s a) = true -> alive (it s a) = true.
Proof.
  intros Hi Ha. pose proof (proj2 (own_facts s a Hi)) as Ho. unfold OF in Ho.
  destruct Ho as (_&_&_&_&O&_). rewrite Ha in O. destruct (O eq_refl) as [O1 _].
  destruct (alive (it s a)); [reflexivity|discriminate O1].
Qed.
Lemma idx_acc s k b : Inv s -> idx s k = Some b -> acc (it s b) = true.
Proof. intros Hi H. apply (acc_idx s b Hi). rewrite (iK s Hi _ _ H). exact H. Qed.
Lemma hs_hold s h : In h (hs s) -> 1 <= cn (hs s) (fst h) + cf (hs s) (fst h).
Proof.
  destruct h as [a b]. cbn [fst]. induction (hs s) as [|[c d] l IH]; intros []; cbn [cn cf].
  - injection H as -> ->. rewrite ideq_refl. destruct b; cbn; lia.
  - specialize (IH H). lia.
Qed.
Lemma hold_facts s a : Inv s -> 1 <= cn (hs s) a + cf (hs s) a + Sn s a + Sf s a ->
  alive (it s a) = true /\ exc (it s a) = false /\ 1 <= ref (it s a).
Proof.
  intros Hi H. pose proof (proj2 (own_facts s a Hi)) as Ho. unfold OF in Ho.
  destruct Ho as (O&_). destruct (O H) as (A&B&C&_).
  destruct (alive (it s a)); [|discriminate C]. destruct (exc (it s a)); [discriminate B|]. auto.
Qed.

Lemma touch_alive s i t a : Inv s -> nth_error (thr s) i = Some t ->
  In a (touch t ++ touchIdx s t) -> alive (it s a) = true.
Proof.
  intros Hi HN H. apply in_app_or in H. destruct H as [H|H].
  - eapply owns_alive; eauto. apply touch_owns; auto.
  - assert (exists k, idx s k = Some a) as [k K].
    { destruct t; cbn [touchIdx] in H; try contradiction;
      match goal with H : In _ (match idx s ?k with _ => _ end) |- _ => destruct (idx s k) eqn:E end;
      try contradiction; destruct H as [<-|[]]; eauto. }
    eapply acc_alive; eauto. eapply idx_acc; eauto.
Qed.
Lemma no_uaf s i t : Inv s -> nth_error (thr s) i = Some t ->
  find (fun a => negb (alive (it s a))) (touch t ++ touchIdx s t) = None.
Proof.
  intros Hi HN. destruct (find _ _) as [a|] eqn:E; auto.
  apply find_some in E. destruct E as [A B]. rewrite (touch_alive s i t a Hi HN A) in B. discriminate.
Qed.

Lemma down_drained s i t a : Inv s -> nth_error (thr s) i = Some t -> 1 <= cnt (ldown t) a -> drained (it s a) = true.
Proof.
  intros Hi HN H. pose proof (proj2 (own_facts s a Hi)) as Ho.
  pose proof (sm_ge (fun t => cnt (ldown t) a) _ _ _ HN). cbn beta in *.
  unfold OF, Sn, Sf, Sq in Ho. destruct Ho as (_&_&O3&_). destruct O3 as (_&A&B&C&D); [lia|].
  apply drained_intro; auto.
Qed.

Lemma hold_of s i t a : nth_error (thr s) i = Some t -> 1 <= cn (thdls t) a + cf (thdls t) a ->
  1 <= cn (hs s) a + cf (hs s) a + Sn s a + Sf s a.
Proof. intros HN H. pose proof (hold_at s i _ _ HN H). lia. Qed.

Lemma smm_unlinked s i old n : Inv s -> nth_error (thr s) i = Some (SMM old n) -> lnk (it s n) = false.
Proof.
  intros Hi HN. destruct (lnk (it s n)) eqn:E; auto. exfalso.
  pose proof (iA s Hi n) as Ha. pose proof (proj2 (own_facts s n Hi)) as Ho. rewrite E in *.
  pose proof (tw_s (set_t s i TIdle) n) as Ht.
  unfold IA, P in Ha. destruct Ha as (_&_&_&_&_&_&_&Ha&_). unfold OF in Ho.
  destruct Ho as (_&_&_&_&_&_&_&_&O9&_&O11&O12&_).
  unfold TW in Ht. destruct Ht as (Ht&_). unfold Sn, Sf, Sq in *. cbn [set_t thr] in Ht.
  pose proof (sm_updl (fun t => cn (thdls t) n) _ _ _ TIdle HN) as A.
  pose proof (sm_updl (fun t => cf (thdls t) n) _ _ _ TIdle HN) as B.
  pose proof (sm_updl (fun t => cnt (lresp t) n) _ _ _ TIdle HN) as C.
  cbn in A, B, C. rewrite ideq_refl in *. cbn [b2n negb] in *.
  assert (b2n (was (it s n)) = 0) as W by (apply O12; clear - A; lia).
  specialize (O9 W eq_refl). specialize (O11 W). clear O12. lia.
Qed.

Lemma updl_same l i t : nth_error l i = Some t -> updl l i t = l.
Proof. revert i. induction l as [|x l IH]; intros [|i] H; cbn in *; try discriminate; [congruence|f_equal; auto]. Qed.
Lemma set_t_same s i t : nth_error (thr s) i = Some t -> set_t s i t = s.
Proof. intros H. unfold set_t. rewrite (updl_same _ _ _ H). destruct s; reflexivity. Qed.

(** ** Thread steps. *)
Section R.
  Variable maxRef : nat.

  Lemma incRef_ok x : incRef maxRef x = IncOk -> exc x = false.
  Proof. unfold incRef. destruct (ref x =? maxRef); [discriminate|]. destruct (exc x); auto. destruct (ref x =? 0); discriminate. Qed.
  Lemma incRef_ev x : incRef maxRef x = IncEvicting -> exc x = true /\ ref x = 0.
  Proof.
    unfold incRef. destruct (ref x =? maxRef); [discriminate|]. destruct (exc x); [|discriminate].
    destruct (ref x =? 0) eqn:E; [|discriminate]. apply Nat.eqb_eq in E. auto.
  Qed.
  Lemma incRef_mv x : incRef maxRef x = IncMoving -> exc x = true /\ 1 <= ref x.
  Proof.
    unfold incRef. destruct (ref x =? maxRef); [discriminate|]. destruct (exc x); [|discriminate].
    destruct (ref x =? 0) eqn:E; [discriminate|]. apply Nat.eqb_neq in E. split; auto. lia.
  Qed.

  Lemma run_inv s i t c s' : Inv s -> nth_error (thr s) i = Some t -> run maxRef s i t c = Some s' -> Inv s'.
  Proof.
    intros Hi HN H.
    assert (forall a, 1 <= cnt (ldown t) a -> drained (it s a) = true) as DD by (intros a; apply (down_drained s i t a Hi HN)).
    destruct t; cbn [run] in H; try discriminate.
    - (* AStart *)
      destruct c.
      + injection H as <-. apply r_AStartA; auto.
      + injection H as <-. apply r_AStartB; auto.
      + destruct (mm s a) eqn:M; [|discriminate]. rewrite (proj1 (own_facts s a Hi)) in M.
        rewrite (lnk_alive s a Hi M), M in H. cbn [negb andb] in H.
        destruct (exc (it s a)) eqn:E; cbn [negb andb] in H; [injection H as <-; auto|].
        destruct (ref (it s a) =? 0) eqn:R; [|injection H as <-; auto]. apply Nat.eqb_eq in R.
        injection H as <-. apply r_AStartP; auto.
    - (* ANew *)
      destruct c0; injection H as <-; [exact (r_ANew1 s i Hi k HN) | exact (r_ANew2 s i Hi old HN)].
    - injection H as <-. apply r_EvAC; auto.
    - injection H as <-. apply r_EvMM; auto.
    - injection H as <-. apply r_EvUnm; auto.
    - rewrite DD in H by (cbn; rewrite ideq_refl; cbn; lia). injection H as <-. apply r_EvRel; auto.
    - injection H as <-. apply r_EvFree; auto.
    - (* FFind *)
      destruct (idx s k) as [a|] eqn:Ei; [|injection H as <-; eapply r_FMiss; eauto].
      pose proof (idx_acc s k a Hi Ei) as Ea.
      destruct (incRef maxRef (it s a)) eqn:En; injection H as <-.
      + eapply r_FOk; eauto. apply incRef_ok; auto.
      + eapply r_FMiss; eauto.
      + apply incRef_mv in En. destruct En. eapply r_FWait; eauto.
      + eapply r_FThrow; eauto.
    - destruct w; injection H as <-; [apply r_FGot1|apply r_FGot2]; auto.
    - destruct (acc (it s (fst h))) eqn:E; injection H as <-; [apply r_InChkT|apply r_InChk]; auto.
    - destruct (lnk (it s (fst h))) eqn:E; injection H as <-; [apply r_InMMT|apply r_InMM]; auto.
    - destruct (acc (it s (fst h))) eqn:E; injection H as <-; [apply r_InPreF|apply r_InPre]; auto.
    - cbv zeta in H. destruct (idx s (ikey (fst h))) eqn:E; injection H as <-; [apply r_InACF|apply r_InAC]; auto.
    - injection H as <-. apply r_InRm; auto.
    - destruct (acc (it s (fst h))) eqn:E; injection H as <-; [apply r_OrChkT|apply r_OrChk]; auto.
    - destruct (lnk (it s (fst h))) eqn:E; injection H as <-; [apply r_OrMMT|apply r_OrMM]; auto.
    - rewrite (pend_acc s i Hi _ (fst h) HN) in H by (cbn; rewrite ideq_refl; cbn; lia).
      injection H as <-. apply r_OrPre; auto.
    - cbv zeta in H. destruct (idx s (ikey (fst h))) as [o|] eqn:E; [|injection H as <-; apply r_OrAC0; auto].
      destruct (incRef maxRef (it s o)) eqn:En; injection H as <-.
      + exact (r_OrACo s i Hi h o HN E (incRef_ok _ En) I).
      + apply incRef_ev in En. destruct En as [E1 E2]. exact (r_OrACe s i Hi h o HN E E1 E2).
      + apply incRef_mv in En. destruct En as [E1 E2]. exact (r_OrACm s i Hi h o HN E E1 E2).
      + apply r_OrACF; auto.
    - injection H as <-. apply r_OrRm; auto.
    - injection H as <-. apply r_OrFail; auto.
    - injection H as <-. apply r_RmAC; auto.
    - destruct w; injection H as <-; [apply r_RmMM1|apply r_RmMM2]; auto.
    - (* XAC *)
      assert (exc (it s (fst h)) = false) as Ex.
      { apply (hold_facts s (fst h) Hi). apply (hold_of s i _ _ HN). destruct h as [b []]; cbn; rewrite ideq_refl; cbn; lia. }
      destruct c; [|injection H as <-; apply r_XBack; auto..].
      destruct (acc (it s (fst h))) eqn:Ea; [|injection H as <-; apply r_XBack; auto].
      destruct (incRef maxRef (it s (fst h))) eqn:En; injection H as <-.
      + apply r_XAC; auto.
      + apply incRef_ev in En. destruct En as [E1 _]. congruence.
      + apply incRef_mv in En. destruct En as [E1 _]. congruence.
      + apply r_XThrow; auto.
    - injection H as <-. apply r_XMM; auto.
    - pose proof (r_RDec s i Hi h n HN) as G. cbv zeta in G, H.
      destruct (drained (it (decRef s (fst h)) (fst h))); injection H as <-; exact G.
    - rewrite DD in H by (cbn; rewrite ideq_refl; cbn; lia). injection H as <-. apply r_RRel; auto.
    - injection H as <-. apply r_RFree; auto.
    - destruct c; injection H as <-; [apply r_SGo1|apply r_SGo2|apply r_SGo2]; auto.
    - destruct c; [|injection H as <-; apply r_SMM2; auto..].
      pose proof (smm_unlinked s i old n Hi HN) as E. rewrite E in H. injection H as <-. apply r_SMM1; auto.
    - destruct (acc (it s old)) eqn:Ea; [|injection H as <-; apply r_SRepF; auto].
      pose proof (proj1 (acc_idx s old Hi) Ea) as Ei. pose proof (iT s Hi _ _ HN) as T. cbn [wft] in T.
      cbv zeta in H. rewrite <- T in Ei. rewrite Ei, ideq_refl in H. injection H as <-.
      assert (old <> n) as No by (apply (on_neq s i Hi _ old n HN); cbn; rewrite ideq_refl; cbn; lia).
      pose proof (r_SRep s i Hi old n HN Ea) as G. cbn [it set_it]. rewrite updf_other by auto. exact G.
    - injection H as <-. apply r_SRm; auto.
    - injection H as <-. apply r_SOld; auto.
    - injection H as <-. apply r_SUnm; auto.
    - destruct (wakeAll maxRef (ikey old) n (ref (it s n)) false (thr s)) as [l r] eqn:W.
      injection H as <-. eapply r_SWake; eauto.
    - injection H as <-. apply r_SFree; auto.
    - injection H as <-. apply r_SEv; auto.
    - injection H as <-. apply r_SEvAC; auto.
    - injection H as <-. apply r_SEvMM; auto.
    - injection H as <-. apply r_SEvUnm; auto.
    - injection H as <-. apply r_SEvWake; auto.
    - rewrite DD in H by (cbn; rewrite ideq_refl; cbn; lia). injection H as <-. apply r_SEvRel; auto.
    - injection H as <-. apply r_SEvFree; auto.
  Qed.
End R.

(** ** Calls. *)
Lemma take_spec l n h l' : take l n = Some (h, l') -> In h l /\
  forall a, cn l a = cn [h] a + cn l' a /\ cf l a = cf [h] a + cf l' a.
Proof.
  unfold take. destruct (nth_error l n) as [x|] eqn:E; [|discriminate].
  intros H. injection H as -> <-. split; [eapply nth_error_In; eauto|].
  revert n E. induction l as [|y l IH]; intros [|n] E a; cbn in E; try discriminate.
  - injection E as ->. cbn [firstn skipn app cn cf]. destruct h as [b nb]. lia.
  - specialize (IH _ E a). cbn [firstn skipn app cn cf] in *. destruct h, y. lia.
Qed.

Lemma not_inserting s a : existsb (fun t => inserting t a) (thr s) = false -> Sq lins s a = 0.
Proof.
  unfold Sq. induction (thr s) as [|t l IH]; cbn [existsb sm]; auto. intros H.
  apply orb_false_iff in H. destruct H as [A B]. rewrite IH by auto.
  destruct t; cbn in *; auto; rewrite A; reflexivity.
Qed.

Section C.
  Variables (s : state) (i : nat).
  Hypothesis Hi : Inv s.
  Hypothesis HN : nth_error (thr s) i = Some TIdle.

  Ltac take_tac b l t' TK :=
    apply (mk_inv s i _ (set_hs s l) t' Hi HN);
    [reflexivity| |rest s Hi ..];
    let a := fresh "a" in
    intros a; pose proof (TK a) as [TK1 TK2]; clear TK; revert a TK1 TK2;
    intros a TK1 TK2; pose proof (iA s Hi a) as Ha; pose proof (tw_s s a) as Ht; pose proof (proj2 (own_facts s a Hi)) as Ho;
    pose_sums HN t' a; clear Hi; nasfacts; unf; cbs;
    destruct (id_dec b a); [subst|]; upd; rwf; cbs; [arith | oth].

  Lemma c_release h l : (forall a, cn (hs s) a = cn [h] a + cn l a /\ cf (hs s) a = cf [h] a + cf l a) ->
    Inv (set_t (set_hs s l) i (RDec h NDone)).
  Proof. intros TK. destruct h as [b nb]; cbn [fst] in *. take_tac b l (RDec (b, nb) NDone) TK. Qed.
  Lemma c_remove h l : (forall a, cn (hs s) a = cn [h] a + cn l a /\ cf (hs s) a = cf [h] a + cf l a) ->
    Inv (set_t (set_hs s l) i (RmAC h RUser)).
  Proof. intros TK. destruct h as [b nb]; cbn [fst] in *. take_tac b l (RmAC (b, nb) RUser) TK. Qed.
  Lemma c_expire h l : (forall a, cn (hs s) a = cn [h] a + cn l a /\ cf (hs s) a = cf [h] a + cf l a) ->
    Inv (set_t (set_hs s l) i (XAC h)).
  Proof. intros TK. destruct h as [b nb]; cbn [fst] in *. take_tac b l (XAC (b, nb)) TK. Qed.
  Lemma c_insert h l : (forall a, cn (hs s) a = cn [h] a + cn l a /\ cf (hs s) a = cf [h] a + cf l a) ->
    Sq lins s (fst h) = 0 -> Inv (set_t (set_hs s l) i (InChk h)).
  Proof. intros TK NI. destruct h as [b nb]; cbn [fst] in *. take_tac b l (InChk (b, nb)) TK. Qed.
  Lemma c_ior h l : (forall a, cn (hs s) a = cn [h] a + cn l a /\ cf (hs s) a = cf [h] a + cf l a) ->
    Sq lins s (fst h) = 0 -> Inv (set_t (set_hs s l) i (OrChk h)).
  Proof. intros TK NI. destruct h as [b nb]; cbn [fst] in *. take_tac b l (OrChk (b, nb)) TK. Qed.
  Lemma c_plain t' : owns t' = owns TIdle -> t' = AStart (KUser (match t' with AStart (KUser k) => k | _ => 0 end)) \/
     (exists w k, t' = FFind w k) -> Inv (set_t s i t').
  Proof.
    intros _ [->|[w [k ->]]];
    match goal with |- Inv (set_t ?s1 i ?t') =>
      apply (mk_inv s i _ s1 t' Hi HN); [reflexivity | ia0 s Hi HN t' | rest s Hi ..] end.
  Qed.
  Lemma c_move a : lnk (it s a) = true -> exc (it s a) = false -> ref (it s a) = 0 ->
    Inv (set_t (set_it s a (w_exc (w_ref (it s a) 1) true)) i (SGo a)).
  Proof.
    intros El Ee Er.
    match goal with |- Inv (set_t ?s1 i ?t') =>
      apply (mk_inv s i _ s1 t' Hi HN); [reflexivity | ia1 s Hi HN t' a | rest s Hi ..] end.
  Qed.
  Lemma c_clone a : 1 <= cf (hs s) a ->
    Inv (set_t (put_h (set_it s a (w_ref (it s a) (S (ref (it s a))))) (a, false)) i TIdle).
  Proof.
    intros E.
    match goal with |- Inv (set_t ?s1 i ?t') =>
      apply (mk_inv s i _ s1 t' Hi HN); [reflexivity | ia1 s Hi HN t' a | rest s Hi ..] end.
  Qed.
  Lemma c_throw : Inv (set_t (ev s EThrow) i TIdle).
  Proof.
    match goal with |- Inv (set_t ?s1 i ?t') =>
      apply (mk_inv s i _ s1 t' Hi HN); [reflexivity | ia0 s Hi HN t' | rest s Hi ..] end.
  Qed.
End C.

Lemma cf_in l a : In (a, false) l -> 1 <= cf l a.
Proof.
  induction l as [|[c d] l IH]; intros []; cbn [cf].
  - injection H as -> ->. rewrite ideq_refl. cbn. lia.
  - specialize (IH H). lia.
Qed.

Lemma start_inv maxRef s i c s' : Inv s -> nth_error (thr s) i = Some TIdle ->
  start maxRef true s i c = Some s' -> Inv s'.
Proof.
  intros Hi HN H. destruct c; cbn [start andb] in H.
  - injection H as <-. apply c_plain; auto.
  - injection H as <-. apply c_plain; eauto.
  - injection H as <-. apply c_plain; eauto.
  - destruct (take (hs s) n) as [[h l]|] eqn:T; [|discriminate]. apply take_spec in T. destruct T as [_ T].
    destruct (existsb _ _) eqn:E; [discriminate|]. injection H as <-. apply c_insert; auto. apply not_inserting; auto.
  - destruct (take (hs s) n) as [[h l]|] eqn:T; [|discriminate]. apply take_spec in T. destruct T as [_ T].
    destruct (existsb _ _) eqn:E; [discriminate|]. injection H as <-. apply c_ior; auto. apply not_inserting; auto.
  - destruct (take (hs s) n) as [[h l]|] eqn:T; [|discriminate]. apply take_spec in T. destruct T as [_ T].
    injection H as <-. apply c_remove; auto.
  - destruct (take (hs s) n) as [[h l]|] eqn:T; [|discriminate]. apply take_spec in T. destruct T as [_ T].
    injection H as <-. apply c_expire; auto.
  - destruct (take (hs s) n) as [[h l]|] eqn:T; [|discriminate]. apply take_spec in T. destruct T as [_ T].
    injection H as <-. apply c_release; auto.
  - destruct (nth_error (hs s) n) as [h|] eqn:E; [|discriminate]. apply nth_error_In in E.
    destruct h as [a nb]. cbn [fst snd] in H. destruct nb; [discriminate|].
    pose proof (hs_hold s _ E) as Hh. cbn [fst] in Hh.
    destruct (hold_facts s a Hi) as (A&B&C); [lia|]. rewrite A in H. cbn [negb] in H.
    destruct (incRef maxRef (it s a)) eqn:En; injection H as <-.
    + rewrite <- (set_t_same _ i TIdle) by exact HN. apply c_clone; auto. apply cf_in; auto.
    + apply incRef_ev in En. destruct En as [E1 _]. congruence.
    + apply incRef_mv in En. destruct En as [E1 _]. congruence.
    + rewrite <- (set_t_same _ i TIdle) by exact HN. apply c_throw; auto.
  - destruct (alive (it s a) && lnk (it s a) && negb (exc (it s a)) && (ref (it s a) =? 0)) eqn:E; [|discriminate].
    rewrite !andb_true_iff, negb_true_iff, Nat.eqb_eq in E. destruct E as [[[E1 E2] E3] E4].
    injection H as <-. apply c_move; auto.
Qed.

Lemma step_inv maxRef s l s' : Inv s -> step maxRef true s l = Some s' -> Inv s'.
Proof.
  intros Hi H. destruct l as [i c|i c]; cbn [step] in H.
  - destruct (nth_error (thr s) i) as [t|] eqn:HN; [|discriminate]. destruct t; try discriminate.
    eapply start_inv; eauto.
  - destruct (nth_error (thr s) i) as [t|] eqn:HN; [|discriminate].
    rewrite (no_uaf s i t Hi HN) in H. eapply run_inv; eauto.
Qed.

Theorem reach_inv maxRef s : reach maxRef true s -> Inv s.
Proof. induction 1; [apply inv_init|eapply step_inv; eauto]. Qed.
