(** * Lifetime: thread steps on the index, on references, allocation, moving. *)
From Coq Require Import List Arith Bool Lia.
Import ListNotations.
From Verif Require Import Lifetime_model Lifetime_proofs Lifetime_proofs2.

Ltac ixr := repeat first
  [ rewrite ixv_none_same in * | rewrite ixv_some_same in *
  | erewrite ixv_none by (first [eassumption|congruence])
  | erewrite ixv_some_none by (first [eassumption|congruence])
  | erewrite ixv_some_some by (first [eassumption|congruence])
  | erewrite ixv_some_old by (first [eassumption|congruence]) ].
Ltac ja1 s Hi HN t' b :=
  let a := fresh "a" in start1 s Hi HN t' a;
  destruct (id_dec b a); [subst|]; upd; ixr; rwf; cbs; [arith | oth].
Ltac ja2 s Hi HN t' b1 b2 :=
  let a := fresh "a" in start1 s Hi HN t' a;
  destruct (id_dec b1 a); [|destruct (id_dec b2 a)]; try subst; upd; ixr; rwf; cbs;
  [arith | arith | oth].
Ltac jrest s Hi :=
  first [ apply (updk_key s _ _ Hi); let b := fresh in let E := fresh in intros b E;
          first [discriminate | injection E as <-; first [reflexivity | assumption]]
        | rest s Hi ].

Section S.
  Variable maxRef : nat.
  Variables (s : state) (i : nat).
  Hypothesis Hi : Inv s.

  Ltac go0 HN := match goal with |- Inv (set_t ?s1 i ?t') =>
    apply (mk_inv s i _ s1 t' Hi HN); [reflexivity | ia0 s Hi HN t' | rest s Hi ..] end.
  Ltac go1 HN b := match goal with |- Inv (set_t ?s1 i ?t') =>
    apply (mk_inv s i _ s1 t' Hi HN); [reflexivity | ja1 s Hi HN t' b | jrest s Hi ..] end.
  Ltac go2 HN b1 b2 := match goal with |- Inv (set_t ?s1 i ?t') =>
    apply (mk_inv s i _ s1 t' Hi HN); [reflexivity | ja2 s Hi HN t' b1 b2 | jrest s Hi ..] end.
  Ltac mmr a := unfold mmRemove; destruct (lnk (it s a)) eqn:?.
  Ltac acr a := rewrite (acRemove_eq s a Hi); destruct (acc (it s a)) eqn:Ea;
    [pose proof (proj1 (acc_idx s a Hi) Ea) as Ei|].

  Lemma moving_mk o : exc (it s o) = true -> 1 <= ref (it s o) -> 1 <= Mk s (ikey o).
  Proof.
    intros Ee Er. pose proof (mov_mk s o). pose proof (proj2 (own_facts s o Hi)) as Ho.
    rewrite Ee in Ho. unfold OF in Ho. dconj. cbn [b2n] in *.
    match goal with H : 1 = 1 -> 1 <= ref _ -> _ |- _ => specialize (H eq_refl Er) end. lia.
  Qed.

  Lemma holds_neq o n : 1 <= Sq lmov s o -> 1 <= Sn s n + Sf s n -> o <> n.
  Proof.
    intros A B ->. pose proof (proj2 (own_facts s n Hi)) as Ho. unfold OF in Ho.
    gen. dconj. chain. lia.
  Qed.
  Lemma mov_at t o : nth_error (thr s) i = Some t -> 1 <= cnt (lmov t) o -> 1 <= Sq lmov s o.
  Proof. intros H A. pose proof (sm_ge (fun t => cnt (lmov t) o) _ _ _ H). unfold Sq. lia. Qed.
  Lemma hold_at t n : nth_error (thr s) i = Some t -> 1 <= cn (thdls t) n + cf (thdls t) n -> 1 <= Sn s n + Sf s n.
  Proof.
    intros H A. pose proof (sm_ge (fun t => cn (thdls t) n) _ _ _ H).
    pose proof (sm_ge (fun t => cf (thdls t) n) _ _ _ H). unfold Sn, Sf. lia.
  Qed.
  Lemma on_neq t o n : nth_error (thr s) i = Some t -> 1 <= cnt (lmov t) o ->
    1 <= cn (thdls t) n + cf (thdls t) n -> o <> n.
  Proof. intros. apply holds_neq; [eapply mov_at|eapply hold_at]; eauto. Qed.
  Ltac neqs HN o n := assert (o <> n) by (apply (on_neq _ o n HN); cbn; rewrite ideq_refl; cbn; lia).
  Lemma pend_acc t a : nth_error (thr s) i = Some t -> 1 <= cnt (lpend t) a -> acc (it s a) = false.
  Proof.
    intros H A. pose proof (sm_ge (fun t => cnt (lpend t) a) _ _ _ H).
    pose proof (proj2 (own_facts s a Hi)) as Ho. unfold OF, Sq in *.
    assert (1 <= sm (fun t => cnt (lpend t) a) (thr s)) as B by lia.
    destruct (acc (it s a)); auto. dconj. cbn [b2n] in *.
    match goal with H : 1 <= sm (fun t => cnt (lpend t) a) _ -> _ |- _ => specialize (H B) end. discriminate.
  Qed.

  Lemma r_EvAC k a : nth_error (thr s) i = Some (EvAC k a) -> 
    Inv (set_t (acRemove s a) i (EvMM k a)).
  Proof. intros HN. acr a; go1 HN a. Qed.

  Lemma r_SEvAC a : nth_error (thr s) i = Some (SEvAC a) -> 
    Inv (set_t (acRemove s a) i (SEvMM a)).
  Proof. intros HN. acr a; go1 HN a. Qed.

  Lemma r_RmAC h w : nth_error (thr s) i = Some (RmAC h w) -> 
    Inv (set_t (acRemove s (fst h)) i (RmMM h w)).
  Proof. intros HN. destruct h as [b nas]. cbn [fst]. acr b; go1 HN b. Qed.

  Lemma r_XAC h : nth_error (thr s) i = Some (XAC h) -> acc (it s (fst h)) = true -> 
    Inv (set_t (acRemove (set_it s (fst h) (w_ref (it s (fst h)) (S (ref (it s (fst h)))))) (fst h)) i (XMM h (fst h, false))).
  Proof. intros HN. destruct h as [b nas]. cbn [fst]. intros Ea. pose proof (proj1 (acc_idx s b Hi) Ea) as Ei. unfold acRemove. cbn [it set_it idx]. rewrite updf_same. cbn [acc w_ref]. rewrite Ea, Ei, ideq_refl. go1 HN b. Qed.

  Lemma r_InAC h : nth_error (thr s) i = Some (InAC h) -> idx s (ikey (fst h)) = None ->
    Inv (back (ev (set_idx (set_it s (fst h) (w_acc (it s (fst h)) true)) (ikey (fst h)) (Some (fst h))) (EIns (fst h))) i (fst h, false)).
  Proof. intros HN. destruct h as [b nas]. cbn [fst]. intros Ei. unfold back. destruct (was (it s b)) eqn:?; go1 HN b. Qed.

  Lemma r_OrAC0 h : nth_error (thr s) i = Some (OrAC h) -> idx s (ikey (fst h)) = None ->
    Inv (back (ev (set_idx (set_it s (fst h) (w_acc (it s (fst h)) true)) (ikey (fst h)) (Some (fst h))) (EIns (fst h))) i (fst h, false)).
  Proof. intros HN. destruct h as [b nas]. cbn [fst]. intros Ei. unfold back. destruct (was (it s b)) eqn:?; go1 HN b. Qed.

  Lemma r_OrACe h o : nth_error (thr s) i = Some (OrAC h) -> idx s (ikey (fst h)) = Some o -> exc (it s o) = true -> ref (it s o) = 0 -> 
    Inv (back (let s1 := set_idx (set_it (s) (fst h) (w_acc (it (s) (fst h)) true)) (ikey (fst h)) (Some (fst h)) in ev (set_it s1 o (w_acc (it s1 o) false)) (EIns (fst h))) i (fst h, false)).
  Proof. intros HN. destruct h as [b nas]. cbn [fst]. intros Ei Ec Er. cbv zeta.
    assert (b <> o) as Nb by (intros ->; apply (acc_idx s o Hi) in Ei; rewrite (pend_acc _ o HN) in Ei; [discriminate|cbn; rewrite ideq_refl; cbn; lia]).
    pose proof (iK s Hi _ _ Ei) as Ek.
    assert (acc (it s o) = true) as Ea by (apply (acc_idx s o Hi); rewrite Ek; exact Ei).
    cbn [it set_it set_idx]. rewrite ?(updf_other _ b _ o) by congruence. rewrite ?(updf_other _ o _ b) by congruence. unfold back. destruct (was (it s b)) eqn:?; go2 HN b o. Qed.

  Lemma r_OrACm h o : nth_error (thr s) i = Some (OrAC h) -> idx s (ikey (fst h)) = Some o -> exc (it s o) = true -> 1 <= ref (it s o) -> 
    Inv (set_t (let s1 := set_idx (set_it (s) (fst h) (w_acc (it (s) (fst h)) true)) (ikey (fst h)) (Some (fst h)) in ev (set_it s1 o (w_acc (it s1 o) false)) (EIns (fst h))) i (OrWait (fst h, false) (ikey (fst h)))).
  Proof. intros HN. destruct h as [b nas]. cbn [fst]. intros Ei Ec Er. cbv zeta.
    assert (b <> o) as Nb by (intros ->; apply (acc_idx s o Hi) in Ei; rewrite (pend_acc _ o HN) in Ei; [discriminate|cbn; rewrite ideq_refl; cbn; lia]).
    pose proof (iK s Hi _ _ Ei) as Ek.
    assert (acc (it s o) = true) as Ea by (apply (acc_idx s o Hi); rewrite Ek; exact Ei).
    cbn [it set_it set_idx]. rewrite ?(updf_other _ b _ o) by congruence. rewrite ?(updf_other _ o _ b) by congruence. destruct (was (it s b)) eqn:?; go2 HN b o; intros k; cbn [waitk fst]; destruct (ikey b =? k) eqn:E; cbn [b2n]; try lia; intros _; apply Nat.eqb_eq in E; rewrite <- E, <- Ek; apply moving_mk; auto. Qed.

  Lemma r_OrACo h o : nth_error (thr s) i = Some (OrAC h) -> idx s (ikey (fst h)) = Some o -> exc (it s o) = false -> True -> 
    Inv (set_t (let s1 := set_idx (set_it (set_it s o (w_ref (it s o) (S (ref (it s o))))) (fst h) (w_acc (it (set_it s o (w_ref (it s o) (S (ref (it s o))))) (fst h)) true)) (ikey (fst h)) (Some (fst h)) in ev (set_it s1 o (w_acc (it s1 o) false)) (EIns (fst h))) i (OrRm (fst h, false) (o, false))).
  Proof. intros HN. destruct h as [b nas]. cbn [fst]. intros Ei Ec Er. cbv zeta. clear Er.
    assert (b <> o) as Nb by (intros ->; apply (acc_idx s o Hi) in Ei; rewrite (pend_acc _ o HN) in Ei; [discriminate|cbn; rewrite ideq_refl; cbn; lia]).
    pose proof (iK s Hi _ _ Ei) as Ek.
    assert (acc (it s o) = true) as Ea by (apply (acc_idx s o Hi); rewrite Ek; exact Ei).
    cbn [it set_it set_idx]. rewrite ?(updf_other _ b _ o) by congruence. rewrite ?(updf_other _ o _ b) by congruence. rewrite ?updf_same. destruct (was (it s b)) eqn:?; go2 HN b o. Qed.

  Lemma r_FWait w k o : nth_error (thr s) i = Some (FFind w k) -> idx s k = Some o -> exc (it s o) = true -> 1 <= ref (it s o) -> 
    Inv (set_t s i (FWait w k)).
  Proof. intros HN. intros Ei Ee Er. go0 HN. intros k'. cbn [waitk]. destruct (k =? k') eqn:E; cbn [b2n]; [|lia].
    intros _. apply Nat.eqb_eq in E. subst k'. rewrite <- (iK s Hi _ _ Ei). apply moving_mk; auto. Qed.

  Lemma r_RDec h n : nth_error (thr s) i = Some (RDec h n) -> 
    Inv (let s1 := decRef s (fst h) in if drained (it s1 (fst h)) then set_t s1 i (RRel (fst h) (snd h) n) else set_t s1 i (goNext n)).
  Proof. intros HN. destruct h as [b nas]. cbn [fst snd]. cbv zeta. unfold decRef.
    pose proof (proj2 (own_facts s b Hi)) as Ho.
    pose proof (hold_at _ b HN) as Hh. cbn in Hh. rewrite ideq_refl in Hh. pose proof (nasn nas).
    assert (1 <= ref (it s b)) as Er by (unfold OF in Ho; gen; dconj; chain; lia). clear Hh Ho.
    destruct (ref (it s b) =? 0) eqn:E0; [apply Nat.eqb_eq in E0; lia|]. clear E0.
    cbn [it set_it]. rewrite updf_same.
    destruct (drained (w_ref (it s b) (ref (it s b) - 1))) eqn:Ed.
    - apply drained_true in Ed. cbn in Ed. destruct Ed as [E1 [E2 [E3 E4]]].
      destruct nas; destruct n as [|o|o]; try (destruct (id_dec b o) as [->|]); first [go2 HN b o|go1 HN o|go1 HN b].
    - apply drained_false in Ed. cbn in Ed.
      destruct n as [|o|o]; cbn [goNext]; try (destruct (id_dec b o) as [->|]); first [go2 HN b o|go1 HN o|go1 HN b].
 Qed.

  Lemma r_SMM1 old n : nth_error (thr s) i = Some (SMM old n) -> lnk (it s n) = false ->
    Inv (set_t (mmAdd s n) i (SRep old n)).
  Proof. intros HN. intros El. neqs HN old n. pose proof (iT s Hi _ _ HN) as T. cbn [wft] in T. go2 HN old n. Qed.

  Lemma r_SMM2 old n : nth_error (thr s) i = Some (SMM old n) -> 
    Inv (set_t s i (RDec (n, true) (NEv old))).
  Proof. intros HN. neqs HN old n. go2 HN old n. Qed.

  Lemma r_SRm old n : nth_error (thr s) i = Some (SRm old n) -> 
    Inv (set_t (mmRemove s n) i (RDec (n, true) (NEv old))).
  Proof. intros HN. neqs HN old n. mmr n; go2 HN old n. Qed.

  Lemma r_SOld old n : nth_error (thr s) i = Some (SOld old n) -> 
    Inv (set_t (mmRemove s old) i (SUnm old n)).
  Proof. intros HN. neqs HN old n. pose proof (iT s Hi _ _ HN) as T. cbn [wft] in T. mmr old; go2 HN old n. Qed.

  Lemma r_SUnm old n : nth_error (thr s) i = Some (SUnm old n) -> 
    Inv (set_t (set_it s old (w_exc (w_ref (it s old) (ref (it s old) - 1)) false)) i (SWake old n)).
  Proof. intros HN. neqs HN old n. pose proof (iT s Hi _ _ HN) as T. cbn [wft] in T. go2 HN old n. Qed.

  Lemma r_SRepF old n : nth_error (thr s) i = Some (SRep old n) -> 
    Inv (set_t s i (SRm old n)).
  Proof. intros HN. neqs HN old n. pose proof (iT s Hi _ _ HN) as T. cbn [wft] in T. go2 HN old n. Qed.

  Lemma r_SRep old n : nth_error (thr s) i = Some (SRep old n) -> acc (it s old) = true ->
    Inv (set_t (ev (set_idx (set_it (set_it s old (w_acc (it s old) false)) n (w_acc (it s n) true)) (ikey n) (Some n)) (EMoved old n)) i (SOld old n)).
  Proof. intros HN. intros Ea. neqs HN old n. pose proof (iT s Hi _ _ HN) as T. cbn [wft] in T.
    pose proof (pend_acc _ n HN) as En. cbn in En. rewrite ideq_refl in En. specialize (En (le_n _)).
    pose proof (proj1 (acc_idx s old Hi) Ea) as Ei. rewrite <- T in Ei. go2 HN n old. Qed.

End S.
