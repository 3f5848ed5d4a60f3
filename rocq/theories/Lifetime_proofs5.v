(** * Lifetime: allocation, wake-ups, calls; the invariant is inductive. *)
From Coq Require Import List Arith Bool Lia.
Import ListNotations.
From Verif Require Import Lifetime_model Lifetime_proofs Lifetime_proofs2 Lifetime_proofs3 Lifetime_proofs3b Lifetime_proofs3c Lifetime_proofs3d Lifetime_proofs4.

(** ** Allocation. *)
Lemma P_lt a1 a2 a3 a4 a5 a6 a7 a8 a9 a10 a11 a12 a13 a14 a15 a16 a17 a18 a19 a20 a21 a22 a23
  a24 a25 a26 a27 a28 a29 a30 lt lt' :
  P a1 a2 a3 a4 a5 a6 a7 a8 a9 a10 a11 a12 a13 a14 a15 a16 a17 a18 a19 a20 a21 a22 a23
  a24 a25 a26 a27 a28 a29 a30 lt -> lt <= lt' -> lt' <= 1 ->
  P a1 a2 a3 a4 a5 a6 a7 a8 a9 a10 a11 a12 a13 a14 a15 a16 a17 a18 a19 a20 a21 a22 a23
  a24 a25 a26 a27 a28 a29 a30 lt'.
Proof.
  unfold P. intros H A B. dconj.
  repeat match goal with |- _ /\ _ => split end; auto.
  intros C. match goal with H : lt = 0 -> _ |- _ => apply H end. clear - A C. lia.
Qed.

Lemma ltb_mono a n : b2n (a <? n) <= b2n (a <? S n) /\ b2n (a <? S n) <= 1.
Proof.
  destruct (a <? n) eqn:E, (a <? S n) eqn:F; cbn; auto.
  apply Nat.ltb_lt in E. apply Nat.ltb_ge in F. lia.
Qed.

Section S.
  Variables (s : state) (i : nat).
  Hypothesis Hi : Inv s.

  Definition fresh_item : item := mkItem true 1 false false false false false.
  Definition alloc_st (a : id) : state :=
    mkState (updf (it s) a fresh_item) (S (nexti s)) (idx s) (mm s) (hs s) (thr s) (EAlloc a :: tr s).

  Lemma fresh_zero k : let a := (k, nexti s) in
    IA s a -> alive (it s a) = false /\ was (it s a) = false /\ mvd (it s a) = false
      /\ ixv (idx s) a = 0 /\ mm s a = false.
  Proof.
    intros a Ha. pose proof (tw_s s a) as Ht. unfold IA, P in Ha. rewrite ixn_ixv in Ha.
    assert (b2n (snd a <? nexti s) = 0) as L by (unfold a; cbn [snd]; rewrite Nat.ltb_irrefl; reflexivity).
    rewrite L in Ha. clear L.
    clear Ht.
    destruct Ha as (A1&A2&A3&A4&A5&A6&A7&A8&A9&A10&A11&A12&Ad&A14&A15&A16&A17&Ac&Am&A20&A21&A22&A23&A24&A25&A26&A27&A28&A29&A30&A31&Av&A33&A34&A35&A36&Aw&Al).
    clear - Ad Ac Am Av Aw Al.
    destruct (Al eq_refl) as [E1 E2]. rewrite E1, E2 in *.
    specialize (Ad eq_refl). specialize (Aw eq_refl eq_refl). destruct Ad as (_&D1&D2&_).
    destruct (alive (it s a)); [discriminate E1|]. destruct (was (it s a)); [discriminate Aw|].
    destruct (mvd (it s a)); [discriminate (Av eq_refl)|].
    split; [reflexivity|]. split; [reflexivity|]. split; [reflexivity|].
    split; [rewrite <- Ac; exact D2|]. rewrite D1 in Am. destruct (mm s a); [discriminate Am|reflexivity].
  Qed.

  Lemma r_ANew1 k : nth_error (thr s) i = Some (ANew (KUser k)) ->
    Inv (back (alloc_st (k, nexti s)) i ((k, nexti s), true)).
  Proof.
    intros HN. unfold back. apply (mk_inv s i _ (put_h (alloc_st (k, nexti s)) ((k, nexti s), true)) TIdle Hi HN);
      [reflexivity| |rest s Hi..].
    pose proof (fresh_zero k (iA s Hi _)) as Z. cbv zeta in Z.
    remember (k, nexti s) as a eqn:Ea.
    assert (b2n (snd a <? S (nexti s)) = 1) as L1
      by (subst a; cbn [snd]; rewrite (proj2 (Nat.ltb_lt _ _)); [reflexivity|lia]).
    assert (b2n (snd a <? nexti s) = 0) as L0 by (subst a; cbn [snd]; rewrite Nat.ltb_irrefl; reflexivity).
    clear Ea.
    intros b. pose proof (iA s Hi b) as Ha. pose proof (tw_s s b) as Ht. pose_sums HN TIdle b. clear Hi.
    unfold alloc_st, fresh_item in *. unf. cbs.
    destruct (id_dec a b) as [<-|Nb]; upd; cbs.
    - destruct Z as (Z1&Z2&Z3&Z4&Z5). rewrite Z1, Z2, Z3, Z4, Z5, L0 in Ha. rewrite L1, Z4, Z5. cbs. clear Z1 Z2 Z3 Z4 Z5 L0 L1. arith.
    - eapply P_lt; [|apply ltb_mono..]. oth.
  Qed.
  Lemma r_ANew2 old : nth_error (thr s) i = Some (ANew (KMove old)) ->
    Inv (set_t (alloc_st (ikey old, nexti s)) i (SMM old (ikey old, nexti s))).
  Proof.
    intros HN.
    apply (mk_inv s i _ (alloc_st (ikey old, nexti s)) (SMM old (ikey old, nexti s)) Hi HN);
      [reflexivity| |rest s Hi..].
    pose proof (fresh_zero (ikey old) (iA s Hi _)) as Z. cbv zeta in Z.
    assert (old <> (ikey old, nexti s)) as No.
    { intros E. pose proof (proj2 (own_facts s old Hi)) as Ho.
      pose proof (sm_ge (fun t => cnt (lmov t) old) _ _ _ HN) as G. cbn in G. rewrite ideq_refl in G. cbn in G.
      destruct Z as [Z _]. rewrite <- E in Z. rewrite Z in Ho. unfold OF, Sq in Ho. cbn [b2n] in Ho. dconj. chain. lia. }
    remember (ikey old, nexti s) as a eqn:Ea.
    assert (b2n (snd a <? S (nexti s)) = 1) as L1
      by (subst a; cbn [snd]; rewrite (proj2 (Nat.ltb_lt _ _)); [reflexivity|lia]).
    assert (b2n (snd a <? nexti s) = 0) as L0 by (subst a; cbn [snd]; rewrite Nat.ltb_irrefl; reflexivity).
    clear Ea.
    intros b. pose proof (iA s Hi b) as Ha. pose proof (tw_s s b) as Ht. pose_sums HN (SMM old a) b. clear Hi.
    unfold alloc_st, fresh_item in *. unf. cbs.
    destruct (id_dec a b) as [<-|Nb]; upd; cbs.
    - destruct Z as (Z1&Z2&Z3&Z4&Z5). rewrite Z1, Z2, Z3, Z4, Z5, L0 in Ha. rewrite L1, Z4, Z5. cbs. clear Z1 Z2 Z3 Z4 Z5 L0 L1. arith.
    - eapply P_lt; [|apply ltb_mono..]. oth.
  Qed.
End S.

