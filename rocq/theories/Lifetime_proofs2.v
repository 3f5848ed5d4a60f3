(** * Lifetime: every thread step preserves the invariant (all but the wake-ups). *)
From Coq Require Import List Arith Bool Lia.
Import ListNotations.
From Verif Require Import Lifetime_model Lifetime_proofs.

Lemma nasn b : b2n b + b2n (negb b) = 1.
Proof. destruct b; reflexivity. Qed.

Lemma own_facts s a : Inv s ->
  mm s a = lnk (it s a) /\
  OF (b2n (alive (it s a))) (ref (it s a)) (b2n (lnk (it s a))) (b2n (acc (it s a))) (b2n (exc (it s a)))
     (cn (hs s) a) (cf (hs s) a) (Sn s a) (Sf s a) (Sq lmov s a) (Sq lxo s a) (Sq ldown s a)
     (Sq lpend s a) (Sq lresp s a) (b2n (was (it s a))).
Proof.
  intros Hi. pose proof (iA s Hi a) as Ha. pose proof (tw_s s a) as Ht. unfold IA, P, TW in *.
  rewrite ixn_ixv in Ha.
  assert (mm s a = lnk (it s a)) as EM.
  { destruct (mm s a), (lnk (it s a)); cbn [b2n] in Ha; auto; exfalso; dconj; lia. }
  split; auto. rewrite <- EM in *. unfold OF.
  set (vx := b2n (exc (it s a))) in *. set (vc := b2n (acc (it s a))) in *.
  set (vw := b2n (was (it s a))) in *. set (va := b2n (alive (it s a))) in *.
  clearbody vx vc vw va. gen. dconj. hideall.
  assert (vx = 0 \/ vx = 1) as C1 by lia. assert (vc = 0 \/ vc = 1) as C2 by lia.
  assert (vw = 0 \/ vw = 1) as C3 by lia. assert (va = 0 \/ va = 1) as C4 by lia.
  set (vd := Sq ldown s a) in *. clearbody vd.
  assert (vd = 0 \/ vd = 1) as C5 by lia.
  destruct C1, C2, C3, C4, C5; subst; chain; try (exfalso; lia);
    deep; try lia; try (chain; lia).
Qed.

Ltac nasfacts := repeat match goal with b : bool |- _ => lazymatch goal with H : b2n b + b2n (negb b) = 1 |- _ => fail | _ => pose proof (nasn b) end end.
Ltac start1 s Hi HN t' a :=
  intros a; pose proof (iA s Hi a) as Ha; pose proof (tw_s s a) as Ht; pose proof (proj2 (own_facts s a Hi)) as Ho;
  pose_sums HN t' a; clear Hi;
  nasfacts;
  unf; cbs.
Ltac ia0 s Hi HN t' := let a := fresh "a" in start1 s Hi HN t' a; upd; rwf; cbs; oth.
Ltac ia1 s Hi HN t' b :=
  let a := fresh "a" in start1 s Hi HN t' a;
  destruct (id_dec b a); [subst|]; upd; rwf; cbs; [arith | oth].
Ltac ia2 s Hi HN t' b1 b2 :=
  let a := fresh "a" in start1 s Hi HN t' a;
  destruct (id_dec b1 a); [|destruct (id_dec b2 a)]; try subst; upd; rwf; cbs;
  [arith | arith | oth].
Ltac rest s Hi :=
  first [ exact I | cbn [wft]; auto; fail
        | exact (iK s Hi)
        | exact (iB s Hi)
        | cbn; exact (iB s Hi)
        | let k := fresh in intros k; cbn; lia
        | idtac ].



Lemma drained_true x : drained x = true -> ref x = 0 /\ lnk x = false /\ acc x = false /\ exc x = false.
Proof.
  unfold drained. rewrite !andb_true_iff, Nat.eqb_eq, !negb_true_iff. tauto.
Qed.
Lemma drained_false x : drained x = false -> 1 <= ref x + b2n (lnk x) + b2n (acc x) + b2n (exc x).
Proof.
  unfold drained. destruct (ref x =? 0) eqn:E; cbn [andb].
  - destruct (lnk x), (acc x), (exc x); cbn; intros; try discriminate; lia.
  - apply Nat.eqb_neq in E. lia.
Qed.
Lemma drained_intro x : ref x = 0 -> b2n (lnk x) = 0 -> b2n (acc x) = 0 -> b2n (exc x) = 0 -> drained x = true.
Proof. unfold drained. intros ->. destruct (lnk x), (acc x), (exc x); cbn; intros; auto; discriminate. Qed.

