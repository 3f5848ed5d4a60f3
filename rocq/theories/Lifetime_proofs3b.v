(** * Lifetime: thread steps preserve the invariant, case by case. *)
From Coq Require Import List Arith Bool Lia.
Import ListNotations.
From Verif Require Import Lifetime_model Lifetime_proofs Lifetime_proofs2.

Section S.
  Variable maxRef : nat.
  Variables (s : state) (i : nat).
  Hypothesis Hi : Inv s.

  Ltac go0 HN := match goal with |- Inv (set_t ?s1 i ?t') =>
    apply (mk_inv s i _ s1 t' Hi HN); [reflexivity | ia0 s Hi HN t' | rest s Hi ..] end.
  Ltac go1 HN b := match goal with |- Inv (set_t ?s1 i ?t') =>
    apply (mk_inv s i _ s1 t' Hi HN); [reflexivity | ia1 s Hi HN t' b | rest s Hi ..] end.
  Ltac go2 HN b1 b2 := match goal with |- Inv (set_t ?s1 i ?t') =>
    apply (mk_inv s i _ s1 t' Hi HN); [reflexivity | ia2 s Hi HN t' b1 b2 | rest s Hi ..] end.
  Ltac mmr a := unfold mmRemove; destruct (lnk (it s a)) eqn:?.

  Lemma r_OrPre h : nth_error (thr s) i = Some (OrPre h) -> 
    Inv (set_t s i (OrAC h)).
  Proof. intros HN. destruct h as [b nas]. go1 HN b. Qed.

  Lemma r_InPreF h : nth_error (thr s) i = Some (InPre h) -> 
    Inv (set_t s i (InRm h)).
  Proof. intros HN. destruct h as [b nas]. go1 HN b. Qed.

  Lemma r_InACF h : nth_error (thr s) i = Some (InAC h) -> 
    Inv (set_t s i (InRm h)).
  Proof. intros HN. destruct h as [b nas]. go1 HN b. Qed.

  Lemma r_OrACF h : nth_error (thr s) i = Some (OrAC h) -> 
    Inv (set_t s i (OrFail h)).
  Proof. intros HN. destruct h as [b nas]. go1 HN b. Qed.

  Lemma r_InRm h : nth_error (thr s) i = Some (InRm h) -> 
    Inv (back (mmRemove s (fst h)) i h).
  Proof. intros HN. unfold back. destruct h as [b nas]. cbn [fst]. mmr b; go1 HN b. Qed.

  Lemma r_OrFail h : nth_error (thr s) i = Some (OrFail h) -> 
    Inv (back (ev (mmRemove s (fst h)) EThrow) i h).
  Proof. intros HN. unfold back. destruct h as [b nas]. cbn [fst]. mmr b; go1 HN b. Qed.

  Lemma r_OrRm h h2 : nth_error (thr s) i = Some (OrRm h h2) -> 
    Inv (set_t (put_h (put_h (mmRemove s (fst h2)) h) h2) i TIdle).
  Proof. intros HN. destruct h as [b nas], h2 as [b2 nas2]. cbn [fst]. destruct (id_dec b b2) as [->|]; mmr b2; [go1 HN b2|go1 HN b2|go2 HN b b2|go2 HN b b2]. Qed.

  Lemma r_RmMM1 h : nth_error (thr s) i = Some (RmMM h RUser) -> 
    Inv (back (mmRemove s (fst h)) i h).
  Proof. intros HN. unfold back. destruct h as [b nas]. cbn [fst]. mmr b; go1 HN b. Qed.

  Lemma r_RmMM2 h : nth_error (thr s) i = Some (RmMM h RKey) -> 
    Inv (set_t (mmRemove s (fst h)) i (RDec h NDone)).
  Proof. intros HN. destruct h as [b nas]. cbn [fst]. mmr b; go1 HN b. Qed.

  Lemma r_XBack h : nth_error (thr s) i = Some (XAC h) -> 
    Inv (back s i h).
  Proof. intros HN. unfold back. destruct h as [b nas]. go1 HN b. Qed.

  Lemma r_XThrow h : nth_error (thr s) i = Some (XAC h) -> 
    Inv (back (ev s EThrow) i h).
  Proof. intros HN. unfold back. destruct h as [b nas]. go1 HN b. Qed.

End S.
