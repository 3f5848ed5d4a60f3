(** * Lifetime: thread steps preserve the invariant, case by case. *)
From Coq Require Import List Arith Bool Lia.
Import ListNotations.
From Verif Require Import Lifetime_model Lifetime_proofs Lifetime_proofs2.

Section S.
  Variable maxRef : nat.
  Variables (s : state) (i : nat).
  Hypothesis Hi : Inv s.

  Ltac go0 HN := match goal with |- Inv (set_t ?s1 i ?t') =>
    apply (mk_inv s i _ s1 t' Hi HN); [reflexivity | ia0 s Hi HN t' | rest s Hi ..] end.
  Ltac go1 HN b := match goal with |- Inv (set_t ?s1 i ?t') =>
    apply (mk_inv s i _ s1 t' Hi HN); [reflexivity | ia1 s Hi HN t' b | rest s Hi ..] end.
  Ltac go2 HN b1 b2 := match goal with |- Inv (set_t ?s1 i ?t') =>
    apply (mk_inv s i _ s1 t' Hi HN); [reflexivity | ia2 s Hi HN t' b1 b2 | rest s Hi ..] end.
  Ltac mmr a := unfold mmRemove; destruct (lnk (it s a)) eqn:?.

  Lemma r_XMM h h2 : nth_error (thr s) i = Some (XMM h h2) -> 
    Inv (set_t (put_h (mmRemove s (fst h)) h) i (RDec h2 NDone)).
  Proof. intros HN. destruct h as [b nas], h2 as [b2 nas2]. cbn [fst]. destruct (id_dec b b2) as [<-|]; mmr b; [go1 HN b|go1 HN b|go2 HN b b2|go2 HN b b2]. Qed.

  Lemma r_RFree a n : nth_error (thr s) i = Some (RFree a n) -> 
    Inv (set_t (ev (set_it s a (w_free (it s a) false)) (EFree a)) i (goNext n)).
  Proof. intros HN. destruct n as [|o|o]; cbn [goNext]; try (destruct (id_dec a o) as [->|]); first [go2 HN a o|go1 HN o|go1 HN a]. Qed.

  Lemma r_SGo1 o : nth_error (thr s) i = Some (SGo o) -> 
    Inv (set_t s i (AStart (KMove o))).
  Proof. intros HN. go1 HN o. Qed.

  Lemma r_SGo2 o : nth_error (thr s) i = Some (SGo o) -> 
    Inv (set_t s i (SEv o)).
  Proof. intros HN. go1 HN o. Qed.

  Lemma r_SFree o : nth_error (thr s) i = Some (SFree o) -> 
    Inv (set_t (ev (set_it s o (w_free (it s o) true)) (EFree o)) i TIdle).
  Proof. intros HN. go1 HN o. Qed.

  Lemma r_SEv o : nth_error (thr s) i = Some (SEv o) -> 
    Inv (set_t (set_it s o (w_ref (it s o) (ref (it s o) - 1))) i (SEvAC o)).
  Proof. intros HN. go1 HN o. Qed.

  Lemma r_SEvMM o : nth_error (thr s) i = Some (SEvMM o) -> 
    Inv (set_t (mmRemove s o) i (SEvUnm o)).
  Proof. intros HN. mmr o; go1 HN o. Qed.

  Lemma r_SEvUnm o : nth_error (thr s) i = Some (SEvUnm o) -> 
    Inv (set_t (set_it s o (w_exc (it s o) false)) i (SEvWake o)).
  Proof. intros HN. go1 HN o. Qed.

  Lemma r_SEvRel o : nth_error (thr s) i = Some (SEvRel o) -> 
    Inv (set_t (ev s (EDtor o)) i (SEvFree o)).
  Proof. intros HN. go1 HN o. Qed.

  Lemma r_SEvFree o : nth_error (thr s) i = Some (SEvFree o) -> 
    Inv (set_t (ev (set_it s o (w_free (it s o) false)) (EFree o)) i TIdle).
  Proof. intros HN. go1 HN o. Qed.

End S.
