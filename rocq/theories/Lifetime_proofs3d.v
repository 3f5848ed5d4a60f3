(** * Lifetime: thread steps preserve the invariant, case by case. *)
From Coq Require Import List Arith Bool Lia.
Import ListNotations.
From Verif Require Import Lifetime_model Lifetime_proofs Lifetime_proofs2.

Section S.
  Variable maxRef : nat.
  Variables (s : state) (i : nat).
  Hypothesis Hi : Inv s.

  Ltac go0 HN := match goal with |- Inv (set_t ?s1 i ?t') =>
    apply (mk_inv s i _ s1 t' Hi HN); [reflexivity | ia0 s Hi HN t' | rest s Hi ..] end.
  Ltac go1 HN b := match goal with |- Inv (set_t ?s1 i ?t') =>
    apply (mk_inv s i _ s1 t' Hi HN); [reflexivity | ia1 s Hi HN t' b | rest s Hi ..] end.
  Ltac go2 HN b1 b2 := match goal with |- Inv (set_t ?s1 i ?t') =>
    apply (mk_inv s i _ s1 t' Hi HN); [reflexivity | ia2 s Hi HN t' b1 b2 | rest s Hi ..] end.
  Ltac mmr a := unfold mmRemove; destruct (lnk (it s a)) eqn:?.

  Lemma r_RRel a nas n : nth_error (thr s) i = Some (RRel a nas n) -> 
    Inv (set_t (if nas then s else ev s (EDtor a)) i (RFree a n)).
  Proof. intros HN. destruct nas; destruct n as [|o|o]; try (destruct (id_dec a o) as [->|]); first [go2 HN a o|go1 HN o|go1 HN a]. Qed.

End S.
