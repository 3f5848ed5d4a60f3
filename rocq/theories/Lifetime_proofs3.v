(** * Lifetime: thread steps preserve the invariant, case by case. *)
From Coq Require Import List Arith Bool Lia.
Import ListNotations.
From Verif Require Import Lifetime_model Lifetime_proofs Lifetime_proofs2.

Section S.
  Variable maxRef : nat.
  Variables (s : state) (i : nat).
  Hypothesis Hi : Inv s.

  Ltac go0 HN := match goal with |- Inv (set_t ?s1 i ?t') =>
    apply (mk_inv s i _ s1 t' Hi HN); [reflexivity | ia0 s Hi HN t' | rest s Hi ..] end.
  Ltac go1 HN b := match goal with |- Inv (set_t ?s1 i ?t') =>
    apply (mk_inv s i _ s1 t' Hi HN); [reflexivity | ia1 s Hi HN t' b | rest s Hi ..] end.
  Ltac go2 HN b1 b2 := match goal with |- Inv (set_t ?s1 i ?t') =>
    apply (mk_inv s i _ s1 t' Hi HN); [reflexivity | ia2 s Hi HN t' b1 b2 | rest s Hi ..] end.
  Ltac mmr a := unfold mmRemove; destruct (lnk (it s a)) eqn:?.

  Lemma r_AStartA k : nth_error (thr s) i = Some (AStart k) -> 
    Inv (set_t s i (ANew k)).
  Proof. intros HN. go0 HN. Qed.

  Lemma r_AStartB k : nth_error (thr s) i = Some (AStart k) -> 
    Inv (set_t s i (allocFailed k)).
  Proof. intros HN. destruct k; cbn [allocFailed]; go0 HN. Qed.

  Lemma r_AStartP k a : nth_error (thr s) i = Some (AStart k) -> lnk (it s a) = true -> exc (it s a) = false -> ref (it s a) = 0 ->
    Inv (set_t (mmRemove (set_it s a (w_exc (it s a) true)) a) i (EvAC k a)).
  Proof. intros HN. intros El Ee Er. unfold mmRemove. cbn [it set_it]. rewrite updf_same. cbn [lnk w_exc]. rewrite El. go1 HN a. Qed.

  Lemma r_EvMM k a : nth_error (thr s) i = Some (EvMM k a) -> 
    Inv (set_t (mmRemove s a) i (EvUnm k a)).
  Proof. intros HN. mmr a; go1 HN a. Qed.

  Lemma r_EvUnm k a : nth_error (thr s) i = Some (EvUnm k a) -> 
    Inv (set_t (set_it s a (w_exc (it s a) false)) i (EvRel k a)).
  Proof. intros HN. go1 HN a. Qed.

  Lemma r_EvRel k a : nth_error (thr s) i = Some (EvRel k a) -> 
    Inv (set_t (ev s (EDtor a)) i (EvFree k a)).
  Proof. intros HN. go1 HN a. Qed.

  Lemma r_EvFree k a : nth_error (thr s) i = Some (EvFree k a) -> 
    Inv (set_t (ev (set_it s a (w_free (it s a) false)) (EFree a)) i (ANew k)).
  Proof. intros HN. go1 HN a. Qed.

  Lemma r_FMiss w k : nth_error (thr s) i = Some (FFind w k) -> 
    Inv (set_t s i TIdle).
  Proof. intros HN. go0 HN. Qed.

  Lemma r_FThrow w k : nth_error (thr s) i = Some (FFind w k) -> 
    Inv (set_t (ev s EThrow) i TIdle).
  Proof. intros HN. go0 HN. Qed.

  Lemma r_FOk w k a : nth_error (thr s) i = Some (FFind w k) -> acc (it s a) = true -> exc (it s a) = false ->
    Inv (set_t (set_it s a (w_ref (it s a) (S (ref (it s a))))) i (FGot w (a, false))).
  Proof. intros HN. intros Ea Ee. go1 HN a. Qed.

  Lemma r_FGot1 h : nth_error (thr s) i = Some (FGot WFind h) -> 
    Inv (back s i h).
  Proof. intros HN. unfold back. destruct h as [b nas]. go1 HN b. Qed.

  Lemma r_FGot2 h : nth_error (thr s) i = Some (FGot WRem h) -> 
    Inv (set_t s i (RmAC h RKey)).
  Proof. intros HN. destruct h as [b nas]. go1 HN b. Qed.

  Lemma r_InChkT h : nth_error (thr s) i = Some (InChk h) -> 
    Inv (back (ev s EThrow) i h).
  Proof. intros HN. unfold back. destruct h as [b nas]. go1 HN b. Qed.

  Lemma r_InChk h : nth_error (thr s) i = Some (InChk h) -> acc (it s (fst h)) = false ->
    Inv (set_t s i (InMM h)).
  Proof. intros HN. destruct h as [b nas]. cbn [fst]. intros Ea. go1 HN b. Qed.

  Lemma r_InMMT h : nth_error (thr s) i = Some (InMM h) -> 
    Inv (back (ev s EThrow) i h).
  Proof. intros HN. unfold back. destruct h as [b nas]. go1 HN b. Qed.

  Lemma r_InMM h : nth_error (thr s) i = Some (InMM h) -> lnk (it s (fst h)) = false ->
    Inv (set_t (mmAdd s (fst h)) i (InPre h)).
  Proof. intros HN. destruct h as [b nas]. cbn [fst]. intros El. go1 HN b. Qed.

  Lemma r_InPre h : nth_error (thr s) i = Some (InPre h) -> 
    Inv (set_t s i (InAC h)).
  Proof. intros HN. destruct h as [b nas]. go1 HN b. Qed.

  Lemma r_OrChkT h : nth_error (thr s) i = Some (OrChk h) -> 
    Inv (back (ev s EThrow) i h).
  Proof. intros HN. unfold back. destruct h as [b nas]. go1 HN b. Qed.

  Lemma r_OrChk h : nth_error (thr s) i = Some (OrChk h) -> acc (it s (fst h)) = false ->
    Inv (set_t s i (OrMM h)).
  Proof. intros HN. destruct h as [b nas]. cbn [fst]. intros Ea. go1 HN b. Qed.

  Lemma r_OrMMT h : nth_error (thr s) i = Some (OrMM h) -> 
    Inv (back (ev s EThrow) i h).
  Proof. intros HN. unfold back. destruct h as [b nas]. go1 HN b. Qed.

  Lemma r_OrMM h : nth_error (thr s) i = Some (OrMM h) -> lnk (it s (fst h)) = false ->
    Inv (set_t (mmAdd s (fst h)) i (OrPre h)).
  Proof. intros HN. destruct h as [b nas]. cbn [fst]. intros El. go1 HN b. Qed.

End S.
