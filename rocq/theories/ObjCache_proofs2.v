(** The invariants are kept. *)
From Coq Require Import List Arith ZArith Bool Lia.
Import ListNotations.
From Verif Require Import ObjCache_model ObjCache_spec ObjCache_proofs1.
Open Scope Z_scope.

Definition same (ps ps' : list ptr) (os os' : list op) (j : nat) : Prop :=
  sumf (ptrHas j) ps' + sumf (opHas j) os' = sumf (ptrHas j) ps + sumf (opHas j) os /\
  sumf (opNas j) os' = sumf (opNas j) os /\ sumf (opKill j) os' = sumf (opKill j) os /\ sumf (opCb j) os' = sumf (opCb j) os.
Definition phaseOkS (it : item) (ps : list ptr) (os : list op) (j : nat) : Prop :=
  phaseOk it (sumf (ptrHas j) ps + sumf (opHas j) os) (sumf (opNas j) os) (sumf (opKill j) os) (sumf (opCb j) os).

Lemma good_same its ps os ps' os' : (forall j, good its ps os j) -> (forall j, same ps ps' os os' j) -> forall j, good its ps' os' j.
Proof. intros G S j. destruct (S j) as (E1 & E2 & E3 & E4). unfold good. rewrite E1, E2, E3, E4. apply G. Qed.
Lemma good_upd its ps os ps' os' i it it' : (forall j, good its ps os j) -> nth_error its i = Some it ->
  (forall j, j <> i -> same ps ps' os os' j) -> (phaseOkS it ps os i -> phaseOkS it' ps' os' i) ->
  forall j, good (upd its i it') ps' os' j.
Proof.
  intros G N S P j. pose proof (G j) as Gj. unfold good in *. rewrite (nth_upd _ _ _ _ j N).
  destruct (Nat.eqb_spec j i) as [->|D].
  - rewrite N in Gj. exact (P Gj).
  - destruct (S j D) as (E1 & E2 & E3 & E4). rewrite E1, E2, E3, E4. exact Gj.
Qed.
Lemma good_snoc its ps os ps' os' it : (forall j, good its ps os j) ->
  (forall j, j <> length its -> same ps ps' os os' j) ->
  (goodAt None (sumf (ptrHas (length its)) ps + sumf (opHas (length its)) os) (sumf (opNas (length its)) os) (sumf (opKill (length its)) os) (sumf (opCb (length its)) os)
   -> phaseOkS it ps' os' (length its)) ->
  forall j, good (its ++ [it]) ps' os' j.
Proof.
  intros G S P j. pose proof (G j) as Gj. unfold good in *. rewrite nth_snoc.
  destruct (Nat.eqb_spec j (length its)) as [->|D].
  - rewrite (proj2 (nth_error_None its (length its)) (le_n _)) in Gj. exact (P Gj).
  - destruct (S j D) as (E1 & E2 & E3 & E4). rewrite E1, E2, E3, E4. exact Gj.
Qed.

Lemma e01_refl i : e01 i i = 1.
Proof. unfold e01. rewrite Nat.eqb_refl. reflexivity. Qed.
Lemma e01_ne i j : j <> i -> e01 i j = 0.
Proof. unfold e01. intro D. destruct (Nat.eqb_spec i j); [subst; contradiction|reflexivity]. Qed.

Ltac tk :=
  repeat match goal with
  | T : takeAt _ (ptrs ?s) = Some (_, _) |- context[sumf (ptrHas ?j) (ptrs ?s)] => rewrite (takeAt_sum (ptrHas j) _ _ _ _ T)
  | T : takeAt _ (ops ?s) = Some (_, _) |- context[sumf (opHas ?j) (ops ?s)] => rewrite (takeAt_sum (opHas j) _ _ _ _ T)
  | T : takeAt _ (ops ?s) = Some (_, _) |- context[sumf (opNas ?j) (ops ?s)] => rewrite (takeAt_sum (opNas j) _ _ _ _ T)
  | T : takeAt _ (ops ?s) = Some (_, _) |- context[sumf (opKill ?j) (ops ?s)] => rewrite (takeAt_sum (opKill j) _ _ _ _ T)
  | T : takeAt _ (ops ?s) = Some (_, _) |- context[sumf (opCb ?j) (ops ?s)] => rewrite (takeAt_sum (opCb j) _ _ _ _ T)
  end.
(* same, for j other than i *)
Ltac sm := let j := fresh "j" in let D := fresh "D" in
  intros j D; unfold same; tk; cbn [sumf ptrHas opHas opNas opKill opCb]; rewrite ?(e01_ne _ _ D); lia.
Ltac sm0 := let j := fresh "j" in
  intros j; unfold same; tk; cbn [sumf ptrHas opHas opNas opKill opCb]; lia.
(* phaseOkS *)
Ltac po := unfold phaseOkS, phaseOk, setPh, setSz, setClean; tk; cbn [sumf ptrHas opHas opNas opKill opCb irefs iph iin]; rewrite ?e01_refl.

Section Pres.
Variable c : conf.

Lemma own_nn s o : 0 <= own s o.
Proof.
  unfold own. pose proof (sumf_nonneg (fun q => e01 q o) (gone s) (fun q => e01_nn q o)).
  pose proof (sumf_nonneg (ptrOwn o) (ptrs s) (ptrOwn_nn o)). pose proof (sumf_nonneg (itOwn o) (items s) (itOwn_nn o)). lia.
Qed.


Lemma nas_has j l : sumf (opNas j) l <= 2 * sumf (opHas j) l.
Proof.
  induction l as [|o l IH]; cbn [sumf]; [lia|].
  destruct o as [r i|i z|i [q|]|i|i k d|i|i e|i]; cbn [opNas opHas]; try pose proof (e01_nn i j); try pose proof (e01_nn q j); try destruct r; lia.
Qed.
(* counts of an item with a pointer or an operation *)
Lemma ptr_item s n i k rest : inv c s -> takeAt n (ptrs s) = Some (PItem i k, rest) ->
  exists it, nth_error (items s) i = Some it /\ iph it = PLive /\ 1 <= irefs it.
Proof.
  intros I T. pose proof (vG c s I i) as G. unfold good in G. rewrite (takeAt_sum (ptrHas i) _ _ _ _ T) in G. cbn [ptrHas] in G. rewrite e01_refl in G.
  pose proof (sumf_nonneg (ptrHas i) rest (ptrHas_nn i)). pose proof (sumf_nonneg (opHas i) (ops s) (opHas_nn i)).
  pose proof (nas_has i (ops s)).
  destruct (nth_error (items s) i) as [it|]; cbn [goodAt] in G; [|lia]. exists it. split; [reflexivity|]. unfold phaseOk in G.
  destruct (iph it); split; try reflexivity; lia.
Qed.
Lemma op_live s n o rest i : inv c s -> takeAt n (ops s) = Some (o, rest) -> 1 <= opHas i o -> opNas i o = 0 ->
  exists it, nth_error (items s) i = Some it /\ iph it = PLive /\ 1 <= irefs it.
Proof.
  intros I T H H0. pose proof (vG c s I i) as G. unfold good in G.
  rewrite (takeAt_sum (opHas i) _ _ _ _ T), (takeAt_sum (opNas i) _ _ _ _ T) in G.
  pose proof (sumf_nonneg (ptrHas i) (ptrs s) (ptrHas_nn i)). pose proof (sumf_nonneg (opHas i) rest (opHas_nn i)).
  pose proof (nas_has i rest).
  destruct (nth_error (items s) i) as [it|]; cbn [goodAt] in G; [|lia]. exists it. split; [reflexivity|]. unfold phaseOk in G.
  destruct (iph it); split; try reflexivity; lia.
Qed.
Lemma op_nas s n r i rest : inv c s -> takeAt n (ops s) = Some (OCall r i, rest) ->
  exists it, nth_error (items s) i = Some it /\ iin it = false /\ irefs it = 1 /\ (iph it = PNas \/ r = true /\ iph it = PAdd).
Proof.
  intros I T. pose proof (vG c s I i) as G. unfold good in G.
  rewrite (takeAt_sum (opHas i) _ _ _ _ T), (takeAt_sum (opNas i) _ _ _ _ T) in G. cbn [opNas opHas] in G. rewrite e01_refl in G.
  pose proof (sumf_nonneg (ptrHas i) (ptrs s) (ptrHas_nn i)). pose proof (sumf_nonneg (opHas i) rest (opHas_nn i)).
  pose proof (sumf_nonneg (opNas i) rest (opNas_nn i)).
  destruct (nth_error (items s) i) as [it|]; cbn [goodAt] in G; [|lia]. exists it. split; [reflexivity|]. unfold phaseOk in G.
  destruct (iph it); destruct r; try lia; (split; [tauto|split; [lia|]]); [left|left|right]; auto.
Qed.
Lemma op_kill s n i e rest : inv c s -> takeAt n (ops s) = Some (ODest i e, rest) ->
  exists it, nth_error (items s) i = Some it /\ iph it = PDying.
Proof.
  intros I T. pose proof (vG c s I i) as G. unfold good in G. rewrite (takeAt_sum (opKill i) _ _ _ _ T) in G. cbn [opKill] in G. rewrite e01_refl in G.
  pose proof (sumf_nonneg (opKill i) rest (opKill_nn i)).
  destruct (nth_error (items s) i) as [it|]; cbn [goodAt] in G; [|lia]. exists it. split; [reflexivity|]. unfold phaseOk in G.
  destruct (iph it); try reflexivity; lia.
Qed.
Lemma op_cb s n i rest : inv c s -> takeAt n (ops s) = Some (OCb i, rest) ->
  exists it, nth_error (items s) i = Some it /\ iph it = PSub.
Proof.
  intros I T. pose proof (vG c s I i) as G. unfold good in G. rewrite (takeAt_sum (opCb i) _ _ _ _ T) in G. cbn [opCb] in G. rewrite e01_refl in G.
  pose proof (sumf_nonneg (opCb i) rest (opCb_nn i)).
  destruct (nth_error (items s) i) as [it|]; cbn [goodAt] in G; [|lia]. exists it. split; [reflexivity|]. unfold phaseOk in G.
  destruct (iph it); try reflexivity; lia.
Qed.

Lemma inb_inv s i it : inv c s -> nth_error (items s) i = Some it -> iin it = true -> iph it = PLive.
Proof.
  intros I N E. pose proof (vG c s I i) as G. unfold good in G. rewrite N in G. cbn [goodAt] in G. unfold phaseOk in G.
  destruct (iph it); try reflexivity; intuition congruence.
Qed.
Lemma nth_upd_case {A} (l : list A) i x y j z : nth_error l i = Some x -> nth_error (upd l i y) j = Some z -> j = i /\ z = y \/ nth_error l j = Some z.
Proof. intros N H. rewrite (nth_upd l i x y j N) in H. destruct (Nat.eqb_spec j i) as [->|D]; [left|right; exact H]. apply some_inj in H. auto. Qed.

Definition own0 (s : state) (o : nat) : Z := sumf (fun q => e01 q o) (gone s) + sumf (ptrOwn o) (ptrs s).
Definition sizeOk (s s' : state) (d : Z) : Prop :=
  tracking c = true -> ovf c = false -> leaky c = false -> exists k, tot s' - tot s = d + (sumf opSz (ops s') - sumf opSz (ops s)) + k * W.

(** a step that changes one item *)
Lemma inv_gen s s' i it it' : inv c s ->
  nth_error (items s) i = Some it -> items s' = upd (items s) i it' -> nobj s' = nobj s ->
  0 <= isz it' < W -> (nvm c = false -> iclean it' = iclean it) -> ikey it' = ikey it ->
  (forall j, good (items s') (ptrs s') (ops s') j) ->
  (forall o, own0 s' o + itOwn o it' <= own0 s o + itOwn o it /\ (leaky c = false -> own0 s' o + itOwn o it' = own0 s o + itOwn o it)) ->
  0 <= tot s' < W -> sizeOk s s' (itSz it' - itSz it) ->
  (iin it' = true -> iin it = true \/ sumf (inKey (ikey it)) (items s) = 0) ->
  inv c s'.
Proof.
  intros I N EI EB EZ EC EK G P T S U. constructor.
  - exact G.
  - intro o. pose proof (vO c s I o) as V. specialize (P o). unfold own0 in P. unfold own in *. rewrite EI, EB, (sumf_upd (itOwn o) _ i it it' N).
    destruct V as [V1 V2], P as [P1 P2]. split; [|intro L; specialize (V2 L); specialize (P2 L)]; lia.
  - intros Hn j jt H. rewrite EI in H. destruct (nth_upd_case _ _ _ _ _ _ N H) as [[-> ->]|H'].
    + rewrite (EC Hn). exact (vC c s I Hn i it N).
    + exact (vC c s I Hn j jt H').
  - split; [exact T|]. intros j jt H. rewrite EI in H. destruct (nth_upd_case _ _ _ _ _ _ N H) as [[-> ->]|H'].
    + exact EZ.
    + exact (proj2 (vT c s I) j jt H').
  - intros A1 A2 A3. destruct (vS c s I A1 A2 A3) as (k & E). destruct (S A1 A2 A3) as (k' & E').
    exists (k + k'). rewrite EI, (sumf_upd itSz _ _ _ _ N). lia.
  - intro k. rewrite EI, (sumf_upd (inKey k) _ _ _ _ N). pose proof (vU c s I k) as V.
    assert (inKey k it' <= inKey k it \/ sumf (inKey k) (items s) = 0).
    { unfold inKey. rewrite EK. destruct (iin it') eqn:X; cbn [andb].
      - destruct (U eq_refl) as [->|L]; [left; apply Z.le_refl|]. destruct (Nat.eqb_spec (ikey it) k) as [E|E]; [right; subst k; exact L|].
        left. destruct (iin it); cbn; lia.
      - left. destruct (iin it && (ikey it =? k)%nat); lia. }
    assert (inKey k it' <= 1) by (unfold inKey; destruct (_ && _); lia). pose proof (inKey_nn k it). 
    pose proof (sumf_nth (inKey k) _ _ _ (inKey_nn k) N). lia.
Qed.

(** no item changes; d new objects *)
Lemma inv_same s s' d : inv c s -> items s' = items s -> nobj s' = (nobj s + d)%nat -> (d <= 1)%nat ->
  (forall j, same (ptrs s) (ptrs s') (ops s) (ops s') j) ->
  (forall o, own0 s' o = own0 s o + (if (d =? 0)%nat then 0 else e01 (nobj s) o)) ->
  0 <= tot s' < W -> sizeOk s s' 0 -> inv c s'.
Proof.
  intros I EI EB Hd G P T S. constructor.
  - rewrite EI. apply (good_same _ (ptrs s) (ops s)); [exact (vG c s I)|exact G].
  - intro o. pose proof (vO c s I o) as V. pose proof (own_nn s o) as NN. specialize (P o). unfold own0 in P. unfold own in *. rewrite EI, EB.
    destruct V as [V1 V2]. destruct d as [|[|d]]; [| |lia]; cbn [Nat.eqb] in P.
    + rewrite Nat.add_0_r. split; [|intro L; specialize (V2 L)]; lia.
    + unfold e01 in P at 3. destruct (Nat.eqb_spec (nobj s) o) as [X|X].
      * subst o. rewrite Nat.ltb_irrefl in *. rewrite (proj2 (Nat.ltb_lt _ _)) by lia. split; [|intro L; specialize (V2 L)]; lia.
      * replace ((o <? nobj s + 1)%nat) with ((o <? nobj s)%nat) by (destruct (Nat.ltb_spec o (nobj s)), (Nat.ltb_spec o (nobj s + 1)); lia || reflexivity).
        split; [|intro L; specialize (V2 L)]; lia.
  - rewrite EI. exact (vC c s I).
  - split; [exact T|]. rewrite EI. exact (proj2 (vT c s I)).
  - intros A1 A2 A3. destruct (vS c s I A1 A2 A3) as (k & E). destruct (S A1 A2 A3) as (k' & E').
    exists (k + k'). rewrite EI. lia.
  - intro k. rewrite EI. exact (vU c s I k).
Qed.

(** a new item with a new object *)
Lemma inv_snoc s s' it : inv c s -> items s' = items s ++ [it] -> nobj s' = S (nobj s) ->
  iobj it = nobj s -> iin it = false -> 0 <= isz it < W -> iph it <> PDead -> (nvm c = false -> iclean it = false) ->
  (forall j, good (items s') (ptrs s') (ops s') j) ->
  (forall o, own0 s' o = own0 s o) -> 0 <= tot s' < W -> sizeOk s s' (itSz it) -> inv c s'.
Proof.
  intros I EI EB EO EN EZ ED EC G P T S. constructor.
  - exact G.
  - intro o. pose proof (vO c s I o) as V. pose proof (own_nn s o) as NN. specialize (P o). unfold own0 in P. unfold own in *. rewrite EI, EB, sumf_app. cbn [sumf].
    assert (E : itOwn o it = e01 (nobj s) o). { unfold itOwn. rewrite EO. destruct (iph it); congruence. } rewrite !E.
    destruct V as [V1 V2]. destruct (Nat.eqb_spec (nobj s) o) as [X|X].
    + subst o. rewrite e01_refl, Nat.ltb_irrefl in *. rewrite (proj2 (Nat.ltb_lt _ _)) by lia. split; [|intro L; specialize (V2 L)]; lia.
    + rewrite (e01_ne (nobj s) o) by congruence. replace ((o <? Datatypes.S (nobj s))%nat) with ((o <? nobj s)%nat) by (destruct (Nat.ltb_spec o (nobj s)), (Nat.ltb_spec o (Datatypes.S (nobj s))); lia || reflexivity).
      split; [|intro L; specialize (V2 L)]; lia.
  - intros Hn j jt H. rewrite EI, nth_snoc in H. destruct (j =? length (items s))%nat; [apply some_inj in H; subst jt; exact (EC Hn)|exact (vC c s I Hn j jt H)].
  - split; [exact T|]. intros j jt H. rewrite EI, nth_snoc in H. destruct (j =? length (items s))%nat; [apply some_inj in H; subst jt; exact EZ|exact (proj2 (vT c s I) j jt H)].
  - intros A1 A2 A3. destruct (vS c s I A1 A2 A3) as (k & E). destruct (S A1 A2 A3) as (k' & E').
    exists (k + k'). rewrite EI, sumf_app. cbn [sumf]. lia.
  - intro k. rewrite EI, sumf_app. cbn [sumf]. pose proof (vU c s I k). assert (inKey k it = 0) by (unfold inKey; rewrite EN; reflexivity). lia.
Qed.
End Pres.
