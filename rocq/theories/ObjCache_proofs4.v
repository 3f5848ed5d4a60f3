(** What the invariants say of the states that are reached, and the draining of a cache. *)
From Coq Require Import List Arith ZArith Bool Lia.
Import ListNotations.
From Verif Require Import ObjCache_model ObjCache_spec ObjCache_proofs1 ObjCache_proofs2 ObjCache_proofs3.
Open Scope Z_scope.

Lemma count_pos l (o : nat) : In o l -> 1 <= sumf (fun q => e01 q o) l.
Proof. intro H. pose proof (sumf_in (fun q => e01 q o) l o (fun q => e01_nn q o) H) as P. cbn beta in P. rewrite e01_refl in P. exact P. Qed.
Lemma count_in l (o : nat) : 1 <= sumf (fun q => e01 q o) l -> In o l.
Proof.
  induction l as [|q l IH]; cbn [sumf]; [lia|]. intro H. destruct (Nat.eq_dec q o) as [->|D]; [left; reflexivity|].
  right. apply IH. rewrite (e01_ne q o) in H by congruence. lia.
Qed.
Lemma count_nodup l : (forall o : nat, sumf (fun q => e01 q o) l <= 1) -> NoDup l.
Proof.
  induction l as [|q l IH]; intro H; constructor.
  - intro I. specialize (H q). cbn [sumf] in H. rewrite e01_refl in H. pose proof (count_pos l q I). lia.
  - apply IH. intro o. specialize (H o). cbn [sumf] in H. pose proof (e01_nn q o). lia.
Qed.
Lemma ptr_count l o : 1 <= sumf (ptrOwn o) l -> In (PObj o) l.
Proof.
  induction l as [|q l IH]; cbn [sumf]; [lia|]. intro H. destruct q as [i k|q]; cbn [ptrOwn] in H; [right; apply IH; lia|].
  destruct (Nat.eq_dec q o) as [->|D]; [left; reflexivity|]. right. apply IH. rewrite (e01_ne q o) in H by congruence. lia.
Qed.
Lemma it_count l o : 1 <= sumf (itOwn o) l -> exists i it, nth_error l i = Some it /\ iobj it = o /\ iph it <> PDead.
Proof.
  induction l as [|it l IH]; cbn [sumf]; [lia|]. intro H.
  assert (D : itOwn o it = 0 \/ iobj it = o /\ iph it <> PDead).
  { unfold itOwn. destruct (Nat.eq_dec (iobj it) o) as [E|E].
    - destruct (iph it); try (left; reflexivity); right; split; try exact E; discriminate.
    - left. rewrite (e01_ne (iobj it) o) by congruence. destruct (iph it); reflexivity. }
  destruct D as [D|D]; [|exists O, it; auto]. destruct IH as (i & jt & R); [lia|]. exists (S i), jt. exact R.
Qed.

Section Facts.
Variable c : conf.

Lemma own_le s o : inv c s -> own s o <= 1.
Proof. intro I. destruct (vO c s I o) as [H _]. destruct (o <? nobj s)%nat; lia. Qed.
Lemma f_nodup s : inv c s -> NoDup (gone s).
Proof.
  intro I. apply count_nodup. intro o. pose proof (own_le s o I) as H. unfold own in H.
  pose proof (sumf_nonneg (ptrOwn o) (ptrs s) (ptrOwn_nn o)). pose proof (sumf_nonneg (itOwn o) (items s) (itOwn_nn o)). lia.
Qed.
Lemma f_item s i it : inv c s -> nth_error (items s) i = Some it -> iph it <> PDead -> ~ In (iobj it) (gone s) /\ ~ In (PObj (iobj it)) (ptrs s).
Proof.
  intros I N D. pose proof (own_le s (iobj it) I) as H. unfold own in H.
  pose proof (sumf_nonneg (fun q => e01 q (iobj it)) (gone s) (fun q => e01_nn q _)) as A.
  pose proof (sumf_nonneg (ptrOwn (iobj it)) (ptrs s) (ptrOwn_nn _)) as B.
  pose proof (sumf_nth (itOwn (iobj it)) (items s) i it (itOwn_nn _) N) as C. 
  assert (E : itOwn (iobj it) it = 1) by (unfold itOwn; rewrite e01_refl; destruct (iph it); congruence).
  split; intro X.
  - pose proof (count_pos (gone s) _ X). lia.
  - pose proof (sumf_in (ptrOwn (iobj it)) (ptrs s) _ (ptrOwn_nn _) X) as Y. cbn [ptrOwn] in Y. rewrite e01_refl in Y. lia.
Qed.
Lemma two_sum (f : item -> Z) l i j x y : (forall z, 0 <= f z) -> i <> j -> nth_error l i = Some x -> nth_error l j = Some y -> f x + f y <= sumf f l.
Proof.
  intros F. revert i j. induction l as [|z l IH]; intros [|i] [|j] D; cbn [nth_error sumf]; try discriminate; try contradiction.
  - intros [= ->] H. pose proof (sumf_nth f l j y F H). lia.
  - intros H [= ->]. pose proof (sumf_nth f l i x F H). lia.
  - intros H H'. assert (i <> j) by congruence. specialize (IH i j H0 H H'). pose proof (F z). lia.
Qed.
Lemma f_item2 s i j it jt : inv c s -> nth_error (items s) i = Some it -> nth_error (items s) j = Some jt -> iph it <> PDead -> iph jt <> PDead ->
  iobj it = iobj jt -> i = j.
Proof.
  intros I N M D1 D2 E. destruct (Nat.eq_dec i j) as [X|X]; [exact X|]. exfalso. pose proof (own_le s (iobj it) I) as H. unfold own in H.
  pose proof (sumf_nonneg (fun q => e01 q (iobj it)) (gone s) (fun q => e01_nn q _)) as A.
  pose proof (sumf_nonneg (ptrOwn (iobj it)) (ptrs s) (ptrOwn_nn _)) as B.
  pose proof (two_sum (itOwn (iobj it)) _ i j it jt (itOwn_nn _) X N M) as C.
  assert (E1 : itOwn (iobj it) it = 1) by (unfold itOwn; rewrite e01_refl; destruct (iph it); congruence).
  assert (E2 : itOwn (iobj it) jt = 1) by (unfold itOwn; rewrite E, e01_refl; destruct (iph jt); congruence). lia.
Qed.
Lemma f_kept s i it k : inv c s -> nth_error (items s) i = Some it -> In (PItem i k) (ptrs s) -> iph it = PLive /\ 1 <= irefs it.
Proof.
  intros I N X. pose proof (vG c s I i) as G. unfold good in G. rewrite N in G. cbn [goodAt] in G. unfold phaseOk in G.
  pose proof (sumf_in (ptrHas i) (ptrs s) _ (ptrHas_nn i) X) as Y. cbn [ptrHas] in Y. rewrite e01_refl in Y.
  pose proof (nas_has i (ops s)). pose proof (sumf_nonneg (opHas i) (ops s) (opHas_nn i)).
  destruct (iph it); split; try reflexivity; lia.
Qed.
Lemma f_kept_ex s i k : inv c s -> In (PItem i k) (ptrs s) -> exists it, nth_error (items s) i = Some it.
Proof.
  intros I X. pose proof (vG c s I i) as G. unfold good in G.
  pose proof (sumf_in (ptrHas i) (ptrs s) _ (ptrHas_nn i) X) as Y. cbn [ptrHas] in Y. rewrite e01_refl in Y.
  pose proof (sumf_nonneg (opHas i) (ops s) (opHas_nn i)).
  destruct (nth_error (items s) i) as [it|]; [exists it; reflexivity|]. cbn [goodAt] in G. lia.
Qed.
Lemma f_pobj s o : inv c s -> In (PObj o) (ptrs s) -> ~ In o (gone s).
Proof.
  intros I X Y. pose proof (own_le s o I) as H. unfold own in H. pose proof (count_pos _ _ Y).
  pose proof (sumf_in (ptrOwn o) (ptrs s) _ (ptrOwn_nn _) X) as Z. cbn [ptrOwn] in Z. rewrite e01_refl in Z.
  pose proof (sumf_nonneg (itOwn o) (items s) (itOwn_nn o)). lia.
Qed.
Lemma f_gone_lt s o : inv c s -> In o (gone s) -> (o < nobj s)%nat.
Proof.
  intros I X. destruct (vO c s I o) as [H _]. unfold own in H. pose proof (count_pos _ _ X).
  pose proof (sumf_nonneg (ptrOwn o) (ptrs s) (ptrOwn_nn o)). pose proof (sumf_nonneg (itOwn o) (items s) (itOwn_nn o)).
  destruct (Nat.ltb_spec o (nobj s)) as [L|L]; [exact L|lia].
Qed.

Lemma quiet_phase s i it : inv c s -> quiet s -> nth_error (items s) i = Some it -> present it = true /\ iph it = PLive \/ present it = false /\ iph it = PDead.
Proof.
  intros I Q N. pose proof (vG c s I i) as G. unfold good in G. rewrite N, Q in G. cbn [goodAt sumf] in G. unfold phaseOk in G. unfold present.
  destruct (iph it); try lia.
  - left. split; [|reflexivity]. destruct (iin it); [reflexivity|]. cbn [orb]. apply Z.ltb_lt. destruct G as (R & _ & _ & _ & L). specialize (L eq_refl). lia.
  - right. split; [|reflexivity]. destruct G as (R & _ & _ & _ & -> & L). cbn [orb]. apply Z.ltb_ge. lia.
Qed.
Lemma f_where s o : inv c s -> leaky c = false -> quiet s -> (o < nobj s)%nat ->
  In o (gone s) \/ In (PObj o) (ptrs s) \/ exists i it, nth_error (items s) i = Some it /\ present it = true /\ iobj it = o.
Proof.
  intros I L Q H. destruct (vO c s I o) as [_ V]. specialize (V L). rewrite (proj2 (Nat.ltb_lt _ _) H) in V. unfold own in V.
  pose proof (sumf_nonneg (fun q => e01 q o) (gone s) (fun q => e01_nn q _)) as A.
  pose proof (sumf_nonneg (ptrOwn o) (ptrs s) (ptrOwn_nn _)) as B. pose proof (sumf_nonneg (itOwn o) (items s) (itOwn_nn o)) as C.
  destruct (Z.eq_dec (sumf (fun q => e01 q o) (gone s)) 0) as [E|E]; [right|left; apply count_in; lia].
  destruct (Z.eq_dec (sumf (ptrOwn o) (ptrs s)) 0) as [E'|E']; [right|left; apply ptr_count; lia].
  destruct (it_count (items s) o) as (i & it & N & EO & D); [lia|]. exists i, it. split; [exact N|]. split; [|exact EO].
  destruct (quiet_phase s i it I Q N) as [[P _]|[_ P]]; [exact P|contradiction].
Qed.
Lemma f_empty s o : inv c s -> leaky c = false -> empty s -> (o < nobj s)%nat -> In o (gone s).
Proof.
  intros I L (Q & P & E) H. destruct (f_where s o I L Q H) as [A|[A|(i & it & N & A & _)]]; [exact A|rewrite P in A; destruct A|].
  unfold present in A. rewrite (E i it N) in A. cbn [orb] in A. apply Z.ltb_lt in A.
  pose proof (vG c s I i) as G. unfold good in G. rewrite N, Q, P in G. cbn [goodAt sumf] in G. unfold phaseOk in G. lia.
Qed.

Lemma sum_present l : (forall i it, nth_error l i = Some it -> present it = true /\ iph it = PLive \/ present it = false /\ iph it = PDead) ->
  sumf itSz l = sumSizes present l.
Proof.
  induction l as [|it l IH]; intro H; cbn [sumf sumSizes]; [reflexivity|]. rewrite IH by (intros i jt N; exact (H (S i) jt N)).
  destruct (H O it eq_refl) as [[P E]|[P E]]; unfold itSz; rewrite P, E; reflexivity.
Qed.
Lemma f_total s : inv c s -> tracking c = true -> ovf c = false -> leaky c = false -> quiet s -> tot s = sumSizes present (items s) mod W.
Proof.
  intros I A1 A2 A3 Q. destruct (vS c s I A1 A2 A3) as (k & E). rewrite Q in E. cbn [sumf] in E.
  rewrite (sum_present (items s)) in E by (intros i it N; exact (quiet_phase s i it I Q N)).
  destruct (vT c s I) as [R _]. apply (Z.mod_unique _ _ (- k)); [left; exact R|]. lia.
Qed.
Lemma f_unique s i j it jt : inv c s -> cached s i it -> cached s j jt -> ikey it = ikey jt -> i = j.
Proof.
  intros I [N A] [M B] E. destruct (Nat.eq_dec i j) as [X|X]; [exact X|]. exfalso.
  pose proof (vU c s I (ikey it)) as V. pose proof (two_sum (inKey (ikey it)) _ i j it jt (inKey_nn _) X N M) as C.
  unfold inKey in C at 1 2. rewrite A, B, <- E, Nat.eqb_refl in C. cbn in C. lia.
Qed.

(** draining *)
Definition opW (o : op) : Z :=
  match o with OCall _ _ => 20 | OIns _ _ => 4 | OIns2 _ _ => 7 | ORel _ => 3 | OUpd _ _ _ => 4 | ONvm _ => 8 | ODest _ _ => 2 | OCb _ => 1 end.
Definition ptrW (p : ptr) : Z := match p with PItem _ _ => 3 | PObj _ => 1 end.
Definition itW (it : item) : Z := (if iin it then 4 else 0) + (match iph it with PNas => 1 | _ => 0 end).
Definition mu (s : state) : Z := sumf opW (ops s) + sumf ptrW (ptrs s) + sumf itW (items s).
Lemma mu_nn s : 0 <= mu s.
Proof.
  unfold mu. pose proof (sumf_nonneg opW (ops s) ltac:(intros []; cbn; lia)). pose proof (sumf_nonneg ptrW (ptrs s) ltac:(intros []; cbn; lia)).
  pose proof (sumf_nonneg itW (items s) ltac:(intro it; unfold itW; destruct (iin it), (iph it); lia)). lia.
Qed.

Lemma unref_mu s i it : nth_error (items s) i = Some it -> iph it = PLive -> exists s', unref s i = Some s' /\ ub s' = ub s /\ mu s' <= mu s + 2 /\ nobj s' = nobj s.
Proof.
  intros N E. unfold unref. rewrite N. destruct (_ && _) eqn:C; eexists; (split; [reflexivity|]); unfold mu; proj; rewrite (sumf_upd itW _ _ _ _ N); unfold itW; itf; rewrite E; (split; [reflexivity|]); (split; [|reflexivity]).
  - cbn [sumf opW]. destruct (iin it); lia.
  - lia.
Qed.

Lemma progress s : inv c s -> ub s = false -> empty s \/ exists a s', step c s a = Some s' /\ ub s' = false /\ mu s' < mu s /\ nobj s' = nobj s.
Proof.
  intros I U. destruct (ops s) as [|o rest] eqn:EO.
  - destruct (ptrs s) as [|p rest] eqn:EP.
    + destruct (existsb iin (items s)) eqn:X.
      * right. apply existsb_exists in X. destruct X as (it & X & Hin). destruct (lookup (ikey it) (items s)) as [i|] eqn:L.
        -- destruct (lookup_some _ _ _ L) as (jt & N & Hj & _). exists (SRemove (ikey it)). unfold step. rewrite U, L, N. eexists. split; [reflexivity|].
           split; [exact U|]. split; [|reflexivity]. unfold mu. proj. rewrite (sumf_upd itW _ _ _ _ N). unfold itW. itf. rewrite Hj, (inb_inv c s i jt I N Hj), EO. cbn [sumf opW]. lia.
        -- exfalso. apply lookup_none in L. pose proof (sumf_in (inKey (ikey it)) _ _ (inKey_nn _) X) as Y. unfold inKey in Y at 1. rewrite Hin, Nat.eqb_refl in Y. cbn in Y. lia.
      * left. split; [exact EO|]. split; [exact EP|]. intros i it N. destruct (iin it) eqn:H; [|reflexivity].
        assert (X' : existsb iin (items s) = true) by (apply existsb_exists; exists it; split; [exact (nth_error_In _ _ N)|exact H]). congruence.
    + right. exists (SDrop 0). unfold step. rewrite U, EP. cbn [takeAt]. destruct p as [i k|o].
      * assert (T : takeAt 0 (ptrs s) = Some (PItem i k, rest)) by (rewrite EP; reflexivity).
        destruct (ptr_item c s 0 i k rest I T) as (it & N & E & R).
        destruct (unref_mu (withPtrs s rest) i it N E) as (s' & H1 & H2 & H3 & H4). exists s'. split; [exact H1|]. split; [rewrite H2; exact U|]. split; [|exact H4].
        unfold mu in *. proj. rewrite EP. cbn [sumf ptrW]. lia.
      * eexists. split; [reflexivity|]. split; [exact U|]. split; [|reflexivity]. unfold mu. proj. rewrite EP. cbn [sumf ptrW]. lia.
  - right. assert (T : takeAt 0 (ops s) = Some (o, rest)) by (rewrite EO; reflexivity). 
    assert (HM : mu s = opW o + sumf opW rest + sumf ptrW (ptrs s) + sumf itW (items s)) by (unfold mu; rewrite EO; cbn [sumf]; lia).
    exists (SStep 0 false). unfold step. rewrite U, T. destruct o as [r i|i z|i old|i|i k d|i|i ev|i]; unfold opStep.
    + destruct (op_nas c s 0 r i rest I T) as (it & N & Hin & R & HP). rewrite N. destruct r.
      * destruct HP as [E|[_ E]]; rewrite E.
        -- eexists. split; [reflexivity|]. split; [exact U|]. split; [|reflexivity]. rewrite HM. unfold mu. proj. rewrite (sumf_upd itW _ _ _ _ N). unfold itW. itf. rewrite E, Hin. cbn [sumf opW]. lia.
        -- destruct (lookup (ikey it) (items s)) as [old|] eqn:L; cbn [andb].
           ++ destruct (lookup_some _ _ _ L) as (ot & NO & Ho & _). rewrite NO. eexists. split; [reflexivity|]. split; [exact U|]. split; [|reflexivity]. rewrite HM. unfold mu. proj.
              assert (D : i <> old) by (intros ->; rewrite N in NO; apply some_inj in NO; subst ot; congruence).
              assert (N2 : nth_error (upd (items s) old (setPh ot PLive (irefs ot + 1) false)) i = Some it)
                by (rewrite (nth_upd _ _ _ _ i NO); destruct (Nat.eqb_spec i old); [contradiction|exact N]).
              rewrite (sumf_upd itW _ _ _ _ N2), (sumf_upd itW _ _ _ _ NO). unfold itW. itf. rewrite E, Hin, Ho. cbn [sumf opW]. destruct (iph ot); lia.
           ++ eexists. split; [reflexivity|]. split; [exact U|]. split; [|reflexivity]. rewrite HM. unfold mu. proj. rewrite (sumf_upd itW _ _ _ _ N). unfold itW. itf. rewrite E, Hin. cbn [sumf opW]. lia.
      * destruct (lookup (ikey it) (items s)) as [old|] eqn:L; (eexists; split; [reflexivity|]; split; [exact U|]; split; [|reflexivity]; rewrite HM; unfold mu; proj; rewrite (sumf_upd itW _ _ _ _ N); unfold itW; itf; rewrite Hin; cbn [sumf opW ptrW]; destruct (iph it); lia).
    + eexists. split; [reflexivity|]. split; [exact U|]. split; [|reflexivity]. rewrite HM. unfold mu. proj. cbn [sumf opW ptrW]. lia.
    + eexists. split; [reflexivity|]. split; [exact U|]. split; [|reflexivity]. rewrite HM. unfold mu. proj. destruct old; cbn [app sumf opW ptrW]; lia.
    + destruct (op_live c s 0 _ rest i I T) as (it & N & EP & R); [cbn; rewrite e01_refl; lia|reflexivity|].
      destruct (unref_mu (withOps s rest) i it N EP) as (s' & H1 & H2 & H3 & H4). exists s'. split; [exact H1|]. split; [rewrite H2; exact U|]. split; [|exact H4].
      rewrite HM. unfold mu in *. proj. cbn [opW]. lia.
    + eexists. split; [reflexivity|]. split; [exact U|]. split; [|reflexivity]. rewrite HM. unfold mu. proj. cbn [sumf opW ptrW]. lia.
    + destruct (op_live c s 0 _ rest i I T) as (it & N & EP & R); [cbn; rewrite e01_refl; lia|reflexivity|]. rewrite N.
      destruct (unref_mu (withOps s rest) i it N EP) as (s' & H1 & H2 & H3 & H4).
      destruct (lookup (ikey it) (items s)) as [old|] eqn:L.
      * exists s'. split; [exact H1|]. split; [rewrite H2; exact U|]. split; [|exact H4]. rewrite HM. unfold mu in *. proj. cbn [opW]. lia.
      * eexists. split; [reflexivity|]. split; [exact U|]. split; [|reflexivity]. rewrite HM. unfold mu. proj. rewrite (sumf_upd itW _ _ _ _ N). unfold itW. itf. rewrite EP. cbn [sumf opW ptrW]. destruct (iin it); lia.
    + destruct (op_kill c s 0 i ev rest I T) as (it & N & EP). rewrite N. 
      destruct (destr c && (ev && iclean it)); (eexists; split; [reflexivity|]; split; [exact U|]; split; [|reflexivity]; rewrite HM; unfold mu; proj; rewrite (sumf_upd itW _ _ _ _ N); unfold itW; itf; rewrite EP; cbn [sumf opW]; destruct (iin it); lia).
    + destruct (op_cb c s 0 i rest I T) as (it & N & EP). rewrite N. 
      eexists. split; [reflexivity|]. split; [exact U|]. split; [|reflexivity]. rewrite HM. unfold mu. proj. rewrite (sumf_upd itW _ _ _ _ N). unfold itW. itf. rewrite EP. cbn [sumf opW]. destruct (iin it); lia.
Qed.

Lemma drain s : inv c s -> ub s = false -> exists l s', run c s l = Some s' /\ empty s' /\ ub s' = false /\ nobj s' = nobj s.
Proof.
  pose proof (mu_nn s) as NN. remember (mu s) as m eqn:Em. revert s Em. pattern m. apply Zlt_0_ind; [|exact NN]. clear m NN.
  intros m IH Hm s Em I U. destruct (progress s I U) as [E|(a & s1 & H & U1 & M & B)].
  - exists [], s. repeat split; try apply E; auto.
  - pose proof (inv_step c s a s1 I H) as I1. pose proof (mu_nn s1).
    destruct (IH (mu s1) ltac:(lia) s1 eq_refl I1 U1) as (l & s' & R & F1 & F2 & F3).
    exists (a :: l), s'. cbn [run]. rewrite H. split; [exact R|]. split; [exact F1|]. split; [exact F2|]. congruence.
Qed.
End Facts.
