(** Every step keeps the invariants. *)
From Coq Require Import List Arith ZArith Bool Lia.
Import ListNotations.
From Verif Require Import ObjCache_model ObjCache_spec ObjCache_proofs1 ObjCache_proofs2.
Open Scope Z_scope.

Ltac proj := cbn [items tot gone nobj ptrs ops ub withOps withPtrs withTot putIt destroy] in *.
Ltac itf := cbn [ikey iobj isz irefs iin iclean iph setPh setSz setClean] in *.
Ltac ow :=
  let o := fresh "o" in
  intro o; unfold own0; proj; unfold itOwn; itf;
  repeat match goal with
  | T : takeAt _ (ptrs ?s) = Some (_, _) |- context[sumf (ptrOwn ?j) (ptrs ?s)] => rewrite !(takeAt_sum (ptrOwn j) _ _ _ _ T)
  | E : iph ?it = _ |- context[iph ?it] => rewrite !E
  end; cbn [sumf ptrOwn]; try (split; [|intros _]); lia.
Ltac sz :=
  unfold sizeOk; proj; unfold itSz; itf;
  repeat match goal with
  | T : takeAt _ (ops ?s) = Some (_, _) |- context[sumf opSz (ops ?s)] => rewrite !(takeAt_sum opSz _ _ _ _ T)
  | E : iph ?it = _ |- context[iph ?it] => rewrite !E
  end; cbn [sumf opSz].
Ltac sz0 := sz; intros _ _ _; exists 0; lia.

Section Steps.
Variable c : conf.

Lemma inv_unref s s0 s' i it : inv c s -> items s0 = items s -> tot s0 = tot s -> nobj s0 = nobj s -> ub s0 = ub s ->
  (forall o, own0 s0 o = own0 s o) -> sumf opSz (ops s0) = sumf opSz (ops s) ->
  (forall j, j <> i -> same (ptrs s) (ptrs s0) (ops s) (ops s0) j) ->
  sumf (ptrHas i) (ptrs s0) + sumf (opHas i) (ops s0) = sumf (ptrHas i) (ptrs s) + sumf (opHas i) (ops s) - 1 ->
  sumf (opNas i) (ops s0) = sumf (opNas i) (ops s) -> sumf (opKill i) (ops s0) = sumf (opKill i) (ops s) -> sumf (opCb i) (ops s0) = sumf (opCb i) (ops s) ->
  nth_error (items s) i = Some it -> iph it = PLive ->
  unref s0 i = Some s' -> inv c s'.
Proof.
  intros I EI ET EB _ EO ES SM E1 E2 E3 E4 N EP H. unfold unref in H. rewrite EI, N in H.
  pose proof (proj1 (vT c s I)) as HT. pose proof (proj2 (vT c s I) i it N) as HZ.
  pose proof (sumf_nonneg (ptrHas i) (ptrs s0) (ptrHas_nn i)) as NN1. pose proof (sumf_nonneg (opHas i) (ops s0) (opHas_nn i)) as NN2.
  destruct ((irefs it - 1 =? 0) && negb (iin it)) eqn:C; apply some_inj in H; subst s'.
  - apply andb_prop in C. destruct C as [C1 C2]. apply Z.eqb_eq in C1. apply negb_true_iff in C2.
    apply (inv_gen c s _ i it (setPh it PDying (irefs it - 1) false) I N); proj; itf; auto.
    + rewrite EI. reflexivity.
    + rewrite EI. apply (good_upd _ (ptrs s) (ops s) _ _ i it); [exact (vG c s I)|exact N| |].
      * intros j D. destruct (SM j D) as (F1 & F2 & F3 & F4). unfold same. cbn [sumf opHas opNas opKill opCb]. rewrite (e01_ne i j D). lia.
      * unfold phaseOkS, phaseOk. itf. rewrite EP. cbn [sumf opHas opNas opKill opCb]. rewrite e01_refl. lia.
    + intro o. specialize (EO o). unfold own0 in *. proj. unfold itOwn. itf. rewrite EP. split; [|intros _]; lia.
    + rewrite ET. exact HT.
    + unfold sizeOk. proj. unfold itSz. itf. rewrite EP. cbn [sumf opSz]. intros _ _ _. exists 0. lia.
    + discriminate.
  - apply (inv_gen c s _ i it (setPh it (iph it) (irefs it - 1) (iin it)) I N); proj; itf; auto.
    + rewrite EI. reflexivity.
    + rewrite EI. apply (good_upd _ (ptrs s) (ops s) _ _ i it); [exact (vG c s I)|exact N|exact SM|].
      unfold phaseOkS, phaseOk. itf. rewrite EP. intros (R & A1 & A2 & A3 & A4). repeat (split; [lia|]).
      intro Q. rewrite Q in C. cbn [negb] in C. rewrite andb_true_r in C. apply Z.eqb_neq in C. lia.
    + intro o. specialize (EO o). unfold own0 in *. proj. unfold itOwn. itf. rewrite EP. split; [|intros _]; lia.
    + rewrite ET. exact HT.
    + unfold sizeOk. proj. unfold itSz. itf. rewrite EP. intros _ _ _. exists 0. lia.
Qed.

Lemma step_insert s r k z ok s' : inv c s -> step c s (SInsert r k z ok) = Some s' -> inv c s'.
Proof.
  intros I H. unfold step in H. destruct (ub s); [discriminate|]. pose proof (proj1 (vT c s I)) as HT.
  destruct ((z <? 0) || (W <=? z)) eqn:C; [discriminate|]. apply orb_false_iff in C. destruct C as [C1 C2]. apply Z.ltb_ge in C1. apply Z.leb_gt in C2.
  destruct (_ || _).
  - apply some_inj in H; subst s'. apply (inv_same c s _ 1 I); proj; auto; [lia|sm0| |sz0].
    intro o. unfold own0. proj. cbn [sumf Nat.eqb]. lia.
  - destruct ok; apply some_inj in H; subst s'.
    + apply (inv_snoc c s _ (mkI k (nobj s) z 1 false false PNas) I); proj; itf; auto; try discriminate; [|sz0].
      destruct r; (apply (good_snoc _ (ptrs s) (ops s)); [exact (vG c s I)|sm|]; cbn [goodAt]; po; lia).
    + apply (inv_same c s _ 1 I); proj; auto; [lia|sm0| |sz0].
      intro o. unfold own0. proj. cbn [sumf ptrOwn Nat.eqb]. lia.
Qed.

Lemma step_find s k w s' : inv c s -> step c s (SFind k w) = Some s' -> inv c s'.
Proof.
  intros I H. unfold step in H. destruct (ub s); [discriminate|]. destruct (lookup k (items s)) as [i|] eqn:L.
  - destruct (lookup_some _ _ _ L) as (it & N & Hin & Hk). rewrite N in H. apply some_inj in H; subst s'.
    pose proof (inb_inv c s i it I N Hin) as EP. pose proof (proj2 (vT c s I) i it N).
    apply (inv_gen c s _ i it (setPh it (iph it) (irefs it + 1) true) I N); proj; itf; auto; [|ow|exact (proj1 (vT c s I))|sz0].
    apply (good_upd _ (ptrs s) (ops s) _ _ i it); [exact (vG c s I)|exact N|sm|]. po. rewrite EP. intros (? & ? & ? & ? & ?). repeat (split; [lia|]). discriminate.
  - apply some_inj in H; subst s'. exact I.
Qed.

Lemma step_remove s k s' : inv c s -> step c s (SRemove k) = Some s' -> inv c s'.
Proof.
  intros I H. unfold step in H. destruct (ub s); [discriminate|]. destruct (lookup k (items s)) as [i|] eqn:L.
  - destruct (lookup_some _ _ _ L) as (it & N & Hin & Hk). rewrite N in H. apply some_inj in H; subst s'.
    pose proof (inb_inv c s i it I N Hin) as EP. pose proof (proj2 (vT c s I) i it N).
    pose proof (sumf_nonneg (ptrHas i) (ptrs s) (ptrHas_nn i)) as NN1. pose proof (sumf_nonneg (opHas i) (ops s) (opHas_nn i)) as NN2.
    apply (inv_gen c s _ i it (setPh it (iph it) (irefs it + 1) false) I N); proj; itf; auto; [|ow|exact (proj1 (vT c s I))|sz0].
    apply (good_upd _ (ptrs s) (ops s) _ _ i it); [exact (vG c s I)|exact N|sm|]. po. rewrite EP. lia.
  - apply some_inj in H; subst s'. exact I.
Qed.

Lemma step_evict s i q s' : inv c s -> step c s (SEvict i q) = Some s' -> inv c s'.
Proof.
  intros I H. unfold step in H. destruct (ub s); [discriminate|]. destruct (nth_error (items s) i) as [it|] eqn:N; [|discriminate].
  destruct (iin it && (irefs it =? 0)) eqn:C; [|discriminate]. apply some_inj in H; subst s'. apply andb_prop in C. destruct C as [C1 C2]. apply Z.eqb_eq in C2.
  pose proof (inb_inv c s i it I N C1) as EP. pose proof (proj2 (vT c s I) i it N).
  apply (inv_gen c s _ i it (setClean (setPh it PDying 0 false) (if nvm c then iclean it || q else iclean it)) I N); proj; itf; auto; [| |ow|exact (proj1 (vT c s I))|sz0].
  - intros ->. reflexivity.
  - apply (good_upd _ (ptrs s) (ops s) _ _ i it); [exact (vG c s I)|exact N|sm|]. po. rewrite EP. lia.
Qed.

Lemma step_nvm s k z s' : inv c s -> step c s (SNvm k z) = Some s' -> inv c s'.
Proof.
  intros I H. unfold step in H. destruct (ub s); [discriminate|]. destruct (nvm c && (0 <=? z) && (z <? W)) eqn:C; [|discriminate].
  apply andb_prop in C. destruct C as [C C3]. apply andb_prop in C. destruct C as [C1 C2]. apply Z.leb_le in C2. apply Z.ltb_lt in C3.
  apply some_inj in H; subst s'. 
  apply (inv_snoc c s _ (mkI k (nobj s) z 1 false true PLive) I); proj; itf; auto; try discriminate; try congruence; [|apply wr_rng|].
  - apply (good_snoc _ (ptrs s) (ops s)); [exact (vG c s I)|sm|]. cbn [goodAt]. po. intros. repeat (split; [lia|]). lia.
  - sz. intros _ _ _. destruct (wr_ex (tot s + z)) as (n & E). exists n. lia.
Qed.

Lemma step_dup s j s' : inv c s -> step c s (SDup j) = Some s' -> inv c s'.
Proof.
  intros I H. unfold step in H. destruct (ub s); [discriminate|]. destruct (takeAt j (ptrs s)) as [[[i k|o] rest]|] eqn:T; try discriminate.
  destruct (ptr_item c s j i k rest I T) as (it & N & EP & R). rewrite N in H. apply some_inj in H; subst s'. pose proof (proj2 (vT c s I) i it N).
  clear T. apply (inv_gen c s _ i it (setPh it (iph it) (irefs it + 1) (iin it)) I N); proj; itf; auto; [|ow|exact (proj1 (vT c s I))|sz0].
  apply (good_upd _ (ptrs s) (ops s) _ _ i it); [exact (vG c s I)|exact N|sm|]. po. rewrite EP. intros (? & ? & ? & ? & ?). repeat (split; [lia|]). lia.
Qed.

Lemma step_conv s j s' : inv c s -> step c s (SConv j) = Some s' -> inv c s'.
Proof.
  intros I H. unfold step in H. destruct (ub s); [discriminate|]. destruct (takeAt j (ptrs s)) as [[[i k|o] rest]|] eqn:T; try discriminate.
  destruct k; try discriminate. apply some_inj in H; subst s'.
  apply (inv_same c s _ 0 I); proj; auto; [sm0| |exact (proj1 (vT c s I))|sz0].
  intro o. unfold own0. proj. rewrite (takeAt_sum (ptrOwn o) _ _ _ _ T). cbn [sumf ptrOwn Nat.eqb]. lia.
Qed.

Lemma step_drop s j s' : inv c s -> step c s (SDrop j) = Some s' -> inv c s'.
Proof.
  intros I H. unfold step in H. destruct (ub s); [discriminate|]. destruct (takeAt j (ptrs s)) as [[[i k|o] rest]|] eqn:T; try discriminate.
  - destruct (ptr_item c s j i k rest I T) as (it & N & EP & R).
    apply (inv_unref s (withPtrs s rest) s' i it I); proj; auto.
    + intro o. unfold own0. proj. rewrite (takeAt_sum (ptrOwn o) _ _ _ _ T). cbn [ptrOwn]. lia.
    + sm.
    + rewrite (takeAt_sum (ptrHas i) _ _ _ _ T). cbn [ptrHas]. rewrite e01_refl. lia.
  - apply some_inj in H; subst s'. apply (inv_same c s _ 0 I); proj; auto; [sm0| |exact (proj1 (vT c s I))|sz0].
    intro o'. unfold own0. proj. rewrite (takeAt_sum (ptrOwn o') _ _ _ _ T). cbn [sumf ptrOwn Nat.eqb]. lia.
Qed.

Lemma inv_ub s : inv c s -> inv c (mkSt (items s) (tot s) (gone s) (nobj s) (ptrs s) (ops s) true).
Proof. intros [a b d e f g]. constructor; assumption. Qed.
Lemma step_size s j s' : inv c s -> step c s (SSize j) = Some s' -> inv c s'.
Proof.
  intros I H. unfold step in H. destruct (ub s); [discriminate|]. destruct (takeAt j (ptrs s)) as [[[i k|o] rest]|] eqn:T; try discriminate.
  - destruct (hasDeleter k); apply some_inj in H; subst s'; [exact I|apply inv_ub; exact I].
  - apply some_inj in H; subst s'. apply inv_ub; exact I.
Qed.

Lemma inv_begUpd s j i k rest it z d s' : inv c s -> takeAt j (ptrs s) = Some (PItem i k, rest) -> nth_error (items s) i = Some it ->
  0 <= z < W -> (exists n, z - isz it = d + n * W) -> begUpd s i k rest z d = Some s' -> inv c s'.
Proof.
  intros I T N Hz (n & En) H. destruct (ptr_item c s j i k rest I T) as (it0 & N0 & EP & R). rewrite N in N0. apply some_inj in N0. subst it0.
  unfold begUpd in H. rewrite N in H. apply some_inj in H; subst s'.
  apply (inv_gen c s _ i it (setSz it z) I N); proj; itf; auto; [|ow|exact (proj1 (vT c s I))|].
  - apply (good_upd _ (ptrs s) (ops s) _ _ i it); [exact (vG c s I)|exact N|sm|]. po. rewrite EP. intros (? & ? & ? & ? & HH). repeat (split; [lia|]). intro Q. specialize (HH Q). lia.
  - sz. intros _ _ _. exists (- n). lia.
Qed.

Lemma step_upd s j z s' : inv c s -> step c s (SUpd j z) = Some s' -> inv c s'.
Proof.
  intros I H. unfold step in H. destruct (ub s); [discriminate|]. 
  destruct ((z <? 0) || (W <=? z)) eqn:C; [discriminate|]. apply orb_false_iff in C. destruct C as [C1 C2]. apply Z.ltb_ge in C1. apply Z.leb_gt in C2.
  destruct (takeAt j (ptrs s)) as [[p rest]|] eqn:T; [|discriminate].
  destruct (_ || _); [apply some_inj in H; subst s'; exact I|].
  destruct p as [i k|o]; [|apply some_inj in H; subst s'; apply inv_ub; exact I].
  destruct (hasDeleter k); [|apply some_inj in H; subst s'; apply inv_ub; exact I].
  destruct (nth_error (items s) i) as [it|] eqn:N; [|discriminate].
  apply (inv_begUpd s j i k rest it z (z - isz it) s' I T N); [lia| |exact H]. exists 0. lia.
Qed.

Lemma step_mut s j d s' : inv c s -> step c s (SMut j d) = Some s' -> inv c s'.
Proof.
  intros I H. unfold step in H. destruct (ub s); [discriminate|]. 
  destruct (takeAt j (ptrs s)) as [[[i k|o] rest]|] eqn:T; try discriminate; [|apply some_inj in H; subst s'; apply inv_ub; exact I].
  destruct (hasDeleter k); [|apply some_inj in H; subst s'; apply inv_ub; exact I].
  destruct (nth_error (items s) i) as [it|] eqn:N; [|discriminate].
  apply (inv_begUpd s j i k rest it (wr (isz it + d)) d s' I T N); [apply wr_rng| |exact H].
  destruct (wr_ex (isz it + d)) as (n & E). exists n. lia.
Qed.

(** calls *)
Lemma step_rel s n i rest s' : inv c s -> takeAt n (ops s) = Some (ORel i, rest) -> unref (withOps s rest) i = Some s' -> inv c s'.
Proof.
  intros I T H. destruct (op_live c s n _ rest i I T) as (it & N & EP & R); [cbn; rewrite e01_refl; lia|reflexivity|].
  apply (inv_unref s (withOps s rest) s' i it I); proj; auto; try (rewrite (takeAt_sum _ _ _ _ _ T); cbn [opSz opHas opNas opKill opCb]; rewrite ?e01_refl; lia).
  - sm.
Qed.
Lemma step_opnvm s n i rest x s' : inv c s -> takeAt n (ops s) = Some (ONvm i, rest) -> opStep c s (ONvm i) rest x = Some s' -> inv c s'.
Proof.
  intros I T H. destruct (op_live c s n _ rest i I T) as (it & N & EP & R); [cbn; rewrite e01_refl; lia|reflexivity|].
  assert (HU : unref (withOps s rest) i = Some s' -> inv c s').
  { intro HU. apply (inv_unref s (withOps s rest) s' i it I); proj; auto; try (rewrite (takeAt_sum _ _ _ _ _ T); cbn [opSz opHas opNas opKill opCb]; rewrite ?e01_refl; lia). sm. }
  unfold opStep in H. rewrite N in H. destruct (lookup (ikey it) (items s)) as [o|] eqn:L; [exact (HU H)|]. destruct x; [exact (HU H)|].
  apply some_inj in H; subst s'. pose proof (proj2 (vT c s I) i it N).
  apply (inv_gen c s _ i it (setPh it PLive (irefs it) true) I N); proj; itf; auto; [|ow|exact (proj1 (vT c s I))|sz0|intros _; right; apply lookup_none; exact L].
  apply (good_upd _ (ptrs s) (ops s) _ _ i it); [exact (vG c s I)|exact N|sm|]. po. rewrite EP. intros (? & ? & ? & ? & ?). repeat (split; [lia|]). discriminate.
Qed.

Lemma step_call s n r i rest x s' : inv c s -> takeAt n (ops s) = Some (OCall r i, rest) -> opStep c s (OCall r i) rest x = Some s' -> inv c s'.
Proof.
  intros I T H. destruct (op_nas c s n r i rest I T) as (it & N & Hin & R & HP). pose proof (proj2 (vT c s I) i it N) as HZ. pose proof (proj1 (vT c s I)) as HT.
  pose proof (nas_has i rest) as NN0. pose proof (sumf_nonneg (ptrHas i) (ptrs s) (ptrHas_nn i)) as NN1.
  pose proof (sumf_nonneg (opHas i) rest (opHas_nn i)) as NN2. pose proof (sumf_nonneg (opNas i) rest (opNas_nn i)) as NN3.
  unfold opStep in H. rewrite N in H. destruct r.
  - (* insertOrReplace *)
    destruct HP as [EP|[_ EP]]; rewrite EP in H.
    + apply some_inj in H; subst s'.
      apply (inv_gen c s _ i it (setPh it PAdd (irefs it) false) I N); proj; itf; auto; [|ow| | |discriminate].
      * apply (good_upd _ (ptrs s) (ops s) _ _ i it); [exact (vG c s I)|exact N|sm|]. po. rewrite EP. lia.
      * destruct (tracking c); [apply wr_rng|exact HT].
      * sz. intros -> _ _. destruct (wr_ex (tot s + isz it)) as (m & E). exists m. lia.
    + destruct (lookup (ikey it) (items s)) as [old|] eqn:L.
      * destruct (x && ovf c) eqn:XO.
        -- apply some_inj in H; subst s'. apply andb_prop in XO. destruct XO as [_ XO].
           apply (inv_gen c s _ i it (setPh it PDead 0 false) I N); proj; itf; auto; [|ow| |discriminate].
           ++ apply (good_upd _ (ptrs s) (ops s) _ _ i it); [exact (vG c s I)|exact N|sm|]. po. rewrite EP. lia.
           ++ intros _ A. congruence.
        -- destruct (lookup_some _ _ _ L) as (ot & NO & HinO & HkO). rewrite NO in H. apply some_inj in H; subst s'.
           assert (D : old <> i) by (intros ->; rewrite N in NO; apply some_inj in NO; subst ot; congruence).
           pose proof (inb_inv c s old ot I NO HinO) as EPO. pose proof (proj2 (vT c s I) old ot NO) as HZO.
           (* in two steps *)
           pose (s1 := withOps (putIt s old (setPh ot PLive (irefs ot + 1) false)) (ORel old :: OCall true i :: rest)).
           assert (I1 : inv c s1).
           { apply (inv_gen c s _ old ot (setPh ot PLive (irefs ot + 1) false) I NO); unfold s1; proj; itf; auto; [|ow|sz0].
             apply (good_upd _ (ptrs s) (ops s) _ _ old ot); [exact (vG c s I)|exact NO|sm|]. 
             pose proof (sumf_nonneg (ptrHas old) (ptrs s) (ptrHas_nn old)). pose proof (sumf_nonneg (opHas old) rest (opHas_nn old)).
             po. rewrite EPO. rewrite ?(e01_ne i old) by congruence. lia. }
           assert (N1 : nth_error (items s1) i = Some it). { unfold s1; proj. rewrite (nth_upd _ _ _ _ i NO). destruct (Nat.eqb_spec i old); [congruence|exact N]. }
           assert (U1 : sumf (inKey (ikey it)) (items s1) = 0).
           { unfold s1; proj. rewrite (sumf_upd _ _ _ _ _ NO). pose proof (vU c s I (ikey it)). pose proof (sumf_nth (inKey (ikey it)) _ _ _ (inKey_nn _) NO) as HS.
             assert (E1 : inKey (ikey it) ot = 1) by (unfold inKey; rewrite HinO, HkO, Nat.eqb_refl; reflexivity).
             assert (E2 : inKey (ikey it) (setPh ot PLive (irefs ot + 1) false) = 0) by reflexivity. lia. }
           apply (inv_gen c s1 _ i it (setPh it PLive (irefs it) true) I1 N1); unfold s1; proj; itf; auto; [|ow|sz0].
           apply (good_upd _ (ptrs s1) (ops s1) _ _ i it); [exact (vG c s1 I1)|exact N1| |]; unfold s1; proj.
           ++ intros j Dj. unfold same. cbn [sumf opHas opNas opKill opCb]. rewrite !(e01_ne i j Dj). lia.
           ++ po. rewrite EP. intros (? & ? & ? & ? & ? & ?). repeat (split; [lia|]). discriminate.
      * apply some_inj in H; subst s'.
        apply (inv_gen c s _ i it (setPh it PLive (irefs it) true) I N); proj; itf; auto; [|ow|sz0|intros _; right; apply lookup_none; exact L].
        apply (good_upd _ (ptrs s) (ops s) _ _ i it); [exact (vG c s I)|exact N|sm|]. po. rewrite EP. intros (? & ? & ? & ? & ? & ?). repeat (split; [lia|]). discriminate.
  - (* insert *)
    assert (EP : iph it = PNas) by (destruct HP as [?|[? _]]; congruence).
    destruct (lookup (ikey it) (items s)) as [old|] eqn:L; apply some_inj in H; subst s'.
    + apply (inv_gen c s _ i it (setPh it PDead 0 false) I N); proj; itf; auto; [|ow|sz0|discriminate].
      apply (good_upd _ (ptrs s) (ops s) _ _ i it); [exact (vG c s I)|exact N|sm|]. po. rewrite EP. lia.
    + apply (inv_gen c s _ i it (setPh it PLive (irefs it) true) I N); proj; itf; auto; [|ow|sz0|intros _; right; apply lookup_none; exact L].
      apply (good_upd _ (ptrs s) (ops s) _ _ i it); [exact (vG c s I)|exact N|sm|]. po. rewrite EP. intros (? & ? & ? & ? & ? & ?). repeat (split; [lia|]). discriminate.
Qed.

Lemma step_dest s n i ev rest x s' : inv c s -> takeAt n (ops s) = Some (ODest i ev, rest) -> opStep c s (ODest i ev) rest x = Some s' -> inv c s'.
Proof.
  intros I T H. destruct (op_kill c s n i ev rest I T) as (it & N & EP). pose proof (proj2 (vT c s I) i it N) as HZ. pose proof (proj1 (vT c s I)) as HT.
  unfold opStep in H. rewrite N in H. destruct (destr c && (ev && iclean it)) eqn:C; apply some_inj in H; subst s'.
  - assert (LK : leaky c = true).
    { apply andb_prop in C. destruct C as [C1 C2]. apply andb_prop in C2. destruct C2 as [_ C2]. unfold leaky. rewrite C1.
      destruct (nvm c) eqn:NV; [reflexivity|]. pose proof (vC c s I NV i it N). congruence. }
    apply (inv_gen c s _ i it (setPh it PDead 0 false) I N); proj; itf; auto; [| | |discriminate].
    + apply (good_upd _ (ptrs s) (ops s) _ _ i it); [exact (vG c s I)|exact N|sm|]. po. rewrite EP. lia.
    + intro o. unfold own0, itOwn. proj. itf. rewrite EP. pose proof (e01_nn (iobj it) o). split; [lia|congruence].
    + unfold sizeOk. congruence.
  - apply (inv_gen c s _ i it (setPh it PSub 0 false) I N); proj; itf; auto; [|ow| | |discriminate].
    + apply (good_upd _ (ptrs s) (ops s) _ _ i it); [exact (vG c s I)|exact N|sm|]. po. rewrite EP. lia.
    + destruct (tracking c); [apply wr_rng|exact HT].
    + sz. intros -> _ _. destruct (wr_ex (tot s - isz it)) as (m & E). exists m. lia.
Qed.

Lemma inv_step s a s' : inv c s -> step c s a = Some s' -> inv c s'.
Proof.
  intros I H. destruct a.
  - exact (step_insert s r k sz ok s' I H).
  - exact (step_find s k w s' I H).
  - exact (step_remove s k s' I H).
  - exact (step_evict s i q s' I H).
  - exact (step_nvm s k sz s' I H).
  - exact (step_dup s j s' I H).
  - exact (step_conv s j s' I H).
  - exact (step_drop s j s' I H).
  - exact (step_size s j s' I H).
  - exact (step_upd s j sz s' I H).
  - exact (step_mut s j d s' I H).
  - unfold step in H. destruct (ub s); [discriminate|]. destruct (takeAt n (ops s)) as [[o rest]|] eqn:T; [|discriminate].
    pose proof (proj1 (vT c s I)) as HT.
    destruct o as [r i|i z|i old|i|i k d|i|i ev|i].
    + exact (step_call s n r i rest x s' I T H).
    + cbn [opStep] in H. apply some_inj in H; subst s'.
      apply (inv_same c s _ 0 I); proj; auto; [sm0| | |].
      * intro o. unfold own0. proj. cbn [sumf ptrOwn Nat.eqb]. lia.
      * destruct (tracking c); [apply wr_rng|exact HT].
      * sz. intros -> _ _. destruct (wr_ex (tot s + z)) as (m & E). exists m. lia.
    + cbn [opStep] in H. apply some_inj in H; subst s'.
      apply (inv_same c s _ 0 I); proj; auto; [| |sz0].
      * intros j. unfold same. tk. destruct old; cbn [app sumf ptrHas opHas opNas opKill opCb]; lia.
      * intro o. unfold own0. proj. destruct old; cbn [app sumf ptrOwn Nat.eqb]; lia.
    + exact (step_rel s n i rest s' I T H).
    + cbn [opStep] in H. apply some_inj in H; subst s'.
      apply (inv_same c s _ 0 I); proj; auto; [sm0| |apply wr_rng|].
      * intro o. unfold own0. proj. cbn [sumf ptrOwn Nat.eqb]. lia.
      * sz. intros _ _ _. destruct (wr_ex (tot s + d)) as (m & E). exists m. lia.
    + exact (step_opnvm s n i rest x s' I T H).
    + exact (step_dest s n i ev rest x s' I T H).
    + destruct (op_cb c s n i rest I T) as (it & N & EP). pose proof (proj2 (vT c s I) i it N) as HZ.
      cbn [opStep] in H. rewrite N in H. apply some_inj in H; subst s'.
      apply (inv_gen c s _ i it (setPh it PDead 0 false) I N); proj; itf; auto; [|ow|sz0|discriminate].
      apply (good_upd _ (ptrs s) (ops s) _ _ i it); [exact (vG c s I)|exact N|sm|]. po. rewrite EP. lia.
Qed.
Lemma inv_run l s s' : inv c s -> run c s l = Some s' -> inv c s'.
Proof.
  revert s. induction l as [|a l IH]; intros s I; cbn [run].
  - intro H. apply some_inj in H. subst s'. exact I.
  - destruct (step c s a) as [s1|] eqn:E; [|discriminate]. apply IH. exact (inv_step s a s1 I E).
Qed.
End Steps.
