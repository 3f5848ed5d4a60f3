(** Histories of the pools (C12). *)
From Verif Require Import Bytes Compress_model AllocClass_model AllocClass_spec AllocClass_proofs AllocClass_proofs2 AllocClass_proofs3 AllocClass_proofs4 AllocClass_proofs5 Pool_model Pool_spec Pool_proofs Pool_proofs2 Pool_proofs3 Pool_proofs4.

Section H.
Context (k : conf) (LK : legalConf k) (tot : nat) (MO : memOk tot).
Ltac gp := cbn [gAc gH gPool gSA gTok] in *.

Lemma init_ci mx : (forall p, (mx p <= N.of_nat tot * kSlabSize)%N) -> CI k tot (initG mx tot).
Proof.
  intros H. constructor; cbn; auto; try lia; try tauto.
  - intros p. exists 0. cbn. split; [reflexivity|]. split; [|lia]. symmetry. clear. induction tot; cbn; auto.
  - unfold advSum. cbn. clear. induction (nPools k); cbn in *; lia.
Qed.
Definition traceOk (tr : list glabel) : Prop := noFreeListRelease tr /\ forall p v, In (GSetMax p v) tr -> (v <= N.of_nat tot * kSlabSize)%N.
Lemma traceOk_cons l tr : traceOk (l :: tr) -> lOk tot l /\ traceOk tr.
Proof.
  intros [A B]. split.
  - destruct l; cbn; auto; [apply (B p); left; reflexivity|apply (A p); left; reflexivity].
  - split; [intros p I; apply (A p); right; exact I|intros p v I; apply (B p v); right; exact I].
Qed.
Lemma run_ci x tr y : grun k x tr y -> GI k x -> CI k tot x -> traceOk tr -> CI k tot y.
Proof.
  induction 1; intros G C T; [exact C|]. apply traceOk_cons in T as [T1 T2]. apply IHgrun; [eapply gstep_gi; eauto|eapply gstep_ci; eauto|exact T2].
Qed.
Lemma history_ci mx tr g : ghistory k mx tot tr g -> sizesOk mx tot tr -> noFreeListRelease tr -> CI k tot g.
Proof. intros H [S1 S2] N. eapply run_ci; [exact H|apply init_gi|apply init_ci; exact S1|split; [exact N|exact S2]]. Qed.

Lemma step_max g l g' p : gstep k g l g' -> pMax (gPool g' p) = match l with GSetMax q v => if q =? p then v else pMax (gPool g p) | _ => pMax (gPool g p) end.
Proof.
  intros ST. inversion ST; subst; gp; try reflexivity; rewrite fupd_eq, ?(Nat.eqb_sym p0 p); destruct (Nat.eqb_spec p p0); subst; reflexivity.
Qed.
Lemma run_li x tr y p : grun k x tr y -> GI k x -> CI k tot x -> traceOk tr -> noRacyAdvise p tr -> growOnly p (pMax (gPool x p)) tr -> LI tot x p -> LI tot y p.
Proof.
  induction 1; intros G C T NR GR L; [exact L|]. apply traceOk_cons in T as [T1 T2].
  assert (GG : (forall v, l = GSetMax p v -> (pMax (gPool x p) <= v)%N) /\ growOnly p (pMax (gPool y p)) tr).
  { rewrite (step_max _ _ _ p H). destruct l; cbn in GR; try (split; [discriminate|exact GR]). destruct (Nat.eqb_spec p0 p) as [E|E]; [|split; [congruence|exact GR]].
    subst p0. split; [intros v0 Q; injection Q as <-; apply GR|apply GR]. }
  apply IHgrun; [eapply gstep_gi; eauto|eapply gstep_ci; eauto|exact T2|intros I; apply NR; right; exact I|apply GG|].
  eapply li_step; eauto; [|apply GG]. intros E. apply NR. left. exact E.
Qed.
Lemma history_li mx tr g p : ghistory k mx tot tr g -> sizesOk mx tot tr -> noFreeListRelease tr -> noRacyAdvise p tr -> growOnly p (mx p) tr -> LI tot g p.
Proof.
  intros H [S1 S2] N NR GR. eapply run_li; [exact H|apply init_gi|apply init_ci; exact S1|split; [exact N|exact S2]|exact NR|exact GR|].
  split; cbn; [|tauto]. assert (Z : slabsOf (fun _ => mkHdr None None false false 0) p tot = 0) by (clear; induction tot; cbn; auto). rewrite Z. lia.
Qed.

(** At every moment: slabs and advised slabs within the pool's size. *)
Lemma limit_holds mx tr g p : ghistory k mx tot tr g -> sizesOk mx tot tr -> noFreeListRelease tr -> noRacyAdvise p tr -> growOnly p (mx p) tr ->
  (N.of_nat (slabsOf (gH g) p tot) * kSlabSize <= pMax (gPool g p))%N /\
  (quiet g -> (N.of_nat (slabsOf (gH g) p tot) + pAdv (gPool g p)) * kSlabSize <= pMax (gPool g p))%N.
Proof.
  intros H S1 N NR GR. pose proof (history_ci _ _ _ H S1 N) as C. destruct (history_li _ _ _ _ H S1 N NR GR) as [L _]. pose proof (ci_adv2 _ _ _ C p) as A. split.
  - change (ofS (slabsOf (gH g) p tot) <= pMax (gPool g p))%N. apply units_le. lia.
  - unfold quiet. intros Q. rewrite Q in *. cbn [tcnt] in *. replace ((N.of_nat (slabsOf (gH g) p tot) + pAdv (gPool g p)) * kSlabSize)%N with (ofS (slabsOf (gH g) p tot + N.to_nat (pAdv (gPool g p)))) by (unfold ofS; lia).
    apply units_le. lia.
Qed.

(** At rest the counters are exact. *)
Lemma adv_sum_in g p : GI k g -> CI k tot g -> p < nPools k -> (pAdv (gPool g p) <= N.of_nat tot)%N.
Proof. intros G C P. eapply adv_bound; eauto. Qed.
Lemma rest_exact mx tr g : ghistory k mx tot tr g -> sizesOk mx tot tr -> noFreeListRelease tr -> quiet g ->
  (forall p, p < nPools k ->
     usedSize (gPool g p) = (N.of_nat (slabsOf (gH g) p tot) * kSlabSize)%N /\
     pCur (gPool g p) = (N.of_nat (slabsOf (gH g) p tot - length (pFree (gPool g p))) * kSlabSize)%N /\
     length (pFree (gPool g p)) <= slabsOf (gH g) p tot /\
     (overLimit (gPool g p) = true <-> (pMax (gPool g p) < (N.of_nat (slabsOf (gH g) p tot) + pAdv (gPool g p)) * kSlabSize)%N) /\
     (allSlabsAllocated (gPool g p) (pAdv (gPool g p)) (pCur (gPool g p)) = false <->
        ((N.of_nat (slabsOf (gH g) p tot - length (pFree (gPool g p))) + pAdv (gPool g p) + 1) * kSlabSize <= pMax (gPool g p))%N)) /\
  sumP (fun p => pAdv (gPool g p)) (nPools k) = N.of_nat (length (saAdv (gSA g))).
Proof.
  intros H S1 N Q. pose proof (history_ci _ _ _ H S1 N) as C. pose proof (history_gi k LK _ _ _ _ H) as G. unfold quiet in Q. split.
  - intros p P. destruct (ci_cur _ _ _ C p) as (x & X1 & X2 & X3). rewrite Q in X2, X3. cbn [tcnt] in X2, X3.
    pose proof (free_le k tot g p G (ci_tot _ _ _ C)) as F. rewrite Q in F. cbn [tcnt] in F. pose proof (adv_bound k tot MO g p G C P) as AB.
    assert (SL : slabsOf (gH g) p tot <= tot). { rewrite slabsOf_cnt. transitivity (cnt (fun _ => 1) tot); [apply cnt_le; intros s _; destruct (pIs _ _); cbn; lia|clear; induction tot; cbn; lia]. }
    assert (US : usedSize (gPool g p) = ofS (slabsOf (gH g) p tot)).
    { unfold usedSize. rewrite X1. fold (ofS (length (pFree (gPool g p)))). rewrite N.mod_small by (apply (tot_lt1 tot MO); lia). rewrite add64_ofS by (apply (tot_lt1 tot MO); lia). f_equal. lia. }
    split; [exact US|]. split; [rewrite X1; unfold ofS; f_equal; lia|]. split; [lia|]. split.
    + unfold overLimit, advSize. rewrite US. replace (pAdv (gPool g p) * kSlabSize)%N with (ofS (N.to_nat (pAdv (gPool g p)))) by (unfold ofS; lia).
      rewrite N.mod_small by (apply (tot_lt1 tot MO); lia). rewrite add64_ofS by (apply (tot_lt1 tot MO); lia). rewrite N.ltb_lt. unfold ofS. split; intros; lia.
    + rewrite (limit_false k tot MO g p _ x G C AB X1) by lia. unfold ofS. assert (x = slabsOf (gH g) p tot - length (pFree (gPool g p))) by lia. subst x. split; intros; lia.
  - pose proof (ci_adv _ _ _ C) as A. unfold advSum in A. rewrite Q in A. cbn [tcnt] in A. lia.
Qed.

(** Every slab is counted exactly once. *)
Lemma hpool_lt x tr y : grun k x tr y -> GI k x -> (forall s p, hPool (gH x s) = Some p -> p < nPools k) -> forall s p, hPool (gH y s) = Some p -> p < nPools k.
Proof.
  induction 1; intros G I; [exact I|]. apply IHgrun; [eapply gstep_gi; eauto|]. clear IHgrun H0. pose proof (gi_tok _ _ G) as TO. intros s p.
  inversion H; subst; gp; try apply I;
  try (rewrite fupd_eq; destruct (Nat.eqb_spec s s0); [|apply I]; cbn; try discriminate; intros E; injection E as <-).
  - erewrite (hpool_class k p0 c); [apply I|apply (gi_cls _ _ G); assumption|eassumption].
  - erewrite (hpool_class k p0 c); [apply I|apply (gi_cls _ _ G); assumption|eassumption].
  - apply (TO (KTake2 p0 c)). apply tok_in.
  - erewrite (hpool_class k p0 c); [apply I|apply (gi_cls _ _ G)|eassumption]. apply (TO (KGot p0 c s0)). apply tok_in.
  - erewrite (hpool_class k p0 c); [apply I|apply (gi_cls _ _ G)|eassumption]. destruct (TO (KRel p0 s0 (MRebalance (Some c)))) as [_ X]; [apply tok_in|]. apply X. reflexivity.
  - assumption.
Qed.
Lemma sumP_cnt (f : nat -> nat -> nat) n m : sumP (fun p => N.of_nat (cnt (f p) m)) n = N.of_nat (cnt (fun s => N.to_nat (sumP (fun p => N.of_nat (f p s)) n)) m).
Proof.
  induction n; cbn [sumP]; [rewrite cnt_zero; reflexivity|]. rewrite IHn. rewrite <- Nat2N.inj_add, <- cnt_add. f_equal.
  assert (E : forall g h m, (forall s, g s = h s) -> cnt g m = cnt h m) by (clear; induction m; intros; cbn; auto). apply E. intros s. lia.
Qed.
Lemma conserved mx tr g : ghistory k mx tot tr g ->
  (sumP (fun p => N.of_nat (slabsOf (gH g) p tot)) (nPools k) + N.of_nat (length (saFree (gSA g))) + N.of_nat (length (saAdv (gSA g))) + N.of_nat (tot - saNext (gSA g)) = N.of_nat tot)%N.
Proof.
  intros H. pose proof (history_gi k LK _ _ _ _ H) as G.
  assert (HL : forall s p, hPool (gH g s) = Some p -> p < nPools k) by (eapply hpool_lt; [exact H|apply init_gi|cbn; discriminate]).
  assert (TT : saTot (gSA g) = tot).
  { clear -H. assert (X : forall x tr y, grun k x tr y -> saTot (gSA y) = saTot (gSA x)).
    { clear. induction 1; [reflexivity|]. rewrite IHgrun. clear -H. inversion H; subst; cbn; try reflexivity.
      - match goal with K : makeNew _ = _ |- _ => unfold makeNew in K; rename K into K1 end. destruct (saCan sa); cbn in K1; [|discriminate]. destruct (rev (saFree sa)); [destruct (saNext sa =? saTot sa); [discriminate|]|]; injection K1 as <- <-; reflexivity.
      - match goal with K : makeNew _ = _ |- _ => unfold makeNew in K; rename K into K1 end. destruct (saCan sa); cbn in K1; [|injection K1 as <-; reflexivity]. destruct (rev (saFree sa)); [|discriminate]. destruct (saNext sa =? saTot sa); [|discriminate]. injection K1 as <-; reflexivity.
      - match goal with K : saReclaim _ = _ |- _ => unfold saReclaim in K; rename K into K1 end. destruct (rev (saAdv sa)); [discriminate|]. injection K1 as <- <-. reflexivity. }
    rewrite (X _ _ _ H). reflexivity. }
  assert (IN : forall s, In s (saFree (gSA g)) \/ In s (saAdv (gSA g)) -> s < tot).
  { intros s I. rewrite !cS_In in I. pose proof (gi_sa _ _ G s) as Q. pose proof (gi_next _ _ G) as NX. assert (b2n (noPool (gH g s)) <= 1) by (destruct (noPool _); cbn; lia).
    destruct (Nat.leb_spec (saNext (gSA g)) s); cbn in Q; lia. }
  rewrite <- (cnt_len (saFree (gSA g)) tot) by auto. rewrite <- (cnt_len (saAdv (gSA g)) tot) by auto.
  assert (U : tot - saNext (gSA g) = cnt (fun s => b2n (saNext (gSA g) <=? s)) tot).
  { generalize (saNext (gSA g)). clear. intros n. induction tot as [|m IH]; cbn [cnt]; [lia|]. rewrite <- IH. destruct (Nat.leb_spec n m); cbn [b2n Nat.b2n]; lia. }
  rewrite U. rewrite (sumP_ext _ (fun p => N.of_nat (cnt (fun s => b2n (pIs p (gH g s))) tot))) by (intros p _; rewrite slabsOf_cnt; reflexivity).
  rewrite (sumP_cnt (fun p s => b2n (pIs p (gH g s)))). rewrite <- !Nat2N.inj_add, <- !cnt_add. f_equal.
  transitivity (cnt (fun _ => 1) tot); [|clear; induction tot; cbn; lia].
  assert (E : forall g h m, (forall s, g s = h s) -> cnt g m = cnt h m) by (clear; induction m; intros; cbn; auto). apply E. intros s.
  pose proof (gi_sa _ _ G s) as Q.
  assert (P1 : forall x n, hPool x = None -> sumP (fun p => N.of_nat (b2n (pIs p x))) n = 0%N). { clear. intros x n E. unfold pIs. rewrite E. induction n; cbn in *; lia. }
  assert (P2 : forall x q n, hPool x = Some q -> sumP (fun p => N.of_nat (b2n (pIs p x))) n = N.of_nat (b2n (q <? n))).
  { clear. intros x q n E. unfold pIs. rewrite E. induction n; cbn [sumP]; [reflexivity|]. rewrite IHn. destruct (Nat.ltb_spec q n), (Nat.ltb_spec q (S n)), (Nat.eqb_spec q n); cbn [b2n Nat.b2n N.of_nat]; try lia; reflexivity. }
  destruct (hPool (gH g s)) as [q|] eqn:HP; unfold noPool in Q; rewrite HP in Q; cbn [b2n Nat.b2n] in Q.
  - rewrite (P2 _ _ _ HP). specialize (HL _ _ HP). apply Nat.ltb_lt in HL. rewrite HL. cbn [b2n Nat.b2n]. lia.
  - rewrite (P1 _ _ HP). lia.
Qed.
Lemma out_of_slabs mx tr g : ghistory k mx tot tr g -> (snd (makeNew (gSA g)) = None <-> saFree (gSA g) = [] /\ saNext (gSA g) = saTot (gSA g)).
Proof.
  intros H. pose proof (history_gi k LK _ _ _ _ H) as G. split.
  - intros E. destruct (makeNew (gSA g)) as [sa' r] eqn:M. cbn in E. subst r. destruct (makeNew_spec _ _ _ M (gi_next _ _ G) (gi_can _ _ G)) as (_ & _ & _ & _ & A & B & _). auto.
  - intros [A B]. unfold makeNew. destruct (negb (saCan (gSA g))); [reflexivity|]. rewrite A, B, Nat.eqb_refl. reflexivity.
Qed.
End H.
