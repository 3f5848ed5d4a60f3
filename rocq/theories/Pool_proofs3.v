(** Counters of the pools (C12). *)
From Verif Require Import Bytes Compress_model AllocClass_model AllocClass_spec AllocClass_proofs AllocClass_proofs2 AllocClass_proofs3 AllocClass_proofs4 AllocClass_proofs5 Pool_model Pool_spec Pool_proofs Pool_proofs2.

Definition kN : nat := N.to_nat kSlabSize.
Lemma kpos : (0 < kSlabSize)%N. Proof. reflexivity. Qed.
Lemma klt : (kSlabSize * 4 < w64)%N. Proof. reflexivity. Qed.

(** Arithmetic on whole slabs. *)
Definition ofS (x : nat) : N := (N.of_nat x * kSlabSize)%N.
Lemma ofS_add x y : ofS (x + y) = (ofS x + ofS y)%N.
Proof. unfold ofS. lia. Qed.
Lemma ofS_1 : ofS 1 = kSlabSize. Proof. reflexivity. Qed.
Lemma ofS_le x y : x <= y <-> (ofS x <= ofS y)%N.
Proof. unfold ofS. pose proof kpos. split; intros; nia. Qed.
Lemma ofS_lt x y : x < y <-> (ofS x < ofS y)%N.
Proof. unfold ofS. pose proof kpos. split; intros; nia. Qed.
Lemma add64_ofS x y : (ofS (x + y) < w64)%N -> add64 (ofS x) (ofS y) = ofS (x + y).
Proof. intros H. unfold add64. rewrite <- ofS_add. apply N.mod_small. exact H. Qed.
Lemma sub64_ofS x : 1 <= x -> (ofS x < w64)%N -> sub64 (ofS x) kSlabSize = ofS (x - 1).
Proof.
  intros H1 H2. unfold sub64. pose proof klt. rewrite (N.mod_small kSlabSize) by lia.
  replace (ofS x + (w64 - kSlabSize))%N with (ofS (x - 1) + 1 * w64)%N.
  - rewrite N.mod_add by discriminate. apply N.mod_small. pose proof (ofS_le (x - 1) x). lia.
  - rewrite <- ofS_1 at 1. replace x with (x - 1 + 1) at 2 by lia. rewrite ofS_add. rewrite ofS_1 in *. lia.
Qed.

Definition fC (p : nat) (t : tok) : nat :=
  match t with KTake2 q _ => b2n (q =? p) | KFail q => b2n (q =? p) | KDec q => b2n (q =? p) | KAdv q => b2n (q =? p) | _ => 0 end.
Definition fR (p : nat) (t : tok) : nat := match t with KRecl q _ => b2n (q =? p) | _ => 0 end.
Definition fA (p : nat) (t : tok) : nat := match t with KAdv q => b2n (q =? p) | _ => 0 end.
Definition fT (p : nat) (t : tok) : nat := match t with KTake q _ => b2n (q =? p) | _ => 0 end.
Definition fL (p : nat) (t : tok) : nat :=
  match t with KRead q _ _ => b2n (q =? p) | KTake q _ => b2n (q =? p) | KTake2 q _ => b2n (q =? p) | KFail q => b2n (q =? p) | _ => 0 end.
Lemma fL_lock p t : fL p t = b2n (locking p t).
Proof. destruct t; reflexivity. Qed.
Definition fAall (t : tok) : nat := match t with KAdv _ => 1 | _ => 0 end.
Definition fRall (t : tok) : nat := match t with KRecl _ _ => 1 | _ => 0 end.
Lemma unlocked_cnt p l : unlocked p l <-> tcnt (fL p) l = 0.
Proof.
  unfold unlocked. induction l as [|x r IH]; cbn; [tauto|]. rewrite fL_lock. destruct (locking p x); cbn; [split; [discriminate|lia]|exact IH].
Qed.
Lemma recl_cnt p l : reclCount p l = tcnt (fR p) l.
Proof. unfold reclCount. induction l as [|x r IH]; cbn; [reflexivity|]. destruct x; cbn; auto. destruct (p0 =? p); cbn; lia. Qed.

(** Counting slabs. *)
Fixpoint cnt (f : nat -> nat) (n : nat) : nat := match n with 0 => 0 | S m => f m + cnt f m end.
Lemma cnt_le f g n : (forall s, s < n -> f s <= g s) -> cnt f n <= cnt g n.
Proof. induction n; intros H; cbn; [lia|]. pose proof (H n (Nat.lt_succ_diag_r n)). assert (cnt f n <= cnt g n) by (apply IHn; intros; apply H; lia). lia. Qed.
Lemma cnt_add f g n : cnt (fun s => f s + g s) n = cnt f n + cnt g n.
Proof. induction n; cbn; lia. Qed.
Lemma cnt_zero f n : (forall s, s < n -> f s = 0) -> cnt f n = 0.
Proof. induction n; intros H; cbn; [reflexivity|]. rewrite (H n) by lia. rewrite IHn; [lia|]. intros; apply H; lia. Qed.
Lemma cnt_one s n : s < n -> cnt (fun u => b2n (s =? u)) n = 1.
Proof.
  induction n; [lia|]. intros H. cbn. destruct (Nat.eqb_spec s n) as [E|E]; cbn.
  - rewrite cnt_zero; [lia|]. intros u L. destruct (Nat.eqb_spec s u); [lia|reflexivity].
  - rewrite IHn; lia.
Qed.
Lemma cnt_len l n : (forall s, In s l -> s < n) -> cnt (fun s => cS s l) n = length l.
Proof.
  induction l as [|x r IH]; intros H; cbn [length cS]; [apply cnt_zero; reflexivity|]. rewrite (cnt_add (fun s => b2n (x =? s)) (fun s => cS s r)).
  rewrite cnt_one by (apply H; left; reflexivity). rewrite IH by (intros; apply H; right; auto). lia.
Qed.
Lemma slabsOf_cnt h p n : slabsOf h p n = cnt (fun s => b2n (pIs p (h s))) n.
Proof. induction n; cbn; [reflexivity|]. rewrite IHn. reflexivity. Qed.
Lemma slabsOf_ext h h' p n : (forall s, hPool (h' s) = hPool (h s)) -> slabsOf h' p n = slabsOf h p n.
Proof. intros E. induction n; cbn; [reflexivity|]. rewrite IHn. unfold pIs. rewrite E. reflexivity. Qed.
Lemma slabsOf_upd h s x p n : s < n -> slabsOf (fupd h s x) p n + b2n (pIs p (h s)) = slabsOf h p n + b2n (pIs p x).
Proof.
  induction n; [lia|]. intros L. cbn [slabsOf]. rewrite fupd_eq. change Nat.b2n with b2n. destruct (Nat.eqb_spec n s) as [E|E].
  - subst n. assert (slabsOf (fupd h s x) p s = slabsOf h p s); [|lia].
    clear. assert (X : forall m, m <= s -> slabsOf (fupd h s x) p m = slabsOf h p m).
    { induction m; intros L; cbn; [reflexivity|]. rewrite IHm by lia. rewrite fupd_other by lia. reflexivity. } apply X. lia.
  - rewrite <- Nat.add_assoc, IHn by lia. lia.
Qed.
Lemma sumP_upd (f : nat -> N) i x n : i < n -> (sumP (fun p => if (p =? i)%nat then x else f p) n + f i = sumP f n + x)%N.
Proof.
  induction n; [lia|]. intros L. cbn [sumP]. destruct (Nat.eqb_spec n i) as [E|E].
  - subst n. assert (sumP (fun p => if p =? i then x else f p) i = sumP f i); [|lia].
    clear. assert (X : forall m, m <= i -> sumP (fun p => if p =? i then x else f p) m = sumP f m).
    { induction m; intros L; cbn [sumP]; [reflexivity|]. rewrite IHm by lia. destruct (Nat.eqb_spec m i); [lia|reflexivity]. } apply X. lia.
  - specialize (IHn ltac:(lia)). lia.
Qed.
Lemma sumP_ext f g n : (forall p, p < n -> f p = g p) -> sumP f n = sumP g n.
Proof. induction n; intros H; cbn; [reflexivity|]. rewrite (H n) by lia. rewrite IHn; [reflexivity|]. intros; apply H; lia. Qed.
Lemma sumP_in f p n : p < n -> (f p <= sumP f n)%N.
Proof. induction n; [lia|]. intros L. cbn. destruct (Nat.eq_dec p n); [subst; lia|]. specialize (IHn ltac:(lia)). lia. Qed.

Section C.
Context (k : conf) (LK : legalConf k) (tot : nat) (MO : memOk tot).
Ltac gp := cbn [gAc gH gPool gSA gTok] in *.

Lemma tot_lt x : x <= 4 * tot -> (ofS x < w64)%N.
Proof. intros H. unfold memOk in MO. unfold ofS. pose proof kpos. nia. Qed.
Lemma tot_lt1 x : x <= 2 * tot + 1 -> (ofS x < w64)%N.
Proof.
  intros H. destruct tot as [|n] eqn:E.
  - pose proof klt. assert (ofS x <= ofS 1)%N by (apply ofS_le; lia). rewrite ofS_1 in *. lia.
  - rewrite <- E in *. apply tot_lt. lia.
Qed.

Definition readOk (t : tok) : Prop := match t with KRead _ _ a => (a <= N.of_nat tot)%N | _ => True end.
Definition curOk (g : gst) (p : nat) : Prop :=
  exists x, pCur (gPool g p) = ofS x /\ x + length (pFree (gPool g p)) + tcnt (fR p) (gTok g) = slabsOf (gH g) p tot + tcnt (fC p) (gTok g) /\
    x + tcnt (fT p) (gTok g) <= tot.
Definition advSum (g : gst) : Prop :=
  (sumP (fun p => pAdv (gPool g p)) (nPools k) + N.of_nat (tcnt fAall (gTok g)) = N.of_nat (length (saAdv (gSA g)) + tcnt fRall (gTok g)))%N.
Record CI (g : gst) : Prop := mkCI {
  ci_tot : saTot (gSA g) = tot;
  ci_lock : forall p, tcnt (fL p) (gTok g) <= 1;
  ci_cur : forall p, curOk g p;
  ci_max : forall p, (pMax (gPool g p) <= ofS tot)%N;
  ci_adv : advSum g;
  ci_adv2 : forall p, (N.of_nat (tcnt (fR p) (gTok g)) <= pAdv (gPool g p))%N;
  ci_read : forall t, In t (gTok g) -> readOk t
}.

Lemma hdr_below g s p : GI k g -> saTot (gSA g) = tot -> hPool (gH g s) = Some p -> s < tot.
Proof.
  intros G T H. pose proof (gi_sa _ _ G s) as Q. unfold noPool in Q. rewrite H in Q. cbn [b2n Nat.b2n] in Q. pose proof (gi_next _ _ G) as NX.
  destruct (Nat.leb_spec (saNext (gSA g)) s); cbn in Q; lia.
Qed.
Lemma tcnt_le f g l : (forall t, In t l -> f t <= g t) -> tcnt f l <= tcnt g l.
Proof. induction l; intros H; cbn; [lia|]. pose proof (H a (or_introl eq_refl)). assert (tcnt f l <= tcnt g l) by (apply IHl; intros; apply H; right; auto). lia. Qed.
Lemma tcnt_cnt (f : nat -> tok -> nat) (F : tok -> nat) l n : (forall t, In t l -> cnt (fun s => f s t) n = F t) -> cnt (fun s => tcnt (f s) l) n = tcnt F l.
Proof.
  induction l; intros H; cbn; [apply cnt_zero; reflexivity|]. rewrite (cnt_add (fun s => f s a) (fun s => tcnt (f s) l)). rewrite H by (left; reflexivity).
  rewrite IHl by (intros; apply H; right; auto). reflexivity.
Qed.
Lemma free_le g p : GI k g -> saTot (gSA g) = tot -> length (pFree (gPool g p)) + tcnt (fR p) (gTok g) <= slabsOf (gH g) p tot.
Proof.
  intros G T. rewrite slabsOf_cnt.
  assert (A : length (pFree (gPool g p)) = cnt (fun s => cS s (pFree (gPool g p))) tot).
  { symmetry. apply cnt_len. intros s I. destruct (pfree_hdr _ _ _ _ G I) as [H _]. eapply hdr_below; eauto. }
  set (rs := fun s t => match t with KRecl q u => b2n ((q =? p) && (u =? s)) | _ => 0 end).
  assert (B : tcnt (fR p) (gTok g) = cnt (fun s => tcnt (rs s) (gTok g)) tot).
  { symmetry. apply tcnt_cnt. intros t I. destruct t; try (apply cnt_zero; reflexivity). cbn. destruct (Nat.eqb_spec p0 p) as [E|E]; cbn [andb b2n Nat.b2n].
    - apply cnt_one. destruct (hand_hdr _ _ _ _ _ G I eq_refl) as [H _]. eapply hdr_below; eauto.
    - apply cnt_zero. reflexivity. }
  rewrite A, B, <- cnt_add. apply cnt_le. intros s _. pose proof (gi_free _ _ G s p) as Q.
  assert (tcnt (rs s) (gTok g) <= tcnt (tkS p s) (gTok g)). { apply tcnt_le. intros t _. destruct t; cbn; lia. }
  assert (b2n (pc0 p (gH g s)) <= b2n (pIs p (gH g s))). { unfold pc0. destruct (pIs p (gH g s)); [|cbn; lia]. destruct (hClass (gH g s)); cbn; lia. }
  lia.
Qed.
Lemma adv_le g : GI k g -> saTot (gSA g) = tot -> length (saAdv (gSA g)) + tcnt fRall (gTok g) <= tot.
Proof.
  intros G T.
  assert (A : length (saAdv (gSA g)) = cnt (fun s => cS s (saAdv (gSA g))) tot).
  { symmetry. apply cnt_len. intros s I. apply cS_In in I. pose proof (gi_sa _ _ G s) as Q. pose proof (gi_next _ _ G) as NX. assert (b2n (noPool (gH g s)) <= 1) by (destruct (noPool _); cbn; lia).
    destruct (Nat.leb_spec (saNext (gSA g)) s); cbn in Q; lia. }
  set (rs := fun s t => match t with KRecl q u => b2n (u =? s) | _ => 0 end).
  assert (B : tcnt fRall (gTok g) = cnt (fun s => tcnt (rs s) (gTok g)) tot).
  { symmetry. apply tcnt_cnt. intros t I. destruct t; try (apply cnt_zero; reflexivity). cbn.
    apply cnt_one. destruct (hand_hdr _ _ _ _ _ G I eq_refl) as [H _]. eapply hdr_below; eauto. }
  rewrite A, B, <- cnt_add. transitivity (cnt (fun _ => 1) tot); [|clear; induction tot; cbn; lia]. apply cnt_le. intros s _.
  pose proof (gi_sa _ _ G s) as Q.
  destruct (hPool (gH g s)) as [p|] eqn:HP; unfold noPool in Q; rewrite HP in Q; cbn [b2n Nat.b2n] in Q.
  - assert (tcnt (rs s) (gTok g) <= tcnt (tkS p s) (gTok g)).
    { apply tcnt_le. intros t I. destruct t; cbn; try lia. destruct (hand_hdr _ _ _ _ _ G I eq_refl) as [H _]. destruct (Nat.eqb_spec s0 s) as [E|E]; [subst|cbn; lia].
      rewrite HP in H. injection H as ->. rewrite Nat.eqb_refl. reflexivity. }
    pose proof (gi_free _ _ G s p) as Q2. assert (b2n (pc0 p (gH g s)) <= 1) by (destruct (pc0 _ _); cbn; lia). lia.
  - assert (Z : tcnt (rs s) (gTok g) = 0); [|lia].
    destruct (tcnt (rs s) (gTok g)) eqn:E; [reflexivity|]. exfalso. destruct (tcnt_pos (rs s) (gTok g)) as (t & I & L); [lia|]. destruct t; cbn in L; try lia.
    destruct (hand_hdr _ _ _ _ _ G I eq_refl) as [H _]. destruct (Nat.eqb_spec s0 s) as [E2|E2]; [subst; congruence|cbn in L; lia].
Qed.
Lemma adv_bound g p : GI k g -> CI g -> p < nPools k -> (pAdv (gPool g p) <= N.of_nat tot)%N.
Proof.
  intros G C L. pose proof (ci_adv _ C) as A. unfold advSum in A. pose proof (adv_le _ G (ci_tot _ C)). pose proof (sumP_in (fun p => pAdv (gPool g p)) _ _ L). cbn beta in *. lia.
Qed.

(** A step about pool p only. *)
Record same (g g' : gst) (q : nat) : Prop := mkSame {
  sm_pool : gPool g' q = gPool g q;
  sm_slabs : slabsOf (gH g') q tot = slabsOf (gH g) q tot;
  sm_R : tcnt (fR q) (gTok g') = tcnt (fR q) (gTok g);
  sm_C : tcnt (fC q) (gTok g') = tcnt (fC q) (gTok g);
  sm_A : tcnt (fA q) (gTok g') = tcnt (fA q) (gTok g);
  sm_T : tcnt (fT q) (gTok g') = tcnt (fT q) (gTok g);
  sm_L : tcnt (fL q) (gTok g') = tcnt (fL q) (gTok g) }.
Lemma ci_upd g g' p : CI g -> (forall q, q <> p -> same g g' q) -> saTot (gSA g') = tot ->
  tcnt (fL p) (gTok g') <= 1 -> curOk g' p -> (pMax (gPool g' p) <= ofS tot)%N -> advSum g' ->
  (N.of_nat (tcnt (fR p) (gTok g')) <= pAdv (gPool g' p))%N -> (forall t, In t (gTok g') -> readOk t) -> CI g'.
Proof.
  intros C SM T L CU MX AD A2 RD. constructor; auto; intros q; destruct (Nat.eq_dec q p) as [E|E]; try (subst q; assumption); destruct (SM q E) as [S1 S2 S3 S4 S5 S6 S7].
  - rewrite S7. apply C.
  - destruct (ci_cur _ C q) as (x & X1 & X2 & X3). exists x. rewrite S1, S2, S3, S4, S6. auto.
  - rewrite S1. apply C.
  - rewrite S1, S3. apply C.
Qed.

Definition lOk (l : glabel) : Prop := match l with GFreeListRelease _ => False | GSetMax _ v => (v <= ofS tot)%N | _ => True end.
Ltac tks := rewrite ?tcnt_mid in *; cbn [tcnt fC fR fA fT fL locking fAall fRall] in *; change (b2n false) with 0 in *.
Ltac eqs EQ := rewrite ?EQ, ?Nat.eqb_refl in *; cbn [b2n Nat.b2n] in *.
Ltac smt p := let q := fresh "q" in let NQ := fresh "NQ" in let EQ := fresh "EQ" in
  intros q NQ; assert (EQ : (p =? q) = false) by (apply Nat.eqb_neq; congruence); constructor; gp;
  [rewrite ?fupd_other by congruence; reflexivity | try reflexivity | | | | |]; try (tks; eqs EQ; reflexivity).
Lemma hpool_class p c f h l t' h' : Inv (cfgOf k p c) (f p c, h) -> astep (cfgOf k p c) (f p c, h) l (t', h') -> forall s, hPool (h' s) = hPool (h s).
Proof.
  intros I ST s. destruct (option_eq_dec_leaves l s) as [L|L].
  - destruct (astep_leave _ _ _ _ _ _ _ ST I L) as (_ & Q & _). exact Q.
  - assert (l = LAddSlab s \/ l <> LAddSlab s) as [->|NA].
    { destruct l; try (right; discriminate). destruct (Nat.eq_dec s0 s) as [->|X]; [left; reflexivity|right; congruence]. }
    + destruct (astep_add _ _ _ _ _ _ ST) as (Q1 & _ & Q2 & _). congruence.
    + apply (astep_keep _ _ _ _ _ _ _ ST I L NA).
Qed.
Lemma slabs_other h s x p q : s < tot -> pIs q (h s) = pIs q x -> q <> p -> slabsOf (fupd h s x) q tot = slabsOf h q tot.
Proof. intros L E _. pose proof (slabsOf_upd h s x q tot L). rewrite E in H. lia. Qed.
Lemma readOk_mid t1 x t2 : (forall t, In t (t1 ++ x :: t2) -> readOk t) -> forall t, In t (t1 ++ t2) -> readOk t.
Proof. intros H. apply tok_mid in H. apply H. Qed.
Lemma advsum_pool g pl x : advSum g -> (forall p, pAdv (pl p) = pAdv (gPool g p)) -> tcnt fAall x = tcnt fAall (gTok g) -> tcnt fRall x = tcnt fRall (gTok g) ->
  forall f h sa, saAdv sa = saAdv (gSA g) -> advSum (mkG f h pl sa x).
Proof. intros A E E1 E2 f h sa E3. unfold advSum in *. gp. rewrite E1, E2, E3. rewrite (sumP_ext _ (fun p => pAdv (gPool g p))); auto. Qed.
Lemma limit_false g p a x : GI k g -> CI g -> (a <= N.of_nat tot)%N -> pCur (gPool g p) = ofS x -> x <= tot ->
  (allSlabsAllocated (gPool g p) a (pCur (gPool g p)) = false <-> (ofS (x + N.to_nat a + 1) <= pMax (gPool g p))%N).
Proof.
  intros G C LA X1 X2. unfold allSlabsAllocated, advSize. rewrite X1.
  replace (a * kSlabSize)%N with (ofS (N.to_nat a)) by (unfold ofS; lia). rewrite N.mod_small by (apply tot_lt1; lia).
  rewrite add64_ofS by (apply tot_lt1; lia). rewrite <- ofS_1. rewrite add64_ofS by (apply tot_lt1; lia). rewrite N.ltb_ge. reflexivity.
Qed.

Lemma ci_all g g' : CI g -> (forall q, same g g' q) -> saTot (gSA g') = tot -> advSum g' -> (forall t, In t (gTok g') -> readOk t) -> CI g'.
Proof.
  intros C SM T AD RD. constructor; auto; intros q; destruct (SM q) as [S1 S2 S3 S4 S5 S6 S7].
  - rewrite S7. apply C.
  - destruct (ci_cur _ C q) as (x & X1 & X2 & X3). exists x. rewrite S1, S2, S3, S4, S6. auto.
  - rewrite S1. apply C.
  - rewrite S1, S3. apply C.
Qed.
Ltac sma := let q := fresh "q" in intros q; constructor; gp; [reflexivity | try reflexivity | tks; lia ..].
Ltac adv0 := eapply advsum_pool; [eassumption | gp; try reflexivity | gp; tks; lia | gp; tks; lia | gp; try reflexivity].
Ltac rd RD := first [exact RD | exact (readOk_mid _ _ _ RD) | refine (tok_mid' readOk _ _ _ _ (readOk_mid _ _ _ RD)); exact I].
Ltac getp p P := let x := fresh "x" in destruct (P p) as (PL & (x & X1 & X2 & X3) & PM & PA & PF); unfold curOk; gp; tks; eqs 0.

Theorem gstep_ci g l g' : GI k g -> CI g -> gstep k g l g' -> lOk l -> CI g'.
Proof.
  intros G C ST LO. pose proof (ci_tot _ C) as T. pose proof (ci_read _ C) as RD. pose proof (gi_tok _ _ G) as TO. pose proof (ci_adv _ C) as AS.
  assert (P : forall p, tcnt (fL p) (gTok g) <= 1 /\ curOk g p /\ (pMax (gPool g p) <= ofS tot)%N /\ (N.of_nat (tcnt (fR p) (gTok g)) <= pAdv (gPool g p))%N /\
     length (pFree (gPool g p)) + tcnt (fR p) (gTok g) <= slabsOf (gH g) p tot).
  { intros p. split; [apply C|]. split; [apply C|]. split; [apply C|]. split; [apply C|]. apply free_le; auto. }
  inversion ST; subst g l g'; gp; try (destruct LO; fail).
  - (* class *) eapply ci_all; [exact C| |exact T| |exact RD]; [sma|adv0]. apply slabsOf_ext. eapply hpool_class; eauto. apply (gi_cls _ _ G). assumption.
  - (* leave *) eapply ci_all; [exact C| |exact T| |]; [sma|adv0|]. + apply slabsOf_ext. eapply hpool_class; eauto. apply (gi_cls _ _ G). assumption. + intros t [<-|I]; [exact I|auto].
  - (* read *) apply (ci_upd _ _ p C); gp; [smt p|exact T| | |apply P|adv0| |]; [getp p P..|].
    + apply unlocked_cnt in H0. lia.
    + exists x. auto.
    + lia.
    + intros t [<-|I]; [|auto]. cbn. apply (adv_bound _ p G C). apply H.
  - (* full *) apply (ci_upd _ _ p C); gp; [smt p|exact T| | |apply P| adv0| |rd RD]; getp p P; try lia. exists x. auto.
  - (* room *) pose proof (RD _ (tok_in _ _ _)) as RA. cbn in RA.
    apply (ci_upd _ _ p C); gp; [smt p|exact T| | |apply P| adv0| |rd RD]; getp p P; try lia. exists x. split; [exact X1|]. split; [lia|].
    destruct (limit_false _ p adv x G C RA) as [LF1 _]; gp; [exact X1|lia|]. specialize (LF1 H).
    assert (LF2 : (ofS (x + N.to_nat adv + 1) <= ofS tot)%N) by lia. apply ofS_le in LF2.
    assert (tcnt (fT p) (t1 ++ t2) <= tcnt (fL p) (t1 ++ t2)). { apply tcnt_le. intros t _. destruct t; cbn; try lia. } lia.
  - (* bump *) apply (ci_upd _ _ p C); gp; [smt p|exact T| | | | adv0| |rd RD]; [getp p P..| |getp p P]; rewrite ?fupd_same; cbn [pCur pFree pAdv pMax setCur]; try lia.
    + exists (x + 1). rewrite X1. split; [rewrite <- ofS_1 at 1; apply add64_ofS, tot_lt1; lia|]. lia.
    + intros q. rewrite fupd_eq. destruct (Nat.eqb_spec q p); subst; reflexivity.
  - (* pop *) apply (ci_upd _ _ p C); gp; [smt p|exact T| | | | adv0| |rd RD]; [getp p P..| |getp p P]; rewrite ?fupd_same; cbn [pCur pFree pAdv pMax setFree]; try lia.
    + exists x. split; [exact X1|]. rewrite (hd_len _ _ H) in X2. lia.
    + intros q. rewrite fupd_eq. destruct (Nat.eqb_spec q p); subst; reflexivity.
  - (* new *) destruct (makeNew_spec _ _ _ H0 (gi_next _ _ G) (gi_can _ _ G)) as (A1 & A2 & A3 & _ & A5 & _).
    pose proof (gi_sa _ _ G s) as Q. gp. pose proof (A5 s) as Q2. rewrite Nat.eqb_refl in Q2. unfold saCnt in Q2.
    assert (NP : noPool (h s) = true) by (destruct (noPool (h s)); [reflexivity|cbn in Q, Q2; lia]).
    assert (HP : hPool (h s) = None) by (unfold noPool in NP; destruct (hPool (h s)); [discriminate|reflexivity]).
    pose proof (gstep_gi k LK _ _ _ G ST) as G'.
    assert (SL : s < tot). { apply (hdr_below _ s p G'); gp; [lia|]. rewrite fupd_same. reflexivity. }
    assert (SU : forall q, slabsOf (fupd h s (initHdr p)) q tot = slabsOf h q tot + b2n (p =? q)).
    { intros q. pose proof (slabsOf_upd h s (initHdr p) q tot SL) as U. unfold pIs in U. rewrite HP in U. cbn [initHdr hPool] in U. change (b2n false) with 0 in U. lia. }
    apply (ci_upd _ _ p C); gp; [smt p|lia| | |apply P| adv0; exact A3| |rd RD]; [|getp p P..].
    + rewrite SU, EQ. cbn. lia.
    + lia.
    + exists x. rewrite SU, Nat.eqb_refl. cbn [b2n Nat.b2n]. split; [exact X1|]. lia.
    + lia.
  - (* new failed *) destruct (makeNew_spec _ _ _ H0 (gi_next _ _ G) (gi_can _ _ G)) as (A1 & A2 & A3 & _). gp.
    apply (ci_upd _ _ p C); gp; [smt p|lia| | |apply P| adv0; exact A3| |rd RD]; getp p P; try lia. exists x. split; [exact X1|]. lia.
  - (* unbump *) apply (ci_upd _ _ p C); gp; [smt p|exact T| | | | adv0| |rd RD]; [getp p P..| |getp p P]; rewrite ?fupd_same; cbn [pCur pFree pAdv pMax setCur]; try lia.
    + exists (x - 1). rewrite X1. split; [apply sub64_ofS; [lia|apply tot_lt1; lia]|]. lia.
    + intros q. rewrite fupd_eq. destruct (Nat.eqb_spec q p); subst; reflexivity.
  - (* add *) eapply ci_all; [exact C| |exact T| |]; [sma|adv0|rd RD]. apply slabsOf_ext. eapply hpool_class; eauto. apply (gi_cls _ _ G). apply (TO (KGot p c s)). apply tok_in.
  - (* give back *) eapply ci_all; [exact C| |exact T| |]; [sma|adv0|rd RD].
  - (* resize *) destruct (hand_hdr _ _ _ _ _ G (tok_in _ _ _) eq_refl) as (Q1 & Q2 & Q3). gp.
    assert (SL : s < tot) by (apply (hdr_below _ s p G); gp; [lia|exact Q1]).
    assert (SU : forall q, slabsOf (fupd h s (resetHdr (h s))) q tot + b2n (p =? q) = slabsOf h q tot).
    { intros q. pose proof (slabsOf_upd h s (resetHdr (h s)) q tot SL) as U. unfold pIs in U. rewrite Q1 in U. cbn [resetHdr advHdr hPool] in U. change (b2n false) with 0 in U. lia. }
    apply (ci_upd _ _ p C); gp; [smt p|exact T| | |apply P| adv0| |rd RD]; [|getp p P..].
    + specialize (SU q). rewrite EQ in SU. cbn in SU. lia.
    + lia.
    + exists x. specialize (SU p). rewrite Nat.eqb_refl in SU. cbn [b2n Nat.b2n] in SU. split; [exact X1|]. lia.
    + lia.
  - (* advise ok *) destruct (hand_hdr _ _ _ _ _ G (tok_in _ _ _) eq_refl) as (Q1 & Q2 & Q3). gp.
    assert (SL : s < tot) by (apply (hdr_below _ s p G); gp; [lia|exact Q1]).
    assert (SU : forall q, slabsOf (fupd h s (advHdr (h s))) q tot + b2n (p =? q) = slabsOf h q tot).
    { intros q. pose proof (slabsOf_upd h s (advHdr (h s)) q tot SL) as U. unfold pIs in U. rewrite Q1 in U. cbn [resetHdr advHdr hPool] in U. change (b2n false) with 0 in U. lia. }
    apply (ci_upd _ _ p C); gp; [smt p|exact T| | |apply P| | |rd RD]; [|getp p P..| |getp p P].
    + specialize (SU q). rewrite EQ in SU. cbn in SU. lia.
    + lia.
    + exists x. specialize (SU p). rewrite Nat.eqb_refl in SU. cbn [b2n Nat.b2n] in SU. split; [exact X1|]. lia.
    + unfold advSum in *. gp. tks. cbn [saAdvise saAdv]. rewrite app_length. cbn [length]. lia.
    + lia.
  - (* advise count *) assert (PN : p < nPools k) by (apply (TO (KAdv p)); apply tok_in).
    pose proof (adv_bound _ p G C PN) as AB. pose proof (tot_lt1 (2 * tot + 1) (Nat.le_refl _)) as TL. pose proof kpos as KP.
    assert (AW : add64 (pAdv (pl p)) 1 = (pAdv (pl p) + 1)%N). { gp. unfold add64. apply N.mod_small. unfold ofS in TL. nia. }
    apply (ci_upd _ _ p C); gp; [smt p|exact T| | | | | |rd RD]; [getp p P..| |getp p P]; rewrite ?fupd_same; cbn [pCur pFree pAdv pMax setAdv]; try lia.
    + exists x. split; [exact X1|]. lia.
    + unfold advSum in *. gp. tks. pose proof (sumP_upd (fun q => pAdv (pl q)) p (pAdv (pl p) + 1)%N _ PN) as SP. cbn beta in SP.
      rewrite (sumP_ext _ (fun q => if q =? p then (pAdv (pl p) + 1)%N else pAdv (pl q))); [lia|].
      intros q _. rewrite fupd_eq. destruct (q =? p); [|reflexivity]. cbn. exact AW.
  - (* advise fail *) eapply ci_all; [exact C| |exact T| |]; [sma|adv0|rd RD].
  - (* rebalance, free *) eapply ci_all; [exact C| |exact T| |]; [sma|adv0|rd RD].
  - (* rebalance to *) eapply ci_all; [exact C| |exact T| |]; [sma|adv0|rd RD]. apply slabsOf_ext. eapply hpool_class; eauto. apply (gi_cls _ _ G).
    destruct (TO (KRel p s (MRebalance (Some c)))) as [_ X]; [apply tok_in|]. apply X. reflexivity.
  - (* push *) apply (ci_upd _ _ p C); gp; [smt p|exact T| | | | adv0| |rd RD]; [getp p P..| |getp p P]; rewrite ?fupd_same; cbn [pCur pFree pAdv pMax setFree]; try lia.
    + exists x. split; [exact X1|]. rewrite app_length. cbn [length]. lia.
    + intros q. rewrite fupd_eq. destruct (Nat.eqb_spec q p); subst; reflexivity.
  - (* dec *) apply (ci_upd _ _ p C); gp; [smt p|exact T| | | | adv0| |rd RD]; [getp p P..| |getp p P]; rewrite ?fupd_same; cbn [pCur pFree pAdv pMax setCur]; try lia.
    + exists (x - 1). rewrite X1. split; [apply sub64_ofS; [lia|apply tot_lt1; lia]|]. lia.
    + intros q. rewrite fupd_eq. destruct (Nat.eqb_spec q p); subst; reflexivity.
  - (* reclaim *) unfold saReclaim in H1. destruct (rev (saAdv sa)) as [|y r0] eqn:RV; [discriminate|]. apply pair_equal_spec in H1 as [<- E]. injection E as ->.
    assert (RV2 : hd_error (rev (saAdv sa)) = Some s) by (rewrite RV; reflexivity).
    assert (AC : cS s (saAdv sa) = cS s (removelast (saAdv sa)) + b2n (s =? s)) by (apply hd_cS; exact RV2).
    pose proof (gi_sa _ _ G s) as Q. gp. rewrite Nat.eqb_refl in AC. cbn [b2n Nat.b2n] in AC.
    assert (NP : noPool (h s) = true) by (destruct (noPool (h s)); [reflexivity|cbn in Q; lia]).
    assert (HP : hPool (h s) = None) by (unfold noPool in NP; destruct (hPool (h s)); [discriminate|reflexivity]).
    pose proof (gstep_gi k LK _ _ _ G ST) as G'.
    assert (SL : s < tot). { apply (hdr_below _ s p G'); gp; [exact T|]. rewrite fupd_same. reflexivity. }
    assert (SU : forall q, slabsOf (fupd h s (initHdr p)) q tot = slabsOf h q tot + b2n (p =? q)).
    { intros q. pose proof (slabsOf_upd h s (initHdr p) q tot SL) as U. unfold pIs in U. rewrite HP in U. cbn [initHdr hPool] in U. change (b2n false) with 0 in U. lia. }
    rewrite recl_cnt in H0.
    apply (ci_upd _ _ p C); gp; [smt p|exact T| | |apply P| | |]; [|getp p P..| |getp p P|].
    + rewrite SU, EQ. cbn. lia.
    + lia.
    + exists x. rewrite SU, Nat.eqb_refl. cbn [b2n Nat.b2n]. split; [exact X1|]. lia.
    + unfold advSum in *. gp. tks. cbn [saAdv]. rewrite (hd_len _ _ RV2) in AS. lia.
    + lia.
    + intros t [<-|I]; [exact I|auto].
  - (* reclaim push *) assert (PN : p < nPools k) by (apply (TO (KRecl p s)); apply tok_in).
    assert (PP : (1 <= pAdv (pl p))%N). { destruct (P p) as (_ & _ & _ & X & _). rewrite tcnt_mid in X. cbn [fR] in X. rewrite Nat.eqb_refl in X. cbn [b2n Nat.b2n] in X. lia. }
    pose proof (adv_bound _ p G C PN) as AB. pose proof (tot_lt1 (2 * tot + 1) (Nat.le_refl _)) as TL. pose proof kpos as KP.
    assert (AW : sub64 (pAdv (pl p)) 1 = (pAdv (pl p) - 1)%N).
    { gp. assert (pAdv (pl p) < w64)%N by (unfold ofS in TL; nia). unfold sub64. rewrite (N.mod_small 1) by reflexivity. replace (pAdv (pl p) + (w64 - 1))%N with (pAdv (pl p) - 1 + 1 * w64)%N by (assert (1 < w64)%N by reflexivity; lia).
      rewrite N.mod_add by discriminate. apply N.mod_small. lia. }
    apply (ci_upd _ _ p C); gp; [smt p|exact T| | | | | |rd RD]; [getp p P..| |getp p P]; rewrite ?fupd_same; cbn [pCur pFree pAdv pMax setAdv setFree]; try lia.
    + exists x. split; [exact X1|]. rewrite app_length. cbn [length]. lia.
    + unfold advSum in *. gp. tks. pose proof (sumP_upd (fun q => pAdv (pl q)) p (pAdv (pl p) - 1)%N _ PN) as SP. cbn beta in SP.
      rewrite (sumP_ext _ (fun q => if q =? p then (pAdv (pl p) - 1)%N else pAdv (pl q))); [lia|].
      intros q _. rewrite fupd_eq. destruct (q =? p); [|reflexivity]. cbn. exact AW.
  - (* set max *) apply (ci_upd _ _ p C); gp; [smt p|exact T| | | | adv0| |rd RD]; [getp p P..| | |getp p P]; rewrite ?fupd_same; cbn [pCur pFree pAdv pMax setMax]; try lia.
    + exists x. auto.
    + exact LO.
    + intros q. rewrite fupd_eq. destruct (Nat.eqb_spec q p); subst; reflexivity.
Qed.
End C.
