(** Readers read the generation of the region they looked up. *)
From Coq Require Import List Arith Bool NArith ZArith Lia.
Import ListNotations.
From Verif Require Import RegMgr_model RegMgr_proofs RegMgr_proofs2 RegMgr_proofs3.

Definition late (t : tst) : option nat :=
  match t with JSeq r | JBlock r | JWaitR r | JReset r | CDetach r _ | CRet r _ _ | CSeq r _ | CReset r _ => Some r | _ => None end.
Definition post (t : tst) : option nat := match t with JBlock r | JWaitR r | JReset r | CReset r _ => Some r | _ => None end.
Definition precl (t : tst) : option nat := match t with FLoop r _ _ | FWrite r _ _ | CWait r _ | CCb r _ => Some r | _ => None end.
Definition tq (t : tst) : option nat := match t with RIdx q | ROpen _ _ q | RChk _ _ _ q => Some q | _ => None end.
Definition trd (t : tst) : option (nat * nat * nat) := match t with ROpen r g q | RChk r _ g q => Some (r, g, q) | _ => None end.
Record ginv (s : state) : Prop := {
  g_idx : forall r g R, In (r, g) (index s) -> nth_error (regs s) r = Some R -> gen R = g /\ items R <> 0;
  g_late : forall j t r g, nth_error (thr s) j = Some t -> late t = Some r -> In (r, g) (index s) -> False;
  g_cln : forall j t r R, nth_error (thr s) j = Some t -> precl t = Some r -> nth_error (regs s) r = Some R -> cleaned R = false;
  g_q : forall j t q, nth_error (thr s) j = Some t -> tq t = Some q -> q <= seqn s;
  g_rd : forall j t r g, nth_error (thr s) j = Some t -> trd t = Some (r, g, seqn s) -> forall R, nth_error (regs s) r = Some R -> gen R = g;
  g_rp : forall j t r g j' t', nth_error (thr s) j = Some t -> trd t = Some (r, g, seqn s) -> nth_error (thr s) j' = Some t' -> post t' = Some r -> False;
  g_hold : forall j r p g R, nth_error (thr s) j = Some (RHold r p g) -> nth_error (regs s) r = Some R -> gen R = g }.

Lemma late_own t r : late t = Some r -> exists k, okind t = Some (r, k).
Proof. destruct t; cbn; try discriminate; intros [= ->]; eauto. Qed.
Lemma trd_tq t r g q : trd t = Some (r, g, q) -> tq t = Some q.
Proof. destruct t; cbn; try discriminate; congruence. Qed.
Lemma post_late t r : post t = Some r -> late t = Some r.
Proof. destruct t; cbn; try discriminate; auto. Qed.
Lemma precl_own t r : precl t = Some r -> okind t = Some (r, KFl).
Proof. destruct t; cbn; try discriminate; intros [= ->]; eauto. Qed.

Lemma late_wr al t r R : late t = Some r -> Q al t R -> wr R = 0%Z.
Proof. destruct t; cbn; try discriminate; tauto. Qed.

(** split a thread of the new state into the one that moved, the others, and new ones *)
Ltac whose E N1 :=
  match type of N1 with
  | nth_error (_ ++ _) _ = _ => apply nth_app_or in N1; destruct N1 as [N1|N1]
  | _ => idtac
  end;
  match type of N1 with
  | nth_error (upd _ ?i _) ?j = _ => rewrite nth_upd, E in N1; destruct (Nat.eqb_spec j i) as [->|]; [injection N1 as <-|]
  | In _ (repeat _ _) => apply repeat_spec in N1; subst
  | In _ [_] => destruct N1 as [<-|[]]
  | _ => idtac
  end.
Ltac regsplit N1 :=
  match type of N1 with
  | nth_error (upd _ _ _) _ = Some _ => rewrite nth_upd in N1;
     match type of N1 with context [Nat.eqb ?x ?y] => destruct (Nat.eqb_spec x y) as [->|] end;
     [match goal with H : nth_error (regs _) ?x = Some ?z |- _ => match type of N1 with context [nth_error (regs _) x] => rewrite H in N1; injection N1 as <- end end|]
  | _ => idtac
  end.
Ltac pre RS ST E H NB :=
  match type of ST with SV ?c ?n ?nb ?s => match type of E with nth_error _ ?i = Some ?t =>
  let SN := fresh "SN" in
  pose proof (sane_all c n s i t RS (s_own _ _ _ _ (proj1 ST)) (s_lock _ _ _ _ (proj1 ST)) (s_sz _ _ _ _ (proj1 ST)) E) as SN;
  unfold tstep, openAlloc, startFlush in H;
  destruct t; cases H; subst; try (nobad SN; fail); noevil; proj; clear SN end end.

Lemma gidx_tstep c n nb s i t b k s' e : (regionSize c <= 2 ^ 30)%N -> SV c n nb s -> ginv s -> nth_error (thr s) i = Some t ->
  tstep c s i t b k = Some (s', e) -> ~ In EBad e -> (forall r, ~ In (EReadFail r) e) ->
  forall r g R, In (r, g) (index s') -> nth_error (regs s') r = Some R -> gen R = g /\ items R <> 0.
Proof.
  intros RS SW G E H NB NF r1 g1 R1 I1 N1. pose proof (g_idx s G) as GI. pose proof (g_late s G i t) as GL.
  pose proof (fun r => w_D c s (proj2 SW) i t r E) as DI.
  pre RS SW E H NB; try exact (GI r1 g1 R1 I1 N1).
  all: try (regsplit N1; [|exact (GI r1 g1 R1 I1 N1)]).
  all: cbn [gen items rAlloc rPend rFlushed rCleaned rBuf rReset rMark rBlock rCnt] in *.
  all: try (eapply GI; eassumption).
  all: try (exfalso; eapply GL; [exact E|reflexivity|exact I1]).
  - split; [eapply GI; eassumption|discriminate].
  - split; [eapply GI; eassumption|discriminate].
  - destruct I1 as [X|I1]; [|eauto]. injection X as <- <-. destruct (DI _ eq_refl) as (R2 & N2 & Q2). cbn in Q2. rewrite N2 in N1. injection N1 as <-. tauto.
  - apply in_noEntries in I1. destruct I1 as [I1 NE]. regsplit N1; [congruence|eauto].
  - apply in_noEntries in I1. destruct I1 as [I1 NE]. eauto.
Qed.
Lemma glate_tstep c n nb s i t b k s' e : (regionSize c <= 2 ^ 30)%N -> SV c n nb s -> ginv s -> nth_error (thr s) i = Some t ->
  tstep c s i t b k = Some (s', e) -> ~ In EBad e -> (forall r, ~ In (EReadFail r) e) ->
  forall j t r g, nth_error (thr s') j = Some t -> late t = Some r -> In (r, g) (index s') -> False.
Proof.
  intros RS SW G E H NB NF j t1 r1 g1 N1 L1 I1. pose proof (g_late s G) as GL.
  pose proof (fun r => w_D c s (proj2 SW) i t r E) as DI. pose proof (w_D c s (proj2 SW)) as D.
  pose proof (g_cln s G i t) as GC. pose proof (g_idx s G) as GI.
  pre RS SW E H NB; try exact (GL j t1 r1 g1 N1 L1 I1).
  all: try (whose E N1).
  all: try (exact (GL _ t1 r1 g1 N1 L1 I1)).
  all: try discriminate L1.
  all: try (cbn [late] in L1; injection L1 as <-; eapply GL; [exact E|reflexivity|exact I1]).
  all: try (destruct k0; discriminate L1).
  - destruct (clean s); discriminate L1.
  - destruct I1 as [X|I1]; [|eauto]. injection X as -> ->.
    destruct (late_own _ _ L1) as [q OK]. destruct (D j t1 r1 N1 (okind_treg _ _ _ OK)) as (R2 & N2 & Q2).
    pose proof (cnt_W c s i _ _ _ R2 (proj2 SW) E N2). pose proof (late_wr _ _ _ _ L1 Q2). lia.
  - cbn in L1. injection L1 as ->. pose proof (GC r1 _ E eq_refl Heqo). congruence.
  - cbn in L1. injection L1 as ->. apply in_noEntries in I1. tauto.
  - apply in_noEntries in I1. eapply GL; [exact N1|exact L1|apply I1].
  - cbn in L1. injection L1 as ->. destruct (GI r1 g1 _ I1 Heqo) as [_ X]. apply Nat.eqb_eq in Heqb0. congruence.
  - cbn in L1. injection L1 as ->. apply in_noEntries in I1. tauto.
  - apply in_noEntries in I1. eapply GL; [exact N1|exact L1|apply I1].
  - unfold bad in NF. apply (NF r). destruct (isNone (buf r0)); cbn; auto.
  - destruct (allowRead c); cbn in L1; injection L1 as ->; (eapply GL; [exact E|reflexivity|exact I1]).
  - destruct (seqn s =? q); discriminate L1.
Qed.
Lemma gcln_tstep c n nb s i t b k s' e : (regionSize c <= 2 ^ 30)%N -> SV c n nb s -> ginv s -> nth_error (thr s) i = Some t ->
  tstep c s i t b k = Some (s', e) -> ~ In EBad e ->
  forall j t r R, nth_error (thr s') j = Some t -> precl t = Some r -> nth_error (regs s') r = Some R -> cleaned R = false.
Proof.
  intros RS SW G E H NB j t1 r1 R1 N1 L1 NR. pose proof (g_cln s G) as GC. pose proof (s_own _ _ _ _ (proj1 SW)) as O.
  pre RS SW E H NB; try exact (GC j t1 r1 R1 N1 L1 NR).
  all: try (whose E N1).
  all: try (exact (GC _ t1 r1 R1 N1 L1 NR)).
  all: try discriminate L1.
  all: try (cbn [precl] in L1; injection L1 as <-; eapply GC; [exact E|reflexivity|exact NR]).
  all: try (destruct k0; discriminate L1).
  all: try (regsplit NR; [|exact (GC _ t1 r1 R1 N1 L1 NR)]).
  all: cbn [cleaned rAlloc rPend rFlushed rCleaned rBuf rReset rMark rBlock rCnt] in *; try reflexivity.
  all: try (eapply GC; [exact N1|exact L1|eassumption]).
  - cbn in L1. injection L1 as <-. rewrite nth_upd, Nat.eqb_refl, Heqo1 in NR. injection NR as <-.
    destruct (o_ok c n s O n0 KAct r0 (tot_ra s a r n0 Heqo Heqo0) Heqo1) as (_ & _ & _ & _ & _ & X). exact X.
  - cbn in L1. injection L1 as <-. rewrite nth_upd, Nat.eqb_refl, Heqo1 in NR. injection NR as <-.
    destruct (o_ok c n s O n0 KAct r0 (tot_ra s a r n0 Heqo Heqo0) Heqo1) as (_ & _ & _ & _ & _ & X). exact X.
  - destruct (clean s); discriminate L1.
  - cbn in L1. injection L1 as <-. rewrite nth_upd, Nat.eqb_refl, Heqo1 in NR. injection NR as <-.
    destruct (o_ok c n s O n0 KAct r0 (tot_ra s a r n0 Heqo Heqo0) Heqo1) as (_ & _ & _ & _ & _ & X). exact X.
  - exfalso. eapply (x_tt c n s i j _ t1); [exact O|exact E|exact N1|assumption|reflexivity|exact (precl_own _ _ L1)].
  - destruct (allowRead c); discriminate L1.
  - destruct (seqn s =? q); discriminate L1.
Qed.
Lemma gq_tstep c n nb s i t b k s' e : (regionSize c <= 2 ^ 30)%N -> SV c n nb s -> ginv s -> nth_error (thr s) i = Some t ->
  tstep c s i t b k = Some (s', e) -> ~ In EBad e ->
  forall j t q, nth_error (thr s') j = Some t -> tq t = Some q -> q <= seqn s'.
Proof.
  intros RS SW G E H NB j t1 q1 N1 L1. pose proof (g_q s G) as GC.
  pre RS SW E H NB; try exact (GC j t1 q1 N1 L1).
  all: try (whose E N1).
  all: try (exact (GC _ t1 q1 N1 L1)).
  all: try discriminate L1.
  all: try (cbn [tq] in L1; injection L1 as <-; first [lia|exact (GC _ _ _ E eq_refl)]).
  all: try (destruct k0; discriminate L1).
  all: try (match type of L1 with tq (if ?x then _ else _) = _ => destruct x; discriminate L1 | tq (match ?x with _ => _ end) = _ => destruct x; discriminate L1 end).
  all: pose proof (GC _ t1 q1 N1 L1); lia.
Qed.
Lemma grd_tstep c n nb s i t b k s' e : (regionSize c <= 2 ^ 30)%N -> SV c n nb s -> ginv s -> nth_error (thr s) i = Some t ->
  tstep c s i t b k = Some (s', e) -> ~ In EBad e ->
  forall j t r g, nth_error (thr s') j = Some t -> trd t = Some (r, g, seqn s') -> forall R, nth_error (regs s') r = Some R -> gen R = g.
Proof.
  intros RS SW G E H NB j t1 r1 g1 N1 L1 R1 NR. pose proof (g_rd s G) as GC. pose proof (g_q s G) as GQ. pose proof (g_rp s G) as GP.
  pose proof (g_idx s G) as GI.
  pre RS SW E H NB; try exact (GC j t1 r1 g1 N1 L1 R1 NR).
  all: try (whose E N1).
  all: try (exact (GC _ t1 r1 g1 N1 L1 R1 NR)).
  all: try discriminate L1.
  all: try (destruct k0; discriminate L1).
  all: try (match type of L1 with trd (if ?x then _ else _) = _ => destruct x; discriminate L1 | trd (match ?x with _ => _ end) = _ => destruct x; discriminate L1 end).
  all: try (regsplit NR; [|exact (GC _ t1 r1 g1 N1 L1 R1 NR)]).
  all: cbn [gen rAlloc rPend rFlushed rCleaned rBuf rReset rMark rBlock rCnt] in *.
  all: try (eapply GC; [exact N1|exact L1|eassumption]).
  all: try (exfalso; eapply GP; [exact N1|exact L1|exact E|reflexivity]).
  - pose proof (GQ _ _ _ N1 (trd_tq _ _ _ _ L1)). lia.
  - pose proof (GQ _ _ _ N1 (trd_tq _ _ _ _ L1)). lia.
  - cbn in L1. injection L1 as -> -> ->. apply nth_error_In in Heqo. eapply GI; eassumption.
  - cbn in L1. injection L1 as -> -> ->. rewrite nth_upd, Nat.eqb_refl, Heqo in NR. injection NR as <-. cbn.
    eapply GC; [exact E|reflexivity|exact Heqo].
  - cbn in L1. injection L1 as -> -> ->. rewrite nth_upd, Nat.eqb_refl, Heqo in NR. injection NR as <-. cbn.
    eapply GC; [exact E|reflexivity|exact Heqo].
Qed.
Lemma grp_tstep c n nb s i t b k s' e : (regionSize c <= 2 ^ 30)%N -> SV c n nb s -> ginv s -> nth_error (thr s) i = Some t ->
  tstep c s i t b k = Some (s', e) -> ~ In EBad e ->
  forall j t r g j' t', nth_error (thr s') j = Some t -> trd t = Some (r, g, seqn s') -> nth_error (thr s') j' = Some t' -> post t' = Some r -> False.
Proof.
  intros RS SW G E H NB j t1 r1 g1 j2 t2 N1 L1 N2 P2. pose proof (g_q s G) as GQ. pose proof (g_rp s G) as GP. pose proof (g_late s G) as GL.
  pre RS SW E H NB; try exact (GP j t1 r1 g1 j2 t2 N1 L1 N2 P2).
  all: try (whose E N1).
  all: try discriminate L1.
  all: try (whose E N2).
  all: try discriminate P2.
  all: try exact (GP j t1 r1 g1 j2 t2 N1 L1 N2 P2).
  all: try (destruct k0; first [discriminate L1|discriminate P2]).
  all: try (match type of L1 with trd (if ?x then _ else _) = _ => destruct x; discriminate L1 | trd (match ?x with _ => _ end) = _ => destruct x; discriminate L1 end).
  all: try (match type of P2 with post (match ?x with _ => _ end) = _ => destruct x; discriminate P2 end).
  all: try (pose proof (GQ _ _ _ N1 (trd_tq _ _ _ _ L1)); lia).
  all: try (cbn [post] in P2; injection P2 as ->; eapply GP; [exact N1|exact L1|exact E|reflexivity]).
  - cbn in L1. injection L1 as -> -> ->. apply nth_error_In in Heqo. eapply GL; [exact N2|exact (post_late _ _ P2)|exact Heqo].
  - cbn in L1. injection L1 as -> -> ->. eapply GP; [exact E|reflexivity|exact N2|exact P2].
  - cbn in L1. injection L1 as -> -> ->. eapply GP; [exact E|reflexivity|exact N2|exact P2].
Qed.
Lemma idle_no_rdr c s j t r p R : winv c s -> nth_error (thr s) j = Some t -> rdr t = Some (r, p) -> nth_error (regs s) r = Some R -> idle R = true -> False.
Proof.
  intros W N1 RD NR ID. pose proof (cnt_R c s j t r p R W N1 RD NR). destruct (w_cnt c s W r R NR) as (A & B & C).
  unfold idle in ID. apply Z.eqb_eq in ID. destruct p; lia.
Qed.
Lemma ghold_tstep c n nb s i t b k s' e : (regionSize c <= 2 ^ 30)%N -> SV c n nb s -> ginv s -> nth_error (thr s) i = Some t ->
  tstep c s i t b k = Some (s', e) -> ~ In EBad e ->
  forall j r p g R, nth_error (thr s') j = Some (RHold r p g) -> nth_error (regs s') r = Some R -> gen R = g.
Proof.
  intros RS SW G E H NB j r1 p1 g1 R1 N1 NR. pose proof (g_hold s G) as GC. pose proof (g_rd s G) as GD.
  pre RS SW E H NB; try exact (GC j r1 p1 g1 R1 N1 NR).
  all: try (match type of N1 with nth_error (upd _ _ _) _ = _ => idtac | nth_error (_ ++ _) _ = _ => idtac end;
     remember (RHold r1 p1 g1) as t1 eqn:ET; whose E N1; subst; try discriminate).
  all: try exact (GC j r1 p1 g1 R1 N1 NR).
  all: try (regsplit NR; [|exact (GC _ _ _ _ _ N1 NR)]).
  all: cbn [gen rAlloc rPend rFlushed rCleaned rBuf rReset rMark rBlock rCnt] in *.
  all: try (eapply GC; [exact N1|eassumption]).
  all: try (exfalso; eapply idle_no_rdr; [exact (proj2 SW)|exact N1|reflexivity|eassumption|assumption]).
  all: try (match type of ET with kontT ?k = _ => destruct k; discriminate ET | (match ?x with _ => _ end) = _ => destruct x eqn:EX; try discriminate ET end).
  injection ET as -> -> ->. apply Nat.eqb_eq in EX. subst q. eapply GD; [exact E|reflexivity|exact NR].
Qed.
Lemma ginv_step c n nb s a s' e : (regionSize c <= 2 ^ 30)%N -> SV c n nb s -> ginv s -> step c s a = Some (s', e) ->
  ~ In EBad e -> (forall r, ~ In (EReadFail r) e) -> ginv s'.
Proof.
  intros RS SW G H NB NF. destruct a; cbn [step] in H.
  - cases H; [exact G|]. destruct G as [A B C D F F2 G2]. constructor; proj; auto.
    + intros j t r g X. apply nth_app_or in X. destruct X as [X|[<-|[]]]; [eauto|discriminate].
    + intros j t r R X. apply nth_app_or in X. destruct X as [X|[<-|[]]]; [eauto|discriminate].
    + intros j t q X. apply nth_app_or in X. destruct X as [X|[<-|[]]]; [eauto|discriminate].
    + intros j t r g X. apply nth_app_or in X. destruct X as [X|[<-|[]]]; [eauto|discriminate].
    + intros j t r g j' t' X1 X2 X3 X4. apply nth_app_or in X1, X3. destruct X1 as [X1|[<-|[]]]; [|discriminate].
      destruct X3 as [X3|[<-|[]]]; [eauto|discriminate].
    + intros j r p g R X. apply nth_app_or in X. destruct X as [X|[X|[]]]; [eauto|discriminate].
  - injection H as <- <-. destruct G as [A B C D F F2 G2]. constructor; proj; auto.
    + intros j t r g X. apply nth_app_or in X. destruct X as [X|[<-|[]]]; [eauto|discriminate].
    + intros j t r R X. apply nth_app_or in X. destruct X as [X|[<-|[]]]; [eauto|discriminate].
    + intros j t q X. apply nth_app_or in X. destruct X as [X|[<-|[]]]; [eauto|discriminate].
    + intros j t r g X. apply nth_app_or in X. destruct X as [X|[<-|[]]]; [eauto|discriminate].
    + intros j t r g j' t' X1 X2 X3 X4. apply nth_app_or in X1, X3. destruct X1 as [X1|[<-|[]]]; [|discriminate].
      destruct X3 as [X3|[<-|[]]]; [eauto|discriminate].
    + intros j r p g R X. apply nth_app_or in X. destruct X as [X|[X|[]]]; [eauto|discriminate].
  - injection H as <- <-. destruct G as [A B C D F F2 G2]. constructor; proj; auto.
    + intros j t r g X. apply nth_app_or in X. destruct X as [X|[<-|[]]]; [eauto|discriminate].
    + intros j t r R X. apply nth_app_or in X. destruct X as [X|[<-|[]]]; [eauto|discriminate].
    + intros j t q X. apply nth_app_or in X. destruct X as [X|[<-|[]]]; [eauto|discriminate].
    + intros j t r g X. apply nth_app_or in X. destruct X as [X|[<-|[]]]; [eauto|discriminate].
    + intros j t r g j' t' X1 X2 X3 X4. apply nth_app_or in X1, X3. destruct X1 as [X1|[<-|[]]]; [|discriminate].
      destruct X3 as [X3|[<-|[]]]; [eauto|discriminate].
    + intros j r p g R X. apply nth_app_or in X. destruct X as [X|[X|[]]]; [eauto|discriminate].
  - injection H as <- <-. destruct G as [A B C D F F2 G2]. constructor; proj; auto.
    + intros r g R X. apply in_del in X. eauto.
    + intros j t r g X1 X2 X. apply in_del in X. eauto.
  - destruct (nth_error (thr s) i) as [t|] eqn:E; [|discriminate]. constructor.
    + exact (gidx_tstep c n nb s i t b k s' e RS SW G E H NB NF).
    + exact (glate_tstep c n nb s i t b k s' e RS SW G E H NB NF).
    + exact (gcln_tstep c n nb s i t b k s' e RS SW G E H NB).
    + exact (gq_tstep c n nb s i t b k s' e RS SW G E H NB).
    + exact (grd_tstep c n nb s i t b k s' e RS SW G E H NB).
    + exact (grp_tstep c n nb s i t b k s' e RS SW G E H NB).
    + exact (ghold_tstep c n nb s i t b k s' e RS SW G E H NB).
Qed.
Lemma ginv_init n nr nb : ginv (init n nr nb).
Proof.
  constructor; cbn [init index thr]; try (intros [|j] ? ? ? X; discriminate X); try (intros [|j] ? ? ? ? X; discriminate X).
  - intros r g R [].
  - intros [|j] t q X; discriminate X.
  - intros [|j] ? ? ? ? ? X; discriminate X.
Qed.
Lemma reach_G c n nr nb s tr : (regionSize c <= 2 ^ 30)%N -> reach c n nr nb s tr -> ~ In EBad tr -> (forall r, ~ In (EReadFail r) tr) -> ginv s.
Proof.
  intros RS R. induction R; intros NB NF; [apply ginv_init|].
  assert (NB1 : ~ In EBad tr) by (intros X; apply NB; apply in_app_iff; auto).
  eapply ginv_step; [exact RS|exact (reach_SV _ _ _ _ _ _ RS R NB1)| |exact H| |].
  - apply IHR; [exact NB1|]. intros r X. apply (NF r). apply in_app_iff; auto.
  - intros X. apply NB. apply in_app_iff; auto.
  - intros r X. apply (NF r). apply in_app_iff; auto.
Qed.

