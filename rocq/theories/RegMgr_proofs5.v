(** Allocation cursors; freedom from deadlock. *)
From Coq Require Import List Arith Bool NArith ZArith Lia.
Import ListNotations.
From Verif Require Import RegMgr_model RegMgr_spec RegMgr_proofs RegMgr_proofs2 RegMgr_proofs3 RegMgr_proofs4.

Definition cur1 (r : nat) (c : N) (e : event) : N :=
  match e with
  | EAlloc x _ z => if Nat.eqb x r then (c + z)%N else c
  | EReset x => if Nat.eqb x r then 0%N else c
  | _ => c
  end.
Lemma cursor_app r a b : cursor r (a ++ b) = fold_left (cur1 r) b (cursor r a).
Proof. unfold cursor. rewrite fold_left_app. reflexivity. Qed.
Lemma end_tstep c n nb s i t b k s' e : (regionSize c <= 2 ^ 30)%N -> struct c n nb s -> nth_error (thr s) i = Some t ->
  tstep c s i t b k = Some (s', e) ->
  (forall r R R', nth_error (regs s) r = Some R -> nth_error (regs s') r = Some R' -> lastEnd R' = fold_left (cur1 r) e (lastEnd R)) /\
  (forall r o z, In (EAlloc r o z) e -> exists R, nth_error (regs s) r = Some R /\ o = lastEnd R /\ (o + z <= regionSize c)%N /\ (0 < z)%N /\
     exists e0, e = bad e0 [EAlloc r o z]).
Proof.
  intros RS ST E H. pose proof (s_sz _ _ _ _ ST) as SZ.
  pose proof (sane_all c n s i t RS (s_own _ _ _ _ ST) (s_lock _ _ _ _ ST) (s_sz _ _ _ _ ST) E) as SN.
  pose proof (o_end _ _ _ (s_own _ _ _ _ ST)) as OE. specialize (SZ t). specialize (fun sz => SZ sz (nth_error_In _ _ E)).
  unfold tstep, openAlloc, startFlush in H; destruct t; cases H; subst; try (nobad SN; fail); proj; clear SN; split.
  all: try (intros r1 o1 z1 I1; exfalso; unfold bad in I1;
     try match type of I1 with In _ (if ?x then _ else _) => destruct x end; cbn [In] in I1; intuition discriminate).
  all: try (intros r1 R1 R2 N1 N2; unfold bad;
     try match goal with |- context [if ?x then _ else EBad :: _] => destruct x end; cbn [fold_left cur1]; regsplit N2;
     try match goal with H : nth_error (regs _) ?x = Some _, H' : nth_error (regs _) ?x = Some _ |- _ => tryif constr_eq H H' then fail else (rewrite H in H'; injection H' as ->) end;
     rewrite ?Nat.eqb_refl; cbn [lastEnd rAlloc rPend rFlushed rCleaned rBuf rReset rMark rBlock rCnt]; try reflexivity; fail).
  - intros r1 R1 R2 N1 N2. specialize (SZ _ eq_refl). unfold bad. destruct (openOk r0); cbn [fold_left cur1]; regsplit N2;
      try (rewrite Nat.eqb_refl, N1 in *; injection Heqo1 as ->; cbn [lastEnd rAlloc]; apply (mod_small c); eauto; fail);
      match goal with H : ?x <> ?y |- _ => rewrite (eqb_false _ _ H) end; congruence.
  - intros r1 o1 z1 I1. specialize (SZ _ eq_refl). assert (X : EAlloc r1 o1 z1 = EAlloc n0 (lastEnd r0) sz).
    { unfold bad in I1. destruct (openOk r0); cbn [In] in I1; intuition congruence. }
    injection X as -> -> ->. exists r0. split; [exact Heqo1|]. split; [reflexivity|]. unfold canAllocate in Heqb0.
    rewrite (mod_small c) in Heqb0 by eauto. apply N.leb_le in Heqb0. split; [exact Heqb0|]. split; [lia|]. eexists; reflexivity.
  - intros r2 R1 R2 N1 N2. specialize (SZ _ eq_refl). unfold bad. destruct (openOk r1); cbn [fold_left cur1]; regsplit N2;
      try (rewrite Nat.eqb_refl, N1 in *; injection Heqo0 as ->; cbn [lastEnd rAlloc]; apply (mod_small c); eauto; fail);
      match goal with H : ?x <> ?y |- _ => rewrite (eqb_false _ _ H) end; congruence.
  - intros r2 o1 z1 I1. specialize (SZ _ eq_refl). assert (X : EAlloc r2 o1 z1 = EAlloc r (lastEnd r1) sz).
    { unfold bad in I1. destruct (openOk r1); cbn [In] in I1; intuition congruence. }
    injection X as -> -> ->. exists r1. split; [exact Heqo0|]. split; [reflexivity|].
    match goal with H : _ && canAllocate _ _ _ = true |- _ => apply andb_true_iff in H; destruct H as [_ H]; unfold canAllocate in H;
    rewrite (mod_small c) in H by eauto; apply N.leb_le in H end. split; [assumption|]. split; [lia|]. eexists; reflexivity.
  - intros r1 R1 R2 N1 N2; unfold bad; destruct (idle r0); cbn [fold_left cur1]; regsplit N2;
     try (rewrite Nat.eqb_refl; reflexivity); match goal with H : ?x <> ?y |- _ => rewrite (eqb_false _ _ H) end; congruence.
  - intros r1 R1 R2 N1 N2; unfold bad; destruct (idle r0); cbn [fold_left cur1]; regsplit N2;
     try (rewrite Nat.eqb_refl; reflexivity); match goal with H : ?x <> ?y |- _ => rewrite (eqb_false _ _ H) end; congruence.
Qed.

Lemma end_step c n nb s a s' e : (regionSize c <= 2 ^ 30)%N -> struct c n nb s -> step c s a = Some (s', e) ->
  (forall r R R', nth_error (regs s) r = Some R -> nth_error (regs s') r = Some R' -> lastEnd R' = fold_left (cur1 r) e (lastEnd R)) /\
  (forall r o z, In (EAlloc r o z) e -> exists R, nth_error (regs s) r = Some R /\ o = lastEnd R /\ (o + z <= regionSize c)%N /\ (0 < z)%N /\
     exists e0, e = bad e0 [EAlloc r o z]).
Proof.
  intros RS ST H. destruct a; cbn [step] in H.
  5: { destruct (nth_error (thr s) i) as [t|] eqn:E; [|discriminate]. eapply end_tstep; eauto. }
  all: repeat match type of H with (if ?x then _ else _) = _ => destruct x end; injection H as <- <-; proj;
    (split; [intros r R R' A B; cbn [fold_left]; congruence|intros r o z []]).
Qed.
Lemma reach_end c n nr nb s tr : (regionSize c <= 2 ^ 30)%N -> reach c n nr nb s tr ->
  (forall r R, nth_error (regs s) r = Some R -> lastEnd R = cursor r tr) /\
  (forall t1 t2 r o z, tr = t1 ++ EAlloc r o z :: t2 -> o = cursor r t1 /\ (o + z <= regionSize c)%N /\ (0 < z)%N).
Proof.
  intros RS R. induction R as [|s tr a s' e R [IH1 IH2] H].
  - split.
    + intros r R1 A. apply nth_repeat in A. subst. reflexivity.
    + intros t1 t2 r o z X. destruct t1; discriminate.
  - pose proof (reach_struct c n nr nb s tr RS R) as ST. destruct (end_step c n nb s a s' e RS ST H) as [A B]. split.
    + intros r R1 N1. pose proof (struct_step c n nb s a s' e RS ST H) as ST'.
      destruct (nth_error (regs s) r) as [R0|] eqn:N0.
      * rewrite (A r R0 R1 N0 N1), (IH1 r R0 N0), cursor_app. reflexivity.
      * exfalso. apply nth_error_None in N0. rewrite (o_len _ _ _ (s_own _ _ _ _ ST)) in N0.
        assert (nth_error (regs s') r = None) by (apply nth_error_None; rewrite (o_len _ _ _ (s_own _ _ _ _ ST')); exact N0). congruence.
    + intros t1 t2 r o z X.
      destruct (le_lt_dec (length tr) (length t1)) as [LE|LT].
      * assert (X1 : exists u, t1 = tr ++ u /\ e = u ++ EAlloc r o z :: t2).
        { exists (skipn (length tr) t1). pose proof (f_equal (skipn (length tr)) X) as Y. pose proof (f_equal (firstn (length tr)) X) as Y2.
          rewrite skipn_app, skipn_all, Nat.sub_diag in Y. cbn in Y. rewrite skipn_app in Y.
          replace (length tr - length t1) with 0 in Y by lia. cbn in Y.
          rewrite firstn_app, Nat.sub_diag, firstn_all, firstn_app in Y2. cbn in Y2. rewrite app_nil_r in Y2.
          replace (length tr - length t1) with 0 in Y2 by lia. cbn in Y2. rewrite app_nil_r in Y2.
          split; [|exact Y]. rewrite Y2 at 1. symmetry. apply firstn_skipn. }
        destruct X1 as (u & -> & EE). destruct (B r o z) as (R1 & N1 & OE & P1 & P2 & e0 & EQ).
        { rewrite EE. apply in_app_iff. right. left. reflexivity. }
        split; [|auto]. rewrite cursor_app, OE, (IH1 r R1 N1). rewrite EE in EQ. unfold bad in EQ.
        destruct e0; destruct u as [|u0 [|u1 u]]; cbn in EQ; try discriminate; try reflexivity; injection EQ as ->; try reflexivity.
        all: match goal with H : _ ++ _ :: _ = [] |- _ => destruct u; discriminate | _ => idtac end.
        all: try discriminate; reflexivity.
      * assert (X1 : exists u, tr = t1 ++ EAlloc r o z :: u).
        { exists (skipn (S (length t1)) tr). pose proof (f_equal (firstn (S (length t1))) X) as Y. 
          rewrite firstn_app in Y. replace (S (length t1) - length tr) with 0 in Y by lia. rewrite firstn_O, app_nil_r in Y.
          rewrite firstn_app in Y. replace (S (length t1) - length t1) with 1 in Y by lia. rewrite (@firstn_all2 _ (S (length t1)) t1) in Y by lia. change (firstn 1 (EAlloc r o z :: t2)) with [EAlloc r o z] in Y.
          rewrite <- (firstn_skipn (S (length t1)) tr) at 1. rewrite Y, <- app_assoc. reflexivity. }
        destruct X1 as [u X1]. eapply IH2. exact X1.
Qed.
Lemma cursor_mono r l x : (forall y, In (EReset y) l -> y <> r) -> (x <= fold_left (cur1 r) l x)%N.
Proof.
  revert x. induction l as [|e l IH]; intros x H; cbn [fold_left]; [lia|].
  assert (IH' := fun z => IH z (fun y I => H y (or_intror I))).
  destruct e; cbn [cur1]; try apply IH'.
  - destruct (Nat.eqb r0 r); [|apply IH']. specialize (IH' (x + sz)%N). lia.
  - destruct (Nat.eqb_spec r0 r) as [->|]; [exfalso; exact (H r (or_introl eq_refl) eq_refl)|apply IH'].
Qed.

(** ** Freedom from deadlock *)
Lemma move c s i t b k t' s' e : nth_error (thr s) i = Some t -> tstep c s i t b k = Some (s', e) ->
  nth_error (thr s') i = Some t' -> t' <> t -> canMove c s i.
Proof. intros E H A B. exists b, k, s', e. cbn [step]. rewrite E. split; [exact H|]. rewrite A. congruence. Qed.
Definition stuck (c : cfg) (s : state) (t : tst) : Prop :=
  match t with
  | WLock a _ | LLock a => exists x, nth_error (ras s) a = Some x /\ locked x = true
  | FLoop r _ _ | CWait r _ => exists R, nth_error (regs s) r = Some R /\ wr R <> 0%Z
  | FDetach r _ | CDetach r _ | JWait r | JWaitR r => exists R, nth_error (regs s) r = Some R /\ (im R <> 0%Z \/ ph R <> 0%Z)
  | _ => False
  end.
Lemma tstep_move c s i t b k s' e : nth_error (thr s) i = Some t -> tstep c s i t b k = Some (s', e) ->
  match t with WHold _ _ _ => b = true | _ => True end ->
  (exists r n q, t = FLoop r n q /\ s' = s) \/ canMove c s i.
Proof.
  intros E H B.
  assert (U : forall t' l, nth_error (upd (thr s) i t' ++ l) i = Some t').
  { intros t' l. rewrite nth_error_app1; [rewrite nth_upd, Nat.eqb_refl, E; reflexivity|]. rewrite length_upd. apply nth_error_Some. congruence. }
  assert (U0 : forall t', nth_error (upd (thr s) i t') i = Some t') by (intros; rewrite nth_upd, Nat.eqb_refl, E; reflexivity).
  pose proof H as H0. unfold tstep, openAlloc, startFlush in H0. destruct t; cases H0; subst; try discriminate;
    try (right; eapply move; [exact E|exact H|proj; first [apply U0|apply U]|try discriminate]; fail);
    try (left; eauto 6; fail).
  all: right; eapply move; [exact E|exact H|proj; first [apply U0|apply U]|].
  all: try match goal with
    | |- kontT ?q <> _ => destruct q; discriminate
    | |- (match ?x with _ => _ end) <> _ => destruct x; discriminate
    end.
Qed.
Lemma stuck_or_move c n nb s i t : SV c n nb s -> nth_error (thr s) i = Some t -> idleT s t \/ stuck c s t \/ canMove c s i.
Proof.
  intros [ST W] E. pose proof (w_D c s W i t) as D. specialize (fun r => D r E).
  destruct (tstep c s i t true 0) as [[s' e]|] eqn:H.
  - right. destruct (tstep_move c s i t true 0 s' e E H) as [(r & n0 & q & -> & ->)|M]; [destruct t; auto| |auto].
    left. cbn [stuck]. cbn [tstep] in H. destruct (Nat.leb (retryLimit c) n0).
    { exfalso. injection H as X _. pose proof (f_equal (fun s => nth_error (thr s) i) X) as Y. cbn in Y. rewrite nth_upd, Nat.eqb_refl, E in Y. discriminate. }
    destruct (nth_error (regs s) r) as [R|] eqn:NR; [|discriminate].
    destruct (wr R =? 0)%Z eqn:WR; cbn [negb] in H.
    { exfalso. destruct (flushed R); injection H as X _; pose proof (f_equal (fun s => nth_error (thr s) i) X) as Y; cbn in Y; rewrite nth_upd, Nat.eqb_refl, E in Y; discriminate. }
    exists R. split; [reflexivity|]. apply Z.eqb_neq. exact WR.
  - assert (LK : forall a, thold t = Some a -> nth_error (ras s) a <> None).
    { intros a TA NA. pose proof (l_one s (s_lock _ _ _ _ ST) a) as L. rewrite NA in L.
      pose proof (cnt_pos (holds a) (thr s) t (nth_error_In _ _ E)) as P. unfold holds in P at 1. rewrite TA in P. cbn in P. rewrite Nat.eqb_refl in P. specialize (P eq_refl). lia. }
    assert (RR : forall a x r, nth_error (ras s) a = Some x -> rrid x = Some r -> nth_error (regs s) r <> None).
    { intros a x r A B C. pose proof (own_lt _ _ s r KAct (s_own _ _ _ _ ST) (tot_ra s a x r A B)) as (R & X & _). congruence. }
    unfold tstep, openAlloc, startFlush in H. destruct t; cases H; subst; try discriminate.
    all: cbn [treg okind thold tkont kontA] in *.
    all: try (exfalso; destruct (D _ eq_refl) as (R1 & N1 & _); congruence).
    all: try (exfalso; exact (LK _ eq_refl ltac:(assumption))).
    all: try (exfalso; eapply RR; eauto; fail).
    all: unfold idleT; cbn [stuck].
    all: try (left; right; right; eexists; split; [apply nth_error_None; eassumption|eauto]; fail).
    all: try (right; left; eexists; split; [eassumption|
       repeat match goal with H : negb _ = true |- _ => apply negb_true_iff in H | H : (_ =? _)%Z = false |- _ => apply Z.eqb_neq in H end; auto]; fail).
    + left. left. reflexivity.
    + left. right. left. split; [reflexivity|]. destruct (tracked s); [reflexivity|discriminate].
    + right. left. destruct (D _ eq_refl) as (R1 & N1 & W0 & _). exists R1. split; [exact N1|]. assert (r0 = R1) by congruence. subst r0.
      destruct (allowRead c); [apply Z.eqb_neq in Heqb; congruence|]. unfold idle in Heqb. apply Z.eqb_neq in Heqb. lia.
    + right. left. exists r0. split; [assumption|]. apply andb_false_iff in Heqb. rewrite !Z.eqb_neq in Heqb. exact Heqb.
Qed.
Lemma reader_moves c s i t r p R : nth_error (thr s) i = Some t -> rdr t = Some (r, p) -> nth_error (regs s) r = Some R -> canMove c s i.
Proof.
  intros E H N1. assert (X : exists s' e, tstep c s i t true 0 = Some (s', e)).
  { destruct t; try discriminate; injection H as -> ->; cbn [tstep]; rewrite ?N1; try destruct p; eauto. }
  destruct X as (s' & e & X). destruct (tstep_move c s i t true 0 s' e E X) as [(? & ? & ? & -> & _)|M]; [destruct t; auto|discriminate|exact M].
Qed.
Lemma inner c n nb s i t : SV c n nb s -> nth_error (thr s) i = Some t -> stuck c s t -> thold t <> None \/ treg t <> None -> exists j, canMove c s j.
Proof.
  intros [ST W] E K T.
  assert (WW : forall r R, nth_error (regs s) r = Some R -> wr R <> 0%Z -> exists j, canMove c s j).
  { intros r R N1 NZ. destruct (w_cnt c s W r R N1) as [C1 _].
    destruct (cnt_ex (isW r) (thr s)) as (u & I & P); [lia|]. apply In_nth_error in I. destruct I as [j J]. exists j.
    destruct u; try discriminate. cbn in P. apply Nat.eqb_eq in P. subst.
    assert (X : exists s' e, tstep c s j (WHold r b g) true 0 = Some (s', e)) by (cbn [tstep]; rewrite N1; eauto).
    destruct X as (s' & e & X). destruct (tstep_move c s j _ true 0 s' e J X eq_refl) as [(? & ? & ? & ? & _)|M]; [discriminate|exact M]. }
  assert (RR : forall r R, nth_error (regs s) r = Some R -> im R <> 0%Z \/ ph R <> 0%Z -> exists j, canMove c s j).
  { intros r R N1 NZ. destruct (w_cnt c s W r R N1) as (_ & C1 & C2).
    assert (Y : exists u p, In u (thr s) /\ rdr u = Some (r, p)).
    { destruct NZ as [NZ|NZ]; [destruct (cnt_ex (isM r) (thr s)) as (u & I & P); [lia|]; exists u, false
                              |destruct (cnt_ex (isP r) (thr s)) as (u & I & P); [lia|]; exists u, true]; (split; [exact I|]);
      destruct u; try discriminate; destruct p; try discriminate; cbn in P; apply Nat.eqb_eq in P; subst; reflexivity. }
    destruct Y as (u & p & I & P). apply In_nth_error in I. destruct I as [j J]. exists j. eapply reader_moves; eauto. }
  destruct t; cbn [stuck] in K; try contradiction; cbn in T; try (destruct T; contradiction); destruct K as (R & N1 & X); eauto.
Qed.
Lemma progress c n nb s : SV c n nb s -> (exists i, canMove c s i) \/ (forall t, In t (thr s) -> idleT s t).
Proof.
  intros SVs.
  assert (G : forall i t, nth_error (thr s) i = Some t -> idleT s t \/ exists j, canMove c s j).
  { intros i t E. destruct (stuck_or_move c n nb s i t SVs E) as [D|[K|M]]; [auto| |eauto].
    right. destruct (thold t) as [a|] eqn:TH; [eapply inner; eauto; left; congruence|].
    destruct (treg t) as [r|] eqn:TR; [eapply inner; eauto; right; congruence|].
    assert (Y : exists a x, nth_error (ras s) a = Some x /\ locked x = true).
    { destruct t; cbn [stuck treg okind] in *; try contradiction; try discriminate; destruct K as (x & ? & ?); eauto. }
    destruct Y as (a & x & N1 & LX). pose proof (l_one s (s_lock _ _ _ _ (proj1 SVs)) a) as L. rewrite N1, LX in L. cbn in L.
    destruct (cnt_ex (holds a) (thr s)) as (u & I & P); [lia|]. apply In_nth_error in I. destruct I as [j J].
    assert (TU : thold u = Some a). { unfold holds, isA in P. destruct (thold u); [apply Nat.eqb_eq in P; congruence|discriminate]. }
    destruct (stuck_or_move c n nb s j u SVs J) as [[D|[D|D]]|[K2|M]].
    - subst. discriminate.
    - destruct D as [-> _]. discriminate.
    - destruct D as (a' & _ & [->|(sz & ->)]); discriminate.
    - eapply inner; eauto. left. congruence.
    - eauto. }
  assert (X : forall l, (forall t, In t l -> exists i, nth_error (thr s) i = Some t) -> (exists i, canMove c s i) \/ (forall t, In t l -> idleT s t)).
  { induction l as [|t l IH]; intros H; [right; intros t []|].
    destruct (H t (or_introl eq_refl)) as [i E]. destruct (G i t E) as [D|M]; [|auto].
    destruct IH as [M|A]; [intros u I; apply H; right; exact I|auto|]. right. intros u [<-|I]; auto. }
  apply X. intros t I. apply In_nth_error. exact I.
Qed.

(** ** Resets after a given-up flush *)
Definition gaveUp (t : tst) : option nat := match t with CRet r _ _ | CSeq r _ | CReset r _ => Some r | _ => None end.
Lemma reach_gaveUp c n nr nb s tr : reach c n nr nb s tr -> forall i t r, nth_error (thr s) i = Some t -> gaveUp t = Some r -> In (EGiveUp r) tr.
Proof.
  intros R. induction R as [|s tr a s' e R IH H]; intros j t r N1 G.
  - destruct j; discriminate.
  - apply in_app_iff. destruct a; cbn [step] in H.
    5: { destruct (nth_error (thr s) i) as [t0|] eqn:E; [|discriminate].
      unfold tstep, openAlloc, startFlush in H; destruct t0; cases H; subst; proj; try (left; eapply IH; eauto; fail).
      all: whose E N1; try discriminate; try (left; eapply IH; eauto; fail).
      all: try (injection G as <-; left; eapply IH; [exact E|reflexivity]; fail).
      all: try (injection G as <-; right; unfold bad; match goal with |- In _ (if ?x then _ else _) => destruct x end; cbn; auto; fail).
      all: try match goal with H : gaveUp (kontT ?q) = _ |- _ => destruct q; discriminate end.
      all: match goal with H : gaveUp (match ?x with _ => _ end) = _ |- _ => destruct x; discriminate end. }
    all: repeat match type of H with (if ?x then _ else _) = _ => destruct x end; injection H as <- <-; proj; left; try (eapply IH; eauto; fail).
    all: apply nth_app_or in N1; destruct N1 as [N1|[<-|[]]]; [eapply IH; eauto|discriminate].
Qed.
Lemma first_bad c n nr nb s tr a s' e : (regionSize c <= 2 ^ 30)%N -> reach c n nr nb s tr -> ~ In EBad tr -> step c s a = Some (s', e) -> In EBad e ->
  exists r, e = [EBad; EReset r] /\ In (EGiveUp r) tr.
Proof.
  intros RS R NB H I. destruct a; cbn [step] in H.
  5: { destruct (nth_error (thr s) i) as [t0|] eqn:E; [|discriminate].
    destruct (no_bad c n nb s i t0 b k s' e RS (reach_SV _ _ _ _ _ _ RS R NB) E H I) as (r & q & -> & ->).
    exists r. split; [reflexivity|]. eapply reach_gaveUp; eauto. }
  all: repeat match type of H with (if ?x then _ else _) = _ => destruct x end; injection H as <- <-; destruct I.
Qed.
Lemma reach_no_bad c n nr nb s tr : (regionSize c <= 2 ^ 30)%N -> reach c n nr nb s tr -> (forall r, ~ In (EGiveUp r) tr) -> ~ In EBad tr.
Proof.
  intros RS R. induction R as [|s tr a s' e R IH H]; intros NG; [intros []|].
  assert (NT : forall r, ~ In (EGiveUp r) tr) by (intros r I; apply (NG r), in_app_iff; auto).
  intros I. apply in_app_iff in I. destruct I as [I|I]; [exact (IH NT I)|].
  destruct (first_bad c n nr nb s tr a s' e RS R (IH NT) H I) as (r & _ & I2). exact (NT r I2).
Qed.
(** what an event of a step says about the state before it *)
Lemma ev_state c n nb s a s' e : (regionSize c <= 2 ^ 30)%N -> SV c n nb s -> step c s a = Some (s', e) -> ~ In EBad e ->
  (forall r R, In (EReset r) e -> nth_error (regs s) r = Some R -> wr R = 0%Z /\ ph R = 0%Z /\ im R = 0%Z) /\
  (forall r R, In (EFlushWrite r) e -> nth_error (regs s) r = Some R -> wr R = 0%Z) /\
  (forall r R, In (EDetach r) e -> nth_error (regs s) r = Some R -> wr R = 0%Z /\ im R = 0%Z) /\
  (forall r R, In (EOpen r) e -> nth_error (regs s) r = Some R -> block R = false) /\
  (forall r g R, In (ERead r g) e -> nth_error (regs s) r = Some R -> exists i p, nth_error (thr s) i = Some (RHold r p g)).
Proof.
  intros RS SVs H NB. destruct a; cbn [step] in H.
  5: { destruct (nth_error (thr s) i) as [t0|] eqn:E; [|discriminate].
    pose proof (w_cnt c s (proj2 SVs)) as WC.
    pose proof (w_D c s (proj2 SVs) i t0) as D. specialize (fun r => D r E).
    unfold tstep, openAlloc, startFlush in H; destruct t0; cases H; subst.
    all: unfold bad in *; try match goal with H : ~ In _ (if ?x then _ else _) |- _ => destruct x eqn:? end; cbn [In] in *; try (exfalso; tauto).
    all: repeat split; intros.
    all: cbn [In] in *.
    all: try (exfalso; intuition discriminate).
    all: try match goal with H : _ \/ _ |- _ => destruct H as [H|H]; try discriminate; try contradiction; try injection H as <- end.
    all: try match goal with H : _ \/ _ |- _ => destruct H as [H|H]; try discriminate; try contradiction; try injection H as <- end.
    all: repeat match goal with
      | H : nth_error (regs _) ?x = Some ?y, H' : nth_error (regs _) ?x = Some ?z |- _ => tryif constr_eq H H' then fail else (assert (y = z) by congruence; subst y; clear H) end.
    all: repeat match goal with H : negb _ = false |- _ => apply negb_false_iff in H | H : (_ =? _)%Z = true |- _ => apply Z.eqb_eq in H
      | H : idle _ = true |- _ => unfold idle in H end; auto.
    all: try match goal with H : (wr ?y + _ + _ = 0)%Z, H' : nth_error (regs _) ?x = Some ?y |- _ => destruct (WC _ _ H') as (? & ? & ?); lia end.
    subst. eauto. }
  all: repeat match type of H with (if ?x then _ else _) = _ => destruct x end; injection H as <- <-; cbn; tauto.
Qed.

(** ** Places *)
Lemma count_cnt {A} (p : A -> bool) l : count p l = cnt p l.
Proof. unfold count. induction l as [|x l IH]; cbn; [reflexivity|]. destruct (p x); cbn; rewrite <- IH; reflexivity. Qed.
Lemma cnt_ext {A} (p q : A -> bool) l : (forall x, p x = q x) -> cnt p l = cnt q l.
Proof. intros H. induction l as [|x l IH]; cbn; [reflexivity|]. rewrite H, IH. reflexivity. Qed.
Lemma places_T s r : places s r = T s r.
Proof.
  unfold places, T. rewrite !count_cnt. f_equal. apply cnt_ext.
  intros t. unfold is, owns. destruct t; reflexivity.
Qed.
Lemma reach_places c n nr nb s tr r : (regionSize c <= 2 ^ 30)%N -> reach c n nr nb s tr -> places s r = if r <? n then 1 else 0.
Proof. intros RS R. rewrite places_T. apply (T_one c n s r). exact (s_own _ _ _ _ (reach_struct _ _ _ _ _ _ RS R)). Qed.
Lemma reach_bufs c n nr nb s tr b : (regionSize c <= 2 ^ 30)%N -> reach c n nr nb s tr -> bufPlaces s b = if b <? nb then 1 else 0.
Proof.
  intros RS R. unfold bufPlaces. rewrite !count_cnt. exact (s_buf _ _ _ _ (reach_struct _ _ _ _ _ _ RS R) b).
Qed.
