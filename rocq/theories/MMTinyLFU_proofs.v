(** Proofs for C07, part 1: lists, sketch, iterator. *)
From Coq Require Import Permutation.
From Verif Require Import Bytes DList_model DList_spec DList_proofs MMTinyLFU_model MMTinyLFU_spec.
From Verif Require CountMin_model CountMin_spec CountMin_proofs.
Ltac Zify.zify_post_hook ::= idtac.

Definition L2 (m t : list node) : seqs := fun i => match i with 0 => m | 1 => t | _ => [] end.

Lemma wrep_ext w l l' : (forall i, l i = l' i) -> wrep w l -> wrep w l'.
Proof.
  intros E (A & B & D). split; [|split].
  - intros i. rewrite <- E. apply A.
  - intros i j x. rewrite <- !E. apply B.
  - intros x U. apply D. intros j. rewrite E. apply U.
Qed.
Lemma W_size w m t : wrep w (L2 m t) -> size (wlist w 0) = length m /\ size (wlist w 1) = length t.
Proof. intros (A & _). split; [destruct (A 0) as (_ & _ & _ & _ & Z)|destruct (A 1) as (_ & _ & _ & _ & Z)]; exact Z. Qed.
Lemma W_tail w m t : wrep w (L2 m t) -> tail (wlist w 0) = lastOr m None /\ tail (wlist w 1) = lastOr t None.
Proof. intros (A & _). split; [destruct (A 0) as (_ & _ & _ & Z & _)|destruct (A 1) as (_ & _ & _ & Z & _)]; exact Z. Qed.
Lemma W_prv0 w m t a x b : wrep w (L2 m t) -> m = a ++ x :: b -> prv (wheap w) x = lastOr a None.
Proof. intros (A & _) E. destruct (A 0) as (_ & S & _). cbn [L2] in S. rewrite E in S. apply seg_mid in S. tauto. Qed.
Lemma W_prv1 w m t a x b : wrep w (L2 m t) -> t = a ++ x :: b -> prv (wheap w) x = lastOr a None.
Proof. intros (A & _) E. destruct (A 1) as (_ & S & _). cbn [L2] in S. rewrite E in S. apply seg_mid in S. tauto. Qed.
Lemma W_nodup w m t : wrep w (L2 m t) -> NoDup (m ++ t).
Proof.
  intros (A & B & _). destruct (A 0) as (N0 & _). destruct (A 1) as (N1 & _). cbn [L2] in *.
  assert (D : forall x, In x m -> In x t -> False).
  { intros x I0 I1. specialize (B 0 1 x I0 I1). discriminate. }
  clear A B. induction m as [|x m IH]; [exact N1|]. inversion N0; subst. cbn [app]. constructor.
  - rewrite in_app_iff. intros [X|X]; [contradiction|]. apply (D x); cbn; auto.
  - apply IH; auto. intros y I0. apply D. now right.
Qed.
Lemma W_walk w m t i : wrep w (L2 m t) -> walkPrev (size (wlist w i)) (wheap w) (tail (wlist w i)) = Some (rev (L2 m t i)).
Proof. intros (A & _). apply (rep_walk _ _ _ (A i)). Qed.

Lemma unlinked2 m t n : unlinked (L2 m t) n <-> ~ In n (m ++ t).
Proof.
  unfold unlinked. rewrite in_app_iff. split.
  - intros U [X|X]; [apply (U 0)|apply (U 1)]; exact X.
  - intros U [|[|j]]; cbn [L2]; tauto.
Qed.
Lemma rn_in l n x : In x (remove_node l n) <-> In x l /\ x <> n.
Proof. unfold remove_node. rewrite filter_In. destruct (Nat.eqb_spec x n); simpl; intuition congruence. Qed.
Lemma rn_last a n : ~ In n a -> remove_node (a ++ [n]) n = a.
Proof. intros A. rewrite remove_node_mid by auto. apply app_nil_r. Qed.

(** The moves used. *)
Lemma w_linkT w m t n : wrep w (L2 m t) -> ~ In n (m ++ t) -> wrep (doCall w (LinkAtHead Tiny n)) (L2 m (n :: t)).
Proof.
  intros Wr U. eapply wrep_ext; cycle 1; [apply call_ok; [exact Wr|cbn [legal]; now apply unlinked2]|].
  intros [|[|i]]; reflexivity.
Qed.
Lemma w_tailTtoM w m t x : wrep w (L2 m (t ++ [x])) ->
  wrep (doCall (doCall w (Remove Tiny x)) (LinkAtHead Main x)) (L2 (x :: m) t).
Proof.
  intros Wr. pose proof (W_nodup _ _ _ Wr) as ND.
  assert (Nx : ~ In x (m ++ t)).
  { rewrite app_assoc in ND. apply NoDup_remove_2 in ND. now rewrite app_nil_r in ND. }
  assert (W1 : wrep (doCall w (Remove Tiny x)) (L2 m t)).
  { eapply wrep_ext; cycle 1; [apply call_ok; [exact Wr|cbn; rewrite in_app_iff; cbn; auto]|].
    intros [|[|i]]; cbn [spec_call set_seq L2 Nat.eqb Tiny]; try reflexivity. cbn. apply rn_last. rewrite in_app_iff in Nx. tauto. }
  eapply wrep_ext; cycle 1; [apply call_ok; [exact W1|cbn [legal]; now apply unlinked2]|].
  intros [|[|i]]; reflexivity.
Qed.
Lemma w_tailMtoT w m t x : wrep w (L2 (m ++ [x]) t) ->
  wrep (doCall (doCall w (Remove Main x)) (LinkAtTail Tiny x)) (L2 m (t ++ [x])).
Proof.
  intros Wr. pose proof (W_nodup _ _ _ Wr) as ND. rewrite <- app_assoc in ND. cbn [app] in ND. apply NoDup_remove_2 in ND.
  assert (W1 : wrep (doCall w (Remove Main x)) (L2 m t)).
  { eapply wrep_ext; cycle 1; [apply call_ok; [exact Wr|cbn; rewrite in_app_iff; cbn; auto]|].
    intros [|[|i]]; cbn [spec_call set_seq L2 Nat.eqb Main]; try reflexivity. cbn. apply rn_last. rewrite in_app_iff in ND. tauto. }
  eapply wrep_ext; cycle 1; [apply call_ok; [exact W1|cbn [legal]; now apply unlinked2]|].
  intros [|[|i]]; reflexivity.
Qed.
Lemma w_headM w m t x : wrep w (L2 m t) -> In x m -> wrep (doCall w (MoveToHead Main x)) (L2 (x :: remove_node m x) t).
Proof.
  intros Wr I0. eapply wrep_ext; cycle 1; [apply call_ok; [exact Wr|exact I0]|]. intros [|[|i]]; reflexivity.
Qed.
Lemma w_headT w m t x : wrep w (L2 m t) -> In x t -> wrep (doCall w (MoveToHead Tiny x)) (L2 m (x :: remove_node t x)).
Proof.
  intros Wr I0. eapply wrep_ext; cycle 1; [apply call_ok; [exact Wr|exact I0]|]. intros [|[|i]]; reflexivity.
Qed.
Lemma w_remM w m t x : wrep w (L2 m t) -> In x m -> wrep (doCall w (Remove Main x)) (L2 (remove_node m x) t).
Proof.
  intros Wr I0. eapply wrep_ext; cycle 1; [apply call_ok; [exact Wr|exact I0]|]. intros [|[|i]]; reflexivity.
Qed.
Lemma w_remT w m t x : wrep w (L2 m t) -> In x t -> wrep (doCall w (Remove Tiny x)) (L2 m (remove_node t x)).
Proof.
  intros Wr I0. eapply wrep_ext; cycle 1; [apply call_ok; [exact Wr|exact I0]|]. intros [|[|i]]; reflexivity.
Qed.
Lemma w_repM w m t o x : wrep w (L2 m t) -> In o m -> ~ In x (m ++ t) -> wrep (doCall w (Replace Main o x)) (L2 (replace_node m o x) t).
Proof.
  intros Wr I0 U. eapply wrep_ext; cycle 1; [apply call_ok; [exact Wr|split; [exact I0|now apply unlinked2]]|]. intros [|[|i]]; reflexivity.
Qed.
Lemma w_repT w m t o x : wrep w (L2 m t) -> In o t -> ~ In x (m ++ t) -> wrep (doCall w (Replace Tiny o x)) (L2 m (replace_node t o x)).
Proof.
  intros Wr I0 U. eapply wrep_ext; cycle 1; [apply call_ok; [exact Wr|split; [exact I0|now apply unlinked2]]|]. intros [|[|i]]; reflexivity.
Qed.

Lemma mem_in n l : mem n l = true <-> In n l.
Proof.
  unfold mem. rewrite existsb_exists. split.
  - intros (x & I0 & E). apply Nat.eqb_eq in E. now subst.
  - intros I0. exists n. split; auto. apply Nat.eqb_refl.
Qed.
Lemma mem_false n l : mem n l = false <-> ~ In n l.
Proof. rewrite <- mem_in. destruct (mem n l); intuition congruence. Qed.
Lemma mem_iff n l l' : (In n l <-> In n l') -> mem n l = mem n l'.
Proof.
  intros E. destruct (mem n l) eqn:A; symmetry.
  - apply mem_in, E, mem_in. exact A.
  - apply mem_false. apply mem_false in A. tauto.
Qed.

(** The sketch. *)
Definition skr (e : env) (q : qt) (k : CountMin_model.sketch) : Prop :=
  exists s0, CountMin_model.create (wid q) 4 = Some s0 /\ CountMin_model.execs CMAX (rowh e) s0 (freq q) = Some k /\
    (wid q * 4 < two32)%N /\ Forall CountMin_spec.decaying (freq q).
Lemma cmax_pos : (0 < CMAX)%N. Proof. reflexivity. Qed.
Lemma skr_ok e q k : skr e q k -> CountMin_proofs.ok CMAX k.
Proof. intros (s0 & A & B & C & D). eapply CountMin_proofs.reachable_ok; eauto. apply cmax_pos. Qed.
Lemma skr_est e q k n : skr e q k -> CountMin_model.getCount CMAX (rowh e) k (khash e n) = Some (est e q n).
Proof.
  intros Sk. pose proof (skr_ok _ _ _ Sk) as O. destruct Sk as (s0 & A & B & _). unfold est. rewrite A, B.
  destruct (CountMin_proofs.getCount_ok CMAX (rowh e) cmax_pos k (khash e n) O) as (m & -> & _). reflexivity.
Qed.
Lemma execs_app c h a : forall b s, CountMin_model.execs c h s (a ++ b) =
  let* s1 := CountMin_model.execs c h s a in CountMin_model.execs c h s1 b.
Proof.
  induction a as [|x a IH]; intros b s; cbn [app CountMin_model.execs]; [reflexivity|].
  destruct (CountMin_model.exec c h s x); [apply IH|reflexivity].
Qed.
Lemma div2_decaying : CountMin_spec.decaying (CountMin_model.Decay N.div2).
Proof.
  split.
  - intros x. rewrite N.div2_div. apply N.div_le_upper_bound; lia.
  - intros x y E. rewrite !N.div2_div. apply N.div_le_mono; lia.
Qed.
Lemma skr_inc e q k n f : skr e q k -> f = [] \/ f = [CountMin_model.Decay N.div2] ->
  exists k1, CountMin_model.increment CMAX (rowh e) k (khash e n) = Some k1 /\
   forall w mw c, skr e (with_freq q w mw c (wid q) (freq q ++ CountMin_model.Inc (khash e n) :: f))
     (match f with [] => k1 | _ => CountMin_model.decay k1 N.div2 end).
Proof.
  intros Sk Ef. pose proof (skr_ok _ _ _ Sk) as O.
  destruct (CountMin_proofs.increment_ok CMAX (rowh e) cmax_pos k (khash e n) O) as (k1 & E & _).
  exists k1. split; [exact E|]. intros w mw c. destruct Sk as (s0 & A & B & C & D).
  exists s0. cbn [wid freq with_freq]. split; [exact A|]. split; [|split; [exact C|]].
  - rewrite execs_app, B. cbn [CountMin_model.execs CountMin_model.exec]. rewrite E. destruct Ef as [-> | ->]; reflexivity.
  - apply Forall_app. split; [exact D|]. constructor; [exact Logic.I|]. destruct Ef as [-> | ->]; auto using div2_decaying.
Qed.

(** The refinement relation. *)
Definition R (e : env) (s : lfu) (q : qt) : Prop :=
  wrep (wd s) (L2 (M q) (T q)) /\ (forall n, tiny s n = mem n (T q)) /\ (forall n, inMM s n = mem n (members q)) /\
  (forall n, accd s n = seen q n) /\ (forall n, utime s n = stamp q n) /\
  (cfg s = qcfg q /\ refresh s = ref_of q /\ nextReconf s = next_of q) /\
  (window s = win q /\ maxWindow s = maxwin q /\ capacity s = capa q) /\ skr e q (sk s) /\
  ((win q < maxwin q)%N /\ (2 <= windowRatio (qcfg q))%N /\ (4 <= maxwin q)%N).
(** During [add] the new item is linked but not yet marked as a member: the same without membership. *)
Definition R0 (e : env) (s : lfu) (q : qt) : Prop :=
  wrep (wd s) (L2 (M q) (T q)) /\ (forall n, tiny s n = mem n (T q)) /\
  (forall n, accd s n = seen q n) /\ (forall n, utime s n = stamp q n) /\
  (cfg s = qcfg q /\ refresh s = ref_of q /\ nextReconf s = next_of q) /\
  (window s = win q /\ maxWindow s = maxwin q /\ capacity s = capa q) /\ skr e q (sk s) /\
  ((win q < maxwin q)%N /\ (2 <= windowRatio (qcfg q))%N /\ (4 <= maxwin q)%N).
Lemma R_R0 e s q : R e s q -> R0 e s q.
Proof. unfold R, R0. tauto. Qed.
Lemma R0_R e s q : R0 e s q -> (forall n, inMM s n = mem n (members q)) -> R e s q.
Proof. unfold R, R0. tauto. Qed.

Lemma R0_total e s q : R0 e s q -> total s = length (members q).
Proof.
  intros (Wr & _). destruct (W_size _ _ _ Wr) as (A & B). unfold total, lst, Main, Tiny, members.
  rewrite A, B, app_length. reflexivity.
Qed.
Lemma R0_admit e s q t m : R0 e s q -> admit e s t m = Some (admits e q t m).
Proof.
  intros (_ & _ & _ & _ & (Ec & _) & _ & Sk & _). unfold admit, admits.
  rewrite !(skr_est _ _ _ _ Sk), Ec. reflexivity.
Qed.

Lemma updateFreq_ok e s q n : R0 e s q -> exists s', updateFreq e s n = Some s' /\ R0 e s' (counted e q n) /\ inMM s' = inMM s.
Proof.
  intros (Wr & Ti & Ac & Ut & Cf & (E1 & E2 & E3) & Sk & (B1 & B2 & B3)).
  unfold updateFreq, counted. rewrite <- E1, <- E2, <- E3.
  destruct (N.eqb_spec (window s + 1) (maxWindow s)) as [Eq|Ne].
  - destruct (skr_inc e q (sk s) n _ Sk (or_intror eq_refl)) as (k1 & -> & K).
    eexists. split; [reflexivity|]. split; [|reflexivity].
    assert (D : (maxWindow s / 2 < maxWindow s)%N) by (apply N.div_lt; lia).
    rewrite Eq. split; [exact Wr|]. split; [exact Ti|]. split; [exact Ac|]. split; [exact Ut|]. split; [exact Cf|].
    split; [cbn; auto|]. split; [apply K|]. cbn. rewrite E2 in *. auto.
  - destruct (skr_inc e q (sk s) n _ Sk (or_introl eq_refl)) as (k1 & -> & K).
    eexists. split; [reflexivity|]. split; [|reflexivity].
    split; [exact Wr|]. split; [exact Ti|]. split; [exact Ac|]. split; [exact Ut|]. split; [exact Cf|].
    split; [cbn; auto|]. split; [apply K|]. cbn. rewrite E1, E2 in *. repeat split; lia.
Qed.

Lemma nextPow2_pos x : (1 <= nextPow2 x)%N.
Proof. unfold nextPow2. destruct (x <=? 1)%N; [lia|]. pose proof (N.pow_nonzero 2 (N.log2_up x) ltac:(discriminate)). lia. Qed.
Lemma nextPow2_le x k : (x <= 2 ^ k)%N -> (nextPow2 x <= 2 ^ k)%N.
Proof.
  intros E. unfold nextPow2. destruct (N.leb_spec x 1).
  - pose proof (N.pow_nonzero 2 k ltac:(discriminate)). lia.
  - apply N.pow_le_mono_r; [discriminate|]. apply N.log2_up_le_pow2; lia.
Qed.

(** [grow], also on a state whose counters are about to be recreated. *)
Definition Rg (s : lfu) (q : qt) : Prop :=
  wrep (wd s) (L2 (M q) (T q)) /\ (forall n, tiny s n = mem n (T q)) /\
  (forall n, accd s n = seen q n) /\ (forall n, utime s n = stamp q n) /\
  (cfg s = qcfg q /\ refresh s = ref_of q /\ nextReconf s = next_of q) /\
  capacity s = capa q /\ (2 <= windowRatio (qcfg q))%N.
Lemma grow_ok e s q : Rg s q -> R0 e s q \/ capa q = 0%N -> roomy e (qcfg q) (length (members q)) ->
  exists s', grow e s = Some s' /\ R0 e s' (regrown e q) /\ inMM s' = inMM s.
Proof.
  intros (Wr & Ti & Ac & Ut & (C1 & C2 & C3) & E3 & B2) Or Ro.
  assert (To : total s = length (members q)).
  { destruct (W_size _ _ _ Wr) as (A & B). unfold total, lst, Main, Tiny, members. rewrite A, B, app_length. reflexivity. }
  unfold grow, regrown. rewrite To, E3.
  destruct (N.ltb_spec (N.of_nat (length (members q))) (2 * capa q)).
  - destruct Or as [R1|Z]; [|lia]. exists s. auto.
  - rewrite C1. set (c := N.max (N.of_nat (length (members q))) 100). fold c in Ro.
    unfold roomy in Ro. fold c in Ro. apply nextPow2_le in Ro.
    set (wdt := nextPow2 (raw e (c * windowRatio (qcfg q)))) in *.
    pose proof (nextPow2_pos (raw e (c * windowRatio (qcfg q)))) as P. fold wdt in P.
    assert (Cr : exists k, CountMin_model.create wdt 4 = Some k).
    { unfold CountMin_model.create. destruct (N.eqb_spec wdt 0); [lia|]. cbn. eauto. }
    destruct Cr as (k & Cr). rewrite Cr. eexists. split; [reflexivity|]. split; [|reflexivity].
    split; [exact Wr|]. split; [exact Ti|]. split; [exact Ac|]. split; [exact Ut|]. split; [cbn; auto|].
    split; [cbn; auto|]. split.
    + exists k. cbn [wid freq with_freq sk setFreq]. split; [exact Cr|]. split; [reflexivity|]. split; [|constructor].
      change (2 ^ 29)%N with 536870912%N in Ro. unfold two32. lia.
    + cbn [win maxwin qcfg with_freq]. assert (100 <= c)%N by (subst c; lia). repeat split; nia.
Qed.

Lemma R0_Rg e s q : R0 e s q -> Rg s q.
Proof. unfold R0, Rg. tauto. Qed.

Lemma rev_snoc {A} (l : list A) x : rev (l ++ [x]) = x :: rev l.
Proof. apply rev_unit. Qed.
Lemma mem_app x a b : mem x (a ++ b) = mem x a || mem x b.
Proof. unfold mem. apply existsb_app. Qed.
Lemma mem_cons x y a : mem x (y :: a) = (x =? y) || mem x a.
Proof. reflexivity. Qed.

(** Overflow of tiny. *)
Lemma overflow_ok e s q t x : R0 e s q -> T q = t ++ [x] ->
  R0 e (setTiny (lcall (lcall s (Remove Tiny x)) (LinkAtHead Main x)) x false) (overflow q).
Proof.
  intros (Wr & Ti & Ac & Ut & Cf & Wi & Sk & B) Et. unfold overflow. rewrite Et, rev_snoc, removelast_last.
  rewrite Et in Wr.
  split; [exact (w_tailTtoM _ _ _ _ Wr)|]. split.
  - intros n. cbn [tiny setTiny lcall setWd T with_queues]. unfold updb. rewrite Ti, Et, mem_app.
    pose proof (W_nodup _ _ _ Wr) as ND. rewrite app_assoc in ND. apply NoDup_remove_2 in ND. rewrite app_nil_r, in_app_iff in ND.
    destruct (Nat.eqb_spec n x) as [E|D].
    + subst. symmetry. apply mem_false. tauto.
    + rewrite mem_cons. destruct (Nat.eqb_spec n x); [contradiction|]. cbn. now rewrite !orb_false_r.
  - split; [exact Ac|]. split; [exact Ut|]. split; [exact Cf|]. split; [exact Wi|]. split; [exact Sk|exact B].
Qed.

Lemma contest_ok e s q : R0 e s q -> exists s', maybePromoteTail e s = Some s' /\ R0 e s' (contest e q) /\ inMM s' = inMM s.
Proof.
  intros HR. pose proof HR as (Wr & Ti & Ac & Ut & Cf & Wi & Sk & B).
  unfold maybePromoteTail, contest. destruct (W_tail _ _ _ Wr) as (Tm & Tt). unfold lst, Main, Tiny. rewrite Tm, Tt.
  destruct (list_snoc (M q)) as [Em|(m & x & Em)]; rewrite Em.
  { exists s. cbn. auto. }
  destruct (list_snoc (T q)) as [Et|(t & y & Et)]; rewrite Et.
  { rewrite lastOr_snoc, rev_snoc. cbn [lastOr rev]. exists s. auto. }
  rewrite !lastOr_snoc, !rev_snoc, !removelast_last.
  rewrite (R0_admit _ _ _ y x HR). rewrite Em, Et in Wr. pose proof (W_nodup _ _ _ Wr) as ND.
  assert (Nx : ~ In x m /\ ~ In x t /\ x <> y).
  { rewrite <- app_assoc in ND. cbn [app] in ND. apply NoDup_remove_2 in ND. rewrite !in_app_iff in ND. cbn in ND. intuition congruence. }
  assert (Ny : ~ In y m /\ ~ In y t).
  { rewrite app_assoc in ND. apply NoDup_remove_2 in ND. rewrite app_nil_r, !in_app_iff in ND. tauto. }
  destruct (admits e q y x).
  - eexists. split; [reflexivity|]. split; [|reflexivity].
    split; [|split].
    + cbn [wd setTiny lcall setWd M T with_queues]. 
      refine (w_tailMtoT _ (y :: m) t x _). exact (w_tailTtoM _ (m ++ [x]) t y Wr).
    + intros n. cbn [tiny setTiny lcall setWd T with_queues]. unfold updb. rewrite Ti, Et, !mem_app, !mem_cons. cbn [mem existsb].
      destruct (Nat.eqb_spec n x); [now rewrite orb_true_r|].
      destruct (Nat.eqb_spec n y) as [E|D]; cbn; rewrite !orb_false_r; [|reflexivity].
      subst. symmetry. apply mem_false. tauto.
    + split; [exact Ac|]. split; [exact Ut|]. split; [exact Cf|]. split; [exact Wi|]. split; [exact Sk|exact B].
  - eexists. split; [reflexivity|]. split; [|reflexivity].
    split; [|split].
    + cbn [wd lcall setWd M T with_queues].
      eapply wrep_ext; [|apply (w_headM _ _ _ x Wr); apply in_or_app; cbn; auto].
      intros [|[|i]]; cbn [L2]; try reflexivity. f_equal. apply rn_last. tauto.
    + intros n. cbn [tiny lcall setWd T with_queues]. now rewrite Ti, Et.
    + split; [exact Ac|]. split; [exact Ut|]. split; [exact Cf|]. split; [exact Wi|]. split; [exact Sk|exact B].
Qed.
