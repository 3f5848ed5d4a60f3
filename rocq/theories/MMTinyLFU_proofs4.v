(** Proofs for C07, part 4: consequences. *)
From Coq Require Import Permutation.
From Verif Require Import Bytes DList_model DList_spec DList_proofs MMTinyLFU_model MMTinyLFU_spec MMTinyLFU_proofs MMTinyLFU_proofs2
  MMTinyLFU_proofs3.
From Verif Require CountMin_model CountMin_spec CountMin_proofs CountMin_props MMLru_proofs.
Ltac Zify.zify_post_hook ::= idtac.

Lemma reached_R e c0 now cs s outs : reached e c0 now cs s outs ->
  R e s (fst (spec_execs e (init_q e c0 now) cs)) /\ outs = snd (spec_execs e (init_q e c0 now) cs).
Proof.
  intros (G & Ro & L & s0 & E0 & E). destruct (init_ok e c0 now G Ro) as (s1 & E1 & R1). rewrite E0 in E1. injection E1 as <-.
  destruct (mexecs_ok e cs _ _ R1 L) as (s' & E' & HR). rewrite E' in E. injection E as <- <-. auto.
Qed.
Lemma refines_queues e c0 now cs : good_conf c0 = true -> roomy e c0 0 -> mlegals e (init_q e c0 now) cs ->
  exists s0 s, initLfu e c0 now = Some s0 /\ mexecs e s0 cs = Some (s, snd (spec_execs e (init_q e c0 now) cs)) /\
    shows e s (fst (spec_execs e (init_q e c0 now) cs)).
Proof.
  intros G Ro L. destruct (init_ok e c0 now G Ro) as (s0 & E0 & R0').
  destruct (mexecs_ok e cs _ _ R0' L) as (s' & E' & HR). exists s0, s'. split; [exact E0|]. split; [exact E'|]. now apply R_shows.
Qed.

Section Inv.
  Variable e : env.
  Variable A : Type.
  Variable stepf : A -> mcall * mout -> A.
  Variable P : qt -> A -> Prop.
  Variable ok : mcall -> Prop.
  Hypothesis step_ok : forall q x c, P q x -> ok c -> mlegal e q c -> P (fst (spec_exec e q c)) (stepf x (c, snd (spec_exec e q c))).
  Lemma inv_execs cs : forall q x, P q x -> Forall ok cs -> mlegals e q cs ->
    P (fst (spec_execs e q cs)) (fold_left stepf (combine cs (snd (spec_execs e q cs))) x).
  Proof.
    induction cs as [|c r IH]; intros q x HP Ho L; cbn [spec_execs]; [exact HP|].
    destruct L as [L1 L2]. pose proof (Forall_inv Ho) as O1. pose proof (Forall_inv_tail Ho) as O2.
    pose proof (step_ok q x c HP O1 L1) as S1.
    destruct (spec_exec e q c) as [q1 o]. cbn [fst snd] in *. specialize (IH q1 _ S1 O2 L2).
    destruct (spec_execs e q1 r) as [q2 os]. cbn [fst snd combine fold_left] in *. exact IH.
  Qed.
End Inv.

Lemma reconf_queues q now : M (spec_reconf q now) = M q /\ T (spec_reconf q now) = T q /\ win (spec_reconf q now) = win q /\
  maxwin (spec_reconf q now) = maxwin q /\ freq (spec_reconf q now) = freq q /\ wid (spec_reconf q now) = wid q /\ 
  qcfg (spec_reconf q now) = qcfg q.
Proof. unfold spec_reconf. destruct (now <? next_of q)%N; cbn; repeat split. Qed.
Lemma promoted_in q n x : In n (members q) -> In x (members (promoted q n)) <-> In x (members q).
Proof.
  intros I0. unfold promoted. destruct (mem n (T q)) eqn:E.
  - apply mem_in in E. unfold members. cbn [M T with_queues]. rewrite !in_app_iff. cbn [In]. rewrite rn_in.
    destruct (Nat.eq_dec x n); [subst; tauto|]. intuition congruence.
  - apply mem_false in E. unfold members in *. rewrite in_app_iff in I0. cbn [M T with_queues]. rewrite !in_app_iff. cbn [In]. rewrite rn_in.
    destruct (Nat.eq_dec x n); [subst; tauto|]. intuition congruence.
Qed.
Lemma access_members e q n now x : In x (members (fst (spec_access e q n now))) <-> In x (members q).
Proof.
  unfold spec_access. destruct (reconf_queues q now) as (E1 & E2 & _).
  assert (Em : members (spec_reconf q now) = members q) by (unfold members; now rewrite E1, E2).
  destruct (mem n (members (spec_reconf q now))) eqn:Mn; cbn [fst]; [|now rewrite Em].
  rewrite counted_members. change (members (with_stamp ?q n now)) with (members q).
  rewrite promoted_in by now apply mem_in. now rewrite Em.
Qed.
Lemma taken_in q n x : In x (members (taken_out q n)) <-> In x (members q) /\ x <> n.
Proof. unfold members, taken_out. cbn [M T with_seen with_queues]. rewrite !in_app_iff, !rn_in. tauto. Qed.

Lemma inside_inv e q f c : (forall n, f n = true <-> In n (members q)) -> True -> mlegal e q c ->
  (forall n, inside_step f (c, snd (spec_exec e q c)) n = true <-> In n (members (fst (spec_exec e q c)))).
Proof.
  intros HP _ L n. destruct c as [m now|m|m|o m|m w now|m|m now|m w now|c now|now]; cbn [spec_exec].
  - destruct (mem m (members q)) eqn:E; cbn [fst snd inside_step]; [apply HP|].
    destruct (add_perm e q m now) as (Pm & _). unfold updb. destruct (Nat.eqb_spec n m) as [E1|D].
    + rewrite E1. split; [intros _|reflexivity]. eapply Permutation_in; [apply Permutation_sym, Pm|cbn; auto].
    + rewrite HP. split; intros X.
      * eapply Permutation_in; [apply Permutation_sym, Pm|cbn; auto].
      * eapply Permutation_in in X; [|exact Pm]. destruct X; [congruence|auto].
  - destruct (mem m (members q)) eqn:E; cbn [fst snd inside_step]; [|apply HP].
    rewrite taken_in, <- HP. unfold updb. destruct (Nat.eqb_spec n m); intuition congruence.
  - cbn [fst snd inside_step]. rewrite taken_in, <- HP. unfold updb. destruct (Nat.eqb_spec n m); intuition congruence.
  - destruct (mem o (members q) && negb (mem m (members q))) eqn:E; cbn [fst snd inside_step]; [|apply HP].
    apply andb_true_iff in E as [E1 E2]. apply mem_in in E1. apply negb_true_iff, mem_false in E2.
    assert (NM : ~ In m (M q) /\ ~ In m (T q)) by (unfold members in E2; rewrite in_app_iff in E2; tauto).
    unfold members. cbn [M T with_seen with_stamp with_queues]. rewrite in_app_iff, !rep_mem by tauto.
    specialize (HP n) as Hn. unfold members in Hn, E1. rewrite in_app_iff in Hn, E1. unfold updb.
    destruct (Nat.eqb_spec n m) as [X|X]; [subst; tauto|]. destruct (Nat.eqb_spec n o) as [Y|Y].
    + split; [discriminate|]. tauto.
    + rewrite Hn. tauto.
  - cbn. apply HP.
  - cbn. apply HP.
  - assert (G : inside_step f (MAccessLocked m now, snd (spec_access e q m now)) = f).
    { unfold spec_access. destruct (mem m _); reflexivity. }
    rewrite G, access_members. apply HP.
  - destruct (due q m w now); [|cbn; apply HP].
    assert (G : inside_step f (MRecordAccess m w now, snd (spec_access e (with_seen q m true) m now)) = f).
    { unfold spec_access. destruct (mem m _); reflexivity. }
    rewrite G, access_members. apply HP.
  - destruct (good_conf c); cbn; apply HP.
  - cbn [fst snd inside_step]. unfold members. destruct (regrown_queues e (with_freq (with_cfg q
      (mkConf (ref_of q) (ref_of q) (ratio (qcfg q)) (updOnWrite (qcfg q)) (updOnRead (qcfg q)) (windowRatio (qcfg q)) (tinyPct (qcfg q))
                (interval (qcfg q)) (newcomerWins (qcfg q))) (ref_of q) (next_at (mkConf (ref_of q) (ref_of q) (ratio (qcfg q)) (updOnWrite (qcfg q)) (updOnRead (qcfg q)) (windowRatio (qcfg q)) (tinyPct (qcfg q))
                (interval (qcfg q)) (newcomerWins (qcfg q))) now)) 0 0 0 0 [])) as (-> & -> & _). apply HP.
Qed.

Lemma membership e c0 now cs s outs : reached e c0 now cs s outs ->
  exists l, evictionOrder e s = Some l /\ NoDup l /\
    forall n, (In n l <-> inside_after (combine cs outs) n = true) /\
              (inMM s n = true <-> inside_after (combine cs outs) n = true).
Proof.
  intros HR. pose proof HR as (_ & _ & L & _). apply reached_R in HR as (HR & ->).
  pose proof (inv_execs e _ inside_step (fun q f => forall n, f n = true <-> In n (members q)) (fun _ => True)
    (fun q f c => inside_inv e q f c) cs (init_q e c0 now) (fun _ => false)) as X.
  cbv beta in X. 
  assert (I0 : forall m, false = true <-> In m (members (init_q e c0 now))).
  { intros m. unfold members, init_q. match goal with |- context [regrown e ?q] => destruct (regrown_queues e q) as (-> & -> & _) end.
    cbn. split; [discriminate|intros []]. }
  specialize (X I0 ltac:(apply Forall_forall; auto) L).
  fold (inside_after (combine cs (snd (spec_execs e (init_q e c0 now) cs)))) in X.
  destruct (R_shows _ _ _ HR) as (EO & ND & _ & _ & _ & HI & _).
  eexists. split; [exact EO|]. split.
  - eapply Permutation_NoDup; [apply Permutation_sym, eviction_perm|exact ND].
  - intros n. rewrite HI, <- X. split; [|reflexivity]. rewrite X.
    split; intros Y; (eapply Permutation_in; [|exact Y]); [|apply Permutation_sym]; apply eviction_perm.
Qed.

Lemma evict_continues e c0 now cs s outs n : reached e c0 now cs s outs -> inMM s n = true ->
  exists s' it p r, evict e s n = Some (s', it) /\ evictionOrder e s = Some (p ++ n :: r) /\
    walkIt (total s') e s' it = Some r /\ inMM s' n = false /\ tiny s' n = false /\
    (forall i l, oldest_first s i = Some l -> oldest_first s' i = Some (remove_node l n)).
Proof.
  intros HR IM. apply reached_R in HR as (HR & _). destruct (R_shows _ _ _ HR) as (EO & ND & _ & O1 & O2 & HI & _).
  apply HI in IM. destruct (evict_strong e s _ n HR IM) as (s' & it & p & r & X & R' & Er & Np & _ & Wk).
  destruct (R_shows _ _ _ R') as (_ & _ & _ & O1' & O2' & HI' & HT' & _).
  exists s', it, p, r. split; [exact X|]. split; [rewrite EO; now f_equal|]. split; [exact Wk|]. split; [|split].
  - destruct (inMM s' n) eqn:E; [|reflexivity]. apply HI', taken_in in E. tauto.
  - destruct (tiny s' n) eqn:E; [|reflexivity]. apply HT' in E. cbn [T taken_out with_seen with_queues] in E. apply rn_in in E. tauto.
  - destruct HR as (Wr & _). destruct R' as (Wr' & _). intros i l. unfold oldest_first, lst.
    rewrite (W_walk _ _ _ i Wr), (W_walk _ _ _ i Wr'). intros E. injection E as <-.
    f_equal. rewrite MMLru_proofs.remove_node_rev. f_equal. destruct i as [|[|i]]; reflexivity.
Qed.

Lemma access_order e c0 now cs s outs n t : reached e c0 now cs s outs -> inMM s n = true ->
  exists s', accessLocked e s n t = Some (s', true) /\
    (forall x, tiny s' x = tiny s x) /\
    (forall i l, oldest_first s i = Some l -> oldest_first s' i = Some (if mem n l then remove_node l n ++ [n] else l)).
Proof.
  intros HR IM. apply reached_R in HR as (HR & _). set (q := fst _) in HR.
  destruct (accessLocked_ok e s q n t HR) as (s' & E & R'). cbn [mexec spec_exec] in E, R'.
  destruct (R_shows _ _ _ HR) as (_ & ND & _ & _ & _ & HI & HT & _). apply HI in IM.
  unfold spec_access in E, R'. destruct (reconf_queues q t) as (E1 & E2 & _).
  assert (Em : members (spec_reconf q t) = members q) by (unfold members; now rewrite E1, E2).
  rewrite Em, (proj2 (mem_in _ _) IM) in E, R'. cbn [fst snd] in *.
  destruct (accessLocked e s n t) as [[s1 b]|]; [|discriminate]. injection E as -> ->.
  exists s'. split; [reflexivity|].
  pose proof R' as (Wr' & Ti' & _). pose proof HR as (Wr & Ti & _).
  assert (Q : forall q2, M (counted e q2 n) = M q2 /\ T (counted e q2 n) = T q2) by (intros q2; destruct (counted_queues e q2 n) as (-> & -> & _); auto).
  destruct (Q (with_stamp (promoted (spec_reconf q t) n) n t)) as (F1 & F2).
  assert (G1 : M (promoted (spec_reconf q t) n) = if mem n (T q) then M q else n :: remove_node (M q) n).
  { unfold promoted. rewrite E2. destruct (mem n (T q)); cbn; now rewrite E1. }
  assert (G2 : T (promoted (spec_reconf q t) n) = if mem n (T q) then n :: remove_node (T q) n else T q).
  { unfold promoted. rewrite E2. destruct (mem n (T q)); cbn; now rewrite ?E2. }
  assert (Dj : In n (M q) -> In n (T q) -> False).
  { destruct Wr as (_ & B & _). intros X Y. specialize (B 0 1 n X Y). discriminate. }
  split.
  - intros x. rewrite Ti', Ti, F2. cbn [T with_stamp]. rewrite G2. destruct (mem n (T q)) eqn:Mt; [|reflexivity].
    apply mem_in in Mt. apply mem_iff. cbn [In]. rewrite rn_in. destruct (Nat.eq_dec x n); [subst; tauto|]. intuition congruence.
  - intros i l. unfold oldest_first, lst. rewrite (W_walk _ _ _ i Wr), (W_walk _ _ _ i Wr'). intros E. injection E as <-.
    rewrite F1, F2. cbn [M T with_stamp]. rewrite G1, G2.
    assert (Mr : forall l, mem n (rev l) = mem n l) by (intros l; apply mem_iff; now rewrite <- in_rev). rewrite Mr.
    unfold members in IM. rewrite in_app_iff in IM.
    destruct i as [|[|i]]; cbn [L2]; [| |reflexivity].
    + destruct (mem n (T q)) eqn:Mt.
      * apply mem_in in Mt. rewrite (proj2 (mem_false n (M q))) by tauto. reflexivity.
      * apply mem_false in Mt. rewrite (proj2 (mem_in n (M q))) by tauto. cbn [rev]. now rewrite MMLru_proofs.remove_node_rev.
    + destruct (mem n (T q)); [cbn [rev]; now rewrite MMLru_proofs.remove_node_rev|reflexivity].
Qed.

Lemma first_candidate e c0 now cs s outs t m lt lm : reached e c0 now cs s outs ->
  oldest_first s Tiny = Some (t :: lt) -> oldest_first s Main = Some (m :: lm) ->
  exists ft fm l, estimate e s t = Some ft /\ estimate e s m = Some fm /\
   evictionOrder e s = Some ((if (if newcomerWins (cfg s) then fm <=? ft else fm <? ft)%N then m else t) :: l).
Proof.
  intros HR Ot Om. apply reached_R in HR as (HR & _). set (q := fst _) in HR.
  destruct (R_shows _ _ _ HR) as (EO & _ & _ & O1 & O2 & _). rewrite O2 in Ot. rewrite O1 in Om. injection Ot as Ot. injection Om as Om.
  pose proof HR as (_ & _ & _ & _ & _ & (C1 & _) & _ & Sk & _).
  unfold eviction in EO. rewrite Ot, Om, merge_cons in EO.
  exists (est e q t), (est e q m). unfold estimate. rewrite !(skr_est _ _ _ _ Sk). rewrite C1, EO. unfold admits.
  destruct (if newcomerWins (qcfg q) then (est e q m <=? est e q t)%N else (est e q m <? est e q t)%N); eauto.
Qed.

(** Window bound. *)
Lemma window_bound e c0 now cs s outs : reached e c0 now cs s outs -> (window s < maxWindow s /\ 4 <= maxWindow s)%N.
Proof.
  intros HR. apply reached_R in HR as (HR & _). destruct HR as (_ & _ & _ & _ & _ & _ & (E1 & E2 & _) & _ & B).
  rewrite E1, E2. tauto.
Qed.

(** Add. *)
Lemma counted_T e q n : length (T (counted e q n)) = length (T q).
Proof. destruct (counted_queues e q n) as (_ & -> & _). reflexivity. Qed.
Lemma tiny_size e c0 now cs s outs n t s' : reached e c0 now cs s outs -> add e s n t = Some (s', true) ->
  (N.of_nat (size (lst s' Tiny)) <= N.max (N.of_nat (size (lst s Tiny))) (tinyPct (cfg s) * N.of_nat (total s') / 100))%N.
Proof.
  intros HR E. pose proof HR as HR1. apply reached_R in HR as (HR & _). set (q := fst _) in HR.
  assert (NI : ~ In n (members q)).
  { intros X. destruct HR as (_ & _ & Im & _). unfold add in E. rewrite Im, (proj2 (mem_in _ _) X) in E. discriminate. }
  (* replay without the room condition: sizes only depend on the lists *)
  unfold add in E. pose proof HR as (_ & _ & Im & _). rewrite Im, (proj2 (mem_false _ _) NI) in E.
  set (q1 := with_queues q (M q) (n :: T q)) in *. set (s1 := setTiny (lcall s (LinkAtHead Tiny n)) n true) in E.
  assert (R1 : R0 e s1 q1).
  { pose proof (R_R0 _ _ _ HR) as (Wr & Ti & Ac & Ut & Cf & Wi & Sk & B). split; [|split].
    - exact (w_linkT _ _ _ n Wr NI).
    - intros x. unfold s1, q1. cbn [tiny setTiny lcall setWd T with_queues]. unfold updb. rewrite mem_cons, Ti. now destruct (x =? n).
    - auto 10. }
  destruct (updateFreq_ok e s1 q1 n R1) as (s2 & E2 & R2 & I2). rewrite E2 in E. set (q2 := counted e q1 n) in *.
  pose proof (R0_total _ _ _ R2) as To. pose proof R2 as (Wr2 & _ & _ & _ & (Cf2 & _) & _).
  destruct (W_size _ _ _ Wr2) as (_ & Sz).
  assert (Sz0 : size (lst s Tiny) = length (T q)) by (destruct HR as (Wr & _); exact (proj2 (W_size _ _ _ Wr))).
  assert (Sz2 : size (lst s2 Tiny) = S (length (T q))).
  { unfold lst, Tiny. rewrite Sz. unfold q2. rewrite counted_T. reflexivity. }
  assert (Cs : cfg s2 = cfg s).
  { unfold updateFreq in E2. destruct (CountMin_model.increment _ _ _ _); [|discriminate].
    cbv zeta in E2. destruct (_ =? _)%N; injection E2 as <-; reflexivity. }
  assert (Gz : forall s3 s4, grow e s3 = Some s4 -> lst s4 = lst s3).
  { intros s3 s4. unfold grow. cbv zeta. destruct (N.of_nat (total s3) <? 2 * capacity s3)%N; [intros X; injection X as <-; reflexivity|].
    destruct (CountMin_model.create _ _); [|discriminate]. intros X; injection X as <-; reflexivity. }
  destruct (N.ltb_spec (tinyPct (cfg s2) * N.of_nat (total s2) / 100) (N.of_nat (size (lst s2 Tiny)))) as [Lt|Ge].
  - destruct (W_tail _ _ _ Wr2) as (_ & Tt). change (wlist (wd s2) 1) with (lst s2 Tiny) in Tt. rewrite Tt in E.
    destruct (list_snoc (T q2)) as [Et|(tt & y & Et)].
    { exfalso. unfold lst, Tiny in Sz2. rewrite Sz, Et in Sz2. discriminate. }
    rewrite Et, lastOr_snoc in E.
    pose proof (overflow_ok _ _ _ tt y R2 Et) as R3. set (s3 := setTiny _ y false) in *.
    destruct (grow e s3) as [s4|] eqn:G; [|discriminate]. injection E as <-.
    change (lst (setAcc (setTime (setIn s4 n true) n t) n false) Tiny) with (lst s4 Tiny). rewrite (Gz _ _ G).
    destruct R3 as (Wr3 & _). destruct (W_size _ _ _ Wr3) as (_ & Sz3). unfold lst at 1, Tiny at 1. rewrite Sz3.
    unfold overflow. rewrite Et, rev_snoc, removelast_last. cbn [T with_queues].
    assert (X : length (T q2) = S (length (T q))) by (unfold q2; rewrite counted_T; reflexivity).
    rewrite Et, app_length in X. cbn in X. rewrite Sz0. lia.
  - destruct (contest_ok e s2 q2 R2) as (s3 & E3 & R3 & I3). rewrite E3 in E.
    destruct (grow e s3) as [s4|] eqn:G; [|discriminate]. injection E as <-.
    change (total (setAcc (setTime (setIn s4 n true) n t) n false)) with (total s4).
    change (lst (setAcc (setTime (setIn s4 n true) n t) n false) Tiny) with (lst s4 Tiny).
    assert (T4 : total s4 = total s3) by (unfold total; now rewrite (Gz _ _ G)). rewrite T4, (Gz _ _ G).
    assert (T3 : total s3 = total s2).
    { rewrite (R0_total _ _ _ R3), To. apply Permutation_length, contest_perm. }
    rewrite T3, <- Cs. destruct R3 as (Wr3 & _). destruct (W_size _ _ _ Wr3) as (_ & Sz3).
    assert (X : length (T (contest e q2)) = length (T q2)).
    { unfold contest. destruct (list_snoc (M q2)) as [Em|(m & x & Em)]; rewrite Em; [reflexivity|].
      destruct (list_snoc (T q2)) as [Et|(tt & y & Et)]; rewrite Et, rev_snoc; [cbn; now rewrite Et|].
      rewrite rev_snoc, !removelast_last. destruct (admits e q2 y x); cbn [T with_queues]; rewrite !app_length; reflexivity. }
    unfold lst at 1, Tiny at 1. rewrite Sz3, X. unfold lst, Tiny in Ge. rewrite Sz in Ge. lia.
Qed.

(** Frequencies. *)
Definition Pt (k : N) (q : qt) (x : N * N) : Prop :=
  (win q <= fst x)%N /\ (snd x <= fst x)%N /\
  (win q = fst x -> exists ks, freq q = map CountMin_model.Inc ks /\ N.of_nat (count_occ N.eq_dec ks k) = snd x).
Lemma Pt_counted e k q x n : Pt k q x -> Pt k (counted e q n) (fst x + 1, if (khash e n =? k)%N then snd x + 1 else snd x)%N.
Proof.
  intros (A & B & D). unfold counted. split; [|split].
  - assert (((win q + 1) / 2 <= win q + 1)%N) by (apply N.div_le_upper_bound; lia).
    destruct (_ =? _)%N; cbn [win with_freq fst]; lia.
  - cbn [fst snd]. destruct (khash e n =? k)%N; lia.
  - destruct (N.eqb_spec (win q + 1) (maxwin q)); cbn [win freq with_freq fst snd]; intros E.
    + assert (((win q + 1) / 2 < win q + 1)%N) by (apply N.div_lt; lia). lia.
    + destruct D as (ks & -> & F); [lia|]. exists (ks ++ [khash e n]). rewrite map_app. split; [reflexivity|].
      rewrite count_occ_app. cbn [count_occ]. destruct (N.eq_dec (khash e n) k); destruct (N.eqb_spec (khash e n) k); try congruence; lia.
Qed.
Lemma Pt_regrown e k q x : Pt k q x -> Pt k (regrown e q) x.
Proof.
  intros P. unfold regrown. destruct (_ <? _)%N; [exact P|]. destruct P as (A & B & D). split; [cbn; lia|]. split; [exact B|].
  cbn [win freq with_freq]. intros E. exists []. split; [reflexivity|]. cbn. lia.
Qed.
Lemma Pt_ext k q q' x : win q' = win q -> freq q' = freq q -> Pt k q x -> Pt k q' x.
Proof. intros E1 E2. unfold Pt. now rewrite E1, E2. Qed.
Lemma contest_freq e q : win (contest e q) = win q /\ freq (contest e q) = freq q.
Proof. unfold contest. destruct (rev (M q)); auto. destruct (rev (T q)); auto. destruct (admits _ _ _ _); auto. Qed.
Lemma overflow_freq q : win (overflow q) = win q /\ freq (overflow q) = freq q.
Proof. unfold overflow. destruct (rev (T q)); auto. Qed.

Lemma Pt_access e k q x n now c : Pt k q x ->
  (c = MAccessLocked n now \/ exists w, c = MRecordAccess n w now) ->
  Pt k (fst (spec_access e q n now)) (tally_step e k x (c, snd (spec_access e q n now))).
Proof.
  intros P Ec. unfold spec_access. destruct (reconf_queues q now) as (_ & _ & E1 & _ & E2 & _).
  assert (P1 : Pt k (spec_reconf q now) x) by (eapply Pt_ext; eauto).
  destruct (mem n (members (spec_reconf q now))); cbn [fst snd].
  - assert (X : tally_step e k x (c, MBool true) = (fst x + 1, if (khash e n =? k)%N then snd x + 1 else snd x)%N).
    { destruct Ec as [->|(w & ->)]; reflexivity. }
    rewrite X. apply Pt_counted. eapply Pt_ext; [| |exact P1]; unfold promoted; destruct (mem n _); reflexivity.
  - assert (X : tally_step e k x (c, MBool false) = x). { destruct Ec as [->|(w & ->)]; reflexivity. }
    rewrite X. exact P1.
Qed.

Lemma Pt_step e k q x c : Pt k q x -> True -> mlegal e q c -> Pt k (fst (spec_exec e q c)) (tally_step e k x (c, snd (spec_exec e q c))).
Proof.
  intros P _ _. destruct c as [m now|m|m|o m|m w now|m|m now|m w now|c now|now]; cbn [spec_exec].
  - destruct (mem m (members q)); cbn [fst snd tally_step]; [exact P|]. unfold spec_add.
    apply (Pt_ext k (regrown e (if (share (tinyPct (qcfg (counted e (with_queues q (M q) (m :: T q)) m))) (length (members (counted e (with_queues q (M q) (m :: T q)) m))) <? N.of_nat (length (T (counted e (with_queues q (M q) (m :: T q)) m))))%N then overflow (counted e (with_queues q (M q) (m :: T q)) m) else contest e (counted e (with_queues q (M q) (m :: T q)) m)))); [reflexivity|reflexivity|].
    apply Pt_regrown. set (q2 := counted e (with_queues q (M q) (m :: T q)) m).
    assert (P2 : Pt k q2 (fst x + 1, if (khash e m =? k)%N then snd x + 1 else snd x)%N) by (apply Pt_counted; exact P).
    destruct (_ <? _)%N; [destruct (overflow_freq q2)|destruct (contest_freq e q2)]; eapply Pt_ext; eauto.
  - destruct (mem m (members q)); exact P.
  - exact P.
  - destruct (mem o (members q) && negb (mem m (members q))); exact P.
  - exact P.
  - exact P.
  - apply (Pt_access e k q x m now); auto.
  - destruct (due q m w now); [|exact P]. apply (Pt_access e k (with_seen q m true) x m now); [exact P|eauto].
  - destruct (good_conf c); exact P.
  - cbn [fst snd tally_step]. apply Pt_regrown. destruct P as (A & B & D). split; [cbn; lia|]. split; [exact B|].
    cbn [win freq with_freq]. intros E. exists []. split; [reflexivity|]. cbn. lia.
Qed.

Lemma estimate_counts e c0 now cs s outs n : reached e c0 now cs s outs ->
  let x := tally e (khash e n) (combine cs outs) in
  exists m, estimate e s n = Some m /\ (window s <= fst x)%N /\ (window s = fst x -> N.min CMAX (snd x) <= m)%N.
Proof.
  intros HR. pose proof HR as (_ & _ & L & _). apply reached_R in HR as (HR & ->). set (q := fst _) in HR. cbv zeta.
  pose proof (inv_execs e _ (tally_step e (khash e n)) (Pt (khash e n)) (fun _ => True)
    (fun q x c => Pt_step e (khash e n) q x c) cs (init_q e c0 now) (0, 0)%N) as X.
  assert (I0 : Pt (khash e n) (init_q e c0 now) (0, 0)%N).
  { apply Pt_regrown. split; [cbn; lia|]. split; [cbn; lia|]. intros _. exists []. split; reflexivity. }
  specialize (X I0 ltac:(apply Forall_forall; auto) L). fold q in X. fold (tally e (khash e n) (combine cs (snd (spec_execs e (init_q e c0 now) cs)))) in X.
  destruct X as (X1 & _ & X2). destruct HR as (_ & _ & _ & _ & _ & _ & (E1 & _) & Sk & _).
  exists (est e q n). split; [exact (skr_est _ _ _ _ Sk)|]. rewrite E1. split; [exact X1|]. intros Ew. destruct (X2 Ew) as (ks & Ef & Ec).
  pose proof Sk as (s0 & A & B & D & _). rewrite Ef in B.
  destruct (CountMin_props.C24_counts CMAX (rowh e) (wid q) 4 s0 ks (khash e n) cmax_pos A D) as (s' & m & E & G & Lo & _).
  rewrite B in E. injection E as <-. pose proof (skr_est _ _ _ n Sk) as G'. rewrite G in G'. injection G' as <-.
  rewrite <- Ec. exact Lo.
Qed.

(** Admission. *)
Lemma est_sketch e q q' n : wid q' = wid q -> freq q' = freq q -> est e q' n = est e q n.
Proof. intros E1 E2. unfold est. now rewrite E1, E2. Qed.

Lemma admission e c0 now cs s outs n t : reached e c0 now cs s outs -> inMM s n = false -> roomy e (cfg s) (S (total s)) ->
  exists s' s1, add e s n t = Some (s', true) /\ updateFreq e s n = Some s1 /\
   forall x, inMM s x = true -> tiny s x = false -> tiny s' x = true ->
    exists y lm fx fy, oldest_first s Main = Some (x :: lm) /\ y = hd n (match oldest_first s Tiny with Some l => l | None => [] end) /\
     inMM s' y = true /\ tiny s' y = false /\ estimate e s1 x = Some fx /\ estimate e s1 y = Some fy /\
     (if newcomerWins (cfg s) then (fx <= fy)%N else (fx < fy)%N).
Proof.
  intros HR NI Ro. apply reached_R in HR as (HR & _). set (q := fst _) in HR.
  pose proof HR as (Wr & Ti & Im & _ & _ & (C1 & _) & _). rewrite Im in NI. rewrite C1, (R0_total _ _ _ (R_R0 _ _ _ HR)) in Ro.
  assert (L : mlegal e q (MAdd n t)) by (intros _; exact Ro).
  destruct (add_ok e s q n t HR L) as (s' & E & R'). cbn [mexec spec_exec] in E, R'. rewrite NI in E, R'. cbn [fst snd] in E, R'.
  destruct (add e s n t) as [[sa b]|]; [|discriminate]. injection E as -> ->.
  destruct (updateFreq_ok e s q n (R_R0 _ _ _ HR)) as (s1 & E1 & R1 & _).
  exists s', s1. split; [reflexivity|]. split; [exact E1|]. intros x X1 X2 X3.
  pose proof R' as (Wr' & Ti' & Im' & _). rewrite Im in X1. rewrite Ti in X2. rewrite Ti' in X3.
  apply mem_in in X1. apply mem_false in X2. apply mem_in in X3.
  unfold spec_add in Im', Ti', X3. set (q1 := with_queues q (M q) (n :: T q)) in *.
  destruct (counted_queues e q1 n) as (Q1 & Q2 & Q3). set (q2 := counted e q1 n) in *.
  assert (Xn : x <> n). { intros ->. apply mem_false in NI. contradiction. }
  set (q3 := if (_ <? _)%N then overflow q2 else contest e q2) in *.
  destruct (regrown_queues e q3) as (G1 & G2 & _).
  assert (X4 : In x (T q3)) by (cbn [T with_seen with_stamp] in X3; rewrite G2 in X3; exact X3).
  assert (Ti3 : forall y, tiny s' y = mem y (T q3)).
  { intros y. rewrite Ti'. cbn [T with_seen with_stamp]. now rewrite G2. }
  assert (Im3 : forall y, inMM s' y = mem y (members q3)).
  { intros y. rewrite Im'. unfold members. cbn [M T with_seen with_stamp]. now rewrite G1, G2. }
  clear X3 Im' Ti'. unfold oldest_first, lst, Main, Tiny. rewrite (W_walk _ _ _ 0 Wr), (W_walk _ _ _ 1 Wr). cbn [L2].
  assert (T2 : T q2 = n :: T q) by exact Q2.
  assert (M2 : M q2 = M q) by exact Q1.
  destruct (list_snoc (T q2)) as [Et|(tt & y & Et)]; [rewrite T2 in Et; discriminate|].
  assert (Y : y = hd n (rev (T q))).
  { destruct (list_snoc (T q)) as [E2|(t2 & y2 & E2)].
    - rewrite E2 in T2. rewrite T2 in Et. rewrite E2. change [n] with ([] ++ [n]) in Et. apply app_inj_tail in Et as (_ & <-). reflexivity.
    - rewrite E2 in T2. rewrite T2 in Et. change (n :: t2 ++ [y2]) with ((n :: t2) ++ [y2]) in Et.
      apply app_inj_tail in Et as (_ & <-). rewrite E2, rev_snoc. reflexivity. }
  unfold q3 in X4, Ti3, Im3. destruct (_ <? _)%N.
  - exfalso. unfold overflow in X4. rewrite Et, rev_snoc, removelast_last in X4. cbn [T with_queues] in X4.
    assert (Z : In x (T q2)) by (rewrite Et; apply in_or_app; auto). rewrite T2 in Z. destruct Z; [congruence|contradiction].
  - assert (NTx : ~ In x (T q2)). { rewrite T2. intros [Z|Z]; [congruence|contradiction]. }
    unfold contest in X4, Ti3, Im3. destruct (list_snoc (M q2)) as [Em|(m & z & Em)].
    { exfalso. rewrite Em in X4. cbn [rev] in X4. contradiction. }
    rewrite Em, Et, !rev_snoc, !removelast_last in X4, Ti3, Im3.
    destruct (admits e q2 y z) eqn:Ad; [|cbn [T with_queues] in X4; rewrite <- Et in X4; contradiction].
    cbn [T with_queues] in X4. apply in_app_or in X4 as [X4|X4].
    { exfalso. apply NTx. rewrite Et. apply in_or_app; auto. }
    destruct X4 as [X4|[]]. subst z.
    exists y, (rev m), (est e q2 x), (est e q2 y). rewrite M2 in Em. rewrite Em, rev_snoc. split; [reflexivity|]. split; [exact Y|].
    assert (ND : NoDup (M q2 ++ T q2)).
    { rewrite M2, T2. eapply Permutation_NoDup; [apply Permutation_middle|constructor; [apply mem_false in NI; exact NI|exact (W_nodup _ _ _ Wr)]]. }
    assert (Nyx : y <> x). { intros ->. apply NTx. rewrite Et. apply in_or_app. cbn. auto. }
    split; [|split; [|split; [|split]]].
    + rewrite Im3. apply mem_in. unfold members. cbn. auto.
    + rewrite Ti3. apply mem_false. cbn [T with_queues]. rewrite in_app_iff. cbn.
      rewrite Et in ND. rewrite app_assoc in ND. apply NoDup_remove_2 in ND. rewrite app_nil_r, in_app_iff in ND. intuition congruence.
    + unfold estimate. destruct R1 as (_ & _ & _ & _ & _ & _ & Sk & _). rewrite (skr_est _ _ _ _ Sk). f_equal.
      unfold q2, counted, q1. cbn [win maxwin with_queues]. destruct (_ =? _)%N; reflexivity.
    + unfold estimate. destruct R1 as (_ & _ & _ & _ & _ & _ & Sk & _). rewrite (skr_est _ _ _ _ Sk). f_equal.
      unfold q2, counted, q1. cbn [win maxwin with_queues]. destruct (_ =? _)%N; reflexivity.
    + unfold admits in Ad. rewrite C1. change (qcfg q) with (qcfg q1). rewrite <- Q3.
      destruct (newcomerWins (qcfg q2)); [now apply N.leb_le|now apply N.ltb_lt].
Qed.

(** Too many items. *)
Lemma large_container e s : (2 * capacity s <= N.of_nat (total s))%N ->
  (2 ^ 29 < raw e (N.max (N.of_nat (total s)) 100 * windowRatio (cfg s)) /\
   raw e (N.max (N.of_nat (total s)) 100 * windowRatio (cfg s)) <= 2 ^ 30)%N ->
  exists s', grow e s = Some s' /\ forall s'' n, sk s'' = sk s' -> updateFreq e s'' n = None.
Proof.
  intros Ge (Lo & Hi). unfold grow. cbv zeta.
  destruct (N.ltb_spec (N.of_nat (total s)) (2 * capacity s)); [lia|].
  assert (W : nextPow2 (raw e (N.max (N.of_nat (total s)) 100 * windowRatio (cfg s))) = (2 ^ 30)%N).
  { unfold nextPow2. destruct (N.leb_spec (raw e (N.max (N.of_nat (total s)) 100 * windowRatio (cfg s))) 1).
    - change (2 ^ 29)%N with 536870912%N in Lo. lia.
    - f_equal. apply N.log2_up_unique; [lia|]. cbn [N.pred]. split; assumption. }
  rewrite W. eexists. split; [reflexivity|]. intros s'' n Es. unfold updateFreq. rewrite Es. cbn [sk setFreq].
  unfold CountMin_model.increment, CountMin_model.rows. cbn [CountMin_model.depth].
  change (N.to_nat 4) with 4. cbn [seq map CountMin_model.loop]. unfold CountMin_model.incRow, CountMin_model.rdCell.
  cbn [CountMin_model.tsize]. change (wrap32 (2 ^ 30 * 4)) with 0%N.
  match goal with |- context [(?x <? 0)%N] => assert (Q : (x <? 0)%N = false) by (apply N.ltb_ge; lia); rewrite Q end.
  reflexivity.
Qed.

(** A history of adds of distinct items is legal as long as the counters fit. *)
Definition adds (k : nat) : list mcall := map (fun n => MAdd n 0) (seq 0 k).
Definition after_adds (e : env) (q : qt) (k : nat) : qt := fst (spec_execs e q (adds k)).
Lemma spec_execs_app e q a b : fst (spec_execs e q (a ++ b)) = fst (spec_execs e (fst (spec_execs e q a)) b).
Proof.
  revert q. induction a as [|c a IH]; intros q; [reflexivity|]. cbn [app spec_execs]. destruct (spec_exec e q c) as (q1, o).
  specialize (IH q1). destruct (spec_execs e q1 (a ++ b)) as (x1, x2), (spec_execs e q1 a) as (y1, y2). exact IH.
Qed.
Lemma mlegals_app e q a b : mlegals e q a -> mlegals e (fst (spec_execs e q a)) b -> mlegals e q (a ++ b).
Proof.
  revert q. induction a as [|c a IH]; intros q A B; [exact B|]. cbn [app mlegals spec_execs] in *. destruct A as (A1 & A2). split; [exact A1|].
  destruct (spec_exec e q c) as (q1, o). cbn [fst] in *. apply IH; [exact A2|]. destruct (spec_execs e q1 a). exact B.
Qed.
Lemma adds_S k : adds (S k) = adds k ++ [MAdd k 0].
Proof. unfold adds. rewrite seq_S, map_app. reflexivity. Qed.
Lemma adds_ok e c0 now B : (forall k, k <= B -> roomy e c0 k) -> forall k, k <= B ->
  mlegals e (init_q e c0 now) (adds k) /\ Permutation (members (after_adds e (init_q e c0 now) k)) (seq 0 k) /\
  qcfg (after_adds e (init_q e c0 now) k) = c0.
Proof.
  intros Ro. induction k as [|k IH]; intros L.
  - split; [exact Logic.I|]. unfold after_adds, adds. cbn [seq map spec_execs fst]. unfold init_q, members.
    destruct (regrown_queues e (mkQ [] [] (fun _ => false) (fun _ => 0%N) c0 (initRefresh c0) (next_at c0 now) 0 0 0 0 [])) as (-> & -> & ->).
    split; [apply perm_nil|reflexivity].
  - destruct (IH ltac:(lia)) as (A & P & C). rewrite adds_S.
    assert (X : after_adds e (init_q e c0 now) (S k) = fst (spec_exec e (after_adds e (init_q e c0 now) k) (MAdd k 0))).
    { unfold after_adds. rewrite adds_S, spec_execs_app. cbn [spec_execs]. now destruct (spec_exec _ _ _). }
    assert (NI : ~ In k (members (after_adds e (init_q e c0 now) k))).
    { intros H. eapply Permutation_in in H; [|exact P]. apply in_seq in H. lia. }
    split; [|rewrite X].
    + apply mlegals_app; [exact A|]. fold (after_adds e (init_q e c0 now) k). cbn [mlegals mlegal]. split; [|exact Logic.I]. intros _.
      rewrite C, (Permutation_length P), seq_length. apply Ro. exact L.
    + cbn [spec_exec]. apply mem_false in NI. rewrite NI. cbn [fst].
      destruct (add_perm e (after_adds e (init_q e c0 now) k) k 0) as (P1 & C1). rewrite C1. split; [|exact C].
      rewrite P1, P, seq_S. apply Permutation_cons_append.
Qed.

Lemma mexecs_app e s a b : mexecs e s (a ++ b) =
  let* (s1, o1) := mexecs e s a in let* (s2, o2) := mexecs e s1 b in Some (s2, o1 ++ o2).
Proof.
  revert s. induction a as [|c a IH]; intros s; cbn [app mexecs].
  - destruct (mexecs e s b) as [(s2, o2)|]; reflexivity.
  - destruct (mexec e s c) as [(s1, o1)|]; [|reflexivity]. rewrite IH. destruct (mexecs e s1 a) as [(s2, o2)|]; [|reflexivity].
    destruct (mexecs e s2 b) as [(s3, o3)|]; reflexivity.
Qed.
(** exp(1.0) * window / 5 to ten digits. *)
Definition realRaw (w : N) : N := (2718281828 * w / 5000000000)%N.
Lemma realRaw_mono a b : (a <= b)%N -> (realRaw a <= realRaw b)%N.
Proof. intros L. unfold realRaw. apply N.div_le_mono; lia. Qed.
Definition many : nat := N.to_nat (2 ^ 25).
Lemma many_N : N.of_nat many = (2 ^ 25)%N. Proof. apply N2Nat.id. Qed.
Opaque many.
Lemma overflowing kh rh : let e := mkEnv kh rh realRaw in
  let c := fun r => mkConf 60 60 (fun _ => 0%N) true true r 1 0 false in
  exists s0, initLfu e (c 2%N) 0 = Some s0 /\
    mexecs e s0 (adds many ++ [MSetConfig (c 32%N) 0; MRestart 0; MAccessLocked 0 0]) = None.
Proof.
  intros e c.
  assert (Ro : forall k, k <= many -> roomy e (c 2%N) k).
  { intros k L. unfold roomy, e. cbn [raw windowRatio c]. etransitivity; [apply (realRaw_mono _ (2 ^ 26))|].
    - pose proof many_N. change (2 ^ 25)%N with 33554432%N in *. change (2 ^ 26)%N with 67108864%N. lia.
    - vm_compute. discriminate. }
  destruct (adds_ok e (c 2%N) 0 many Ro many (le_n _)) as (L & P & C).
  destruct (init_ok e (c 2%N) 0 eq_refl (Ro 0 ltac:(lia))) as (s0 & E0 & R0).
  exists s0. split; [exact E0|]. destruct (mexecs_ok e (adds many) s0 _ R0 L) as (s & E & R1).
  fold (after_adds e (init_q e (c 2%N) 0) many) in R1. rewrite mexecs_app, E.
  assert (E2 : mexec e s (MSetConfig (c 32%N) 0) = Some (setCfg s (c 32%N) 60 (2 ^ 32 - 1), MBool true)) by reflexivity.
  cbn [mexecs]. rewrite E2. cbn [mexec]. unfold restart. set (s1 := setFreq _ 0 0 0 _).
  assert (Tot : N.of_nat (total s1) = (2 ^ 25)%N).
  { change (total s1) with (total s). rewrite (R0_total _ _ _ (R_R0 _ _ _ R1)), (Permutation_length P), seq_length. apply many_N. }
  destruct (large_container e s1) as (s2 & G & U).
  - rewrite Tot. vm_compute. discriminate.
  - rewrite Tot. vm_compute. split; [reflexivity|discriminate].
  - rewrite G. unfold accessLocked.
    assert (Im : inMM s2 0 = true).
    { assert (Z : inMM s2 = inMM s1).
      { revert G. unfold grow. destruct (_ <? _)%N; [now intros [= <-]|]. destruct (CountMin_model.create _ _); [|discriminate]. now intros [= <-]. }
      rewrite Z. change (inMM s1) with (inMM s). destruct R1 as (_ & _ & Im & _). rewrite Im. apply mem_in.
      eapply Permutation_in; [apply Permutation_sym, P|]. apply in_seq. pose proof many_N. change (2 ^ 25)%N with 33554432%N in *. lia. }
    assert (Rc : inMM (reconfigure s2 0) = inMM s2 /\ sk (reconfigure s2 0) = sk s2) by (unfold reconfigure; destruct (_ <? _)%N; auto).
    destruct Rc as (Rc & Rs). rewrite Rc, Im. cbn [negb]. rewrite U; [reflexivity|exact Rs].
Qed.

Lemma overflow_history : exists e c0 now cs s0, good_conf c0 = true /\ raw e = realRaw /\ initLfu e c0 now = Some s0 /\
  (forall n, ~ In (MEvict n) cs) /\ mexecs e s0 cs = None.
Proof.
  destruct (overflowing (fun n => N.of_nat n) (fun a b => (a + b)%N)) as (s0 & E & N0). cbv zeta in E, N0.
  eexists _, _, _, _, s0. split; [|split; [|split; [exact E|split; [|exact N0]]]]; [reflexivity|reflexivity|].
  intros n H. apply in_app_or in H as [H|H].
  - unfold adds in H. apply in_map_iff in H as (y & H & _). discriminate.
  - cbn in H. intuition discriminate.
Qed.
