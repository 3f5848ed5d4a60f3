(** Proofs for C07, part 3: each call refines its specification; histories. *)
From Coq Require Import Permutation.
From Verif Require Import Bytes DList_model DList_spec DList_proofs MMTinyLFU_model MMTinyLFU_spec MMTinyLFU_proofs MMTinyLFU_proofs2.
From Verif Require CountMin_model CountMin_spec CountMin_proofs MMLru_proofs.
Ltac Zify.zify_post_hook ::= idtac.

Lemma members_with_freq q w mw c d f : members (with_freq q w mw c d f) = members q. Proof. reflexivity. Qed.
Lemma counted_queues e q n : M (counted e q n) = M q /\ T (counted e q n) = T q /\ qcfg (counted e q n) = qcfg q.
Proof. unfold counted. destruct (win q + 1 =? maxwin q)%N; auto. Qed.
Lemma regrown_queues e q : M (regrown e q) = M q /\ T (regrown e q) = T q /\ qcfg (regrown e q) = qcfg q.
Proof. unfold regrown. destruct (_ <? 2 * capa q)%N; auto. Qed.
Lemma contest_perm e q : Permutation (members (contest e q)) (members q) /\ qcfg (contest e q) = qcfg q.
Proof.
  unfold contest, members. destruct (list_snoc (M q)) as [Em|(m & x & Em)]; rewrite Em; [cbn [rev]; now rewrite Em|].
  destruct (list_snoc (T q)) as [Et|(t & y & Et)]; rewrite Et, rev_snoc; [cbn [rev]; rewrite Em, Et; auto|].
  rewrite rev_snoc, !removelast_last. destruct (admits e q y x); cbn [M T with_queues qcfg]; (split; [|reflexivity]).
  - cbn [app]. rewrite (Permutation_cons_append (m ++ t ++ [x]) y), <- !app_assoc. apply Permutation_app_head. cbn [app].
    symmetry. apply (Permutation_middle t [y] x).
  - rewrite (Permutation_cons_append m x). reflexivity.
Qed.
Lemma overflow_perm q : Permutation (members (overflow q)) (members q) /\ qcfg (overflow q) = qcfg q.
Proof.
  unfold overflow, members. destruct (list_snoc (T q)) as [Et|(t & y & Et)]; rewrite Et; [cbn [rev]; rewrite Et; auto|].
  rewrite rev_snoc, removelast_last. cbn [M T with_queues qcfg]. split; [|reflexivity]. cbn [app].
  rewrite app_assoc. apply Permutation_cons_append.
Qed.
Lemma add_perm e q n now : Permutation (members (spec_add e q n now)) (n :: members q) /\ qcfg (spec_add e q n now) = qcfg q.
Proof.
  unfold spec_add. set (q1 := counted e (with_queues q (M q) (n :: T q)) n).
  assert (Q1 : Permutation (members q1) (n :: members q) /\ qcfg q1 = qcfg q).
  { unfold q1, members. destruct (counted_queues e (with_queues q (M q) (n :: T q)) n) as (-> & -> & ->). cbn [M T with_queues qcfg].
    split; [|reflexivity]. symmetry. apply Permutation_middle. }
  set (q2 := if (share (tinyPct (qcfg q1)) (length (members q1)) <? N.of_nat (length (T q1)))%N then overflow q1 else contest e q1).
  assert (Q2 : Permutation (members q2) (n :: members q) /\ qcfg q2 = qcfg q).
  { unfold q2. destruct (_ <? _)%N.
    - destruct (overflow_perm q1) as (-> & ->). exact Q1.
    - destruct (contest_perm e q1) as (-> & ->). exact Q1. }
  destruct (regrown_queues e q2) as (A & B & C). unfold members in *.
  cbn [M T with_seen with_stamp qcfg]. rewrite A, B, C. exact Q2.
Qed.

Definition step_ok (e : env) (s : lfu) (q : qt) (c : mcall) : Prop :=
  exists s', mexec e s c = Some (s', snd (spec_exec e q c)) /\ R e s' (fst (spec_exec e q c)).

Lemma add_ok e s q n now : R e s q -> mlegal e q (MAdd n now) -> step_ok e s q (MAdd n now).
Proof.
  intros HR L. unfold step_ok. cbn [mexec spec_exec mlegal] in *. unfold add. pose proof HR as (_ & _ & Im & _). rewrite (Im n).
  destruct (mem n (members q)) eqn:Mn; [exists s; auto|]. apply mem_false in Mn. specialize (L Mn).
  pose proof (add_perm e q n now) as (Pm & Pc). unfold spec_add in *.
  set (q1 := with_queues q (M q) (n :: T q)) in *. set (s1 := setTiny (lcall s (LinkAtHead Tiny n)) n true).
  assert (R1 : R0 e s1 q1).
  { apply R_R0 in HR as (Wr & Ti & Ac & Ut & Cf & Wi & Sk & B). split; [|split].
    - exact (w_linkT _ _ _ n Wr Mn).
    - intros x. unfold s1, q1. cbn [tiny setTiny lcall setWd T with_queues]. unfold updb. rewrite mem_cons, Ti. now destruct (x =? n).
    - auto 10. }
  destruct (updateFreq_ok e s1 q1 n R1) as (s2 & -> & R2 & I2). set (q2 := counted e q1 n) in *.
  pose proof (R0_total _ _ _ R2) as To. pose proof R2 as (Wr2 & _ & _ & _ & (Cf2 & _) & _).
  destruct (W_size _ _ _ Wr2) as (_ & Sz). unfold lst, Tiny at 1. rewrite To, Cf2, Sz. fold (share (tinyPct (qcfg q2)) (length (members q2))).
  assert (X3 : exists s3, (if (share (tinyPct (qcfg q2)) (length (members q2)) <? N.of_nat (length (T q2)))%N
      then let* t := tail (wlist (wd s2) Tiny) in
           Some (setTiny (lcall (lcall s2 (Remove Tiny t)) (LinkAtHead Main t)) t false)
      else maybePromoteTail e s2) = Some s3 /\
      R0 e s3 (if (share (tinyPct (qcfg q2)) (length (members q2)) <? N.of_nat (length (T q2)))%N then overflow q2 else contest e q2) /\
      inMM s3 = inMM s).
  { destruct (_ <? _)%N.
    - destruct (W_tail _ _ _ Wr2) as (_ & Tt). unfold Tiny at 1. rewrite Tt.
      destruct (list_snoc (T q2)) as [Et|(t & y & Et)].
      + exfalso. unfold q2 in Et. destruct (counted_queues e q1 n) as (_ & E & _). rewrite E in Et. discriminate.
      + rewrite Et, lastOr_snoc. eexists. split; [reflexivity|]. split; [exact (overflow_ok _ _ _ t y R2 Et)|]. exact I2.
    - destruct (contest_ok e s2 q2 R2) as (s3 & E & R3 & I3). exists s3. split; [exact E|]. split; [exact R3|]. now rewrite I3, I2. }
  destruct X3 as (s3 & -> & R3 & I3).
  set (q3 := if (share (tinyPct (qcfg q2)) (length (members q2)) <? N.of_nat (length (T q2)))%N then overflow q2 else contest e q2) in *.
  destruct (regrown_queues e q3) as (G1 & G2 & G3).
  assert (Pm3 : Permutation (members q3) (n :: members q)).
  { unfold members in Pm at 1. cbn [M T with_seen with_stamp] in Pm. rewrite G1, G2 in Pm. exact Pm. }
  assert (Ro : roomy e (qcfg q3) (length (members q3))).
  { rewrite (Permutation_length Pm3). cbn [qcfg with_seen with_stamp] in Pc. rewrite G3 in Pc. rewrite Pc. exact L. }
  destruct (grow_ok e s3 q3 (R0_Rg _ _ _ R3) (or_introl R3) Ro) as (s4 & -> & R4 & I4).
  eexists. split; [reflexivity|]. cbn [fst].
  destruct R4 as (Wr & Ti & Ac & Ut & Cf & Wi & Sk & B). split; [exact Wr|]. split; [exact Ti|]. split; [|split; [|split]].
  - intros x. cbn [inMM setIn setAcc setTime]. unfold updb. rewrite I4, I3, Im.
    destruct (Nat.eqb_spec x n) as [E|D].
    + rewrite E. symmetry. apply mem_in. eapply Permutation_in; [apply Permutation_sym, Pm|]. cbn; auto.
    + apply mem_iff. split; intros X.
      * eapply Permutation_in; [apply Permutation_sym, Pm|]. cbn; auto.
      * eapply Permutation_in in X; [|exact Pm]. destruct X; [congruence|auto].
  - intros x. cbn [accd setIn setAcc setTime seen with_seen with_stamp]. unfold updb. now rewrite Ac.
  - intros x. cbn [utime setIn setAcc setTime stamp with_seen with_stamp]. unfold updt. now rewrite Ut.
  - split; [exact Cf|]. split; [exact Wi|]. split; [exact Sk|exact B].
Qed.

Lemma remove_ok e s q n : R e s q -> step_ok e s q (MRemove n).
Proof.
  intros HR. unfold step_ok. cbn [mexec spec_exec]. unfold remove. pose proof HR as (_ & _ & Im & _). rewrite (Im n).
  destruct (mem n (members q)) eqn:Mn; cbn [negb]; [|exists s; auto].
  apply mem_in in Mn. eexists. split; [reflexivity|]. now apply removeLocked_ok.
Qed.
Lemma evict_ok e s q n : R e s q -> In n (members q) -> step_ok e s q (MEvict n).
Proof.
  intros HR I0. unfold step_ok. cbn [mexec spec_exec fst snd].
  destruct (evict_strong e s q n HR I0) as (s' & it & p & r & -> & R' & E & Np & G & _).
  rewrite G, E, after_mid by exact Np. eauto.
Qed.
Lemma rep_mem l o n x : ~ In n l -> In x (replace_node l o n) <-> (In x l /\ x <> o) \/ (x = n /\ In o l).
Proof.
  intros _. unfold replace_node. rewrite in_map_iff. split.
  - intros (y & Ey & Iy). destruct (Nat.eqb_spec y o); subst; auto.
  - intros [(A & B)|(-> & A)].
    + exists x. split; auto. destruct (Nat.eqb_spec x o); congruence.
    + exists o. rewrite Nat.eqb_refl. auto.
Qed.

Lemma replace_ok2 e s q o n : R e s q -> step_ok e s q (MReplace o n).
Proof.
  intros HR. unfold step_ok. cbn [mexec spec_exec]. unfold replace. pose proof HR as (Wr & Ti & Im & Ac & Ut & Cf & Wi & Sk & B).
  rewrite !Im. destruct (mem o (members q)) eqn:Mo; cbn [negb orb andb]; [|exists s; auto].
  destruct (mem n (members q)) eqn:Mn; cbn [negb]; [exists s; auto|].
  eexists. split; [reflexivity|]. cbn [fst]. apply mem_in in Mo. apply mem_false in Mn.
  assert (Dno : n <> o) by (intros ->; contradiction).
  assert (NM : ~ In n (M q) /\ ~ In n (T q)) by (unfold members in Mn; rewrite in_app_iff in Mn; tauto).
  assert (Mem : forall x, (if x =? n then true else if x =? o then false else inMM s x) = mem x (replace_node (M q) o n ++ replace_node (T q) o n)).
  { intros x. rewrite Im. destruct (Nat.eqb_spec x n) as [E|D].
    - symmetry. apply mem_in. rewrite in_app_iff, !rep_mem by tauto. unfold members in Mo. rewrite in_app_iff in Mo. tauto.
    - destruct (Nat.eqb_spec x o) as [E|D2].
      + symmetry. apply mem_false. rewrite in_app_iff, !rep_mem by tauto. tauto.
      + apply mem_iff. unfold members. rewrite !in_app_iff, !rep_mem by tauto. tauto. }
  rewrite (Ti o). destruct (members_split _ _ _ o HR) as [(X & Y)|[(X & Y)|X]]; [| |contradiction].
  - rewrite (proj2 (mem_false _ _) Y). split; [|split; [|split; [|split; [|split]]]].
    + cbn [wd setIn setAcc setTime lcall setWd M T with_seen with_stamp with_queues].
      eapply wrep_ext; [|exact (w_repM _ _ _ o n Wr X Mn)]. intros [|[|i]]; cbn [L2]; try reflexivity.
      symmetry. now apply replace_node_notin.
    + intros x. cbn [tiny setIn setAcc setTime lcall setWd M T with_seen with_stamp with_queues]. rewrite Ti.
      now rewrite (replace_node_notin (T q)).
    + intros x. cbn [inMM setIn setAcc setTime lcall setWd]. unfold updb. apply Mem.
    + intros x. cbn [accd setIn setAcc setTime lcall setWd seen with_seen with_stamp with_queues]. unfold updb. now rewrite !Ac.
    + intros x. cbn [utime setIn setAcc setTime lcall setWd stamp with_seen with_stamp with_queues]. unfold updt. now rewrite !Ut.
    + split; [exact Cf|]. split; [exact Wi|]. split; [exact Sk|exact B].
  - rewrite (proj2 (mem_in _ _) X). split; [|split; [|split; [|split; [|split]]]].
    + cbn [wd setTiny setIn setAcc setTime lcall setWd M T with_seen with_stamp with_queues].
      eapply wrep_ext; [|exact (w_repT _ _ _ o n Wr X Mn)]. intros [|[|i]]; cbn [L2]; try reflexivity.
      symmetry. now apply replace_node_notin.
    + intros x. cbn [tiny setTiny setIn setAcc setTime lcall setWd M T with_seen with_stamp with_queues]. unfold updb. rewrite Ti.
      destruct (Nat.eqb_spec x n) as [E|D].
      * symmetry. apply mem_in. rewrite rep_mem by tauto. tauto.
      * destruct (Nat.eqb_spec x o) as [E|D2].
        -- symmetry. apply mem_false. rewrite rep_mem by tauto. tauto.
        -- apply mem_iff. rewrite rep_mem by tauto. tauto.
    + intros x. cbn [inMM setTiny setIn setAcc setTime lcall setWd]. unfold updb. apply Mem.
    + intros x. cbn [accd setTiny setIn setAcc setTime lcall setWd seen with_seen with_stamp with_queues]. unfold updb. now rewrite !Ac.
    + intros x. cbn [utime setTiny setIn setAcc setTime lcall setWd stamp with_seen with_stamp with_queues]. unfold updt. now rewrite !Ut.
    + split; [exact Cf|]. split; [exact Wi|]. split; [exact Sk|exact B].
Qed.

Lemma mark_R e s q n b : R e s q -> R e (setAcc s n b) (with_seen q n b).
Proof.
  intros (Wr & Ti & Im & Ac & Ut & Cf & Wi & Sk & B). split; [exact Wr|]. split; [exact Ti|]. split; [exact Im|]. split.
  - intros x. cbn [accd setAcc seen with_seen]. unfold updb. now rewrite Ac.
  - auto 10.
Qed.

Lemma reconf_R e s q now : R e s q -> R e (reconfigure s now) (spec_reconf q now).
Proof.
  intros HR. pose proof HR as (Wr & Ti & Im & Ac & Ut & (C1 & C2 & C3) & Wi & Sk & B).
  unfold reconfigure, spec_reconf. rewrite C3. destruct (now <? next_of q)%N; [exact HR|].
  destruct (W_tail _ _ _ Wr) as (Tm & _). unfold lst, Main. rewrite Tm.
  assert (Ag : match lastOr (M q) None with Some n => wrap32 (now + 2 ^ 32 - utime s n) | None => 0%N end =
    match rev (M q) with n :: _ => wrap32 (now + 2 ^ 32 - stamp q n) | [] => 0%N end).
  { destruct (list_snoc (M q)) as [->|(m & x & ->)]; [reflexivity|]. now rewrite lastOr_snoc, rev_snoc, Ut. }
  rewrite Ag, C1. split; [exact Wr|]. split; [exact Ti|]. split; [exact Im|]. split; [exact Ac|]. split; [exact Ut|].
  split; [cbn; auto|]. split; [exact Wi|]. split; [exact Sk|exact B].
Qed.

Lemma counted_members e q n : members (counted e q n) = members q.
Proof. unfold members. destruct (counted_queues e q n) as (-> & -> & _). reflexivity. Qed.

Lemma accessLocked_ok e s0 q0 n now : R e s0 q0 -> step_ok e s0 q0 (MAccessLocked n now).
Proof.
  intros HR0. unfold step_ok. cbn [mexec spec_exec]. unfold accessLocked, spec_access.
  pose proof (reconf_R _ _ _ now HR0) as HR. set (s := reconfigure s0 now) in *. set (q := spec_reconf q0 now) in *.
  pose proof HR as (Wr & Ti & Im & Ac & Ut & Cf & Wi & Sk & B). rewrite (Im n).
  destruct (mem n (members q)) eqn:Mn; cbn [negb]; [|exists s; auto]. apply mem_in in Mn.
  set (s1 := setTime (lcall s (MoveToHead (getLruType s n) n)) n now).
  assert (R1 : R0 e s1 (with_stamp (promoted q n) n now) /\ (forall x, mem x (members (promoted q n)) = mem x (members q))).
  { unfold promoted, s1, getLruType. rewrite Ti.
    destruct (members_split _ _ _ n HR) as [(X & Y)|[(X & Y)|X]]; [| |contradiction].
    - rewrite (proj2 (mem_false _ _) Y). split.
      + split; [exact (w_headM _ _ _ n Wr X)|]. split; [exact Ti|]. split; [exact Ac|]. split; [|auto 10].
        intros x. cbn. unfold updt. now rewrite Ut.
      + intros x. unfold members. cbn [M T with_queues]. apply mem_iff. rewrite !in_app_iff. cbn [In]. rewrite rn_in.
        destruct (Nat.eq_dec x n); [subst; tauto|]. intuition congruence.
    - rewrite (proj2 (mem_in _ _) X). split.
      + split; [exact (w_headT _ _ _ n Wr X)|]. split; [|split; [exact Ac|]; split; [|auto 10]].
        * intros x. cbn [tiny setTime lcall setWd T with_stamp with_queues]. rewrite Ti. apply mem_iff. cbn [In]. rewrite rn_in.
          destruct (Nat.eq_dec x n); [subst; tauto|]. intuition congruence.
        * intros x. cbn. unfold updt. now rewrite Ut.
      + intros x. unfold members. cbn [M T with_queues]. apply mem_iff. rewrite !in_app_iff. cbn [In]. rewrite rn_in.
        destruct (Nat.eq_dec x n); [subst; tauto|]. intuition congruence. }
  destruct R1 as (R1 & Mm). destruct (updateFreq_ok e s1 _ n R1) as (s2 & -> & R2 & I2).
  eexists. split; [reflexivity|]. cbn [fst]. apply R0_R; [exact R2|]. intros x. rewrite I2, counted_members.
  change (members (with_stamp (promoted q n) n now)) with (members (promoted q n)). rewrite Mm. apply Im.
Qed.

Lemma accessCheck_ok e s q n w now : R e s q -> accessCheck s n w now = due q n w now.
Proof.
  intros (Wr & Ti & Im & Ac & Ut & (C1 & C2 & C3) & _). unfold accessCheck, due. rewrite C1, C2, Im, Ac, Ut.
  destruct w; cbn [andb negb orb]; [destruct (updOnWrite (qcfg q))|destruct (updOnRead (qcfg q))]; reflexivity.
Qed.

Lemma conf_ok c : checkConfig c = good_conf c.
Proof.
  unfold checkConfig, good_conf. rewrite !negb_orb, <- !N.leb_antisym.
  rewrite <- !andb_assoc. reflexivity.
Qed.

Lemma restart_ok e s q now : R e s q -> mlegal e q (MRestart now) -> step_ok e s q (MRestart now).
Proof.
  intros (Wr & Ti & Im & Ac & Ut & (C1 & C2 & C3) & Wi & Sk & (B1 & B2 & B3)) L. unfold step_ok. cbn [mexec spec_exec mlegal] in *.
  unfold restart. rewrite C1, C2.
  match goal with |- context [regrown e ?qq] => set (q1 := qq) end.
  match goal with |- context [grow e ?ss] => set (s1 := ss) end.
  assert (G : Rg s1 q1).
  { split; [exact Wr|]. split; [exact Ti|]. split; [exact Ac|]. split; [exact Ut|]. cbn. auto. }
  destruct (grow_ok e s1 q1 G (or_intror eq_refl)) as (s2 & -> & R2 & I2).
  { exact L. }
  eexists. split; [reflexivity|]. cbn [fst]. apply R0_R; [exact R2|]. intros x. rewrite I2. cbn [inMM s1 setFreq setCfg].
  unfold members. destruct (regrown_queues e q1) as (-> & -> & _). apply Im.
Qed.

Lemma mexec_ok e s q c : R e s q -> mlegal e q c -> step_ok e s q c.
Proof.
  intros HR L. destruct c as [n now|n|n|o n|n w now|n|n now|n w now|c now|now].
  - now apply add_ok.
  - now apply remove_ok.
  - now apply evict_ok.
  - now apply replace_ok2.
  - exists s. cbn [mexec spec_exec fst snd]. now rewrite (accessCheck_ok _ _ _ _ _ _ HR).
  - eexists. split; [reflexivity|]. now apply mark_R.
  - now apply accessLocked_ok.
  - unfold step_ok. cbn [mexec spec_exec]. unfold recordAccess. rewrite (accessCheck_ok _ _ _ _ _ _ HR).
    destruct (due q n w now); [|exists s; auto]. exact (accessLocked_ok e _ _ n now (mark_R _ _ _ n true HR)).
  - unfold step_ok. cbn [mexec spec_exec]. unfold setConfig. rewrite conf_ok.
    destruct (good_conf c) eqn:G; cbn [negb]; [|exists s; auto]. eexists. split; [reflexivity|].
    destruct HR as (Wr & Ti & Im & Ac & Ut & Cf & Wi & Sk & (B1 & B2 & B3)).
    split; [exact Wr|]. split; [exact Ti|]. split; [exact Im|]. split; [exact Ac|]. split; [exact Ut|].
    split; [cbn; auto|]. split; [exact Wi|]. split; [exact Sk|]. cbn. split; [exact B1|]. split; [|exact B3].
    unfold good_conf in G. rewrite !andb_true_iff, !N.leb_le in G. tauto.
  - now apply restart_ok.
Qed.

Lemma mexecs_ok e cs : forall s q, R e s q -> mlegals e q cs ->
  exists s', mexecs e s cs = Some (s', snd (spec_execs e q cs)) /\ R e s' (fst (spec_execs e q cs)).
Proof.
  induction cs as [|c r IH]; intros s q HR L; cbn [mexecs spec_execs]; [exists s; auto|].
  destruct L as [L1 L2]. destruct (mexec_ok e s q c HR L1) as (s1 & -> & R1).
  destruct (spec_exec e q c) as [q1 o]. cbn [fst snd] in *. destruct (IH s1 q1 R1 L2) as (s2 & -> & R2).
  destruct (spec_execs e q1 r) as [q2 os]. cbn [fst snd] in *. eauto.
Qed.

Lemma init_ok e c now : good_conf c = true -> roomy e c 0 -> exists s, initLfu e c now = Some s /\ R e s (init_q e c now).
Proof.
  intros G Ro. unfold initLfu, init_q.
  match goal with |- context [regrown e ?qq] => set (q1 := qq) end.
  match goal with |- context [grow e ?ss] => set (s1 := ss) end.
  assert (Gg : Rg s1 q1).
  { split; [eapply wrep_ext; [|exact init_wrep]; intros [|[|i]]; reflexivity|]. cbn.
    unfold good_conf in G. rewrite !andb_true_iff, !N.leb_le in G. repeat split; tauto. }
  destruct (grow_ok e s1 q1 Gg (or_intror eq_refl) Ro) as (s2 & -> & R2 & I2).
  eexists. split; [reflexivity|]. apply R0_R; [exact R2|]. intros x. rewrite I2. unfold members.
  destruct (regrown_queues e q1) as (-> & -> & _). reflexivity.
Qed.
