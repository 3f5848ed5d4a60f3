(** Proofs for C06, part 5: consequences of the refinement. *)
From Coq Require Import Permutation.
From Verif Require Import Bytes DList_model DList_spec DList_proofs MM2Q_model MM2Q_spec MM2Q_proofs MM2Q_proofs2 MM2Q_proofs3 MM2Q_proofs4.
Ltac Zify.zify_post_hook ::= idtac.

Lemma reached_R c0 now cs s outs : reached c0 now cs s outs ->
  R s (fst (spec_execs (init_q c0 now) cs)) /\ outs = snd (spec_execs (init_q c0 now) cs).
Proof.
  intros (G & L & E). destruct (mexecs_ok cs _ _ (init_R c0 now G) L) as (s' & E' & HR).
  rewrite E' in E. injection E as <- <-. auto.
Qed.

Lemma refines_queues c0 now cs : good_pct c0 = true -> mlegals (init_q c0 now) cs ->
  exists s, mexecs (initMM c0 now) cs = Some (s, snd (spec_execs (init_q c0 now) cs)) /\
    shows s (fst (spec_execs (init_q c0 now) cs)).
Proof.
  intros G L. destruct (mexecs_ok cs _ _ (init_R c0 now G) L) as (s' & E' & HR).
  exists s'. split; [exact E'|]. now apply R_shows.
Qed.

(** Histories as folds from the left. *)
Lemma spec_execs_app cs1 : forall q cs2, spec_execs q (cs1 ++ cs2) =
  let (q1, o1) := spec_execs q cs1 in let (q2, o2) := spec_execs q1 cs2 in (q2, o1 ++ o2).
Proof.
  induction cs1 as [|c r IH]; intros q cs2; cbn [app spec_execs].
  - destruct (spec_execs q cs2). reflexivity.
  - destruct (spec_exec q c) as [q1 o]. rewrite IH. destruct (spec_execs q1 r) as [q2 os].
    destruct (spec_execs q2 cs2). reflexivity.
Qed.

Section Inv.
  Variable A : Type.
  Variable stepf : A -> mcall * mout -> A.
  Variable P : q2 -> A -> Prop.
  Variable ok : mcall -> Prop.
  Hypothesis step_ok : forall q x c, P q x -> ok c -> mlegal q c -> P (fst (spec_exec q c)) (stepf x (c, snd (spec_exec q c))).
  Lemma inv_execs cs : forall q x, P q x -> Forall ok cs -> mlegals q cs ->
    P (fst (spec_execs q cs)) (fold_left stepf (combine cs (snd (spec_execs q cs))) x).
  Proof.
    induction cs as [|c r IH]; intros q x HP Ho L; cbn [spec_execs]; [exact HP|].
    destruct L as [L1 L2]. pose proof (Forall_inv Ho) as O1. pose proof (Forall_inv_tail Ho) as O2. pose proof (step_ok q x c HP O1 L1) as S1.
    destruct (spec_exec q c) as [q1 o]. cbn [fst snd] in *. specialize (IH q1 _ S1 O2 L2).
    destruct (spec_execs q1 r) as [q2 os]. cbn [fst snd combine fold_left] in *. exact IH.
  Qed.
End Inv.

Lemma with_stamp_members q n t : members (with_stamp q n t) = members q. Proof. reflexivity. Qed.
Lemma with_used_members q n t : members (with_used q n t) = members q. Proof. reflexivity. Qed.
Lemma reconf_members q now : members (spec_reconf q now) = members q.
Proof. unfold spec_reconf. destruct (now <? next_of q)%N; reflexivity. Qed.

Lemma access_members q n now x : In x (members (fst (spec_access q n now))) <-> In x (members q).
Proof.
  unfold spec_access. destruct (mem n (members (spec_reconf q now))) eqn:E; cbn [fst].
  - rewrite with_stamp_members, promoted_members by now apply mem_in. now rewrite reconf_members.
  - now rewrite reconf_members.
Qed.

Lemma inside_inv q f c : (forall n, f n = true <-> In n (members q)) -> True -> mlegal q c ->
  (forall n, inside_step f (c, snd (spec_exec q c)) n = true <-> In n (members (fst (spec_exec q c)))).
Proof.
  intros HP _ L n. destruct c as [m|m now|m|m|o m|m w now|m now|m w now|c now|t now]; cbn [spec_exec].
  - cbn. apply HP.
  - destruct (mem m (members q)) eqn:E; cbn [fst snd inside_step]; [apply HP|].
    rewrite with_stamp_members, with_used_members, rebalanced_members.
    unfold members at 1. cbn [H W C with_queues app In]. fold (members q). rewrite <- HP. unfold updb.
    destruct (Nat.eqb_spec n m); [subst; tauto|]. intuition congruence.
  - destruct (mem m (members q)) eqn:E; cbn [fst snd inside_step]; [|apply HP].
    rewrite rebalanced_members, taken_members, <- HP. unfold updb.
    destruct (Nat.eqb_spec n m); intuition congruence.
  - cbn [fst snd inside_step]. rewrite taken_members, <- HP. unfold updb.
    destruct (Nat.eqb_spec n m); intuition congruence.
  - destruct (mem o (members q) && negb (mem m (members q))) eqn:E; cbn [fst snd inside_step]; [|apply HP].
    apply andb_true_iff in E as [E1 E2]. apply mem_in in E1. apply negb_true_iff, mem_false in E2.
    rewrite with_stamp_members, with_used_members, replace_members, <- !HP. apply HP in E1. unfold updb.
    destruct (Nat.eqb_spec n m); destruct (Nat.eqb_spec n o); intuition congruence.
  - cbn. apply HP.
  - cbn [spec_exec]. assert (G : inside_step f (MAccessLocked m now, snd (spec_access q m now)) = f).
    { unfold spec_access. destruct (mem m _); reflexivity. }
    rewrite G, access_members. apply HP.
  - destruct (due q m w now); [|cbn; apply HP].
    assert (G : inside_step f (MRecordAccess m w now, snd (spec_access q m now)) = f).
    { unfold spec_access. destruct (mem m _); reflexivity. }
    rewrite G, access_members. apply HP.
  - destruct (good_conf q c); cbn; apply HP.
  - destruct (Bool.eqb (0 <? t) (track q)); cbn; apply HP.
Qed.

Lemma membership c0 now cs s outs n : reached c0 now cs s outs ->
  inMM s n = inside_after (combine cs outs) n.
Proof.
  intros HR. pose proof HR as (_ & L & _). apply reached_R in HR as (HR & ->).
  pose proof (inv_execs _ inside_step (fun q f => forall n, f n = true <-> In n (members q)) (fun _ => True)
    (fun q f c => inside_inv q f c) cs (init_q c0 now) (fun _ => false)) as X.
  cbv beta in X. specialize (X ltac:(intros m; cbn; split; [discriminate|intros []])
    ltac:(apply Forall_forall; auto) L n). fold (inside_after (combine cs (snd (spec_execs (init_q c0 now) cs)))) in X.
  destruct HR as (_ & HI). specialize (HI n).
  destruct (inMM s n), (inside_after _ n); try reflexivity; intuition congruence.
Qed.

(** Warm items were accessed. *)
Lemma touched_inv q f c : (forall n, In n (W q) -> f n = true) -> True -> mlegal q c ->
  (forall n, In n (W (fst (spec_exec q c))) -> touched_step f (c, snd (spec_exec q c)) n = true).
Proof.
  intros HP _ L n.
  assert (Wreb : forall q', In n (W (rebalanced q')) -> In n (W q')).
  { intros q'. unfold rebalanced, with_queues. cbn [W]. apply firstn_in. }
  assert (Wacc : forall m now, In n (W (fst (spec_access q m now))) -> 
     f n = true \/ (n = m /\ snd (spec_access q m now) = MBool true)).
  { intros m now. unfold spec_access. destruct (mem m (members (spec_reconf q now))) eqn:E; cbn [fst snd].
    - change (W (with_stamp (promoted (spec_reconf q now) m) m now)) with (W (promoted (spec_reconf q now) m)).
      assert (Wr : W (spec_reconf q now) = W q) by (unfold spec_reconf; destruct (now <? next_of q)%N; reflexivity).
      unfold promoted. destruct (mem m (H (spec_reconf q now))).
      + cbn. rewrite Wr. auto.
      + assert (G : In n (m :: remove_node (W (spec_reconf q now)) m) -> f n = true \/ n = m /\ MBool true = MBool true).
        { rewrite Wr. intros [->|X]; auto. apply remove_node_in in X as [X _]. auto. }
        destruct (mem m (C (spec_reconf q now))); cbv zeta.
        * destruct (rebalOnAccess (qcfg (spec_reconf q now))).
          -- intros X. apply Wreb in X. apply G. exact X.
          -- intros X. apply G. exact X.
        * intros X. apply G. exact X.
    - unfold spec_reconf. destruct (now <? next_of q)%N; cbn; auto. }
  destruct c as [m|m now|m|m|o m|m w now|m now|m w now|c now|t now]; cbn [spec_exec].
  - cbn. apply HP.
  - destruct (mem m (members q)) eqn:E; cbn [fst snd touched_step]; [apply HP|].
    match goal with |- In n (W ?x) -> _ => change (W x) with (W (rebalanced (with_queues q (m :: H q) (W q) (C q) (wt q) (ct q)))) end.
    intros X. apply Wreb in X. cbn [W with_queues] in X. unfold updb. destruct (Nat.eqb_spec n m); [|auto].
    subst. apply mem_false in E. exfalso. apply E. unfold members. rewrite !in_app_iff. auto.
  - destruct (mem m (members q)) eqn:E; cbn [fst snd touched_step]; [|apply HP].
    intros X. apply Wreb in X. unfold taken_out, with_queues in X. cbn [W] in X. apply remove_node_in in X as [X _]. auto.
  - cbn [fst snd touched_step]. unfold taken_out, with_queues. cbn [W]. intros X. apply remove_node_in in X as [X _]. auto.
  - destruct (mem o (members q) && negb (mem m (members q))) eqn:E; cbn [fst snd touched_step]; [|apply HP].
    cbn [W with_stamp with_used with_queues]. unfold replace_node. rewrite in_map_iff. intros (y & Ey & Iy).
    unfold updb. destruct (Nat.eqb_spec y o).
    + subst. rewrite Nat.eqb_refl. auto.
    + subst. destruct (Nat.eqb_spec n m); [|auto]. subst.
      apply andb_true_iff in E as [_ E2]. apply negb_true_iff, mem_false in E2. exfalso. apply E2.
      unfold members. rewrite !in_app_iff. auto.
  - cbn. apply HP.
  - intros X. destruct (Wacc m now X) as [Y|(Y & Z)].
    + unfold spec_access. destruct (mem m _); cbn [snd touched_step]; auto. unfold updb. destruct (n =? m); auto.
    + rewrite Z. cbn [touched_step]. subst. unfold updb. now rewrite Nat.eqb_refl.
  - destruct (due q m w now); [|cbn; apply HP].
    intros X. destruct (Wacc m now X) as [Y|(Y & Z)].
    + unfold spec_access. destruct (mem m _); cbn [snd touched_step]; auto. unfold updb. destruct (n =? m); auto.
    + rewrite Z. cbn [touched_step]. subst. unfold updb. now rewrite Nat.eqb_refl.
  - destruct (good_conf q c); cbn; apply HP.
  - destruct (Bool.eqb (0 <? t) (track q)); cbn; apply HP.
Qed.

Lemma R_warm s q n : R s q -> isWarm s n <-> In n (W q).
Proof.
  intros HR. destruct (R_shows _ _ HR) as (_ & _ & _ & HI & SH & SW & SC & _).
  unfold isWarm. rewrite (SW n). unfold getLruType. split.
  - intros (A & -> & ->). split; [exact A|]. destruct (inTail s n); auto.
  - intros (A & B). split; [exact A|]. destruct (hot s n); [destruct B; discriminate|].
    destruct (cold s n); [|auto]. destruct (inTail s n); destruct B; discriminate.
Qed.

Lemma warm_was_accessed c0 now cs s outs n : reached c0 now cs s outs -> isWarm s n ->
  touched_after (combine cs outs) n = true.
Proof.
  intros HR HW. pose proof HR as (_ & L & _). apply reached_R in HR as (HR & ->).
  apply (R_warm _ _ n HR) in HW.
  pose proof (inv_execs _ touched_step (fun q f => forall n, In n (W q) -> f n = true) (fun _ => True)
    (fun q f c => touched_inv q f c) cs (init_q c0 now) (fun _ => false)) as X.
  cbv beta in X. apply (X ltac:(intros m; cbn; intros []) ltac:(apply Forall_forall; auto) L n HW).
Qed.

(** Sizes after add / remove. *)
Lemma rebalanced_sizes q : 
  length (H (rebalanced q)) <= share (hotPct (qcfg q)) (length (members q)) /\
  length (W (rebalanced q)) <= share (warm_pct (qcfg q)) (length (members q)) /\
  length (members (rebalanced q)) = length (members q) /\ qcfg (rebalanced q) = qcfg q.
Proof.
  assert (Em : length (members (rebalanced q)) = length (members q)).
  { unfold rebalanced, with_queues, members at 1. cbn [H W C]. generalize (share (hotPct (qcfg q)) (length (members q))).
    generalize (share (warm_pct (qcfg q)) (length (members q))). intros x y. unfold members.
    rewrite !app_length, !firstn_length, !skipn_length. lia. }
  split; [|split; [|split; [exact Em|reflexivity]]]; unfold rebalanced, with_queues; cbn [H W]; rewrite firstn_length; lia.
Qed.

(** The number of items in each queue, as the container sees it. *)
Lemma R_sizes s q : R s q -> size (lst s Hot) = length (H q) /\ size (lst s Warm) + size (lst s WarmTail) = length (W q) /\
  size (lst s Cold) + size (lst s ColdTail) = length (C q).
Proof.
  intros (((a & b & d & e & Hk) & _) & _). destruct Hk as (HJ & EW & _ & EC & _).
  rewrite !(J_size _ _ _ HJ), EW, EC, !app_length. auto.
Qed.
Lemma R_cfg s q : R s q -> cfg s = qcfg q.
Proof. intros ((_ & He & _) & _). apply He. Qed.

Lemma bounded_reb s q : R s (rebalanced q) -> bounded s.
Proof.
  intros HR. destruct (R_sizes _ _ HR) as (A & B & _). pose proof (R_cfg _ _ HR) as Ec.
  destruct (R_shows _ _ HR) as (_ & _ & T & _).
  destruct (rebalanced_sizes q) as (S1 & S2 & S3 & S4). unfold bounded.
  rewrite A, B, T, Ec, S3, S4. auto.
Qed.
Lemma sizes_after_add s q n now s' : R s q -> add s n now = Some (s', true) -> bounded s'.
Proof.
  intros HR E. destruct (add_ok s q n now HR) as (s1 & E1 & R1).
  cbn [mexec spec_exec] in E1, R1. rewrite E in E1.
  destruct (mem n (members q)); [discriminate E1|]. injection E1 as <-. cbn [fst] in R1.
  destruct (R_sizes _ _ R1) as (A & B & _). pose proof (R_cfg _ _ R1) as Ec.
  destruct (R_shows _ _ R1) as (_ & _ & T & _).
  destruct (rebalanced_sizes (with_queues q (n :: H q) (W q) (C q) (wt q) (ct q))) as (S1 & S2 & S3 & S4).
  unfold bounded. rewrite A, B, T, Ec. rewrite with_stamp_members, with_used_members, S3.
  cbn [qcfg with_stamp with_used rebalanced with_queues] in *. auto.
Qed.
Lemma sizes_after_remove s q n s' : R s q -> remove s n = Some (s', true) -> bounded s'.
Proof.
  intros HR E. destruct (remove_ok2 s q n HR) as (s1 & E1 & R1).
  cbn [mexec spec_exec] in E1, R1. rewrite E in E1.
  destruct (mem n (members q)); [|discriminate E1]. injection E1 as <-. cbn [fst] in R1.
  eapply bounded_reb; eauto.
Qed.

(** Accesses. *)
Lemma eviction_reconf q now : eviction (spec_reconf q now) = eviction q.
Proof. unfold spec_reconf. destruct (now <? next_of q)%N; reflexivity. Qed.
Lemma rev_remove l n : rev (remove_node l n) = remove_node (rev l) n.
Proof.
  induction l as [|x l IH]; [reflexivity|]. cbn [rev]. rewrite remove_app, <- IH.
  unfold remove_node. cbn [filter]. destruct (Nat.eqb_spec x n); cbn [negb]; [now rewrite app_nil_r|reflexivity].
Qed.

Lemma access_order s q n now : R s q -> inMM s n = true ->
  exists s' l, accessLocked s n now = Some (s', true) /\ evictionOrder s = Some l /\
   (hot s n = false -> cold s n = false \/ rebalOnAccess (cfg s) = false ->
      evictionOrder s' = Some (remove_node l n ++ [n]) /\ isWarm s' n) /\
   (hot s n = true -> exists c h w, l = c ++ h ++ w /\ In n h /\
      evictionOrder s' = Some (c ++ (remove_node h n ++ [n]) ++ w)).
Proof.
  intros HR IM. destruct (accessLocked_ok s q n now HR) as (s' & E & R').
  cbn [mexec spec_exec] in E, R'.
  destruct (R_shows _ _ HR) as (EO & ND & _ & HI & SH & SW & SC & _).
  assert (M : In n (members q)) by now apply HI.
  unfold spec_access in E, R'. rewrite reconf_members, (proj2 (mem_in n (members q)) M) in E, R'.
  cbn [fst snd] in E, R'. destruct (accessLocked s n now) as [[s1 b]|]; [|discriminate].
  injection E as -> ->. exists s', (eviction q). split; [reflexivity|]. split; [exact EO|].
  destruct (R_shows _ _ R') as (EO' & _ & _).
  change (eviction (with_stamp (promoted (spec_reconf q now) n) n now)) with (eviction (promoted (spec_reconf q now) n)) in EO'.
  assert (EH : H (spec_reconf q now) = H q) by (unfold spec_reconf; destruct (now <? next_of q)%N; reflexivity).
  assert (EWq : W (spec_reconf q now) = W q) by (unfold spec_reconf; destruct (now <? next_of q)%N; reflexivity).
  assert (ECq : C (spec_reconf q now) = C q) by (unfold spec_reconf; destruct (now <? next_of q)%N; reflexivity).
  assert (Ecf : qcfg (spec_reconf q now) = cfg s).
  { rewrite (R_cfg _ _ HR). unfold spec_reconf; destruct (now <? next_of q)%N; reflexivity. }
  split.
  - intros Hh Hc.
    assert (NH : mem n (H q) = false).
    { apply mem_false. intros X. apply SH in X as [_ X]. unfold getLruType in X. rewrite Hh in X.
      destruct (cold s n), (inTail s n); discriminate. }
    assert (G : forall q', H q' = remove_node (H q) n -> W q' = n :: remove_node (W q) n -> C q' = remove_node (C q) n ->
      eviction q' = remove_node (eviction q) n ++ [n]).
    { intros q' E1 E2 E3. unfold eviction. rewrite E1, E2, E3. cbn [rev].
      rewrite !rev_remove, !remove_app, <- !app_assoc. reflexivity. }
    assert (GW : forall q', R s' (with_stamp q' n now) -> In n (W q') -> isWarm s' n).
    { intros q' R1 X. apply (R_warm _ _ n R1). exact X. }
    assert (Fin : promoted (spec_reconf q now) n = promoted (spec_reconf q now) n) by reflexivity.
    unfold promoted in Fin at 2. rewrite EH, ECq, NH, Ecf in Fin. cbv zeta in Fin.
    destruct (mem n (C q)) eqn:MC.
    + destruct Hc as [Hc|Hc].
      { apply mem_in in MC. apply SC in MC as [_ X]. unfold getLruType in X. rewrite Hh, Hc in X.
        destruct (inTail s n); destruct X; discriminate. }
      rewrite Hc in Fin. rewrite Fin in EO', R'. split.
      * rewrite EO'. f_equal. apply G; cbn; rewrite ?EH, ?EWq, ?ECq; reflexivity.
      * eapply GW; [exact R'|]. cbn. auto.
    + rewrite Fin in EO', R'. split.
      * rewrite EO'. f_equal. apply G; cbn; rewrite ?EH, ?EWq, ?ECq; reflexivity.
      * eapply GW; [exact R'|]. cbn. auto.
  - intros Hh. assert (NH : mem n (H q) = true).
    { apply mem_in. apply SH. split; auto. unfold getLruType. now rewrite Hh. }
    exists (rev (C q)), (rev (H q)), (rev (W q)). split; [reflexivity|]. split; [apply mem_in in NH; now apply -> in_rev|].
    rewrite EO'. unfold promoted. rewrite EH, NH. unfold eviction. cbn [H W C count with_cfg with_queues rev].
    rewrite EWq, ECq, rev_remove. reflexivity.
Qed.

(** 100% hot: an LRU. *)
Lemma share100 n : share 100 n = n.
Proof. unfold share. rewrite N.mul_comm, N.div_mul by lia. apply Nat2N.id. Qed.
Definition P100 (q : q2) (_ : unit) : Prop := hotPct (qcfg q) = 100%N /\ coldPct (qcfg q) = 0%N /\ W q = [] /\ C q = [].
Lemma P100_reb q : hotPct (qcfg q) = 100%N -> coldPct (qcfg q) = 0%N -> W q = [] -> C q = [] ->
  H (rebalanced q) = H q /\ W (rebalanced q) = [] /\ C (rebalanced q) = [].
Proof.
  intros A B D E. unfold rebalanced, with_queues. cbn [H W C]. rewrite A, D, E, share100.
  unfold members. rewrite D, E, !app_nil_r. rewrite firstn_all, skipn_all, firstn_nil, skipn_nil. auto.
Qed.
Lemma P100_step q x c : P100 q x -> no_config c -> mlegal q c -> P100 (fst (spec_exec q c)) tt.
Proof.
  intros (A & B & D & E) NC L.
  assert (Acc : forall m now, P100 (fst (spec_access q m now)) tt).
  { intros m now. unfold spec_access. set (q1 := spec_reconf q now).
    assert (Q1 : P100 q1 tt). { subst q1. unfold spec_reconf. destruct (now <? next_of q)%N; repeat split; auto. }
    destruct Q1 as (A1 & B1 & D1 & E1). destruct (mem m (members q1)) eqn:M; cbn [fst]; [|repeat split; auto].
    change (P100 (promoted q1 m) tt). unfold promoted.
    apply mem_in in M. unfold members in M. rewrite D1, E1, !app_nil_r in M.
    rewrite (proj2 (mem_in m (H q1)) M). repeat split; auto. }
  destruct c as [m|m now|m|m|o m|m w now|m now|m w now|c now|t now]; cbn [spec_exec].
  - repeat split; auto.
  - destruct (mem m (members q)); [repeat split; auto|]. cbn [fst].
    destruct (P100_reb (with_queues q (m :: H q) (W q) (C q) (wt q) (ct q)) A B D E) as (_ & X & Y).
    repeat split; auto.
  - destruct (mem m (members q)); [|repeat split; auto]. cbn [fst].
    destruct (P100_reb (taken_out q m) A B) as (_ & X & Y).
    + cbn. now rewrite D. + cbn. now rewrite E. + repeat split; auto.
  - repeat split; auto; cbn; rewrite ?D, ?E; reflexivity.
  - destruct (mem o (members q) && negb (mem m (members q))); [|repeat split; auto].
    repeat split; auto; cbn; rewrite ?D, ?E; reflexivity.
  - repeat split; auto.
  - apply Acc.
  - destruct (due q m w now); [apply Acc|]. repeat split; auto.
  - destruct NC.
  - destruct (Bool.eqb (0 <? t) (track q)); repeat split; auto.
Qed.

Lemma hot100 c0 now cs s outs : reached c0 now cs s outs -> hotPct c0 = 100%N -> Forall no_config cs ->
  exists q, R s q /\ P100 q tt.
Proof.
  intros HR E F. pose proof HR as (G & L & _). apply reached_R in HR as (HR & _).
  exists (fst (spec_execs (init_q c0 now) cs)). split; [exact HR|].
  pose proof (inv_execs unit (fun _ _ => tt) P100 no_config (fun q x c => P100_step q x c) cs (init_q c0 now) tt) as X.
  assert (P0 : P100 (init_q c0 now) tt).
  { repeat split; auto. cbn. unfold good_pct in G. rewrite E in G. apply orb_true_iff in G as [G|G].
    - apply andb_true_iff in G as [_ G]. now apply N.eqb_eq.
    - rewrite !andb_true_iff, !N.leb_le in G. lia. }
  specialize (X P0 F L). destruct (fold_left _ _ tt). exact X.
Qed.

Lemma hot100_lru c0 now cs s outs n t : reached c0 now cs s outs -> hotPct c0 = 100%N -> Forall no_config cs ->
  exists l, evictionOrder s = Some l /\
    (inMM s n = true -> exists s', accessLocked s n t = Some (s', true) /\ evictionOrder s' = Some (remove_node l n ++ [n])) /\
    (inMM s n = false -> exists s', add s n t = Some (s', true) /\ evictionOrder s' = Some (l ++ [n])) /\
    (inMM s n = true -> exists s', remove s n = Some (s', true) /\ evictionOrder s' = Some (remove_node l n)).
Proof.
  intros HR E F. destruct (hot100 _ _ _ _ _ HR E F) as (q & Rq & (A & B & D & EC)).
  destruct (R_shows _ _ Rq) as (EO & ND & _ & HI & SH & SW & SC & _).
  assert (El : eviction q = rev (H q)).
  { unfold eviction. rewrite D, EC. cbn [rev app]. now rewrite app_nil_r. }
  exists (eviction q). split; [exact EO|]. split; [|split].
  - intros IM. destruct (access_order s q n t Rq IM) as (s' & l & Ea & El' & _ & X).
    rewrite EO in El'. injection El' as <-.
    destruct X as (c & h & w & E1 & E2 & E3).
    { destruct (hot s n) eqn:Hh; auto. exfalso. apply HI in IM. unfold members in IM.
      rewrite D, EC, !app_nil_r in IM. apply SH in IM as [_ X]. unfold getLruType in X. rewrite Hh in X.
      destruct (cold s n), (inTail s n); discriminate. }
    exists s'. split; [exact Ea|].
    destruct (accessLocked_ok s q n t Rq) as (s2 & E4 & R4). cbn [mexec] in E4. rewrite Ea in E4.
    injection E4 as <- E4.
    assert (P4 : P100 (fst (spec_exec q (MAccessLocked n t))) tt).
    { apply (P100_step q tt); [split; auto|exact Logic.I|exact Logic.I]. }
    destruct (R_shows _ _ R4) as (EO4 & _). rewrite EO4.
    assert (IM2 := proj1 (HI n) IM).
    cbn [spec_exec] in *. unfold spec_access in *. rewrite reconf_members, (proj2 (mem_in n (members q)) IM2) in *.
    cbn [fst] in *. f_equal.
    assert (EHq : H (spec_reconf q t) = H q) by (unfold spec_reconf; destruct (t <? next_of q)%N; reflexivity).
    destruct P4 as (_ & _ & D4 & E5). unfold eviction. rewrite D4, E5. cbn [rev app]. rewrite app_nil_r.
    change (H (with_stamp (promoted (spec_reconf q t) n) n t)) with (H (promoted (spec_reconf q t) n)).
    unfold promoted. rewrite EHq.
    unfold members in IM2. rewrite D, EC, !app_nil_r in IM2. rewrite (proj2 (mem_in n (H q)) IM2).
    cbn [H count with_cfg with_queues rev]. rewrite D, EC. cbn [rev app]. rewrite app_nil_r, rev_remove. reflexivity.
  - intros IM. destruct (add_ok s q n t Rq) as (s2 & E4 & R4). cbn [mexec spec_exec] in E4, R4.
    assert (NM : mem n (members q) = false).
    { apply mem_false. intros X. apply HI in X. congruence. }
    rewrite NM in E4, R4. cbn [fst snd] in *.
    destruct (add s n t) as [[s1 b]|]; [|discriminate]. injection E4 as -> ->.
    exists s2. split; [reflexivity|]. destruct (R_shows _ _ R4) as (EO4 & _). rewrite EO4. f_equal.
    change (eviction (with_stamp (with_used (rebalanced (with_queues q (n :: H q) (W q) (C q) (wt q) (ct q))) n true) n t))
      with (eviction (rebalanced (with_queues q (n :: H q) (W q) (C q) (wt q) (ct q)))).
    destruct (P100_reb (with_queues q (n :: H q) (W q) (C q) (wt q) (ct q)) A B D EC) as (X & Y & Z).
    unfold eviction at 1. rewrite X, Y, Z. cbn [H with_queues rev app]. rewrite app_nil_r, El. reflexivity.
  - intros IM. destruct (remove_ok2 s q n Rq) as (s2 & E4 & R4). cbn [mexec spec_exec] in E4, R4.
    assert (NM : mem n (members q) = true) by (apply mem_in, HI; exact IM).
    rewrite NM in E4, R4. cbn [fst snd] in *.
    destruct (remove s n) as [[s1 b]|]; [|discriminate]. injection E4 as -> ->.
    exists s2. split; [reflexivity|]. destruct (R_shows _ _ R4) as (EO4 & _). rewrite EO4. f_equal.
    destruct (P100_reb (taken_out q n) A B) as (X & Y & Z).
    { cbn. now rewrite D. } { cbn. now rewrite EC. }
    unfold eviction at 1. rewrite X, Y, Z. cbn [H taken_out with_queues rev app]. rewrite app_nil_r, El, rev_remove. reflexivity.
Qed.

Lemma eviction_perm q : Permutation (members q) (eviction q).
Proof.
  unfold members, eviction. rewrite <- (Permutation_rev (C q)), <- (Permutation_rev (H q)), <- (Permutation_rev (W q)).
  rewrite (app_assoc (H q)). apply Permutation_app_comm.
Qed.
Lemma membership_order c0 now cs s outs : reached c0 now cs s outs ->
  exists l, evictionOrder s = Some l /\ NoDup l /\
    forall n, (In n l <-> inside_after (combine cs outs) n = true) /\
              (inMM s n = true <-> inside_after (combine cs outs) n = true).
Proof.
  intros HR. pose proof (fun n => membership _ _ _ _ _ n HR) as M. apply reached_R in HR as (HR & _).
  destruct (R_shows _ _ HR) as (EO & ND & _ & HI & _). eexists. split; [exact EO|]. split.
  - eapply Permutation_NoDup; [|exact ND]. apply eviction_perm.
  - intros n. rewrite <- M. split; [|reflexivity]. rewrite HI. apply eviction_in.
Qed.

Lemma evict_continues c0 now cs s outs n : reached c0 now cs s outs -> inMM s n = true ->
  exists s' it p r, evict s n = Some (s', it) /\ evictionOrder s = Some (p ++ n :: r) /\
    evictionOrder s' = Some (p ++ r) /\ inMM s' n = false /\ walkIt (total s') s' it = Some r.
Proof.
  intros HR IM. apply reached_R in HR as (HR & _).
  destruct (R_shows _ _ HR) as (EO & ND & _ & HI & _). apply HI in IM.
  destruct (evict_strong _ _ _ HR IM) as (s' & it & p & r & X & R' & Er & Np & Hd & Wk).
  destruct (R_shows _ _ R') as (EO' & _ & _ & HI' & _).
  exists s', it, p, r. split; [exact X|]. split; [rewrite EO; now f_equal|]. split; [|split; [|exact Wk]].
  - rewrite EO'. f_equal.
    assert (E : eviction (taken_out (fst (spec_execs (init_q c0 now) cs)) n) = remove_node (eviction (fst (spec_execs (init_q c0 now) cs))) n).
    { unfold eviction, taken_out, with_queues. cbn [H W C]. rewrite !rev_remove, !remove_app. reflexivity. }
    rewrite E, Er, remove_app.
    assert (NDe : NoDup (p ++ n :: r)). { rewrite <- Er. eapply Permutation_NoDup; [|exact ND]. apply eviction_perm. }
    apply NoDup_remove_2 in NDe. rewrite in_app_iff in NDe.
    rewrite remove_node_notin by tauto. unfold remove_node at 1. cbn [filter]. rewrite Nat.eqb_refl. cbn [negb].
    fold (remove_node r n). rewrite remove_node_notin by tauto. reflexivity.
  - destruct (inMM s' n) eqn:E; [|reflexivity]. apply HI' in E. apply taken_members in E. tauto.
Qed.
