(** The lists stand for sequences. *)
From Coq Require Import List Arith Bool Lia.
Import ListNotations.
From Verif Require Import SList_model SList_spec.

Fixpoint seg (nx : node -> option node) (h : option node) (l : list node) (e : option node) : Prop :=
  match l with [] => h = e | a :: l => h = Some a /\ seg nx (nx a) l e end.
Lemma seg_app : forall nx l1 l2 h e, seg nx h (l1 ++ l2) e <-> exists m, seg nx h l1 m /\ seg nx m l2 e.
Proof.
  intros nx l1. induction l1 as [|a l1 IH]; intros l2 h e; cbn.
  - split; [intros H; exists h; auto|intros (m & -> & H); exact H].
  - rewrite IH. split; [intros (A & m & B & C); exists m; auto|intros (m & (A & B) & C); eauto].
Qed.
Lemma seg_frame : forall nx n v l h e, ~ In n l -> seg nx h l e -> seg (upd nx n v) h l e.
Proof.
  intros nx n v l. induction l as [|a l IH]; intros h e N H; cbn in *; [assumption|]. destruct H as [A B]. split; [assumption|].
  replace (upd nx n v a) with (nx a); [apply IH; tauto|]. unfold upd. destruct (Nat.eqb_spec a n); [subst; tauto|reflexivity].
Qed.
Lemma upd_same : forall A (f : nat -> A) i v, upd f i v i = v. Proof. intros. unfold upd. now rewrite Nat.eqb_refl. Qed.
Lemma upd_other : forall A (f : nat -> A) i v j, j <> i -> upd f i v j = f j. Proof. intros. unfold upd. now destruct (Nat.eqb_spec j i). Qed.
Lemma last_snoc : forall l n, lastOf (l ++ [n]) = Some n.
Proof. intros. unfold lastOf. now rewrite rev_app_distr. Qed.
Lemma last_cons : forall a l, lastOf (a :: l) = match lastOf l with None => Some a | t => t end.
Proof. intros a l. destruct l as [|b l] using rev_ind; [reflexivity|]. rewrite app_comm_cons, !last_snoc. reflexivity. Qed.
Lemma last_app : forall a b, b <> [] -> lastOf (a ++ b) = lastOf b.
Proof. intros a b H. destruct b as [|x b] using rev_ind; [congruence|]. rewrite app_assoc, !last_snoc. reflexivity. Qed.
Lemma last_none : forall l, lastOf l = None <-> l = [].
Proof. intros l. destruct l as [|x l] using rev_ind; [split; reflexivity|]. rewrite last_snoc. split; [discriminate|]. intros H. now destruct l. Qed.
Lemma snoc_cases : forall l : list node, l = [] \/ exists l' t, l = l' ++ [t].
Proof. intros l. destruct l as [|x l] using rev_ind; eauto. Qed.

Record Rep (nx : node -> option node) (L : slist) (l : list node) : Prop := {
  p_seg : seg nx (head L) l None; p_tail : tail L = lastOf l; p_size : size L = length l }.
Record Inv (s : seqs) (w : world) : Prop := {
  i_rep : forall i, Rep (next w) (lists w i) (s i);
  i_nd : forall i, NoDup (s i);
  i_dj : forall i j n, i <> j -> In n (s i) -> ~ In n (s j) }.

Lemma rep_check : forall nx L l, Rep nx L l -> check L = true.
Proof.
  intros nx L l [A B C]. unfold check. rewrite B, C. destruct l as [|a l]; cbn in A.
  - rewrite A. reflexivity.
  - destruct A as [-> _]. rewrite last_cons. destruct (lastOf l); reflexivity.
Qed.
Lemma rep_frame : forall nx n v L l, ~ In n l -> Rep nx L l -> Rep (upd nx n v) L l.
Proof. intros nx n v L l N [A B C]. constructor; auto. now apply seg_frame. Qed.
Lemma seg_hd : forall nx h l, seg nx h l None -> h = hd_error l.
Proof. intros nx h [|a l] H; cbn in *; tauto. Qed.
Lemma start_inv : Inv (fun _ => []) start.
Proof. constructor; intros; [constructor; reflexivity|constructor|auto]. Qed.

Lemma insert_inv : forall s w i n, Inv s w -> (forall j, ~ In n (s j)) -> exists w', insert w i n = Some w' /\ Inv (setSeq s i (n :: s i)) w'.
Proof.
  intros s w i n [R ND DJ] F. eexists. split; [reflexivity|]. constructor.
  - intros j. cbn. unfold setSeq. destruct (Nat.eqb_spec j i) as [->|Ne].
    + rewrite upd_same. destruct (R i) as [A B C]. constructor; cbn.
      * split; [reflexivity|]. rewrite upd_same. now apply seg_frame.
      * rewrite last_cons, B. reflexivity.
      * now rewrite C.
    + rewrite upd_other by assumption. now apply rep_frame.
  - intros j. unfold setSeq. destruct (Nat.eqb_spec j i); [constructor; auto|auto].
  - intros a b m Ne. unfold setSeq. destruct (Nat.eqb_spec a i) as [->|], (Nat.eqb_spec b i) as [->|]; cbn; try congruence.
    + intros [<-|I]; [apply F|now apply (DJ i b)].
    + intros I [<-|J]; [now apply (F a)|revert J; now apply (DJ a i)].
    + intros I. now apply (DJ a b).
Qed.
(** the same for any removal of one node *)
Lemma inv_cut : forall s w w' i l, Inv s w -> NoDup l -> incl l (s i) -> (forall j, Rep (next w') (lists w' j) (if j =? i then l else s j)) -> Inv (setSeq s i l) w'.
Proof.
  intros s w w' i l [R ND DJ] N I R'. constructor.
  - exact R'.
  - intros j. unfold setSeq. destruct (Nat.eqb_spec j i); auto.
  - intros a b m Ne. unfold setSeq. destruct (Nat.eqb_spec a i) as [->|], (Nat.eqb_spec b i) as [->|]; try congruence; intros A.
    + apply (DJ i b); auto.
    + intros B. apply I in B. revert B. now apply (DJ a i).
    + now apply (DJ a b).
Qed.
Lemma pop_inv : forall s w i n l, Inv s w -> s i = n :: l -> exists w', pop w i = Some w' /\ Inv (setSeq s i l) w' /\ next w n = hd_error l /\ (forall j, j <> i -> lists w' j = lists w j).
Proof.
  intros s w i n l I E. destruct (i_rep _ _ I i) as [A B C]. rewrite E in A, B, C. cbn in A. destruct A as [A1 A2]. pose proof (i_nd _ _ I i) as ND. rewrite E in ND. inversion ND as [|? ? N1 N2]; subst.
  assert (RL : Rep (next w) (mkL (next w n) (match next w n with None => None | _ => tail (lists w i) end) (size (lists w i) - 1)) l).
  { constructor; cbn.
    - assumption.
    - rewrite B, last_cons. pose proof (seg_hd _ _ _ A2) as H. rewrite H. destruct l as [|b l]; [reflexivity|]. cbn [hd_error]. destruct (lastOf (b :: l)) eqn:Q; [reflexivity|]. apply last_none in Q. discriminate.
    - rewrite C. cbn. lia. }
  unfold pop. rewrite C, A1. cbn [length Nat.eqb]. rewrite C in RL. cbn [length] in RL. rewrite (rep_check _ _ _ RL). eexists. split; [reflexivity|]. split; [|split; [exact (seg_hd _ _ _ A2)|intros j Ne; cbn; now rewrite upd_other]].
  apply (inv_cut s w); auto; [rewrite E; intros x X; now right|]. intros j. cbn. destruct (Nat.eqb_spec j i) as [->|Ne].
  - rewrite upd_same. now apply rep_frame.
  - rewrite upd_other by assumption. apply rep_frame; [|apply I]. apply (i_dj _ _ I i j); [congruence|rewrite E; now left].
Qed.
Lemma splice_inv : forall s w i j, Inv s w -> i <> j -> exists w', splice w i j = Some w' /\ Inv (setSeq (setSeq s i (s j ++ s i)) j []) w'.
Proof.
  intros s w i j I NE. destruct (i_rep _ _ I i) as [A B C], (i_rep _ _ I j) as [D E F]. unfold splice. rewrite F.
  assert (ND : NoDup (s j ++ s i)).
  { pose proof (i_nd _ _ I i) as Ni. pose proof (i_nd _ _ I j) as Nj. pose proof (fun n => i_dj _ _ I j i n ltac:(congruence)) as X. revert Ni Nj X. generalize (s i) (s j). clear. intros b a Ni Nj X.
    induction a as [|x a IH]; [exact Ni|]. inversion Nj; subst. cbn. constructor; [|apply IH; auto; intros n P; apply X; now right]. intros Q. apply in_app_or in Q. destruct Q; [auto|]. apply (X x); [now left|assumption]. }
  assert (DISJ : forall s', (forall k, s' k = setSeq (setSeq s i (s j ++ s i)) j [] k) -> (forall k, NoDup (s' k)) /\ (forall a b m, a <> b -> In m (s' a) -> ~ In m (s' b))).
  { intros s' ES. split.
    - intros k. rewrite ES. unfold setSeq. destruct (Nat.eqb_spec k j); [constructor|]. destruct (Nat.eqb_spec k i); [assumption|apply I].
    - intros a b m Ne. rewrite !ES. unfold setSeq. destruct (Nat.eqb_spec a j) as [->|Aj]; [intros []|]. destruct (Nat.eqb_spec b j) as [->|Bj]; [auto|].
      destruct (Nat.eqb_spec a i) as [->|Ai], (Nat.eqb_spec b i) as [->|Bi]; try congruence; intros P Q.
      + apply in_app_or in P. destruct P as [P|P]; [revert Q; apply (i_dj _ _ I j b); auto|revert Q; now apply (i_dj _ _ I i b)].
      + apply in_app_or in Q. destruct Q as [Q|Q]; [revert Q; apply (i_dj _ _ I a j); auto|revert Q; now apply (i_dj _ _ I a i)].
      + revert Q. now apply (i_dj _ _ I a b). }
  destruct (DISJ _ (fun k => eq_refl)) as [D1 D2]. destruct (snoc_cases (s j)) as [Ej|(l' & t & Ej)].
  - rewrite Ej. cbn [length Nat.eqb]. eexists. split; [reflexivity|]. constructor; [|rewrite Ej in D1; exact D1|rewrite Ej in D2; exact D2].
    intros k. unfold setSeq. destruct (Nat.eqb_spec k j) as [->|]; [rewrite <- Ej; apply I|]. destruct (Nat.eqb_spec k i) as [->|]; [cbn; apply I|apply I].
  - assert (Z : length (s j) =? 0 = false) by (rewrite Ej, app_length; cbn; apply Nat.eqb_neq; lia). rewrite Z, E. rewrite Ej, last_snoc. eexists. split; [reflexivity|]. rewrite <- Ej.
    constructor; [|assumption|assumption]. intros k. cbn. unfold setSeq.
    assert (Tin : In t (s j)) by (rewrite Ej; apply in_or_app; right; now left).
    destruct (Nat.eqb_spec k j) as [->|Kj]; [rewrite upd_same; constructor; reflexivity|]. rewrite upd_other by assumption.
    destruct (Nat.eqb_spec k i) as [->|Ki]; [rewrite upd_same|rewrite upd_other by assumption; apply rep_frame; [now apply (i_dj _ _ I j k); auto|apply I]].
    constructor; cbn.
    + apply seg_app. exists (head (lists w i)). split.
      * rewrite Ej in D |- *. apply seg_app in D. destruct D as (m & M1 & M2). cbn in M2. destruct M2 as [-> M2]. apply seg_app. exists (Some t). split.
        -- apply seg_frame; [|assumption]. pose proof (i_nd _ _ I j) as N. rewrite Ej in N. apply NoDup_remove_2 in N. now rewrite app_nil_r in N.
        -- cbn. split; [reflexivity|]. now rewrite upd_same.
      * apply seg_frame; [|assumption]. apply (i_dj _ _ I j i); auto.
    + rewrite B. destruct (s i) as [|a l] eqn:Es; [rewrite app_nil_r, Ej, last_snoc; reflexivity|]. rewrite last_app by discriminate. destruct (lastOf (a :: l)) eqn:Q; [reflexivity|]. apply last_none in Q. discriminate.
    + rewrite C, app_length. lia.
Qed.
Lemma remove_inv : forall s w i d n l, Inv s w -> s i = d ++ n :: l -> exists w', remove w i (lastOf d) n = Some w' /\ Inv (setSeq s i (d ++ l)) w' /\ next w n = hd_error l.
Proof.
  intros s w i d n l I E. destruct (snoc_cases d) as [->|(d' & p & ->)].
  - cbn in E. destruct (pop_inv _ _ _ _ _ I E) as (w' & P1 & P2 & P3 & _). exists w'. auto.
  - rewrite last_snoc. unfold remove. destruct (i_rep _ _ I i) as [A B C]. pose proof (i_nd _ _ I i) as ND. rewrite <- app_assoc in E |- *. cbn [app] in E |- *. rewrite E in A, B, C, ND.
    apply seg_app in A. destruct A as (m & A1 & A2). cbn in A2. destruct A2 as (-> & A2 & A3).
    assert (NP : ~ In p d' /\ ~ In p l /\ p <> n /\ ~ In n d' /\ ~ In n l /\ NoDup (d' ++ p :: l)).
    { pose proof (NoDup_remove_2 _ _ _ ND) as Q1. pose proof (NoDup_remove_1 _ _ _ ND) as Q2. pose proof (NoDup_remove_2 _ _ _ Q2) as Q3.
      change (d' ++ p :: n :: l) with (d' ++ [p] ++ n :: l) in ND. rewrite app_assoc in ND. pose proof (NoDup_remove_2 _ _ _ ND) as Q4. pose proof (NoDup_remove_1 _ _ _ ND) as Q5. rewrite <- app_assoc in Q4, Q5. cbn in Q4, Q5.
      clear - ND Q1 Q2 Q3 Q4 Q5. rewrite ?in_app_iff in *. cbn in *. rewrite ?in_app_iff in *. cbn in *. assert (p <> n) by (intros ->; tauto). intuition congruence. }
    destruct NP as (N1 & N2 & N3 & N4 & N5 & N6).
    assert (RL : Rep (upd (next w) p (next w n)) (mkL (head (lists w i)) (match tail (lists w i) with Some t => if t =? n then Some p else Some t | None => None end) (size (lists w i) - 1)) (d' ++ p :: l)).
    { constructor; cbn.
      - apply seg_app. exists (Some p). split; [now apply seg_frame|]. cbn. split; [reflexivity|]. rewrite upd_same. now apply seg_frame.
      - rewrite B. destruct l as [|x l].
        + change (d' ++ [p; n]) with (d' ++ [p] ++ [n]). rewrite app_assoc, !last_snoc, Nat.eqb_refl. reflexivity.
        + change (d' ++ p :: n :: x :: l) with (d' ++ (p :: n :: x :: l)). rewrite !last_app by discriminate. rewrite !(last_cons p), (last_cons n). destruct (lastOf (x :: l)) as [t|] eqn:Q; [|apply last_none in Q; discriminate].
          assert (In t (x :: l)). { clear - Q. destruct (snoc_cases (x :: l)) as [Z|(z & y & Z)]; [discriminate|]. rewrite Z in *. rewrite last_snoc in Q. injection Q as ->. apply in_or_app. right. now left. }
          destruct (Nat.eqb_spec t n); [subst; contradiction|reflexivity].
      - rewrite C, !app_length. cbn. lia. }
    rewrite (rep_check _ _ _ RL). eexists. split; [reflexivity|]. split; [|exact (seg_hd _ _ _ A3)].
    apply (inv_cut s w); auto; [rewrite E; intros x X; rewrite in_app_iff in *; cbn in *; tauto|]. intros j. cbn. destruct (Nat.eqb_spec j i) as [->|Ne].
    + rewrite upd_same. apply rep_frame; [|assumption]. rewrite in_app_iff. cbn. intuition congruence.
    + rewrite upd_other by assumption. assert (X : forall m, In m (s i) -> ~ In m (s j)) by (intros m Hm; apply (i_dj _ _ I i j); [congruence|assumption]).
      apply rep_frame; [apply X; rewrite E, in_app_iff; cbn; tauto|]. apply rep_frame; [apply X; rewrite E, in_app_iff; cbn; tauto|apply I].
Qed.
Lemma setSeq_id : forall s i l w, Inv s w -> s i = l -> Inv (setSeq s i l) w.
Proof.
  intros s i l w [A B C] E. assert (X : forall k, setSeq s i l k = s k) by (intros k; unfold setSeq; destruct (Nat.eqb_spec k i); congruence).
  constructor; intros; rewrite ?X in *; auto. now apply (C i0 j).
Qed.
Lemma inv_ext : forall s s' w, (forall k, s k = s' k) -> Inv s w -> Inv s' w.
Proof. intros s s' w X [A B C]. constructor; intros; rewrite <- ?X in *; auto. now apply (C i j). Qed.
Lemma sweep_inv : forall f l fuel s w i d, Inv s w -> s i = d ++ l -> length l <= fuel ->
  exists w', sweepFrom fuel f w i (lastOf d) (hd_error l) = Some w' /\ Inv (setSeq s i (d ++ filter (fun n => negb (f n)) l)) w'.
Proof.
  intros f l. induction l as [|n l IH]; intros fuel s w i d I E L.
  - exists w. split; [destruct fuel; reflexivity|]. cbn. now apply setSeq_id.
  - destruct fuel as [|fuel]; [cbn in L; lia|]. cbn in L. cbn [hd_error sweepFrom filter]. destruct (remove_inv _ _ _ _ _ _ I E) as (w1 & R1 & R2 & R3). destruct (f n); cbn [negb].
    + rewrite R1, R3. destruct (IH fuel (setSeq s i (d ++ l)) w1 i d R2) as (w' & S1 & S2); [unfold setSeq; now rewrite Nat.eqb_refl|lia|]. exists w'. split; [assumption|].
      eapply inv_ext; [|exact S2]. intros k. unfold setSeq. now destruct (k =? i).
    + rewrite R3. destruct (IH fuel s w i (d ++ [n]) I) as (w' & S1 & S2); [rewrite <- app_assoc; exact E|lia|]. rewrite last_snoc in S1. rewrite <- app_assoc in S2. eauto.
Qed.
Lemma findTail_last : forall w l fuel n, seg (next w) (Some n) (n :: l) None -> length l <= fuel -> findTail fuel w n = lastOf (n :: l).
Proof.
  intros w l. induction l as [|m l IH]; intros fuel n H L; cbn [seg] in H; destruct H as [_ H].
  - destruct fuel; cbn; now rewrite H.
  - cbn in H. destruct H as [H1 H2]. destruct fuel as [|fuel]; [cbn in L; lia|]. cbn [findTail]. rewrite H1. rewrite (IH fuel m); [|cbn; auto|cbn in L; lia].
    rewrite (last_cons n). destruct (lastOf (m :: l)) eqn:Q; [reflexivity|]. apply last_none in Q. discriminate.
Qed.
Lemma setL_same : forall w i, lists (setL w i (lists w i)) i = lists w i. Proof. intros. cbn. now rewrite upd_same. Qed.
Lemma inv_setL : forall s w i, Inv s w -> Inv s (setL w i (lists w i)).
Proof. intros s w i [A B C]. constructor; auto. intros j. cbn. unfold upd. destruct (Nat.eqb_spec j i) as [->|]; apply A. Qed.
Lemma exec_inv : forall s w c, Inv s w -> legal s c -> exists w', exec w c = Some w' /\ Inv (does s c) w'.
Proof.
  intros s w c I L. destruct c as [i n|i|i j|i f|i j|i|i]; cbn [exec does legal] in *.
  - now apply insert_inv.
  - destruct (s i) as [|n l] eqn:E; [congruence|]. destruct (pop_inv _ _ _ _ _ I E) as (w' & P & Q & _). exists w'. auto.
  - now apply splice_inv.
  - pose proof (i_rep _ _ I i) as [A B C]. unfold sweep. rewrite C, (seg_hd _ _ _ A). exact (sweep_inv f (s i) (length (s i)) s w i [] I eq_refl (le_n _)).
  - eexists. split; [reflexivity|]. destruct I as [A B C]. constructor.
    + intros k. cbn. unfold setSeq, upd. destruct (Nat.eqb_spec k j); [constructor; reflexivity|]. destruct (Nat.eqb_spec k i); [subst; apply A|apply A].
    + intros k. unfold setSeq. destruct (Nat.eqb_spec k j); [constructor|]. destruct (Nat.eqb_spec k i); auto.
    + intros a b m Ne. unfold setSeq. destruct (Nat.eqb_spec a j); [intros []|]. destruct (Nat.eqb_spec b j); [auto|].
      destruct (Nat.eqb_spec a i), (Nat.eqb_spec b i); try congruence; intros P; [apply (C j b)|apply (C a j)|apply (C a b)]; auto.
  - unfold restore, save. rewrite (rep_check _ _ _ (i_rep _ _ I i)). eexists. split; [reflexivity|]. now apply inv_setL.
  - unfold restoreOld, saveOld, restore. cbn [fst snd]. pose proof (i_rep _ _ I i) as R. destruct R as [A B C]. destruct (s i) as [|n l] eqn:E; cbn in A.
    + assert (X : mkL None None (size (lists w i)) = lists w i) by (destruct (lists w i); cbn in *; subst; reflexivity). rewrite A, X.
      pose proof (i_rep _ _ I i) as R. rewrite (rep_check _ _ _ R). eexists. split; [reflexivity|]. now apply inv_setL.
    + destruct A as [A1 A2]. rewrite A1. rewrite (findTail_last w l) by (cbn in *; auto; lia). rewrite <- B.
      assert (X : exists t, tail (lists w i) = Some t) by (rewrite B; destruct (lastOf (n :: l)) eqn:Q; [eauto|apply last_none in Q; discriminate]). destruct X as [t X]. rewrite X.
      assert (Y : mkL (Some n) (Some t) (size (lists w i)) = lists w i) by (destruct (lists w i); cbn in *; congruence). rewrite Y.
      pose proof (i_rep _ _ I i) as R. rewrite (rep_check _ _ _ R). eexists. split; [reflexivity|]. now apply inv_setL.
Qed.
Lemma run_inv : forall cs s w, Inv s w -> legals s cs -> exists w', run w cs = Some w' /\ Inv (doAll s cs) w'.
Proof.
  induction cs as [|c cs IH]; intros s w I L; [exists w; auto|]. destruct L as [L1 L2]. destruct (exec_inv _ _ _ I L1) as (w1 & E & I1). destruct (IH _ _ I1 L2) as (w' & R & I2).
  exists w'. cbn. rewrite E. auto.
Qed.
Lemma walk_seg : forall w l h fuel, seg (next w) h l None -> length l <= fuel -> walk fuel w h = Some l.
Proof.
  intros w l. induction l as [|a l IH]; intros h fuel H L; cbn in H; [subst; now destruct fuel|]. destruct H as [-> H]. destruct fuel as [|fuel]; [cbn in L; lia|]. cbn in *. rewrite (IH _ fuel); auto. lia.
Qed.
Lemma refines : forall cs, legals (fun _ => []) cs -> exists w, run start cs = Some w /\
  forall i, let l := doAll (fun _ => []) cs i in elements w i = Some l /\ size (lists w i) = length l /\ head (lists w i) = hd_error l /\ tail (lists w i) = lastOf l.
Proof.
  intros cs L. destruct (run_inv cs _ _ start_inv L) as (w & R & [A B C]). exists w. split; [assumption|]. intros i. cbv zeta. destruct (A i) as [P Q S].
  split; [unfold elements; rewrite S; now apply walk_seg|]. split; [assumption|]. split; [now apply seg_hd in P|assumption].
Qed.
Lemma no_sharing : forall cs i j n, legals (fun _ => []) cs -> In n (doAll (fun _ => []) cs i) -> i <> j -> ~ In n (doAll (fun _ => []) cs j).
Proof. intros cs i j n L H Ne. destruct (run_inv cs _ _ start_inv L) as (w & R & [A B C]). now apply (C i j). Qed.
Lemma pop_empty : forall cs w i, legals (fun _ => []) cs -> run start cs = Some w -> doAll (fun _ => []) cs i = [] -> pop w i = None.
Proof.
  intros cs w i L R E. destruct (run_inv cs _ _ start_inv L) as (w' & R' & I). assert (w' = w) by congruence. subst w'. destruct (i_rep _ _ I i) as [_ _ S]. unfold pop. rewrite S, E. reflexivity.
Qed.
Lemma once : forall cs i, legals (fun _ => []) cs -> NoDup (doAll (fun _ => []) cs i).
Proof. intros cs i L. destruct (run_inv cs _ _ start_inv L) as (w & R & [A B C]). apply B. Qed.
Lemma move_ctor : exists cs w w1, legals (fun _ => []) cs /\ run start cs = Some w /\ moveConstruct w 1 0 = Some w1 /\
  exists n w2 w3, head (lists w1 0) = Some n /\ pop w1 0 = Some w2 /\ head (lists w2 1) = Some n /\ pop w2 1 = Some w3.
Proof.
  exists [Insert 0 7]. eexists. eexists. split; [|split; [reflexivity|split; [reflexivity|]]]; [cbn; tauto|].
  exists 7. eexists. eexists. repeat (split; [reflexivity|]). reflexivity.
Qed.
