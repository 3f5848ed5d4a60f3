(** The invariant is kept by the calls. *)
From Coq Require Import List Arith Bool Lia.
Import ListNotations.
From Verif Require Import Destr_model Destr_spec Destr_proofs.

Ltac open_inv H := destruct H as [Ien Iph Icur Irem Isim Imut Iheld Iexcl Iown Imark Ifill Ipinv Ilock Ifillq Iclean Isettled Ilast Itok Iuniq Ichain Ilate Itokh].
Ltac spl := repeat (split; [assumption|]).
Ltac inv_goal := constructor; try assumption; try (cbn; assumption); try exact Logic.I.

Definition noRm (l : list mpc) : Prop := match l with [MRm _ _] => False | _ => True end.
Lemma noRm_ex l k r : noRm l -> l = [MRm k r] -> False.
Proof. intros H ->. exact H. Qed.
Lemma noRm_chain s : noRm (muts s) -> ~ pinChain s.
Proof. intros H (r & E). rewrite E in H. exact H. Qed.

Lemma mut_change s d l :
  Inv s d -> noRm (muts s) -> noRm l -> length l <= 1 ->
  (match l with
   | [MUpd i] | [MUpd2 i] | [MRemAcc i] => exists it, ram s = Some it /\ iid it = i /\ excl it = false
   | _ => True end) ->
  (forall v, phase s = PLocked v -> forall m, In m l -> mWaits m = true) ->
  Inv (setMuts s l) d.
Proof.
  intros H N N' L Hh Hw. pose proof (noRm_chain s N) as Nc. open_inv H. inv_goal.
  - destruct l as [|m [|m' l]]; [exact Logic.I | | cbn in L; lia]. destruct m; auto. contradiction.
  - intros M. destruct (Imark M) as (A & B & C & D). spl. left. destruct D as [D | (k & r & D)]; auto. exfalso. exact (noRm_ex _ _ _ N D).
  - intros v E. destruct (Ilock v E) as (A & B & C & D & F). spl. split; [exact (Hw v E)|assumption].
  - intros it E1 E2 E3. right. destruct (Isettled it E1 E2 E3); [contradiction|assumption].
  - intros E1 it E2 E3. exfalso. exact (Nc (Ilast E1 it E2 E3)).
  - intros e E1 E2. destruct (Itok e E1 E2) as (A & B & C & D). spl. split; [|assumption]. intros it E3 E4. exfalso. destruct (C it E3 E4) as (r & Er & _). apply Nc. exists r. exact Er.
  - destruct l as [|m [|m' l]]; [exact Logic.I | | cbn in L; lia]. destruct m; try exact Logic.I. contradiction.
  - intros r E. exfalso. exact (noRm_ex _ _ _ N' E).
Qed.

Lemma muts_one s d i l1 m l2 : Inv s d -> pick i (muts s) = Some (l1, m, l2) -> l1 = [] /\ l2 = [] /\ muts s = [m].
Proof.
  intros H P. pose proof (i_mut _ _ H) as L. apply pick_app in P. rewrite P in L. rewrite app_length in L. cbn in L.
  destruct l1, l2; cbn in L; try lia. auto.
Qed.

Lemma tombed_false s : tombed s = false -> (forall m, In m (muts s) -> mTomb m = false) /\ (forall r, In r (spurs s) -> rTomb r = false) /\ hasRem (queue s) = false.
Proof.
  unfold tombed. intro H. apply orb_false_iff in H. destruct H as [H H3]. apply orb_false_iff in H. destruct H as [H1 H2].
  split; [exact (proj1 (existsb_false _ _) H1)|]. split; [exact (proj1 (existsb_false _ _) H2) | exact H3].
Qed.

(** *** Invalidation of the put token *)
Lemma inval_hold l : flat_map evHold (map invalEv l) = flat_map evHold l.
Proof. induction l as [|e l IH]; cbn; auto. rewrite IH. reflexivity. Qed.
Lemma inval_valid l : existsb validTok (map invalEv l) = false.
Proof. induction l as [|e l IH]; cbn; auto. rewrite IH. unfold validTok, invalEv. cbn. destruct (etok e); auto. Qed.
Lemma inval_hasTok l : length (filter hasTok (map invalEv l)) = length (filter hasTok l).
Proof. induction l as [|e l IH]; auto. cbn [map filter]. assert (E : hasTok (invalEv e) = hasTok e) by (unfold hasTok, invalEv; cbn; destruct (etok e); auto). rewrite E. destruct (hasTok e); cbn; auto. Qed.
Lemma inval_novalid l e : In e (map invalEv l) -> validTok e = true -> False.
Proof. intros H V. assert (existsb validTok (map invalEv l) = true) by (apply existsb_exists; eauto). rewrite inval_valid in *. discriminate. Qed.

Lemma hold_evs s l : flat_map evHold l = flat_map evHold (evs s) -> hold (setEvs s l) = hold s.
Proof. intro E. unfold hold, flashHold, cur, cbs, onFlash, pins, rest, ramHold. cbn. rewrite E. reflexivity. Qed.

Lemma inval_inv s d : Inv s d -> Inv (invalidateToken s) d.
Proof.
  intros H. open_inv H. inv_goal.
  - intros it E1 E2. destruct (Iexcl it E1 E2) as (e & A & B & C). exists (invalEv e). split; [apply in_map; exact A|]. split; assumption.
  - intro v. unfold invalidateToken. rewrite hold_evs; [apply Iown | apply inval_hold].
  - intros e E1 E2. exfalso. exact (inval_novalid _ _ E1 E2).
  - unfold invalidateToken. cbn. rewrite inval_hasTok. exact Iuniq.
  - intros r _ _. apply inval_valid.
  - intros e E1 E2. exfalso. exact (inval_novalid _ _ E1 E2).
Qed.

(** *** Appending a remove job *)
Lemma snoc_tl {A} (q : list A) x : q <> [] -> tl (q ++ [x]) = tl q ++ [x].
Proof. destruct q; cbn; congruence. Qed.
Definition phq (p : jphase) (q : list job) : Prop := match p with PIdle => True | _ => q <> [] end.
Lemma ph_q s d : Inv s d -> phq (phase s) (queue s).
Proof.
  intro H. pose proof (i_ph _ _ H) as P. unfold phq. destruct (phase s); auto; try (destruct P as (? & ? & ->); discriminate); destruct P as (? & ->); discriminate.
Qed.
Lemma rest_snoc s d j : Inv s d -> rest (setQueue s (queue s ++ [j])) = rest s ++ [j].
Proof.
  intro H. pose proof (ph_q _ _ H) as P. unfold rest. cbn. destruct (phase s); auto; apply snoc_tl; exact P.
Qed.
Lemma hasRem_app a b : hasRem (a ++ b) = hasRem a || hasRem b. Proof. apply existsb_app. Qed.
Lemma hasIns_app a b : hasIns (a ++ b) = hasIns a || hasIns b. Proof. apply existsb_app. Qed.
Lemma looks_app a b : looks (a ++ b) = looks a + looks b.
Proof. unfold looks. rewrite filter_app, app_length. reflexivity. Qed.
Lemma ph_snoc s j : (match phase s with
         | PIdle => True
         | PInsOk | PFail _ | PFail2 _ => exists v r, queue s = JIns v :: r
         | PRem _ | PRem2 _ | PDone => exists r, queue s = JRem :: r
         | _ => exists r, queue s = JLook :: r
         end) -> (match phase s with
         | PIdle => True
         | PInsOk | PFail _ | PFail2 _ => exists v r, queue s ++ [j] = JIns v :: r
         | PRem _ | PRem2 _ | PDone => exists r, queue s ++ [j] = JRem :: r
         | _ => exists r, queue s ++ [j] = JLook :: r
         end).
Proof. destruct (phase s); auto; try (intros (? & ? & ->); cbn; eauto; fail); intros (? & ->); cbn; eauto. Qed.

(** a remove job is appended; the lock is free *)
Lemma enq_rem s d : Inv s d -> lockFree s = true -> Inv (setQueue s (queue s ++ [JRem])) d.
Proof.
  intros H Lf. pose proof (rest_snoc s d JRem H) as R. open_inv H.
  assert (Fin : sim (occ s) (rest s ++ [JRem]) = Some false).
  { destruct Isim as (f & E). rewrite sim_app, E. reflexivity. }
  constructor; try assumption; try (cbn; assumption).
  - exact (ph_snoc s JRem Iph).
  - rewrite R. eexists. exact Fin.
  - intro v. replace (hold (setQueue s (queue s ++ [JRem]))) with (hold s); [exact (Iown v)|]. unfold hold, flashHold, pins. rewrite R. rewrite insIds_app. cbn. rewrite app_nil_r. reflexivity.
  - intro M. destruct (Imark M) as (A & B & C & _). split; [exact A|]. split; [|split; [exact C|]].
    + unfold pins in *. rewrite R, insIds_app, B. reflexivity.
    + left. cbn. rewrite hasRem_app. apply orb_true_r.
  - intros v E. unfold lockFree in Lf. cbn in E. rewrite E in Lf. discriminate.
  - cbn. rewrite looks_app. change (looks [JRem]) with 0. rewrite Nat.add_0_r. assumption.
  - intros it E1 E2 E3. destruct (Iclean it E1 E2 E3) as (A & B & C). cbn. rewrite hasIns_app, A. auto.
  - intros it E1 E2 E3. right. rewrite R. exact Fin.
  - intros E. exfalso. cbn in E. rewrite lastIns_app in E. discriminate.
  - intros e E1 E2. destruct (Itok e E1 E2) as (A & B & C & D). rewrite R. split; [exact Fin|]. split; [|split; [exact C|]].
    + cbn. rewrite lastIns_app. reflexivity.
    + destruct (epcs e); auto; destruct D as [D1 D2]; (split; [exact D1|]); cbn; rewrite hasIns_app, D2; reflexivity.
  - cbn. destruct (muts s) as [|m [|m' l]]; [exact Logic.I | | cbn in Imut; lia]. destruct m; auto. destruct keep, r; auto. rewrite hasIns_app, Ichain. reflexivity.
Qed.
