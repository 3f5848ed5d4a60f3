(** C41, part 4: preservation by the acting process; the theorems. *)
From Verif Require Import Bytes ShmMgr_model ShmMgr_spec ShmMgr_proofs ShmMgr_proofs2
  ShmMgr_proofs3.
Ltac Zify.zify_post_hook ::= idtac.

Lemma note_other p n m e cur : m <> n ->
  (forall v, e <> EAttached p n v) -> (forall v, e <> EWrote p n v) ->
  e <> ECreated p n -> e <> ERemoved p n -> note_value p n cur e = cur.
Proof.
  intros _ H1 H2 H3 H4.
  destruct e; cbn [note_value]; try reflexivity;
    destruct (Nat.eqb_spec p0 p) as [->|]; cbn [andb]; try reflexivity;
    destruct (bytes_eqb n0 n) eqn:B; try reflexivity;
    apply bytes_eqb_spec in B; subst n0; exfalso;
    first [apply (H1 v); reflexivity | apply (H2 v); reflexivity
          | apply H3; reflexivity | apply H4; reflexivity].
Qed.

(** Only constructor and shutdown steps reach the other program points. *)
Definition far (x : pcT) : bool :=
  match x with PStatDir | PRun | PWrite | PUnlock _ | PDead => true | _ => false end.

Lemma next_or_far w a w' e p : step w a = Some (w', e) -> actor a = Some p ->
  a = ANext p \/ far (pc (procs w' p)) = true.
Proof.
  intros E Ha. destruct a; cbn [actor] in Ha; try discriminate Ha; injection Ha as ->;
    try (left; reflexivity); right.
  3:{ apply create_inv in E as (P & _ & _ & w1 & b & D & X).
      apply doRemove_spec in D. pose proof (rm_pc _ _ _ _ D) as R.
      destruct X as [[-> _]|(_ & -> & _)]; [rewrite R, P; reflexivity|].
      unfold created_world. wsimp. rewrite updN_same. wsimp. rewrite R, P. reflexivity. }
  3:{ apply remove_inv in E as (P & b & D & ->). apply doRemove_spec in D.
      rewrite (rm_pc _ _ _ _ D), P. reflexivity. }
  all: step_cases E; wsimp; rewrite ?updN_same; wsimp;
    repeat match goal with H : pc _ = _ |- _ => rewrite H; clear H end; reflexivity.
Qed.

Section Actor.
Variables (w w' : world) (tr e : list event) (a : action).
Hypothesis E : step w a = Some (w', e).
Hypothesis HY : hyps (tr ++ e).
Hypothesis PV : forall p, pinv w tr p.
Hypothesis PV' : forall p, pinv w' (tr ++ e) p.
Hypothesis FV : finv w.
Hypothesis K : kinv w tr.
Hypothesis SI : forall p, sinv w tr p.
Hypothesis QI : qinv w tr.
Variable p : nat.
Hypothesis Ha : actor a = Some p.

(** The lock steps. *)
Lemma lock_clean : In (ELocked p) e -> In (ERead p) tr -> cleansince p tr.
Proof.
  intros X Y. destruct (locked_from _ _ _ _ _ E X) as (Ee & _).
  destruct HY as (_ & A & _). rewrite Ee in A. exact (starts_alone_clean _ _ A Y).
Qed.

Lemma act_light : heavy w a = false -> active (pc (procs w' p)) = true ->
  forall i, meta w' = Some i -> fdata w' i = [].
Proof.
  intros Hh Hac i Hi. pose proof (light_shared _ _ _ _ E Hh) as SO.
  pose proof lock_clean as LC.
  destruct (active (pc (procs w p))) eqn:Ac.
  { destruct (so_m _ _ SO i Hi) as [X | [X Y]]; [exact X|]. rewrite Y.
    apply (s_act _ _ _ (SI p) Ac i X). }
  destruct (pc (procs w p)) eqn:P; cbn [active] in Ac; try discriminate Ac;
    destruct a; cbn [actor] in Ha; try discriminate Ha; injection Ha as ->;
    cbn [step] in E; rewrite P in E; try discriminate E.
  all: try (injection E as <- <-; revert Hac; wsimp; rewrite updN_same; wsimp; discriminate).
  all: try (destruct (dir w); injection E as <- <-; revert Hac; wsimp; rewrite updN_same; wsimp; discriminate).
  all: try (destruct (meta w); [destruct (dropSeen (procs w p))|]; injection E as <- <-; revert Hac; wsimp; rewrite updN_same; wsimp; discriminate).
  - (* PCreate2 *) destruct (openTrunc w) as [w1 j]. injection E as <- <-.
    revert Hac. wsimp. rewrite updN_same. wsimp. discriminate.
  - (* PLock2 *)
    destruct (tryLock w p) as [[w1 j]|] eqn:T; injection E as <- <-.
    + destruct (so_m _ _ SO i Hi) as [X | [X Y]]; [exact X|]. rewrite Y.
      apply (s_lock2 _ _ _ (SI p) P); [|exact X].
      apply LC; [left; reflexivity | apply (pv_read2 _ _ _ (PV p) P)].
    + revert Hac. wsimp. rewrite updN_same. wsimp. discriminate.
  - (* PRead *)
    destruct (meta w) as [j|]; [destruct (fdata w j); [|
      destruct (dec_obj _) as [[s m]|]; [destruct (xorb _ _)|]]|];
      injection E as <- <-; revert Hac; wsimp; rewrite updN_same; wsimp; discriminate.
  - (* PLock *)
    destruct (tryLock w p) as [[w1 j]|] eqn:T; injection E as <- <-;
      revert Hac; wsimp; rewrite updN_same; wsimp; discriminate.
  - (* PTrunc *)
    unfold openTrunc in E. destruct (meta w) as [j|] eqn:M; injection E as <- <-;
      revert Hi; wsimp; intros Hi.
    + assert (i = j) by congruence. subst. apply updN_same.
    + injection Hi as <-. apply updN_same.
  - (* PExit false *)
    destruct ok; [discriminate Ac|]. injection E as <- <-.
    revert Hac; wsimp; rewrite updN_same; wsimp; discriminate.
Qed.

Lemma lock_light : pc (procs w' p) = PLock -> cleansince p (tr ++ e) ->
  forall n v o x, afind (names (procs w' p)) n = Some v -> bound w' n o = Some x ->
  good (tr ++ e) (fun r => r = p) n (objv w' x).
Proof.
  intros P' Hc n v o x Hn Hb.
  destruct (next_or_far _ _ _ _ _ E Ha) as [Ea|Far];
    [|rewrite P' in Far; discriminate Far].
  rewrite Ea in E.
  cbn [step] in E. destruct (pc (procs w p)) eqn:P; try discriminate E.
  all: try solve [exfalso; step_cases E; revert P'; wsimp; rewrite ?updN_same; wsimp;
       congruence].
  - (* PStatMeta *)
    pose proof (pv_noname _ _ _ (PV p)) as NN. rewrite P in NN. specialize (NN eq_refl).
    destruct (meta w); [destruct (dropSeen (procs w p))|]; injection E as <- <-;
      revert Hn; wsimp; rewrite updN_same; wsimp; rewrite NN; discriminate.
  - (* PRead *)
    pose proof (pv_noname _ _ _ (PV p)) as NN. rewrite P in NN. specialize (NN eq_refl).
    assert (NR : ~ In (ERead p) tr).
    { intros X. apply (pv_read _ _ _ (PV p)) in X. rewrite P in X. discriminate X. }
    destruct (meta w) as [j|] eqn:M;
      [|injection E as <- <-; revert P'; wsimp; rewrite updN_same; wsimp; discriminate].
    destruct (fdata w j) as [|b0 l0] eqn:FD.
    { injection E as <- <-. revert Hn; wsimp; rewrite updN_same; wsimp; rewrite NN.
      discriminate. }
    destruct (dec_obj (b0 :: l0)) as [[s m]|] eqn:DO;
      [|injection E as <- <-; revert P'; wsimp; rewrite updN_same; wsimp; discriminate].
    destruct (xorb _ _);
      injection E as <- <-; [revert P'; wsimp; rewrite updN_same; wsimp; discriminate|].
    revert Hn Hb. wsimp. rewrite updN_same. wsimp. intros Hn Hb.
    apply good_mono with (R := fun _ => False);
      [|intros ? [] | intros r leg [X|[]]; discriminate X].
    apply QI with (i := j) (s := s) (m := m) (v := v) (o := o); auto.
    + intros q. destruct (active (pc (procs w q))) eqn:Ac; [|reflexivity]. exfalso.
      destruct (Nat.eq_dec q p) as [->|Hne]; [rewrite P in Ac; discriminate Ac|].
      apply active_hold in Ac. rewrite <- (pv_hold _ _ _ (PV q)) in Ac.
      apply holdb_holds in Ac. exact (cleansince_snoc p tr NR Hc q Hne Ac).
    + rewrite FD. exact DO.
Qed.

Lemma lock2_light : pc (procs w' p) = PLock2 -> cleansince p (tr ++ e) ->
  forall i, meta w' = Some i -> fdata w' i = [].
Proof.
  intros P' Hc i Hi.
  destruct (next_or_far _ _ _ _ _ E Ha) as [Ea|Far];
    [|rewrite P' in Far; discriminate Far].
  rewrite Ea in E.
  cbn [step] in E. destruct (pc (procs w p)) eqn:P; try discriminate E.
  all: try solve [exfalso; step_cases E; revert P'; wsimp; rewrite ?updN_same; wsimp;
       congruence].
  unfold openTrunc in E. destruct (meta w) as [j|] eqn:M; injection E as <- <-;
    revert Hi; wsimp; intros Hi.
  - assert (i = j) by congruence. subst. apply updN_same.
  - injection Hi as <-. apply updN_same.
Qed.

(** Where a live process can come from. *)
Lemma live_from : heavy w a = false -> live (pc (procs w' p)) = true ->
  (a = ANext p /\ pc (procs w p) = PExit true /\ segs (procs w' p) = [] /\
   names (procs w' p) = names (procs w p) /\ bound w' = bound w /\
   (forall y, In y e -> y = EDropGone \/ y = ERunning p (legacy (procs w p)))) \/
  pc (procs w p) = PRun /\
  ((exists n, a = AAttach p n) \/ (exists n, a = ARemove p n) \/ a = AShut p).
Proof.
  intros Hh Hl.
  pose proof (pv_noseg _ _ _ (PV p)) as NS.
  destruct a; cbn [actor] in Ha; try discriminate Ha; injection Ha as ->;
    cbn [heavy] in Hh; try discriminate Hh.
  - exfalso. step_cases E. revert Hl; wsimp; rewrite updN_same; wsimp; discriminate.
  - left. split; [reflexivity|].
    destruct (pc (procs w p)) eqn:P; try discriminate Hh.
    all: try solve [exfalso; cbn [step] in E; rewrite P in E; step_cases E;
       revert Hl; wsimp; rewrite ?updN_same; wsimp; discriminate].
    cbn [step] in E. rewrite P in E. destruct ok;
        [|exfalso; injection E as <- <-; revert Hl; wsimp; rewrite ?updN_same; wsimp;
          discriminate].
      injection E as <- <-. split; [reflexivity|]. wsimp.
      destruct (dropSeen (procs w p)); wsimp; rewrite updN_same; wsimp;
        (split; [apply NS; reflexivity|]); (split; [reflexivity|]);
        (split; [reflexivity|]); cbn [In app]; intros y Hy; intuition.
  - right. cbn [step] in E. destruct (pc (procs w p)) eqn:P; try discriminate E.
    split; [reflexivity|]. left. eexists; reflexivity.
  - right. apply remove_inv in E as (P & _). split; [exact P|].
    right; left; eexists; reflexivity.
  - right. cbn [step] in E. destruct (pc (procs w p)) eqn:P; try discriminate E.
    split; [reflexivity|]. auto.
  - exfalso. step_cases E; revert Hl; wsimp; rewrite updN_same; wsimp; discriminate.
  - exfalso. step_cases E; revert Hl; wsimp; rewrite updN_same; wsimp; discriminate.
Qed.

Lemma attach_inv n : a = AAttach p n -> pc (procs w p) = PRun ->
  (w' = w /\ e = []) \/
  (exists o x, afind (segs (procs w p)) n = None /\
     bound w n o = Some x /\ bound w' = bound w /\ objv w' = objv w /\
     nextObj w' = nextObj w /\ names (procs w' p) = names (procs w p) /\
     segs (procs w' p) = (n, (o, x)) :: segs (procs w p) /\
     pc (procs w' p) = PRun /\
     e = [EAttached p n (objv w x)]).
Proof.
  intros Ea P. rewrite Ea in E. cbn [step] in E. rewrite P in E.
  destruct (afind (segs (procs w p)) n) as [s|] eqn:S.
  { injection E as <- <-. left; auto. }
  destruct (afind (names (procs w p)) n) as [k|] eqn:NM;
    [|injection E as <- <-; left; auto].
  destruct (if legacy (procs w p) then None else bound w n false) as [x|] eqn:B.
  - right. exists false, x. destruct (legacy (procs w p)); [discriminate B|].
    injection E as <- <-. wsimp. rewrite updN_same. wsimp. repeat split; auto.
  - destruct (bound w n true) as [x|] eqn:B2.
    + right. exists true, x. injection E as <- <-. wsimp. rewrite updN_same. wsimp.
      repeat split; auto.
    + injection E as <- <-. left; auto.
Qed.

Lemma shut_inv : a = AShut p -> names (procs w' p) = names (procs w p) \/
  pc (procs w' p) = PUnlock kFileDeleted.
Proof.
  intros Ea. rewrite Ea in E. step_cases E; wsimp; rewrite updN_same; wsimp; auto.
Qed.

Lemma shut_segs : a = AShut p -> segs (procs w' p) = segs (procs w p) /\ e = [].
Proof.
  intros Ea. rewrite Ea in E. step_cases E; wsimp; rewrite updN_same; wsimp; auto.
Qed.

Lemma remove_note n m b : e = (if b : bool then [ERemoved p n] else []) -> m <> n ->
  last_value p m (tr ++ e) = last_value p m tr.
Proof.
  intros -> Hm. rewrite last_value_app. destruct b; cbn [fold_left note_value]; [|reflexivity].
  replace (bytes_eqb n m) with false by (symmetry; apply bytes_eqb_false; congruence).
  rewrite Bool.andb_false_r. reflexivity.
Qed.

Lemma seg_light : heavy w a = false -> live (pc (procs w' p)) = true ->
  forall n o x, afind (segs (procs w' p)) n = Some (o, x) ->
     x < nextObj w' /\
     (forall n' o', bound w' n' o' = Some x -> n' = n /\ o' = o) /\
     (forall o' y, bound w' n o' = Some y -> y = x) /\
     last_value p n (tr ++ e) = Some (objv w' x).
Proof.
  intros Hh Hl n o x Hs. pose proof (light_shared _ _ _ _ E Hh) as SO.
  destruct (live_from Hh Hl) as [(_ & _ & S0 & _)|[P X]].
  { rewrite S0 in Hs. discriminate Hs. }
  assert (L0 : live (pc (procs w p)) = true) by (rewrite P; reflexivity).
  pose proof (fun n o x => s_seg _ _ _ (SI p) n o x L0) as S1.
  assert (KEEP : afind (segs (procs w p)) n = Some (o, x) ->
     last_value p n (tr ++ e) = last_value p n tr ->
     x < nextObj w' /\
     (forall n' o', bound w' n' o' = Some x -> n' = n /\ o' = o) /\
     (forall o' y, bound w' n o' = Some y -> y = x) /\
     last_value p n (tr ++ e) = Some (objv w' x)).
  { intros X1 X2. destruct (S1 _ _ _ X1) as (A & B & C & D).
    rewrite (so_n _ _ SO), (so_v _ _ SO), X2. split; [exact A|]. split; [|split].
    - intros n' o' Y. apply B, (so_b _ _ SO), Y.
    - intros o' y Y. apply C with (o' := o'), (so_b _ _ SO), Y.
    - exact D. }
  destruct X as [[m Ea]|[[m Ea]|Ea]].
  - destruct (attach_inv m Ea P) as [[-> Ee]|(o1 & x1 & NS & B1 & Bw & Vw & Nw & _ & Sw & _ & Ee)].
    + apply KEEP; [exact Hs|]. rewrite Ee, app_nil_r. reflexivity.
    + rewrite Sw in Hs. cbn [afind] in Hs. destruct (bytes_eqb m n) eqn:BE.
      * apply bytes_eqb_spec in BE. subst m. injection Hs as <- <-.
        rewrite Bw, Vw, Nw, Ee. split; [eapply (k_fresh _ _ K), B1|]. split; [|split].
        -- intros n' o' Y. destruct (k_inj _ _ K _ _ _ _ _ Y B1); auto.
        -- intros o' y Y. destruct o1, o'; try congruence;
             exfalso; eapply (k_nb _ _ K n); eassumption.
        -- rewrite last_value_app. cbn [fold_left note_value].
           rewrite Nat.eqb_refl, bytes_eqb_refl. reflexivity.
      * apply KEEP; [exact Hs|]. rewrite Ee, last_value_app.
        cbn [fold_left note_value]. rewrite BE, Bool.andb_false_r. reflexivity.
  - pose proof E as E2. rewrite Ea in E2. apply remove_inv in E2 as (_ & b & D & Ee).
    apply doRemove_spec in D. destruct (rm_segs _ _ _ _ D) as [R1 R2].
    destruct (bytes_eq_dec n m) as [->|Hm]; [congruence|].
    apply KEEP; [rewrite <- R2 by exact Hm; exact Hs|].
    eapply remove_note; eauto.
  - destruct (shut_segs Ea) as [S2 Ee]. apply KEEP; [congruence|].
    rewrite Ee, app_nil_r. reflexivity.
Qed.

Lemma dis_light : heavy w a = false -> live (pc (procs w' p)) = true ->
  forall n n' o o' x, afind (segs (procs w' p)) n = Some (o, x) ->
     afind (segs (procs w' p)) n' = Some (o', x) -> n = n'.
Proof.
  intros Hh Hl n n' o o' x H1 H2.
  destruct (live_from Hh Hl) as [(_ & _ & S0 & _)|[P X]].
  { rewrite S0 in H1. discriminate H1. }
  assert (L0 : live (pc (procs w p)) = true) by (rewrite P; reflexivity).
  pose proof (fun n n' o o' x => s_dis _ _ _ (SI p) n n' o o' x L0) as S1.
  pose proof (fun n o x => s_seg _ _ _ (SI p) n o x L0) as S2.
  destruct X as [[m Ea]|[[m Ea]|Ea]].
  - destruct (attach_inv m Ea P) as [[Ew Ee]|(o1 & x1 & NS & B1 & _ & _ & _ & _ & Sw & _ & Ee)].
    + rewrite Ew in H1, H2. eauto.
    + rewrite Sw in H1, H2. cbn [afind] in H1, H2.
      destruct (bytes_eqb m n) eqn:BE; destruct (bytes_eqb m n') eqn:BE'.
      * apply bytes_eqb_spec in BE, BE'. congruence.
      * apply bytes_eqb_spec in BE. subst m. injection H1 as <- <-.
        destruct (S2 _ _ _ H2) as (_ & B & _). destruct (B _ _ B1). auto.
      * apply bytes_eqb_spec in BE'. subst m. injection H2 as <- <-.
        destruct (S2 _ _ _ H1) as (_ & B & _). destruct (B _ _ B1). auto.
      * eauto.
  - pose proof E as E2. rewrite Ea in E2. apply remove_inv in E2 as (_ & b & D & Ee).
    apply doRemove_spec in D. destruct (rm_segs _ _ _ _ D) as [R1 R2].
    destruct (bytes_eq_dec n m) as [->|Hm]; [congruence|].
    destruct (bytes_eq_dec n' m) as [->|Hm']; [congruence|].
    rewrite R2 in H1, H2 by assumption. eauto.
  - destruct (shut_segs Ea) as [S3 Ee]. rewrite S3 in H1, H2. eauto.
Qed.

Lemma norun_mono (R : nat -> Prop) n v :
  (forall r leg, In (ERunning r leg) e -> R r) -> good tr R n v -> good (tr ++ e) R n v.
Proof. intros X Y. eapply good_mono; eauto. Qed.

Lemma run_actor r leg : In (ERunning r leg) e -> r = p.
Proof.
  intros X. destruct (running_from _ _ _ _ _ _ E X) as (Ea & _).
  rewrite Ea in Ha. cbn [actor] in Ha. congruence.
Qed.

Lemma names_light : heavy w a = false -> waits (pc (procs w' p)) = true ->
  forall n v o x, afind (names (procs w' p)) n = Some v ->
  afind (segs (procs w' p)) n = None -> bound w' n o = Some x ->
  good (tr ++ e) (fun r => r = p) n (objv w' x).
Proof.
  intros Hh Hw n v o x Hn Hs Hb. pose proof (light_shared _ _ _ _ E Hh) as SO.
  rewrite (so_v _ _ SO). apply norun_mono; [intros r leg; apply run_actor|].
  pose proof (so_b _ _ SO _ _ _ Hb) as Hb0.
  assert (KEEP : waits (pc (procs w p)) = true -> afind (names (procs w p)) n = Some v ->
     afind (segs (procs w p)) n = None -> good tr (fun r => r = p) n (objv w x)).
  { intros X1 X2 X3. exact (s_names _ _ _ (SI p) X1 n v o x X2 X3 Hb0). }
  destruct (live (pc (procs w' p))) eqn:Lv.
  - destruct (live_from Hh Lv) as [(_ & P & S0 & N0 & _)|[P X]].
    + apply KEEP; [rewrite P; reflexivity | congruence |].
      rewrite (pv_noseg _ _ _ (PV p)); [reflexivity | rewrite P; reflexivity].
    + assert (W0 : waits (pc (procs w p)) = true) by (rewrite P; reflexivity).
      destruct X as [[m Ea]|[[m Ea]|Ea]].
      * destruct (attach_inv m Ea P)
          as [[Ew Ee]|(o1 & x1 & NS & B1 & _ & _ & _ & Nw & Sw & _ & Ee)].
        -- rewrite Ew in Hn, Hs. auto.
        -- rewrite Nw in Hn. rewrite Sw in Hs. cbn [afind] in Hs.
           destruct (bytes_eqb m n); [discriminate Hs|]. auto.
      * pose proof E as E2. rewrite Ea in E2. apply remove_inv in E2 as (_ & b & D & Ee).
        pose proof (doRemove_spec _ _ _ _ _ D) as D2.
        destruct (rm_segs _ _ _ _ D2) as [R1 R2].
        destruct (bytes_eq_dec n m) as [->|Hm].
        -- destruct (rm_names _ _ _ _ D2) as [N0|N0]; rewrite N0 in Hn;
             [|rewrite afind_aerase_same in Hn; discriminate Hn].
           destruct (afind (segs (procs w p)) m) as [[o1 x1]|] eqn:S0; [|auto].
           exfalso. unfold doRemove in D. rewrite S0 in D. injection D as <- <-.
           revert N0 Hn. wsimp. rewrite updN_same. wsimp. intros N0 Hn.
           rewrite <- N0, afind_aerase_same in Hn. discriminate Hn.
        -- rewrite R2 in Hs by exact Hm. apply KEEP; auto.
           destruct (rm_names _ _ _ _ D2) as [N0|N0]; rewrite N0 in Hn; [exact Hn|].
           rewrite afind_aerase_other in Hn by exact Hm. exact Hn.
      * exfalso. rewrite Ea in E. clear - E Hw. step_cases E; revert Hw; wsimp;
          rewrite updN_same; wsimp; discriminate.
  - destruct (next_or_far _ _ _ _ _ E Ha) as [Ea|Far];
      [|destruct (pc (procs w' p)); try destruct ok; discriminate].
    pose proof lock_clean as LC.
    pose proof E as E2. rewrite Ea in E2. cbn [step] in E2.
    pose proof (pv_noseg _ _ _ (PV p)) as NS.
    pose proof (pv_noname _ _ _ (PV p)) as NN.
    destruct (pc (procs w p)) eqn:P; try discriminate E2.
    all: try solve [exfalso; clear - E2 Hw; step_cases E2; revert Hw; wsimp;
       rewrite ?updN_same; wsimp; discriminate].
    + (* PLock2 *)
      exfalso. specialize (NN eq_refl). clear - E2 Hn NN. step_cases E2; revert Hn; wsimp;
        rewrite updN_same; wsimp; rewrite NN; discriminate.
    + (* PLock *)
      assert (N0 : names (procs w' p) = names (procs w p)).
      { clear - E2. step_cases E2; wsimp; rewrite updN_same; reflexivity. }
      rewrite N0 in Hn.
      assert (NE : names (procs w p) <> []).
      { intros Z. rewrite Z in Hn. discriminate Hn. }
      assert (LK : In (ELocked p) e).
      { clear - E2 Hw. unfold tryLock in E2. destruct (meta w); [destruct (flock w n)|];
          injection E2 as <- <-; try (left; reflexivity);
          revert Hw; wsimp; rewrite updN_same; wsimp; discriminate. }
      apply (s_lock _ _ _ (SI p) P (LC LK (pv_read3 _ _ _ (PV p) P NE)) n v o x Hn Hb0).
    + (* PTrunc *)
      apply KEEP; [reflexivity | | rewrite NS by reflexivity; reflexivity].
      rewrite <- Hn. f_equal. clear - E2. step_cases E2; wsimp; rewrite updN_same; reflexivity.
    + (* PExit *)
      exfalso. destruct ok; injection E2 as <- <-; revert Hw Lv; wsimp;
        destruct (dropSeen (procs w p)); wsimp; rewrite updN_same; wsimp; discriminate.
Qed.

Lemma sinv_light : heavy w a = false -> sinv w' (tr ++ e) p.
Proof.
  intros Hh. constructor.
  - intros n o x Hl. apply seg_light; assumption.
  - intros n n' o o' x Hl. apply dis_light; assumption.
  - apply act_light; assumption.
  - exact lock_light.
  - exact lock2_light.
  - apply names_light; assumption.
Qed.
End Actor.
