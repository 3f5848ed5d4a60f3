(** C41, part 2: facts about where each process is, that need no assumption. *)
From Verif Require Import Bytes ShmMgr_model ShmMgr_spec ShmMgr_proofs.
Ltac Zify.zify_post_hook ::= idtac.

Inductive reach : world -> list event -> Prop :=
| reach0 : reach world0 []
| reachS w tr a w' e : reach w tr -> step w a = Some (w', e) -> reach w' (tr ++ e).

Lemma run_reach acts : forall w tr w' e,
  reach w tr -> run w acts = Some (w', e) -> reach w' (tr ++ e).
Proof.
  induction acts as [|a acts IH]; intros w tr w' e R; cbn [run].
  - intros E; inversion E; subst. rewrite app_nil_r. exact R.
  - destruct (step w a) as [[w1 e1]|] eqn:S; [|discriminate].
    destruct (run w1 acts) as [[w2 e2]|] eqn:X; [|discriminate].
    intros E; inversion E; subst. rewrite app_assoc.
    eapply IH; [|exact X]. econstructor; eassumption.
Qed.

Lemma run_trace_reach tr : run_trace tr -> exists w, reach w tr.
Proof.
  intros (acts & w & E). exists w.
  apply (run_reach acts world0 []); [constructor | exact E].
Qed.

(** ** Case analysis of a step *)

Ltac wsimp := cbn [w_proc w_dir w_meta w_fdata w_flock w_nextIno w_dropf
  w_bound w_objv w_nextObj set_pc set_names set_segs set_drop set_lockIno
  set_strIno unlockAll dir meta fdata flock nextIno dropf bound objv nextObj procs
  pc legacy posix dropSeen names segs lockIno strIno].

Ltac step_cases E :=
  unfold step, openTrunc, tryLock, doRemove in E; cbv zeta in E;
  repeat match type of E with
  | context [match ?x with _ => _ end] =>
      lazymatch x with
      | context [match _ with _ => _ end] => fail
      | _ => destruct x eqn:?
      end
  end;
  try discriminate E;
  injection E as <- <-.

(** ** Trace folds *)

Definition hold_step (p : nat) (b : bool) (e : event) : bool :=
  match e with
  | ELocked q => if q =? p then true else b
  | EReleased q | ECrashed q | EThrow q => if q =? p then false else b
  | _ => b
  end.
Definition holdb (p : nat) (tr : list event) : bool := fold_left (hold_step p) tr false.

Lemma ends_step p e b : ends p e -> hold_step p b e = false.
Proof. intros [-> | [-> | ->]]; cbn [hold_step]; rewrite Nat.eqb_refl; reflexivity. Qed.

Lemma hold_step_true p e : hold_step p true e = true <-> ~ ends p e.
Proof.
  split.
  - intros E X. rewrite (ends_step p e true X) in E. discriminate.
  - intros X. destruct e; cbn [hold_step]; try reflexivity;
      destruct (Nat.eqb_spec p0 p) as [->|]; try reflexivity;
      exfalso; apply X; unfold ends; auto.
Qed.

Lemma hold_step_mono p e : hold_step p false e = true -> e = ELocked p.
Proof.
  destruct e; cbn [hold_step]; try discriminate;
    destruct (Nat.eqb_spec p0 p) as [->|]; try discriminate; reflexivity.
Qed.

Lemma holdb_holds p tr : holdb p tr = true <-> holds p tr.
Proof.
  unfold holdb. induction tr as [|e tr IH] using rev_ind.
  - cbn. split; [discriminate|]. intros (a & b & E & _). destruct a; discriminate.
  - rewrite fold_left_app. cbn [fold_left]. split.
    + destruct (fold_left (hold_step p) tr false) eqn:F.
      * intros E. destruct IH as [IH _]. destruct (IH eq_refl) as (a & b & -> & Hb).
        exists a, (b ++ [e]). split; [rewrite <- app_assoc; reflexivity|].
        intros x Hx. apply in_app_or in Hx as [Hx | [<- | []]]; [auto|].
        apply hold_step_true, E.
      * intros E. apply hold_step_mono in E. subst e.
        exists tr, []. split; [reflexivity|]. intros ? [].
    + intros (a & b & E & Hb). destruct b as [|y b _] using rev_ind.
      * apply app_inj_tail in E as [-> ->]. cbn [hold_step].
        rewrite Nat.eqb_refl. reflexivity.
      * rewrite app_comm_cons, app_assoc in E. apply app_inj_tail in E as [-> ->].
        assert (F : fold_left (hold_step p) (a ++ ELocked p :: b) false = true).
        { apply IH. exists a, b. split; [reflexivity|]. intros x Hx. apply Hb.
          apply in_or_app. left. exact Hx. }
        rewrite F. apply hold_step_true. apply Hb. apply in_or_app. right. left.
        reflexivity.
Qed.

Lemma holdb_app p tr e : holdb p (tr ++ e) = fold_left (hold_step p) e (holdb p tr).
Proof. unfold holdb. apply fold_left_app. Qed.

(** ** Program points *)

Definition holdpc (x : pcT) : bool :=
  match x with
  | PTrunc | PExit true | PRun | PWrite | PUnlock _ => true
  | _ => false
  end.

(** Between truncating the metadata file and writing it again. *)
Definition active (x : pcT) : bool :=
  match x with PExit true | PRun | PWrite => true | _ => false end.

Definition prelock (x : pcT) : bool :=
  match x with
  | PNone | PStatDir | PStatDrop | PStatMeta | PCreate2 | PLock2 | PRead | PLock => true
  | _ => false
  end.

Definition preread (x : pcT) : bool :=
  match x with
  | PNone | PStatDir | PStatDrop | PStatMeta | PCreate2 | PRead => true
  | _ => false
  end.

Definition saved (x : pcT) : bool :=
  match x with PUnlock _ | PRmUn _ | PDead => true | _ => false end.

Definition ran (x : pcT) : bool :=
  match x with PRun | PWrite | PUnlock _ | PRmUn _ | PDead => true | _ => false end.

Definition noseg (x : pcT) : bool :=
  match x with
  | PNone | PStatDir | PStatDrop | PStatMeta | PCreate2 | PLock2 | PRead | PLock
  | PTrunc | PExit _ => true
  | _ => false
  end.

Definition noname (x : pcT) : bool :=
  match x with
  | PNone | PStatDir | PStatDrop | PStatMeta | PCreate2 | PLock2 | PRead => true
  | _ => false
  end.

(** What is known of process [p] from its own history. *)
Record pinv (w : world) (tr : list event) (p : nat) : Prop := mkPinv {
  pv_hold : holdb p tr = holdpc (pc (procs w p));
  pv_lock : In (ELocked p) tr -> prelock (pc (procs w p)) = false;
  pv_read : In (ERead p) tr -> preread (pc (procs w p)) = false;
  pv_read2 : pc (procs w p) = PLock2 -> In (ERead p) tr;
  pv_read3 : pc (procs w p) = PLock -> names (procs w p) <> [] -> In (ERead p) tr;
  pv_saved : In (ESaved p) tr -> saved (pc (procs w p)) = true;
  pv_ran : forall leg, In (ERunning p leg) tr ->
             ran (pc (procs w p)) = true /\ legacy (procs w p) = leg;
  pv_runs : active (pc (procs w p)) = true -> pc (procs w p) <> PExit true ->
             In (ERunning p (legacy (procs w p))) tr;
  pv_noseg : noseg (pc (procs w p)) = true -> segs (procs w p) = [];
  pv_noname : noname (pc (procs w p)) = true -> names (procs w p) = [];
  pv_drop : dropSeen (procs w p) = true -> noseg (pc (procs w p)) = true ->
            names (procs w p) = [];
  pv_rd : pc (procs w p) = PRead -> dropSeen (procs w p) = false;
  pv_start : pc (procs w p) = PNone -> names (procs w p) = [] /\
            segs (procs w p) = []
}.

(** ** Other processes are not touched *)

Definition actor (a : action) : option nat :=
  match a with
  | AStart p _ _ | ANext p | AAttach p _ | ACreate p _ | ARemove p _
  | AWrite p _ _ | AShut p | AWriteCut p _ | ADestroy p | ACrash p => Some p
  | _ => None
  end.

Definition about (e : event) : option nat :=
  match e with
  | EStart p | ELooked p _ | ERead p | ELocked p | ERunning p _ | EThrow p
  | EAttached p _ _ | ECreated p _ | ERemoved p _ | EWrote p _ _ | ESaved p
  | EReleased p | EShut p _ | ECrashed p => Some p
  | _ => None
  end.

Lemma step_frame w a w' e : step w a = Some (w', e) ->
  forall r, actor a <> Some r -> procs w' r = procs w r.
Proof.
  intros E r Hr.
  destruct a; cbn [actor] in Hr; step_cases E; wsimp;
    try reflexivity;
    repeat rewrite updN_other by congruence; reflexivity.
Qed.

Lemma step_about w a w' e : step w a = Some (w', e) ->
  forall x, In x e -> about x = None \/ about x = actor a.
Proof.
  intros E x Hx.
  destruct a; step_cases E; cbn [In app] in Hx; cbn [actor];
    repeat match goal with H : _ \/ _ |- _ => destruct H as [H|H] end;
    try contradiction; subst x; cbn [about]; auto.
Qed.

Lemma hold_frame p e : forall b, (forall x, In x e -> about x <> Some p) ->
  fold_left (hold_step p) e b = b.
Proof.
  induction e as [|x e IH]; intros b Hx; cbn [fold_left]; [reflexivity|].
  rewrite IH by (intros y Hy; apply Hx; right; exact Hy).
  specialize (Hx x (or_introl eq_refl)).
  destruct x; cbn [hold_step about] in *; try reflexivity;
    destruct (Nat.eqb_spec p0 p); try reflexivity; congruence.
Qed.

Lemma in_frame tr e p x : (forall y, In y e -> about y <> Some p) ->
  about x = Some p -> In x (tr ++ e) -> In x tr.
Proof.
  intros Hy Hx Hin. apply in_app_or in Hin as [Hin|Hin]; [exact Hin|].
  destruct (Hy _ Hin Hx).
Qed.

Lemma pinv_frame w tr w' e p :
  procs w' p = procs w p -> (forall y, In y e -> about y <> Some p) ->
  pinv w tr p -> pinv w' (tr ++ e) p.
Proof.
  intros Hp Hy []. constructor; rewrite Hp; try assumption.
  - rewrite holdb_app, hold_frame by exact Hy. assumption.
  - intros X. apply (in_frame _ _ _ _ Hy) in X; [auto | reflexivity].
  - intros X. apply (in_frame _ _ _ _ Hy) in X; [auto | reflexivity].
  - intros X. apply in_or_app; left; auto.
  - intros X Y. apply in_or_app; left; auto.
  - intros X. apply (in_frame _ _ _ _ Hy) in X; [auto | reflexivity].
  - intros leg X. apply (in_frame _ _ _ _ Hy) in X; [auto | reflexivity].
  - intros X Y. apply in_or_app; left; auto.
Qed.

Ltac pcases :=
  repeat match goal with H : pc _ = _ |- _ => rewrite H in *; clear H end;
  cbn [holdpc active prelock preread saved ran noseg noname] in *.

Ltac inapp X := apply in_app_or in X; cbn [In app] in X;
  destruct X as [X|X]; [|repeat (destruct X as [X|X]); try contradiction; try discriminate X].

Lemma pinv_actor w tr a w' e p :
  step w a = Some (w', e) -> actor a = Some p -> pinv w tr p ->
  pinv w' (tr ++ e) p.
Proof.
  intros E Ha V. destruct V as [v1 v2 v3 v4 v5 v6 v7 v8 v9 v10 v11 v13 v12].
  destruct a; cbn [actor] in Ha; try discriminate Ha; injection Ha as ->.
  all: step_cases E.
  all: constructor; wsimp; rewrite ?updN_same; wsimp.
  all: rewrite ?holdb_app; cbn [fold_left hold_step app]; rewrite ?Nat.eqb_refl.
  all: rewrite ?app_nil_r.
  all: try assumption.
  all: repeat match goal with H : pc _ = _ |- _ => rewrite H in *; clear H end.
  all: cbn [holdpc active prelock preread saved ran noseg noname] in *.
  all: try assumption; try reflexivity; try (intros; discriminate); try (intros; congruence).
  all: try solve [intros X; inapp X; auto; try (specialize (v2 X); discriminate);
     try (specialize (v3 X); discriminate); try (specialize (v6 X); discriminate)].
  all: try solve [intros l0 X; inapp X; [apply v7 in X as [? ?] ..];
     first [discriminate | split; [reflexivity | congruence]]].
  all: try solve [intros; apply in_or_app; cbn [In app]; auto].
  all: try solve [intros; apply v10; reflexivity].
  all: try solve [intros X Y; destruct (Y (v10 eq_refl))].
  all: try solve [intros; apply v11; congruence || reflexivity].
  all: try solve [intros X; rewrite (v13 eq_refl) in X; discriminate].
  all: try solve [intros; try (apply in_or_app; left); apply v8; [reflexivity | discriminate]].
  all: try solve [intros lg X; try (inapp X);
     try (apply v7 in X; destruct X as [X1 X2]);
     first [discriminate | split; [reflexivity | congruence]]].
  all: repeat match goal with H : legacy _ = _ |- _ => rewrite H in * end;
    intros; try (apply in_or_app; left); apply v8; [reflexivity | discriminate].
Qed.

Lemma pinv0 p : pinv world0 [] p.
Proof.
  constructor; cbn; try discriminate; try reflexivity; try (intros; contradiction);
    try (intros; split; reflexivity); intros; reflexivity.
Qed.

Lemma step_not_about w a w' e p : step w a = Some (w', e) -> actor a <> Some p ->
  forall y, In y e -> about y <> Some p.
Proof.
  intros E Ha y Hy. destruct (step_about _ _ _ _ E y Hy) as [X|X]; rewrite X; congruence.
Qed.

Lemma actor_dec a p : {actor a = Some p} + {actor a <> Some p}.
Proof. decide equality. apply Nat.eq_dec. Qed.

Lemma pinv_reach w tr : reach w tr -> forall p, pinv w tr p.
Proof.
  induction 1 as [|w tr a w' e R IH E]; intros p; [apply pinv0|].
  destruct (actor_dec a p) as [Ha|Ha].
  - eapply pinv_actor; eauto.
  - eapply pinv_frame; [eapply step_frame; eauto | eapply step_not_about; eauto | apply IH].
Qed.

(** ** Files hold (prefixes of) records *)

Definition rec_prefix (d : list byte) : Prop :=
  exists pos m k, map_ok m /\ d = firstn k (enc_obj pos m).

Record finv (w : world) : Prop := mkFinv {
  fv_data : forall i, rec_prefix (fdata w i);
  fv_names : forall p, map_ok (names (procs w p))
}.

Lemma rec_prefix_nil : rec_prefix [].
Proof. exists false, [], 0. split; [apply map_ok_nil | reflexivity]. Qed.

Lemma rec_prefix_dec d s m : rec_prefix d -> dec_obj d = Some (s, m) ->
  map_ok m /\ exists pos, d = enc_obj pos m /\ s = shmVal pos.
Proof.
  intros (pos & m' & k & Hm & ->) E.
  destruct (lt_dec k (length (enc_obj pos m'))) as [L|L].
  - rewrite (dec_cut pos m' k Hm L) in E. discriminate.
  - assert (X : firstn k (enc_obj pos m') = enc_obj pos m')
      by (apply firstn_all2; apply Nat.nlt_ge; exact L).
    rewrite X in *. rewrite (dec_enc pos m' Hm) in E. injection E as <- <-.
    split; [exact Hm|]. exists pos. auto.
Qed.

Lemma map_ok_aerase m n : map_ok m -> map_ok (aerase m n).
Proof. apply map_ok_filter. Qed.

Lemma aerase_len {V} (m : list (name * V)) n : length (aerase m n) <= length m.
Proof.
  unfold aerase. induction m as [|x m IH]; cbn [filter length]; [lia|].
  match goal with |- context [if ?b then _ else _] => destruct b end;
    cbn [length]; [apply le_n_S | apply le_S]; exact IH.
Qed.

Lemma map_ok_snoc m n : map_ok m -> (N.of_nat (length n) < kNameMax)%N ->
  (N.of_nat (S (length m)) < kNameMax)%N -> map_ok (m ++ [(n, n)]).
Proof.
  intros [L F] Hn Hl. split.
  - rewrite app_length. cbn [length]. replace (length m + 1) with (S (length m)) by lia.
    exact Hl.
  - apply Forall_app. split; [exact F|]. constructor; [|constructor].
    split; exact Hn.
Qed.

(** ** removeShm and createShm *)

Record removed (w : world) (p : nat) (n : name) (w1 : world) : Prop := mkRemoved {
  rm_dir : dir w1 = dir w; rm_meta : meta w1 = meta w; rm_fdata : fdata w1 = fdata w;
  rm_flock : flock w1 = flock w; rm_ino : nextIno w1 = nextIno w;
  rm_dropf : dropf w1 = dropf w; rm_objv : objv w1 = objv w;
  rm_obj : nextObj w1 = nextObj w;
  rm_shr : shrinks (bound w) (bound w1);
  rm_oth : forall m o, m <> n -> bound w1 m o = bound w m o;
  rm_pr : forall r, r <> p -> procs w1 r = procs w r;
  rm_pc : pc (procs w1 p) = pc (procs w p);
  rm_leg : legacy (procs w1 p) = legacy (procs w p);
  rm_pos : posix (procs w1 p) = posix (procs w p);
  rm_ds : dropSeen (procs w1 p) = dropSeen (procs w p);
  rm_str : strIno (procs w1 p) = strIno (procs w p);
  rm_lck : lockIno (procs w1 p) = lockIno (procs w p);
  rm_names : names (procs w1 p) = names (procs w p) \/
             names (procs w1 p) = aerase (names (procs w p)) n;
  rm_segs : afind (segs (procs w1 p)) n = None /\
            forall m, m <> n -> afind (segs (procs w1 p)) m = afind (segs (procs w p)) m
}.

Lemma doRemove_spec w p n w1 b : doRemove w p n = (w1, b) -> removed w p n w1.
Proof.
  unfold doRemove. cbv zeta.
  assert (SO : forall bb o m o', m <> n -> unlinkId bb n o m o' = bb m o').
  { intros bb o m o' Hm. unfold unlinkId, updB.
    replace (bytes_eqb m n) with false by (symmetry; apply bytes_eqb_false, Hm).
    reflexivity. }
  destruct (afind (segs (procs w p)) n) as [[old x]|] eqn:S.
  - intros E; injection E as <- <-. constructor; wsimp; try reflexivity.
    all: rewrite ?updN_same; wsimp; try reflexivity.
    + apply shrinks_unlinkId.
    + intros m o Hm. apply SO, Hm.
    + intros r Hr. apply updN_other, Hr.
    + right; reflexivity.
    + split; [apply afind_aerase_same | intros; apply afind_aerase_other; assumption].
  - destruct (anyBound (bound w) (legacy (procs w p)) n).
    + intros E; injection E as <- <-. constructor; wsimp; try reflexivity.
      all: rewrite ?updN_same; wsimp; try reflexivity.
      * apply shrinks_unlinkAny.
      * intros m o Hm. unfold unlinkAny. destruct (legacy (procs w p)); [apply SO, Hm|].
        destruct (bound w n false); apply SO, Hm.
      * intros r Hr. apply updN_other, Hr.
      * right; reflexivity.
      * split; [exact S | reflexivity].
    + intros E; injection E as <- <-. constructor; try reflexivity.
      * apply shrinks_refl.
      * left; reflexivity.
      * split; [exact S | reflexivity].
Qed.

(** What removeShm does to the names in the kernel. *)
Lemma doRemove_bound w p n w1 b : doRemove w p n = (w1, b) ->
  (forall o, legacy (procs w p) = true -> o = true -> 
     afind (segs (procs w p)) n = None -> bound w1 n o = None) /\
  (legacy (procs w p) = false -> afind (segs (procs w p)) n = None ->
     (bound w n false = None \/ bound w n true = None) ->
     forall o, bound w1 n o = None) /\
  (forall o x, afind (segs (procs w p)) n = Some (o, x) -> bound w1 n o = None /\
     bound w1 n (negb o) = bound w n (negb o)).
Proof.
  unfold doRemove. cbv zeta. intros E.
  assert (UI : forall bb o, unlinkId bb n o n o = None).
  { intros bb o. unfold unlinkId, updB. rewrite bytes_eqb_refl, Bool.eqb_reflx.
    reflexivity. }
  assert (UO : forall bb o o', o' <> o -> unlinkId bb n o n o' = bb n o').
  { intros bb o o' Ho. unfold unlinkId, updB. rewrite bytes_eqb_refl.
    destruct o, o'; try congruence; reflexivity. }
  destruct (afind (segs (procs w p)) n) as [[old x]|] eqn:S.
  - injection E as <- <-. wsimp. repeat split; try discriminate.
    + intros. injection H as <- <-. apply UI.
    + injection H as <- <-. apply UO. destruct old; discriminate.
  - unfold anyBound in E.
    destruct (legacy (procs w p)) eqn:L.
    + split; [|split]; try discriminate. intros o _ -> _.
      destruct (bound w n true) eqn:B; injection E as <- <-; wsimp; [apply UI | exact B].
    + split; [discriminate|]. split; [|discriminate]. intros _ _ NB o.
      destruct (bound w n false) as [y|] eqn:B.
      * injection E as <- <-. wsimp. unfold unlinkAny. rewrite B.
        destruct o; [|apply UI]. rewrite UO by discriminate.
        destruct NB; [discriminate | assumption].
      * destruct (bound w n true) as [y|] eqn:B2; injection E as <- <-; wsimp.
        -- unfold unlinkAny. rewrite B. destruct o; [apply UI|].
           rewrite UO by discriminate. exact B.
        -- destruct o; assumption.
Qed.

Definition created_world (w1 : world) (p : nat) (n : name) : world :=
  let q := procs w1 p in
  let o := nextObj w1 in
  let nm := match afind (names q) n with
            | Some _ => names q
            | None => names q ++ [(n, n)]
            end in
  w_proc (w_nextObj (w_objv (w_bound w1 (updB (bound w1) n (legacy q) (Some o)))
            (updN (objv w1) o 0)) (S o))
         p (set_names nm (set_segs ((n, (legacy q, o)) :: segs q) q)).

Lemma create_inv w p n w' e : step w (ACreate p n) = Some (w', e) ->
  pc (procs w p) = PRun /\ (N.of_nat (length n) < kNameMax)%N /\
  (N.of_nat (S (length (names (procs w p)))) < kNameMax)%N /\
  exists w1 b, doRemove w p n = (w1, b) /\
   ((w' = w1 /\ e = []) \/
    (bound w1 n (legacy (procs w1 p)) = None /\ w' = created_world w1 p n /\
     e = [ECreated p n])).
Proof.
  cbn [step]. destruct (pc (procs w p)) eqn:P; try discriminate.
  destruct ((N.of_nat (length n) <? kNameMax)%N
             && (N.of_nat (S (length (names (procs w p)))) <? kNameMax)%N) eqn:B;
    [|discriminate].
  apply andb_true_iff in B as [B1 B2]. apply N.ltb_lt in B1, B2.
  destruct (doRemove w p n) as [w1 b] eqn:D.
  intros E. repeat split; try assumption. exists w1, b. split; [reflexivity|].
  destruct (bound w1 n (legacy (procs w1 p))) eqn:X.
  - injection E as <- <-. left. auto.
  - injection E as <- <-. right. auto.
Qed.

Lemma remove_inv w p n w' e : step w (ARemove p n) = Some (w', e) ->
  pc (procs w p) = PRun /\ exists b, doRemove w p n = (w', b) /\
  e = (if b then [ERemoved p n] else []).
Proof.
  cbn [step]. destruct (pc (procs w p)) eqn:P; try discriminate.
  destruct (doRemove w p n) as [w1 b] eqn:D. intros E; injection E as <- <-.
  split; [reflexivity|]. exists b. auto.
Qed.

Lemma finv_removed w p n w1 : removed w p n w1 -> finv w -> finv w1.
Proof.
  intros R [fd fn]. constructor.
  - intros i. rewrite (rm_fdata _ _ _ _ R). apply fd.
  - intros r. destruct (Nat.eq_dec r p) as [->|Hne].
    + destruct (rm_names _ _ _ _ R) as [->| ->]; [|apply map_ok_aerase]; apply fn.
    + rewrite (rm_pr _ _ _ _ R r Hne). apply fn.
Qed.

Lemma finv_step w a w' e : step w a = Some (w', e) -> finv w -> finv w'.
Proof.
  intros E F. destruct a.
  4:{ apply create_inv in E as (P & L1 & L2 & w1 & b & D & X).
      apply doRemove_spec in D. pose proof (finv_removed _ _ _ _ D F) as [fd fn].
      destruct X as [[-> ->] | (B & -> & ->)]; [constructor; assumption|].
      constructor; unfold created_world; wsimp; [exact fd|].
      intros r. destruct (Nat.eq_dec r p) as [->|Hne];
        [rewrite updN_same | rewrite updN_other by exact Hne; apply fn]. wsimp.
      destruct (afind (names (procs w1 p)) n); [apply fn|].
      apply map_ok_snoc; [apply fn | exact L1 |].
      assert (X : length (names (procs w1 p)) <= length (names (procs w p))).
      { destruct (rm_names _ _ _ _ D) as [->| ->]; [apply le_n | apply aerase_len]. }
      unfold kNameMax in *. clear - X L2. lia. }
  4:{ apply remove_inv in E as (P & b & D & ->).
      apply doRemove_spec in D. exact (finv_removed _ _ _ _ D F). }
  all: destruct F as [fd fn]; step_cases E.
  all: constructor; wsimp; try assumption.
  all: try solve [intros i; unfold updN;
    destruct (_ =? _); [first [apply rec_prefix_nil | idtac] | apply fd]].
  all: try solve [intros p9; destruct (Nat.eq_dec p9 p) as [->|Hne];
    [rewrite ?updN_same | rewrite ?updN_other by exact Hne; apply fn]; wsimp;
    first [apply fn | apply map_ok_nil | apply map_ok_aerase; apply fn ]].
  - intros p9. destruct (Nat.eq_dec p9 p) as [->|Hne];
      [rewrite ?updN_same | rewrite ?updN_other by exact Hne; apply fn]. wsimp.
    pose proof (fd n) as X. rewrite Heql in X.
    eapply rec_prefix_dec; eassumption.
  - intros i. unfold updN. destruct (i =? _); [|apply fd].
    exists (posix (procs w p)), (attached (procs w p)), (length (enc_obj (posix (procs w p)) (attached (procs w p)))).
    split; [apply map_ok_filter, fn | rewrite firstn_all; reflexivity].
  - intros i. unfold updN. destruct (i =? _); [|apply fd].
    exists (posix (procs w p)), (attached (procs w p)), k.
    split; [apply map_ok_filter, fn | reflexivity].
Qed.

Lemma finv_reach w tr : reach w tr -> finv w.
Proof.
  induction 1 as [|w tr a w' e R IH E].
  - constructor; intros; cbn; [apply rec_prefix_nil | apply map_ok_nil].
  - eapply finv_step; eauto.
Qed.
